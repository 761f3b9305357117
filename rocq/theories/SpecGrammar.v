(** Specification: the format-string grammar, as a relation between syntax trees and their
    spellings.  It follows the documentation (README.md:96-103 extending the std::fmt syntax):

      format      := piece*
      piece       := text | '{{' | '}}' | '{' [argument] [':' format_spec] '}'
      argument    := integer | identifier
      format_spec := [[' ']align][sign]['#']['0'][width]['.' precision][attributes][type]
      width, precision := argument '$' | integer
      attributes  := '(' attribute (',' attribute)* ')'
      attribute   := 'fg=' color | 'bg=' color | 'normal' | 'bold' | 'faint'
      type        := '?' | 'x?' | 'X?' | 'o' | 'x' | 'X' | 'p' | 'b' | 'e' | 'E' | 's'

    with these reading rules: text runs are as long as possible; a leading '0' in front of the
    width is the zero flag; an empty format_spec must not be followed by an alignment character
    after the closing brace (it would be read as fill and alignment); integers must fit
    64 bits.  Places where this differs from the documented grammar are the subject of C44 and
    C51. *)
From Verif Require Import Base Style Parse.

(** Unicode identifier tables that agree with Unicode on ASCII. *)
Definition ascii_letter (c : char) : bool :=
  ((65 <=? c) && (c <=? 90) || (97 <=? c) && (c <=? 122))%N.
Definition ascii_digit (c : char) : bool := ((48 <=? c) && (c <=? 57))%N.
Definition xid_ok (xid_start xid_continue : char -> bool) : Prop :=
  (forall c, (c < 128)%N -> xid_start c = ascii_letter c) /\
  (forall c, (c < 128)%N -> xid_continue c = ascii_letter c || ascii_digit c || (c =? 95)%N).

(** Decimal numbers: most significant digit first. *)
Inductive decimal : str -> N -> Prop :=
  | dec_one d : ascii_digit d = true -> decimal [d] (d - 48)
  | dec_more ds n d : decimal ds n -> ascii_digit d = true -> decimal (ds ++ [d]) (10 * n + (d - 48)).
Definition integer (n : N) (s : str) : Prop := decimal s n /\ (n < 2 ^ 64)%N.

(** Attribute lists (a list of settings, in order). *)
Inductive attribute := AFg (c : color) | ABg (c : color) | AIntensity (i : intensity).

Inductive color_name : color -> str -> Prop :=
  | cn_black : color_name Black (lit "black")
  | cn_red : color_name Red (lit "red")
  | cn_green : color_name Green (lit "green")
  | cn_yellow : color_name Yellow (lit "yellow")
  | cn_blue : color_name Blue (lit "blue")
  | cn_magenta : color_name Magenta (lit "magenta")
  | cn_cyan : color_name Cyan (lit "cyan")
  | cn_white : color_name White (lit "white")
  | cn_default : color_name ColorDefault (lit "default").

Inductive attr_spelled : attribute -> str -> Prop :=
  | at_fg c s : color_name c s -> attr_spelled (AFg c) (lit "fg=" ++ s)
  | at_bg c s : color_name c s -> attr_spelled (ABg c) (lit "bg=" ++ s)
  | at_normal : attr_spelled (AIntensity Normal) (lit "normal")
  | at_bold : attr_spelled (AIntensity Bold) (lit "bold")
  | at_faint : attr_spelled (AIntensity Faint) (lit "faint").

Inductive attrs_spelled : list attribute -> str -> Prop :=
  | ats_one a s : attr_spelled a s -> attrs_spelled [a] s
  | ats_more a s l t : attr_spelled a s -> attrs_spelled l t ->
      attrs_spelled (a :: l) (s ++ lit "," ++ t).

(** What an attribute list sets: the last setting of each kind; the parser does not keep
    settings equal to the default style (see C45). *)
Definition last_fg (l : list attribute) : option color :=
  fold_left (fun acc a => match a with AFg c => Some c | _ => acc end) l None.
Definition last_bg (l : list attribute) : option color :=
  fold_left (fun acc a => match a with ABg c => Some c | _ => acc end) l None.
Definition last_intensity (l : list attribute) : option intensity :=
  fold_left (fun acc a => match a with AIntensity i => Some i | _ => acc end) l None.
Definition unless_default_color (o : option color) : option color :=
  match o with Some ColorDefault => None | o => o end.
Definition unless_normal (o : option intensity) : option intensity :=
  match o with Some Normal => None | o => o end.
Definition kept_settings (l : list attribute) : style_diff :=
  mk_diff (unless_default_color (last_fg l)) (unless_default_color (last_bg l))
    (unless_normal (last_intensity l)).

Inductive align_spelled : option p_align -> str -> Prop :=
  | al_none : align_spelled None []
  | al_left : align_spelled (Some PLeft) (lit "<")
  | al_center : align_spelled (Some PCenter) (lit "^")
  | al_right : align_spelled (Some PRight) (lit ">")
  | al_fill a s : align_spelled (Some a) s -> length s = 1 ->
      align_spelled (Some a) (lit " " ++ s).

Inductive sign_spelled : option p_sign -> str -> Prop :=
  | sg_none : sign_spelled None []
  | sg_plus : sign_spelled (Some PPlus) (lit "+")
  | sg_minus : sign_spelled (Some PMinus) (lit "-").

Definition flag_spelled (ch : string) (b : bool) (s : str) : Prop :=
  s = if b then lit ch else [].

Inductive type_spelled : option p_debug_hex -> format_trait -> str -> Prop :=
  | ty_display : type_spelled None FDisplay []
  | ty_debug : type_spelled None FDebug (lit "?")
  | ty_debug_lower : type_spelled (Some PLower) FDebug (lit "x?")
  | ty_debug_upper : type_spelled (Some PUpper) FDebug (lit "X?")
  | ty_octal : type_spelled None FOctal (lit "o")
  | ty_lower_hex : type_spelled None FLowerHex (lit "x")
  | ty_upper_hex : type_spelled None FUpperHex (lit "X")
  | ty_pointer : type_spelled None FPointer (lit "p")
  | ty_binary : type_spelled None FBinary (lit "b")
  | ty_lower_exp : type_spelled None FLowerExp (lit "e")
  | ty_upper_exp : type_spelled None FUpperExp (lit "E")
  | ty_stylish : type_spelled None FStylish (lit "s").

(** [attributes]: absent, or a parenthesised list. *)
Inductive style_spelled : style_diff -> str -> Prop :=
  | st_none : style_spelled (mk_diff None None None) []
  | st_some l s : attrs_spelled l s -> style_spelled (kept_settings l) (lit "(" ++ s ++ lit ")").

Section Xid.
Variable xid_start xid_continue : char -> bool.

Inductive ident : str -> Prop :=
  | ident_intro c r : (xid_start c = true \/ c = 95%N) ->
      Forall (fun c => xid_continue c = true) r -> ident (c :: r).

Inductive arg_spelled : arg_ref -> str -> Prop :=
  | ar_pos n s : integer n s -> arg_spelled (Positional n) s
  | ar_named s : ident s -> arg_spelled (Named s) s.

Inductive count_spelled : count -> str -> Prop :=
  | co_param r s : arg_spelled r s -> count_spelled (CParam r) (s ++ lit "$")
  | co_int n s : integer n s -> count_spelled (CInt n) s.

Inductive width_spelled : option count -> str -> Prop :=
  | wd_none : width_spelled None []
  | wd_some c s : count_spelled c s -> width_spelled (Some c) s.

Inductive precision_spelled : option count -> str -> Prop :=
  | pr_none : precision_spelled None []
  | pr_some c s : count_spelled c s -> precision_spelled (Some c) (lit "." ++ s).

Inductive spec_spelled : format_spec -> str -> Prop :=
  | spec_intro al sg alt zero w p hex st tr s1 s2 s3 s4 s5 s6 s7 s8 :
      align_spelled al s1 -> sign_spelled sg s2 -> flag_spelled "#" alt s3 ->
      flag_spelled "0" zero s4 -> width_spelled w s5 -> precision_spelled p s6 ->
      style_spelled st s7 -> type_spelled hex tr s8 ->
      (zero = false -> hd_error s5 <> Some 48%N) ->
      spec_spelled (mk_spec (mk_pfargs al sg alt zero w p hex) st tr)
        (s1 ++ s2 ++ s3 ++ s4 ++ s5 ++ s6 ++ s7 ++ s8).

(** The inside of a placeholder: argument and format_spec.  The flag says that there is a
    format_spec and it is empty. *)
Inductive placeholder_spelled : format_arg -> bool -> str -> Prop :=
  | ph_intro arg s1 spec empty s2 :
      (arg = None /\ s1 = [] \/ exists r, arg = Some r /\ arg_spelled r s1) ->
      (spec = mk_spec (mk_pfargs None None false false None None None) (mk_diff None None None)
                FDisplay /\ s2 = [] /\ empty = false
       \/ exists s, spec_spelled spec s /\ s2 = lit ":" ++ s /\ empty = is_empty s) ->
      placeholder_spelled (mk_farg arg spec) empty (s1 ++ s2).

Definition is_align_char (c : char) : bool := ((c =? 60) || (c =? 94) || (c =? 62))%N.
Definition starts_with_align (s : str) : bool :=
  match s with c :: _ => is_align_char c | [] => false end.
Definition is_brace (c : char) : bool := ((c =? 123) || (c =? 125))%N.

(** A whole format string.  The flag says that the previous piece was text (so that text runs
    are maximal). *)
Inductive spells : bool -> list piece -> str -> Prop :=
  | sp_nil b : spells b [] []
  | sp_text t ps s : t <> [] -> Forall (fun c => is_brace c = false) t ->
      spells true ps s -> spells false (Lit t :: ps) (t ++ s)
  | sp_open b ps s : spells false ps s -> spells b (Lit (lit "{") :: ps) (lit "{{" ++ s)
  | sp_close b ps s : spells false ps s -> spells b (Lit (lit "}") :: ps) (lit "}}" ++ s)
  | sp_arg b a empty p ps s : placeholder_spelled a empty p ->
      (empty = true -> starts_with_align s = false) ->
      spells false ps s -> spells b (Arg a :: ps) (lit "{" ++ p ++ lit "}" ++ s).

Definition format_string (ps : list piece) (s : str) : Prop := spells false ps s.
End Xid.

(** * What attributes are documented to do (README.md:70-87)

    Setting the attributes one after the other on the style in force. *)
Definition set_attribute (st : style) (a : attribute) : style :=
  match a with
  | AFg c => mk_style c (background st) (intens st)
  | ABg c => mk_style (foreground st) c (intens st)
  | AIntensity i => mk_style (foreground st) (background st) i
  end.
Definition set_attributes (l : list attribute) (st : style) : style :=
  fold_left set_attribute l st.

(** The documented attribute list grammar (README.md:100): possibly empty, possibly with a
    trailing comma. *)
Inductive documented_attributes : list attribute -> str -> Prop :=
  | da_empty : documented_attributes [] []
  | da_list l s : attrs_spelled l s -> documented_attributes l s
  | da_trailing l s : attrs_spelled l s -> documented_attributes l (s ++ lit ",").
