(** Specification: what [std::format!] accepts and returns, independent of stylish
    (std::fmt documentation, section Syntax, and rustc_parse_format for its reading rules):

      format_string := text [ maybe_format text ] *
      maybe_format  := '{' '{' | '}' '}' | format
      format        := '{' [ argument ] [ ':' format_spec ] [ ws ] * '}'
      argument      := integer | identifier
      format_spec   := [[fill]align][sign]['#']['0'][width]['.' precision]type
      fill          := character
      width         := count
      precision     := count | '*'
      count         := parameter | integer
      parameter     := argument '$'
      type          := '' | '?' | 'x?' | 'X?' | 'o' | 'x' | 'X' | 'p' | 'b' | 'e' | 'E'

    Reading rules: a character followed by an alignment is a fill, whatever it is; a '0' in
    front of the width is the zero flag unless a dollar sign follows ('0$' is a width).
    Integers are taken to fit 64 bits (newer compilers allow fewer). *)
From Verif Require Import Base Style Fmt SpecStd Parse Codegen SpecGrammar SpecMeaning.

Inductive std_count := Literal (n : N) | FromArg (r : arg_ref) | NextArg.

Record std_placeholder := mk_sph {
  sph_arg : option arg_ref;
  sph_fill : option char;
  sph_align : option align_t;
  sph_sign : option sign_t;
  sph_alternate : bool;
  sph_zero : bool;
  sph_width : option std_count;
  sph_precision : option std_count;
  sph_hex : option debug_hex_t;
  sph_trait : std_trait;
  sph_space : bool   (* there is white space before the closing brace *)
}.
Inductive std_piece := SText (s : str) | SPlace (p : std_placeholder).

(** * Spelling *)

(** Unicode White_Space. *)
Definition white_space (c : char) : bool :=
  ((9 <=? c) && (c <=? 13) || (c =? 32) || (c =? 133) || (c =? 160) || (c =? 5760)
   || (8192 <=? c) && (c <=? 8202) || (c =? 8232) || (c =? 8233) || (c =? 8239) || (c =? 8287)
   || (c =? 12288))%N.

Inductive std_align : option align_t -> str -> Prop :=
  | sal_none : std_align None []
  | sal_left : std_align (Some ALeft) (lit "<")
  | sal_center : std_align (Some ACenter) (lit "^")
  | sal_right : std_align (Some ARight) (lit ">").
Inductive std_fill_align : option char -> option align_t -> str -> Prop :=
  | sfa_none al s : std_align al s -> std_fill_align None al s
  | sfa_fill c a s : std_align (Some a) s -> std_fill_align (Some c) (Some a) (c :: s).
Inductive std_sign : option sign_t -> str -> Prop :=
  | ssg_none : std_sign None []
  | ssg_plus : std_sign (Some SPlus) (lit "+")
  | ssg_minus : std_sign (Some SMinus) (lit "-").
Inductive std_type : option debug_hex_t -> std_trait -> str -> Prop :=
  | sty_display : std_type None TDisplay []
  | sty_debug : std_type None TDebug (lit "?")
  | sty_debug_lower : std_type (Some HexLower) TDebug (lit "x?")
  | sty_debug_upper : std_type (Some HexUpper) TDebug (lit "X?")
  | sty_octal : std_type None TOctal (lit "o")
  | sty_lower_hex : std_type None TLowerHex (lit "x")
  | sty_upper_hex : std_type None TUpperHex (lit "X")
  | sty_pointer : std_type None TPointer (lit "p")
  | sty_binary : std_type None TBinary (lit "b")
  | sty_lower_exp : std_type None TLowerExp (lit "e")
  | sty_upper_exp : std_type None TUpperExp (lit "E").

(** The character after the first one is an alignment. *)
Definition second_is_align (s : str) : bool :=
  match s with _ :: c :: _ => is_align_char c | _ => false end.

Section Xid.
Variable xid_start xid_continue : char -> bool.

Inductive std_counts : std_count -> str -> Prop :=
  | sct_literal n s : integer n s -> std_counts (Literal n) s
  | sct_param r s : arg_spelled xid_start xid_continue r s -> std_counts (FromArg r) (s ++ lit "$").
Inductive std_width : option std_count -> str -> Prop :=
  | swd_none : std_width None []
  | swd_some c s : std_counts c s -> std_width (Some c) s.
Inductive std_precision : option std_count -> str -> Prop :=
  | spr_none : std_precision None []
  | spr_some c s : std_counts c s -> std_precision (Some c) (lit "." ++ s)
  | spr_star : std_precision (Some NextArg) (lit ".*").

(** [std_content p s rest]: [s] spells what is between the braces of placeholder [p], where
    [rest] follows the closing brace. *)
Inductive std_content : std_placeholder -> str -> str -> Prop :=
  | scn_intro arg fill al sg alt zero w p hex tr s0 s1 s2 s3 s4 s5 s6 s7 colon ws rest :
      (arg = None /\ s0 = [] \/ exists r, arg = Some r /\ arg_spelled xid_start xid_continue r s0) ->
      std_fill_align fill al s1 -> std_sign sg s2 -> flag_spelled "#" alt s3 ->
      flag_spelled "0" zero s4 -> std_width w s5 -> std_precision p s6 -> std_type hex tr s7 ->
      (* the colon is there if anything follows it *)
      (colon = lit ":" \/ colon = [] /\ s1 ++ s2 ++ s3 ++ s4 ++ s5 ++ s6 ++ s7 = []) ->
      Forall (fun c => white_space c = true) ws ->
      (* reading rules *)
      (colon = lit ":" -> fill = None ->
       second_is_align (s1 ++ s2 ++ s3 ++ s4 ++ s5 ++ s6 ++ s7 ++ ws ++ lit "}" ++ rest) = false) ->
      (zero = false -> hd_error s5 = Some 48%N -> s5 = lit "0$") ->
      std_content (mk_sph arg fill al sg alt zero w p hex tr (negb (is_empty ws)))
        (s0 ++ colon ++ (s1 ++ s2 ++ s3 ++ s4 ++ s5 ++ s6 ++ s7) ++ ws) rest.

(** A whole format string (the flag says that the previous piece was text). *)
Inductive std_spells : bool -> list std_piece -> str -> Prop :=
  | ssp_nil b : std_spells b [] []
  | ssp_text t ps s : t <> [] -> Forall (fun c => is_brace c = false) t ->
      std_spells true ps s -> std_spells false (SText t :: ps) (t ++ s)
  | ssp_open b ps s : std_spells false ps s -> std_spells b (SText (lit "{") :: ps) (lit "{{" ++ s)
  | ssp_close b ps s : std_spells false ps s -> std_spells b (SText (lit "}") :: ps) (lit "}}" ++ s)
  | ssp_place b p c ps s : std_content p c s ->
      std_spells false ps s -> std_spells b (SPlace p :: ps) (lit "{" ++ c ++ lit "}" ++ s).
Definition std_format_string (ps : list std_piece) (s : str) : Prop := std_spells false ps s.
End Xid.

(** No white space character can be part of an identifier (a fact of Unicode). *)
Definition xid_no_space (xid_start xid_continue : char -> bool) : Prop :=
  forall c, white_space c = true -> xid_start c = false /\ xid_continue c = false.

(** * What stylish does not support *)
Definition literal_std (c : option std_count) : Prop :=
  match c with None | Some (Literal _) => True | _ => False end.
(** No fill but a space, no width or precision from an argument, no white space before the
    closing brace. *)
Definition supported (p : std_piece) : Prop :=
  match p with
  | SText _ => True
  | SPlace p => (sph_fill p = None \/ sph_fill p = Some 32%N) /\
                literal_std (sph_width p) /\ literal_std (sph_precision p) /\ sph_space p = false
  end.

(** * Which arguments are accepted

    For format strings without counts from arguments.  In std a position counts the named
    arguments too, after the positional ones; captured variables include [self]. *)
Definition std_asked (ps : list std_piece) : list (option arg_ref) :=
  flat_map (fun p => match p with SText _ => [] | SPlace p => [sph_arg p] end) ps.
Definition positions_asked (ps : list std_piece) (i : nat) : Prop :=
  i < bare_count (std_asked ps) \/ In (Some (Positional (N.of_nat i))) (std_asked ps).

Record std_accepts (ps : list std_piece) (npos : nat) (names : list str) : Prop := mk_saccepts {
  (* every placeholder has an argument *)
  sac_positions : forall i, positions_asked ps i -> i < npos + length names;
  sac_captured : forall n, In (Some (Named n)) (std_asked ps) ->
    In n names \/ ~ In n [lit "_"; lit "Self"; lit "super"; lit "crate"];
  (* every argument is used *)
  sac_used_pos : forall i, i < npos -> positions_asked ps i;
  sac_used_named : forall j n, nth_error names j = Some n ->
    positions_asked ps (npos + j) \/ In (Some (Named n)) (std_asked ps);
  (* names are distinct *)
  sac_distinct : NoDup names
}.

(** Two more things stylish does not support: a named argument used by position, and
    capturing [self]. *)
Definition by_position (ps : list std_piece) (npos : nat) : Prop :=
  exists i, positions_asked ps i /\ npos <= i.
Definition captures_self (ps : list std_piece) (names : list str) : Prop :=
  In (Some (Named (lit "self"))) (std_asked ps) /\ ~ In (lit "self") names.

(** * What it returns *)
Definition literal_value (c : option std_count) : option N :=
  match c with Some (Literal n) => Some n | _ => None end.
Definition std_spelled_flags (p : std_placeholder) : std_flags :=
  mk_sflags (match sph_fill p with Some c => c | None => 32%N end) (sph_align p) (sph_sign p)
    (sph_alternate p) (sph_zero p) (literal_value (sph_width p)) (literal_value (sph_precision p))
    (sph_hex p).

(** The code of a value writes its text and returns Ok; otherwise [std::format!] panics. *)
Definition then_text (code : sprog) (r : comp str) : comp str :=
  match std_outcome code with
  | Returned Ok => match r with
                   | Value t => Value (concat (std_events code) ++ t)
                   | Crash c => Crash c
                   end
  | Returned Err => Crash Panic
  | Crashed c => Crash c
  end.

Section Values.
Variables (pos : list value_t) (named : list (str * value_t)) (scope : str -> value_t).
(** [std_formats n ps r]: after [n] placeholders without an argument, formatting the pieces
    returns the text (or panics) [r]. *)
Inductive std_formats : nat -> list std_piece -> comp str -> Prop :=
  | sfm_nil n : std_formats n [] (Value [])
  | sfm_text n s ps r : std_formats n ps r ->
      std_formats n (SText s :: ps) (then_text (SEmit s SRet) r)
  | sfm_place n p v ps r :
      uses (pos ++ map snd named) named scope n (sph_arg p) v ->
      std_formats (match sph_arg p with None => S n | Some _ => n end) ps r ->
      std_formats n (SPlace p :: ps)
        (then_text (v_std v (sph_trait p) (std_spelled_flags p)) r).
End Values.
