(** Model of macros/src/format.rs, parser by parser. *)
From Verif Require Import Base Style Nom.

(** macros/src/format.rs:83-88, 100-104, 112-116: the macro crate's own copies of the
    enums. *)
Inductive p_align := PLeft | PCenter | PRight.
Inductive p_sign := PPlus | PMinus.
Inductive p_debug_hex := PLower | PUpper.

(** macros/src/format.rs:129-141 [enum FormatTrait]. *)
Inductive format_trait :=
  | FDisplay | FDebug | FOctal | FLowerHex | FUpperHex | FPointer | FBinary | FLowerExp
  | FUpperExp | FStylish.

(** macros/src/format.rs:223-227 [enum FormatArgRef]. *)
Inductive arg_ref := Positional (n : N) | Named (name : str).

(** macros/src/format.rs:149-153 [enum Count]. *)
Inductive count := CParam (r : arg_ref) | CInt (n : N).

(** macros/src/format.rs:118-127 [struct FormatterArgs] (of the macro crate). *)
Record p_fargs := mk_pfargs {
  pa_align : option p_align;
  pa_sign : option p_sign;
  pa_alternate : bool;
  pa_zero : bool;
  pa_width : option count;
  pa_precision : option count;
  pa_debug_hex : option p_debug_hex
}.
Definition pfargs_default : p_fargs := mk_pfargs None None false false None None None.

(** macros/src/format.rs:164-169 [struct FormatSpec]; derived [Default] with
    [FormatTrait::Display] (lines 143-147). *)
Record format_spec := mk_spec {
  fs_args : p_fargs;
  fs_style : style_diff;
  fs_trait : format_trait
}.
Definition spec_default : format_spec := mk_spec pfargs_default diff_default FDisplay.

(** macros/src/format.rs:238-242 [struct FormatArg]. *)
Record format_arg := mk_farg { fa_arg : option arg_ref; fa_spec : format_spec }.

(** macros/src/format.rs:258-263 [enum Piece]. *)
Inductive piece := Lit (s : str) | Arg (a : format_arg).

(** [usize::MAX] on the 64-bit targets the crate documents (docs.rs target). *)
Definition usize_max : N := 0xFFFFFFFFFFFFFFFF.

(** [usize::from_str] on a non-empty string of ASCII digits: fails on overflow. *)
Definition dec_value (ds : str) : N := fold_left (fun acc c => (acc * 10 + (c - 48))%N) ds 0%N.
Definition usize_from_str (ds : str) : option N :=
  let v := dec_value ds in if (v <=? usize_max)%N then Some v else None.

(** macros/src/format.rs:25-39 [Parse for Color]. *)
Definition parse_color : parser color :=
  alt [ value Black (tag (lit "black"));
        value Red (tag (lit "red"));
        value Green (tag (lit "green"));
        value Yellow (tag (lit "yellow"));
        value Blue (tag (lit "blue"));
        value Magenta (tag (lit "magenta"));
        value Cyan (tag (lit "cyan"));
        value White (tag (lit "white"));
        value ColorDefault (tag (lit "default")) ].

(** macros/src/format.rs:41-49 [Parse for Intensity]. *)
Definition parse_intensity : parser intensity :=
  alt [ value Normal (tag (lit "normal"));
        value Bold (tag (lit "bold"));
        value Faint (tag (lit "faint")) ].

(** The three kinds of [Box<dyn Restyle>] the parser builds (macros/src/format.rs:51-66). *)
Inductive restyle_box :=
  | RForeground (f : foreground_t)
  | RBackground (b : background_t)
  | RIntensity (i : intensity).
Definition Restyle_dyn : Restyle restyle_box :=
  fun self st =>
    match self with
    | RForeground f => Restyle_Foreground f st
    | RBackground b => Restyle_Background b st
    | RIntensity i => Restyle_Intensity i st
    end.

(** macros/src/format.rs:51-66 [Parse for Box<dyn Restyle>]. *)
Definition parse_restyle : parser restyle_box :=
  alt [ pmap (preceded (tag (lit "fg")) (cut (preceded (tag (lit "=")) parse_color)))
          (fun c => RForeground (Foreground c));
        pmap (preceded (tag (lit "bg")) (cut (preceded (tag (lit "=")) parse_color)))
          (fun c => RBackground (Background c));
        pmap parse_intensity RIntensity ].

(** macros/src/format.rs:74-78: what is done with the list of restyles. *)
Definition diff_of_restyles (restyles : list restyle_box) : style_diff :=
  diff_from
    (style_with (Restyle_slice (Restyle_box Restyle_dyn)) style_default restyles)
    style_default.

(** macros/src/format.rs:68-81 [Parse for StyleDiff]. *)
Definition parse_style_diff : parser style_diff :=
  pmap (separated_list0 (tag (lit ",")) (cut parse_restyle)) diff_of_restyles.

(** macros/src/format.rs:90-98 [Parse for Align]. *)
Definition parse_align : parser p_align :=
  alt [ value PLeft (tag (lit "<")); value PCenter (tag (lit "^"));
        value PRight (tag (lit ">")) ].

(** macros/src/format.rs:106-110 [Parse for Sign]. *)
Definition parse_sign : parser p_sign :=
  alt [ value PPlus (tag (lit "+")); value PMinus (tag (lit "-")) ].

(** macros/src/format.rs:189-201, the trait selector. *)
Definition parse_trait : parser (option p_debug_hex * format_trait) :=
  alt [ value (None, FDebug) (tag (lit "?"));
        value (Some PLower, FDebug) (tag (lit "x?"));
        value (Some PUpper, FDebug) (tag (lit "X?"));
        value (None, FOctal) (tag (lit "o"));
        value (None, FLowerHex) (tag (lit "x"));
        value (None, FUpperHex) (tag (lit "X"));
        value (None, FPointer) (tag (lit "p"));
        value (None, FBinary) (tag (lit "b"));
        value (None, FLowerExp) (tag (lit "e"));
        value (None, FUpperExp) (tag (lit "E"));
        value (None, FStylish) (tag (lit "s")) ].

(** [Option::unwrap_or_default] for [bool]. *)
Definition or_false (o : option bool) : bool := match o with Some b => b | None => false end.

Section Xid.
(** [unicode_ident::is_xid_start] / [is_xid_continue] (third-party tables): arbitrary
    predicates here, so every theorem holds for the real tables.  Where a theorem needs to
    know something about them it says so ([xid_ok] in [SpecGrammar]). *)
Variable xid_start xid_continue : char -> bool.

(** macros/src/format.rs:14-19 [identifier]. *)
Definition identifier : parser str :=
  recognize (ppair (alt [satisfy xid_start; pchar 95%N]) (many0 (satisfy xid_continue))).

(** macros/src/format.rs:229-236 [Parse for FormatArgRef]. *)
Definition parse_arg_ref : parser arg_ref :=
  alt [ pmap (map_res digit1 usize_from_str) Positional; pmap identifier Named ].

(** macros/src/format.rs:155-162 [Parse for Count]. *)
Definition parse_count : parser count :=
  alt [ pmap (terminated parse_arg_ref (tag (lit "$"))) CParam;
        pmap (map_res digit1 usize_from_str) CInt ].

(** macros/src/format.rs:173-182: the optional fill and alignment; a fill other than a space
    hits [todo!()] (line 179), a panic. *)
Definition parse_fill_align : parser (option p_align) :=
  fun i =>
    match opt (alt [ ppair anychar parse_align;
                     pmap parse_align (fun a => (32%N, a)) ]) i with
    | POk rest (Some (fill, a)) => if N.eqb fill 32 then POk rest (Some a) else PPanic
    | POk rest None => POk rest None
    | PErr => PErr
    | PFail => PFail
    | PPanic => PPanic
    end.

(** macros/src/format.rs:171-221 [Parse for FormatSpec]. *)
Definition parse_format_spec : parser format_spec :=
  pbind parse_fill_align (fun al =>
  pbind (opt parse_sign) (fun sg =>
  pbind (opt (value true (tag (lit "#")))) (fun alternate =>
  pbind (opt (value true (tag (lit "0")))) (fun zero =>
  pbind (opt parse_count) (fun width =>
  pbind (opt (preceded (tag (lit ".")) parse_count)) (fun precision =>
  pbind (opt (delimited (tag (lit "(")) (cut parse_style_diff) (tag (lit ")")))) (fun st =>
  pbind (opt parse_trait) (fun ht =>
  pret (mk_spec
          (mk_pfargs al sg (or_false alternate) (or_false zero) width precision
             (match ht with Some (h, _) => h | None => None end))
          (match st with Some d => d | None => diff_default end)
          (match ht with Some (_, t) => t | None => FDisplay end)))))))))).

(** macros/src/format.rs:244-256 [Parse for FormatArg]. *)
Definition parse_format_arg : parser format_arg :=
  pbind (opt parse_arg_ref) (fun arg =>
  pbind (opt (preceded (tag (lit ":")) parse_format_spec)) (fun spec =>
  pret (mk_farg arg (match spec with Some s => s | None => spec_default end)))).

(** macros/src/format.rs:266-272 [Piece::parse_lit]. *)
Definition parse_lit : parser piece :=
  alt [ pmap (recognize (many1 (none_of (lit "{}")))) Lit;
        value (Lit (lit "{")) (tag (lit "{{"));
        value (Lit (lit "}")) (tag (lit "}}")) ].

(** macros/src/format.rs:274-279 [Piece::parse_arg]. *)
Definition parse_arg : parser piece :=
  pmap (delimited (tag (lit "{")) (cut parse_format_arg) (tag (lit "}"))) Arg.

(** macros/src/format.rs:282-286 [Parse for Piece]. *)
Definition parse_piece : parser piece := alt [parse_lit; parse_arg].

(** macros/src/format.rs:293-297 [Parse for Format]. *)
Definition parse_format : parser (list piece) := all_consuming (many0 parse_piece).

End Xid.
