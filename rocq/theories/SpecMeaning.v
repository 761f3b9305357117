(** Specification: what a format string with arguments means, independent of the generated code:
    which argument each placeholder uses (as in std::fmt), which calls are accepted, and what
    is written. *)
From Verif Require Import Base Style Fmt SpecStd StdCompat Parse Codegen SpecText.

(** * Which arguments the placeholders ask for *)
Definition placeholder_arg (p : piece) : list (option arg_ref) :=
  match p with Lit _ => [] | Arg a => [fa_arg a] end.
(** All placeholders, in order. *)
Definition asked (ps : list piece) : list (option arg_ref) := flat_map placeholder_arg ps.
(** The number of placeholders without an explicit argument. *)
Fixpoint bare_count (l : list (option arg_ref)) : nat :=
  match l with
  | [] => 0
  | None :: r => S (bare_count r)
  | Some _ :: r => bare_count r
  end.

(** * When a call is accepted *)
Definition literal_count (c : option count) : Prop :=
  match c with Some (CParam _) => False | _ => True end.
Definition literal_counts (p : piece) : Prop :=
  match p with
  | Lit _ => True
  | Arg a => literal_count (pa_width (fs_args (fa_spec a))) /\
             literal_count (pa_precision (fs_args (fa_spec a)))
  end.
(** Names that cannot be captured variables (they cannot be raw identifiers). *)
Definition keyword_name (n : str) : Prop :=
  In n [lit "_"; lit "self"; lit "Self"; lit "super"; lit "crate"].

(** A call with [npos] positional arguments and named arguments [names] is accepted: *)
Record accepted (ps : list piece) (npos : nat) (names : list str) : Prop := mk_accepted {
  (* there is an argument for every placeholder *)
  acc_bare : bare_count (asked ps) <= npos;
  acc_index : forall i, In (Some (Positional i)) (asked ps) -> (i < N.of_nat npos)%N;
  (* captured variables have a usable name *)
  acc_captured : forall n, In (Some (Named n)) (asked ps) -> In n names \/ ~ keyword_name n;
  (* every argument is used *)
  acc_used_pos : forall i, i < npos ->
    i < bare_count (asked ps) \/ In (Some (Positional (N.of_nat i))) (asked ps);
  acc_used_named : forall n, In n names -> In (Some (Named n)) (asked ps);
  (* width and precision are literals *)
  acc_counts : Forall literal_counts ps
}.

(** * Which value a placeholder uses *)
Section Values.
Variables (pos : list value_t) (named : list (str * value_t)) (scope : str -> value_t).

(** [uses n a v]: after [n] bare placeholders, a placeholder asking for [a] uses value [v].
    Of several named arguments with one name the last counts (see C52). *)
Inductive uses (n : nat) : option arg_ref -> value_t -> Prop :=
  | use_bare v : nth_error pos n = Some v -> uses n None v
  | use_index i v : nth_error pos (N.to_nat i) = Some v -> uses n (Some (Positional i)) v
  | use_named name v before after : named = before ++ (name, v) :: after ->
      ~ In name (map fst after) -> uses n (Some (Named name)) v
  | use_captured name : ~ In name (map fst named) -> uses n (Some (Named name)) (scope name).

(** * What is written *)

(** The flags a placeholder spells. *)
Definition spelled_count (c : option count) : option N :=
  match c with Some (CInt n) => Some n | _ => None end.
Definition spelled_flags (a : p_fargs) : formatter_args :=
  mk_fargs
    (match pa_align a with
     | Some PLeft => Some ALeft | Some PCenter => Some ACenter | Some PRight => Some ARight
     | None => None end)
    (match pa_sign a with Some PPlus => Some SPlus | Some PMinus => Some SMinus | None => None end)
    (pa_alternate a) (pa_zero a) (spelled_count (pa_width a)) (spelled_count (pa_precision a))
    (match pa_debug_hex a with
     | Some PLower => Some HexLower | Some PUpper => Some HexUpper | None => None end).

(** A style with the mentioned attributes replaced. *)
Definition override (d : style_diff) (st : style) : style :=
  mk_style (match d_foreground d with Some c => c | None => foreground st end)
    (match d_background d with Some c => c | None => background st end)
    (match d_intensity d with Some i => i | None => intens st end).

(** What the trait selected by a placeholder does: the stylish trait gets the formatter, a std
    trait gets the flags and its writes carry the formatter's style. *)
Definition through_std (t : std_trait) (hex : option debug_hex_t) (v : value_t) : display :=
  fun f => through_proxy f (v_std v t (std_flags_of (fm_format f) hex)).
Definition trait_code (t : format_trait) (v : value_t) : display :=
  match t with
  | FStylish => v_stylish v
  | FDebug => fun f => through_std TDebug (fa_debug_hex (fm_format f)) v f
  | FDisplay => through_std TDisplay None v
  | FOctal => through_std TOctal None v
  | FLowerHex => through_std TLowerHex None v
  | FUpperHex => through_std TUpperHex None v
  | FPointer => through_std TPointer None v
  | FBinary => through_std TBinary None v
  | FLowerExp => through_std TLowerExp None v
  | FUpperExp => through_std TUpperExp None v
  end.

(** [means f n ps parts]: writing the pieces with formatter [f], [n] bare placeholders having
    gone before, runs the given parts one after the other. *)
Inductive means (f : formatter) : nat -> list piece -> list wprog -> Prop :=
  | me_nil n : means f n [] []
  | me_lit n s ps parts : means f n ps parts ->
      means f n (Lit s :: ps) (formatter_write_str f s :: parts)
  | me_arg n a v ps parts :
      uses n (fa_arg a) v ->
      means f (match fa_arg a with None => S n | Some _ => n end) ps parts ->
      means f n (Arg a :: ps)
        (trait_code (fs_trait (fa_spec a)) v
           (mk_formatter (override (fs_style (fa_spec a)) (fm_style f))
              (spelled_flags (fs_args (fa_spec a)))) :: parts).
(** What is shown when every write succeeds: literal text in the style [S] in force, each
    argument in [S] changed by its placeholder's attributes only: for a std trait the text std
    produces with the spelled flags, all in that style; for the stylish trait what the value
    itself produces from that style and those flags. *)
Definition std_text (t : std_trait) (hex : option debug_hex_t) (v : value_t)
  (flags : formatter_args) : str := concat (std_events (v_std v t (std_flags_of flags hex))).
Definition shown (t : format_trait) (v : value_t) (st : style) (flags : formatter_args) : stext :=
  match t with
  | FStylish => produces (v_stylish v (mk_formatter st flags))
  | FDebug => paint st (std_text TDebug (fa_debug_hex flags) v flags)
  | FDisplay => paint st (std_text TDisplay None v flags)
  | FOctal => paint st (std_text TOctal None v flags)
  | FLowerHex => paint st (std_text TLowerHex None v flags)
  | FUpperHex => paint st (std_text TUpperHex None v flags)
  | FPointer => paint st (std_text TPointer None v flags)
  | FBinary => paint st (std_text TBinary None v flags)
  | FLowerExp => paint st (std_text TLowerExp None v flags)
  | FUpperExp => paint st (std_text TUpperExp None v flags)
  end.
Inductive shows (S : style) : nat -> list piece -> stext -> Prop :=
  | sh_nil n : shows S n [] []
  | sh_lit n s ps t : shows S n ps t -> shows S n (Lit s :: ps) (paint S s ++ t)
  | sh_arg n a v ps t :
      uses n (fa_arg a) v ->
      shows S (match fa_arg a with None => 1 + n | Some _ => n end) ps t ->
      shows S n (Arg a :: ps)
        (shown (fs_trait (fa_spec a)) v (override (fs_style (fa_spec a)) S)
           (spelled_flags (fs_args (fa_spec a))) ++ t).
End Values.

(** Parts run one after the other, stopping at the first error. *)
Fixpoint in_sequence (parts : list wprog) : wprog :=
  match parts with
  | [] => Ret Ok
  | p :: r => try_ p (in_sequence r)
  end.

(** * Evaluation order *)

(** Evaluating expressions one after the other, each exactly once, from state [h] to [h'], with
    results [vs] (an expression may change the state and either gives a value or does not
    complete). *)
Inductive evaluated {H : Type} : list (H -> H * option value_t) -> H -> H -> list value_t -> Prop :=
  | ev_nil h : evaluated [] h h []
  | ev_cons e es h h1 h2 v vs :
      e h = (h1, Some v) -> evaluated es h1 h2 vs -> evaluated (e :: es) h h2 (v :: vs).

(** The evaluation is cut short in state [h']: the expressions before some [e] have been
    evaluated once each, [e] did not complete, and those after it have not been evaluated. *)
Inductive cut_short {H : Type} : list (H -> H * option value_t) -> H -> H -> Prop :=
  | cut_at before e after h h1 h' vs :
      evaluated before h h1 vs -> e h1 = (h', None) -> cut_short (before ++ e :: after) h h'.

(** * Values whose code behaves *)
Definition returns_ok (v : value_t) : Prop :=
  forall t f, ok_outcome (trait_code t v f) = Returned Ok.
Definition value_propagates (v : value_t) : Prop :=
  forall t f, propagates (trait_code t v f).
Definition value_never_aborts (v : value_t) : Prop :=
  forall t f, never_aborts (trait_code t v f).

(** A predicate on the value an expression gives, if it gives one. *)
Definition gives {H : Type} (e : H -> H * option value_t) (P : value_t -> Prop) : Prop :=
  forall h v, snd (e h) = Some v -> P v.

(** Text as a format string that stands for itself. *)
Definition double_braces (text : str) : str :=
  flat_map (fun c => if ((c =? 123) || (c =? 125))%N then [c; c] else [c]) text.
