(** Specification: what each message of the macros says, and which problem is reported when there are
    several: the first one, reading the call from left to right, and unused arguments last. *)
From Verif Require Import Base Parse Codegen Macros Diagnose SpecMeaning SpecCall SpecGrammar.

Section Call.
(** The number of positional arguments and the names of the named ones. *)
Variables (npos : nat) (names : list str).

(** What is wrong with the argument of a placeholder that comes after [n] bare ones. *)
Inductive wrong_argument (n : nat) : option arg_ref -> diagnostic -> Prop :=
  | wa_bare : npos <= n -> wrong_argument n None MissingArgument
  | wa_index i : (N.of_nat npos <= i)%N -> (i < 2 ^ 32 - 1)%N ->
      wrong_argument n (Some (Positional i)) (MissingPositional i)
  | wa_huge i : (N.of_nat npos <= i)%N -> (2 ^ 32 - 1 <= i)%N ->
      wrong_argument n (Some (Positional i)) (IndexTooLarge i)
  | wa_name name : ~ In name names -> keyword_name name ->
      wrong_argument n (Some (Named name)) (NotCapturable name).
(** What is wrong with a placeholder. *)
Inductive wrong_piece (n : nat) : piece -> diagnostic -> Prop :=
  | wp_argument a d : wrong_argument n (fa_arg a) d -> wrong_piece n (Arg a) d
  | wp_count a : (forall d, ~ wrong_argument n (fa_arg a) d) -> ~ literal_counts (Arg a) ->
      wrong_piece n (Arg a) ParameterCount.
(** Nothing is wrong with any of these pieces. *)
Definition nothing_wrong (ps : list piece) : Prop :=
  forall before p after d, ps = before ++ p :: after -> ~ wrong_piece (bare_count (asked before)) p d.
(** Some argument is not used by any placeholder. *)
Definition some_unused (ps : list piece) : Prop :=
  (exists i, i < npos /\ bare_count (asked ps) <= i /\ ~ In (Some (Positional (N.of_nat i))) (asked ps)) \/
  (exists name, In name names /\ ~ In (Some (Named name)) (asked ps)).

(** What is reported for a format string with these pieces. *)
Inductive reported (ps : list piece) : diagnostic -> Prop :=
  | rep_piece before p after d : ps = before ++ p :: after -> nothing_wrong before ->
      wrong_piece (bare_count (asked before)) p d -> reported ps d
  | rep_unused : nothing_wrong ps -> some_unused ps -> reported ps UnusedArguments.
End Call.

(** A format string that is fine up to a placeholder with a fill character other than a space. *)
Definition uses_fill (xid_start xid_continue : char -> bool) (s : str) : Prop :=
  exists before ps arg fill align rest,
    s = before ++ lit "{" ++ arg ++ lit ":" ++ fill :: align :: rest /\
    format_string xid_start xid_continue ps before /\
    (arg = [] \/ exists a, arg_spelled xid_start xid_continue a arg) /\
    fill <> 32%N /\ is_align_char align = true.

(** A call whose format string is a literal or a builtin macro and which has a positional argument after a
    named one, everything up to there being as it should. *)
Inductive positional_after_named {E} : list (tok E) -> Prop :=
  | pan_intro (f : mexpr E) ps ns named m rest :
      (exists s e, f = MStr s e \/ f = MBuiltin s e) ->
      Forall positional_arg ps -> Forall2 names_arg ns named -> ns <> [] -> positional_arg m ->
      positional_after_named (TExpr f :: separated (ps ++ ns ++ [m]) ++ rest).
