(** C80: storing styled text in a [stylish::String] before using it. *)
From Verif Require Import Base Style Fmt SpecStd StdCompat SString Plain Ansi Html Format Nom Parse
  Codegen ToString SpecText TextFacts SpecSink StyleFacts StdFacts StringFacts FormatFacts SpecGrammar ParseFacts
  SpecFacts GrammarFacts SpecMeaning CodegenFacts MacroFacts AttrFacts PropsString PropsParse PropsMacro.

(** C80 is false: shown by [{:(bold)s}], the Arguments of [format_args!("x")] are bold and the
    String of [format!("x")] is not. *)
Definition shown_by (outer : str) (inner : arguments) : comp str :=
  match call false outer [logging 0 (mk_value (fun _ _ => SRet Ok) inner)] [] with
  | Some (_, args) => html_format args
  | None => Crash Panic
  end.
Theorem C80_stored_refuted :
  exists (args : arguments) (w : sstring),
    (exists s h, call false s [] [] = Some (h, args)) /\ stylish_format args = Value w /\
    shown_by (lit "{:(bold)s}") (Display_Arguments args)
      = Value (lit "<span style=font-weight:bolder>x</span>") /\
    shown_by (lit "{:(bold)s}") (Display_sstring w) = Value (lit "x").
Proof.
  destruct (call false (lit "x") [] []) as [[h args]|] eqn:E; [|discriminate E].
  exists args. eexists. split; [eauto|].
  vm_compute in E. injection E as <- <-.
  split; [vm_compute; reflexivity|]. split; vm_compute; reflexivity.
Qed.
Print Assumptions C80_stored_refuted.

(** C80: displaying a String does not depend on the formatter at all: not on the style in
    force, not on width, precision or any other flag. *)
Theorem C80_context_ignored (w : sstring) (f g : formatter) :
  Display_sstring w f = Display_sstring w g.
Proof.
  unfold Display_sstring. generalize (ss_styles w). intros styles.
  induction styles as [|[start st] rest IH]; cbn [sstring_display_loop]; [reflexivity|].
  destruct (str_slice _ _ _); [|reflexivity]. now rewrite IH.
Qed.
Print Assumptions C80_context_ignored.

Section Xid.
Variables xid_start xid_continue : char -> bool.
Hypothesis Hx : xid_ok xid_start xid_continue.
Notation macro := (format_args_impl xid_start xid_continue).

(** C80 (exact): for Arguments made by a macro and the String [format] makes of them, what is
    shown where a style [fm_style f] is in force: the String shows the text of the default style,
    the Arguments the text of that style. *)
Theorem C80_two_texts {H} (s : str) (ps : list piece) (pos : list (expr H)) (named : list (str * expr H))
  (c : code (expr H)) (scope : str -> value_t) (h h' : H) (args : arguments) (w : sstring) :
  format_string xid_start xid_continue ps s ->
  macro s pos named = Expanded c -> eval_code scope c h = (h', Some args) -> stylish_format args = Value w ->
  exists pv nv, evaluated (pos ++ map snd named) h h' (pv ++ nv) /\ length pv = length pos /\
    forall f,
      shows pv (combine (map fst named) nv) scope style_default 0 ps (produces (Display_sstring w f)) /\
      (ok_outcome (args f) = Returned Ok ->
       shows pv (combine (map fst named) nv) scope (fm_style f) 0 ps (produces (args f))).
Proof.
  intros Hp Hm He Hw.
  destruct (C05_scoped _ _ Hx s ps pos named c scope h h' args Hp Hm He) as (pv & nv & Hev & L & Hs).
  exists pv, nv. split; [exact Hev|]. split; [exact L|]. intros f. split; [|apply Hs].
  rewrite (C22_format_replay args w f Hw).
  apply (Hs formatter_new). revert Hw. rewrite stylish_format_spec.
  destruct (ok_outcome (args formatter_new)) as [[|]|k]; [reflexivity|discriminate|discriminate].
Qed.

(** C80 (partial): where the default style is in force they are interchangeable, whatever the
    flags of the placeholder.  Missing: other styles, where they are not. *)
Theorem C80_default_partial {H} (s : str) (pos : list (expr H)) (named : list (str * expr H))
  (c : code (expr H)) (scope : str -> value_t) (h h' : H) (args : arguments) (w : sstring) (f : formatter) :
  macro s pos named = Expanded c -> eval_code scope c h = (h', Some args) -> stylish_format args = Value w ->
  fm_style f = style_default ->
  ok_outcome (Display_sstring w f) = Returned Ok /\ ok_outcome (args f) = Returned Ok /\
  produces (Display_sstring w f) = produces (args f).
Proof.
  intros Hm He Hw Hf.
  assert (Ea : args f = args formatter_new).
  { destruct f as [st fl]. cbn in Hf. subst st.
    apply (C06_outer_flags _ _ s pos named c scope h h' args style_default _ _ Hm He). }
  rewrite Ea, (C22_format_replay args w f Hw).
  revert Hw. rewrite stylish_format_spec.
  destruct (ok_outcome (args formatter_new)) as [[|]|k]; [|discriminate|discriminate].
  intros E; injection E as <-. split; [|split; reflexivity].
  rewrite (same_outcome _ _ (display_runs _ f)), emit_runs_outcome. reflexivity.
Qed.
End Xid.
Print Assumptions C80_two_texts.
Print Assumptions C80_default_partial.

(** The hypotheses are met, and the flags of the placeholder have no effect on either. *)
Example C80_nonvacuous :
  match call false (lit "a{:(fg=red)}") [logging 0 (text_value (lit "b"))] [] with
  | Some (_, args) =>
      match stylish_format args with
      | Value w => (shown_by (lit "{:>9s}") (Display_Arguments args), shown_by (lit "{:>9s}") (Display_sstring w))
      | Crash c => (Crash c, Crash c)
      end
  | None => (Crash Panic, Crash Panic)
  end = (Value (lit "a<span style=color:red>b</span>"), Value (lit "a<span style=color:red>b</span>")).
Proof. vm_compute. reflexivity. Qed.
