(** Facts about styled text, histories and user code. *)
From Verif Require Import Base Style Fmt SpecText.

(** * Base facts *)
Lemma str_eqb_spec a b : reflect (a = b) (str_eqb a b).
Proof.
  revert b; induction a as [|x a IH]; intros [|y b]; cbn; try (constructor; congruence).
  destruct (N.eqb_spec x y) as [->|Hn]; cbn.
  - destruct (IH b) as [->|Hn]; constructor; congruence.
  - constructor; congruence.
Qed.

Lemma color_eqb_spec a b : reflect (a = b) (color_eqb a b).
Proof. destruct a, b; cbn; constructor; congruence. Qed.

Lemma intensity_eqb_spec a b : reflect (a = b) (intensity_eqb a b).
Proof. destruct a, b; cbn; constructor; congruence. Qed.

Lemma style_eqb_spec a b : reflect (a = b) (style_eqb a b).
Proof.
  destruct a as [f1 b1 i1], b as [f2 b2 i2]; unfold style_eqb; cbn.
  destruct (color_eqb_spec f1 f2), (color_eqb_spec b1 b2), (intensity_eqb_spec i1 i2); cbn;
    constructor; congruence.
Qed.

Lemma style_eqb_refl a : style_eqb a a = true.
Proof. destruct (style_eqb_spec a a); congruence. Qed.

Lemma style_eqb_neq a b : a <> b -> style_eqb a b = false.
Proof. destruct (style_eqb_spec a b); congruence. Qed.

(** * Styled text *)
Lemma paint_app st a b : paint st (a ++ b) = paint st a ++ paint st b.
Proof. apply map_app. Qed.

Lemma paint_nil st : paint st [] = [].
Proof. reflexivity. Qed.

Lemma paint_cons st c s : paint st (c :: s) = (c, st) :: paint st s.
Proof. reflexivity. Qed.

Lemma chars_paint st s : chars (paint st s) = s.
Proof. unfold chars, paint; rewrite map_map; cbn. apply map_id. Qed.

Lemma chars_app a b : chars (a ++ b) = chars a ++ chars b.
Proof. apply map_app. Qed.

Lemma denote_app a b : denote (a ++ b) = denote a ++ denote b.
Proof. induction a as [|[s st] a IH]; cbn; [reflexivity|]. now rewrite IH, app_assoc. Qed.

Lemma chars_denote h : chars (denote h) = text_of h.
Proof.
  induction h as [|[s st] h IH]; cbn; [reflexivity|].
  rewrite chars_app, chars_paint, IH. reflexivity.
Qed.

Lemma last_style_app cur a b : last_style cur (a ++ b) = last_style (last_style cur a) b.
Proof. revert cur; induction a as [|[c st] a IH]; cbn; intros; auto. Qed.

Lemma last_style_paint cur st s : s <> [] -> last_style cur (paint st s) = st.
Proof.
  destruct s as [|c s]; [congruence|]; intros _; cbn.
  induction s as [|d s IH]; cbn; auto.
Qed.

Lemma last_style_snoc cur t c st : last_style cur (t ++ [(c, st)]) = st.
Proof. now rewrite last_style_app. Qed.

(** * Playing histories *)
Lemma play_app {W} (ws : write_fn W) a b w :
  play ws (a ++ b) w =
  match play ws a w with (w', Returned Ok) => play ws b w' | r => r end.
Proof.
  revert w; induction a as [|[s st] a IH]; intros w; cbn; [reflexivity|].
  destruct (ws w s st) as [w' [[|]|c]]; auto.
Qed.

Lemma infallible_eq {W} (ws : write_fn W) w s st :
  infallible ws -> ws w s st = (fst (ws w s st), Returned Ok).
Proof. intros H. specialize (H w s st). destruct (ws w s st); cbn in *; congruence. Qed.

Lemma infallible_play {W} (ws : write_fn W) h w :
  infallible ws -> play ws h w = (fst (play ws h w), Returned Ok).
Proof.
  intros H; revert w; induction h as [|[s st] h IH]; intros w; cbn; [reflexivity|].
  rewrite (infallible_eq ws w s st H). apply IH.
Qed.

(** On a writer that accepts everything, running code is playing its events. *)
Lemma run_infallible {W} (ws : write_fn W) (p : wprog) w :
  infallible ws -> run ws p w = (fst (play ws (ok_events p) w), ok_outcome p).
Proof.
  intros H; revert w; induction p as [r|c|s st k IH]; intros w; cbn; [reflexivity..|].
  rewrite (infallible_eq ws w s st H). apply IH.
Qed.

(** * User code *)
Lemma bind_ret p : same_prog (bind p Ret) p.
Proof. induction p; cbn; constructor; auto. Qed.

Lemma same_refl p : same_prog p p.
Proof. induction p; constructor; auto. Qed.

Lemma same_sym p q : same_prog p q -> same_prog q p.
Proof. induction 1; constructor; auto. Qed.

Lemma same_trans p q r : same_prog p q -> same_prog q r -> same_prog p r.
Proof.
  intros H; revert r; induction H as [x|c|s st k1 k2 Hk IH]; intros q' Hq; inversion Hq; subst;
    constructor; auto.
Qed.

Lemma same_run {W} (ws : write_fn W) p q w : same_prog p q -> run ws p w = run ws q w.
Proof.
  intros H; revert w; induction H as [x|c|s st k1 k2 Hk IH]; intros w; cbn; auto.
  destruct (ws w s st) as [w' [r|c]]; auto.
Qed.

Lemma same_events p q : same_prog p q -> ok_events p = ok_events q.
Proof. induction 1 as [| |s st k1 k2 Hk IH]; cbn; auto. now rewrite IH. Qed.

Lemma same_outcome p q : same_prog p q -> ok_outcome p = ok_outcome q.
Proof. induction 1 as [| |s st k1 k2 Hk IH]; cbn; auto. Qed.

Lemma try_ok p : same_prog (try_ p (Ret Ok)) p.
Proof.
  unfold try_. induction p as [[|]|c|s st k IH]; cbn; constructor; auto.
Qed.

Lemma bind_assoc p k1 k2 :
  same_prog (bind (bind p k1) k2) (bind p (fun r => bind (k1 r) k2)).
Proof. induction p; cbn; auto using same_refl; constructor; auto. Qed.

Lemma same_bind p q k1 k2 :
  same_prog p q -> (forall r, same_prog (k1 r) (k2 r)) -> same_prog (bind p k1) (bind q k2).
Proof. intros H Hk; induction H; cbn; auto; constructor; auto. Qed.

Lemma same_try p q p' q' :
  same_prog p q -> same_prog p' q' -> same_prog (try_ p p') (try_ q q').
Proof. intros H H'; apply same_bind; auto. intros [|]; auto using same_refl. Qed.

Lemma ok_events_bind p k :
  ok_events (bind p k) =
  ok_events p ++ match ok_outcome p with Returned r => ok_events (k r) | Crashed _ => [] end.
Proof. induction p as [r|c|s st k' IH]; cbn; auto. now rewrite IH. Qed.

Lemma ok_outcome_bind p k :
  ok_outcome (bind p k) =
  match ok_outcome p with Returned r => ok_outcome (k r) | Crashed c => Crashed c end.
Proof. induction p as [r|c|s st k' IH]; cbn; auto. Qed.

Lemma ok_events_try p q :
  ok_outcome p = Returned Ok -> ok_events (try_ p q) = ok_events p ++ ok_events q.
Proof. intros H; unfold try_; now rewrite ok_events_bind, H. Qed.

Lemma ok_outcome_try p q :
  ok_outcome p = Returned Ok -> ok_outcome (try_ p q) = ok_outcome q.
Proof. intros H; unfold try_; now rewrite ok_outcome_bind, H. Qed.

Lemma produces_try p q :
  ok_outcome p = Returned Ok -> produces (try_ p q) = produces p ++ produces q.
Proof. intros H; unfold produces; now rewrite ok_events_try, denote_app. Qed.

Lemma produces_write_str f s : produces (formatter_write_str f s) = paint (fm_style f) s.
Proof. unfold produces; cbn. apply app_nil_r. Qed.

Lemma write_fmt_same f args : same_prog (formatter_write_fmt f args) (args f).
Proof. apply try_ok. Qed.

(** Writing a prepared [Arguments] through a writer with the provided [write_fmt]. *)
Lemma default_write_fmt_run {W} (ws : write_fn W) w args :
  default_write_fmt ws w args = run ws (args formatter_new) w.
Proof. unfold default_write_fmt. apply same_run, write_fmt_same. Qed.

Lemma run_bind {W} (ws : write_fn W) p k w :
  run ws (bind p k) w =
  match run ws p w with
  | (w', Returned r) => run ws (k r) w'
  | (w', Crashed c) => (w', Crashed c)
  end.
Proof.
  revert w; induction p as [r|c|s st k' IH]; intros w; cbn; auto.
  destruct (ws w s st) as [w' [r|c]]; auto.
Qed.

Lemma run_try {W} (ws : write_fn W) p q w :
  run ws (try_ p q) w =
  match run ws p w with
  | (w', Returned Ok) => run ws q w'
  | (w', o) => (w', o)
  end.
Proof.
  unfold try_. rewrite run_bind. destruct (run ws p w) as [w' [[|]|c]]; reflexivity.
Qed.

(** * Propagation of errors *)
Lemma propagates_bind p k :
  propagates p -> k Err = Ret Err -> propagates (k Ok) -> propagates (bind p k).
Proof.
  intros Hp Hk Ho; induction p as [[|]|c|s st k' IH]; cbn in *; auto.
  - rewrite Hk; exact I.
  - destruct Hp as [H1 H2]. rewrite H1; cbn. split; [exact Hk | auto].
Qed.

Lemma propagates_try p q : propagates p -> propagates q -> propagates (try_ p q).
Proof. intros; apply propagates_bind; auto. Qed.

Lemma propagates_write_str f s : propagates (formatter_write_str f s).
Proof. cbn. split; reflexivity || exact I. Qed.

Lemma propagates_write_fmt f args : propagates (args f) -> propagates (formatter_write_fmt f args).
Proof. intros; apply propagates_try; cbn; auto. Qed.

(** Code that propagates errors, on any writer, is playing its events until the first
    failure. *)
Lemma run_propagates {W} (ws : write_fn W) p w :
  propagates p ->
  run ws p w =
  match play ws (ok_events p) w with
  | (w', Returned Ok) => (w', ok_outcome p)
  | (w', o) => (w', o)
  end.
Proof.
  revert w; induction p as [r|c|s st k IH]; intros w Hp; cbn in *; auto.
  destruct Hp as [H1 H2]. destruct (ws w s st) as [w' [[|]|c]]; auto.
  rewrite H1; reflexivity.
Qed.
