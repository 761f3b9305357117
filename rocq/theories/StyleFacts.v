(** Proofs about style/src/lib.rs. *)
From Verif Require Import Base Style SpecText TextFacts.

Lemma diff_round_trip a b : style_with Restyle_StyleDiff a (diff_from b a) = b.
Proof.
  destruct a as [f1 b1 i1], b as [f2 b2 i2]. unfold diff_from, diff_field; cbn.
  destruct (color_eqb_spec f1 f2), (color_eqb_spec b1 b2), (intensity_eqb_spec i1 i2);
    subst; reflexivity.
Qed.

Lemma diff_empty_iff a b : diff_from b a = diff_default <-> a = b.
Proof.
  split.
  - intros H. rewrite <- (diff_round_trip a b), H. destruct a; reflexivity.
  - intros <-. unfold diff_from, diff_field.
    destruct a as [f b i]; cbn.
    destruct (color_eqb_spec f f), (color_eqb_spec b b), (intensity_eqb_spec i i);
      congruence || reflexivity.
Qed.

Lemma diff_field_spec {T} (eqb : T -> T -> bool) (H : forall x y, reflect (x = y) (eqb x y))
  (o n : T) :
  (o = n -> diff_field eqb o n = None) /\ (o <> n -> diff_field eqb o n = Some n).
Proof. unfold diff_field; destruct (H o n); split; congruence. Qed.

Lemma diff_mentions a b :
  (foreground a = foreground b -> d_foreground (diff_from b a) = None) /\
  (foreground a <> foreground b -> d_foreground (diff_from b a) = Some (foreground b)) /\
  (background a = background b -> d_background (diff_from b a) = None) /\
  (background a <> background b -> d_background (diff_from b a) = Some (background b)) /\
  (intens a = intens b -> d_intensity (diff_from b a) = None) /\
  (intens a <> intens b -> d_intensity (diff_from b a) = Some (intens b)).
Proof.
  pose proof (diff_field_spec _ color_eqb_spec (foreground a) (foreground b)).
  pose proof (diff_field_spec _ color_eqb_spec (background a) (background b)).
  pose proof (diff_field_spec _ intensity_eqb_spec (intens a) (intens b)).
  cbn. intuition.
Qed.

Lemma apply_diff_fields d st :
  foreground (style_with Restyle_StyleDiff st d) =
    match d_foreground d with Some c => c | None => foreground st end /\
  background (style_with Restyle_StyleDiff st d) =
    match d_background d with Some c => c | None => background st end /\
  intens (style_with Restyle_StyleDiff st d) =
    match d_intensity d with Some i => i | None => intens st end.
Proof. destruct d as [[f|] [b|] [i|]], st; cbn; auto. Qed.

Lemma diff_minimal a b d :
  style_with Restyle_StyleDiff a d = b ->
  (forall c, d_foreground (diff_from b a) = Some c -> d_foreground d = Some c) /\
  (forall c, d_background (diff_from b a) = Some c -> d_background d = Some c) /\
  (forall i, d_intensity (diff_from b a) = Some i -> d_intensity d = Some i).
Proof.
  intros <-. destruct (apply_diff_fields d a) as (Hf & Hb & Hi).
  cbn [diff_from d_foreground d_background d_intensity]. unfold diff_field.
  rewrite Hf, Hb, Hi. split; [|split]; intros x.
  - destruct (d_foreground d); destruct (color_eqb_spec (foreground a) (foreground a));
      try destruct (color_eqb_spec (foreground a) c); congruence.
  - destruct (d_background d); destruct (color_eqb_spec (background a) (background a));
      try destruct (color_eqb_spec (background a) c); congruence.
  - destruct (d_intensity d) as [i'|]; destruct (intensity_eqb_spec (intens a) (intens a));
      try destruct (intensity_eqb_spec (intens a) i'); congruence.
Qed.

Lemma slice_nil {T} (d : Restyle T) st : style_with (Restyle_slice d) st [] = st.
Proof. reflexivity. Qed.

Lemma slice_cons {T} (d : Restyle T) x l st :
  style_with (Restyle_slice d) st (x :: l) =
  style_with (Restyle_slice d) (style_with d st x) l.
Proof. reflexivity. Qed.

Lemma slice_app {T} (d : Restyle T) l1 l2 st :
  style_with (Restyle_slice d) st (l1 ++ l2) =
  style_with (Restyle_slice d) (style_with (Restyle_slice d) st l1) l2.
Proof. apply fold_left_app. Qed.

Lemma slice_keeps {T A} (get : style -> A) (d : Restyle T) l st :
  (forall x, In x l -> forall s, get (style_with d s x) = get s) ->
  get (style_with (Restyle_slice d) st l) = get st.
Proof.
  revert st; induction l as [|x l IH]; intros st H; [reflexivity|].
  rewrite slice_cons, IH; [apply H; now left | intros; apply H; now right].
Qed.

Lemma slice_last_wins {T A} (get : style -> A) (d : Restyle T) l1 x l2 v st :
  (forall s, get (style_with d s x) = v) ->
  (forall y, In y l2 -> forall s, get (style_with d s y) = get s) ->
  get (style_with (Restyle_slice d) st (l1 ++ x :: l2)) = v.
Proof. intros Hx Hl. rewrite slice_app, slice_cons, slice_keeps; auto. Qed.
