(** Lemmas about terminals of any kind. *)
From Verif Require Import Base Style Fmt Ansi SpecText TextFacts StyleFacts SpecTerminal AnsiFacts RetryFacts SpecAnyTerm.

Section AnyTerm.
Context {R : Type} (sgr : N -> R -> R) (look : style -> R) (allowed : intensity -> Prop).
Hypothesis Hu : understands sgr look allowed.

(** A parameter after which an allowed style is still allowed. *)
Definition keeps (n : N) : Prop := forall s, allowed (intens s) -> allowed (intens (sgr_style n s)).

Lemma known_fg c : known (fg_code c).
Proof. right. left. destruct c; discriminate. Qed.
Lemma known_bg c : known (bg_code c).
Proof. right. right. destruct c; discriminate. Qed.
Lemma known_int i : known (int_code i).
Proof. left. destruct i; cbn; auto. Qed.

Lemma codes_known a b : allowed (intens b) -> Forall (fun n => known n /\ keeps n) (esc_codes a b).
Proof.
  intros Hb. unfold esc_codes. destruct (style_eqb a b); [constructor|].
  destruct (style_eqb b style_default).
  { constructor; [|constructor]. split; [left; cbn; auto|]. intros s _. exact (proj1 Hu). }
  assert (F : forall c, known (fg_code c) /\ keeps (fg_code c)).
  { intros c. split; [apply known_fg|]. intros s Hs. rewrite sgr_style_fg. exact Hs. }
  assert (B : forall c, known (bg_code c) /\ keeps (bg_code c)).
  { intros c. split; [apply known_bg|]. intros s Hs. rewrite sgr_style_bg. exact Hs. }
  assert (I : forall i, d_intensity (diff_from b a) = Some i -> known (int_code i) /\ keeps (int_code i)).
  { intros i Hi. split; [apply known_int|]. intros s Hs. rewrite sgr_style_int. cbn [intens].
    assert (i = intens b) as ->; [|exact Hb].
    pose proof (diff_mentions a b) as (_ & _ & _ & _ & H5 & H6).
    destruct (SpecSgr.intensity_eq_dec (intens a) (intens b)) as [E|E]; [rewrite (H5 E) in Hi|rewrite (H6 E) in Hi]; congruence. }
  unfold change_codes. destruct (diff_from b a) as [[f|] [g|] [i|]];
    cbn [d_foreground d_background d_intensity option_map somes flat_map app] in *;
    repeat (apply Forall_cons; [solve [apply F|apply B|apply I; reflexivity]|]); apply Forall_nil.
Qed.

Lemma fold_look ps : Forall (fun n => known n /\ keeps n) ps -> forall s, allowed (intens s) ->
  fold_left (fun r n => sgr n r) ps (look s) = look (fold_left (fun r n => sgr_style n r) ps s) /\
  allowed (intens (fold_left (fun r n => sgr_style n r) ps s)).
Proof.
  induction 1 as [|n ps [Hk Hn] _ IH]; intros s Hs; [auto|]. cbn [fold_left].
  rewrite (proj2 Hu n s Hk Hs (Hn s Hs)). apply IH. now apply Hn.
Qed.

Lemma esc_look a b s : allowed (intens b) -> allowed (intens s) ->
  fold_left (fun r n => sgr n r) (esc_codes a b) (look s) = look (fold_left (fun r n => sgr_style n r) (esc_codes a b) s).
Proof. intros Hb Hs. now apply fold_look; [apply codes_known|]. Qed.

(** The terminal can be written to in style [st]: whatever was torn, the style change repairs it. *)
Definition ready (cur : style) (state : pstate) (rend : R) (st : style) : Prop :=
  (allowed (intens cur) /\ allowed (intens st)) /\
  (rend = look cur \/ rend = look st) /\ (state = Ground \/ cur <> st).
Lemma ready_at st : allowed (intens st) -> forall x, allowed (intens x) -> ready st Ground (look st) x.
Proof. intros H x Hx. split; [split; auto|]. split; auto. Qed.

Lemma esc_ready cur st state rend screen : ready cur state rend st ->
  term_feed sgr (mk_term state rend screen) (esc cur st) = mk_term Ground (look st) screen.
Proof.
  intros ([A1 A2] & Hrend & Hst).
  assert (F : fold_left (fun r n => sgr n r) (esc_codes cur st) rend = look st).
  { destruct Hrend as [->| ->]; rewrite esc_look by assumption; f_equal; [apply esc_codes_style|apply codes_again]. }
  destruct Hst as [->|Hne]; [now rewrite feed_esc, F|now rewrite feed_esc_any, F].
Qed.

Definition all_within (t : stext) : Prop := Forall (fun cs => allowed (intens (snd cs))) t.

Lemma render_seen t : forall cur screen, no_controls (chars t) -> allowed (intens cur) -> all_within t ->
  term_feed sgr (mk_term Ground (look cur) screen) (ansi_render cur t)
  = mk_term Ground (look (last_style cur t)) (screen ++ seen look t).
Proof.
  induction t as [|[c st] t IH]; intros cur screen Hn Hc Ht; cbn [ansi_render last_style seen map fst snd].
  - cbn. now rewrite app_nil_r.
  - inversion Hn; subst. inversion Ht; subst. cbn [snd] in *.
    rewrite feed_app, esc_ready by (apply ready_at; assumption).
    change (c :: ansi_render st t) with ([c] ++ ansi_render st t).
    rewrite feed_app, feed_text by (constructor; auto; constructor).
    rewrite IH by auto. rewrite <- app_assoc. reflexivity.
Qed.

Lemma render_from_on cur c st t state rend screen : no_controls (chars ((c, st) :: t)) -> all_within ((c, st) :: t) ->
  ready cur state rend st ->
  term_feed sgr (mk_term state rend screen) (ansi_render cur ((c, st) :: t))
  = mk_term Ground (look (last_style cur ((c, st) :: t))) (screen ++ seen look ((c, st) :: t)).
Proof.
  intros Hn Ht H. rewrite <- (render_seen _ cur screen Hn (proj1 (proj1 H)) Ht). cbn [ansi_render].
  rewrite !feed_app, !esc_ready; auto. apply ready_at; apply H.
Qed.

Lemma last_within t : forall cur, allowed (intens cur) -> all_within t -> allowed (intens (last_style cur t)).
Proof.
  induction t as [|[c st] t IH]; intros cur Hc Ht; [exact Hc|]. inversion Ht; subst.
  change (last_style cur ((c, st) :: t)) with (last_style st t). now apply IH.
Qed.
Lemma seen_app a b : seen look (a ++ b) = seen look a ++ seen look b.
Proof. apply map_app. Qed.
Lemma within_denote h : within allowed h -> all_within (denote h).
Proof.
  induction 1 as [|[s st] h Hs _ IH]; cbn [denote]; [constructor|]. apply Forall_app. split; [|exact IH].
  apply Forall_forall. intros x Hx. apply in_map_iff in Hx as (c & <- & _). exact Hs.
Qed.
End AnyTerm.
