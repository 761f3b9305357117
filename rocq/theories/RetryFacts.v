(** Proofs for C13 (minimality) and C29 (retry after a failure). *)
From Verif Require Import Base Style Fmt Ansi SpecText TextFacts StyleFacts SpecTerminal SpecSgr
  AnsiFacts SpecSink SinkFacts.

(** * Minimality *)
Lemma seg_fg c : ansi_foreground c = dec (fg_code c).
Proof. destruct c; reflexivity. Qed.
Lemma seg_bg c : ansi_background c = dec (bg_code c).
Proof. destruct c; reflexivity. Qed.
Lemma seg_int i : ansi_intensity i = dec (int_code i).
Proof. destruct i; reflexivity. Qed.

Lemma sgr_seq_codes cur st : sgr_seq (change_segs cur st) = sgr_sequence (change_codes cur st).
Proof.
  unfold change_segs, change_codes.
  destruct (diff_from st cur) as [[f|] [b|] [i|]]; cbn [d_foreground d_background d_intensity];
    cbn [option_map somes flat_map app]; rewrite ?seg_fg, ?seg_bg, ?seg_int; reflexivity.
Qed.

Lemma differs_0 {A} (ed : forall x y : A, {x = y} + {x <> y}) x y : differs ed x y = 0 <-> x = y.
Proof. unfold differs; destruct (ed x y); split; congruence. Qed.

Lemma differs_le1 {A} (ed : forall x y : A, {x = y} + {x <> y}) x y : differs ed x y <= 1.
Proof. unfold differs; destruct (ed x y); lia. Qed.

Lemma attributes_changed_0 a b : attributes_changed a b = 0 <-> a = b.
Proof.
  unfold attributes_changed. split.
  - intros H. destruct a, b; cbn in *.
    assert (differs color_eq_dec foreground foreground0 = 0) as H1%differs_0 by lia.
    assert (differs color_eq_dec background background0 = 0) as H2%differs_0 by lia.
    assert (differs intensity_eq_dec intens intens0 = 0) as H3%differs_0 by lia.
    congruence.
  - intros <-. rewrite (proj2 (differs_0 _ _ _) eq_refl), (proj2 (differs_0 _ _ _) eq_refl),
      (proj2 (differs_0 _ _ _) eq_refl). reflexivity.
Qed.

Lemma change_codes_length cur st : length (change_codes cur st) = attributes_changed cur st.
Proof.
  unfold change_codes, attributes_changed, differs.
  pose proof (diff_mentions cur st) as (H1 & H2 & H3 & H4 & H5 & H6).
  destruct (color_eq_dec (foreground cur) (foreground st)) as [E1|E1];
    [rewrite (H1 E1)|rewrite (H2 E1)];
  (destruct (color_eq_dec (background cur) (background st)) as [E2|E2];
    [rewrite (H3 E2)|rewrite (H4 E2)]);
  (destruct (intensity_eq_dec (intens cur) (intens st)) as [E3|E3];
    [rewrite (H5 E3)|rewrite (H6 E3)]); reflexivity.
Qed.

Lemma esc_minimal cur st :
  (cur = st -> esc cur st = []) /\
  (cur <> st -> st = style_default -> esc cur st = sgr_sequence [0%N]) /\
  (cur <> st -> st <> style_default ->
   exists ps, esc cur st = sgr_sequence ps /\ length ps = attributes_changed cur st
              /\ ~ In 0%N ps /\ fold_left (fun r n => sgr_style n r) ps cur = st).
Proof.
  destruct (esc_cases cur st) as [[H ->]|[(Hn & Hd & ->)|(Hn & Hd & Hne & ->)]].
  - repeat split; congruence.
  - repeat split; congruence.
  - repeat split; try congruence. intros _ _. exists (change_codes cur st).
    split; [apply sgr_seq_codes|]. split; [apply change_codes_length|].
    split; [|apply change_codes_style].
    assert (Hz : existsb (N.eqb 0) (change_codes cur st) = false).
    { unfold change_codes. destruct (diff_from st cur) as [[f|] [b|] [i|]];
      repeat match goal with
             | x : color |- _ => destruct x
             | x : intensity |- _ => destruct x
             end; vm_compute; reflexivity. }
    intros Hin. enough (existsb (N.eqb 0) (change_codes cur st) = true) by congruence.
    apply existsb_exists. exists 0%N. auto.
Qed.

Lemma sgr_one_attribute n cur st :
  n <> 0%N -> attributes_changed cur st <= 1 + attributes_changed (sgr_style n cur) st.
Proof.
  intros H. unfold sgr_style.
  destruct (N.eqb_spec n 0) as [->|_]; [congruence|].
  unfold attributes_changed.
  pose proof (differs_le1 color_eq_dec (foreground cur) (foreground st)).
  pose proof (differs_le1 color_eq_dec (background cur) (background st)).
  pose proof (differs_le1 intensity_eq_dec (intens cur) (intens st)).
  destruct (N.eqb n 1); [cbn; lia|]. destruct (N.eqb n 2); [cbn; lia|].
  destruct (N.eqb n 22); [cbn; lia|].
  destruct (sgr_fg n); [cbn; lia|]. destruct (sgr_bg n); cbn; lia.
Qed.

Lemma sgr_needs ps cur st :
  ~ In 0%N ps -> fold_left (fun r n => sgr_style n r) ps cur = st ->
  attributes_changed cur st <= length ps.
Proof.
  revert cur; induction ps as [|n ps IH]; intros cur H0 H; cbn in *.
  - subst. rewrite (proj2 (attributes_changed_0 _ _) eq_refl). lia.
  - specialize (IH (sgr_style n cur)). pose proof (sgr_one_attribute n cur st). intuition lia.
Qed.

Lemma count_app c (a b : str) : occurrences c (a ++ b) = occurrences c a + occurrences c b.
Proof. apply count_occ_app. Qed.

Lemma esc_count cur st :
  occurrences ESC (esc cur st) = if Nat.eqb (attributes_changed cur st) 0 then 0 else 1.
Proof.
  destruct (esc_cases cur st) as [[-> ->]|[(Hn & -> & ->)|(Hn & Hd & Hne & ->)]].
  - rewrite (proj2 (attributes_changed_0 _ _) eq_refl). reflexivity.
  - destruct (Nat.eqb_spec (attributes_changed cur style_default) 0) as [E|_];
      [now apply attributes_changed_0 in E|reflexivity].
  - destruct (Nat.eqb_spec (attributes_changed cur st) 0) as [E|_];
      [now apply attributes_changed_0 in E|].
    unfold sgr_seq, change_segs.
    destruct (diff_from st cur) as [[f|] [b|] [i|]]; cbn [d_foreground d_background d_intensity
      option_map somes flat_map app sgr_join];
    try (destruct f); try (destruct b); try (destruct i); reflexivity.
Qed.

Lemma render_count cur t :
  no_controls (chars t) -> occurrences ESC (ansi_render cur t) = style_changes cur t.
Proof.
  revert cur; induction t as [|[c st] t IH]; intros cur H; [reflexivity|].
  inversion H as [|x l Hc Ht]; subst. cbn [ansi_render style_changes].
  rewrite count_app, esc_count. f_equal.
  change (c :: ansi_render st t) with ([c] ++ ansi_render st t).
  rewrite count_app, (IH st Ht). unfold occurrences; cbn.
  destruct (N.eq_dec c ESC) as [->|_]; [discriminate|reflexivity].
Qed.

Lemma render_default t :
  Forall (fun cs => snd cs = style_default) t -> ansi_render style_default t = chars t.
Proof.
  induction 1 as [|[c st] t H _ IH]; [reflexivity|]. cbn in *; subst. rewrite esc_same, IH.
  reflexivity.
Qed.

(** * Retrying *)
Definition csi_char (c : char) : bool := ((48 <=? c) && (c <=? 57) || (c =? 59))%N.

Section Feed.
Context {R : Type} (sgr : N -> R -> R).
Lemma feed_csi_chars s done cur rend screen :
  forallb csi_char s = true ->
  exists done' cur',
    term_feed sgr (mk_term (Csi done cur) rend screen) s = mk_term (Csi done' cur') rend screen.
Proof.
  revert done cur; induction s as [|c s IH]; intros done cur H; [now exists done, cur|].
  cbn [forallb] in H. apply andb_true_iff in H as [Hc H].
  assert (Hstep : exists d' c', term_step sgr (mk_term (Csi done cur) rend screen) c
                                = mk_term (Csi d' c') rend screen).
  { unfold csi_char in Hc. unfold term_step; cbn [tm_state].
    destruct (N.eqb_spec c 27) as [->|_]; [discriminate|].
    destruct ((48 <=? c) && (c <=? 57))%N; [eauto|].
    destruct (N.eqb c 59); [eauto|discriminate]. }
  destruct Hstep as (d' & c' & Hstep).
  change (term_feed sgr (mk_term (Csi done cur) rend screen) (c :: s))
    with (term_feed sgr (term_step sgr (mk_term (Csi done cur) rend screen) c) s).
  rewrite Hstep. apply IH, H.
Qed.
End Feed.

Lemma change_shape cur st :
  ansi_change cur st = [] \/ ansi_change cur st = [ansi_reset] \/
  exists body, ansi_change cur st = ansi_open :: body ++ [lit "m"] /\
               Forall (fun p => forallb csi_char p = true) body.
Proof.
  unfold ansi_change. destruct (negb _ && _); [auto|].
  fold (change_segs cur st).
  assert (H : Forall (fun p => forallb csi_char p = true) (change_segs cur st)).
  { unfold change_segs.
    destruct (diff_from st cur) as [[f|] [b|] [i|]]; cbn [d_foreground d_background d_intensity
      option_map somes flat_map app];
    repeat constructor; try (destruct f; reflexivity); try (destruct b; reflexivity);
      destruct i; reflexivity. }
  destruct (change_segs cur st) as [|seg rest]; [auto|]. right; right.
  exists (seg :: flat_map (fun segment => [lit ";"; segment]) rest). split; [reflexivity|].
  inversion H as [|x l H1 H2]; subst. constructor; [exact H1|].
  clear H H1. induction H2 as [|x l Hx _ IH]; cbn [flat_map app]; repeat constructor; auto.
Qed.

Lemma esc_shape cur st :
  cur <> st -> exists mid, esc cur st = ESC :: 91%N :: mid ++ [109%N] /\ forallb csi_char mid = true.
Proof.
  intros Hn. unfold esc. destruct (change_shape cur st) as [E|[E|(body & E & Hb)]]; rewrite E.
  - exfalso. apply Hn. destruct (esc_cases cur st) as [[? _]|[(H1 & H2 & H3)|(H1 & H2 & H3 & H4)]]; auto;
      unfold esc in *; rewrite E in *; discriminate.
  - exists (lit "0"). split; reflexivity.
  - exists (concat body). split.
    + cbn [concat]. rewrite concat_app. cbn [concat]. rewrite app_nil_r. reflexivity.
    + clear - Hb. induction Hb as [|p l H _ IH]; [reflexivity|]. cbn. now rewrite forallb_app, H, IH.
Qed.

Lemma forallb_prefix {A} (f : A -> bool) a b : forallb f (a ++ b) = true -> forallb f a = true.
Proof. rewrite forallb_app. intros H. now apply andb_true_iff in H. Qed.

(** A proper prefix of a style change changes neither rendition nor screen. *)
Lemma feed_prefix {R} (sgr : N -> R -> R) cur st p q state rend screen :
  esc cur st = p ++ q -> q <> [] ->
  exists state', term_feed sgr (mk_term state rend screen) p = mk_term state' rend screen.
Proof.
  intros He Hq. destruct p as [|c1 p]; [now exists state|].
  destruct (style_eqb_spec cur st) as [->|Hn]; [rewrite esc_same in He; discriminate|].
  destruct (esc_shape cur st Hn) as (mid & E & Hm). rewrite E in He. injection He as <- He.
  assert (H1 : term_feed sgr (mk_term state rend screen) [ESC] = mk_term Escape rend screen)
    by (destruct state; reflexivity).
  destruct p as [|c2 p].
  { exists Escape. exact H1. }
  injection He as <- He.
  change (ESC :: 91%N :: p) with ([ESC] ++ [91%N] ++ p). rewrite !feed_app, H1.
  change (term_feed sgr (mk_term Escape rend screen) [91%N]) with (mk_term (Csi [] 0) rend screen).
  assert (Hp : forallb csi_char p = true).
  { destruct (exists_last Hq) as (q' & z & ->). rewrite app_assoc in He.
    apply app_inj_tail in He as [-> _]. eapply forallb_prefix; eauto. }
  destruct (feed_csi_chars sgr p [] 0%N rend screen Hp) as (d & c & ->). eauto.
Qed.

Lemma codes_again cur st : fold_left (fun r n => sgr_style n r) (esc_codes cur st) st = st.
Proof.
  unfold esc_codes. destruct (style_eqb_spec cur st) as [->|_]; [reflexivity|].
  destruct (style_eqb_spec st style_default) as [->|_]; [reflexivity|].
  unfold change_codes, diff_from. destruct st as [f b i]. cbn [foreground background intens].
  cbn [d_foreground d_background d_intensity]. unfold diff_field.
  repeat match goal with |- context [if ?c then _ else _] => destruct c end;
    cbn [d_foreground d_background d_intensity option_map somes flat_map app fold_left];
    rewrite ?sgr_style_fg, ?sgr_style_bg, ?sgr_style_int; reflexivity.
Qed.


(** * Honest and atomic sinks *)
Lemma atomic_honest {S} (sink : fmt_sink S) held : atomic_fmt sink held -> honest_fmt sink held.
Proof.
  intros Ha i s i' o E. specialize (Ha i s i' o E).
  destruct o as [[|]|c]; [exact Ha| |]; exists [], s; (split; [reflexivity|now rewrite app_nil_r]).
Qed.

Lemma honest_parts {S} (sink : fmt_sink S) held parts i i' o :
  honest_fmt sink held -> write_parts sink parts i = (i', o) ->
  match o with
  | Returned Ok => held i' = held i ++ concat parts
  | _ => exists p q, concat parts = p ++ q /\ held i' = held i ++ p
  end.
Proof.
  intros Hh; revert i; induction parts as [|x ps IH]; intros i; cbn [write_parts concat].
  - intros [= <- <-]. now rewrite app_nil_r.
  - destruct (sink i x) as [i1 o1] eqn:E. pose proof (Hh _ _ _ _ E) as H1.
    destruct o1 as [[|]|c].
    + intros H. apply IH in H. rewrite H1 in H. destruct o as [[|]|c].
      * now rewrite app_assoc.
      * destruct H as (p & q & Hc & H). exists (x ++ p), q. rewrite Hc, H, !app_assoc. auto.
      * destruct H as (p & q & Hc & H). exists (x ++ p), q. rewrite Hc, H, !app_assoc. auto.
    + intros [= <- <-]. destruct H1 as (p & q & -> & H1). exists p, (q ++ concat ps).
      now rewrite app_assoc.
    + intros [= <- <-]. destruct H1 as (p & q & -> & H1). exists p, (q ++ concat ps).
      now rewrite app_assoc.
Qed.

Lemma atomic_parts {S} (sink : fmt_sink S) held parts i i' o :
  atomic_fmt sink held -> write_parts sink parts i = (i', o) -> o <> Returned Ok ->
  exists l1 x l2, parts = l1 ++ x :: l2 /\ held i' = held i ++ concat l1.
Proof.
  intros Hh; revert i; induction parts as [|x ps IH]; intros i; cbn [write_parts].
  - intros [= <- <-]. congruence.
  - destruct (sink i x) as [i1 o1] eqn:E. pose proof (Hh _ _ _ _ E) as H1.
    destruct o1 as [[|]|c].
    + intros H Ho. destruct (IH _ H Ho) as (l1 & y & l2 & -> & H2). rewrite H1 in H2.
      exists (x :: l1), y, l2. cbn [concat app]. now rewrite app_assoc.
    + intros [= <- <-] _. exists [], x, ps. cbn. now rewrite app_nil_r.
    + intros [= <- <-] _. exists [], x, ps. cbn. now rewrite app_nil_r.
Qed.

(** * Retrying on an Ansi adaptor *)
Section Retry.
Context {S : Type} (sink : fmt_sink S) (held : S -> str) (Hh : honest_fmt sink held).

Definition shown (w : ansi S) : term style := term_feed sgr_style term_new (held (an_inner w)).

(** Between attempts: either the style change is still to be made (and will be, whatever state
    the terminal's parser is in), or it is done. *)
Definition between (screen : stext) (st : style) (w : ansi S) : Prop :=
  (tm_rend (shown w) = an_current w \/ tm_rend (shown w) = st) /\ tm_screen (shown w) = screen /\
  (tm_state (shown w) = Ground \/ an_current w <> st).

Lemma attempt screen w s st w' o :
  s <> [] -> no_controls s -> between screen st w ->
  ansi_write_str sink w s st = (w', o) ->
  (o = Returned Ok /\ an_current w' = st /\
   shown w' = mk_term Ground st (screen ++ paint st s)) \/
  (o <> Returned Ok /\ exists p q, s = p ++ q /\ (atomic_fmt sink held -> p = []) /\
     between (screen ++ paint st p) st w').
Proof.
  intros Hs Hc Hb. destruct w as [out cur]. unfold ansi_write_str.
  destruct s as [|c0 s0] eqn:Es; [congruence|]. rewrite <- Es in *. cbn [an_inner an_current].
  replace (is_empty s) with false by now rewrite Es. clear Hs Es c0 s0.
  destruct Hb as (Hr & Hsc & Hst). unfold shown in *; cbn [an_inner an_current] in *.
  destruct (term_feed sgr_style term_new (held out)) as [state rend scr] eqn:Et.
  cbn [tm_state tm_rend tm_screen] in *. subst scr.
  assert (Fin : term_feed sgr_style (mk_term state rend screen) (esc cur st) = mk_term Ground st screen).
  { assert (F : fold_left (fun r n => sgr_style n r) (esc_codes cur st) rend = st)
      by (destruct Hr as [->| ->]; [apply esc_codes_style|apply codes_again]).
    destruct Hst as [->|Hne]; [now rewrite feed_esc, F|now rewrite feed_esc_any, F]. }
  destruct (write_parts sink (ansi_change cur st) out) as [i1 o1] eqn:E1.
  pose proof (honest_parts sink held _ _ _ _ Hh E1) as H1.
  assert (Hfail : o1 <> Returned Ok ->
     (exists p q, concat (ansi_change cur st) = p ++ q /\ held i1 = held out ++ p) ->
     between (screen ++ paint st []) st (mk_ansi i1 cur)).
  { intros Ho (p & q & Hc1 & Hi). cbn [paint map]. rewrite app_nil_r.
    unfold between, shown; cbn [an_inner an_current]. rewrite Hi, feed_app, Et.
    assert (Hne : cur <> st).
    { intros ->. rewrite ansi_change_same in E1. cbn in E1. congruence. }
    destruct q as [|q0 q].
    - rewrite app_nil_r in Hc1. rewrite <- Hc1. change (concat (ansi_change cur st)) with (esc cur st).
      rewrite Fin. cbn. auto.
    - destruct (feed_prefix sgr_style cur st p (q0 :: q) state rend screen Hc1 ltac:(discriminate))
        as [state' ->]. cbn. auto. }
  destruct o1 as [[|]|c1].
  - destruct (sink i1 s) as [i2 o2] eqn:E2. intros [= <- <-].
    pose proof (Hh _ _ _ _ E2) as H2.
    assert (Ht : term_feed sgr_style term_new (held i1) = mk_term Ground st screen)
      by (rewrite H1, feed_app, Et; exact Fin).
    assert (Hf : o2 <> Returned Ok -> (exists p q, s = p ++ q /\ held i2 = held i1 ++ p) ->
      exists p q, s = p ++ q /\ (atomic_fmt sink held -> p = []) /\
        between (screen ++ paint st p) st (mk_ansi i2 st)).
    { intros Ho (p & q & Hpq & H2'). exists p, q. split; [exact Hpq|]. split.
      - intros Ha. specialize (Ha _ _ _ _ E2).
        assert (He : held i2 = held i1) by (destruct o2 as [[|]|]; congruence).
        rewrite H2' in He. rewrite <- (app_nil_r (held i1)) in He at 2. now apply app_inv_head in He.
      - unfold between, shown; cbn [an_inner an_current]. rewrite H2', feed_app, Ht, feed_text.
        + cbn. auto.
        + unfold no_controls in *. rewrite Hpq in Hc. now apply Forall_app in Hc. }
    destruct o2 as [[|]|c2].
    + left. split; [reflexivity|]. split; [reflexivity|]. cbn [an_inner]. rewrite H2, feed_app, Ht.
      now apply feed_text.
    + right. split; [discriminate|]. apply Hf; [discriminate|exact H2].
    + right. split; [discriminate|]. apply Hf; [discriminate|exact H2].
  - intros [= <- <-]. right. split; [discriminate|]. exists [], s. split; [reflexivity|].
    split; [auto|]. apply Hfail; [discriminate|exact H1].
  - intros [= <- <-]. right. split; [discriminate|]. exists [], s. split; [reflexivity|].
    split; [auto|]. apply Hfail; [discriminate|exact H1].
Qed.

Lemma retry_shows screen w s st w' :
  s <> [] -> no_controls s -> between screen st w ->
  repeated_write (ansi_write_str sink) s st w w' ->
  an_current w' = st /\
  exists partials, Forall (fun p => exists q, s = p ++ q) partials /\
    (atomic_fmt sink held -> concat partials = []) /\
    shown w' = mk_term Ground st (screen ++ paint st (concat partials ++ s)).
Proof.
  intros Hs Hc Hb Hr; revert screen Hb; induction Hr as [w w' H|w w1 w' o H Ho Hr IH]; intros screen Hb.
  - destruct (attempt _ _ _ _ _ _ Hs Hc Hb H) as [(_ & H1 & H2)|[H1 _]]; [|congruence].
    split; [exact H1|]. exists []. split; [constructor|]. split; [auto|exact H2].
  - destruct (attempt _ _ _ _ _ _ Hs Hc Hb H) as [(H1 & _)|(_ & p & q & Hp & Ha & Hb')]; [congruence|].
    destruct (IH _ Hb') as (I1 & ps & I2 & I3 & I4). split; [exact I1|]. exists (p :: ps).
    split; [constructor; eauto|]. split.
    + intros At. cbn [concat]. now rewrite (Ha At), (I3 At).
    + rewrite I4. cbn [concat]. unfold paint. rewrite !map_app, <- !app_assoc. reflexivity.
Qed.
End Retry.
