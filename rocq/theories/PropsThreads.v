(** Property C100: threads that share a terminal. *)
From Verif Require Import Base Style Fmt Ansi Io SpecText TextFacts StyleFacts SpecTerminal SpecSgr AnsiFacts
  PropsAnsi PropsMore SpecHtml HtmlFacts PropsHtml PropsAmbient Utf8Facts IoFacts Threads SpecThreads.

(** * What one thread sends *)
Lemma parts_recorded parts : forall calls, write_parts recorder parts calls = (calls ++ parts, Returned Ok).
Proof.
  induction parts as [|p parts IH]; intros calls; cbn; [now rewrite app_nil_r|].
  rewrite IH. now rewrite <- app_assoc.
Qed.
Definition thread_run (ops : list op) : ansi (list str) := fold_left thread_step ops (ansi_new []).
Lemma thread_run_snoc ops o : thread_run (ops ++ [o]) = thread_step (thread_run ops) o.
Proof. unfold thread_run. now rewrite fold_left_app. Qed.
Definition new_calls (cur : style) (o : op) : list str :=
  match o with
  | Put [] _ => []
  | Put (c :: s) st => ansi_change cur st ++ [c :: s]
  | Done => if style_eqb cur style_default then [] else [ansi_reset]
  end.
Lemma thread_step_calls w o : an_inner (thread_step w o) = an_inner w ++ new_calls (an_current w) o.
Proof.
  destruct w as [calls cur], o as [[|c s] st|]; cbn [thread_step an_inner an_current new_calls].
  - cbn. now rewrite app_nil_r.
  - unfold ansi_write_str. cbn [is_empty an_inner an_current]. rewrite parts_recorded. cbn. now rewrite <- app_assoc.
  - unfold ansi_new, ansi_finish. cbn [an_inner an_current]. destruct (style_eqb cur style_default); cbn [negb].
    + cbn. now rewrite app_nil_r.
    + now rewrite parts_recorded.
Qed.
Definition left_step (st : style) (o : op) : style :=
  match o with Put [] _ => st | Put (_ :: _) st' => st' | Done => style_default end.
Lemma thread_step_current w o : an_current (thread_step w o) = left_step (an_current w) o.
Proof.
  destruct w as [calls cur], o as [[|c s] st|]; cbn [thread_step an_inner an_current left_step]; [reflexivity| |reflexivity].
  unfold ansi_write_str. cbn [is_empty an_inner an_current]. now rewrite parts_recorded.
Qed.
Lemma left_in_snoc ops o : left_in (ops ++ [o]) = left_step (left_in ops) o.
Proof. unfold left_in. now rewrite fold_left_app. Qed.
Lemma thread_current ops : an_current (thread_run ops) = left_in ops.
Proof.
  induction ops as [|o ops IH] using rev_ind; [reflexivity|].
  now rewrite thread_run_snoc, thread_step_current, left_in_snoc, IH.
Qed.
Lemma sink_calls_snoc ops o : sink_calls (ops ++ [o]) = sink_calls ops ++ new_calls (left_in ops) o.
Proof.
  unfold sink_calls. change (fold_left thread_step ?l (ansi_new [])) with (thread_run l).
  now rewrite thread_run_snoc, thread_step_calls, thread_current.
Qed.
Lemma new_calls_text cur o :
  concat (new_calls cur o) =
  match o with Put [] _ => [] | Put (c :: s) st => esc cur st ++ c :: s | Done => esc cur style_default end.
Proof.
  destruct o as [[|c s] st|]; cbn [new_calls]; [reflexivity| |].
  - rewrite concat_app. cbn. now rewrite app_nil_r.
  - unfold esc, ansi_change. destruct (style_eqb_spec cur style_default) as [->|H]; [reflexivity|].
    cbn [negb andb]. now rewrite style_eqb_refl.
Qed.
Lemma says_snoc ops o : says (ops ++ [o]) = says ops ++ match o with Put s _ => s | Done => [] end.
Proof. unfold says. rewrite map_app, concat_app. cbn. now rewrite app_nil_r. Qed.

(** * Runs of a terminal in which the default style is only reached by a reset *)
Definition good_step (t : term style) (c : char) : Prop :=
  match tm_state t with
  | Csi done cur => c = 109%N -> tm_rend (term_step sgr_style t c) = style_default -> done ++ [cur] = [0%N]
  | _ => True
  end.
Fixpoint good_run (t : term style) (s : str) : Prop :=
  match s with [] => True | c :: r => good_step t c /\ good_run (term_step sgr_style t c) r end.
Lemma good_app t a b : good_run t (a ++ b) <-> good_run t a /\ good_run (term_feed sgr_style t a) b.
Proof. revert t. induction a as [|c a IH]; intros t; cbn; [tauto|]. rewrite IH. tauto. Qed.
Lemma good_nom t s : Forall (fun c => c <> 109%N) s -> good_run t s.
Proof.
  intros H. revert t. induction H as [|c s Hc H IH]; intros t; cbn; [exact I|]. split; [|apply IH].
  unfold good_step. destruct (tm_state t); auto. intros E. contradiction.
Qed.
Lemma good_text r scr s : no_controls s -> good_run (mk_term Ground r scr) s.
Proof.
  intros H. revert scr. induction H as [|c s Hc H IH]; intros scr; cbn [good_run]; [exact I|]. split; [exact I|].
  unfold starts_control in Hc. apply orb_false_iff in Hc as [Hc H3]. apply orb_false_iff in Hc as [H1 H2].
  unfold term_step. cbn [tm_state tm_rend tm_screen]. rewrite H1, H2, H3. apply IH.
Qed.
Lemma segs_nom cur st : Forall (Forall (fun c => c <> 109%N)) (change_segs cur st).
Proof.
  assert (F : forall c, Forall (fun c => c <> 109%N) (ansi_foreground c)) by (intros []; repeat constructor; discriminate).
  assert (B : forall c, Forall (fun c => c <> 109%N) (ansi_background c)) by (intros []; repeat constructor; discriminate).
  assert (J : forall c, Forall (fun c => c <> 109%N) (ansi_intensity c)) by (intros []; repeat constructor; discriminate).
  unfold change_segs, somes.
  destruct (d_foreground (diff_from st cur)), (d_background (diff_from st cur)), (d_intensity (diff_from st cur));
    cbn; repeat constructor; auto.
Qed.
Lemma rend_step_own cur st : rend_step cur st cur = st.
Proof.
  unfold rend_step. destruct (style_eqb_spec cur st); [auto|]. destruct (style_eqb_spec st style_default); [auto|].
  destruct (color_eq_dec (foreground cur) (foreground st)), (color_eq_dec (background cur) (background st)),
    (intensity_eq_dec (intens cur) (intens st)); destruct st; cbn in *; congruence.
Qed.
Lemma style_new : tm_rend term_new = style_default. Proof. reflexivity. Qed.
Lemma join_nom segs : Forall (Forall (fun c => c <> 109%N)) segs -> Forall (fun c => c <> 109%N) (sgr_join segs).
Proof.
  intros H. induction H as [|s segs Hs H IH]; [constructor|]. destruct segs as [|s' segs]; [exact Hs|].
  change (sgr_join (s :: s' :: segs)) with (s ++ lit ";" ++ sgr_join (s' :: segs)).
  apply Forall_app. split; [exact Hs|]. constructor; [discriminate|exact IH].
Qed.
Lemma esc_good cur st scr : good_run (mk_term Ground cur scr) (esc cur st).
Proof.
  destruct (esc_cases cur st) as [[-> ->]|[(Hn & -> & ->)|(Hn & Hd & Hne & E)]].
  - exact I.
  - cbn. repeat (split; [exact I || (intros; discriminate)|]). split; [reflexivity|exact I].
  - assert (F := feed_esc sgr_style cur st cur scr). rewrite esc_codes_style in F. rewrite E in *.
    unfold sgr_seq in *. rewrite app_comm_cons, app_assoc in *.
    apply good_app. split.
    + apply good_nom. apply Forall_app. split; [repeat constructor; discriminate|apply join_nom, segs_nom].
    + rewrite feed_app in F. change (lit "m") with [109%N] in *. cbn [good_run]. split; [|exact I].
      set (t := term_feed sgr_style (mk_term Ground cur scr) _) in *. change (term_step sgr_style t 109%N = mk_term Ground st scr) in F.
      unfold good_step. destruct (tm_state t); auto. intros _ H. rewrite F in H. contradiction.
Qed.
Lemma own_terminal ops :
  no_controls (says ops) ->
  good_run term_new (concat (sink_calls ops)) /\
  exists scr, chars scr = says ops /\
    term_feed sgr_style term_new (concat (sink_calls ops)) = mk_term Ground (left_in ops) scr.
Proof.
  induction ops as [|o ops IH] using rev_ind; intros H.
  { split; [exact I|]. exists []. split; reflexivity. }
  rewrite says_snoc in *. apply Forall_app in H as [H1 H2]. destruct (IH H1) as (G & scr & Hs & E).
  rewrite sink_calls_snoc, concat_app, new_calls_text, left_in_snoc, good_app, feed_app, E.
  destruct o as [[|c s] st|]; cbn [left_step].
  - split; [split; [exact G|exact I]|]. exists scr. now rewrite app_nil_r.
  - rewrite good_app, feed_app, feed_esc, esc_codes_style. split.
    + split; [exact G|]. split; [apply esc_good|]. now apply good_text.
    + rewrite feed_text by exact H2. eexists. split; [|reflexivity].
      unfold chars in *. rewrite map_app, Hs. f_equal. unfold paint. rewrite map_map. cbn [fst]. apply map_id.
  - rewrite feed_esc, esc_codes_style. split; [split; [exact G|apply esc_good]|].
    exists scr. now rewrite app_nil_r.
Qed.

(** * Two terminals in the same state that get the same *)
Lemma same_step (t u : term style) c :
  tm_state t = tm_state u ->
  tm_state (term_step sgr_style t c) = tm_state (term_step sgr_style u c) /\
  exists new, chars (tm_screen (term_step sgr_style t c)) = chars (tm_screen t) ++ new /\
              chars (tm_screen (term_step sgr_style u c)) = chars (tm_screen u) ++ new.
Proof.
  destruct t as [g r scr], u as [g' r' scr']. cbn [tm_state]. intros ->.
  assert (N : chars scr = chars scr ++ [] /\ chars scr' = chars scr' ++ []) by now rewrite !app_nil_r.
  unfold term_step. cbn [tm_state tm_rend tm_screen].
  destruct g'; repeat match goal with |- context [if ?b then _ else _] => destruct b end; cbn [tm_state tm_screen];
    (split; [reflexivity|]); try (exists []; exact N).
  exists [c]. unfold chars. now rewrite !map_app.
Qed.
Lemma same_feed s : forall t u : term style,
  tm_state t = tm_state u ->
  tm_state (term_feed sgr_style t s) = tm_state (term_feed sgr_style u s) /\
  exists new, chars (tm_screen (term_feed sgr_style t s)) = chars (tm_screen t) ++ new /\
              chars (tm_screen (term_feed sgr_style u s)) = chars (tm_screen u) ++ new.
Proof.
  induction s as [|c s IH]; intros t u H; cbn.
  - split; [exact H|]. exists []. now rewrite !app_nil_r.
  - destruct (same_step t u c H) as (H' & n & A & B). destruct (IH _ _ H') as (H'' & n' & A' & B').
    split; [exact H''|]. exists (n ++ n'). change (fold_left (term_step sgr_style) s ?x) with (term_feed sgr_style x s).
    rewrite A', B', A, B, !app_assoc. now split.
Qed.
Lemma rend_feed s : forall t u : term style,
  tm_state t = tm_state u -> good_run u s ->
  tm_rend (term_feed sgr_style t s) = style_default \/
  tm_rend (term_feed sgr_style u s) <> style_default \/
  tm_rend (term_feed sgr_style t s) = tm_rend t /\ tm_rend (term_feed sgr_style u s) = tm_rend u.
Proof.
  induction s as [|c s IH]; intros t u H G; [now right; right|].
  destruct G as [G1 G2]. destruct (same_step t u c H) as (H' & _).
  destruct (IH _ _ H' G2) as [A|[A|[A B]]]; [now left|now right; left|]. cbn.
  change (fold_left (term_step sgr_style) s ?x) with (term_feed sgr_style x s). rewrite A, B. clear IH A B G2 H'.
  destruct t as [g r scr], u as [g' r' scr']. cbn [tm_state] in H. subst g'. unfold good_step in G1.
  destruct (style_eqb_spec (tm_rend (term_step sgr_style (mk_term g r' scr') c)) style_default) as [E|E]; [|now right; left].
  unfold term_step in *. cbn [tm_state tm_rend tm_screen] in *.
  destruct g; repeat match goal with |- context [if ?b then _ else _] => destruct b eqn:? end; cbn [tm_rend];
    try (right; right; split; reflexivity).
  left. apply N.eqb_eq in Heqb2. subst c. rewrite G1; [reflexivity|reflexivity|exact E].
Qed.

(** * The shared terminal *)
Definition shared_screen (tr : schedule) : term style := term_feed sgr_style term_new (received tr).
Lemma by_thread_app k a b : by_thread k (a ++ b) = by_thread k a ++ by_thread k b.
Proof. unfold by_thread. now rewrite filter_app, map_app. Qed.
Lemma by_thread_one k j s : by_thread k [(j, s)] = if Nat.eqb j k then [s] else [].
Proof. unfold by_thread. cbn. now destruct (Nat.eqb j k). Qed.
Lemma own_snoc k tr j s :
  own_screen k (tr ++ [(j, s)]) = if Nat.eqb j k then term_feed sgr_style (own_screen k tr) s else own_screen k tr.
Proof.
  unfold own_screen. rewrite by_thread_app, by_thread_one, concat_app. destruct (Nat.eqb j k); cbn [concat].
  - now rewrite app_nil_r, feed_app.
  - now rewrite app_nil_r.
Qed.
Lemma shared_snoc tr j s : shared_screen (tr ++ [(j, s)]) = term_feed sgr_style (shared_screen tr) s.
Proof. unfold shared_screen, received. rewrite map_app, concat_app. cbn. now rewrite app_nil_r, feed_app. Qed.
Lemma uninterrupted_prefix a b : uninterrupted (a ++ b) -> uninterrupted a.
Proof.
  intros H before k s j s' after E. apply (H before k s j s' (after ++ b)). now rewrite E, <- app_assoc.
Qed.
(** Every thread but the one that wrote last is between control sequences; the terminal is in the
    state of that one. *)
Lemma shared_state tr :
  uninterrupted tr ->
  match rev tr with
  | [] => True
  | (k, _) :: _ => tm_state (shared_screen tr) = tm_state (own_screen k tr) /\
                   forall j, j <> k -> tm_state (own_screen j tr) = Ground
  end.
Proof.
  induction tr as [|[k s] tr IH] using rev_ind; intros U; [exact I|].
  rewrite rev_app_distr. cbn [rev app].
  specialize (IH (uninterrupted_prefix _ _ U)).
  assert (A : tm_state (shared_screen tr) = tm_state (own_screen k tr) /\
              forall j, j <> k -> tm_state (own_screen j tr) = Ground).
  { destruct (rev tr) as [|[k' s'] before] eqn:R.
    - apply (f_equal (@rev _)) in R. rewrite rev_involutive in R. subst tr. now split.
    - destruct IH as [I1 I2]. apply (f_equal (@rev _)) in R. rewrite rev_involutive in R. cbn in R.
      destruct (Nat.eq_dec k k') as [->|Hk]; [now split|].
      assert (Z : tm_state (own_screen k' tr) = Ground).
      { destruct (tm_state (own_screen k' tr)) eqn:Z; [reflexivity|..];
          (exfalso; apply Hk; apply (U (rev before) k' s' k s []); [now rewrite R, <- app_assoc|rewrite <- R, Z; discriminate]). }
      split.
      + rewrite I1, Z. symmetry. now apply I2.
      + intros j Hj. destruct (Nat.eq_dec j k') as [->|Hj']; auto. }
  destruct A as [A1 A2]. rewrite shared_snoc, own_snoc, Nat.eqb_refl. split; [now apply same_feed|].
  intros j Hj. rewrite own_snoc. destruct (Nat.eqb_spec k j); [congruence|auto].
Qed.
Lemma shared_next tr k s : uninterrupted (tr ++ [(k, s)]) -> tm_state (shared_screen tr) = tm_state (own_screen k tr).
Proof.
  intros U. assert (P := shared_state tr (uninterrupted_prefix _ _ U)).
  destruct (rev tr) as [|[k' s'] before] eqn:R.
  - apply (f_equal (@rev _)) in R. rewrite rev_involutive in R. now subst tr.
  - destruct P as [I1 I2]. apply (f_equal (@rev _)) in R. rewrite rev_involutive in R. cbn in R.
    destruct (Nat.eq_dec k k') as [->|Hk]; [exact I1|].
    rewrite I1. rewrite (I2 k Hk).
    destruct (tm_state (own_screen k' tr)) eqn:Z; [reflexivity|..];
      (exfalso; apply Hk; apply (U (rev before) k' s' k s []); [now rewrite R, <- app_assoc|rewrite <- R, Z; discriminate]).
Qed.

Lemma merges_snoc (f g : nat -> str) s k new :
  merges f s -> g k = f k ++ new -> (forall j, j <> k -> g j = f j) -> merges g (s ++ new).
Proof.
  intros (l & <- & H) Hk Hj. exists (l ++ map (fun c => (k, c)) new). split.
  - rewrite map_app, map_map. cbn [snd]. now rewrite map_id.
  - intros j. rewrite filter_app, map_app, H. destruct (Nat.eq_dec j k) as [->|E].
    + rewrite Hk. f_equal. clear. induction new as [|c new IH]; [reflexivity|]. cbn. rewrite Nat.eqb_refl. cbn. now rewrite IH.
    + rewrite (Hj j E). rewrite <- (app_nil_r (f j)) at 2. f_equal. clear - E.
      induction new as [|c new IH]; [reflexivity|]. cbn. destruct (Nat.eqb_spec k j); [congruence|exact IH].
Qed.

(** C100: whatever the threads send, as long as no thread gets in while another is in the middle of
    a control sequence, the characters on the shared terminal are those each thread would have on
    one of its own, every one once, each thread's in order. *)
Theorem C100_so_far (tr : schedule) :
  uninterrupted tr ->
  merges (fun k => chars (tm_screen (own_screen k tr))) (chars (tm_screen (term_feed sgr_style term_new (received tr)))).
Proof.
  change (term_feed sgr_style term_new (received tr)) with (shared_screen tr).
  induction tr as [|[k s] tr IH] using rev_ind; intros U.
  { exists []. split; reflexivity. }
  assert (S := shared_next tr k s U). specialize (IH (uninterrupted_prefix _ _ U)).
  destruct (same_feed s _ _ S) as (_ & new & A & B). rewrite shared_snoc, A.
  apply (merges_snoc _ _ _ k new IH).
  - now rewrite own_snoc, Nat.eqb_refl.
  - intros j Hj. rewrite own_snoc. destruct (Nat.eqb_spec k j); [congruence|reflexivity].
Qed.

Lemma merges_ext (f g : nat -> str) s : (forall k, f k = g k) -> merges f s -> merges g s.
Proof. intros E (l & H & K). exists l. split; [exact H|]. intros k. now rewrite K. Qed.
Lemma own_of_run progs tr k : scheduled progs tr -> no_controls (says (progs k)) ->
  exists scr, chars scr = says (progs k) /\ own_screen k tr = mk_term Ground (left_in (progs k)) scr.
Proof.
  intros R N. destruct (own_terminal _ N) as (_ & scr & A & B). exists scr. split; [exact A|].
  unfold own_screen. now rewrite (R k), B.
Qed.

(** C100: threads that run to their end show all they said, each in order, nothing else, and leave the
    terminal ready for text, whatever the styles. *)
Theorem C100_merged (progs : nat -> list op) (tr : schedule) :
  scheduled progs tr -> (forall k, no_controls (says (progs k))) -> uninterrupted tr ->
  let t := term_feed sgr_style term_new (received tr) in
  merges (fun k => says (progs k)) (chars (tm_screen t)) /\ tm_state t = Ground.
Proof.
  intros R N U. cbn zeta. split.
  - eapply merges_ext; [|apply C100_so_far, U]. intros k. cbn beta.
    destruct (own_of_run progs tr k R (N k)) as (scr & A & ->). exact A.
  - change (tm_state (shared_screen tr) = Ground). assert (P := shared_state tr U).
    destruct (rev tr) as [|[k' s'] before] eqn:E.
    + apply (f_equal (@rev _)) in E. rewrite rev_involutive in E. now subst tr.
    + destruct P as [-> _]. destruct (own_of_run progs tr k' R (N k')) as (scr & A & ->). reflexivity.
Qed.

Lemma good_prefix k a b : good_run term_new (concat (by_thread k (a ++ b))) -> good_run term_new (concat (by_thread k a)).
Proof. rewrite by_thread_app, concat_app, good_app. tauto. Qed.
Lemma shared_rend tr :
  uninterrupted tr -> (forall k, good_run term_new (concat (by_thread k tr))) ->
  tm_rend (shared_screen tr) <> style_default -> exists k, tm_rend (own_screen k tr) <> style_default.
Proof.
  induction tr as [|[k s] tr IH] using rev_ind; intros U G H; [now destruct H|].
  assert (S := shared_next tr k s U).
  assert (Gk : good_run (own_screen k tr) s).
  { specialize (G k). rewrite by_thread_app, by_thread_one, Nat.eqb_refl, concat_app in G. cbn in G.
    rewrite app_nil_r in G. now apply good_app in G. }
  specialize (IH (uninterrupted_prefix _ _ U) (fun j => good_prefix j _ _ (G j))).
  rewrite shared_snoc in H. destruct (rend_feed s _ _ S Gk) as [E|[E|[E1 E2]]].
  - contradiction.
  - exists k. now rewrite own_snoc, Nat.eqb_refl.
  - rewrite E1 in H. destruct (IH H) as (j & Hj). exists j. rewrite own_snoc.
    destruct (Nat.eqb_spec k j) as [->|_]; [now rewrite E2|exact Hj].
Qed.

(** C100: if every thread finished its adaptor (or ended in the default style), the terminal is back
    in the default style. *)
Theorem C100_left_reset (progs : nat -> list op) (tr : schedule) :
  scheduled progs tr -> (forall k, no_controls (says (progs k))) -> uninterrupted tr ->
  (forall k, left_in (progs k) = style_default) ->
  tm_rend (term_feed sgr_style term_new (received tr)) = style_default.
Proof.
  intros R N U L. change (tm_rend (shared_screen tr) = style_default).
  destruct (style_eqb_spec (tm_rend (shared_screen tr)) style_default) as [E|E]; [exact E|].
  assert (G : forall k, good_run term_new (concat (by_thread k tr))).
  { intros k. rewrite (R k). now apply own_terminal. }
  destruct (shared_rend tr U G E) as (k & Hk).
  destruct (own_of_run progs tr k R (N k)) as (scr & _ & O). rewrite O in Hk. cbn in Hk. now rewrite L in Hk.
Qed.

(** * A schedule that tears an escape *)
Lemma change_opens st : st <> style_default ->
  exists rest, ansi_change style_default st = ansi_open :: rest /\ rest <> [] /\
    concat rest = sgr_join (change_segs style_default st) ++ lit "m".
Proof.
  intros Hd. unfold ansi_change. rewrite (style_eqb_neq st style_default Hd), andb_false_r.
  change (somes _) with (change_segs style_default st).
  destruct (change_segs style_default st) as [|seg rest] eqn:E.
  { apply change_segs_nil in E. congruence. }
  eexists. split; [reflexivity|]. split; [discriminate|].
  rewrite app_comm_cons, concat_app, concat_segments. reflexivity.
Qed.
Lemma join_printable st : no_controls (sgr_join (change_segs style_default st) ++ lit "m").
Proof.
  unfold change_segs. destruct (diff_from st style_default) as [f b i]. cbn [d_foreground d_background d_intensity].
  destruct f as [[]|], b as [[]|], i as [[]|]; repeat constructor.
Qed.
Lemma by_thread_map k j (l : list str) : by_thread k (map (pair j) l) = if Nat.eqb j k then l else [].
Proof.
  unfold by_thread. induction l as [|s l IH]; cbn; [now destruct (Nat.eqb j k)|].
  destruct (Nat.eqb j k) eqn:E; cbn; now rewrite IH.
Qed.
Lemma merges_two (f : nat -> str) s :
  merges f s -> (forall k, k <> 0 -> k <> 1 -> f k = []) -> length s = length (f 0) + length (f 1).
Proof.
  intros (l & <- & H) O. rewrite map_length, <- (H 0), <- (H 1), !map_length.
  assert (A : Forall (fun e => fst e = 0 \/ fst e = 1) l).
  { apply Forall_forall. intros [k c] Hi. cbn. destruct (Nat.eq_dec k 0) as [E0|E0]; [now left|].
    destruct (Nat.eq_dec k 1) as [E1|E1]; [now right|]. exfalso.
    specialize (H k). rewrite (O k E0 E1) in H. apply map_eq_nil in H.
    assert (X : In (k, c) (filter (fun e => Nat.eqb (fst e) k) l)).
    { apply filter_In. split; [exact Hi|]. cbn. apply Nat.eqb_refl. }
    rewrite H in X. destruct X. }
  clear - A. induction A as [|[k c] l Hk A IH]; [reflexivity|]. cbn in *.
  destruct Hk as [->| ->]; cbn; lia.
Qed.
(** What the two threads of the next theorem do. *)
Definition two_threads (s0 : str) (st : style) (s1 : str) (k : nat) : list op :=
  match k with 0 => [Put s0 st; Done] | 1 => [Put s1 style_default] | _ => [] end.

(** C100: without that condition text is lost and the rest of an escape shows up as text, for any
    styled text of one thread and any plain text of another that starts with a character a control
    sequence can end with (a letter, for one). *)
Theorem C100_torn (s0 : str) (st : style) (c : char) (s1 : str) :
  s0 <> [] -> st <> style_default -> (64 <= c <= 126)%N -> no_controls s0 -> no_controls s1 ->
  exists (tr : schedule) (junk : str),
    scheduled (two_threads s0 st (c :: s1)) tr /\
    concat (by_thread 0 tr) = 27%N :: 91%N :: junk ++ s0 ++ 27%N :: lit "[0m" /\
    chars (tm_screen (term_feed sgr_style term_new (received tr))) = s1 ++ junk ++ s0 /\
    ~ merges (fun k => says (two_threads s0 st (c :: s1) k)) (chars (tm_screen (term_feed sgr_style term_new (received tr)))).
Proof.
  intros Hs Hd Hc N0 N1. destruct (change_opens st Hd) as (rest & E & Hr & J).
  set (junk := sgr_join (change_segs style_default st) ++ lit "m") in *.
  assert (NJ : no_controls junk) by apply join_printable.
  set (tr := (0, ansi_open) :: (1, c :: s1) :: map (pair 0) (rest ++ [s0; ansi_reset]) : schedule).
  exists tr, junk.
  assert (A0 : sink_calls [Put s0 st; Done] = ansi_open :: rest ++ [s0; ansi_reset]).
  { change [Put s0 st; Done] with ([] ++ [Put s0 st] ++ [Done]). rewrite app_assoc, !sink_calls_snoc.
    change (sink_calls []) with (@nil str). change (left_in []) with style_default. rewrite left_in_snoc. change (left_in []) with style_default.
    destruct s0 as [|x s0]; [now destruct Hs|]. cbn [new_calls left_step]. rewrite E, (style_eqb_neq _ _ Hd).
    cbn [app]. now rewrite <- app_assoc. }
  assert (B0 : by_thread 0 tr = ansi_open :: rest ++ [s0; ansi_reset]).
  { unfold tr. change (?a :: ?b :: ?l) with ([a; b] ++ l). rewrite by_thread_app, by_thread_map. reflexivity. }
  assert (R : received tr = ansi_open ++ c :: s1 ++ junk ++ s0 ++ ansi_reset).
  { unfold received, tr. cbn [map snd concat]. rewrite map_map. cbn [snd]. rewrite map_id, concat_app, J.
    cbn [concat]. rewrite app_nil_r. now rewrite <- app_comm_cons. }
  assert (F : chars (tm_screen (term_feed sgr_style term_new (received tr))) = s1 ++ junk ++ s0).
  { rewrite R, feed_app. change (term_feed sgr_style term_new ansi_open) with (mk_term (Csi [] 0) style_default []).
    change (c :: s1 ++ junk ++ s0 ++ ansi_reset) with ([c] ++ (s1 ++ junk ++ s0 ++ ansi_reset)). rewrite feed_app.
    assert (C : term_feed sgr_style (mk_term (Csi [] 0) style_default []) [c] = mk_term Ground style_default []).
    { cbn [term_feed fold_left]. unfold term_step. cbn [tm_state tm_rend tm_screen].
      destruct (N.eqb_spec c 27); [lia|]. destruct (N.leb_spec c 57); [lia|]. rewrite andb_false_r.
      destruct (N.eqb_spec c 59); [lia|]. destruct (N.eqb_spec c 109); [reflexivity|].
      destruct (N.leb_spec 64 c); [|lia]. destruct (N.leb_spec c 126); [reflexivity|lia]. }
    rewrite C. rewrite !app_assoc, feed_app, feed_text.
    - cbn [app]. change ansi_reset with (esc (mk_style Red ColorDefault Normal) style_default).
      rewrite feed_esc. cbn [tm_screen]. unfold paint, chars. rewrite map_map. cbn [fst]. apply map_id.
    - apply Forall_app. split; [apply Forall_app; split|]; assumption. }
  split; [|split; [|split]].
  - intros [|[|k]]; unfold two_threads.
    + now rewrite B0, A0.
    + unfold tr. change (?a :: ?b :: ?l) with ([a; b] ++ l). rewrite by_thread_app, by_thread_map. reflexivity.
    + unfold tr. change (?a :: ?b :: ?l) with ([a; b] ++ l). rewrite by_thread_app, by_thread_map. reflexivity.
  - rewrite B0. cbn [concat]. rewrite concat_app, J. cbn [concat]. now rewrite app_nil_r.
  - exact F.
  - rewrite F. intros M. apply merges_two in M.
    2: { intros [|[|k]] H H'; [congruence..|reflexivity]. }
    unfold two_threads, says in M. cbn [map concat] in M. rewrite !app_nil_r in M.
    unfold junk in M. rewrite !app_length in M. cbn [length] in M.
    assert (L : 1 <= length (sgr_join (change_segs style_default st))).
    { destruct (change_segs style_default st) as [|seg segs] eqn:Z; [apply change_segs_nil in Z; congruence|].
      assert (P : seg <> []).
      { unfold change_segs in Z. destruct (diff_from st style_default) as [f b i]. cbn in Z.
        destruct f as [[]|], b as [[]|], i as [[]|]; cbn in Z; try discriminate; injection Z as <- _; discriminate. }
      destruct seg as [|x seg]; [congruence|]. destruct segs; cbn; lia. }
    change (List.length (lit "m")) with 1 in M. unfold str, char in *. lia.
Qed.

(** * One call per finished output *)
Lemma finished_ground t h : tm_state t = Ground -> no_controls (text_of h) -> tm_state (term_feed sgr_style t (ansi_finished h)) = Ground.
Proof.
  intros Hg Hh. assert (P := C61_ansi_concat [h] (Forall_cons h Hh (Forall_nil _))). cbn [map concat] in P.
  rewrite app_nil_r in P. rewrite (proj1 (same_feed (ansi_finished h) t term_new Hg)). now rewrite P.
Qed.
Lemma own_ground k items :
  Forall (fun e : nat * history => no_controls (text_of (snd e))) items ->
  tm_state (own_screen k (map (fun e => (fst e, ansi_finished (snd e))) items)) = Ground.
Proof.
  induction items as [|[j h] items IH] using rev_ind; intros H; [reflexivity|].
  apply Forall_app in H as [H1 H2]. inversion H2; subst. rewrite map_app. cbn [map fst snd]. rewrite own_snoc.
  destruct (Nat.eqb j k); [apply finished_ground|]; auto.
Qed.
(** C100: threads that send every finished output in one call (say a line made with
    [ansi::format!]) are never interrupted, and every output is shown as it is, in its styles, in
    the order of the calls. *)
Theorem C100_one_call (items : list (nat * history)) :
  Forall (fun e => no_controls (text_of (snd e))) items ->
  let tr := map (fun e => (fst e, ansi_finished (snd e))) items in
  uninterrupted tr /\
  term_feed sgr_style term_new (received tr) = mk_term Ground style_default (concat (map (fun e => denote (snd e)) items)).
Proof.
  intros H. cbn zeta. split.
  - intros before k s j s' after E G. exfalso. apply G.
    assert (X : exists i1, before ++ [(k, s)] = map (fun e => (fst e, ansi_finished (snd e))) i1 /\
                           Forall (fun e : nat * history => no_controls (text_of (snd e))) i1).
    { exists (firstn (length (before ++ [(k, s)])) items). split.
      - rewrite <- firstn_map, E. change ((k, s) :: (j, s') :: after) with ([(k, s)] ++ (j, s') :: after).
        rewrite app_assoc, firstn_app, firstn_all, Nat.sub_diag. cbn. now rewrite app_nil_r.
      - rewrite <- (firstn_skipn (length (before ++ [(k, s)])) items) in H. now apply Forall_app in H. }
    destruct X as (i1 & -> & H1). now apply own_ground.
  - unfold received. rewrite map_map. cbn [snd].
    assert (P := C61_ansi_concat (map snd items)). rewrite !map_map in P. apply P.
    rewrite Forall_map. exact H.
Qed.

(** * One adaptor for all threads *)
Lemma filter_same {A} k (s : list A) : map snd (filter (fun e : nat * A => Nat.eqb (fst e) k) (map (pair k) s)) = s.
Proof. induction s as [|x s IH]; [reflexivity|]. cbn. rewrite Nat.eqb_refl. cbn. now rewrite IH. Qed.
Lemma filter_other {A} k j (s : list A) : j <> k -> map snd (filter (fun e : nat * A => Nat.eqb (fst e) k) (map (pair j) s)) = [].
Proof. intros H. induction s as [|x s IH]; [reflexivity|]. cbn. destruct (Nat.eqb_spec j k); [congruence|exact IH]. Qed.
Lemma denote_merges (l : list (nat * (str * style))) : merges (fun k => denote (writes_of k l)) (denote (map snd l)).
Proof.
  induction l as [|[j [s st]] l (labels & E & H)]; [exists []; split; reflexivity|].
  exists (map (pair j) (paint st s) ++ labels). split.
  - rewrite map_app, map_map, E. cbn [snd]. rewrite map_id. reflexivity.
  - intros k. rewrite filter_app, map_app, H. unfold writes_of. cbn [filter fst].
    destruct (Nat.eqb_spec j k) as [->|N].
    + rewrite filter_same. reflexivity.
    + now rewrite filter_other.
Qed.
Lemma merges_map {A B} (f : A -> B) (texts : nat -> list A) s : merges texts s -> merges (fun k => map f (texts k)) (map f s).
Proof.
  intros (labels & <- & H). exists (map (fun e => (fst e, f (snd e))) labels). split; [now rewrite !map_map|].
  intros k. rewrite <- H. clear. induction labels as [|[j x] l IH]; [reflexivity|]. cbn. destruct (Nat.eqb j k); cbn; now rewrite IH.
Qed.
(** C100: threads that take turns with one adaptor (behind a lock): whatever the order of their
    writes, every thread's text is shown, in order and in its styles. *)
Theorem C100_one_adaptor (l : list (nat * (str * style))) :
  no_controls (text_of (map snd l)) ->
  exists screen, term_feed sgr_style term_new (ansi_finished (map snd l)) = mk_term Ground style_default screen /\
    merges (fun k => denote (writes_of k l)) screen.
Proof.
  intros H. exists (denote (map snd l)). split; [|apply denote_merges].
  assert (P := C61_ansi_concat [map snd l] (Forall_cons (map snd l) H (Forall_nil _))). cbn [map concat] in P. now rewrite !app_nil_r in P.
Qed.
Theorem C100_one_html_adaptor (l : list (nat * (str * style))) :
  exists cells, page_feed page_new (html_finished (map snd l)) = mk_page Data [] cells /\
    merges (fun k => looks (denote (writes_of k l))) cells.
Proof.
  exists (looks (denote (map snd l))). split; [|apply (merges_map _ _ _ (denote_merges l))].
  assert (P := C61_html_concat [map snd l]). cbn [map concat] in P. now rewrite !app_nil_r in P.
Qed.

(** * io::Ansi *)
Lemma io_parts_recorded parts : forall calls, write_all_parts io_recorder parts calls = (calls ++ map utf8 parts, IoOk tt).
Proof.
  induction parts as [|p parts IH]; intros calls; cbn; [now rewrite app_nil_r|].
  rewrite IH. now rewrite <- app_assoc.
Qed.
Lemma io_step_calls w o :
  ia_inner (io_thread_step w o) = ia_inner w ++ map utf8 (new_calls (ia_current w) o) /\
  ia_current (io_thread_step w o) = left_step (ia_current w) o.
Proof.
  destruct w as [calls cur], o as [[|c s] st|].
  - cbn. now rewrite app_nil_r.
  - cbn [io_thread_step IoWrite_ansi io_write_all]. unfold io_ansi_write_all.
    assert (U : utf8 (c :: s) <> []) by (intros H; apply (proj1 (utf8_nil (c :: s))) in H; discriminate).
    cbn [new_calls left_step]. destruct (utf8 (c :: s)) as [|x b] eqn:Eb; [congruence|].
    cbn [default_write_all]. unfold io_ansi_write. rewrite io_change_same. cbn [ia_inner ia_current].
    rewrite io_parts_recorded. cbn [io_recorder si_write]. cbn [length]. rewrite Nat.leb_refl.
    replace (skipn (Datatypes.S (length b)) (x :: b)) with (@nil N) by (symmetry; apply skipn_all2; cbn; lia).
    cbn [fst default_write_all ia_inner ia_current]. rewrite map_app. cbn [map]. rewrite Eb. now rewrite <- app_assoc.
  - cbn [io_thread_step new_calls left_step]. unfold io_ansi_new, io_ansi_finish. cbn [ia_inner ia_current].
    destruct (style_eqb cur style_default); cbn [negb map].
    + cbn. now rewrite app_nil_r.
    + now rewrite io_parts_recorded.
Qed.
(** C100: the io adaptor makes the same calls, in bytes. *)
Theorem C100_io (ops : list op) : io_sink_calls ops = map utf8 (sink_calls ops).
Proof.
  enough (G : ia_inner (fold_left io_thread_step ops (io_ansi_new [])) = map utf8 (sink_calls ops) /\
              ia_current (fold_left io_thread_step ops (io_ansi_new [])) = left_in ops) by apply G.
  induction ops as [|o ops [IH1 IH2]] using rev_ind; [split; reflexivity|].
  rewrite fold_left_app. cbn [fold_left]. destruct (io_step_calls (fold_left io_thread_step ops (io_ansi_new [])) o) as [-> ->].
  rewrite IH1, IH2, sink_calls_snoc, left_in_snoc, map_app. now split.
Qed.

(** * Cases *)
Definition red : style := mk_style Red ColorDefault Normal.
Definition bold_blue : style := mk_style Blue ColorDefault Bold.
Definition progs_ab (k : nat) : list op :=
  match k with
  | 0 => [Put (lit "stop") red; Done]
  | 1 => [Put (lit "go") bold_blue; Put (lit "!") style_default]
  | _ => []
  end.
(** Interrupted between a colored text and its reset, but not inside an escape: all the text, in
    wrong colors, and the reset. *)
Definition tr_ab : schedule :=
  map (pair 0) [ansi_open; lit "31"; lit "m"; lit "stop"] ++
  map (pair 1) [ansi_open; lit "34"; lit ";"; lit "1"; lit "m"] ++ [(0, ansi_reset)] ++ [(1, lit "go")] ++ map (pair 1) [ansi_reset; lit "!"].
Example C100_case_runs : scheduled progs_ab tr_ab.
Proof. intros [|[|k]]; reflexivity. Qed.
Lemma next_thread (P : schedule -> nat -> str -> nat -> Prop) tr :
  (forall n, n < length tr -> match nth_error tr n, nth_error tr (Datatypes.S n) with
     | Some (k, s), Some (j, _) => P (firstn n tr) k s j | _, _ => True end) ->
  forall before k s j s' after, tr = before ++ (k, s) :: (j, s') :: after -> P before k s j.
Proof.
  intros H before k s j s' after ->. specialize (H (length before)). rewrite app_length in H. cbn [length] in H.
  specialize (H ltac:(lia)). rewrite !nth_error_app2, Nat.sub_diag in H by lia.
  replace (Datatypes.S (length before) - length before) with 1 in H by lia. cbn [nth_error] in H.
  now rewrite firstn_app, Nat.sub_diag, firstn_all, app_nil_r in H.
Qed.
Example C100_case_uninterrupted : uninterrupted tr_ab.
Proof.
  intros before k s j s' after E. revert before k s j s' after E.
  apply (next_thread (fun before k s j => tm_state (own_screen k (before ++ [(k, s)])) <> Ground -> j = k)).
  intros n Hn. cbn in Hn. do 14 (destruct n as [|n]; [vm_compute; solve [exact I | intros; (reflexivity || congruence)]|]). lia.
Qed.
Example C100_case_shown :
  tm_screen (term_feed sgr_style term_new (received tr_ab)) =
  paint red (lit "stop") ++ paint style_default (lit "go!") /\
  tm_rend (term_feed sgr_style term_new (received tr_ab)) = style_default.
Proof. vm_compute. split; reflexivity. Qed.
Example C100_case_torn :
  exists tr, scheduled (two_threads (lit "stop") red (lit "go")) tr /\
    chars (tm_screen (term_feed sgr_style term_new (received tr))) = lit "o31mstop".
Proof.
  exists [(0, ansi_open); (1, lit "go"); (0, lit "31"); (0, lit "m"); (0, lit "stop"); (0, ansi_reset)].
  split; [intros [|[|k]]; reflexivity|]. reflexivity.
Qed.
Print Assumptions C100_so_far.
Print Assumptions C100_merged.
Print Assumptions C100_left_reset.
Print Assumptions C100_torn.
Print Assumptions C100_one_call.
Print Assumptions C100_io.
Example C100_case_adaptor :
  let l := [(0, (lit "st", red)); (1, (lit "go", bold_blue)); (0, (lit "op", red))] in
  no_controls (text_of (map snd l)) /\ writes_of 0 l = [(lit "st", red); (lit "op", red)] /\
  tm_screen (term_feed sgr_style term_new (ansi_finished (map snd l))) =
  paint red (lit "st") ++ paint bold_blue (lit "go") ++ paint red (lit "op").
Proof. cbn zeta. split; [repeat constructor|]. split; reflexivity. Qed.
Print Assumptions C100_one_adaptor.
Print Assumptions C100_one_html_adaptor.
