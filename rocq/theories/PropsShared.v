(** Properties C87 and C88: several adaptors that write to one place. *)
From Verif Require Import Base Style Fmt Ansi Html Io StdIo SpecText TextFacts StyleFacts SpecTerminal SpecSgr
  SpecHtml SpecIo AnsiFacts HtmlFacts IoFacts Utf8Facts PropsAnsi PropsHtml PropsIo SpecAmbient PropsAmbient Shared SpecShared.

(** * Bookkeeping *)
Lemma own_snoc k es e : own k (es ++ [e]) = own_step k (own k es) e.
Proof. unfold own. now rewrite fold_left_app. Qed.

Lemma in_force_from_snoc es e : forall b st0,
  in_force_from b st0 (es ++ [e]) =
  match e with
  | Puts _ [] _ => in_force_from b st0 es
  | Puts _ (_ :: _) st => st
  | Finishes k => if style_eqb (own k (b ++ es)) style_default then in_force_from b st0 es else style_default
  end.
Proof.
  induction es as [|x es IH]; intros b st0; cbn [app in_force_from].
  - now rewrite app_nil_r.
  - rewrite IH. now rewrite <- app_assoc.
Qed.
Lemma in_force_snoc es e :
  in_force (es ++ [e]) =
  match e with
  | Puts _ [] _ => in_force es
  | Puts _ (_ :: _) st => st
  | Finishes k => if style_eqb (own k es) style_default then in_force es else style_default
  end.
Proof. apply (in_force_from_snoc es e [] style_default). Qed.

Lemma written_snoc es e :
  written (es ++ [e]) = written es ++ match e with Puts _ s st => [(s, st)] | Finishes _ => [] end.
Proof. unfold written. rewrite flat_map_app. cbn [flat_map]. now rewrite app_nil_r. Qed.

Lemma snoc_split {A} (es : list A) e before x after :
  es ++ [e] = before ++ x :: after ->
  (after = [] /\ before = es /\ x = e) \/ exists after', after = after' ++ [e] /\ es = before ++ x :: after'.
Proof.
  destruct after as [|y after] using rev_ind.
  - intros H. apply app_inj_tail in H as [-> ->]. now left.
  - clear IHafter. intros H. right. exists after.
    change (before ++ x :: after ++ [y]) with (before ++ (x :: after) ++ [y]) in H. rewrite app_assoc in H.
    apply app_inj_tail in H as [-> ->]. split; reflexivity.
Qed.

Lemma app_same_length {A} (a b c d : list A) : length a = length c -> a ++ b = c ++ d -> a = c /\ b = d.
Proof.
  revert c. induction a as [|x a IH]; intros [|y c] L H; try discriminate L; [now split|].
  injection H as -> H. injection L as L. destruct (IH c L H) as [-> ->]. now split.
Qed.

(** * Terminals *)
Definition crun (es : list event) : str * currents := fold_left ansi_group_step es group_start.
Definition screen_after (es : list event) : term style := term_feed sgr_style term_new (ansi_group es).

Lemma crun_snoc es e : crun (es ++ [e]) = ansi_group_step (crun es) e.
Proof. unfold crun. now rewrite fold_left_app. Qed.

Lemma crun_own es : forall k, snd (crun es) k = own k es.
Proof.
  induction es as [|e es IH] using rev_ind; intros k; [reflexivity|].
  rewrite crun_snoc, own_snoc. destruct e as [j s st|j]; cbn [ansi_group_step own_step snd].
  - rewrite ansi_write_string. cbn [fst an_current]. unfold set_current. rewrite (Nat.eqb_sym k j).
    destruct (Nat.eqb_spec j k) as [->|]; [|apply IH].
    destruct s as [|c s]; [cbn; apply IH|]. now rewrite last_style_paint.
  - unfold set_current. rewrite (Nat.eqb_sym k j). destruct (Nat.eqb_spec j k) as [->|]; [reflexivity|apply IH].
Qed.

Lemma group_puts es k s st :
  ansi_group (es ++ [Puts k s st]) =
  ansi_group es ++ match s with [] => [] | _ :: _ => esc (own k es) st ++ s end.
Proof.
  unfold ansi_group. change (fold_left ansi_group_step ?l group_start) with (crun l).
  rewrite crun_snoc. cbn [ansi_group_step fst]. rewrite ansi_write_string. cbn [fst an_inner an_current].
  rewrite crun_own. f_equal. destruct s as [|c s]; [reflexivity|]. now apply ansi_render_paint.
Qed.
Lemma group_finishes es k :
  ansi_group (es ++ [Finishes k]) = ansi_group es ++ esc (own k es) style_default.
Proof.
  unfold ansi_group. change (fold_left ansi_group_step ?l group_start) with (crun l).
  rewrite crun_snoc. cbn [ansi_group_step fst]. rewrite ansi_finish_string. cbn [fst an_inner an_current].
  now rewrite crun_own.
Qed.

Lemma after_nil : screen_after [] = mk_term Ground style_default [].
Proof. reflexivity. Qed.
Lemma after_puts es k s st :
  tm_state (screen_after es) = Ground -> no_controls s -> s <> [] ->
  let r := rend_step (own k es) st (tm_rend (screen_after es)) in
  screen_after (es ++ [Puts k s st]) = mk_term Ground r (tm_screen (screen_after es) ++ paint r s).
Proof.
  intros Hg Hc Hs r. unfold screen_after in *. rewrite group_puts.
  destruct s as [|c s]; [now destruct Hs|]. rewrite !feed_app.
  destruct (term_feed sgr_style term_new (ansi_group es)) as [g rd sc]. cbn [tm_state tm_rend tm_screen] in *. subst g.
  rewrite feed_esc, esc_codes_step. now rewrite feed_text.
Qed.
Lemma after_finishes es k :
  tm_state (screen_after es) = Ground ->
  screen_after (es ++ [Finishes k]) =
  mk_term Ground (rend_step (own k es) style_default (tm_rend (screen_after es))) (tm_screen (screen_after es)).
Proof.
  intros Hg. unfold screen_after in *. rewrite group_finishes, feed_app.
  destruct (term_feed sgr_style term_new (ansi_group es)) as [g rd sc]. cbn [tm_state tm_rend tm_screen] in *. subst g.
  now rewrite feed_esc, esc_codes_step.
Qed.
Lemma after_nothing es k st : screen_after (es ++ [Puts k [] st]) = screen_after es.
Proof. unfold screen_after. rewrite group_puts. now rewrite app_nil_r. Qed.

Lemma written_controls es e :
  no_controls (text_of (written (es ++ [e]))) ->
  no_controls (text_of (written es)) /\ forall k s st, e = Puts k s st -> no_controls s.
Proof.
  rewrite written_snoc. unfold text_of, no_controls. rewrite map_app, concat_app. intros H.
  apply Forall_app in H as [H1 H2]. split; [exact H1|]. intros k s st ->. cbn in H2. now rewrite app_nil_r in H2.
Qed.

Lemma takes_effect_step force o st : rend_step o st force = st <-> takes_effect force o st.
Proof.
  unfold rend_step, takes_effect. destruct (style_eqb_spec o st) as [->|Hn].
  - split.
    + intros ->. right. auto.
    + intros [[-> H]|(H1 & H2 & H3)]; [congruence|].
      specialize (H1 eq_refl). specialize (H2 eq_refl). specialize (H3 eq_refl).
      destruct force, st; cbn in *; congruence.
  - destruct (style_eqb_spec st style_default) as [->|Hd].
    + split; auto.
    + assert (HA : forall {A} (get : style -> A) (dec : forall x y : A, {x = y} + {x <> y}),
         (if dec (get o) (get st) then get force else get st) = get st <-> (get st = get o -> get force = get st)).
      { intros A get dec. destruct (dec (get o) (get st)) as [E|E]; split; intros H; try congruence.
        apply H. congruence. }
      rewrite <- (HA _ foreground color_eq_dec), <- (HA _ background color_eq_dec), <- (HA _ intens intensity_eq_dec).
      split.
      * intros H. right. split; [exact (f_equal foreground H)|split; [exact (f_equal background H)|exact (f_equal intens H)]].
      * intros [[H _]|(H1 & H2 & H3)]; [congruence|]. rewrite H1, H2, H3. now destruct st.
Qed.

(** Where things stand if everything was right so far. *)
Definition right_so_far (es : list event) : Prop :=
  forall before k s st after, es = before ++ Puts k s st :: after -> s <> [] ->
    takes_effect (in_force before) (own k before) st.

Lemma right_snoc es e :
  right_so_far (es ++ [e]) <->
  right_so_far es /\
  (forall k s st, e = Puts k s st -> s <> [] -> takes_effect (in_force es) (own k es) st).
Proof.
  split.
  - intros H. split.
    + intros before k s st after -> Hs. apply (H before k s st (after ++ [e])); [|exact Hs].
      now rewrite <- app_assoc.
    + intros k s st -> Hs. now apply (H es k s st []).
  - intros [H1 H2] before k s st after E Hs.
    destruct (snoc_split _ _ _ _ _ E) as [(-> & -> & E1)|(after' & -> & ->)].
    + apply (H2 k s st); [now symmetry|exact Hs].
    + now apply (H1 before k s st after').
Qed.

Lemma group_state es : no_controls (text_of (written es)) ->
  tm_state (screen_after es) = Ground /\ chars (tm_screen (screen_after es)) = text_of (written es).
Proof.
  induction es as [|e es IH] using rev_ind; intros Hc; [split; reflexivity|].
  apply written_controls in Hc as [Hc He]. destruct (IH Hc) as [Hg Ht].
  rewrite written_snoc. unfold text_of in *. rewrite map_app, concat_app.
  destruct e as [k s st|k].
  - destruct s as [|c s].
    + rewrite after_nothing. cbn. now rewrite app_nil_r.
    + rewrite (after_puts es k (c :: s) st Hg (He _ _ _ eq_refl)) by discriminate.
      cbn [tm_state tm_screen]. split; [reflexivity|]. rewrite chars_app, chars_paint. cbn [map concat fst].
      now rewrite Ht, app_nil_r.
  - rewrite (after_finishes es k Hg). cbn [tm_state tm_screen map concat]. now rewrite app_nil_r.
Qed.

Lemma group_right es : no_controls (text_of (written es)) ->
  (tm_screen (screen_after es) = denote (written es) <-> right_so_far es) /\
  (right_so_far es -> tm_rend (screen_after es) = in_force es).
Proof.
  induction es as [|e es IH] using rev_ind; intros Hc.
  - split; [|reflexivity]. split; [|reflexivity]. intros _ before k s st after E.
    now destruct before.
  - destruct (written_controls _ _ Hc) as [Hc1 He]. destruct (IH Hc1) as [IH1 IH2].
    destruct (group_state es Hc1) as [Hg Hlen].
    rewrite right_snoc, in_force_snoc, written_snoc, denote_app.
    destruct e as [k s st|k].
    + destruct s as [|c s].
      * rewrite after_nothing. cbn [denote paint map app]. rewrite app_nil_r. split.
        -- rewrite IH1. split; [|now intros [H _]]. intros H. split; [exact H|]. intros ? ? ? [= <- <- <-] Hs. congruence.
        -- intros [H _]. auto.
      * rewrite (after_puts es k (c :: s) st Hg (He _ _ _ eq_refl)) by discriminate. cbn [tm_screen tm_rend].
        set (r := rend_step (own k es) st (tm_rend (screen_after es))).
        assert (Hr : right_so_far es -> (r = st <-> takes_effect (in_force es) (own k es) st)).
        { intros H. unfold r. rewrite (IH2 H). apply takes_effect_step. }
        cbn [denote]. rewrite app_nil_r. split; [split|].
        -- intros H.
           assert (L : length (tm_screen (screen_after es)) = length (denote (written es))).
           { apply (f_equal (@length _)) in Hlen. unfold chars in Hlen. rewrite map_length in Hlen.
             rewrite Hlen, <- chars_denote. unfold chars. now rewrite map_length. }
           apply app_same_length in H as [H1 H2]; [|exact L].
           apply IH1 in H1. split; [exact H1|].
           intros k' s' st' [= <- <- <-] _. apply Hr; [exact H1|]. cbn in H2. now injection H2.
        -- intros [H1 H2]. rewrite (proj2 IH1 H1). f_equal.
           rewrite (proj2 (Hr H1) (H2 k (c :: s) st eq_refl ltac:(discriminate))). reflexivity.
        -- intros [H1 H2]. apply Hr; [exact H1|]. now apply (H2 k (c :: s) st).
    + rewrite (after_finishes es k Hg). cbn [tm_screen tm_rend denote]. rewrite app_nil_r. split.
      * rewrite IH1. split; [|now intros [H _]]. intros H. split; [exact H|]. discriminate.
      * intros [H _]. rewrite (IH2 H). unfold rend_step. rewrite style_eqb_refl. reflexivity.
Qed.

(** C87: exactly when several Ansi adaptors on one terminal show everything right. *)
Theorem C87_exact (es : list event) :
  no_controls (text_of (written es)) ->
  (tm_screen (term_feed sgr_style term_new (ansi_group es)) = denote (written es) <->
   forall before k s st after, es = before ++ Puts k s st :: after -> s <> [] ->
     takes_effect (in_force before) (own k before) st).
Proof. intros Hc. exact (proj1 (group_right es Hc)). Qed.
Print Assumptions C87_exact.

Lemma turns_prefix es e : taking_turns (es ++ [e]) ->
  taking_turns es /\ forall j, j <> who e -> own j es = style_default.
Proof.
  intros H. split.
  - intros before x after -> j Hj. apply (H before x (after ++ [e])); [|exact Hj]. now rewrite <- app_assoc.
  - intros j Hj. now apply (H es e []).
Qed.

Lemma turns_force es : taking_turns es ->
  exists k, in_force es = own k es /\ forall j, j <> k -> own j es = style_default.
Proof.
  induction es as [|e es IH] using rev_ind; intros H; [exists 0; split; reflexivity|].
  apply turns_prefix in H as [H1 H2]. destruct (IH H1) as (k0 & E & Hk0).
  assert (E' : in_force es = own (who e) es).
  { destruct (Nat.eq_dec k0 (who e)) as [<-|Hne]; [exact E|].
    rewrite E, (H2 k0 Hne). symmetry. apply Hk0. congruence. }
  exists (who e). rewrite in_force_snoc, own_snoc. split.
  - destruct e as [k s st|k]; cbn [who own_step] in *; rewrite Nat.eqb_refl.
    + destruct s; [exact E'|reflexivity].
    + destruct (style_eqb_spec (own k es) style_default) as [Ek|Ek]; [|reflexivity]. now rewrite E', Ek.
  - intros j Hj. rewrite own_snoc. specialize (H2 j Hj).
    destruct e as [k s st|k]; cbn [who own_step] in *; destruct (Nat.eqb_spec k j) as [->|_]; congruence.
Qed.

Lemma turns_right es : taking_turns es -> right_so_far es.
Proof.
  intros H before k s st after -> Hs.
  assert (Hb : taking_turns (before ++ [Puts k s st])).
  { intros b x a E j Hj. apply (H b x (a ++ after)); [|exact Hj].
    change (Puts k s st :: after) with ([Puts k s st] ++ after). rewrite app_assoc, E, <- app_assoc. reflexivity. }
  apply turns_prefix in Hb as [H1 H2]. destruct (turns_force before H1) as (k0 & E & Hk0).
  assert (E' : in_force before = own k before).
  { destruct (Nat.eq_dec k0 k) as [<-|Hne]; [exact E|].
    rewrite E, (H2 k0 Hne). symmetry. apply Hk0. congruence. }
  rewrite E'. right. repeat split; congruence.
Qed.

(** C87: if they take turns everything is shown in the order and style it was written in. *)
Theorem C87_taking_turns (es : list event) :
  no_controls (text_of (written es)) -> taking_turns es ->
  tm_screen (term_feed sgr_style term_new (ansi_group es)) = denote (written es).
Proof. intros Hc H. apply (proj1 (group_right es Hc)). now apply turns_right. Qed.
Print Assumptions C87_taking_turns.

(** C87: however they are used, every character is shown once, in order, and once all are finished
    (or back in the default style) the terminal is in the default style. *)
Theorem C87_left_reset (es : list event) :
  no_controls (text_of (written es)) ->
  let t := term_feed sgr_style term_new (ansi_group es) in
  tm_state t = Ground /\ chars (tm_screen t) = text_of (written es) /\
  (all_back es -> tm_rend t = style_default).
Proof.
  intros Hc t. destruct (group_state es Hc) as [Hg Ht]. split; [exact Hg|]. split; [exact Ht|].
  subst t. change (term_feed sgr_style term_new (ansi_group es)) with (screen_after es). clear Hg Ht.
  induction es as [|e es IH] using rev_ind; [reflexivity|]. intros Hb.
  apply written_controls in Hc as [Hc He]. destruct (group_state es Hc) as [Hg _].
  assert (Hb' : own (who e) es = style_default -> all_back es).
  { intros Hw j. destruct (Nat.eq_dec j (who e)) as [->|Hne]; [exact Hw|]. specialize (Hb j). rewrite own_snoc in Hb.
    destruct e as [k s st|k]; cbn [who own_step] in *; destruct (Nat.eqb_spec k j) as [->|_]; congruence. }
  assert (Hk := Hb (who e)). rewrite own_snoc in Hk.
  destruct e as [k s st|k]; cbn [who own_step] in *; rewrite Nat.eqb_refl in Hk.
  - destruct s as [|c s].
    + rewrite after_nothing. apply IH; auto.
    + subst st. rewrite (after_puts es k (c :: s) _ Hg (He _ _ _ eq_refl)) by discriminate. cbn [tm_rend].
      unfold rend_step. rewrite style_eqb_refl.
      destruct (style_eqb_spec (own k es) style_default) as [E|_]; [|reflexivity]. apply IH; auto.
  - rewrite (after_finishes es k Hg). cbn [tm_rend].
    unfold rend_step. rewrite style_eqb_refl.
    destruct (style_eqb_spec (own k es) style_default) as [E|_]; [|reflexivity]. apply IH; auto.
Qed.
Print Assumptions C87_left_reset.

(** C87: for io::Ansi over any honest sink, when every call succeeds, the sink receives the UTF-8
    bytes of the same output. *)
Lemma io_group_bytes {S} (sink : std_io S) (held : S -> bytes) (fuel : nat) g es s' :
  honest sink held -> io_group_run sink fuel g es s' ->
  forall before, (forall k, snd g k = own k before) ->
  exists out, ansi_group (before ++ es) = ansi_group before ++ out /\ held s' = held (fst g) ++ utf8 out.
Proof.
  intros Hh. induction 1 as [s cur|s cur k text st w' es s' E H IH|s cur k s1 es s' E H IH]; intros before Hown.
  - exists []. now rewrite !app_nil_r.
  - change (io_write_all (IoWrite_ansi fuel sink)) with (io_ansi_write_all fuel sink) in E.
    apply (io_write_all_ok _ sink held Hh) in E as [E1 E2]. cbn [ia_current ia_inner] in E1, E2.
    destruct (IH (before ++ [Puts k text st])) as (out & H1 & H2).
    { intros j. cbn [snd]. rewrite own_snoc. cbn [own_step]. unfold set_current. rewrite (Nat.eqb_sym j k).
      destruct (Nat.eqb_spec k j) as [->|_]; [|apply Hown].
      rewrite E1. destruct text as [|c text]; [apply Hown|].
      destruct (utf8 (c :: text)) as [|x l] eqn:Ec; [|reflexivity].
      apply (proj1 (utf8_nil (c :: text))) in Ec. discriminate. }
    rewrite <- app_assoc in H1. rewrite group_puts, <- app_assoc in H1. cbn [fst] in *.
    eexists. split; [exact H1|]. rewrite H2, E2, <- app_assoc. f_equal.
    rewrite utf8_app. f_equal. destruct text as [|c text]; [reflexivity|].
    rewrite utf8_app, <- (Hown k). cbn [snd].
    destruct (utf8 (c :: text)) as [|x l] eqn:Ec; [|reflexivity].
    apply (proj1 (utf8_nil (c :: text))) in Ec. discriminate.
  - apply (C33_finish sink held Hh) with (out := ansi_group before) in E as (new & E1 & E2).
    cbn [ia_current ia_inner] in E1, E2.
    destruct (IH (before ++ [Finishes k])) as (out & H1 & H2).
    { intros j. cbn [snd]. rewrite own_snoc. cbn [own_step]. unfold set_current. rewrite (Nat.eqb_sym j k).
      destruct (Nat.eqb_spec k j) as [->|_]; [reflexivity|apply Hown]. }
    rewrite <- app_assoc in H1. rewrite group_finishes, <- app_assoc in H1. cbn [fst snd] in *.
    eexists. split; [exact H1|]. rewrite H2, E2, utf8_app, <- app_assoc. f_equal. f_equal.
    rewrite ansi_finish_string in E1. cbn [an_inner an_current] in E1. injection E1 as E1.
    apply app_inv_head in E1. now rewrite <- E1, (Hown k).
Qed.

Theorem C87_io {S} (sink : std_io S) (held : S -> bytes) (fuel : nat) (es : list event) (s s' : S) :
  honest sink held -> io_group_run sink fuel (s, fun _ => ia_current (io_ansi_new s)) es s' ->
  held s' = held s ++ utf8 (ansi_group es).
Proof.
  intros Hh H. destruct (io_group_bytes sink held fuel _ _ _ Hh H [] (fun _ => eq_refl)) as (out & H1 & H2).
  cbn [app fst] in *. rewrite H2. now rewrite H1.
Qed.
Print Assumptions C87_io.

(** Two adaptors, standard output in red and an error message in default style: taking turns, and
    not taking turns. *)
Example C87_nonvacuous :
  let red := mk_style Red ColorDefault Normal in
  let good := [Puts 0 (lit "a") red; Puts 0 (lit "b") style_default; Puts 1 (lit "c") red; Finishes 1;
               Puts 0 (lit "d") red] in
  let bad := [Puts 0 (lit "a") red; Puts 1 (lit "c") style_default; Finishes 0; Finishes 1] in
  taking_turns good /\
  tm_screen (term_feed sgr_style term_new (ansi_group good)) = denote (written good) /\
  tm_screen (term_feed sgr_style term_new (ansi_group bad)) = [(97%N, red); (99%N, red)] /\
  all_back bad /\ tm_rend (term_feed sgr_style term_new (ansi_group bad)) = style_default.
Proof.
  split; [|split; [vm_compute; reflexivity|split; [vm_compute; reflexivity|split; [|vm_compute; reflexivity]]]].
  - intros before e after E j Hj.
    destruct before as [|? [|? [|? [|? [|? [|? ?]]]]]]; cbn in E; try discriminate E; injection E as; subst; cbn in Hj |- *;
      destruct j as [|[|j]]; try reflexivity; congruence.
  - intros [|[|k]]; reflexivity.
Qed.

Example C87_io_nonvacuous :
  let red := mk_style Red ColorDefault Normal in
  exists s', io_group_run (scripted 9) 9 (([], []), fun _ => style_default)
    [Puts 0 (lit "a") red; Puts 1 (lit "b") style_default; Finishes 0] s' /\
    fst s' = utf8 (ansi_group [Puts 0 (lit "a") red; Puts 1 (lit "b") style_default; Finishes 0]).
Proof.
  eexists. split.
  - eapply run_puts; [vm_compute; reflexivity|]. eapply run_puts; [vm_compute; reflexivity|].
    eapply run_finishes; [vm_compute; reflexivity|]. apply run_end.
  - vm_compute. reflexivity.
Qed.

(** * HTML *)
Definition hrun (es : list event) : str * currents := fold_left html_group_step es html_group_start.
Definition page_after (es : list event) : page := page_feed page_new (html_group es).

Lemma hrun_snoc es e : hrun (es ++ [e]) = html_group_step (hrun es) e.
Proof. unfold hrun. now rewrite fold_left_app. Qed.

Lemma hrun_own es : forall k, snd (hrun es) k = own k es.
Proof.
  induction es as [|e es IH] using rev_ind; intros k; [reflexivity|].
  rewrite hrun_snoc, own_snoc. destruct e as [j s st|j]; cbn [html_group_step own_step snd].
  - rewrite html_write_string. cbn [fst ht_current]. unfold set_current. rewrite (Nat.eqb_sym k j).
    destruct (Nat.eqb_spec j k) as [->|]; [|apply IH].
    destruct s as [|c s]; [cbn; apply IH|]. now rewrite last_style_paint.
  - unfold set_current. rewrite (Nat.eqb_sym k j). destruct (Nat.eqb_spec j k) as [->|]; [reflexivity|apply IH].
Qed.

Lemma hgroup_puts es k s st :
  html_group (es ++ [Puts k s st]) =
  html_group es ++ match s with [] => [] | _ :: _ => hesc (own k es) st ++ escaped s end.
Proof.
  unfold html_group. change (fold_left html_group_step ?l html_group_start) with (hrun l).
  rewrite hrun_snoc. cbn [html_group_step fst]. rewrite html_write_string. cbn [fst ht_inner ht_current].
  rewrite hrun_own. f_equal. destruct s as [|c s]; [reflexivity|]. now apply html_render_paint.
Qed.
Lemma hgroup_finishes es k :
  html_group (es ++ [Finishes k]) = html_group es ++ hesc (own k es) style_default.
Proof.
  unfold html_group. change (fold_left html_group_step ?l html_group_start) with (hrun l).
  rewrite hrun_snoc. cbn [html_group_step fst]. rewrite html_finish_string. cbn [fst ht_inner ht_current].
  now rewrite hrun_own.
Qed.

Lemma nested_from_snoc es e : forall b p,
  nested_from b p (es ++ [e]) =
  let q := nested_from b p es in
  match e with
  | Puts _ [] _ => q
  | Puts k ((_ :: _) as s) st =>
      let open := nest_step (own k (b ++ es)) st (fst q) in
      (open, snd q ++ map (fun c => (c, look_nested open)) s)
  | Finishes k => (nest_step (own k (b ++ es)) style_default (fst q), snd q)
  end.
Proof.
  induction es as [|x es IH]; intros b p; cbn [app nested_from].
  - now rewrite app_nil_r.
  - rewrite IH. now rewrite <- app_assoc.
Qed.
Lemma nested_snoc es e :
  nested (es ++ [e]) =
  match e with
  | Puts _ [] _ => nested es
  | Puts k ((_ :: _) as s) st =>
      let open := nest_step (own k es) st (fst (nested es)) in
      (open, snd (nested es) ++ map (fun c => (c, look_nested open)) s)
  | Finishes k => (nest_step (own k es) style_default (fst (nested es)), snd (nested es))
  end.
Proof. exact (nested_from_snoc es e [] ([], [])). Qed.

Fixpoint looks_of (open : list style) : list css :=
  match open with [] => [] | _ :: r => look_nested open :: looks_of r end.
Lemma looks_of_innermost open : innermost (looks_of open) = look_nested open.
Proof. now destruct open. Qed.
Lemma looks_of_length open : length (looks_of open) = length open.
Proof. induction open; cbn; congruence. Qed.

Lemma feed_change o st open cells :
  (o <> style_default -> open <> []) ->
  page_feed (mk_page Data (looks_of open) cells) (hesc o st) = mk_page Data (looks_of (nest_step o st open)) cells.
Proof.
  intros Hne. rewrite hesc_spec. unfold nest_step. destruct (style_eqb_spec o st) as [->|Hos]; [reflexivity|].
  rewrite pfeed_app.
  assert (E : page_feed (mk_page Data (looks_of open) cells) (close_tag o)
              = mk_page Data (looks_of (if style_eqb o style_default then open else tl open)) cells).
  { unfold close_tag. destruct (style_eqb_spec o style_default) as [->|Ho]; [reflexivity|].
    specialize (Hne Ho). destruct open as [|x open]; [congruence|]. reflexivity. }
  rewrite E, feed_open_within. unfold elements_within. rewrite looks_of_innermost.
  destruct (style_eqb st style_default); reflexivity.
Qed.

Lemma feed_escaped open s : forall cells,
  page_feed (mk_page Data open cells) (escaped s) = mk_page Data open (cells ++ map (fun c => (c, innermost open)) s).
Proof.
  induction s as [|c s IH]; intros cells; cbn [map].
  - cbn. now rewrite app_nil_r.
  - change (escaped (c :: s)) with (escaped_char c ++ escaped s).
    rewrite pfeed_app, feed_escaped_char.
    change (match open with [] => css_page | x :: _ => x end) with (innermost open).
    rewrite IH, <- app_assoc. reflexivity.
Qed.

(** Counting the adaptors that have an element open. *)
Lemma count_change (f g : nat -> bool) k n :
  k < n -> (forall j, j <> k -> g j = f j) ->
  length (filter g (seq 0 n)) + (if f k then 1 else 0) = length (filter f (seq 0 n)) + (if g k then 1 else 0).
Proof.
  intros Hk Hj.
  assert (H : forall l, NoDup l ->
    length (filter g l) + (if existsb (Nat.eqb k) l then if f k then 1 else 0 else 0)
    = length (filter f l) + (if existsb (Nat.eqb k) l then if g k then 1 else 0 else 0)).
  { induction 1 as [|x l Hx _ IH]; [reflexivity|]. cbn [filter existsb].
    destruct (Nat.eqb_spec k x) as [<-|Hne]; cbn [orb].
    - assert (Hn : existsb (Nat.eqb k) l = false).
      { destruct (existsb (Nat.eqb k) l) eqn:E; [|reflexivity]. apply existsb_exists in E as (y & Hy & Ey).
        apply Nat.eqb_eq in Ey. now subst y. }
      rewrite Hn in IH. destruct (f k), (g k); cbn [length]; lia.
    - rewrite (Hj x) by congruence. destruct (f x); cbn [length]; lia. }
  specialize (H (seq 0 n) (seq_NoDup n 0)).
  assert (He : existsb (Nat.eqb k) (seq 0 n) = true).
  { apply existsb_exists. exists k. split; [apply in_seq; lia|apply Nat.eqb_refl]. }
  now rewrite He in H.
Qed.

Lemma styled_snoc n es e : who e < n ->
  let b := fun st => if negb (style_eqb st style_default) then 1 else 0 in
  styled n (es ++ [e]) + b (own (who e) es) = styled n es + b (own (who e) (es ++ [e])).
Proof.
  intros Hn b. unfold styled, b.
  apply (count_change (fun k => negb (style_eqb (own k es) style_default))
                      (fun k => negb (style_eqb (own k (es ++ [e])) style_default)) (who e) n Hn).
  intros j Hj. rewrite own_snoc.
  destruct e as [k s st|k]; cbn [who own_step] in *; destruct (Nat.eqb_spec k j) as [->|_]; congruence.
Qed.

Lemma nested_inv n es : Forall (fun e => who e < n) es ->
  page_after es = mk_page Data (looks_of (fst (nested es))) (snd (nested es)) /\
  length (fst (nested es)) = styled n es.
Proof.
  induction es as [|e es IH] using rev_ind; intros Hn.
  - split; [reflexivity|]. unfold styled. induction (seq 0 n); [reflexivity|exact IHl].
  - apply Forall_app in Hn as [Hn He]. inversion He as [|? ? Hk _]; subst x l. clear He.
    destruct (IH Hn) as [IH1 IH2].
    assert (Hs := styled_snoc n es e Hk). cbn beta zeta in Hs. rewrite own_snoc in Hs.
    rewrite nested_snoc.
    assert (Hopen : own (who e) es <> style_default -> fst (nested es) <> []).
    { intros Ho E. rewrite E in IH2. cbn in IH2.
      assert (Hin : In (who e) (filter (fun k => negb (style_eqb (own k es) style_default)) (seq 0 n))).
      { apply filter_In. split; [apply in_seq; lia|]. now rewrite (style_eqb_neq _ _ Ho). }
      unfold styled in IH2. destruct (filter (fun k => negb (style_eqb (own k es) style_default)) (seq 0 n));
        [destruct Hin|discriminate IH2]. }
    assert (Hlen : forall st, length (nest_step (own (who e) es) st (fst (nested es)))
        + (if negb (style_eqb (own (who e) es) style_default) then 1 else 0)
        = styled n es + (if negb (style_eqb st style_default) then 1 else 0)).
    { intros st. unfold nest_step. rewrite <- IH2.
      destruct (style_eqb_spec (own (who e) es) st) as [->|Hne]; [reflexivity|].
      destruct (style_eqb_spec (own (who e) es) style_default) as [Eo|Eo]; cbn [negb].
      - destruct (style_eqb st style_default); cbn [negb length]; lia.
      - specialize (Hopen Eo). destruct (fst (nested es)) as [|x l]; [congruence|]. cbn [tl].
        destruct (style_eqb st style_default); cbn [negb length]; lia. }
    unfold page_after in *. destruct e as [k s st|k]; cbn [who own_step] in *; rewrite Nat.eqb_refl in Hs.
    + destruct s as [|c s].
      * rewrite hgroup_puts, app_nil_r. split; [exact IH1|]. cbn iota in Hs. lia.
      * rewrite hgroup_puts, !pfeed_app, IH1, feed_change by exact Hopen.
        rewrite feed_escaped, looks_of_innermost. cbn [fst snd]. split; [reflexivity|].
        cbn iota in Hs. specialize (Hlen st). lia.
    + rewrite hgroup_finishes, pfeed_app, IH1, feed_change by exact Hopen.
      cbn [fst snd]. split; [reflexivity|]. specialize (Hlen style_default). lia.
Qed.

Lemma bounded es : exists n, Forall (fun e => who e < n) es.
Proof.
  induction es as [|e es [n IH]]; [exists 0; constructor|].
  exists (Nat.max (Datatypes.S (who e)) n). constructor; [lia|].
  eapply Forall_impl; [|exact IH]. intros a Ha. cbv beta in *. lia.
Qed.

(** C88: what a browser shows of several Html adaptors writing into one document: every style
    change closes the innermost element, whoever opened it, and opens one inside those still open;
    there are as many open elements as there are adaptors in a style. *)
Theorem C88_exact (es : list event) (n : nat) :
  Forall (fun e => who e < n) es ->
  let p := page_feed page_new (html_group es) in
  pg_state p = Data /\ pg_cells p = snd (nested es) /\ length (pg_open p) = styled n es.
Proof.
  intros Hn p. subst p. change (page_feed page_new (html_group es)) with (page_after es).
  destruct (nested_inv n es Hn) as [-> H]. cbn [pg_state pg_cells pg_open]. now rewrite looks_of_length.
Qed.
Print Assumptions C88_exact.

Lemma nested_chars es : map fst (snd (nested es)) = text_of (written es).
Proof.
  induction es as [|e es IH] using rev_ind; [reflexivity|].
  rewrite nested_snoc, written_snoc. unfold text_of in *. rewrite map_app, concat_app, <- IH.
  destruct e as [k s st|k]; [destruct s as [|c s]|].
  - cbn. now rewrite app_nil_r.
  - cbn zeta. cbn [snd]. rewrite map_app, map_map. cbn [fst]. rewrite map_id.
    change (concat (map fst [(c :: s, st)])) with ((c :: s) ++ []). now rewrite app_nil_r.
  - cbn. now rewrite app_nil_r.
Qed.

(** C88: however they are used, every character is shown once, in order, and once all are finished
    (or back in the default style) no element is open. *)
Theorem C88_well_formed (es : list event) :
  let p := page_feed page_new (html_group es) in
  pg_state p = Data /\ map fst (pg_cells p) = text_of (written es) /\
  (all_back es -> pg_open p = []).
Proof.
  intros p. subst p. change (page_feed page_new (html_group es)) with (page_after es).
  destruct (bounded es) as (n & Hn). destruct (nested_inv n es Hn) as [-> H]. cbn [pg_state pg_cells pg_open].
  split; [reflexivity|]. split; [apply nested_chars|]. intros Hb.
  assert (E : styled n es = 0).
  { unfold styled. induction (seq 0 n) as [|k l IHl]; [reflexivity|]. cbn [filter].
    rewrite (Hb k), style_eqb_refl. exact IHl. }
  rewrite E in H. destruct (fst (nested es)); [reflexivity|discriminate H].
Qed.
Print Assumptions C88_well_formed.

Lemma look_single st : look_nested (if style_eqb st style_default then [] else [st]) = css_look st.
Proof.
  destruct (style_eqb_spec st style_default) as [->|H]; [reflexivity|].
  cbn [look_nested]. destruct st as [f b i]; destruct f, b, i; reflexivity.
Qed.

Lemma turns_nested es : taking_turns es ->
  snd (nested es) = looks (denote (written es)) /\
  exists k, fst (nested es) = (if style_eqb (own k es) style_default then [] else [own k es]) /\
    forall j, j <> k -> own j es = style_default.
Proof.
  induction es as [|e es IH] using rev_ind; intros H.
  - split; [reflexivity|]. exists 0. split; reflexivity.
  - apply turns_prefix in H as [H1 H2]. destruct (IH H1) as (IHc & k0 & E & Hk0).
    assert (E' : fst (nested es) = (if style_eqb (own (who e) es) style_default then [] else [own (who e) es])).
    { destruct (Nat.eq_dec k0 (who e)) as [<-|Hne]; [exact E|].
      rewrite E, (H2 k0 Hne), (Hk0 (who e)) by congruence. reflexivity. }
    assert (Hoth : forall j, j <> who e -> own j (es ++ [e]) = style_default).
    { intros j Hj. rewrite own_snoc. specialize (H2 j Hj).
      destruct e as [k s st|k]; cbn [who own_step] in *; destruct (Nat.eqb_spec k j) as [->|_]; congruence. }
    assert (Hst : forall st, nest_step (own (who e) es) st (fst (nested es))
                             = if style_eqb st style_default then [] else [st]).
    { intros st. unfold nest_step. rewrite E'. destruct (style_eqb_spec (own (who e) es) st) as [->|_]; [reflexivity|].
      destruct (style_eqb (own (who e) es) style_default); reflexivity. }
    rewrite nested_snoc, written_snoc, denote_app.
    destruct e as [k s st|k]; cbn [who] in *.
    + destruct s as [|c s].
      * cbn [denote paint map app]. rewrite app_nil_r. split; [exact IHc|]. exists k.
        rewrite own_snoc. cbn [own_step]. rewrite Nat.eqb_refl. split; [exact E'|exact Hoth].
      * rewrite Hst. cbn [fst snd]. rewrite look_single. split.
        -- rewrite IHc. cbn [denote]. rewrite app_nil_r. unfold looks. rewrite map_app. f_equal.
           unfold paint. rewrite map_map. reflexivity.
        -- exists k. rewrite own_snoc. cbn [own_step]. rewrite Nat.eqb_refl. split; [reflexivity|exact Hoth].
    + cbn [fst snd denote]. rewrite app_nil_r. split; [exact IHc|]. exists k.
      rewrite Hst, own_snoc. cbn [own_step]. rewrite Nat.eqb_refl. split; [reflexivity|exact Hoth].
Qed.

(** C88: if they take turns everything is shown in the order and style it was written in. *)
Theorem C88_taking_turns (es : list event) :
  taking_turns es ->
  pg_cells (page_feed page_new (html_group es)) = map (fun cs => (fst cs, css_look (snd cs))) (denote (written es)).
Proof.
  intros H. destruct (bounded es) as (n & Hn). change (page_feed page_new (html_group es)) with (page_after es).
  destruct (nested_inv n es Hn) as [-> _]. exact (proj1 (turns_nested es H)).
Qed.
Print Assumptions C88_taking_turns.

Example C88_nonvacuous :
  let red := mk_style Red ColorDefault Normal in let bold := mk_style ColorDefault ColorDefault Bold in
  let es := [Puts 0 (lit "a") red; Puts 1 (lit "<") bold; Puts 0 (lit "c") style_default; Finishes 1] in
  Forall (fun e => who e < 2) es /\ all_back es /\
  nested es = ([], [(97%N, css_look red); (60%N, css_look (mk_style Red ColorDefault Bold)); (99%N, css_look red)]) /\
  html_group es = lit "<span style=color:red>a<span style=font-weight:bolder>&lt;</span>c</span>".
Proof.
  split; [repeat constructor|]. split; [intros [|[|k]]; reflexivity|]. split; vm_compute; reflexivity.
Qed.
