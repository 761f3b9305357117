(** Property C103: clones of adaptors. *)
From Verif Require Import Base Style Fmt Ansi Html Plain Io StdIo SpecText TextFacts StyleFacts SpecTerminal SpecSgr AnsiFacts FormatFacts SpecHtml HtmlFacts
  SpecIo IoFacts Utf8Facts PropsIo
  SpecAmbient SpecShared Shared PropsAnsi PropsHtml PropsAmbient PropsShared Clones SpecClones.

(** * A String each *)
Lemma owned_histories {W} (write : write_fn W) (clone : W -> W) (new : W) es :
  (forall w, clone w = w) ->
  (forall w s st, snd (write w s st) = Returned Ok) ->
  forall k, play write (histories es k) new = (owned write clone new es k, Returned Ok).
Proof.
  intros Hc Hw. unfold histories, owned.
  assert (Hsnoc : forall h s st w w1, play write h w = (w1, Returned Ok) ->
            play write (h ++ [(s, st)]) w = (fst (write w1 s st), Returned Ok)).
  { induction h as [|[s0 st0] h IH]; intros s st w w1; cbn [play app].
    - intros [= <-]. specialize (Hw w s st). destruct (write w s st) as [w' o]. cbn in *. now subst o.
    - destruct (write w s0 st0) as [w' [[|]|]]; try discriminate. apply IH. }
  induction es as [|e es IH] using rev_ind; intros k; [reflexivity|].
  rewrite !fold_left_app. cbn [fold_left].
  set (hs := fold_left histories_step es (fun _ => [])) in *.
  set (ws := fold_left (owned_step write clone new) es (fun _ => new)) in *.
  destruct e as [[j s st|j]|j i]; cbn [histories_step owned_step]; unfold set_adaptor.
  - destruct (Nat.eqb_spec k j) as [->|_]; [|apply IH]. apply Hsnoc, IH.
  - destruct (Nat.eqb_spec k j) as [->|_]; [reflexivity|apply IH].
  - destruct (Nat.eqb_spec k i) as [->|_]; [|apply IH]. rewrite Hc. apply IH.
Qed.

(** C103: clones over a String each are independent: what finishing any of them returns is what a
    single adaptor returns that was told to write what it and those it was cloned from wrote. *)
Theorem C103_independent (es : list cevent) (k : nat) :
  ansi_finish string_sink (owned_ansi es k) = (ansi_finished (histories es k), Returned Ok) /\
  html_finish string_sink (owned_html es k) = (html_finished (histories es k), Returned Ok) /\
  plain_into_inner (owned_plain es k) = text_of (histories es k).
Proof.
  split; [|split].
  - assert (H := owned_histories (ansi_write_str string_sink) (ansi_clone string_clone) (ansi_new []) es).
    specialize (H ltac:(now intros []) ltac:(intros w s st; now rewrite ansi_write_string) k).
    change (owned (ansi_write_str string_sink) (ansi_clone string_clone) (ansi_new [])) with owned_ansi in H.
    unfold ansi_finished. rewrite H. cbn [fst]. rewrite ansi_finish_string. reflexivity.
  - assert (H := owned_histories (html_write_str string_sink) (html_clone string_clone) (html_new []) es).
    specialize (H ltac:(now intros []) ltac:(intros w s st; now rewrite html_write_string) k).
    change (owned (html_write_str string_sink) (html_clone string_clone) (html_new [])) with owned_html in H.
    unfold html_finished. rewrite H. cbn [fst]. rewrite html_finish_string. reflexivity.
  - assert (H := owned_histories (plain_write_str string_sink) (plain_clone string_clone) (plain_new []) es).
    specialize (H ltac:(now intros []) ltac:(reflexivity) k).
    change (owned (plain_write_str string_sink) (plain_clone string_clone) (plain_new [])) with owned_plain in H.
    rewrite plain_play in H. injection H as H. now rewrite <- H.
Qed.
Print Assumptions C103_independent.

Example C103_independent_nonvacuous :
  let red := mk_style Red ColorDefault Normal in
  let es := [Does (Puts 0 (lit "a") red); Clones 0 1; Does (Puts 0 (lit "b") style_default); Does (Puts 1 (lit "c") red)] in
  histories es 1 = [(lit "a", red); (lit "c", red)] /\
  fst (html_finish string_sink (owned_html es 0)) = lit "<span style=color:red>a</span>b" /\
  fst (html_finish string_sink (owned_html es 1)) = lit "<span style=color:red>ac</span>".
Proof. repeat split; vm_compute; reflexivity. Qed.

(** C103: a default adaptor is a new one over a default inner writer. *)
Theorem C103_default {S} (d : S) :
  ansi_default d = ansi_new d /\ html_default d = html_new d /\ plain_default d = plain_new d.
Proof. split; [reflexivity|split; reflexivity]. Qed.
Print Assumptions C103_default.

(** * Handles *)
Lemma style_of_snoc i es e :
  style_of i (es ++ [e]) =
  match e with
  | Does e' => own_step i (style_of i es) e'
  | Clones k j => if Nat.eqb i j then style_of k es else style_of i es
  end.
Proof.
  unfold style_of, histories. rewrite fold_left_app. cbn [fold_left].
  set (hs := fold_left histories_step es (fun _ => [])).
  destruct e as [[k s st|k]|k j]; cbn [histories_step own_step].
  - rewrite (Nat.eqb_sym k i). destruct (Nat.eqb_spec i k) as [->|_]; [|reflexivity].
    rewrite denote_app, last_style_app. cbn [denote]. rewrite app_nil_r.
    destruct s as [|c s]; [reflexivity|]. now apply last_style_paint.
  - rewrite (Nat.eqb_sym k i). destruct (Nat.eqb i k); reflexivity.
  - destruct (Nat.eqb i j); reflexivity.
Qed.

Lemma all_written_snoc es e :
  all_written (es ++ [e]) = all_written es ++ match e with Does (Puts _ s st) => [(s, st)] | _ => [] end.
Proof.
  unfold all_written, written. rewrite !flat_map_app. f_equal. destruct e as [[k s st|k]|k j]; reflexivity.
Qed.

Lemma force_snoc es e :
  force (es ++ [e]) =
  match e with
  | Does (Puts _ [] _) => force es
  | Does (Puts _ (_ :: _) st) => st
  | Does (Finishes k) => if style_eqb (style_of k es) style_default then force es else style_default
  | Clones _ _ => force es
  end.
Proof.
  unfold force.
  assert (H : forall b st0, force_from b st0 (es ++ [e]) =
    match e with
    | Does (Puts _ [] _) => force_from b st0 es
    | Does (Puts _ (_ :: _) st) => st
    | Does (Finishes k) => if style_eqb (style_of k (b ++ es)) style_default then force_from b st0 es else style_default
    | Clones _ _ => force_from b st0 es
    end).
  { induction es as [|x es IH]; intros b st0; cbn [app force_from].
    - rewrite app_nil_r. destruct e as [[k [|c s] st|k]|k j]; reflexivity.
    - rewrite IH. now rewrite <- app_assoc. }
  exact (H [] style_default).
Qed.

Definition krun (es : list cevent) : str * currents := fold_left ansi_clones_step es group_start.
Definition seen (es : list cevent) : term style := term_feed sgr_style term_new (ansi_clones es).
Lemma krun_snoc es e : krun (es ++ [e]) = ansi_clones_step (krun es) e.
Proof. unfold krun. now rewrite fold_left_app. Qed.
Lemma krun_style es : forall i, snd (krun es) i = style_of i es.
Proof.
  induction es as [|e es IH] using rev_ind; intros i; [reflexivity|].
  rewrite krun_snoc, style_of_snoc. destruct e as [[j s st|j]|k j]; cbn [ansi_clones_step ansi_group_step own_step snd].
  - rewrite ansi_write_string. cbn [fst an_current]. unfold set_current. rewrite (Nat.eqb_sym i j).
    destruct (Nat.eqb_spec j i) as [->|]; [|apply IH].
    destruct s as [|c s]; [cbn; apply IH|]. now rewrite last_style_paint.
  - unfold set_current. rewrite (Nat.eqb_sym i j). destruct (Nat.eqb_spec j i) as [->|]; [reflexivity|apply IH].
  - unfold set_current. destruct (Nat.eqb_spec i j) as [->|]; apply IH.
Qed.

Lemma clones_snoc es e :
  ansi_clones (es ++ [e]) =
  ansi_clones es ++
  match e with
  | Does (Puts _ [] _) => []
  | Does (Puts k ((_ :: _) as s) st) => esc (style_of k es) st ++ s
  | Does (Finishes k) => esc (style_of k es) style_default
  | Clones _ _ => []
  end.
Proof.
  unfold ansi_clones. change (fold_left ansi_clones_step ?l group_start) with (krun l).
  rewrite krun_snoc. destruct e as [[k s st|k]|k j]; cbn [ansi_clones_step ansi_group_step fst].
  - rewrite ansi_write_string. cbn [fst an_inner an_current]. rewrite krun_style. f_equal.
    destruct s as [|c s]; [reflexivity|]. now apply ansi_render_paint.
  - rewrite ansi_finish_string. cbn [fst an_inner an_current]. now rewrite krun_style.
  - cbn. now rewrite app_nil_r.
Qed.

Lemma seen_puts es k s st :
  tm_state (seen es) = Ground -> no_controls s -> s <> [] ->
  let r := rend_step (style_of k es) st (tm_rend (seen es)) in
  seen (es ++ [Does (Puts k s st)]) = mk_term Ground r (tm_screen (seen es) ++ paint r s).
Proof.
  intros Hg Hc Hs r. unfold seen in *. rewrite clones_snoc.
  destruct s as [|c s]; [now destruct Hs|]. rewrite !feed_app.
  destruct (term_feed sgr_style term_new (ansi_clones es)) as [g rd sc]. cbn [tm_state tm_rend tm_screen] in *. subst g.
  rewrite feed_esc, esc_codes_step. now rewrite feed_text.
Qed.
Lemma seen_finishes es k :
  tm_state (seen es) = Ground ->
  seen (es ++ [Does (Finishes k)]) =
  mk_term Ground (rend_step (style_of k es) style_default (tm_rend (seen es))) (tm_screen (seen es)).
Proof.
  intros Hg. unfold seen in *. rewrite clones_snoc, feed_app.
  destruct (term_feed sgr_style term_new (ansi_clones es)) as [g rd sc]. cbn [tm_state tm_rend tm_screen] in *. subst g.
  now rewrite feed_esc, esc_codes_step.
Qed.
Lemma seen_nothing es k st : seen (es ++ [Does (Puts k [] st)]) = seen es.
Proof. unfold seen. rewrite clones_snoc. now rewrite app_nil_r. Qed.
Lemma seen_clone es k j : seen (es ++ [Clones k j]) = seen es.
Proof. unfold seen. rewrite clones_snoc. now rewrite app_nil_r. Qed.

Lemma all_controls es e :
  no_controls (text_of (all_written (es ++ [e]))) ->
  no_controls (text_of (all_written es)) /\ forall k s st, e = Does (Puts k s st) -> no_controls s.
Proof.
  rewrite all_written_snoc. unfold text_of, no_controls. rewrite map_app, concat_app. intros H.
  apply Forall_app in H as [H1 H2]. split; [exact H1|]. intros k s st ->. cbn in H2. now rewrite app_nil_r in H2.
Qed.

Lemma seen_state es : no_controls (text_of (all_written es)) ->
  tm_state (seen es) = Ground /\ chars (tm_screen (seen es)) = text_of (all_written es).
Proof.
  induction es as [|e es IH] using rev_ind; intros Hc; [split; reflexivity|].
  apply all_controls in Hc as [Hc He]. destruct (IH Hc) as [Hg Ht].
  rewrite all_written_snoc. unfold text_of in *. rewrite map_app, concat_app.
  destruct e as [[k s st|k]|k j].
  - destruct s as [|c s].
    + rewrite seen_nothing. cbn. now rewrite app_nil_r.
    + rewrite (seen_puts es k (c :: s) st Hg (He _ _ _ eq_refl)) by discriminate.
      cbn [tm_state tm_screen]. split; [reflexivity|]. rewrite chars_app, chars_paint. cbn [map concat fst].
      now rewrite Ht, app_nil_r.
  - rewrite (seen_finishes es k Hg). cbn [tm_state tm_screen map concat]. now rewrite app_nil_r.
  - rewrite seen_clone. cbn [map concat]. now rewrite app_nil_r.
Qed.

(** C103: Ansi adaptors and clones of them on one terminal, used in any way: every character is shown
    once, in order, and once all are finished (or back in the default style) the terminal is in the
    default style, also if a clone was made in the middle of a style. *)
Theorem C103_terminal (es : list cevent) :
  no_controls (text_of (all_written es)) ->
  let t := term_feed sgr_style term_new (ansi_clones es) in
  tm_state t = Ground /\ chars (tm_screen t) = text_of (all_written es) /\
  (none_dropped es -> everyone_back es -> tm_rend t = style_default).
Proof.
  intros Hc t. destruct (seen_state es Hc) as [Hg Ht]. split; [exact Hg|]. split; [exact Ht|].
  subst t. change (term_feed sgr_style term_new (ansi_clones es)) with (seen es). clear Hg Ht.
  induction es as [|e es IH] using rev_ind; [reflexivity|]. intros Hd Hb.
  apply all_controls in Hc as [Hc He]. destruct (seen_state es Hc) as [Hg _].
  assert (Hd' : none_dropped es).
  { intros before k j after ->. apply (Hd before k j (after ++ [e])). now rewrite <- app_assoc. }
  destruct e as [e|k j].
  - assert (Hb' : style_of (who e) es = style_default -> everyone_back es).
    { intros Hw j. destruct (Nat.eq_dec j (who e)) as [->|Hne]; [exact Hw|]. specialize (Hb j). rewrite style_of_snoc in Hb.
      destruct e as [k s st|k]; cbn [who own_step] in *; destruct (Nat.eqb_spec k j) as [->|_]; congruence. }
    assert (Hk := Hb (who e)). rewrite style_of_snoc in Hk.
    destruct e as [k s st|k]; cbn [who own_step] in *; rewrite Nat.eqb_refl in Hk.
    + destruct s as [|c s].
      * rewrite seen_nothing. apply IH; auto.
      * subst st. rewrite (seen_puts es k (c :: s) _ Hg (He _ _ _ eq_refl)) by discriminate. cbn [tm_rend].
        unfold rend_step. rewrite style_eqb_refl.
        destruct (style_eqb_spec (style_of k es) style_default) as [E|_]; [|reflexivity]. apply IH; auto.
    + rewrite (seen_finishes es k Hg). cbn [tm_rend].
      unfold rend_step. rewrite style_eqb_refl.
      destruct (style_eqb_spec (style_of k es) style_default) as [E|_]; [|reflexivity]. apply IH; auto.
  - rewrite seen_clone. apply (IH Hc Hd'). intros i.
    destruct (Nat.eq_dec i j) as [->|Hne]; [exact (Hd es k j [] eq_refl)|].
    specialize (Hb i). rewrite style_of_snoc in Hb. destruct (Nat.eqb_spec i j); [contradiction|exact Hb].
Qed.
Print Assumptions C103_terminal.

Definition right_yet (es : list cevent) : Prop :=
  forall before k s st after, es = before ++ Does (Puts k s st) :: after -> s <> [] ->
    takes_effect (force before) (style_of k before) st.
Lemma yet_snoc es e :
  right_yet (es ++ [e]) <->
  right_yet es /\
  (forall k s st, e = Does (Puts k s st) -> s <> [] -> takes_effect (force es) (style_of k es) st).
Proof.
  split.
  - intros H. split.
    + intros before k s st after -> Hs. apply (H before k s st (after ++ [e])); [|exact Hs].
      now rewrite <- app_assoc.
    + intros k s st -> Hs. now apply (H es k s st []).
  - intros [H1 H2] before k s st after E Hs.
    destruct (snoc_split _ _ _ _ _ E) as [(-> & -> & E1)|(after' & -> & ->)].
    + apply (H2 k s st); [now symmetry|exact Hs].
    + now apply (H1 before k s st after').
Qed.

Lemma seen_right es : no_controls (text_of (all_written es)) ->
  (tm_screen (seen es) = denote (all_written es) <-> right_yet es) /\
  (right_yet es -> tm_rend (seen es) = force es).
Proof.
  induction es as [|e es IH] using rev_ind; intros Hc.
  - split; [|reflexivity]. split; [|reflexivity]. intros _ before k s st after E.
    now destruct before.
  - destruct (all_controls _ _ Hc) as [Hc1 He]. destruct (IH Hc1) as [IH1 IH2].
    destruct (seen_state es Hc1) as [Hg Hlen].
    rewrite yet_snoc, force_snoc, all_written_snoc, denote_app.
    destruct e as [[k s st|k]|k j].
    + destruct s as [|c s].
      * rewrite seen_nothing. cbn [denote paint map app]. rewrite app_nil_r. split.
        -- rewrite IH1. split; [|now intros [H _]]. intros H. split; [exact H|]. intros ? ? ? [= <- <- <-] Hs. congruence.
        -- intros [H _]. auto.
      * rewrite (seen_puts es k (c :: s) st Hg (He _ _ _ eq_refl)) by discriminate. cbn [tm_screen tm_rend].
        set (r := rend_step (style_of k es) st (tm_rend (seen es))).
        assert (Hr : right_yet es -> (r = st <-> takes_effect (force es) (style_of k es) st)).
        { intros H. unfold r. rewrite (IH2 H). apply takes_effect_step. }
        cbn [denote]. rewrite app_nil_r. split; [split|].
        -- intros H.
           assert (L : length (tm_screen (seen es)) = length (denote (all_written es))).
           { apply (f_equal (@length _)) in Hlen. unfold chars in Hlen. rewrite map_length in Hlen.
             rewrite Hlen, <- chars_denote. unfold chars. now rewrite map_length. }
           apply app_same_length in H as [H1 H2]; [|exact L].
           apply IH1 in H1. split; [exact H1|].
           intros k' s' st' [= <- <- <-] _. apply Hr; [exact H1|]. cbn in H2. now injection H2.
        -- intros [H1 H2]. rewrite (proj2 IH1 H1). f_equal.
           rewrite (proj2 (Hr H1) (H2 k (c :: s) st eq_refl ltac:(discriminate))). reflexivity.
        -- intros [H1 H2]. apply Hr; [exact H1|]. now apply (H2 k (c :: s) st).
    + rewrite (seen_finishes es k Hg). cbn [tm_screen tm_rend denote]. rewrite app_nil_r. split.
      * rewrite IH1. split; [|now intros [H _]]. intros H. split; [exact H|]. discriminate.
      * intros [H _]. rewrite (IH2 H). unfold rend_step. rewrite style_eqb_refl. reflexivity.
    + rewrite seen_clone. cbn [denote]. rewrite app_nil_r. split.
      * rewrite IH1. split; [|now intros [H _]]. intros H. split; [exact H|]. discriminate.
      * intros [H _]. auto.
Qed.

(** C103: and exactly when everything is shown in its style. *)
Theorem C103_exact (es : list cevent) :
  no_controls (text_of (all_written es)) ->
  (tm_screen (term_feed sgr_style term_new (ansi_clones es)) = denote (all_written es) <->
   forall before k s st after, es = before ++ Does (Puts k s st) :: after -> s <> [] ->
     takes_effect (force before) (style_of k before) st).
Proof. intros Hc. exact (proj1 (seen_right es Hc)). Qed.
Print Assumptions C103_exact.

(** Adaptor 0 writes in red and is cloned; both write on in red, and both are finished. *)
Example C103_terminal_nonvacuous :
  let red := mk_style Red ColorDefault Normal in
  let es := [Does (Puts 0 (lit "a") red); Clones 0 1; Does (Puts 1 (lit "b") red); Does (Puts 0 (lit "c") red);
             Does (Finishes 1); Does (Finishes 0)] in
  none_dropped es /\ everyone_back es /\ cloned_in_style es /\
  tm_screen (term_feed sgr_style term_new (ansi_clones es)) = denote (all_written es) /\
  ansi_clones es = [27%N] ++ lit "[31mabc" ++ [27%N] ++ lit "[0m" ++ [27%N] ++ lit "[0m".
Proof.
  split; [|split; [|split; [|split; vm_compute; reflexivity]]].
  - intros before k j after E.
    destruct before as [|? [|? [|? [|? [|? [|? [|? ?]]]]]]]; cbn in E; try discriminate E; injection E as; subst; reflexivity.
  - intros [|[|k]]; reflexivity.
  - eexists [_], 0, 1, _. split; [reflexivity|]. discriminate.
Qed.

(** * HTML *)
Definition qrun (es : list cevent) : str * currents := fold_left html_clones_step es html_group_start.
Definition browsed (es : list cevent) : page := page_feed page_new (html_clones es).
Lemma qrun_snoc es e : qrun (es ++ [e]) = html_clones_step (qrun es) e.
Proof. unfold qrun. now rewrite fold_left_app. Qed.
Lemma qrun_style es : forall i, snd (qrun es) i = style_of i es.
Proof.
  induction es as [|e es IH] using rev_ind; intros i; [reflexivity|].
  rewrite qrun_snoc, style_of_snoc. destruct e as [[j s st|j]|k j]; cbn [html_clones_step html_group_step own_step snd].
  - rewrite html_write_string. cbn [fst ht_current]. unfold set_current. rewrite (Nat.eqb_sym i j).
    destruct (Nat.eqb_spec j i) as [->|]; [|apply IH].
    destruct s as [|c s]; [cbn; apply IH|]. now rewrite last_style_paint.
  - unfold set_current. rewrite (Nat.eqb_sym i j). destruct (Nat.eqb_spec j i) as [->|]; [reflexivity|apply IH].
  - unfold set_current. destruct (Nat.eqb_spec i j) as [->|]; apply IH.
Qed.
Lemma hclones_snoc es e :
  html_clones (es ++ [e]) =
  html_clones es ++
  match e with
  | Does (Puts _ [] _) => []
  | Does (Puts k ((_ :: _) as s) st) => hesc (style_of k es) st ++ escaped s
  | Does (Finishes k) => hesc (style_of k es) style_default
  | Clones _ _ => []
  end.
Proof.
  unfold html_clones. change (fold_left html_clones_step ?l html_group_start) with (qrun l).
  rewrite qrun_snoc. destruct e as [[k s st|k]|k j]; cbn [html_clones_step html_group_step fst].
  - rewrite html_write_string. cbn [fst ht_inner ht_current]. rewrite qrun_style. f_equal.
    destruct s as [|c s]; [reflexivity|]. now apply html_render_paint.
  - rewrite html_finish_string. cbn [fst ht_inner ht_current]. now rewrite qrun_style.
  - cbn. now rewrite app_nil_r.
Qed.

Lemma broken_stays p s : pg_state p = Broken -> page_feed p s = p.
Proof.
  revert p. induction s as [|c s IH]; intros p H; [reflexivity|].
  unfold page_feed in *. cbn [fold_left]. unfold page_step at 2. rewrite H. now apply IH.
Qed.

(** The elements, innermost first; none if a close tag had none to close. *)
Definition elem_step (o st : style) (open : list style) : option (list style) :=
  if style_eqb o st then Some open
  else if style_eqb o style_default then Some (if style_eqb st style_default then open else st :: open)
  else match open with
       | [] => None
       | _ :: r => Some (if style_eqb st style_default then r else st :: r)
       end.
Lemma feed_elem o st open cells :
  match elem_step o st open with
  | Some open' => page_feed (mk_page Data (looks_of open) cells) (hesc o st) = mk_page Data (looks_of open') cells
  | None => pg_state (page_feed (mk_page Data (looks_of open) cells) (hesc o st)) = Broken
  end.
Proof.
  unfold elem_step. destruct (style_eqb_spec o st) as [->|Hos].
  - rewrite hesc_same. reflexivity.
  - destruct (style_eqb_spec o style_default) as [->|Ho].
    + rewrite feed_change by congruence. unfold nest_step. rewrite (style_eqb_neq _ _ Hos), style_eqb_refl.
      reflexivity.
    + destruct open as [|x open].
      * rewrite hesc_spec, (style_eqb_neq _ _ Hos), pfeed_app. unfold close_tag. rewrite (style_eqb_neq _ _ Ho).
        rewrite broken_stays; reflexivity.
      * rewrite feed_change by congruence. unfold nest_step. rewrite (style_eqb_neq _ _ Hos), (style_eqb_neq _ _ Ho).
        reflexivity.
Qed.

(** How many of the first [n] are in a style. *)
Definition in_style (n : nat) (es : list cevent) : nat :=
  length (filter (fun k => negb (style_eqb (style_of k es) style_default)) (seq 0 n)).
Definition one (st : style) : nat := if style_eqb st style_default then 0 else 1.
Definition changed (e : cevent) : nat := match e with Does e => who e | Clones _ j => j end.
Lemma in_style_snoc n es e : changed e < n ->
  in_style n (es ++ [e]) + one (style_of (changed e) es) = in_style n es + one (style_of (changed e) (es ++ [e])).
Proof.
  intros Hn. unfold in_style, one.
  assert (H := count_change (fun k => negb (style_eqb (style_of k es) style_default))
                      (fun k => negb (style_eqb (style_of k (es ++ [e])) style_default)) (changed e) n Hn).
  cbv beta in H.
  assert (Hn1 : forall b : bool, (if negb b then 1 else 0) = if b then 0 else 1) by now intros [].
  rewrite !Hn1 in H.
  apply H. intros j Hj. rewrite style_of_snoc.
  destruct e as [[k s st|k]|k i]; cbn [changed who own_step] in *.
  - now destruct (Nat.eqb_spec k j) as [->|_].
  - now destruct (Nat.eqb_spec k j) as [->|_].
  - now destruct (Nat.eqb_spec j i) as [->|_].
Qed.
Lemma in_style_pos n es k : k < n -> style_of k es <> style_default -> 0 < in_style n es.
Proof.
  intros Hk Hs. unfold in_style.
  assert (Hin : In k (filter (fun k => negb (style_eqb (style_of k es) style_default)) (seq 0 n))).
  { apply filter_In. split; [apply in_seq; lia|]. now rewrite (style_eqb_neq _ _ Hs). }
  destruct (filter (fun k => negb (style_eqb (style_of k es) style_default)) (seq 0 n)); [destruct Hin|cbn; lia].
Qed.

(** How many clones were made of an adaptor in a style. *)
Fixpoint styled_clones (before es : list cevent) : nat :=
  match es with
  | [] => 0
  | e :: r => (match e with Clones k _ => one (style_of k before) | Does _ => 0 end) + styled_clones (before ++ [e]) r
  end.
Lemma styled_clones_snoc es e : forall before,
  styled_clones before (es ++ [e]) =
  styled_clones before es + match e with Clones k _ => one (style_of k (before ++ es)) | Does _ => 0 end.
Proof.
  induction es as [|x es IH]; intros before; cbn [app styled_clones].
  - rewrite app_nil_r. lia.
  - rewrite IH, <- app_assoc. cbn [app]. lia.
Qed.
Lemma styled_clones_zero es : forall before,
  styled_clones before es = 0 <->
  forall b k j a, es = b ++ Clones k j :: a -> style_of k (before ++ b) = style_default.
Proof.
  induction es as [|e es IH]; intros before; cbn [styled_clones].
  - split; [|reflexivity]. intros _ b k j a E. now destruct b.
  - rewrite Nat.eq_add_0, IH. split.
    + intros [H1 H2] [|x b] k j a E; injection E as -> ->.
      * rewrite app_nil_r. unfold one in H1. destruct (style_eqb_spec (style_of k before) style_default); [assumption|discriminate].
      * change (x :: b) with ([x] ++ b). rewrite app_assoc. now apply (H2 b k j a).
    + intros H. split.
      * destruct e as [e|k j]; [reflexivity|]. specialize (H [] k j es eq_refl). rewrite app_nil_r in H.
        unfold one. now rewrite H, style_eqb_refl.
      * intros b k j a ->. rewrite <- app_assoc. now apply (H (e :: b) k j a).
Qed.

Lemma browsed_inv n es : Forall (fun e => changed e < n) es -> none_dropped es ->
  pg_state (browsed es) = Broken \/
  exists open cells, browsed es = mk_page Data (looks_of open) cells /\ map fst cells = text_of (all_written es) /\
    length open + styled_clones [] es = in_style n es.
Proof.
  induction es as [|e es IH] using rev_ind; intros Hn Hd.
  - right. exists [], []. split; [reflexivity|]. split; [reflexivity|].
    unfold in_style. induction (seq 0 n); [reflexivity|exact IHl].
  - apply Forall_app in Hn as [Hn He]. inversion He as [|? ? Hk _]; subst x l. clear He.
    assert (Hd' : none_dropped es).
    { intros before k j after ->. apply (Hd before k j (after ++ [e])). now rewrite <- app_assoc. }
    destruct (IH Hn Hd') as [H|(open & cells & H1 & H2 & H3)].
    { left. unfold browsed in *. now rewrite hclones_snoc, pfeed_app, broken_stays. }
    assert (Hs := in_style_snoc n es e Hk). rewrite style_of_snoc in Hs.
    rewrite styled_clones_snoc, all_written_snoc. unfold text_of in *. rewrite map_app, concat_app, <- H2. clear H2.
    unfold browsed in *. rewrite hclones_snoc, pfeed_app, H1.
    assert (Hlen : forall o st open', elem_step o st open = Some open' -> length open' + one o = length open + one st).
    { intros o st open'. unfold elem_step, one. destruct (style_eqb_spec o st) as [->|_].
      - intros [= <-]. reflexivity.
      - destruct (style_eqb_spec o style_default) as [->|_].
        + intros [= <-]. destruct (style_eqb st style_default); cbn [length]; lia.
        + destruct open as [|x r]; [discriminate|]. intros [= <-].
          destruct (style_eqb st style_default); cbn [length]; lia. }
    destruct e as [[k s st|k]|k j]; cbn [changed who own_step] in *; try rewrite Nat.eqb_refl in Hs.
    + destruct s as [|c s].
      * right. exists open, cells. cbn [page_feed fold_left map concat fst]. rewrite app_nil_r. split; [reflexivity|]. split; [reflexivity|].
        cbn iota in Hs. lia.
      * assert (Hf := feed_elem (style_of k es) st open cells).
        destruct (elem_step (style_of k es) st open) as [open'|] eqn:E.
        -- right. rewrite pfeed_app, Hf, feed_escaped. eexists open', _. split; [reflexivity|].
           split; [|specialize (Hlen _ _ _ E); lia].
           rewrite map_app, map_map. cbn [fst map concat]. now rewrite map_id, app_nil_r.
        -- left. rewrite pfeed_app. now rewrite broken_stays.
    + assert (Hf := feed_elem (style_of k es) style_default open cells).
      destruct (elem_step (style_of k es) style_default open) as [open'|] eqn:E.
      * right. exists open', cells. split; [exact Hf|]. cbn [map concat]. rewrite app_nil_r. split; [reflexivity|].
        specialize (Hlen _ _ _ E). lia.
      * left. exact Hf.
    + right. exists open, cells. cbn [page_feed fold_left map concat]. rewrite app_nil_r. split; [reflexivity|]. split; [reflexivity|].
      rewrite (Hd es k j [] eq_refl) in Hs. unfold one at 1 in Hs. rewrite style_eqb_refl in Hs.
      cbn [app]. lia.
Qed.

Lemma unbroken n es : Forall (fun e => changed e < n) es -> none_dropped es -> ~ cloned_in_style es ->
  pg_state (browsed es) <> Broken.
Proof.
  induction es as [|e es IH] using rev_ind; intros Hn Hd Hc; [discriminate|].
  assert (Hn' := Hn). apply Forall_app in Hn' as [Hn' He]. inversion He as [|? ? Hk _]; subst x l. clear He.
  assert (Hd' : none_dropped es).
  { intros before k j after ->. apply (Hd before k j (after ++ [e])). now rewrite <- app_assoc. }
  assert (Hc' : ~ cloned_in_style es).
  { intros (b & k & j & a & -> & H). apply Hc. exists b, k, j, (a ++ [e]). split; [now rewrite <- app_assoc|exact H]. }
  specialize (IH Hn' Hd' Hc').
  destruct (browsed_inv n es Hn' Hd') as [H|(open & cells & H1 & H2 & H3)]; [contradiction|].
  assert (Hz : styled_clones [] es = 0).
  { apply styled_clones_zero. intros b k j a ->. cbn [app].
    destruct (style_eqb_spec (style_of k b) style_default) as [E|E]; [exact E|].
    destruct Hc'. now exists b, k, j, a. }
  unfold browsed in *. rewrite hclones_snoc, pfeed_app, H1.
  assert (Hopen : forall k st, k < n -> elem_step (style_of k es) st open <> None).
  { intros k st Hkn E. unfold elem_step in E. destruct (style_eqb (style_of k es) st); [discriminate|].
    destruct (style_eqb_spec (style_of k es) style_default) as [_|Hs]; [discriminate|].
    destruct open; [|discriminate]. assert (Hp := in_style_pos n es k Hkn Hs). cbn in H3. lia. }
  destruct e as [[k s st|k]|k j]; cbn [changed who] in Hk.
  - destruct s as [|c s]; [discriminate|].
    assert (Hf := feed_elem (style_of k es) st open cells).
    specialize (Hopen k st Hk). destruct (elem_step (style_of k es) st open) as [open'|]; [|congruence].
    rewrite pfeed_app, Hf, feed_escaped. discriminate.
  - assert (Hf := feed_elem (style_of k es) style_default open cells).
    specialize (Hopen k style_default Hk). destruct (elem_step (style_of k es) style_default open) as [open'|]; [|congruence].
    rewrite Hf. discriminate.
  - discriminate.
Qed.

Lemma cbounded es : exists n, Forall (fun e => changed e < n) es.
Proof.
  induction es as [|e es [n IH]]; [exists 0; constructor|].
  exists (Nat.max (Datatypes.S (changed e)) n). constructor; [lia|].
  eapply Forall_impl; [|exact IH]. intros a Ha. cbv beta in *. lia.
Qed.

(** C103: Html adaptors and clones of them writing into one document, all of them finished in the
    end: if every clone was made of an adaptor in the default style the document is well formed and
    shows every character once, in order; if any was made in another style some closing tag has no
    element to close. *)
Theorem C103_document (es : list cevent) :
  none_dropped es -> everyone_back es ->
  let p := page_feed page_new (html_clones es) in
  (~ cloned_in_style es -> pg_state p = Data /\ pg_open p = [] /\ map fst (pg_cells p) = text_of (all_written es)) /\
  (cloned_in_style es -> pg_state p = Broken).
Proof.
  intros Hd Hb p. subst p. change (page_feed page_new (html_clones es)) with (browsed es).
  destruct (cbounded es) as (n & Hn).
  assert (E : in_style n es = 0).
  { unfold in_style. induction (seq 0 n) as [|k l IHl]; [reflexivity|]. cbn [filter].
    rewrite (Hb k), style_eqb_refl. exact IHl. }
  split; intros Hc; destruct (browsed_inv n es Hn Hd) as [H|(open & cells & -> & H2 & H3)].
  - destruct (unbroken n es Hn Hd Hc H).
  - destruct open; [|cbn in H3; lia]. now repeat split.
  - exact H.
  - exfalso. destruct Hc as (b & k & j & a & -> & Hs).
    assert (Hz : styled_clones [] (b ++ Clones k j :: a) = 0) by lia.
    rewrite styled_clones_zero in Hz. apply Hs. exact (Hz b k j a eq_refl).
Qed.
Print Assumptions C103_document.

(** C103: as long as no clone was made in another style no closing tag is without an element,
    whatever is not finished yet. *)
Theorem C103_no_stray (es : list cevent) :
  none_dropped es -> ~ cloned_in_style es ->
  pg_state (page_feed page_new (html_clones es)) = Data.
Proof.
  intros Hd Hc. change (page_feed page_new (html_clones es)) with (browsed es). destruct (cbounded es) as (n & Hn).
  destruct (browsed_inv n es Hn Hd) as [H|(open & cells & -> & H2 & H3)]; [|reflexivity].
  destruct (unbroken n es Hn Hd Hc H).
Qed.
Print Assumptions C103_no_stray.

Example C103_document_nonvacuous :
  let red := mk_style Red ColorDefault Normal in
  let bad := [Does (Puts 0 (lit "a") red); Clones 0 1; Does (Puts 1 (lit "b") red); Does (Finishes 1); Does (Finishes 0)] in
  let good := [Does (Puts 0 (lit "a") red); Does (Puts 0 (lit "b") style_default); Clones 0 1; Does (Puts 1 (lit "c") red);
               Does (Finishes 0); Does (Finishes 1)] in
  (none_dropped bad /\ everyone_back bad /\ cloned_in_style bad /\
   html_clones bad = lit "<span style=color:red>ab</span></span>") /\
  (none_dropped good /\ everyone_back good /\ ~ cloned_in_style good /\
   html_clones good = lit "<span style=color:red>a</span>b<span style=color:red>c</span>").
Proof.
  split; (split; [|split; [|split]]).
  - intros before k j after E.
    destruct before as [|? [|? [|? [|? [|? [|? ?]]]]]]; cbn in E; try discriminate E; injection E as; subst; reflexivity.
  - intros [|[|k]]; reflexivity.
  - eexists [_], 0, 1, _. split; [reflexivity|]. discriminate.
  - vm_compute. reflexivity.
  - intros before k j after E.
    destruct before as [|? [|? [|? [|? [|? [|? [|? ?]]]]]]]; cbn in E; try discriminate E; injection E as; subst; reflexivity.
  - intros [|[|k]]; reflexivity.
  - intros (before & k & j & after & E & H).
    destruct before as [|? [|? [|? [|? [|? [|? [|? ?]]]]]]]; cbn in E; try discriminate E; injection E as; subst; now apply H.
  - vm_compute. reflexivity.
Qed.

(** * Handing over *)
Definition writes_by (k : nat) (h : history) : list cevent := map (fun p => Does (Puts k (fst p) (snd p))) h.
Lemma histories_writes k h : forall es, histories (es ++ writes_by k h) k = histories es k ++ h.
Proof.
  induction h as [|[s st] h IH] using rev_ind; intros es.
  - now rewrite !app_nil_r.
  - unfold writes_by in *. rewrite map_app, app_assoc. cbn [map fst snd].
    unfold histories. rewrite fold_left_app. cbn [fold_left histories_step].
    change (fold_left histories_step ?l (fun _ => [])) with (histories l).
    rewrite Nat.eqb_refl, IH. now rewrite app_assoc.
Qed.
Lemma style_writes k h es : style_of k (es ++ writes_by k h) = last_style (style_of k es) (denote h).
Proof. unfold style_of. now rewrite histories_writes, denote_app, last_style_app. Qed.
Lemma ansi_writes k h : forall es,
  ansi_clones (es ++ writes_by k h) = ansi_clones es ++ ansi_render (style_of k es) (denote h).
Proof.
  induction h as [|[s st] h IH] using rev_ind; intros es.
  - cbn. now rewrite !app_nil_r.
  - unfold writes_by in *. rewrite map_app, app_assoc. cbn [map fst snd].
    rewrite clones_snoc, IH, <- app_assoc, denote_app, ansi_render_app. f_equal. f_equal.
    change (map (fun p => Does (Puts k (fst p) (snd p))) h) with (writes_by k h). rewrite style_writes.
    cbn [denote]. rewrite app_nil_r. destruct s as [|c s]; [reflexivity|]. symmetry. now apply ansi_render_paint.
Qed.
Lemma html_writes k h : forall es,
  html_clones (es ++ writes_by k h) = html_clones es ++ html_render (style_of k es) (denote h).
Proof.
  induction h as [|[s st] h IH] using rev_ind; intros es.
  - cbn. now rewrite !app_nil_r.
  - unfold writes_by in *. rewrite map_app, app_assoc. cbn [map fst snd].
    rewrite hclones_snoc, IH, <- app_assoc, denote_app, html_render_app. f_equal. f_equal.
    change (map (fun p => Does (Puts k (fst p) (snd p))) h) with (writes_by k h). rewrite style_writes.
    cbn [denote]. rewrite app_nil_r. destruct s as [|c s]; [reflexivity|]. symmetry. now apply html_render_paint.
Qed.

(** C103: an adaptor that is cloned at any point and not used any more is continued by its clone:
    the output is that of one adaptor. *)
Theorem C103_handover (h1 h2 : history) (k j : nat) :
  let es := writes_by k h1 ++ [Clones k j] ++ writes_by j h2 ++ [Does (Finishes j)] in
  ansi_clones es = ansi_finished (h1 ++ h2) /\ html_clones es = html_finished (h1 ++ h2).
Proof.
  intros es. subst es.
  assert (Hj : style_of j (writes_by k h1 ++ [Clones k j]) = last_style style_default (denote h1)).
  { rewrite style_of_snoc, Nat.eqb_refl. exact (style_writes k h1 []). }
  assert (Hf : style_of j ((writes_by k h1 ++ [Clones k j]) ++ writes_by j h2) = last_style style_default (denote (h1 ++ h2))).
  { now rewrite style_writes, Hj, denote_app, last_style_app. }
  assert (Ha := ansi_writes k h1 []). assert (Hh := html_writes k h1 []). cbn [app] in Ha, Hh.
  rewrite (app_assoc (writes_by k h1)), (app_assoc _ (writes_by j h2)). split.
  - rewrite clones_snoc, Hf, ansi_writes, clones_snoc, app_nil_r, Hj, Ha.
    unfold ansi_finished. rewrite ansi_play. cbn [fst]. rewrite ansi_finish_string. cbn [fst an_inner an_current ansi_new].
    rewrite denote_app, ansi_render_app. now rewrite <- !app_assoc.
  - rewrite hclones_snoc, Hf, html_writes, hclones_snoc, app_nil_r, Hj, Hh.
    unfold html_finished. rewrite html_play. cbn [fst]. rewrite html_finish_string. cbn [fst ht_inner ht_current html_new].
    rewrite denote_app, html_render_app. now rewrite <- !app_assoc.
Qed.
Print Assumptions C103_handover.

(** * io::Ansi *)
Lemma io_clones_bytes {S} (sink : std_io S) (held : S -> bytes) (fuel : nat) g es s' :
  honest sink held -> io_clones_run sink fuel g es s' ->
  forall before, (forall k, snd g k = style_of k before) ->
  exists out, ansi_clones (before ++ es) = ansi_clones before ++ out /\ held s' = held (fst g) ++ utf8 out.
Proof.
  intros Hh. induction 1 as [s cur|s cur k text st w' es s' E H IH|s cur k s1 es s' E H IH|s cur k j es s' w H IH]; intros before Hown.
  - exists []. now rewrite !app_nil_r.
  - change (io_write_all (IoWrite_ansi fuel sink)) with (io_ansi_write_all fuel sink) in E.
    apply (io_write_all_ok _ sink held Hh) in E as [E1 E2]. cbn [ia_current ia_inner] in E1, E2.
    destruct (IH (before ++ [Does (Puts k text st)])) as (out & H1 & H2).
    { intros j. cbn [snd]. rewrite style_of_snoc. cbn [own_step]. unfold set_current. rewrite (Nat.eqb_sym j k).
      destruct (Nat.eqb_spec k j) as [->|_]; [|apply Hown].
      rewrite E1. destruct text as [|c text]; [apply Hown|].
      destruct (utf8 (c :: text)) as [|x l] eqn:Ec; [|reflexivity].
      apply (proj1 (utf8_nil (c :: text))) in Ec. discriminate. }
    rewrite <- app_assoc in H1. rewrite clones_snoc, <- app_assoc in H1. cbn [fst] in *.
    eexists. split; [exact H1|]. rewrite H2, E2, <- app_assoc. f_equal.
    rewrite utf8_app. f_equal. destruct text as [|c text]; [reflexivity|].
    rewrite utf8_app, <- (Hown k). cbn [snd].
    destruct (utf8 (c :: text)) as [|x l] eqn:Ec; [|reflexivity].
    apply (proj1 (utf8_nil (c :: text))) in Ec. discriminate.
  - apply (C33_finish sink held Hh) with (out := ansi_clones before) in E as (new & E1 & E2).
    cbn [ia_current ia_inner] in E1, E2.
    destruct (IH (before ++ [Does (Finishes k)])) as (out & H1 & H2).
    { intros j. cbn [snd]. rewrite style_of_snoc. cbn [own_step]. unfold set_current. rewrite (Nat.eqb_sym j k).
      destruct (Nat.eqb_spec k j) as [->|_]; [reflexivity|apply Hown]. }
    rewrite <- app_assoc in H1. rewrite clones_snoc, <- app_assoc in H1. cbn [fst snd] in *.
    eexists. split; [exact H1|]. rewrite H2, E2, utf8_app, <- app_assoc. f_equal. f_equal.
    rewrite ansi_finish_string in E1. cbn [an_inner an_current] in E1. injection E1 as E1.
    apply app_inv_head in E1. now rewrite <- E1, (Hown k).
  - destruct (IH (before ++ [Clones k j])) as (out & H1 & H2).
    { intros i. cbn [snd]. rewrite style_of_snoc. unfold set_current. destruct (Nat.eqb_spec i j) as [->|_]; apply Hown. }
    rewrite <- app_assoc in H1. rewrite clones_snoc, app_nil_r in H1. cbn [app] in H1. now exists out.
Qed.

(** C103: for io::Ansi over handles to any honest std writer, when every call succeeds, the writer
    receives the UTF-8 bytes of the same output. *)
Theorem C103_io {S} (sink : std_io S) (held : S -> bytes) (fuel : nat) (es : list cevent) (s s' : S) :
  honest sink held -> io_clones_run sink fuel (s, fun _ => ia_current (io_ansi_new s)) es s' ->
  held s' = held s ++ utf8 (ansi_clones es).
Proof.
  intros Hh H. destruct (io_clones_bytes sink held fuel _ _ _ Hh H [] (fun _ => eq_refl)) as (out & H1 & H2).
  cbn [app fst] in *. rewrite H2. now rewrite H1.
Qed.
Print Assumptions C103_io.

Example C103_io_nonvacuous :
  let red := mk_style Red ColorDefault Normal in
  let es := [Does (Puts 0 (lit "a") red); Clones 0 1; Does (Puts 1 (lit "b") style_default); Does (Finishes 0)] in
  exists s', io_clones_run (scripted 9) 9 (([], []), fun _ => style_default) es s' /\ fst s' = utf8 (ansi_clones es).
Proof.
  eexists. split.
  - eapply cl_puts; [vm_compute; reflexivity|]. eapply cl_clones. eapply cl_puts; [vm_compute; reflexivity|].
    eapply cl_finishes; [vm_compute; reflexivity|]. apply cl_end.
  - vm_compute. reflexivity.
Qed.
