(** Proofs for C53 (retrying on an Html adaptor). *)
From Verif Require Import Base Style Fmt Ansi Html SpecText TextFacts StyleFacts SpecTerminal SpecSink
  SpecHtml HtmlFacts AnsiFacts SinkFacts RetryFacts.

Lemma escaped_app a b : escaped (a ++ b) = escaped a ++ escaped b.
Proof. apply flat_map_app. Qed.

Lemma entity_escaped c : escaped_char c = match html_entity c with Some e => e | None => [c] end.
Proof.
  unfold escaped_char, html_entity.
  destruct (N.eqb c 34), (N.eqb c 38), (N.eqb c 39), (N.eqb c 60), (N.eqb c 62); reflexivity.
Qed.

Lemma escape_parts_prefix acc s l1 x l2 :
  escaped acc = acc -> escape_parts_from acc s = l1 ++ x :: l2 ->
  exists p q, acc ++ s = p ++ q /\ concat l1 = escaped p.
Proof.
  revert acc l1; induction s as [|c s IH]; intros acc l1 Ha; cbn [escape_parts_from].
  - intros H. destruct l1 as [|y l1]; [|destruct l1; discriminate].
    exists [], (acc ++ []). auto.
  - destruct (html_entity c) as [e|] eqn:Ee.
    + intros H. destruct l1 as [|y l1]; [exists [], (acc ++ c :: s); auto|].
      injection H as <- H. destruct l1 as [|z l1].
      { exists acc, (c :: s). split; [reflexivity|]. cbn [concat]. now rewrite app_nil_r, Ha. }
      injection H as <- H. apply (IH [] l1 eq_refl) in H as (p & q & Hs & Hc). cbn [app] in Hs.
      exists (acc ++ c :: p), q. rewrite Hs, <- app_assoc. split; [reflexivity|].
      cbn [concat]. rewrite escaped_app, Ha, Hc. cbn [escaped flat_map].
      rewrite entity_escaped, Ee. reflexivity.
    + intros H. apply IH in H.
      * destruct H as (p & q & Hs & Hc). exists p, q. rewrite <- Hs, <- app_assoc. auto.
      * rewrite escaped_app, Ha. cbn [escaped flat_map]. now rewrite entity_escaped, Ee.
Qed.

Lemma feed_escaped_text s open cells :
  page_feed (mk_page Data open cells) (escaped s)
  = mk_page Data open (cells ++ map (fun c => (c, match open with x :: _ => x | [] => css_page end)) s).
Proof.
  revert cells; induction s as [|c s IH]; intros cells; cbn [escaped flat_map map].
  - cbn. now rewrite app_nil_r.
  - rewrite pfeed_app, feed_escaped_char. fold (escaped s). rewrite IH. now rewrite <- app_assoc.
Qed.

Lemma feed_styled_text s st cells :
  page_feed (mk_page Data (open_elements st) cells) (escaped s)
  = mk_page Data (open_elements st) (cells ++ looks (paint st s)).
Proof.
  rewrite feed_escaped_text, open_elements_style. unfold looks, paint. now rewrite map_map.
Qed.

Lemma feed_broken s open cells :
  page_feed (mk_page Broken open cells) s = mk_page Broken open cells.
Proof. induction s as [|c s IH]; [reflexivity|]. exact IH. Qed.

(** A start tag with a less-than sign in its attribute value. *)
Lemma strip_span v : strip_prefix (lit "span style=") (lit "span style=" ++ v) = Some v.
Proof. reflexivity. Qed.
Lemma tag_broken v x open cells :
  forallb (fun c => negb (N.eqb c 62)) x = true ->
  page_feed (mk_page (InTag (lit "span style=" ++ v)) open cells) (60%N :: x ++ [62%N])
  = mk_page Broken open cells.
Proof.
  intros Hx. change (60%N :: x ++ [62%N]) with ((60%N :: x) ++ [62%N]).
  rewrite pfeed_app, feed_in_tag by exact Hx.
  change (page_feed ?p [62%N]) with (page_step p 62%N). unfold page_step; cbn [pg_state].
  change (N.eqb 62 62) with true. cbn iota. cbn [pg_open pg_cells]. rewrite <- app_assoc.
  set (y := v ++ 60%N :: x).
  assert (str_eqb (lit "span style=" ++ y) (lit "/span") = false) as -> by reflexivity.
  unfold open_tag. rewrite strip_span.
  assert (forallb (fun c => negb (ends_unquoted c)) y = false) as ->.
  { unfold y. rewrite forallb_app. cbn [forallb]. change (ends_unquoted 60%N) with true. cbn.
    apply andb_false_r. }
  now rewrite andb_false_r.
Qed.

(** The parts of a style change to a non-default style. *)
Definition closing (cur : style) : list str := if style_eqb cur style_default then [] else [lit "</span>"].
Lemma change_parts cur st :
  st <> style_default -> st <> cur ->
  exists body, html_change cur st = closing cur ++ lit "<span style=" :: body ++ [lit ">"] /\
    Forall (fun p => forallb (fun c => negb (N.eqb c 62)) p = true) body.
Proof.
  intros Hd Hn. unfold html_change, closing. rewrite (style_eqb_neq _ _ Hd), (style_eqb_neq _ _ Hn). cbn [negb].
  rewrite segments_attributes.
  assert (Ha : Forall (fun p => forallb (fun c => negb (N.eqb c 62)) p = true) (attributes st))
    by (destruct st as [f b i]; destruct f, b, i; repeat constructor).
  destruct (attributes st) as [|seg rest] eqn:E; [now apply attributes_nil in E|].
  exists (seg :: flat_map (fun segment => [lit ";"; segment]) rest). split.
  - destruct (style_eqb cur style_default); reflexivity.
  - inversion Ha as [|x l H1 H2]; subst. constructor; [exact H1|]. clear - H2.
    induction H2 as [|x l Hx _ IH]; cbn [flat_map app]; repeat constructor; auto.
Qed.

Lemma proper_prefix_body {A} (l1 l2 body : list A) x z :
  l1 ++ x :: l2 = body ++ [z] -> exists b2, body = l1 ++ b2.
Proof.
  intros H. destruct (exists_last (l := x :: l2) ltac:(discriminate)) as (q & y & Hq).
  rewrite Hq, app_assoc in H. apply app_inj_tail in H as [<- _]. eauto.
Qed.

Lemma no_gt_concat l :
  Forall (fun p => forallb (fun c => negb (N.eqb c 62)) p = true) l ->
  forallb (fun c => negb (N.eqb c 62)) (concat l) = true.
Proof. induction 1 as [|p l H _ IH]; [reflexivity|]. cbn [concat]. now rewrite forallb_app, H, IH. Qed.

(** A proper, non-empty part of a style change. *)
Lemma change_prefix cur st l1 x l2 :
  st <> style_default -> st <> cur -> html_change cur st = l1 ++ x :: l2 -> l1 <> [] ->
  (cur <> style_default /\ concat l1 = lit "</span>") \/
  exists v, forallb (fun c => negb (N.eqb c 62)) v = true /\
    concat l1 = concat (closing cur) ++ lit "<span style=" ++ v.
Proof.
  intros Hd Hn H Hl. destruct (change_parts cur st Hd Hn) as (body & E & Hb). rewrite E in H.
  unfold closing in *. destruct (style_eqb_spec cur style_default) as [Hc|Hc]; cbn [app concat] in *.
  - right. destruct l1 as [|y l1]; [congruence|]. injection H as <- H. symmetry in H.
    apply proper_prefix_body in H as [b2 ->]. apply Forall_app in Hb as [Hb _].
    exists (concat l1). split; [now apply no_gt_concat|reflexivity].
  - destruct l1 as [|y l1]; [congruence|]. injection H as <- H.
    destruct l1 as [|y l1]; [left; split; [exact Hc|reflexivity]|]. right. injection H as <- H.
    symmetry in H. apply proper_prefix_body in H as [b2 ->]. apply Forall_app in Hb as [Hb _].
    exists (concat l1). split; [now apply no_gt_concat|reflexivity].
Qed.

(** * Torn documents *)

(** The document can no longer be completed by the write that changes from [cur]. *)
Definition doomed (cur : style) (cells : list (char * css)) (p : page) : Prop :=
  (exists v open, p = mk_page (InTag (lit "span style=" ++ v)) open cells) \/
  (cur <> style_default /\ p = mk_page Data [] cells).
Definition broken (cells : list (char * css)) (p : page) : Prop :=
  exists open, p = mk_page Broken open cells.

Lemma broken_feed cells p s : broken cells p -> broken cells (page_feed p s).
Proof. intros (open & ->). exists open. apply feed_broken. Qed.

Lemma doomed_change cur st cells p :
  st <> style_default -> st <> cur -> doomed cur cells p -> broken cells (page_feed p (hesc cur st)).
Proof.
  intros Hd Hn Hp. rewrite hesc_spec, (style_eqb_neq cur st) by congruence.
  unfold close_tag, open_text. rewrite (style_eqb_neq _ _ Hd).
  destruct (tag_body_facts st Hd) as (H1 & _ & _).
  change (start_tag st) with (60%N :: tag_body st ++ [62%N]).
  destruct (style_eqb_spec cur style_default) as [Hc|Hc].
  - destruct Hp as [(v & open & ->)|[Hc' _]]; [|congruence]. cbn [app].
    exists open. now apply tag_broken.
  - rewrite pfeed_app. apply broken_feed. change (lit "</span>") with (60%N :: lit "/span" ++ [62%N]).
    destruct Hp as [(v & open & ->)|[_ ->]].
    + exists open. now apply tag_broken.
    + exists []. reflexivity.
Qed.

Lemma doomed_prefix cur st cells p l1 x l2 :
  st <> style_default -> st <> cur -> html_change cur st = l1 ++ x :: l2 ->
  doomed cur cells p -> doomed cur cells (page_feed p (concat l1)) \/ broken cells (page_feed p (concat l1)).
Proof.
  intros Hd Hn H Hp. destruct l1 as [|y l1]; [left; exact Hp|].
  destruct (change_prefix _ _ _ _ _ Hd Hn H ltac:(discriminate)) as [[Hc ->]|(v & Hv & ->)].
  - right. change (lit "</span>") with (60%N :: lit "/span" ++ [62%N]).
    destruct Hp as [(v & open & ->)|[_ ->]].
    + exists open. now apply tag_broken.
    + exists []. reflexivity.
  - unfold closing. destruct (style_eqb_spec cur style_default) as [Hc|Hc]; cbn [concat app].
    + left. destruct Hp as [(u & open & ->)|[Hc' _]]; [|congruence]. left.
      exists (u ++ lit "<span style=" ++ v), open.
      rewrite feed_in_tag; [|cbn; exact Hv]. now rewrite <- app_assoc.
    + right. rewrite app_nil_r, pfeed_app. apply broken_feed.
      change (lit "</span>") with (60%N :: lit "/span" ++ [62%N]).
      destruct Hp as [(u & open & ->)|[_ ->]].
      * exists open. now apply tag_broken.
      * exists []. reflexivity.
Qed.

Lemma torn_doomed cur st cells l1 x l2 :
  st <> style_default -> st <> cur -> html_change cur st = l1 ++ x :: l2 -> l1 <> [] ->
  doomed cur cells (page_feed (mk_page Data (open_elements cur) cells) (concat l1)).
Proof.
  intros Hd Hn H Hl.
  destruct (change_prefix _ _ _ _ _ Hd Hn H Hl) as [[Hc ->]|(v & Hv & ->)].
  - right. split; [exact Hc|]. unfold open_elements. now rewrite (style_eqb_neq _ _ Hc).
  - rewrite pfeed_app.
    assert (page_feed (mk_page Data (open_elements cur) cells) (concat (closing cur))
            = mk_page Data [] cells) as ->.
    { unfold closing, open_elements. destruct (style_eqb cur style_default); reflexivity. }
    left. exists v, []. change (lit "<span style=" ++ v) with ([60%N] ++ (lit "span style=" ++ v)).
    rewrite pfeed_app. change (page_feed (mk_page Data [] cells) [60%N]) with (mk_page (InTag []) [] cells).
    rewrite feed_in_tag; [reflexivity|]. cbn. exact Hv.
Qed.

Section Retry.
Context {S : Type} (sink : fmt_sink S) (held : S -> str).
Definition page_of (w : html S) : page := page_feed page_new (held (ht_inner w)).

Lemma page_grows w w1 x :
  held (ht_inner w1) = held (ht_inner w) ++ x -> page_of w1 = page_feed (page_of w) x.
Proof. unfold page_of. intros ->. apply pfeed_app. Qed.

Lemma sync_success w w' s st cells :
  honest_fmt sink held -> page_of w = mk_page Data (open_elements (ht_current w)) cells ->
  html_write_str sink w s st = (w', Returned Ok) ->
  page_of w' = mk_page Data (open_elements (ht_current w')) (cells ++ looks (paint st s)).
Proof.
  intros Hh Hp. destruct w as [i cur]. unfold html_write_str. cbn [ht_inner ht_current] in *.
  destruct s as [|c0 s0] eqn:Es; cbn [is_empty].
  - intros [= <-]. cbn [paint map looks]. rewrite app_nil_r. exact Hp.
  - rewrite <- Es. clear Es c0 s0.
    destruct (write_parts sink (html_change cur st) i) as [i1 o1] eqn:E1.
    pose proof (honest_parts sink held _ _ _ _ Hh E1) as H1.
    destruct o1 as [[|]|c1]; [|discriminate|discriminate].
    destruct (write_parts sink (escape_parts s) i1) as [i2 o2] eqn:E2.
    pose proof (honest_parts sink held _ _ _ _ Hh E2) as H2.
    intros [= <- ->]. rewrite escape_parts_concat in H2.
    rewrite (page_grows (mk_html i cur) (mk_html i2 st) (hesc cur st ++ escaped s)).
    + rewrite Hp, pfeed_app, feed_hesc. apply feed_styled_text.
    + cbn [ht_inner]. rewrite H2, H1. now rewrite <- app_assoc.
Qed.

Lemma honest_write w w1 s st o :
  honest_fmt sink held -> html_write_str sink w s st = (w1, o) ->
  exists x, held (ht_inner w1) = held (ht_inner w) ++ x.
Proof.
  intros Hh. destruct w as [i cur]. unfold html_write_str. cbn [ht_inner ht_current] in *.
  destruct (is_empty s); [intros [= <- <-]; exists []; now rewrite app_nil_r|].
  destruct (write_parts sink (html_change cur st) i) as [i1 o1] eqn:E1.
  pose proof (honest_parts sink held _ _ _ _ Hh E1) as H1.
  destruct o1 as [[|]|c1].
  - destruct (write_parts sink (escape_parts s) i1) as [i2 o2] eqn:E2.
    pose proof (honest_parts sink held _ _ _ _ Hh E2) as H2.
    intros [= <- <-]. cbn [ht_inner].
    destruct o2 as [[|]|c2]; [|destruct H2 as (p & q & _ & H2)|destruct H2 as (p & q & _ & H2)];
      rewrite H2, H1; eexists; symmetry; apply app_assoc.
  - intros [= <- <-]. destruct H1 as (p & q & _ & H1). eauto.
  - intros [= <- <-]. destruct H1 as (p & q & _ & H1). eauto.
Qed.

Lemma doomed_attempt cur st cells w w1 s o :
  atomic_fmt sink held -> st <> style_default -> st <> cur -> s <> [] ->
  (broken cells (page_of w) \/ ht_current w = cur /\ doomed cur cells (page_of w)) ->
  html_write_str sink w s st = (w1, o) ->
  (o <> Returned Ok /\ (broken cells (page_of w1) \/ ht_current w1 = cur /\ doomed cur cells (page_of w1))) \/
  broken cells (page_of w1).
Proof.
  intros Ha Hd Hn Hs Hw E. pose proof (atomic_honest _ _ Ha) as Hh.
  destruct Hw as [Hw|[Hcur Hw]].
  - right. destruct (honest_write _ _ _ _ _ Hh E) as (x & Hx). rewrite (page_grows _ _ _ Hx).
    now apply broken_feed.
  - destruct w as [i c]. cbn [ht_current] in Hcur. subst c. revert E. unfold html_write_str.
    cbn [ht_inner ht_current]. destruct s as [|c0 s0] eqn:Es; [congruence|]. rewrite <- Es in *.
    replace (is_empty s) with false by now rewrite Es. clear Hs Es c0 s0.
    destruct (write_parts sink (html_change cur st) i) as [i1 o1] eqn:E1.
    assert (Hfail : o1 <> Returned Ok ->
       broken cells (page_of (mk_html i1 cur)) \/ ht_current (mk_html i1 cur) = cur /\ doomed cur cells (page_of (mk_html i1 cur))).
    { intros Ho. destruct (atomic_parts sink held _ _ _ _ Ha E1 Ho) as (l1 & x & l2 & Hl & Hi).
      rewrite (page_grows (mk_html i cur) (mk_html i1 cur) _ Hi).
      destruct (doomed_prefix _ _ _ _ _ _ _ Hd Hn Hl Hw) as [H|H]; [right; split; [reflexivity|exact H]|left; exact H]. }
    pose proof (honest_parts sink held _ _ _ _ Hh E1) as H1.
    destruct o1 as [[|]|c1].
    + destruct (write_parts sink (escape_parts s) i1) as [i2 o2] eqn:E2.
      pose proof (honest_parts sink held _ _ _ _ Hh E2) as H2.
      intros [= <- <-]. right.
      assert (exists y, held i2 = held i ++ hesc cur st ++ y) as (y & Hy).
      { destruct o2 as [[|]|c2]; [|destruct H2 as (p & q & _ & H2)|destruct H2 as (p & q & _ & H2)];
          rewrite H2, H1; eexists; symmetry; apply app_assoc. }
      rewrite (page_grows (mk_html i cur) (mk_html i2 st) _ Hy), pfeed_app. apply broken_feed.
      now apply doomed_change.
    + intros [= <- <-]. left. split; [discriminate|]. apply Hfail. discriminate.
    + intros [= <- <-]. left. split; [discriminate|]. apply Hfail. discriminate.
Qed.

Lemma doomed_repeat cur st cells w w' s :
  atomic_fmt sink held -> st <> style_default -> st <> cur -> s <> [] ->
  (broken cells (page_of w) \/ ht_current w = cur /\ doomed cur cells (page_of w)) ->
  repeated_write (html_write_str sink) s st w w' -> broken cells (page_of w').
Proof.
  intros Ha Hd Hn Hs Hw Hr; revert Hw; induction Hr as [w w' E|w w1 w' o E Ho Hr IH]; intros Hw.
  - destruct (doomed_attempt _ _ _ _ _ _ _ Ha Hd Hn Hs Hw E) as [[H _]|H]; [congruence|exact H].
  - apply IH. destruct (doomed_attempt _ _ _ _ _ _ _ Ha Hd Hn Hs Hw E) as [[_ H]|H]; auto.
Qed.

Lemma sync_failure w w1 s st cells o :
  atomic_fmt sink held -> page_of w = mk_page Data (open_elements (ht_current w)) cells ->
  html_write_str sink w s st = (w1, o) -> o <> Returned Ok ->
  (exists p q, s = p ++ q /\
     page_of w1 = mk_page Data (open_elements (ht_current w1)) (cells ++ looks (paint st p)) /\
     (held (ht_inner w1) = held (ht_inner w) -> p = []))
  \/
  (st <> style_default /\ st <> ht_current w /\ held (ht_inner w1) <> held (ht_inner w) /\
   (forall cells', page_of w1 <> mk_page Data (open_elements (ht_current w1)) cells') /\
   forall w', repeated_write (html_write_str sink) s st w1 w' ->
     pg_state (page_of w') = Broken /\ pg_cells (page_of w') = cells).
Proof.
  intros Ha Hp. pose proof (atomic_honest _ _ Ha) as Hh.
  destruct w as [i cur]. unfold html_write_str at 1. cbn [ht_inner ht_current] in *.
  destruct s as [|c0 s0] eqn:Es; cbn [is_empty]; [intros [= <- <-]; congruence|].
  rewrite <- Es. assert (Hs : s <> []) by (rewrite Es; discriminate). clear Es c0 s0.
  destruct (write_parts sink (html_change cur st) i) as [i1 o1] eqn:E1.
  assert (Hchange : o1 <> Returned Ok ->
     (exists p q, s = p ++ q /\
        page_of (mk_html i1 cur) = mk_page Data (open_elements cur) (cells ++ looks (paint st p)) /\
        (held i1 = held i -> p = []))
     \/
     (st <> style_default /\ st <> cur /\ held i1 <> held i /\
      (forall cells', page_of (mk_html i1 cur) <> mk_page Data (open_elements cur) cells') /\
      forall w', repeated_write (html_write_str sink) s st (mk_html i1 cur) w' ->
        pg_state (page_of w') = Broken /\ pg_cells (page_of w') = cells)).
  { intros Ho. destruct (atomic_parts sink held _ _ _ _ Ha E1 Ho) as (l1 & x & l2 & Hl & Hi).
    pose proof (page_grows (mk_html i cur) (mk_html i1 cur) _ Hi) as Hg. rewrite Hp in Hg.
    destruct l1 as [|y l1].
    - left. exists [], s. split; [reflexivity|]. split; [|auto]. cbn [paint map looks]. rewrite app_nil_r.
      exact Hg.
    - right.
      assert (Hd : st <> style_default).
      { intros ->. unfold html_change in Hl. rewrite style_eqb_refl in Hl.
        destruct (negb (style_eqb cur style_default)); [|discriminate].
        injection Hl as _ Hl. destruct l1; discriminate. }
      assert (Hn : st <> cur).
      { intros ->. unfold html_change in Hl. rewrite (style_eqb_neq _ _ Hd), style_eqb_refl in Hl. discriminate. }
      pose proof (torn_doomed cur st cells (y :: l1) x l2 Hd Hn Hl ltac:(discriminate)) as Hdo.
      rewrite <- Hg in Hdo.
      split; [exact Hd|]. split; [exact Hn|]. split; [|split].
      + intros Heq. rewrite Heq in Hi. rewrite <- (app_nil_r (held i)) in Hi at 1.
        apply app_inv_head in Hi.
        destruct (change_prefix _ _ _ _ _ Hd Hn Hl ltac:(discriminate)) as [[_ Hx]|(v & _ & Hx)];
          rewrite Hx in Hi; [discriminate|]. unfold closing in Hi.
        destruct (style_eqb cur style_default); discriminate.
      + intros cells' Hc. rewrite Hc in Hdo. destruct Hdo as [(v & op & Hdo)|[Hcd Hdo]]; [discriminate|].
        injection Hdo as Hdo _. unfold open_elements in Hdo.
        rewrite (style_eqb_neq _ _ Hcd) in Hdo. discriminate.
      + intros w' Hr.
        destruct (doomed_repeat cur st cells (mk_html i1 cur) w' s Ha Hd Hn Hs (or_intror (conj eq_refl Hdo)) Hr) as (op & ->).
        auto. }
  pose proof (honest_parts sink held _ _ _ _ Hh E1) as H1.
  destruct o1 as [[|]|c1].
  - destruct (write_parts sink (escape_parts s) i1) as [i2 o2] eqn:E2.
    intros [= <- <-] Ho. left. cbn [ht_inner ht_current].
    destruct (atomic_parts sink held _ _ _ _ Ha E2 Ho) as (l1 & x & l2 & Hl & Hi).
    unfold escape_parts in Hl. apply (escape_parts_prefix [] s l1 x l2 eq_refl) in Hl as (p & q & Hpq & Hc).
    cbn [app] in Hpq. exists p, q. split; [exact Hpq|]. rewrite H1 in Hi. rewrite Hc, <- app_assoc in Hi. split.
    + rewrite (page_grows (mk_html i cur) (mk_html i2 st) _ Hi), Hp, pfeed_app.
      change (concat (html_change cur st)) with (hesc cur st). rewrite feed_hesc. apply feed_styled_text.
    + intros Heq. rewrite Heq in Hi. rewrite <- (app_nil_r (held i)) in Hi at 1.
      apply app_inv_head in Hi. symmetry in Hi. apply app_eq_nil in Hi as [_ Hi].
      destruct p as [|c p]; [reflexivity|]. exfalso. revert Hi. apply escaped_nonempty. discriminate.
  - intros [= <- <-] Ho. cbn [ht_inner ht_current]. exact (Hchange Ho).
  - intros [= <- <-] Ho. cbn [ht_inner ht_current]. exact (Hchange Ho).
Qed.
End Retry.
