(** C77: what a document shows after any sequence of writes on an Html adaptor, whichever of them
    fail. *)
From Verif Require Import Base Style Fmt Ansi Html SpecText TextFacts StyleFacts SpecTerminal SpecSink
  SpecHtml SpecSession HtmlFacts AnsiFacts SinkFacts RetryFacts HtmlRetryFacts PropsRetry.

(** [attempts ws w l w']: the writes of the log [l], one after the other whatever each of them
    returns, take the writer from [w] to [w']. *)
Inductive attempts {W} (ws : write_fn W) : W -> wlog -> W -> Prop :=
  | at_none w : attempts ws w [] w
  | at_write w s st w1 o l w' : ws w s st = (w1, o) -> attempts ws w1 l w' ->
      attempts ws w ((s, st, o) :: l) w'.

(** The part of a write that arrived: all of the text if it succeeded, else some prefix. *)
Definition arrived (e : str * style * outcome) (p : str) : Prop :=
  match e with
  | (s, _, Returned Ok) => p = s
  | (s, _, _) => exists q, s = p ++ q
  end.
Definition style_of (e : str * style * outcome) : style := snd (fst e).
Fixpoint shown_text_of (l : wlog) (ps : list str) : stext :=
  match l, ps with
  | e :: l, p :: ps => paint (style_of e) p ++ shown_text_of l ps
  | _, _ => []
  end.

(** Which part of the later writes is still shown, unstyled: only of those in style [old]. *)
Definition late (old : style) (l : wlog) (ps : list str) : Prop :=
  Forall2 (fun e p => style_of e = old /\ arrived e p \/ p = []) l ps.

(** * What a write delivers *)
Section Session.
Context {S : Type} (sink : fmt_sink S) (held : S -> str).
Hypothesis Ha : atomic_fmt sink held.

Lemma delivery w s st w1 o : html_write_str sink w s st = (w1, o) ->
  (s = [] /\ w1 = w /\ o = Returned Ok) \/
  (o <> Returned Ok /\ ht_current w1 = ht_current w /\
   exists l1 x l2, html_change (ht_current w) st = l1 ++ x :: l2 /\
     held (ht_inner w1) = held (ht_inner w) ++ concat l1) \/
  (s <> [] /\ ht_current w1 = st /\ exists p, arrived (s, st, o) p /\
     held (ht_inner w1) = held (ht_inner w) ++ hesc (ht_current w) st ++ escaped p).
Proof.
  pose proof (atomic_honest _ _ Ha) as Hh. destruct w as [i cur]. unfold html_write_str. cbn [ht_inner ht_current].
  destruct s as [|c0 s0] eqn:Es; cbn [is_empty]; [intros [= <- <-]; auto|].
  rewrite <- Es. assert (Hs : s <> []) by (rewrite Es; discriminate). clear Es c0 s0. intros E. right. revert E.
  destruct (write_parts sink (html_change cur st) i) as [i1 o1] eqn:E1.
  pose proof (honest_parts sink held _ _ _ _ Hh E1) as H1.
  destruct o1 as [[|]|c1].
  - destruct (write_parts sink (escape_parts s) i1) as [i2 o2] eqn:E2. intros [= <- <-]. right.
    split; [exact Hs|]. split; [reflexivity|]. cbn [ht_inner].
    assert (Hf : o2 <> Returned Ok -> exists p q, s = p ++ q /\ held i2 = held i ++ hesc cur st ++ escaped p).
    { intros Ho. destruct (atomic_parts sink held _ _ _ _ Ha E2 Ho) as (l1 & x & l2 & Hl & Hi).
      apply (escape_parts_prefix [] s l1 x l2 eq_refl) in Hl as (p & q & Hpq & Hc). cbn [app] in Hpq.
      exists p, q. split; [exact Hpq|]. rewrite Hi, H1, Hc, <- app_assoc. reflexivity. }
    destruct o2 as [[|]|c2].
    + exists s. split; [reflexivity|]. pose proof (honest_parts sink held _ _ _ _ Hh E2) as H2. cbn in H2.
      rewrite H2, H1, escape_parts_concat, <- app_assoc. reflexivity.
    + destruct (Hf ltac:(discriminate)) as (p & q & Hpq & Hd). exists p. split; [exists q; exact Hpq|exact Hd].
    + destruct (Hf ltac:(discriminate)) as (p & q & Hpq & Hd). exists p. split; [exists q; exact Hpq|exact Hd].
  - intros [= <- <-]. left. split; [discriminate|]. split; [reflexivity|].
    apply (atomic_parts sink held _ _ _ _ Ha E1). discriminate.
  - intros [= <- <-]. left. split; [discriminate|]. split; [reflexivity|].
    apply (atomic_parts sink held _ _ _ _ Ha E1). discriminate.
Qed.

(** A greater-than sign only after a less-than sign. *)
Definition no_gt (x : str) : Prop := forallb (fun c => negb (N.eqb c 62)) x = true.
Definition opens_first (x : str) : Prop :=
  no_gt x \/ exists a b c, x = a ++ 60%N :: b ++ 62%N :: c /\ no_gt a /\ no_gt b.

Lemma torn_feed v open cells x : opens_first x ->
  (exists v', page_feed (mk_page (InTag (lit "span style=" ++ v)) open cells) x
              = mk_page (InTag (lit "span style=" ++ v')) open cells) \/
  broken cells (page_feed (mk_page (InTag (lit "span style=" ++ v)) open cells) x).
Proof.
  intros [H|(a & b & c & -> & H1 & H2)].
  - left. exists (v ++ x). rewrite feed_in_tag by exact H. now rewrite <- app_assoc.
  - right. rewrite pfeed_app, feed_in_tag by exact H1.
    assert (E1 : (lit "span style=" ++ v) ++ a = lit "span style=" ++ (v ++ a)) by (symmetry; apply app_assoc).
    assert (E2 : 60%N :: b ++ 62%N :: c = (60%N :: b ++ [62%N]) ++ c) by (cbn; rewrite <- app_assoc; reflexivity).
    rewrite E1, E2, pfeed_app. apply broken_feed. exists open. apply tag_broken. exact H2.
Qed.

Lemma no_gt_app a b : no_gt a -> no_gt b -> no_gt (a ++ b).
Proof.
  unfold no_gt. intros H1 H2. rewrite forallb_app. apply andb_true_intro. split; assumption.
Qed.
Lemma opens_app a b : opens_first a -> opens_first b -> opens_first (a ++ b).
Proof.
  intros [H1|(x & y & z & -> & Hx & Hy)] H2.
  - destruct H2 as [H2|(x & y & z & -> & Hx & Hy)]; [left; now apply no_gt_app|].
    right. exists (a ++ x), y, z. rewrite <- app_assoc. repeat split; auto. now apply no_gt_app.
  - right. exists x, y, (z ++ b). rewrite <- !app_assoc. cbn [app]. rewrite <- !app_assoc. auto.
Qed.
Lemma escaped_no_gt s : no_gt (escaped s).
Proof.
  induction s as [|c s IH]; [reflexivity|]. cbn [escaped flat_map]. apply no_gt_app; [|exact IH].
  unfold escaped_char. destruct (N.eqb c 34); [reflexivity|]. destruct (N.eqb c 38); [reflexivity|].
  destruct (N.eqb c 39); [reflexivity|]. destruct (N.eqb c 60); [reflexivity|].
  destruct (N.eqb c 62) eqn:E; [reflexivity|]. unfold no_gt. cbn [forallb]. now rewrite E.
Qed.
Lemma close_opens cur : opens_first (close_tag cur).
Proof.
  unfold close_tag. destruct (style_eqb cur style_default); [now left|].
  right. exists [], (lit "/span"), []. repeat split.
Qed.
Lemma hesc_opens cur st : opens_first (hesc cur st).
Proof.
  rewrite hesc_spec. destruct (style_eqb cur st); [now left|]. apply opens_app; [apply close_opens|].
  unfold open_text. destruct (style_eqb_spec st style_default) as [|H]; [now left|].
  destruct (tag_body_facts st H) as (H1 & _ & _). right. exists [], (tag_body st), []. repeat split. exact H1.
Qed.
Lemma prefix_opens cur st l1 x l2 : html_change cur st = l1 ++ x :: l2 -> opens_first (concat l1).
Proof.
  intros H. destruct l1 as [|y l1]; [now left|].
  destruct (style_eqb_spec st style_default) as [->|Hd].
  - unfold html_change in H. rewrite style_eqb_refl in H. destruct (negb (style_eqb cur style_default)); [|discriminate].
    injection H as _ H. destruct l1; discriminate.
  - assert (Hn : st <> cur).
    { intros ->. unfold html_change in H. rewrite (style_eqb_neq _ _ Hd), style_eqb_refl in H. discriminate. }
    destruct (change_prefix _ _ _ _ _ Hd Hn H ltac:(discriminate)) as [[Hc ->]|(v & Hv & ->)].
    + right. exists [], (lit "/span"), []. repeat split.
    + apply opens_app.
      * unfold closing. destruct (style_eqb cur style_default); [now left|].
        right. exists [], (lit "/span"), []. repeat split.
      * left. apply no_gt_app; [reflexivity|exact Hv].
Qed.

(** * The three phases *)
(** The start tag is torn; nothing is shown any more. *)
Definition gone (cells : list (char * css)) (p : page) : Prop :=
  (exists v open, p = mk_page (InTag (lit "span style=" ++ v)) open cells) \/ broken cells p.
(** The end tag was written, but not the start tag after it. *)
Definition lost (cur : style) (cells : list (char * css)) (p : page) : Prop :=
  cur <> style_default /\ p = mk_page Data [] cells.

Lemma gone_feed cells p x : opens_first x -> gone cells p -> gone cells (page_feed p x).
Proof.
  intros Hx [(v & open & ->)|Hb]; [|right; now apply broken_feed].
  destruct (torn_feed v open cells x Hx) as [[v' ->]|H]; [left; eauto|now right].
Qed.

Lemma gone_write w s st w1 o cells : html_write_str sink w s st = (w1, o) ->
  gone cells (page_of held w) -> gone cells (page_of held w1).
Proof.
  intros E Hg. destruct (delivery _ _ _ _ _ E) as [(_ & -> & _)|[(_ & _ & l1 & x & l2 & Hl & Hi)|(_ & _ & p & _ & Hi)]];
    [exact Hg| |]; rewrite (page_grows held w w1 _ Hi); apply gone_feed; auto.
  - now apply prefix_opens in Hl.
  - apply opens_app; [apply hesc_opens|left; apply escaped_no_gt].
Qed.

Lemma change_starts cur st : cur <> style_default -> st <> cur -> exists parts, html_change cur st = lit "</span>" :: parts.
Proof.
  intros Hc Hn. destruct (style_eqb_spec st style_default) as [->|Hd].
  - unfold html_change. rewrite style_eqb_refl, (style_eqb_neq _ _ Hc). cbn. eauto.
  - destruct (change_parts cur st Hd Hn) as (body & -> & _). unfold closing. rewrite (style_eqb_neq _ _ Hc). cbn [app]. eauto.
Qed.

Lemma lost_write w s st w1 o cells : html_write_str sink w s st = (w1, o) ->
  lost (ht_current w) cells (page_of held w) ->
  exists p, (st = ht_current w /\ arrived (s, st, o) p \/ p = []) /\
    let cells' := cells ++ map (fun c => (c, css_page)) p in
    (lost (ht_current w1) cells' (page_of held w1) /\ ht_current w1 = ht_current w \/ gone cells' (page_of held w1)).
Proof.
  intros E [Hc Hp]. destruct (delivery _ _ _ _ _ E) as [(_ & -> & _)|[(_ & Hcur & l1 & x & l2 & Hl & Hi)|(_ & Hcur & p & Hpre & Hi)]].
  - exists []. split; [auto|]. cbn zeta. rewrite app_nil_r. left. split; [split; auto|reflexivity].
  - exists []. split; [auto|]. cbn zeta. rewrite app_nil_r. destruct (style_eqb_spec st (ht_current w)) as [->|Hn].
    { rewrite html_change_same in Hl. destruct l1; discriminate. }
    destruct (change_starts _ _ Hc Hn) as [parts Hs]. rewrite Hs in Hl. destruct l1 as [|y l1].
    + left. split; [|exact Hcur]. cbn in Hi. rewrite Hcur. split; [exact Hc|].
      rewrite (page_grows held w w1 _ Hi), Hp. reflexivity.
    + injection Hl as <- _. right. right. rewrite (page_grows held w w1 _ Hi), Hp. cbn [concat].
      rewrite pfeed_app. apply broken_feed. exists []. reflexivity.
  - destruct (style_eqb_spec st (ht_current w)) as [->|Hn].
    + exists p. split; [auto|]. cbn zeta. left. split; [|exact Hcur]. rewrite Hcur. split; [exact Hc|].
      rewrite hesc_same in Hi. cbn [app] in Hi. rewrite (page_grows held w w1 _ Hi), Hp. apply feed_escaped_text.
    + exists []. split; [auto|]. cbn zeta. rewrite app_nil_r. right. right.
      rewrite (page_grows held w w1 _ Hi), Hp, pfeed_app. apply broken_feed.
      unfold hesc. destruct (change_starts _ _ Hc Hn) as [parts ->]. cbn [concat]. rewrite pfeed_app. apply broken_feed.
      exists []. reflexivity.
Qed.

Lemma sync_write w s st w1 o cells : html_write_str sink w s st = (w1, o) -> in_page held w cells ->
  (exists p, arrived (s, st, o) p /\ in_page held w1 (cells ++ looks (paint st p))) \/
  (o <> Returned Ok /\ st <> style_default /\ st <> ht_current w /\ ht_current w1 = ht_current w /\
   (lost (ht_current w) cells (page_of held w1) \/ gone cells (page_of held w1))).
Proof.
  unfold in_page. fold (page_of held w). fold (page_of held w1).
  intros E Hp. destruct (delivery _ _ _ _ _ E) as [(-> & -> & ->)|[(Ho & Hcur & l1 & x & l2 & Hl & Hi)|(_ & Hcur & p & Hpre & Hi)]].
  - left. exists []. split; [reflexivity|]. cbn. rewrite app_nil_r. exact Hp.
  - destruct l1 as [|y l1].
    + left. exists []. split; [destruct o as [[|]|]; [congruence|exists s; reflexivity|exists s; reflexivity]|].
      cbn. rewrite app_nil_r, Hcur. cbn in Hi. rewrite (page_grows held w w1 _ Hi), Hp. reflexivity.
    + right. split; [exact Ho|].
      assert (Hd : st <> style_default).
      { intros ->. unfold html_change in Hl. rewrite style_eqb_refl in Hl.
        destruct (negb (style_eqb (ht_current w) style_default)); [|discriminate].
        injection Hl as _ Hl. destruct l1; discriminate. }
      assert (Hn : st <> ht_current w).
      { intros ->. rewrite html_change_same in Hl. discriminate. }
      split; [exact Hd|]. split; [exact Hn|]. split; [exact Hcur|].
      pose proof (torn_doomed (ht_current w) st cells (y :: l1) x l2 Hd Hn Hl ltac:(discriminate)) as Hdo.
      rewrite <- Hp, <- (page_grows held w w1 _ Hi) in Hdo.
      destruct Hdo as [Ht|Hl']; [right; left; exact Ht|left; exact Hl'].
  - left. exists p. split; [exact Hpre|]. rewrite Hcur, (page_grows held w w1 _ Hi), Hp, pfeed_app, feed_hesc.
    apply feed_styled_text.
Qed.

(** * Logs *)
Lemma gone_log cells l : forall w w', attempts (html_write_str sink) w l w' ->
  gone cells (page_of held w) -> gone cells (page_of held w').
Proof.
  induction l as [|[[s st] o] l IH]; intros w w' H Hg; inversion H as [|w0 s0 st0 w1 o0 l0 w2 E H']; subst; [exact Hg|].
  apply (IH w1 w' H'). now apply (gone_write _ _ _ _ _ _ E).
Qed.

Lemma late_nothing old l : late old l (map (fun _ => []) l).
Proof. unfold late. induction l; constructor; auto. Qed.
Lemma nothing_late (l : wlog) : concat (map (fun _ => []) l) = @nil char.
Proof. induction l; auto. Qed.

Lemma lost_log l : forall cells w w', attempts (html_write_str sink) w l w' ->
  lost (ht_current w) cells (page_of held w) ->
  exists ps, late (ht_current w) l ps /\
    let cells' := cells ++ map (fun c => (c, css_page)) (concat ps) in
    (lost (ht_current w') cells' (page_of held w') \/ gone cells' (page_of held w')).
Proof.
  induction l as [|[[s st] o] l IH]; intros cells w w' H Hl; inversion H as [|w0 s0 st0 w1 o0 l0 w2 E H']; subst.
  - exists []. split; [constructor|]. cbn. rewrite app_nil_r. now left.
  - destruct (lost_write _ _ _ _ _ _ E Hl) as (p & Hp & [[Hl1 Hcur]|Hg]).
    + destruct (IH _ _ _ H' Hl1) as (ps & HF & HR). rewrite Hcur in HF. exists (p :: ps). split; [constructor; [exact Hp|exact HF]|].
      cbn [concat]. rewrite map_app, app_assoc. exact HR.
    + exists (p :: map (fun _ => []) l). split; [constructor; [exact Hp|apply late_nothing]|].
      cbn [concat]. rewrite nothing_late, app_nil_r. right. now apply (gone_log _ _ _ _ H').
Qed.

Lemma session_log l : forall w w' cells, attempts (html_write_str sink) w l w' -> in_page held w cells ->
  (exists ps, Forall2 arrived l ps /\ in_page held w' (cells ++ looks (shown_text_of l ps))) \/
  (exists l1 e l2 ps old ps2, l = l1 ++ e :: l2 /\ Forall2 arrived l1 ps /\
     snd e <> Returned Ok /\ style_of e <> style_default /\ style_of e <> old /\ late old l2 ps2 /\
     (old = style_default -> concat ps2 = []) /\
     let cells' := (cells ++ looks (shown_text_of l1 ps)) ++ map (fun c => (c, css_page)) (concat ps2) in
     (lost (ht_current w') cells' (page_of held w') \/ gone cells' (page_of held w'))).
Proof.
  induction l as [|[[s st] o] l IH]; intros w w' cells H Hp; inversion H as [|w0 s0 st0 w1 o0 l0 w2 E H']; subst.
  - left. exists []. split; [constructor|]. cbn. rewrite app_nil_r. exact Hp.
  - destruct (sync_write _ _ _ _ _ _ E Hp) as [(p & Hpre & Hp1)|(Ho & Hd & Hn & Hcur & Hbad)].
    + destruct (IH _ _ _ H' Hp1) as [(ps & HF & HR)|(l1 & e & l2 & ps & old & ps2 & -> & HF & He & Hes & Heo & Hl2 & Hz & HR)].
      * left. exists (p :: ps). split; [constructor; auto|]. cbn [shown_text_of]. unfold looks in *.
        rewrite map_app, app_assoc. exact HR.
      * right. exists ((s, st, o) :: l1), e, l2, (p :: ps), old, ps2. repeat (split; [now auto|]).
        cbn [shown_text_of]. unfold looks in *. rewrite map_app, app_assoc. exact HR.
    + right. destruct Hbad as [Hl|Hg].
      * rewrite <- Hcur in Hl. destruct (lost_log l cells w1 w' H' Hl) as (ps2 & HF & HR).
        exists [], (s, st, o), l, [], (ht_current w), ps2. cbn [shown_text_of looks map app].
        rewrite app_nil_r, <- Hcur. repeat split; auto; try (cbn; congruence). intros E0. destruct Hl as [Hl _]. congruence.
      * exists [], (s, st, o), l, [], (ht_current w), (map (fun _ => []) l). cbn [shown_text_of looks map app].
        rewrite app_nil_r, nothing_late. cbn [map]. rewrite app_nil_r.
        repeat split; auto using late_nothing. right. now apply (gone_log _ _ _ _ H').
Qed.

Lemma finish_bad w i cells : html_finish sink w = (i, Returned Ok) ->
  lost (ht_current w) cells (page_of held w) \/ gone cells (page_of held w) ->
  pg_state (page_feed page_new (held i)) <> Data /\ pg_cells (page_feed page_new (held i)) = cells.
Proof.
  intros E Hbad. pose proof (atomic_honest _ _ Ha) as Hh.
  assert (Hi : held i = held (ht_inner w) ++ close_tag (ht_current w)).
  { revert E. unfold html_finish, close_tag. destruct (style_eqb (ht_current w) style_default); cbn [negb].
    - intros [= <-]. now rewrite app_nil_r.
    - destruct (write_parts sink [lit "</span>"] (ht_inner w)) as [i1 o1] eqn:E1. intros [= <- ->].
      pose proof (honest_parts sink held _ _ _ _ Hh E1) as H1. cbn [concat] in H1. rewrite app_nil_r in H1. exact H1. }
  rewrite Hi, pfeed_app. change (page_feed page_new (held (ht_inner w))) with (page_of held w).
  clear E Hi. destruct Hbad as [[Hc ->]|Hg].
  - unfold close_tag. rewrite (style_eqb_neq _ _ Hc). split; [discriminate|reflexivity].
  - apply (gone_feed _ _ _ (close_opens (ht_current w))) in Hg.
    destruct Hg as [(v & open & ->)|(open & ->)]; split; try discriminate; reflexivity.
Qed.
End Session.

(** C77: any writes on an Html adaptor over a sink that takes all or nothing of each call; any of
    them may fail or panic.  Either the document shows exactly what arrived, every character in
    its style: the whole texts of the successful writes and a prefix of the text of each failed
    one.  Or some failed write [e] tore a style change: then the document shows what arrived
    before it and nothing afterwards, except, in the look of plain text, parts of later writes in
    the style written before; and a successful [finish] leaves a document that is visibly
    broken. *)
Theorem C77_html_sessions {S} (sink : fmt_sink S) (held : S -> str) (i : S) (l : wlog) (w : html S) :
  atomic_fmt sink held -> held i = [] -> attempts (html_write_str sink) (html_new i) l w ->
  (exists ps, Forall2 arrived l ps /\
     pg_cells (page_feed page_new (held (ht_inner w))) = looks (shown_text_of l ps) /\
     forall i', html_finish sink w = (i', Returned Ok) ->
       page_feed page_new (held i') = mk_page Data [] (looks (shown_text_of l ps)))
  \/
  (exists l1 e l2 ps old ps2, l = l1 ++ e :: l2 /\
     snd e <> Returned Ok /\ style_of e <> style_default /\ style_of e <> old /\
     Forall2 arrived l1 ps /\ late old l2 ps2 /\ (old = style_default -> concat ps2 = []) /\
     let cells := looks (shown_text_of l1 ps) ++ map (fun c => (c, css_page)) (concat ps2) in
     pg_cells (page_feed page_new (held (ht_inner w))) = cells /\
     forall i', html_finish sink w = (i', Returned Ok) ->
       pg_state (page_feed page_new (held i')) <> Data /\ pg_cells (page_feed page_new (held i')) = cells).
Proof.
  intros Ha Hi H.
  assert (H0 : in_page held (html_new i) []) by (unfold in_page, html_new; cbn [ht_inner ht_current]; now rewrite Hi).
  destruct (session_log sink held Ha l _ _ _ H H0)
    as [(ps & HF & HR)|(l1 & e & l2 & ps & old & ps2 & -> & HF & He & Hes & Heo & Hl2 & Hz & HR)]; cbn [app] in HR.
  - left. exists ps. split; [exact HF|]. unfold in_page in HR. split; [now rewrite HR|].
    intros i' E. pose proof (atomic_honest _ _ Ha) as Hh.
    assert (Hi' : held i' = held (ht_inner w) ++ close_tag (ht_current w)).
    { revert E. unfold html_finish, close_tag. destruct (style_eqb (ht_current w) style_default); cbn [negb].
      - intros [= <-]. now rewrite app_nil_r.
      - destruct (write_parts sink [lit "</span>"] (ht_inner w)) as [i1 o1] eqn:E1. intros [= <- ->].
        pose proof (honest_parts sink held _ _ _ _ Hh E1) as H1. cbn [concat] in H1. rewrite app_nil_r in H1. exact H1. }
    rewrite Hi', pfeed_app, HR. apply feed_close.
  - right. exists l1, e, l2, ps, old, ps2. repeat split; auto.
    + destruct HR as [[_ HR]|[(v & open & HR)|(open & HR)]]; unfold page_of in HR; rewrite HR; reflexivity.
    + now apply (finish_bad sink held Ha w i' _ H1 HR).
    + now apply (finish_bad sink held Ha w i' _ H1 HR).
Qed.
Print Assumptions C77_html_sessions.

(** Every sequence of calls (write_str, write_char, write! of any formatting code, which may go on
    after failed writes) on any writer amounts to such writes: the ones that a watcher sees. *)
Lemma attempts_app {W} (ws : write_fn W) a : forall w w1 b w2,
  attempts ws w a w1 -> attempts ws w1 b w2 -> attempts ws w (a ++ b) w2.
Proof.
  induction a as [|[[s st] o] a IH]; intros w w1 b w2 Ha Hb; inversion Ha; subst; [exact Hb|].
  cbn [app]. eapply at_write; [eassumption|]. eapply IH; eassumption.
Qed.
Lemma watched_run {W} (ws : write_fn W) p : forall w l w' l' o,
  run (watched ws) p (w, l) = ((w', l'), o) ->
  run ws p w = (w', o) /\ exists new, l' = l ++ new /\ attempts ws w new w'.
Proof.
  induction p as [r|c|s st k IH]; intros w l w' l' o; cbn [run].
  - intros [= <- <- <-]. split; [reflexivity|]. exists []. rewrite app_nil_r. split; [reflexivity|constructor].
  - intros [= <- <- <-]. split; [reflexivity|]. exists []. rewrite app_nil_r. split; [reflexivity|constructor].
  - unfold watched at 1. cbn [fst snd]. destruct (ws w s st) as [w1 [r|c]] eqn:E.
    + intros H. destruct (IH _ _ _ _ _ _ H) as (H1 & new & -> & H2). split; [exact H1|].
      exists ((s, st, Returned r) :: new). rewrite <- app_assoc. split; [reflexivity|]. eapply at_write; eassumption.
    + intros [= <- <- <-]. split; [reflexivity|]. exists [(s, st, Crashed c)]. split; [reflexivity|].
      eapply at_write; [eassumption|constructor].
Qed.
Theorem C77_calls {W} (ws : write_fn W) (calls : list wcall) (w w' : W) (l : wlog) (results : list outcome) :
  session (Write_default (watched ws)) calls (w, []) = ((w', l), results) ->
  session (Write_default ws) calls w = (w', results) /\ attempts ws w l w'.
Proof.
  assert (G : forall l0 w l, session (Write_default (watched ws)) calls (w, l0) = ((w', l), results) ->
    session (Write_default ws) calls w = (w', results) /\ exists new, l = l0 ++ new /\ attempts ws w new w').
  2: { intros H. destruct (G [] w l H) as (H1 & new & -> & H2). auto. }
  clear w l. revert results. induction calls as [|c calls IH]; intros results l0 w l; cbn [session].
  - intros [= <- <- <-]. split; [reflexivity|]. exists []. rewrite app_nil_r. split; [reflexivity|constructor].
  - assert (Hc : forall w1 l1 o, do_call (Write_default (watched ws)) (w, l0) c = ((w1, l1), o) ->
      do_call (Write_default ws) w c = (w1, o) /\ exists new, l1 = l0 ++ new /\ attempts ws w new w1).
    { intros w1 l1 o. destruct c as [s st|ch st|args]; cbn [do_call Write_default w_write_str w_write_char w_write_fmt].
      - unfold watched. cbn [fst snd]. destruct (ws w s st) as [w2 o2] eqn:E. intros [= <- <- <-].
        split; [reflexivity|]. eexists. split; [reflexivity|]. eapply at_write; [exact E|constructor].
      - unfold default_write_char, watched. cbn [fst snd]. destruct (ws w [ch] st) as [w2 o2] eqn:E. intros [= <- <- <-].
        split; [reflexivity|]. eexists. split; [reflexivity|]. eapply at_write; [exact E|constructor].
      - apply watched_run. }
    destruct (do_call (Write_default (watched ws)) (w, l0) c) as [[w1 l1] o] eqn:E.
    destruct (Hc _ _ _ eq_refl) as (-> & new1 & -> & H1).
    destruct (session (Write_default (watched ws)) calls (w1, l0 ++ new1)) as [[w2 l2] os] eqn:E2.
    intros [= <- <- <-]. destruct (IH _ _ _ _ E2) as (-> & new2 & -> & H2). split; [reflexivity|].
    exists (new1 ++ new2). rewrite app_assoc. split; [reflexivity|]. eapply attempts_app; eassumption.
Qed.
Print Assumptions C77_calls.

(** The three ways a session can end. *)
Definition shown_session (calls : list wcall) (schedule : list outcome) :=
  let '(w, l, results) := session (Write_default (watched (html_write_str flaky))) calls (html_new (lit "", schedule), []) in
  let '(i, o) := html_finish flaky w in
  (results, fst i, o, pg_cells (page_feed page_new (fst i)), map style_of l).
Definition red := mk_style Red ColorDefault Normal.
Definition blue := mk_style Blue ColorDefault Normal.
Definition css_red : css := mk_css (Some (lit "red")) None 400.

Example C77_arrived_nonvacuous :
  let ok := Returned Ok in
  (* the text a<b is sent as a, &lt;, b: the third is refused; then red text again, refused; then
     plain text *)
  shown_session [CStr (lit "a<b") red; CChar 99%N red; CStr (lit "d") style_default]
    [ok; ok; ok; ok; ok; Returned Err; Crashed Panic]
  = ([Returned Err; Crashed Panic; ok], lit "<span style=color:red>a&lt;</span>d", ok,
     [(97%N, css_red); (60%N, css_red); (100%N, css_page)], [red; red; style_default]).
Proof. vm_compute. reflexivity. Qed.

Example C77_torn_nonvacuous :
  let ok := Returned Ok in
  (* the start tag for blue is torn after its style= *)
  shown_session [CStr (lit "a") red; CStr (lit "b") blue; CStr (lit "c") red; CStr (lit "d") style_default]
    [ok; ok; ok; ok; ok; ok; Returned Err]
  = ([ok; Returned Err; ok; ok], lit "<span style=color:red>a</span><span style=c</span>d", ok,
     [(97%N, css_red)], [red; blue; red; style_default]).
Proof. vm_compute. reflexivity. Qed.

Example C77_lost_nonvacuous :
  let ok := Returned Ok in
  (* the end tag for red is delivered, the start tag for blue is not; red text is now plain; and
     with the next change nothing more is shown *)
  shown_session [CStr (lit "a") red; CStr (lit "b") blue; CStr (lit "c") red; CStr (lit "d") style_default]
    [ok; ok; ok; ok; ok; Returned Err]
  = ([ok; Returned Err; ok; ok], lit "<span style=color:red>a</span>c</span>d", ok,
     [(97%N, css_red); (99%N, css_page)], [red; blue; red; style_default]).
Proof. vm_compute. reflexivity. Qed.
