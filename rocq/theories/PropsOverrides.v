(** C105: sinks with their own [write_fmt]. *)
From Verif Require Import Base Style Fmt Ansi Html SpecText TextFacts StyleFacts SpecTerminal SpecSgr SpecSink
  AnsiFacts SinkFacts RetryFacts SpecHtml HtmlFacts PropsAnsi PropsHtml PropsTruncated Overrides SpecOverrides.

(** * Sinks whose methods agree *)

Lemma one_part {S} (sink : fmt_sink S) i s : write_parts sink [s] i = sink i s.
Proof. cbn. destruct (sink i s) as [i' [[|]|c]]; reflexivity. Qed.

(** C105 (provided): the method a sink inherits is consistent with its [write_str]; and over any sink whose
    methods agree, whether [write_fmt] is overridden makes no difference: every write, and finishing, is what
    all the other properties say it is. *)
Theorem C105_provided {S} :
  (forall sink : fmt_sink S, consistent (provided sink)) /\
  forall d : fmt_impl S, consistent d ->
  (forall w s st, ansi_write_via d w s st = ansi_write_str (fi_write_str d) w s st) /\
  (forall w s st, html_write_via d w s st = html_write_str (fi_write_str d) w s st) /\
  (forall w, ansi_finish_via d w = ansi_finish (fi_write_str d) w) /\
  (forall w, html_finish_via d w = html_finish (fi_write_str d) w).
Proof.
  split; [intros sink i parts; reflexivity|]. intros d Hc. split; [|split; [|split]]; intros w.
  - intros s st. unfold ansi_write_via, ansi_write_str. destruct (is_empty s); [reflexivity|].
    destruct (write_parts (fi_write_str d) (ansi_change (an_current w) st) (an_inner w)) as [i [[|]|c]];
      [|reflexivity|reflexivity].
    rewrite Hc, one_part. reflexivity.
  - intros s st. unfold html_write_via, html_write_str. destruct (is_empty s); [reflexivity|].
    destruct (write_parts (fi_write_str d) (html_change (ht_current w) st) (ht_inner w)) as [i [[|]|c]];
      [|reflexivity|reflexivity].
    rewrite Hc. reflexivity.
  - unfold ansi_finish_via, ansi_finish. rewrite one_part. reflexivity.
  - unfold html_finish_via, html_finish. rewrite one_part. reflexivity.
Qed.
Print Assumptions C105_provided.

(** * Sinks that keep what they are given *)

Lemma impl_honest_fmt {S} (d : fmt_impl S) held : honest_impl d held -> honest_fmt (fi_write_str d) held.
Proof.
  intros [H _] i s i' o E. specialize (H i s). unfold keeps in H. rewrite E in H. exact H.
Qed.
Lemma impl_honest_args {S} (d : fmt_impl S) held i parts i' o : honest_impl d held ->
  fi_write_fmt d i parts = (i', o) ->
  match o with
  | Returned Ok => held i' = held i ++ concat parts
  | _ => exists p q, concat parts = p ++ q /\ held i' = held i ++ p
  end.
Proof. intros [_ H] E. specialize (H i parts). unfold keeps in H. rewrite E in H. exact H. Qed.

Lemma ansi_via_honest {S} (d : fmt_impl S) (held : S -> str) (h : history) : honest_impl d held ->
  forall w w' o, play (ansi_write_via d) h w = (w', o) ->
  exists p q, ansi_render (an_current w) (denote h) = p ++ q /\ held (an_inner w') = held (an_inner w) ++ p /\
    (o = Returned Ok -> q = [] /\ an_current w' = last_style (an_current w) (denote h)).
Proof.
  intros Hi. pose proof (impl_honest_fmt d held Hi) as Hh.
  induction h as [|[s st] h IH]; intros w w' o E.
  - cbn in E. injection E as <- <-. exists [], []. cbn. rewrite app_nil_r. auto.
  - cbn [play] in E. destruct (ansi_write_via d w s st) as [w1 o1] eqn:E1.
    unfold ansi_write_via in E1. destruct s as [|c s].
    + cbn [is_empty] in E1. injection E1 as <- <-. exact (IH _ _ _ E).
    + cbn [is_empty] in E1. set (s0 := c :: s) in *. cbn [denote]. rewrite ansi_render_app.
      rewrite (ansi_render_paint (an_current w) st s0) by discriminate.
      rewrite last_style_app, last_style_paint by discriminate.
      set (rest := ansi_render st (denote h)) in *.
      destruct (write_parts (fi_write_str d) (ansi_change (an_current w) st) (an_inner w)) as [i o2] eqn:E2.
      pose proof (honest_parts _ held _ _ _ _ Hh E2) as HP.
      change (concat (ansi_change (an_current w) st)) with (esc (an_current w) st) in HP.
      destruct o2 as [[|]|cr].
      * destruct (fi_write_fmt d i (@cons str s0 (@nil str))) as [i' r] eqn:E3.
        pose proof (impl_honest_args d held _ _ _ _ Hi E3) as HS.
        cbn [concat] in HS. rewrite app_nil_r in HS. injection E1 as <- <-.
        destruct r as [[|]|cr].
        -- destruct (IH _ _ _ E) as (p & q & Hr & Hw & Hq). cbn [an_current an_inner] in Hr, Hw, Hq.
           exists ((esc (an_current w) st ++ s0) ++ p), q. split; [|split; [|exact Hq]].
           ++ unfold rest. rewrite Hr, <- !app_assoc. reflexivity.
           ++ rewrite Hw, HS, HP, <- !app_assoc. reflexivity.
        -- injection E as <- <-. destruct HS as (p & q & Hs & HS). cbn [an_inner].
           exists (esc (an_current w) st ++ p), (q ++ rest).
           split; [rewrite Hs, <- !app_assoc; reflexivity|]. split; [rewrite HS, HP, <- !app_assoc; reflexivity|discriminate].
        -- injection E as <- <-. destruct HS as (p & q & Hs & HS). cbn [an_inner].
           exists (esc (an_current w) st ++ p), (q ++ rest).
           split; [rewrite Hs, <- !app_assoc; reflexivity|]. split; [rewrite HS, HP, <- !app_assoc; reflexivity|discriminate].
      * injection E1 as <- <-. injection E as <- <-. destruct HP as (p & q & Hs & HP). cbn [an_inner].
        exists p, ((q ++ s0) ++ rest).
        split; [rewrite Hs, <- !app_assoc; reflexivity|]. split; [exact HP|discriminate].
      * injection E1 as <- <-. injection E as <- <-. destruct HP as (p & q & Hs & HP). cbn [an_inner].
        exists p, ((q ++ s0) ++ rest).
        split; [rewrite Hs, <- !app_assoc; reflexivity|]. split; [exact HP|discriminate].
Qed.

Lemma html_via_honest {S} (d : fmt_impl S) (held : S -> str) (h : history) : honest_impl d held ->
  forall w w' o, play (html_write_via d) h w = (w', o) ->
  exists p q, html_render (ht_current w) (denote h) = p ++ q /\ held (ht_inner w') = held (ht_inner w) ++ p /\
    (o = Returned Ok -> q = [] /\ ht_current w' = last_style (ht_current w) (denote h)).
Proof.
  intros Hi. pose proof (impl_honest_fmt d held Hi) as Hh.
  induction h as [|[s st] h IH]; intros w w' o E.
  - cbn in E. injection E as <- <-. exists [], []. cbn. rewrite app_nil_r. auto.
  - cbn [play] in E. destruct (html_write_via d w s st) as [w1 o1] eqn:E1.
    unfold html_write_via in E1. destruct s as [|c s].
    + cbn [is_empty] in E1. injection E1 as <- <-. exact (IH _ _ _ E).
    + cbn [is_empty] in E1. set (s0 := c :: s) in *. cbn [denote]. rewrite html_render_app.
      rewrite (html_render_paint (ht_current w) st s0) by discriminate.
      rewrite last_style_app, last_style_paint by discriminate.
      set (rest := html_render st (denote h)) in *.
      destruct (write_parts (fi_write_str d) (html_change (ht_current w) st) (ht_inner w)) as [i o2] eqn:E2.
      pose proof (honest_parts _ held _ _ _ _ Hh E2) as HP.
      change (concat (html_change (ht_current w) st)) with (hesc (ht_current w) st) in HP.
      destruct o2 as [[|]|cr].
      * destruct (fi_write_fmt d i (escape_parts s0)) as [i' r] eqn:E3.
        pose proof (impl_honest_args d held _ _ _ _ Hi E3) as HS.
        rewrite escape_parts_concat in HS. injection E1 as <- <-.
        destruct r as [[|]|cr].
        -- destruct (IH _ _ _ E) as (p & q & Hr & Hw & Hq). cbn [ht_current ht_inner] in Hr, Hw, Hq.
           exists ((hesc (ht_current w) st ++ escaped s0) ++ p), q. split; [|split; [|exact Hq]].
           ++ unfold rest. rewrite Hr, <- !app_assoc. reflexivity.
           ++ rewrite Hw, HS, HP, <- !app_assoc. reflexivity.
        -- injection E as <- <-. destruct HS as (p & q & Hs & HS). cbn [ht_inner].
           exists (hesc (ht_current w) st ++ p), (q ++ rest).
           split; [rewrite Hs, <- !app_assoc; reflexivity|]. split; [rewrite HS, HP, <- !app_assoc; reflexivity|discriminate].
        -- injection E as <- <-. destruct HS as (p & q & Hs & HS). cbn [ht_inner].
           exists (hesc (ht_current w) st ++ p), (q ++ rest).
           split; [rewrite Hs, <- !app_assoc; reflexivity|]. split; [rewrite HS, HP, <- !app_assoc; reflexivity|discriminate].
      * injection E1 as <- <-. injection E as <- <-. destruct HP as (p & q & Hs & HP). cbn [ht_inner].
        exists p, ((q ++ escaped s0) ++ rest).
        split; [rewrite Hs, <- !app_assoc; reflexivity|]. split; [exact HP|discriminate].
      * injection E1 as <- <-. injection E as <- <-. destruct HP as (p & q & Hs & HP). cbn [ht_inner].
        exists p, ((q ++ escaped s0) ++ rest).
        split; [rewrite Hs, <- !app_assoc; reflexivity|]. split; [exact HP|discriminate].
Qed.

(** C105 (ANSI): over any sink both of whose methods keep what they are given, however each of them does it
    and wherever each of them fails, the sink holds at every point a prefix of the output a String would
    have, and all of it when the writes have succeeded; finishing then completes it. *)
Theorem C105_ansi {S} (d : fmt_impl S) (held : S -> str) (h : history) (i : S) (w' : ansi S) (o : outcome) :
  honest_impl d held -> held i = [] ->
  play (ansi_write_via d) h (ansi_new i) = (w', o) ->
  (exists q, ansi_unfinished h = held (an_inner w') ++ q) /\
  (o = Returned Ok ->
   held (an_inner w') = ansi_unfinished h /\
   (snd (ansi_finish_via d w') = Returned Ok -> held (fst (ansi_finish_via d w')) = ansi_finished h) /\
   exists q, ansi_finished h = held (fst (ansi_finish_via d w')) ++ q).
Proof.
  intros Hi H0 E. destruct (ansi_via_honest d held h Hi _ _ _ E) as (p & q & Hr & Hw & Hq).
  cbn [an_current an_inner ansi_new] in Hr, Hw, Hq. rewrite H0 in Hw. cbn [app] in Hw.
  rewrite ansi_unfinished_eq. split; [exists q; congruence|].
  intros Ho. destruct (Hq Ho) as [-> Hc]. rewrite app_nil_r in Hr. split; [congruence|].
  rewrite ansi_finished_eq. unfold ansi_finish_via. rewrite Hc.
  destruct (style_eqb_spec (last_style style_default (denote h)) style_default) as [Hl|Hl]; cbn [negb].
  - rewrite Hl, esc_same, app_nil_r. cbn [fst snd]. split; [congruence|]. exists []. rewrite app_nil_r. congruence.
  - assert (He : esc (last_style style_default (denote h)) style_default = ansi_reset).
    { unfold esc, ansi_change. rewrite (style_eqb_neq _ _ Hl), style_eqb_refl. cbn. reflexivity. }
    rewrite He, Hr, <- Hw. destruct Hi as [Hs _]. specialize (Hs (an_inner w') ansi_reset). unfold keeps in Hs.
    destruct (fi_write_str d (an_inner w') ansi_reset) as [i' [[|]|c]]; cbn [fst snd] in *.
    + split; [auto|]. exists []. rewrite app_nil_r. auto.
    + split; [discriminate|]. destruct Hs as (a & b & -> & ->). exists b. now rewrite app_assoc.
    + split; [discriminate|]. destruct Hs as (a & b & -> & ->). exists b. now rewrite app_assoc.
Qed.
Print Assumptions C105_ansi.

(** C105 (HTML): the same for the HTML adaptor. *)
Theorem C105_html {S} (d : fmt_impl S) (held : S -> str) (h : history) (i : S) (w' : html S) (o : outcome) :
  honest_impl d held -> held i = [] ->
  play (html_write_via d) h (html_new i) = (w', o) ->
  (exists q, html_unfinished h = held (ht_inner w') ++ q) /\
  (o = Returned Ok ->
   held (ht_inner w') = html_unfinished h /\
   (snd (html_finish_via d w') = Returned Ok -> held (fst (html_finish_via d w')) = html_finished h) /\
   exists q, html_finished h = held (fst (html_finish_via d w')) ++ q).
Proof.
  intros Hi H0 E. destruct (html_via_honest d held h Hi _ _ _ E) as (p & q & Hr & Hw & Hq).
  cbn [ht_current ht_inner html_new] in Hr, Hw, Hq. rewrite H0 in Hw. cbn [app] in Hw.
  rewrite html_unfinished_eq. split; [exists q; congruence|].
  intros Ho. destruct (Hq Ho) as [-> Hc]. rewrite app_nil_r in Hr. split; [congruence|].
  rewrite html_finished_eq. unfold html_finish_via. rewrite Hc.
  destruct (style_eqb_spec (last_style style_default (denote h)) style_default) as [Hl|Hl]; cbn [negb].
  - rewrite Hl, hesc_same, app_nil_r. cbn [fst snd]. split; [congruence|]. exists []. rewrite app_nil_r. congruence.
  - assert (He : hesc (last_style style_default (denote h)) style_default = lit "</span>").
    { rewrite hesc_default. unfold close_tag. rewrite (style_eqb_neq _ _ Hl). reflexivity. }
    rewrite He, Hr, <- Hw. destruct Hi as [Hs _]. specialize (Hs (ht_inner w') (lit "</span>")). unfold keeps in Hs.
    destruct (fi_write_str d (ht_inner w') (lit "</span>")) as [i' [[|]|c]]; cbn [fst snd] in *.
    + split; [auto|]. exists []. rewrite app_nil_r. auto.
    + split; [discriminate|]. destruct Hs as (a & b & -> & ->). exists b. now rewrite app_assoc.
    + split; [discriminate|]. destruct Hs as (a & b & -> & ->). exists b. now rewrite app_assoc.
Qed.
Print Assumptions C105_html.

(** * Which method gets what *)

Lemma record_parts parts l :
  write_parts (fi_write_str recorder) parts l = (l ++ map CStr parts, Returned Ok).
Proof.
  revert l. induction parts as [|p ps IH]; intros l; cbn [write_parts map].
  - now rewrite app_nil_r.
  - cbn [recorder fi_write_str]. change (fun (l0 : list call) (s : str) => (l0 ++ [CStr s], Returned Ok))
      with (fi_write_str recorder). rewrite IH, <- app_assoc. reflexivity.
Qed.
Lemma via_str_app a b : via_str (a ++ b) = via_str a ++ via_str b.
Proof. unfold via_str. now rewrite flat_map_app, concat_app. Qed.
Lemma via_fmt_app a b : via_fmt (a ++ b) = via_fmt a ++ via_fmt b.
Proof. unfold via_fmt. now rewrite flat_map_app. Qed.
Lemma all_calls_app a b : all_calls (a ++ b) = all_calls a ++ all_calls b.
Proof. unfold all_calls. now rewrite map_app, concat_app. Qed.
Lemma via_str_strs ps : via_str (map CStr ps) = concat ps.
Proof.
  unfold via_str. f_equal. induction ps as [|p ps IH]; [reflexivity|]. cbn. now rewrite IH.
Qed.
Lemma via_fmt_strs ps : via_fmt (map CStr ps) = [].
Proof. unfold via_fmt. induction ps as [|p ps IH]; [reflexivity|]. exact IH. Qed.
Lemma all_calls_strs ps : all_calls (map CStr ps) = concat ps.
Proof. unfold all_calls. f_equal. induction ps as [|p ps IH]; [reflexivity|]. cbn. now rewrite IH. Qed.

Lemma ansi_recorded (h : history) : forall w,
  exists l, play (ansi_write_via recorder) h w
            = (mk_ansi (an_inner w ++ l) (last_style (an_current w) (denote h)), Returned Ok) /\
    via_fmt l = texts h /\ all_calls l = ansi_render (an_current w) (denote h) /\
    term_feed sgr_style (mk_term Ground (an_current w) []) (via_str l)
    = mk_term Ground (last_style (an_current w) (denote h)) [] /\
    (exists pss, via_str l = concat (map sgr_sequence pss)).
Proof.
  induction h as [|[s st] h IH]; intros w.
  - exists []. cbn. rewrite app_nil_r. destruct w. repeat split; auto. exists []. reflexivity.
  - cbn [play denote texts map fst filter]. destruct s as [|c s].
    + cbn [is_empty negb]. destruct (IH w) as (l & H). exists l. exact H.
    + cbn [is_empty negb]. set (s0 := c :: s) in *.
      assert (E : ansi_write_via recorder w s0 st
                  = (mk_ansi ((an_inner w ++ map CStr (ansi_change (an_current w) st)) ++ [CFmt [s0]]) st, Returned Ok)).
      { unfold ansi_write_via. cbn [is_empty s0]. rewrite record_parts. reflexivity. }
      rewrite E. destruct (IH (mk_ansi ((an_inner w ++ map CStr (ansi_change (an_current w) st)) ++ [CFmt [s0]]) st))
        as (l & Hp & Hf & Ha & Ht & pss & Hs). cbn [an_inner an_current] in *.
      exists ((map CStr (ansi_change (an_current w) st) ++ [CFmt [s0]]) ++ l).
      rewrite last_style_app, last_style_paint by discriminate. split; [|split; [|split; [|split]]].
      * rewrite Hp, <- !app_assoc. reflexivity.
      * rewrite !via_fmt_app, via_fmt_strs, Hf. cbn [via_fmt flat_map concat app]. now rewrite app_nil_r.
      * rewrite !all_calls_app, all_calls_strs, Ha, ansi_render_app, ansi_render_paint by discriminate.
        rewrite last_style_paint by discriminate. cbn [all_calls map concat]. rewrite !app_nil_r. reflexivity.
      * rewrite !via_str_app, via_str_strs. cbn [via_str flat_map concat]. rewrite app_nil_r, feed_app.
        change (concat (ansi_change (an_current w) st)) with (esc (an_current w) st).
        rewrite feed_esc, esc_codes_style. exact Ht.
      * rewrite !via_str_app, via_str_strs. cbn [via_str flat_map concat]. rewrite app_nil_r.
        change (concat (ansi_change (an_current w) st)) with (esc (an_current w) st). rewrite Hs.
        destruct (esc_sequence (an_current w) st) as [->|(ps & ->)]; [exists pss; reflexivity|].
        exists (ps :: pss). reflexivity.
Qed.

Lemma html_recorded (h : history) : forall w,
  exists l, play (html_write_via recorder) h w
            = (mk_html (ht_inner w ++ l) (last_style (ht_current w) (denote h)), Returned Ok) /\
    via_fmt l = map escaped (texts h) /\ all_calls l = html_render (ht_current w) (denote h) /\
    page_feed (mk_page Data (open_elements (ht_current w)) []) (via_str l)
    = mk_page Data (open_elements (last_style (ht_current w) (denote h))) [].
Proof.
  induction h as [|[s st] h IH]; intros w.
  - exists []. cbn. rewrite app_nil_r. destruct w. repeat split; auto.
  - cbn [play denote texts map fst filter]. destruct s as [|c s].
    + cbn [is_empty negb]. destruct (IH w) as (l & H). exists l. exact H.
    + cbn [is_empty negb]. set (s0 := c :: s) in *.
      set (w1 := mk_html ((ht_inner w ++ map CStr (html_change (ht_current w) st)) ++ [CFmt (escape_parts s0)]) st).
      assert (E : html_write_via recorder w s0 st = (w1, Returned Ok)).
      { unfold html_write_via. cbn [is_empty s0]. rewrite record_parts. reflexivity. }
      rewrite E. destruct (IH w1) as (l & Hp & Hf & Ha & Ht). cbn [ht_inner ht_current w1] in *.
      exists ((map CStr (html_change (ht_current w) st) ++ [CFmt (escape_parts s0)]) ++ l).
      rewrite last_style_app, last_style_paint by discriminate. split; [|split; [|split]].
      * rewrite Hp. unfold w1. cbn [ht_inner ht_current]. rewrite <- !app_assoc. reflexivity.
      * rewrite !via_fmt_app, via_fmt_strs, Hf. cbn [via_fmt flat_map app map].
        rewrite escape_parts_concat. reflexivity.
      * rewrite !all_calls_app, all_calls_strs, Ha, html_render_app, html_render_paint by discriminate.
        rewrite last_style_paint by discriminate. cbn [all_calls map concat].
        rewrite escape_parts_concat, !app_nil_r. reflexivity.
      * rewrite !via_str_app, via_str_strs. cbn [via_str flat_map concat]. rewrite app_nil_r, pfeed_app.
        change (concat (html_change (ht_current w) st)) with (hesc (ht_current w) st).
        rewrite feed_hesc. exact Ht.
Qed.

(** C105 (who gets what, ANSI): [write_fmt] is called once for each write that writes something, with exactly
    its text and no control sequence; [write_str] gets exactly the control sequences and no text: a terminal
    fed with these calls only shows nothing and ends in the style of the last character.  Together the calls
    are the output.  The same after [finish], whose call is a [write_str]. *)
Theorem C105_ansi_calls (h : history) :
  exists l w', play (ansi_write_via recorder) h (ansi_new []) = (w', Returned Ok) /\ an_inner w' = l /\
    via_fmt l = texts h /\ all_calls l = ansi_unfinished h /\
    (exists pss, via_str l = concat (map sgr_sequence pss)) /\
    term_feed sgr_style term_new (via_str l) = mk_term Ground (last_style style_default (denote h)) [] /\
    exists l', ansi_finish_via recorder w' = (l ++ l', Returned Ok) /\
      via_fmt l' = [] /\ all_calls (l ++ l') = ansi_finished h /\
      term_feed sgr_style term_new (via_str (l ++ l')) = mk_term Ground style_default [].
Proof.
  destruct (ansi_recorded h (ansi_new [])) as (l & Hp & Hf & Ha & Ht & Hs). cbn [an_inner an_current ansi_new app] in *.
  rewrite ansi_unfinished_eq, ansi_finished_eq. eexists l, _. split; [exact Hp|]. cbn [an_inner].
  split; [reflexivity|]. split; [exact Hf|]. split; [exact Ha|]. split; [exact Hs|]. split; [exact Ht|].
  unfold ansi_finish_via. cbn [an_current an_inner].
  set (cur := last_style style_default (denote h)) in *.
  assert (HE : term_feed sgr_style term_new (via_str l ++ esc cur style_default) = mk_term Ground style_default []).
  { rewrite feed_app. etransitivity; [exact (f_equal (fun t => term_feed sgr_style t (esc cur style_default)) Ht)|].
    apply esc_default_ends. }
  destruct (style_eqb_spec cur style_default) as [Hl|Hl]; cbn [negb].
  - exists []. rewrite Hl, esc_same in *. rewrite !app_nil_r in *. auto.
  - exists [CStr ansi_reset]. split; [reflexivity|]. split; [reflexivity|].
    assert (He : esc cur style_default = ansi_reset).
    { unfold esc, ansi_change. rewrite (style_eqb_neq _ _ Hl), style_eqb_refl. cbn. reflexivity. }
    rewrite He in *. rewrite all_calls_app, via_str_app, Ha. cbn [all_calls via_str map flat_map concat app].
    rewrite !app_nil_r. auto.
Qed.
Print Assumptions C105_ansi_calls.

(** C105 (who gets what, HTML): [write_fmt] is called once for each write that writes something, with the
    escaped text, in which there is no tag; [write_str] gets exactly the tags: a browser given these calls
    only shows nothing, and after [finish] no element is left open. *)
Theorem C105_html_calls (h : history) :
  exists l w', play (html_write_via recorder) h (html_new []) = (w', Returned Ok) /\ ht_inner w' = l /\
    via_fmt l = map escaped (texts h) /\ Forall clean_text (via_fmt l) /\ all_calls l = html_unfinished h /\
    pg_cells (page_feed page_new (via_str l)) = [] /\
    exists l', html_finish_via recorder w' = (l ++ l', Returned Ok) /\
      via_fmt l' = [] /\ all_calls (l ++ l') = html_finished h /\
      page_feed page_new (via_str (l ++ l')) = page_new.
Proof.
  destruct (html_recorded h (html_new [])) as (l & Hp & Hf & Ha & Ht). cbn [ht_inner ht_current html_new app] in *.
  rewrite html_unfinished_eq, html_finished_eq. eexists l, _. split; [exact Hp|]. cbn [ht_inner].
  split; [reflexivity|]. split; [exact Hf|]. split.
  { rewrite Hf. apply Forall_forall. intros x Hx. apply in_map_iff in Hx as (s & <- & _).
    exact (proj1 (C18_injection_safe s [] [] style_default)). }
  split; [exact Ha|].
  change (page_feed page_new (via_str l) = mk_page Data (open_elements (last_style style_default (denote h))) []) in Ht.
  split; [rewrite Ht; reflexivity|].
  unfold html_finish_via. cbn [ht_current ht_inner].
  set (cur := last_style style_default (denote h)) in *.
  assert (HE : page_feed page_new (via_str l ++ hesc cur style_default) = page_new).
  { rewrite pfeed_app, Ht, feed_hesc. reflexivity. }
  destruct (style_eqb_spec cur style_default) as [Hl|Hl]; cbn [negb].
  - exists []. rewrite Hl, hesc_same in *. rewrite !app_nil_r in *. auto.
  - exists [CStr (lit "</span>")]. split; [reflexivity|]. split; [reflexivity|].
    assert (He : hesc cur style_default = lit "</span>").
    { rewrite hesc_default. unfold close_tag. rewrite (style_eqb_neq _ _ Hl). reflexivity. }
    rewrite He in *. rewrite all_calls_app, via_str_app, Ha. cbn [all_calls via_str map flat_map concat].
    rewrite !app_nil_r. auto.
Qed.
Print Assumptions C105_html_calls.

(** * A sink that changes the text on its way *)

Lemma rewriting_parts f parts (i : str) :
  write_parts (fi_write_str (rewriting f)) parts i = (i ++ concat parts, Returned Ok).
Proof.
  revert i. induction parts as [|p ps IH]; intros i; cbn [write_parts concat].
  - now rewrite app_nil_r.
  - cbn [rewriting fi_write_str]. change (fun i0 s : str => (i0 ++ s, Returned Ok)) with (fi_write_str (rewriting f)).
    rewrite IH, <- app_assoc. reflexivity.
Qed.

Lemma ansi_rewritten f (h : history) : (forall s, s <> [] -> f s <> []) ->
  forall w, exists o, play (ansi_write_via (rewriting f)) h w
  = (mk_ansi (an_inner w ++ o) (last_style (an_current w) (denote h)), Returned Ok) /\
  o = ansi_render (an_current w) (denote (retext f h)).
Proof.
  intros Hf. induction h as [|[s st] h IH]; intros w.
  - exists []. cbn. rewrite app_nil_r. destruct w. auto.
  - cbn [play denote retext map fst snd]. destruct s as [|c s].
    + destruct (IH w) as (o & H). exists o. exact H.
    + set (s0 := c :: s) in *.
      set (w1 := mk_ansi ((an_inner w ++ esc (an_current w) st) ++ f s0) st).
      assert (E : ansi_write_via (rewriting f) w s0 st = (w1, Returned Ok)).
      { unfold ansi_write_via. cbn [is_empty s0]. rewrite rewriting_parts. cbn [fi_write_fmt rewriting concat].
        rewrite app_nil_r. reflexivity. }
      rewrite E. destruct (IH w1) as (o & Hp & Ho). cbn [an_inner an_current w1] in *.
      exists ((esc (an_current w) st ++ f s0) ++ o).
      rewrite last_style_app, last_style_paint by discriminate. split.
      * rewrite Hp. unfold w1. cbn [an_inner]. rewrite <- !app_assoc. reflexivity.
      * rewrite Ho, ansi_render_app, ansi_render_paint by (apply Hf; discriminate).
        rewrite last_style_paint by (apply Hf; discriminate). reflexivity.
Qed.

(** C105 (rewriting): a sink whose [write_fmt] changes the text (and leaves none of it empty) changes the
    text only: the result is the output for the changed texts in the same styles. *)
Theorem C105_rewriting (f : str -> str) (h : history) :
  (forall s, s <> [] -> f s <> []) ->
  an_inner (fst (play (ansi_write_via (rewriting f)) h (ansi_new [])))
  = ansi_unfinished (retext f h).
Proof.
  intros Hf. destruct (ansi_rewritten f h Hf (ansi_new [])) as (o & Hp & Ho). rewrite Hp, ansi_unfinished_eq. exact Ho.
Qed.
Print Assumptions C105_rewriting.

(** A sink that keeps what it is given but whose methods do not agree: [write_fmt] puts a whole text in the
    room that is left or refuses it, [write_str] fills the room first. *)
Definition picky : fmt_impl (str * nat) :=
  mk_impl
    (fun i s => let n := snd i in
                if Nat.leb (length s) n then ((fst i ++ s, n - length s), Returned Ok)
                else ((fst i ++ firstn n s, 0), Returned Err))
    (fun i parts => let s := concat parts in let n := snd i in
                if Nat.leb (length s) n then ((fst i ++ s, n - length s), Returned Ok)
                else (i, Returned Err)).

Example C105_nonvacuous :
  let red := mk_style Red ColorDefault Bold in
  let h := [(lit "a", style_default); (lit "", red); (lit "<bc", red)] in
  honest_impl picky fst /\ ~ consistent picky /\
  play (ansi_write_via picky) h (ansi_new ([], 9))
  = (mk_ansi (lit "a" ++ ESC :: lit "[31;1m", 1) red, Returned Err) /\
  an_inner (fst (play (ansi_write_str (fi_write_str picky)) h (ansi_new ([], 9))))
  = (lit "a" ++ ESC :: lit "[31;1m<", 0) /\
  ht_inner (fst (play (html_write_via recorder) h (html_new [])))
  = [CFmt [lit "a"]; CStr (lit "<span style="); CStr (lit "color:red"); CStr (lit ";");
     CStr (lit "font-weight:bolder"); CStr (lit ">"); CFmt [[]; lit "&lt;"; lit "bc"]] /\
  an_inner (fst (play (ansi_write_via (rewriting (map (fun c => if (97 <=? c)%N then (c - 32)%N else c)))) h
                  (ansi_new [])))
  = lit "A" ++ ESC :: lit "[31;1m<BC".
Proof.
  cbv zeta. split; [|split; [|repeat split; vm_compute; reflexivity]].
  - split.
    + intros [i n] s. unfold keeps. cbn [picky fi_write_str fst snd].
      destruct (Nat.leb (length s) n); cbn [fst snd]; [reflexivity|].
      exists (firstn n s), (skipn n s). split; [symmetry; apply firstn_skipn|reflexivity].
    + intros [i n] ps. unfold keeps. cbn [picky fi_write_fmt fst snd].
      destruct (Nat.leb (length (concat ps)) n); cbn [fst snd]; [reflexivity|].
      exists [], (concat ps). split; [reflexivity|]. now rewrite app_nil_r.
  - intros H. specialize (H ([], 1) [lit "ab"]). vm_compute in H. discriminate.
Qed.
