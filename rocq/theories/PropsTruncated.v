(** C81: output that stops in the middle. *)
From Verif Require Import Base Style Fmt Ansi Html SpecText TextFacts StyleFacts SpecTerminal SpecSgr SpecSink
  AnsiFacts SinkFacts RetryFacts SpecHtml HtmlFacts SpecUtf8 Utf8Facts PropsAnsi PropsHtml SpecTruncated.

(** * Cutting a concatenation *)
Lemma app_cut {A} (a b p q : list A) : a ++ b = p ++ q ->
  (exists r, a = p ++ r /\ q = r ++ b) \/ (exists r, p = a ++ r /\ b = r ++ q).
Proof.
  revert p. induction a as [|x a IH]; intros p E.
  - right. exists p. auto.
  - destruct p as [|y p]; cbn in E.
    + left. exists (x :: a). subst q. auto.
    + injection E as -> E. destruct (IH p E) as [(r & -> & ->)|(r & -> & ->)]; [left|right]; exists r; auto.
Qed.

Lemma render_cut (t : stext) : forall cur p q, ansi_render cur t = p ++ q ->
  exists t1 t2 e, t = t1 ++ t2 /\ p = ansi_render cur t1 ++ e /\
    ((t2 = [] /\ e = [] /\ q = []) \/
     exists c st t3 e', t2 = (c, st) :: t3 /\ esc (last_style cur t1) st = e ++ e').
Proof.
  induction t as [|[c st] t IH]; intros cur p q E.
  - cbn in E. symmetry in E. apply app_eq_nil in E as [-> ->].
    exists [], [], []. cbn. split; [reflexivity|]. split; [reflexivity|]. left. auto.
  - cbn [ansi_render] in E. apply app_cut in E as [(r & E & _)|(r & E & E2)].
    + exists [], ((c, st) :: t), p. cbn [ansi_render last_style app]. split; [reflexivity|].
      split; [reflexivity|]. right. exists c, st, t, r. auto.
    + destruct r as [|d r].
      * rewrite app_nil_r in E. subst p. exists [], ((c, st) :: t), (esc cur st). cbn [ansi_render last_style app].
        split; [reflexivity|]. split; [reflexivity|]. right. exists c, st, t, []. now rewrite app_nil_r.
      * cbn [app] in E2. injection E2 as <- E2. destruct (IH st r q E2) as (t1 & t2 & e & -> & -> & He).
        exists ((c, st) :: t1), t2, e. cbn [ansi_render last_style app]. split; [reflexivity|]. split; [|exact He].
        rewrite E. rewrite <- app_assoc. reflexivity.
Qed.

(** Any text as a history. *)
Definition one_by_one (t : stext) : history := map (fun cs => ([fst cs], snd cs)) t.
Lemma denote_one_by_one t : denote (one_by_one t) = t.
Proof. induction t as [|[c st] t IH]; [reflexivity|]. cbn. f_equal. exact IH. Qed.

Lemma no_controls_app a b : no_controls (a ++ b) <-> no_controls a /\ no_controls b.
Proof. apply Forall_app. Qed.

(** From any state, the reset brings a terminal back. *)
Lemma reset_any (t : term style) :
  term_feed sgr_style t (sgr_sequence [0%N]) = mk_term Ground style_default (tm_screen t).
Proof.
  destruct t as [state rend screen].
  change (sgr_sequence [0%N]) with (27%N :: 91%N :: 48%N :: [109%N]).
  destruct state; reflexivity.
Qed.

Lemma esc_part {R} (sgr : N -> R -> R) cur st e e' rend screen :
  esc cur st = e ++ e' -> tm_screen (term_feed sgr (mk_term Ground rend screen) e) = screen.
Proof.
  intros E. destruct e' as [|c e'].
  - rewrite app_nil_r in E. subst e. rewrite feed_esc. reflexivity.
  - destruct (feed_prefix sgr cur st e (c :: e') Ground rend screen E) as (s' & ->); [discriminate|]. reflexivity.
Qed.

Lemma esc_sequence cur st : esc cur st = [] \/ exists ps, esc cur st = sgr_sequence ps.
Proof.
  destruct (esc_minimal cur st) as (H1 & H2 & H3).
  destruct (style_eqb_spec cur st) as [->|Hn]; [left; apply esc_same|]. right.
  destruct (style_eqb_spec st style_default) as [E|Hd].
  - exists [0%N]. auto.
  - destruct H3 as (ps & E & _); eauto.
Qed.

Lemma denote_snoc h c st : denote (h ++ [([c], st)]) = denote h ++ [(c, st)].
Proof. rewrite denote_app. reflexivity. Qed.

(** C81 (ANSI): whatever part of the output has arrived, a terminal shows a prefix of the text in its
    styles, namely all the characters that were sent: the part is the output for that prefix and possibly
    part of (or one whole) SGR sequence, and is shorter than the output that includes the next character.  A
    reset sent by somebody else then leaves the terminal in the default style with nothing more shown.  A
    terminal with independent bold and faint also shows what it shows of the prefix (C14). *)
Theorem C81_ansi (h : history) (p q : str) :
  no_controls (text_of h) -> ansi_finished h = p ++ q ->
  exists t1 t2 : stext, denote h = t1 ++ t2 /\
    tm_screen (term_feed sgr_style term_new p) = t1 /\
    tm_screen (term_feed sgr_xterm xterm_new p) = sticky false false t1 /\
    term_feed sgr_style term_new (p ++ sgr_sequence [0%N]) = mk_term Ground style_default t1 /\
    forall h1, denote h1 = t1 ->
      (exists e, p = ansi_unfinished h1 ++ e /\ (e = [] \/ exists ps e', sgr_sequence ps = e ++ e')) /\
      match t2 with
      | [] => ansi_finished h1 = p ++ q
      | (c, st) :: _ => exists r, r <> [] /\ ansi_unfinished (h1 ++ [([c], st)]) = p ++ r
      end.
Proof.
  intros Hc E. rewrite ansi_finished_eq in E.
  assert (Hcut : exists t1 t2 e, denote h = t1 ++ t2 /\ p = ansi_render style_default t1 ++ e /\
            exists st e', esc (last_style style_default t1) st = e ++ e' /\
            match t2 with [] => st = style_default /\ e' = q | (_, st') :: _ => st = st' end).
  { apply app_cut in E as [(r & E & E2)|(r & E & E2)].
    - destruct (render_cut _ _ _ _ E) as (t1 & t2 & e & Ht & Hp & [(H1 & H2 & H3)|(c & st & t3 & e' & H1 & H2)]).
      + subst t2 e r. rewrite app_nil_r in Ht. exists t1, [], []. rewrite app_nil_r. split; [exact Ht|].
        split; [exact Hp|]. exists style_default, q. rewrite <- Ht. split; [symmetry; exact E2|auto].
      + subst t2. exists t1, ((c, st) :: t3), e. split; [exact Ht|]. split; [exact Hp|]. exists st, e'. auto.
    - exists (denote h), [], r. rewrite app_nil_r. split; [reflexivity|]. split; [exact E|].
      exists style_default, q. auto. }
  destruct Hcut as (t1 & t2 & e & Ht & Hp & st & e' & He & Ht2). exists t1, t2. split; [exact Ht|].
  rewrite <- chars_denote, Ht in Hc. unfold chars in Hc. rewrite map_app in Hc.
  apply no_controls_app in Hc as [Hc _].
  assert (Hs : tm_screen (term_feed sgr_style term_new p) = t1).
  { rewrite Hp, feed_app.
    pose proof (render_shows style_default t1 [] Hc) as HR.
    change (term_feed sgr_style term_new (ansi_render style_default t1)
            = mk_term Ground (last_style style_default t1) t1) in HR. rewrite HR.
    exact (esc_part _ _ _ _ _ _ _ He). }
  split; [exact Hs|]. split; [|split].
  - rewrite Hp, feed_app.
    destruct (render_shows_xterm style_default t1 false false [] Hc) as (r & Hr); [now split|].
    change (term_feed sgr_xterm xterm_new (ansi_render style_default t1)
            = mk_term Ground r (sticky false false t1)) in Hr. rewrite Hr. exact (esc_part _ _ _ _ _ _ _ He).
  - rewrite feed_app, reset_any, Hs. reflexivity.
  - intros h1 E1. split.
    + exists e. split; [rewrite ansi_unfinished_eq, E1; exact Hp|].
      destruct (esc_sequence (last_style style_default t1) st) as [E0|(ps & E0)].
      * left. rewrite E0 in He. symmetry in He. now apply app_eq_nil in He.
      * right. exists ps, e'. congruence.
    + destruct t2 as [|[c st'] t3].
      * destruct Ht2 as [-> ->]. rewrite ansi_finished_eq, E1, He, Hp, <- app_assoc. reflexivity.
      * subst st'. exists (e' ++ [c]). split; [destruct e'; discriminate|].
        rewrite ansi_unfinished_eq, denote_snoc, E1, ansi_render_app, Hp. cbn [ansi_render].
        rewrite He, <- !app_assoc. reflexivity.
Qed.
Print Assumptions C81_ansi.

(** * Bytes *)
Lemma utf8_cut (s : str) : forall b b', utf8 s = b ++ b' ->
  exists p q rest, s = p ++ q /\ b = utf8 p ++ rest /\
    (rest = [] \/ exists c q' more, q = c :: q' /\ utf8_char c = rest ++ more /\ more <> []).
Proof.
  induction s as [|c s IH]; intros b b' E.
  - cbn in E. symmetry in E. apply app_eq_nil in E as [-> ->]. exists [], [], []. cbn. auto.
  - unfold utf8 in E. cbn [flat_map] in E. fold (utf8 s) in E.
    apply app_cut in E as [(r & E & _)|(r & E & E2)].
    + destruct r as [|d r].
      * rewrite app_nil_r in E. exists [c], s, []. split; [reflexivity|]. split; [|auto].
        unfold utf8. cbn [flat_map]. rewrite !app_nil_r. congruence.
      * exists [], (c :: s), b. split; [reflexivity|]. split; [reflexivity|]. right.
        exists c, s, (d :: r). split; [reflexivity|]. split; [exact E|discriminate].
    + destruct (IH r b' E2) as (p & q & rest & -> & -> & H).
      exists (c :: p), q, rest. split; [reflexivity|]. split; [|exact H].
      unfold utf8. cbn [flat_map]. rewrite E, <- app_assoc. reflexivity.
Qed.

(** C81 (bytes): if the UTF-8 encoding of an output (of any kind) is cut after any byte, what has arrived is
    the encoding of a prefix of its characters and possibly an incomplete part of the next one; a decoder
    reads exactly that prefix. *)
Theorem C81_bytes (out : str) (b b' : bytes) :
  Forall (fun c => is_scalar c = true) out -> utf8 out = b ++ b' ->
  exists p q rest, out = p ++ q /\ b = utf8 p ++ rest /\ utf8_decode (utf8 p) = Some p /\
    (rest = [] \/ exists c q' more, q = c :: q' /\ utf8_char c = rest ++ more /\ more <> []).
Proof.
  intros Hs E. destruct (utf8_cut out b b' E) as (p & q & rest & -> & Hb & Hr).
  exists p, q, rest. split; [reflexivity|]. split; [exact Hb|]. split; [|exact Hr].
  apply decode_utf8. apply Forall_app in Hs. tauto.
Qed.
Print Assumptions C81_bytes.

(** * Sinks *)
Lemma ansi_play_honest {S} (sink : fmt_sink S) (held : S -> str) (h : history) : honest_fmt sink held ->
  forall w w' o, play (ansi_write_str sink) h w = (w', o) ->
  exists p q, ansi_render (an_current w) (denote h) = p ++ q /\ held (an_inner w') = held (an_inner w) ++ p /\
    (o = Returned Ok -> q = []).
Proof.
  intros Hh. induction h as [|[s st] h IH]; intros w w' o E.
  - cbn in E. injection E as <- <-. exists [], []. cbn. rewrite app_nil_r. auto.
  - cbn [play] in E. destruct (ansi_write_str sink w s st) as [w1 o1] eqn:E1.
    unfold ansi_write_str in E1. destruct s as [|c s].
    + cbn [is_empty] in E1. injection E1 as <- <-. exact (IH _ _ _ E).
    + cbn [is_empty] in E1. set (s0 := c :: s) in *. cbn [denote]. rewrite ansi_render_app.
      rewrite (ansi_render_paint (an_current w) st s0) by discriminate.
      destruct (write_parts sink (ansi_change (an_current w) st) (an_inner w)) as [i o2] eqn:E2.
      pose proof (honest_parts sink held _ _ _ _ Hh E2) as HP.
      change (concat (ansi_change (an_current w) st)) with (esc (an_current w) st) in HP.
      destruct o2 as [[|]|cr].
      * destruct (sink i s0) as [i' r] eqn:E3. pose proof (Hh _ _ _ _ E3) as HS. injection E1 as <- <-.
        destruct r as [[|]|cr].
        -- destruct (IH _ _ _ E) as (p & q & Hr & Hw & Hq). cbn [an_current an_inner] in Hr, Hw.
           exists ((esc (an_current w) st ++ s0) ++ p), q. split; [|split; [|exact Hq]].
           ++ rewrite last_style_paint by discriminate. rewrite Hr, <- !app_assoc. reflexivity.
           ++ rewrite Hw, HS, HP, <- !app_assoc. reflexivity.
        -- injection E as <- <-. destruct HS as (p & q & Hs & HS). cbn [an_inner].
           exists (esc (an_current w) st ++ p), (q ++ ansi_render (last_style (an_current w) (paint st s0)) (denote h)).
           split; [rewrite Hs, <- !app_assoc; reflexivity|]. split; [rewrite HS, HP, <- !app_assoc; reflexivity|discriminate].
        -- injection E as <- <-. destruct HS as (p & q & Hs & HS). cbn [an_inner].
           exists (esc (an_current w) st ++ p), (q ++ ansi_render (last_style (an_current w) (paint st s0)) (denote h)).
           split; [rewrite Hs, <- !app_assoc; reflexivity|]. split; [rewrite HS, HP, <- !app_assoc; reflexivity|discriminate].
      * injection E1 as <- <-. injection E as <- <-. destruct HP as (p & q & Hs & HP). cbn [an_inner].
        exists p, ((q ++ s0) ++ ansi_render (last_style (an_current w) (paint st s0)) (denote h)).
        split; [rewrite Hs, <- !app_assoc; reflexivity|]. split; [exact HP|discriminate].
      * injection E1 as <- <-. injection E as <- <-. destruct HP as (p & q & Hs & HP). cbn [an_inner].
        exists p, ((q ++ s0) ++ ansi_render (last_style (an_current w) (paint st s0)) (denote h)).
        split; [rewrite Hs, <- !app_assoc; reflexivity|]. split; [exact HP|discriminate].
Qed.

(** C81 (sinks): the same when it is the sink that stops: a user writes until a write does not succeed (an
    error or a panic), on any sink, initially empty, that keeps a prefix of what it is given.  The sink holds
    a prefix of the output, so the terminal shows a prefix of the text in its styles. *)
Theorem C81_ansi_sink {S} (sink : fmt_sink S) (held : S -> str) (h : history) (i : S) (w' : ansi S) (o : outcome) :
  honest_fmt sink held -> held i = [] -> no_controls (text_of h) ->
  play (ansi_write_str sink) h (ansi_new i) = (w', o) ->
  (exists q, ansi_unfinished h = held (an_inner w') ++ q) /\
  exists t1 t2, denote h = t1 ++ t2 /\ tm_screen (term_feed sgr_style term_new (held (an_inner w'))) = t1 /\
    (o = Returned Ok -> t2 = []).
Proof.
  intros Hh Hi Hc E. destruct (ansi_play_honest sink held h Hh _ _ _ E) as (p & q & Hr & Hw & Hq).
  cbn [an_current an_inner ansi_new] in Hr, Hw. rewrite Hi in Hw. cbn [app] in Hw.
  rewrite ansi_unfinished_eq. split; [exists q; congruence|].
  destruct (C81_ansi h p (q ++ esc (last_style style_default (denote h)) style_default) Hc) as (t1 & t2 & Ht & Hs & _).
  { rewrite ansi_finished_eq, Hr, <- app_assoc. reflexivity. }
  exists t1, t2. split; [exact Ht|]. split; [rewrite Hw; exact Hs|].
  intros Ho. specialize (Hq Ho). subst q. rewrite app_nil_r in Hr.
  assert (Hall : tm_screen (term_feed sgr_style term_new p) = denote h).
  { rewrite <- Hr, <- ansi_unfinished_eq. apply C10_terminal_shows. exact Hc. }
  assert (HL : length (t1 ++ t2) = length t1) by congruence.
  rewrite app_length in HL. destruct t2; [reflexivity|cbn in HL; lia].
Qed.
Print Assumptions C81_ansi_sink.

(** * HTML *)
Lemma app_cut_strict {A} (a b p q : list A) : a ++ b = p ++ q ->
  (exists r, a = p ++ r /\ q = r ++ b /\ r <> []) \/ (exists r, p = a ++ r /\ b = r ++ q).
Proof.
  intros E. destruct (app_cut a b p q E) as [(r & E1 & E2)|H]; [|right; exact H].
  destruct r as [|x r]; [|left; exists (x :: r); repeat split; auto; discriminate].
  right. exists []. rewrite !app_nil_r in *. cbn in *. split; congruence.
Qed.

Lemma html_render_cut (t : stext) : forall cur p q, html_render cur t = p ++ q ->
  exists t1 t2 e, t = t1 ++ t2 /\ p = html_render cur t1 ++ e /\
    ((t2 = [] /\ e = [] /\ q = []) \/
     exists c st t3, t2 = (c, st) :: t3 /\
       ((exists e', hesc (last_style cur t1) st = e ++ e') \/
        (exists f f', e = hesc (last_style cur t1) st ++ f /\ escaped_char c = f ++ f' /\ f <> [] /\ f' <> []))).
Proof.
  induction t as [|[c st] t IH]; intros cur p q E.
  - cbn in E. symmetry in E. apply app_eq_nil in E as [-> ->].
    exists [], [], []. cbn. split; [reflexivity|]. split; [reflexivity|]. left. auto.
  - cbn [html_render] in E. apply app_cut_strict in E as [(r & E & _)|(r & E & E2)].
    + exists [], ((c, st) :: t), p. cbn [html_render last_style app]. split; [reflexivity|].
      split; [reflexivity|]. right. exists c, st, t. split; [reflexivity|]. left. exists r. exact E.
    + apply app_cut_strict in E2 as [(r2 & E2 & _ & Hn)|(r2 & E2 & E3)].
      * destruct r as [|x r].
        { rewrite app_nil_r in E. exists [], ((c, st) :: t), p. cbn [html_render last_style app].
          split; [reflexivity|]. split; [reflexivity|]. right. exists c, st, t. split; [reflexivity|].
          left. exists []. rewrite app_nil_r. congruence. }
        exists [], ((c, st) :: t), p. cbn [html_render last_style app]. split; [reflexivity|].
        split; [reflexivity|]. right. exists c, st, t. split; [reflexivity|]. right.
        exists (x :: r), r2. repeat split; try discriminate; auto.
      * destruct (IH st r2 q E3) as (t1 & t2 & e & -> & -> & He).
        exists ((c, st) :: t1), t2, e. cbn [html_render last_style app]. split; [reflexivity|]. split; [|exact He].
        rewrite E, E2, <- !app_assoc. reflexivity.
Qed.

(** The state in the middle of the tags. *)
Definition tag_artifact (pg : page) (cur : style) (e : str) : Prop :=
  at_eof (pg_state pg) = [] \/
  ((at_eof (pg_state pg) = lit "<" \/ at_eof (pg_state pg) = lit "</") /\
   exists s e0, (s = cur \/ s = style_default) /\ pg_style pg = css_look s /\ e = e0 ++ at_eof (pg_state pg)).

Lemma cut_close cur cells (e e' : str) : close_tag cur = e ++ e' -> e' <> [] ->
  let pg := page_feed (mk_page Data (open_elements cur) cells) e in
  pg_cells pg = cells /\ tag_artifact pg cur e.
Proof.
  intros E Hn. unfold close_tag in E. destruct (style_eqb_spec cur style_default) as [->|Hd].
  - symmetry in E. apply app_eq_nil in E as [-> ->]. split; [reflexivity|left; reflexivity].
  - assert (Ho : match open_elements cur with x :: _ => x | [] => css_page end = css_look cur)
      by apply open_elements_style.
    assert (Hc : e = [] \/ e = lit "<" \/ e = lit "</" \/ e = lit "</s" \/ e = lit "</sp" \/ e = lit "</spa"
                 \/ e = lit "</span").
    { cbn in E.
      destruct e as [|c1 e]; [auto|]. cbn [app] in E. injection E as <- E.
      destruct e as [|c2 e]; [auto|]. cbn [app] in E. injection E as <- E.
      destruct e as [|c3 e]; [auto|]. cbn [app] in E. injection E as <- E.
      destruct e as [|c4 e]; [auto 10|]. cbn [app] in E. injection E as <- E.
      destruct e as [|c5 e]; [auto 10|]. cbn [app] in E. injection E as <- E.
      destruct e as [|c6 e]; [auto 10|]. cbn [app] in E. injection E as <- E.
      destruct e as [|c7 e]; [auto 10|]. cbn [app] in E. injection E as <- E.
      symmetry in E. apply app_eq_nil in E as [_ ->]. congruence. }
    destruct Hc as [->|[->|[->|[->|[->|[->| ->]]]]]]; cbn -[lit]; (split; [reflexivity|]);
      try (left; reflexivity); right; (split; [auto|]); exists cur, []; (split; [auto|]); (split; [exact Ho|reflexivity]).
Qed.

Lemma cut_open st cells (e e' : str) : open_text st = e ++ e' ->
  let pg := page_feed (mk_page Data [] cells) e in
  pg_cells pg = cells /\ tag_artifact pg style_default e.
Proof.
  intros E. unfold open_text in E. destruct (style_eqb_spec st style_default) as [->|Hd].
  - symmetry in E. apply app_eq_nil in E as [-> ->]. split; [reflexivity|left; reflexivity].
  - assert (E' : 60%N :: (tag_body st ++ [62%N]) = e ++ e').
    { rewrite <- E. unfold start_tag, tag_body. reflexivity. }
    destruct e as [|c e]; [cbn; split; [reflexivity|left; reflexivity]|]. cbn [app] in E'. injection E' as <- E'.
    change (tag_body st ++ [62%N] = e ++ e') in E'.
    destruct (tag_body_facts st Hd) as (Hf & Hs & Ho).
    apply app_cut_strict in E' as [(r & E1 & _)|(r & E1 & E2)].
    + assert (Hfe : forallb (fun c => negb (N.eqb c 62)) e = true).
      { rewrite E1, forallb_app in Hf. apply andb_true_iff in Hf. tauto. }
      change (page_feed (mk_page Data [] cells) (60%N :: e)) with (page_feed (mk_page (InTag []) [] cells) e).
      rewrite (feed_in_tag [] [] cells e Hfe). cbn [app pg_cells]. split; [reflexivity|].
      destruct e as [|c e].
      * right. split; [left; reflexivity|]. exists style_default, []. split; [auto|]. split; reflexivity.
      * left. unfold tag_body in E1. cbn [lit app] in E1. injection E1 as <- E1. reflexivity.
    + destruct r as [|x r].
      { rewrite app_nil_r in E1. subst e.
        change (page_feed (mk_page Data [] cells) (60%N :: tag_body st))
          with (page_feed (mk_page (InTag []) [] cells) (tag_body st)).
        rewrite (feed_in_tag [] [] cells _ Hf). cbn [app pg_cells pg_state]. split; [reflexivity|]. left. reflexivity. }
      assert (e' = [] /\ 60%N :: e = open_text st) as [-> He].
      { cbn [app] in E2. injection E2 as <- E2. symmetry in E2. apply app_eq_nil in E2 as [-> ->].
        split; [reflexivity|]. subst e. unfold open_text. destruct (style_eqb_spec st style_default); [contradiction|].
        unfold start_tag, tag_body. reflexivity. }
      cbv zeta. pose proof (feed_open st cells) as F. rewrite <- He in F. unfold str, char in *. rewrite F.
      cbn. split; [reflexivity|left; reflexivity].
Qed.

Lemma cut_tags cur st cells (e e' : str) : hesc cur st = e ++ e' ->
  let pg := page_feed (mk_page Data (open_elements cur) cells) e in
  pg_cells pg = cells /\ tag_artifact pg cur e.
Proof.
  intros E. rewrite hesc_spec in E. destruct (style_eqb cur st).
  - symmetry in E. apply app_eq_nil in E as [-> ->]. cbn. split; [reflexivity|left; reflexivity].
  - apply app_cut_strict in E as [(r & E & _ & Hr)|(r & E & E2)].
    + exact (cut_close cur cells e r E Hr).
    + subst e. cbv zeta. rewrite pfeed_app, feed_close. destruct (cut_open st cells r e' E2) as (H1 & H2).
      split; [exact H1|]. destruct H2 as [H2|(H2 & s & e0 & Hs & Hst & He)]; [left; exact H2|].
      right. split; [exact H2|]. exists style_default, (close_tag cur ++ e0). split; [auto|].
      split; [destruct Hs as [->| ->]; exact Hst|]. rewrite He at 1. now rewrite app_assoc.
Qed.

(** The state in the middle of a character reference. *)
Definition reference_left (c : char) (f f' : str) : str :=
  if str_eqb f' (lit ";") then [c] else if str_eqb f (lit "&#x2") then [2%N] else f.
Lemma cut_reference c open cells (f f' : str) : escaped_char c = f ++ f' -> f <> [] -> f' <> [] ->
  let pg := page_feed (mk_page Data open cells) f in
  pg_cells pg = cells /\ pg_open pg = open /\ at_eof (pg_state pg) = reference_left c f f'.
Proof.
  intros E Hf Hf'.
  unfold escaped_char in E.
  destruct (N.eqb_spec c 34) as [E0|]; [subst c|destruct (N.eqb_spec c 38) as [E0|]; [subst c|
    destruct (N.eqb_spec c 39) as [E0|]; [subst c|destruct (N.eqb_spec c 60) as [E0|]; [subst c|
    destruct (N.eqb_spec c 62) as [E0|]; [subst c|]]]]].
  6:{ destruct f as [|x [|y f]]; [congruence| |discriminate].
      cbn in E. injection E as _ E. congruence. }
  all: cbn in E;
    repeat (first [ progress subst f | (destruct f as [|?c f];
      [first [congruence | (symmetry in E; cbn [app] in E; subst f'; split; [reflexivity|split; reflexivity])]
      |cbn [app] in E; first [injection E as <- E | discriminate E]])]).
  all: try (symmetry in E; apply app_eq_nil in E as [_ ->]; congruence).
Qed.

Lemma escaped_char_nonempty c : escaped_char c <> [].
Proof.
  unfold escaped_char. destruct (N.eqb c 34), (N.eqb c 38), (N.eqb c 39), (N.eqb c 60), (N.eqb c 62); discriminate.
Qed.

(** C81 (HTML) as stated is false: cut inside a character reference or right after the start of a tag,
    the document shows characters that are not in the text. *)
Theorem C81_html_refuted :
  (exists h p q, html_finished h = p ++ q /\ ~ exists t1 t2, denote h = t1 ++ t2 /\ shown_at_eof p = looks t1) /\
  (exists h p q, html_finished h = p ++ q /\ In (60%N, css_page) (shown_at_eof p) /\ ~ In 60%N (text_of h)).
Proof.
  split.
  - exists [(lit "a&b", style_default)], (lit "a&a"), (lit "mp;b"). split; [reflexivity|].
    intros (t1 & t2 & Ht & Hs).
    assert (Hc : map fst (looks t1) = lit "a&a") by (rewrite <- Hs; reflexivity).
    assert (Hd : map fst (looks (t1 ++ t2)) = lit "a&b") by (rewrite <- Ht; reflexivity).
    assert (Ha : looks (t1 ++ t2) = looks t1 ++ looks t2) by apply map_app.
    rewrite Ha, map_app, Hc in Hd. discriminate.
  - exists [(lit "a", mk_style Red ColorDefault Normal)], (lit "<"), (lit "span style=color:red>a</span>").
    split; [reflexivity|]. split; [left; reflexivity|]. cbn. intros [H|[]]. discriminate.
Qed.
Print Assumptions C81_html_refuted.

(** C81 (HTML), exactly what a browser shows of a document cut anywhere: the characters sent so far (the
    longest prefix whose output was sent), each in the look of its style, and then either nothing, or the
    less-than sign (and slash) of the tag in which it was cut, or what is left of the next character's
    reference: the right character if only the semicolon is missing, U+0002 for "&#x2", otherwise its first
    characters as they are.  Missing from the full statement: exactly these remains. *)
Theorem C81_html_partial (h : history) (p q : str) :
  html_finished h = p ++ q ->
  exists (t1 t2 : stext) (remains : str) (st : style), denote h = t1 ++ t2 /\
    shown_at_eof p = looks t1 ++ map (fun c => (c, css_look st)) remains /\
    (remains = [] \/
     ((remains = lit "<" \/ remains = lit "</") /\ (st = last_style style_default t1 \/ st = style_default) /\
      exists p0, p = p0 ++ remains) \/
     (exists c t3 f f' p0, t2 = (c, st) :: t3 /\ escaped_char c = f ++ f' /\ f <> [] /\ f' <> [] /\ p = p0 ++ f /\
        remains = if str_eqb f' (lit ";") then [c] else if str_eqb f (lit "&#x2") then [2%N] else f)) /\
    forall h1, denote h1 = t1 ->
      (exists e, p = html_unfinished h1 ++ e) /\
      match t2 with
      | [] => html_finished h1 = p ++ q
      | (c, st) :: _ => exists r, r <> [] /\ html_unfinished (h1 ++ [([c], st)]) = p ++ r
      end.
Proof.
  intros E. rewrite html_finished_eq in E.
  assert (Hcut : exists t1 t2 e, denote h = t1 ++ t2 /\ p = html_render style_default t1 ++ e /\
     ((exists st e', hesc (last_style style_default t1) st = e ++ e' /\
        match t2 with [] => st = style_default /\ e' = q | (_, st') :: _ => st = st' end) \/
      (exists c st t3 f f', t2 = (c, st) :: t3 /\
         e = hesc (last_style style_default t1) st ++ f /\ escaped_char c = f ++ f' /\ f <> [] /\ f' <> []))).
  { apply app_cut in E as [(r & E & E2)|(r & E & E2)].
    - destruct (html_render_cut _ _ _ _ E) as (t1 & t2 & e & Ht & Hp & [(H1 & H2 & H3)|(c & st & t3 & H1 & H2)]).
      + subst t2 e r. rewrite app_nil_r in Ht. exists t1, [], []. rewrite app_nil_r. split; [exact Ht|].
        split; [exact Hp|]. left. exists style_default, q. rewrite <- Ht. split; [symmetry; exact E2|auto].
      + subst t2. exists t1, ((c, st) :: t3), e. split; [exact Ht|]. split; [exact Hp|].
        destruct H2 as [(e' & H2)|(f & f' & H2 & H3 & H4 & H5)]; [left; exists st, e'; auto|].
        right. exists c, st, t3, f, f'. auto.
    - exists (denote h), [], r. rewrite app_nil_r. split; [reflexivity|]. split; [exact E|].
      left. exists style_default, q. auto. }
  clear E. destruct Hcut as (t1 & t2 & e & Ht & Hp & Hcase).
  pose proof (html_render_view style_default t1 []) as HV.
  change (page_feed page_new (html_render style_default t1)
          = mk_page Data (open_elements (last_style style_default t1)) (looks t1)) in HV.
  destruct Hcase as [(st & e' & He & Hst)|(c & st & t3 & f & f' & -> & He & Hc & Hf & Hf')].
  - destruct (cut_tags _ _ (looks t1) _ _ He) as (H1 & H2).
    set (pg := page_feed (mk_page Data (open_elements (last_style style_default t1)) (looks t1)) e) in *.
    assert (Hpg : page_feed page_new p = pg) by (rewrite Hp, pfeed_app, HV; reflexivity).
    assert (Hmax : forall h1, denote h1 = t1 -> (exists e, p = html_unfinished h1 ++ e) /\
      match t2 with
      | [] => html_finished h1 = p ++ q
      | (c, st) :: _ => exists r, r <> [] /\ html_unfinished (h1 ++ [([c], st)]) = p ++ r
      end).
    { intros h1 E1. split; [exists e; rewrite html_unfinished_eq, E1; exact Hp|].
      destruct t2 as [|[c st'] t3].
      - destruct Hst as [-> ->]. rewrite html_finished_eq, E1, He, Hp, <- app_assoc. reflexivity.
      - subst st'. exists (e' ++ escaped_char c). split.
        + intros H. apply app_eq_nil in H as [_ H]. exact (escaped_char_nonempty c H).
        + rewrite html_unfinished_eq, denote_snoc, E1, html_render_app, Hp. cbn [html_render].
          rewrite He, app_nil_r, <- !app_assoc. reflexivity. }
    destruct H2 as [H2|(H2 & s & e0 & Hs & Hlook & He0)].
    + exists t1, t2, [], style_default. split; [exact Ht|]. split; [|auto].
      unfold shown_at_eof. rewrite Hpg, H2, H1. reflexivity.
    + exists t1, t2, (at_eof (pg_state pg)), s. split; [exact Ht|]. split; [|split; [|exact Hmax]].
      * unfold shown_at_eof. rewrite Hpg, Hlook, H1. reflexivity.
      * right. left. split; [exact H2|]. split; [exact Hs|].
        exists (html_render style_default t1 ++ e0). rewrite Hp. rewrite He0 at 1. now rewrite app_assoc.
  - pose proof (feed_hesc (last_style style_default t1) st (looks t1)) as HE.
    destruct (cut_reference c (open_elements st) (looks t1) f f' Hc Hf Hf') as (H1 & H2 & H3).
    set (pg := page_feed (mk_page Data (open_elements st) (looks t1)) f) in *.
    assert (Hpg : page_feed page_new p = pg) by (rewrite Hp, pfeed_app, HV, He, pfeed_app, HE; reflexivity).
    exists t1, ((c, st) :: t3), (reference_left c f f'), st. split; [exact Ht|]. split; [|split].
    + unfold shown_at_eof. rewrite Hpg, H3, H1. unfold pg_style. rewrite H2, open_elements_style. reflexivity.
    + right. right. exists c, t3, f, f', (html_render style_default t1 ++ hesc (last_style style_default t1) st).
      repeat split; auto. rewrite Hp, He, app_assoc. reflexivity.
    + intros h1 E1. split; [exists e; rewrite html_unfinished_eq, E1; exact Hp|].
      exists f'. split; [exact Hf'|].
      rewrite html_unfinished_eq, denote_snoc, E1, html_render_app, Hp, He. cbn [html_render].
      rewrite Hc, app_nil_r, <- !app_assoc. reflexivity.
Qed.
Print Assumptions C81_html_partial.

Lemma html_play_honest {S} (sink : fmt_sink S) (held : S -> str) (h : history) : honest_fmt sink held ->
  forall w w' o, play (html_write_str sink) h w = (w', o) ->
  exists p q, html_render (ht_current w) (denote h) = p ++ q /\ held (ht_inner w') = held (ht_inner w) ++ p /\
    (o = Returned Ok -> q = []).
Proof.
  intros Hh. induction h as [|[s st] h IH]; intros w w' o E.
  - cbn in E. injection E as <- <-. exists [], []. cbn. rewrite app_nil_r. auto.
  - cbn [play] in E. destruct (html_write_str sink w s st) as [w1 o1] eqn:E1.
    unfold html_write_str in E1. destruct s as [|c s].
    + cbn [is_empty] in E1. injection E1 as <- <-. exact (IH _ _ _ E).
    + cbn [is_empty] in E1. set (s0 := c :: s) in *. cbn [denote]. rewrite html_render_app.
      rewrite (html_render_paint (ht_current w) st s0) by discriminate.
      destruct (write_parts sink (html_change (ht_current w) st) (ht_inner w)) as [i o2] eqn:E2.
      pose proof (honest_parts sink held _ _ _ _ Hh E2) as HP.
      change (concat (html_change (ht_current w) st)) with (hesc (ht_current w) st) in HP.
      set (rest := html_render (last_style (ht_current w) (paint st s0)) (denote h)) in *.
      destruct o2 as [[|]|cr].
      * destruct (write_parts sink (escape_parts s0) i) as [i' r] eqn:E3.
        pose proof (honest_parts sink held _ _ _ _ Hh E3) as HS. rewrite escape_parts_concat in HS.
        injection E1 as <- <-.
        destruct r as [[|]|cr].
        -- destruct (IH _ _ _ E) as (p & q & Hr & Hw & Hq). cbn [ht_current ht_inner] in Hr, Hw.
           exists ((hesc (ht_current w) st ++ escaped s0) ++ p), q. split; [|split; [|exact Hq]].
           ++ unfold rest. rewrite last_style_paint by discriminate. rewrite Hr, <- !app_assoc. reflexivity.
           ++ rewrite Hw, HS, HP, <- !app_assoc. reflexivity.
        -- injection E as <- <-. destruct HS as (p & q & Hs & HS). cbn [ht_inner].
           exists (hesc (ht_current w) st ++ p), (q ++ rest).
           split; [rewrite Hs, <- !app_assoc; reflexivity|]. split; [rewrite HS, HP, <- !app_assoc; reflexivity|discriminate].
        -- injection E as <- <-. destruct HS as (p & q & Hs & HS). cbn [ht_inner].
           exists (hesc (ht_current w) st ++ p), (q ++ rest).
           split; [rewrite Hs, <- !app_assoc; reflexivity|]. split; [rewrite HS, HP, <- !app_assoc; reflexivity|discriminate].
      * injection E1 as <- <-. injection E as <- <-. destruct HP as (p & q & Hs & HP). cbn [ht_inner].
        exists p, ((q ++ escaped s0) ++ rest).
        split; [rewrite Hs, <- !app_assoc; reflexivity|]. split; [exact HP|discriminate].
      * injection E1 as <- <-. injection E as <- <-. destruct HP as (p & q & Hs & HP). cbn [ht_inner].
        exists p, ((q ++ escaped s0) ++ rest).
        split; [rewrite Hs, <- !app_assoc; reflexivity|]. split; [exact HP|discriminate].
Qed.

(** C81 (sinks, HTML): a sink that stops anywhere holds a prefix of the document, to which C81_html_partial
    applies; and all of it if every write succeeded. *)
Theorem C81_html_sink {S} (sink : fmt_sink S) (held : S -> str) (h : history) (i : S) (w' : html S) (o : outcome) :
  honest_fmt sink held -> held i = [] ->
  play (html_write_str sink) h (html_new i) = (w', o) ->
  exists q, html_unfinished h = held (ht_inner w') ++ q /\ (o = Returned Ok -> q = []) /\
    exists q', html_finished h = held (ht_inner w') ++ q'.
Proof.
  intros Hh Hi E. destruct (html_play_honest sink held h Hh _ _ _ E) as (p & q & Hr & Hw & Hq).
  cbn [ht_current ht_inner html_new] in Hr, Hw. rewrite Hi in Hw. cbn [app] in Hw.
  rewrite html_unfinished_eq, html_finished_eq, Hr, Hw. exists q. split; [reflexivity|]. split; [exact Hq|].
  exists (q ++ hesc (last_style style_default (denote h)) style_default). rewrite <- app_assoc. reflexivity.
Qed.
Print Assumptions C81_html_sink.

Example C81_nonvacuous :
  let red := mk_style Red ColorDefault Bold in
  let h := [(lit "a", style_default); (lit "<b", red); (lit "c", style_default)] in
  no_controls (text_of h) /\
  (* an ANSI stream cut inside the second escape sequence *)
  ansi_finished h = (lit "a" ++ ESC :: lit "[31;1m<b" ++ ESC :: lit "[") ++ lit "0mc" /\
  tm_screen (term_feed sgr_style term_new (lit "a" ++ ESC :: lit "[31;1m<b" ++ ESC :: lit "["))
  = [(97%N, style_default); (60%N, red); (98%N, red)] /\
  (* a document cut inside the reference for the less-than sign, and one semicolon before its end *)
  html_finished h = lit "a<span style=color:red;font-weight:bolder>&l" ++ lit "t;b</span>c" /\
  shown_at_eof (lit "a<span style=color:red;font-weight:bolder>&l")
  = [(97%N, css_page); (38%N, css_look red); (108%N, css_look red)] /\
  shown_at_eof (lit "a<span style=color:red;font-weight:bolder>&lt")
  = [(97%N, css_page); (60%N, css_look red)] /\
  (* cut inside tags *)
  shown_at_eof (lit "a<sp") = [(97%N, css_page)] /\
  shown_at_eof (lit "a<") = [(97%N, css_page); (60%N, css_page)] /\
  (* a sink that stops *)
  (let '(w', o) := play (ansi_write_str trickle) h (ansi_new ([], [9; 9; 9; 9; 9; 9; 1])) in
   o = Returned Err /\ fst (an_inner w') = lit "a" ++ ESC :: lit "[31;1m<").
Proof.
  assert (H : no_controls (lit "a<bc")) by (repeat constructor).
  repeat split; try exact H; vm_compute; reflexivity.
Qed.
