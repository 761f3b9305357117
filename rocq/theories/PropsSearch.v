(** Property C104: search and replace in the output. *)
From Verif Require Import Base Style Fmt Ansi Html SpecText TextFacts StyleFacts SpecTerminal SpecSgr AnsiFacts SpecHtml HtmlFacts
  PropsAnsi PropsHtml.

(** * Styled text *)
Lemma paint_cons st c s : paint st (c :: s) = (c, st) :: paint st s.
Proof. reflexivity. Qed.
Lemma no_controls_app a b : no_controls (a ++ b) <-> no_controls a /\ no_controls b.
Proof. unfold no_controls. apply Forall_app. Qed.
Lemma finished_render h :
  ansi_finished h = ansi_render style_default (denote h) ++ esc (last_style style_default (denote h)) style_default.
Proof. unfold ansi_finished. rewrite ansi_play. cbn [fst]. now rewrite ansi_finish_string. Qed.
Lemma hfinished_render h :
  html_finished h = html_render style_default (denote h) ++ hesc (last_style style_default (denote h)) style_default.
Proof. unfold html_finished. rewrite html_play. cbn [fst]. now rewrite html_finish_string. Qed.

(** * Terminals *)
Section Ansi.
Notation feed := (term_feed sgr_style).

Lemma screen_grows s : forall t, exists more, tm_screen (feed t s) = tm_screen t ++ more.
Proof.
  induction s as [|c s IH]; intros t; [exists []; cbn; now rewrite app_nil_r|].
  change (feed t (c :: s)) with (feed (term_step sgr_style t c) s).
  destruct (IH (term_step sgr_style t c)) as (more & ->).
  assert (H : exists m, tm_screen (term_step sgr_style t c) = tm_screen t ++ m).
  { unfold term_step. destruct (tm_state t); repeat (destruct (_ : bool)); cbn [tm_screen];
      try (exists []; now rewrite app_nil_r); now eexists. }
  destruct H as (m & ->). exists (m ++ more). now rewrite app_assoc.
Qed.

(** Where a text of one style starts. *)
Lemma found_at (a b : stext) (s : str) (st : style) :
  no_controls (chars a) -> s <> [] ->
  let p := ansi_render style_default a ++ esc (last_style style_default a) st in
  let q := ansi_render st b ++ esc (last_style st b) style_default in
  (forall h, denote h = a ++ paint st s ++ b -> ansi_finished h = p ++ s ++ q) /\
  feed term_new p = mk_term Ground st a.
Proof.
  intros Hc Hs p q. split.
  - intros h E. rewrite finished_render, E, !ansi_render_app, !last_style_app, (last_style_paint _ st s Hs).
    rewrite (ansi_render_paint _ st s Hs). subst p q. now rewrite <- !app_assoc.
  - subst p. unfold term_new. rewrite feed_app, render_shows by exact Hc. rewrite feed_esc, esc_codes_style. reflexivity.
Qed.

(** C104: a piece of text in one style is in the output in one piece. *)
Theorem C104_found (h : history) (a b : stext) (s : str) (st : style) :
  denote h = a ++ paint st s ++ b -> s <> [] -> no_controls (text_of h) ->
  exists p q, ansi_finished h = p ++ s ++ q /\ term_feed sgr_style term_new p = mk_term Ground st a.
Proof.
  intros E Hs Hc.
  assert (Ha : no_controls (chars a)).
  { rewrite <- chars_denote, E, chars_app in Hc. now apply no_controls_app in Hc as [Hc _]. }
  destruct (found_at a b s st Ha Hs) as [H1 H2]. eexists _, _. split; [exact (H1 h E)|exact H2].
Qed.

(** C104: wherever a text is found in the output, outside escape sequences, it was written, in one
    style, at the place the terminal is at there. *)
Theorem C104_only_there (h : history) (p s q : str) :
  no_controls (text_of h) -> no_controls s ->
  ansi_finished h = p ++ s ++ q -> tm_state (term_feed sgr_style term_new p) = Ground ->
  exists b, denote h = tm_screen (term_feed sgr_style term_new p) ++ paint (tm_rend (term_feed sgr_style term_new p)) s ++ b.
Proof.
  intros Hc Hs E Hg.
  destruct (C10_terminal_shows h Hc) as (_ & _ & Hsc).
  rewrite E, !feed_app in Hsc. destruct (feed term_new p) as [g rd sc]. cbn [tm_state tm_rend tm_screen] in *. subst g.
  rewrite feed_text in Hsc by exact Hs.
  destruct (screen_grows q (mk_term Ground rd (sc ++ paint rd s))) as (b & Hb). cbn [tm_screen] in Hb.
  exists b. rewrite <- Hsc. rewrite app_assoc. exact Hb.
Qed.

Lemma same_place (p s q p' s' q' : str) (rd rd' : style) (sc : stext) :
  p ++ s ++ q = p' ++ s' ++ q' -> s <> [] -> s' <> [] -> no_controls s -> no_controls s' ->
  feed term_new p = mk_term Ground rd sc -> feed term_new p' = mk_term Ground rd' sc -> p = p'.
Proof.
  assert (X : forall p s q x rd rd' sc, no_controls s -> s <> [] -> x <> [] -> (exists y, x ++ y = s ++ q) ->
            feed term_new p = mk_term Ground rd sc -> feed term_new (p ++ x) = mk_term Ground rd' sc -> False).
  { clear. intros p s q x rd rd' sc Hc Hs Hx (y & E) H1 H2. destruct x as [|c x]; [now destruct Hx|].
    destruct s as [|c' s]; [now destruct Hs|]. injection E as <- E.
    rewrite feed_app, H1 in H2. change (c :: x) with ([c] ++ x) in H2. rewrite feed_app in H2.
    rewrite feed_text in H2 by (inversion Hc; repeat constructor; assumption).
    destruct (screen_grows x (mk_term Ground rd (sc ++ map (fun d => (d, rd)) [c]))) as (more & Hm).
    rewrite H2 in Hm. cbn [tm_screen map] in Hm. rewrite <- app_assoc in Hm.
    apply (f_equal (@length _)) in Hm. rewrite !app_length in Hm. cbn in Hm. unfold stext, char in *. lia. }
  intros E Hs Hs' Hc Hc' H1 H2.
  assert (D : (exists x, p' = p ++ x) \/ exists x, p = p' ++ x).
  { clear - E. revert p' E. induction p as [|c p IH]; intros p' E; [left; now exists p'|].
    destruct p' as [|c' p']; [right; now exists (c :: p)|]. injection E as <- E.
    destruct (IH p' E) as [(x & ->)|(x & ->)]; [left|right]; now exists x. }
  destruct D as [(x & ->)|(x & ->)]; (destruct x as [|c x]; [now rewrite app_nil_r|exfalso]).
  - rewrite <- app_assoc in E. apply app_inv_head in E.
    refine (X p s q (c :: x) rd rd' sc Hc Hs _ (ex_intro _ (s' ++ q') (eq_sym E)) H1 H2). discriminate.
  - rewrite <- app_assoc in E. apply app_inv_head in E.
    refine (X p' s' q' (c :: x) rd' rd sc Hc' Hs' _ (ex_intro _ (s ++ q) E) H2 H1). discriminate.
Qed.

(** C104: replacing a text found there by any other gives what the adaptor would have written, had it
    been given the other one; if it is replaced by nothing, something that is shown the same. *)
Theorem C104_replace (h : history) (p s q t : str) :
  no_controls (text_of h) -> no_controls s -> s <> [] -> no_controls t ->
  ansi_finished h = p ++ s ++ q -> tm_state (term_feed sgr_style term_new p) = Ground ->
  exists a st b, denote h = a ++ paint st s ++ b /\
    (t <> [] -> forall h', denote h' = a ++ paint st t ++ b -> ansi_finished h' = p ++ t ++ q) /\
    term_feed sgr_style term_new (p ++ t ++ q) = mk_term Ground style_default (a ++ paint st t ++ b).
Proof.
  intros Hc Hs Hn Ht E Hg. destruct (C104_only_there h p s q Hc Hs E Hg) as (b & Hb).
  destruct (feed term_new p) as [g st a] eqn:Ep. cbn [tm_state tm_rend tm_screen] in *. subst g.
  exists a, st, b. split; [exact Hb|].
  assert (Hca : no_controls (chars a) /\ no_controls (chars b)).
  { rewrite <- chars_denote, Hb, !chars_app in Hc. apply no_controls_app in Hc as [H1 H2].
    apply no_controls_app in H2 as [_ H2]. now split. }
  destruct Hca as [Ha Hcb].
  destruct (found_at a b s st Ha Hn) as [H1 H2].
  assert (E' := H1 h Hb). rewrite E in E'.
  assert (Hp : p = ansi_render style_default a ++ esc (last_style style_default a) st).
  { exact (same_place _ _ _ _ _ _ st st a E' Hn Hn Hs Hs Ep H2). }
  assert (Hq : q = ansi_render st b ++ esc (last_style st b) style_default).
  { rewrite <- Hp in E'. now apply app_inv_head, app_inv_head in E'. }
  split.
  - intros Hne h' Eh. destruct (found_at a b t st Ha Hne) as [H3 _]. rewrite (H3 h' Eh), <- Hp, <- Hq. reflexivity.
  - rewrite !feed_app, Ep, feed_text by exact Ht. rewrite Hq, feed_app, render_shows by exact Hcb.
    rewrite esc_default_ends. now rewrite <- app_assoc.
Qed.

(** The characters of escape sequences after the first. *)
Definition in_escape (c : char) : bool := existsb (N.eqb c) (lit "[0123456789;m").
Lemma segs_in_escape cur st : Forall (fun s => forallb in_escape s = true) (change_segs cur st).
Proof.
  destruct cur as [f b i], st as [f' b' i']. unfold change_segs.
  unfold somes. cbn [flat_map]. 
  repeat (apply Forall_app; split); [destruct f, f'|destruct b, b'|destruct i, i'|]; try constructor; try constructor; reflexivity.
Qed.

Lemma join_in_escape segs : Forall (fun s => forallb in_escape s = true) segs -> forallb in_escape (sgr_join segs) = true.
Proof.
  induction 1 as [|x l Hx Hl IH]; [reflexivity|]. destruct l as [|y l]; [exact Hx|].
  change (sgr_join (x :: y :: l)) with (x ++ lit ";" ++ sgr_join (y :: l)).
  rewrite !forallb_app, Hx. exact IH.
Qed.
Lemma esc_chars cur st : esc cur st = [] \/ exists r, esc cur st = 27%N :: r /\ forallb in_escape r = true.
Proof.
  destruct (esc_cases cur st) as [(_ & ->)|[(_ & _ & ->)|(_ & _ & _ & ->)]]; [now left|right; now eexists|right].
  eexists. split; [reflexivity|]. rewrite !forallb_app, (join_in_escape _ (segs_in_escape cur st)). reflexivity.
Qed.

(** Not inside a change of style. *)
Lemma outside_escape cur st c : forall p x r, esc cur st ++ x = p ++ c :: r -> c <> 27%N -> in_escape c = false ->
  exists p', p = esc cur st ++ p' /\ x = p' ++ c :: r.
Proof.
  intros p x r E Hc He. revert E. destruct (esc_chars cur st) as [->|(y & -> & Hy)]; intros E; [exists p; split; [reflexivity|exact E]|].
  destruct p as [|c0 p]; [injection E as E1 _; congruence|]. injection E as <- E.
  assert (H : exists p', p = y ++ p' /\ x = p' ++ c :: r).
  { clear - E Hy He. revert p E. induction y as [|d y IH]; intros p E; [exists p; split; [reflexivity|exact E]|].
    cbn [forallb] in Hy. apply andb_prop in Hy as [Hd Hy].
    destruct p as [|d' p]; [injection E as -> _; congruence|]. injection E as <- E.
    destruct (IH Hy p E) as (p' & -> & ->). now exists p'. }
  destruct H as (p' & -> & ->). now exists p'.
Qed.

Lemma ground_before c : c <> 27%N -> in_escape c = false -> forall t cur sc p r,
  no_controls (chars t) ->
  ansi_render cur t ++ esc (last_style cur t) style_default = p ++ c :: r ->
  tm_state (feed (mk_term Ground cur sc) p) = Ground.
Proof.
  intros Hc He t. induction t as [|[d st] t IH]; intros cur sc p r Ht E.
  - cbn [ansi_render last_style app] in E. rewrite <- (app_nil_r (esc _ _)) in E.
    destruct (outside_escape _ _ c p [] r E Hc He) as (p' & _ & E'). now destruct p'.
  - cbn [ansi_render last_style] in E. rewrite <- app_assoc in E.
    destruct (outside_escape _ _ c p _ r E Hc He) as (p' & -> & E'). clear E.
    rewrite feed_app, feed_esc, esc_codes_style.
    destruct p' as [|d' p']; [reflexivity|]. cbn [app] in E'. injection E' as <- E'.
    inversion Ht as [|? ? Hd Ht']; subst.
    change (d :: p') with ([d] ++ p'). rewrite feed_app, feed_text by (repeat constructor; exact Hd).
    exact (IH st _ p' r Ht' E').
Qed.

(** C104: a search pattern that does not begin with ESC or one of the characters of escape sequences
    is found in the text only, never in an escape sequence. *)
Theorem C104_no_false_match (h : history) (p q : str) (c : char) :
  no_controls (text_of h) -> ansi_finished h = p ++ c :: q ->
  c <> 27%N -> ~ In c (lit "[0123456789;m") ->
  tm_state (term_feed sgr_style term_new p) = Ground.
Proof.
  intros Ht E Hc Hi. rewrite finished_render in E.
  apply (ground_before c Hc) with (t := denote h) (r := q) (sc := []); [|now rewrite chars_denote|exact E].
  unfold in_escape. destruct (existsb (N.eqb c) (lit "[0123456789;m")) eqn:X; [|reflexivity].
  apply existsb_exists in X as (d & Hd & Ed). apply N.eqb_eq in Ed. subst d. now destruct Hi.
Qed.
End Ansi.
Print Assumptions C104_found.
Print Assumptions C104_only_there.
Print Assumptions C104_replace.
Print Assumptions C104_no_false_match.

(** The pattern "rr" is found and replaced; the pattern "1m" is found in the escape sequence. *)
Example C104_nonvacuous :
  let red := mk_style Red ColorDefault Normal in
  let h := [(lit "Hello ", style_default); (lit "Fe", red); (lit "rris", red)] in
  let p := lit "Hello " ++ [27%N] ++ lit "[31mFe" in
  no_controls (text_of h) /\ no_controls (lit "rr") /\
  ansi_finished h = p ++ lit "rr" ++ lit "is" ++ [27%N] ++ lit "[0m" /\
  term_feed sgr_style term_new p = mk_term Ground red (paint style_default (lit "Hello ") ++ paint red (lit "Fe")) /\
  ansi_finished h = (lit "Hello " ++ [27%N] ++ lit "[3") ++ lit "1m" ++ lit "Ferris" ++ [27%N] ++ lit "[0m" /\
  tm_state (term_feed sgr_style term_new (lit "Hello " ++ [27%N] ++ lit "[3")) <> Ground.
Proof.
  split; [repeat constructor|]. split; [repeat constructor|].
  repeat split; try (vm_compute; reflexivity). vm_compute. discriminate.
Qed.

(** * HTML *)
Lemma cells_grow s : forall p, exists more, pg_cells (page_feed p s) = pg_cells p ++ more.
Proof.
  induction s as [|c s IH]; intros p; [exists []; cbn; now rewrite app_nil_r|].
  change (page_feed p (c :: s)) with (page_feed (page_step p c) s).
  destruct (IH (page_step p c)) as (more & ->).
  assert (H : exists m, pg_cells (page_step p c) = pg_cells p ++ m).
  { unfold page_step. destruct (pg_state p).
    - destruct (N.eqb c 60); [|destruct (N.eqb c 38)]; cbn [pg_cells]; try (exists []; now rewrite app_nil_r); now eexists.
    - destruct (N.eqb c 62); [destruct (str_eqb acc (lit "/span"))|]; [destruct (pg_open p)|destruct (open_tag _ _)|];
        exists []; now rewrite app_nil_r.
    - destruct (N.eqb c 59); [destruct (char_reference acc)|]; cbn [pg_cells]; try (exists []; now rewrite app_nil_r); now eexists.
    - exists []; now rewrite app_nil_r. }
  destruct H as (m & ->). exists (m ++ more). now rewrite app_assoc.
Qed.
Lemma feed_escaped_text open s : forall cells,
  page_feed (mk_page Data open cells) (escaped s) =
  mk_page Data open (cells ++ map (fun c => (c, pg_style (mk_page Data open cells))) s).
Proof.
  induction s as [|c s IH]; intros cells; cbn [map].
  - cbn. now rewrite app_nil_r.
  - change (escaped (c :: s)) with (escaped_char c ++ escaped s).
    rewrite pfeed_app, feed_escaped_char. rewrite IH, <- app_assoc. reflexivity.
Qed.

(** Between tags, a character that is not the start of a tag is shown before the next place between
    tags and references. *)
Lemma shows_something c x open cells p' :
  c <> 60%N -> page_feed (mk_page Data open cells) (c :: x) = p' -> pg_state p' = Data -> pg_cells p' <> cells.
Proof.
  intros Hc E Hd Hcells. change (page_feed (mk_page Data open cells) (c :: x)) with (page_feed (page_step (mk_page Data open cells) c) x) in E.
  unfold page_step in E. cbn [pg_state pg_open pg_cells] in E.
  destruct (N.eqb_spec c 60); [contradiction|].
  assert (G : forall p m, pg_cells p = cells ++ m -> m <> [] -> forall y, pg_cells (page_feed p y) <> cells).
  { intros p m Hm Hne y Hy. destruct (cells_grow y p) as (more & Hg). rewrite Hy, Hm, <- app_assoc in Hg.
    apply (f_equal (@length _)) in Hg. rewrite !app_length in Hg. destruct m; [now destruct Hne|]. cbn in Hg. lia. }
  destruct (N.eqb_spec c 38) as [->|].
  - clear - E Hd Hcells G.
    assert (X : forall acc, pg_state (page_feed (mk_page (InRef acc) open cells) x) = Data ->
                pg_cells (page_feed (mk_page (InRef acc) open cells) x) = cells -> False).
    { clear E. induction x as [|d x IH]; intros acc H1 H2; [discriminate H1|].
      change (page_feed (mk_page (InRef acc) open cells) (d :: x))
        with (page_feed (page_step (mk_page (InRef acc) open cells) d) x) in *.
      unfold page_step in H1, H2. cbn [pg_state pg_open pg_cells] in H1, H2.
      destruct (N.eqb d 59).
      - destruct (char_reference acc) as [e|].
        + apply (G (mk_page Data open (cells ++ [(e, pg_style (mk_page (InRef acc) open cells))])) _ eq_refl ltac:(discriminate) x H2).
        + clear - H1. assert (B : forall y p, pg_state p = Broken -> pg_state (page_feed p y) = Broken).
          { induction y as [|e y IH]; intros p Hp; [exact Hp|]. apply IH. unfold page_step. now rewrite Hp. }
          rewrite B in H1 by reflexivity. discriminate.
      - exact (IH _ H1 H2). }
    rewrite <- E in Hd, Hcells. exact (X [] Hd Hcells).
  - rewrite <- E in Hcells. revert Hcells. eapply G; [reflexivity|discriminate].
Qed.

Lemma escaped_first c s : exists d r, escaped (c :: s) = d :: r /\ d <> 60%N.
Proof.
  change (escaped (c :: s)) with (escaped_char c ++ escaped s).
  unfold escaped_char. repeat match goal with |- context [N.eqb c ?n] => destruct (N.eqb_spec c n) end;
    try (eexists _, _; split; [reflexivity|]; (discriminate || assumption)).
Qed.

Lemma hfound_at (a b : stext) (s : str) (st : style) :
  s <> [] ->
  let p := html_render style_default a ++ hesc (last_style style_default a) st in
  let q := html_render st b ++ hesc (last_style st b) style_default in
  (forall h, denote h = a ++ paint st s ++ b -> html_finished h = p ++ escaped s ++ q) /\
  page_feed page_new p = mk_page Data (open_elements st) (looks a).
Proof.
  intros Hs p q. split.
  - intros h E. rewrite hfinished_render, E, !html_render_app, !last_style_app, (last_style_paint _ st s Hs).
    rewrite (html_render_paint _ st s Hs). subst p q. now rewrite <- !app_assoc.
  - subst p. rewrite pfeed_app. change page_new with (mk_page Data (open_elements style_default) []).
    rewrite html_render_view. now rewrite feed_hesc.
Qed.

(** C104: the same in HTML, for the escaped text. *)
Theorem C104_html_found (h : history) (a b : stext) (s : str) (st : style) :
  denote h = a ++ paint st s ++ b -> s <> [] ->
  exists p q, html_finished h = p ++ escaped s ++ q /\
    pg_state (page_feed page_new p) = Data /\
    pg_cells (page_feed page_new p) = map (fun cs => (fst cs, css_look (snd cs))) a.
Proof.
  intros E Hs. destruct (hfound_at a b s st Hs) as [H1 H2]. eexists _, _. split; [exact (H1 h E)|].
  rewrite H2. split; reflexivity.
Qed.
Print Assumptions C104_html_found.

Lemma cons_eq {A} (x y : A) l m : x :: l = y :: m -> x = y /\ l = m.
Proof. intros [= H1 H2]. now split. Qed.
Lemma pair_eq {A B} (x y : A) (u v : B) : (x, u) = (y, v) -> x = y /\ u = v.
Proof. intros [= H1 H2]. now split. Qed.
Lemma looks_split (t : stext) : forall x y, looks t = x ++ y -> exists a b, t = a ++ b /\ looks a = x /\ looks b = y.
Proof.
  induction t as [|cs t IH]; intros x y E.
  - symmetry in E. apply app_eq_nil in E as [-> ->]. now exists [], [].
  - destruct x as [|z x]; [exists [], (cs :: t); now split|]. cbn [looks map app] in E. injection E as <- E.
    destruct (IH x y E) as (a & b & -> & <- & <-). now exists (cs :: a), b.
Qed.

Theorem C104_html_only_there (h : history) (p s q : str) :
  html_finished h = p ++ escaped s ++ q -> pg_state (page_feed page_new p) = Data ->
  exists a st b, denote h = a ++ paint st s ++ b /\
    pg_cells (page_feed page_new p) = map (fun cs => (fst cs, css_look (snd cs))) a.
Proof.
  intros E Hd. destruct (C16_viewer_shows h) as (_ & Hc & _).
  assert (Hcells : pg_cells (page_feed page_new (html_finished h)) = looks (denote h)).
  { now rewrite Hc. }
  rewrite E, !pfeed_app in Hcells. destruct (page_feed page_new p) as [g open cells]. cbn [pg_state pg_cells] in *. subst g.
  rewrite feed_escaped_text in Hcells.
  set (look := pg_style (mk_page Data open cells)) in *.
  destruct (cells_grow q (mk_page Data open (cells ++ map (fun c => (c, look)) s))) as (more & Hm).
  rewrite Hcells in Hm. cbn [pg_cells] in Hm. rewrite <- app_assoc in Hm.
  destruct (looks_split _ _ _ Hm) as (a & mb & -> & Ha & Hmb). destruct (looks_split _ _ _ Hmb) as (m & b & -> & Hm' & _).
  assert (Hp : exists st, m = paint st s).
  { clear - Hm'. destruct s as [|c s]; [exists style_default; now destruct m|].
    destruct m as [|[d st] m]; [discriminate|]. exists st. cbn [looks map fst snd] in Hm'.
    destruct (cons_eq _ _ _ _ Hm') as [Hx Hm2]. destruct (pair_eq _ _ _ _ Hx) as [-> Hl]. clear Hx Hm'. rename Hm2 into Hm'.
    rewrite paint_cons. f_equal. rewrite <- Hl in Hm'. clear Hl. revert m Hm'.
    induction s as [|e s IH]; intros m Hm'; [now destruct m|].
    destruct m as [|[d st'] m]; [discriminate|]. cbn [looks map fst snd] in Hm'.
    destruct (cons_eq _ _ _ _ Hm') as [Hx Hm2]. destruct (pair_eq _ _ _ _ Hx) as [-> Hl]. clear Hx Hm'. rename Hm2 into Hm'.
    apply C16_look_injective in Hl. subst st'. rewrite paint_cons. f_equal. now apply IH. }
  destruct Hp as (st & ->). exists a, st, b. split; [reflexivity|]. now symmetry.
Qed.
Print Assumptions C104_html_only_there.

Lemma same_html_place (p p' s q q' : str) open open' cells :
  p ++ escaped s ++ q = p' ++ escaped s ++ q' -> s <> [] ->
  page_feed page_new p = mk_page Data open cells -> page_feed page_new p' = mk_page Data open' cells -> p = p'.
Proof.
  intros E Hs H1 H2. destruct s as [|c s]; [now destruct Hs|]. destruct (escaped_first c s) as (d & r & Er & Hd).
  rewrite Er in E. clear Er.
  assert (X : forall p p' q q' open open', p ++ (d :: r) ++ q = p' ++ (d :: r) ++ q' ->
            page_feed page_new p = mk_page Data open cells -> page_feed page_new p' = mk_page Data open' cells ->
            forall x, p' = p ++ x -> x = []).
  { clear - Hd. intros p p' q q' open open' E H1 H2 x ->. destruct x as [|e x]; [reflexivity|exfalso].
    rewrite <- app_assoc in E. apply app_inv_head in E. cbn [app] in E. injection E as <- E.
    rewrite pfeed_app, H1 in H2.
    exact (shows_something d x open cells _ Hd H2 eq_refl eq_refl). }
  assert (D : (exists x, p' = p ++ x) \/ exists x, p = p' ++ x).
  { clear - E. revert p' E. induction p as [|c p IH]; intros p' E; [left; now exists p'|].
    destruct p' as [|c' p']; [right; now exists (c :: p)|]. injection E as <- E.
    destruct (IH p' E) as [(x & ->)|(x & ->)]; [left|right]; now exists x. }
  destruct D as [(x & Ex)|(x & Ex)].
  - rewrite (X _ _ _ _ _ _ E H1 H2 x Ex), app_nil_r in Ex. now symmetry.
  - rewrite (X _ _ _ _ _ _ (eq_sym E) H2 H1 x Ex), app_nil_r in Ex. exact Ex.
Qed.

(** C104: replacing an escaped text found there by another escaped text. *)
Theorem C104_html_replace (h : history) (p s q t : str) :
  s <> [] -> html_finished h = p ++ escaped s ++ q -> pg_state (page_feed page_new p) = Data ->
  exists a st b, denote h = a ++ paint st s ++ b /\
    (t <> [] -> forall h', denote h' = a ++ paint st t ++ b -> html_finished h' = p ++ escaped t ++ q) /\
    page_feed page_new (p ++ escaped t ++ q)
    = mk_page Data [] (map (fun cs => (fst cs, css_look (snd cs))) (a ++ paint st t ++ b)).
Proof.
  intros Hn E Hd. destruct (C104_html_only_there h p s q E Hd) as (a & st & b & Hb & Ha).
  destruct (page_feed page_new p) as [g open cells] eqn:Ep. cbn [pg_state pg_cells] in *. subst g.
  exists a, st, b. split; [exact Hb|].
  destruct (hfound_at a b s st Hn) as [H1 H2].
  assert (E' := H1 h Hb). rewrite E in E'.
  assert (Hp : p = html_render style_default a ++ hesc (last_style style_default a) st).
  { subst cells. exact (same_html_place _ _ _ _ _ _ _ _ E' Hn Ep H2). }
  assert (Hq : q = html_render st b ++ hesc (last_style st b) style_default).
  { rewrite <- Hp in E'. now apply app_inv_head, app_inv_head in E'. }
  split.
  - intros Hne h' Eh. destruct (hfound_at a b t st Hne) as [H3 _]. rewrite (H3 h' Eh), <- Hp, <- Hq. reflexivity.
  - rewrite <- Hp, Ep in H2. rewrite !pfeed_app, Ep, H2, feed_escaped_text.
    assert (Hl : pg_style (mk_page Data (open_elements st) (looks a)) = css_look st).
    { unfold pg_style. cbn [pg_open]. apply open_elements_style. }
    rewrite Hl, Hq, pfeed_app, html_render_view, feed_hesc. cbn [open_elements].
    unfold looks, paint. rewrite !map_app, !map_map, <- app_assoc. reflexivity.
Qed.
Print Assumptions C104_html_replace.

(** Replacing "a<" by "b&"; the pattern "red" is found in the tag, where it is not text. *)
Example C104_html_nonvacuous :
  let red := mk_style Red ColorDefault Normal in
  let h := [(lit "xa", red); (lit "<y", red)] in
  let p := lit "<span style=color:red>x" in
  html_finished h = p ++ escaped (lit "a<") ++ lit "y</span>" /\
  pg_state (page_feed page_new p) = Data /\
  html_finished [(lit "xb&y", red)] = p ++ escaped (lit "b&") ++ lit "y</span>" /\
  html_finished h = lit "<span style=color:" ++ escaped (lit "red") ++ lit ">xa&lt;y</span>" /\
  pg_state (page_feed page_new (lit "<span style=color:")) <> Data.
Proof. repeat split; try (vm_compute; reflexivity). vm_compute. discriminate. Qed.
