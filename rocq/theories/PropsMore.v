(** C60-C63: outputs determine the styled text, outputs can be concatenated, what a browser does
    to line ends, and the size of outputs. *)
From Verif Require Import Base Style Fmt SString Ansi Html SpecText TextFacts SpecTerminal AnsiFacts SpecSgr
  RetryFacts SpecHtml HtmlFacts StringFacts PropsAnsi PropsHtml PropsString SpecBrowser.

(** * C60 *)
Lemma looks_inj t1 t2 :
  map (fun cs : cell => (fst cs, css_look (snd cs))) t1 = map (fun cs => (fst cs, css_look (snd cs))) t2 ->
  t1 = t2.
Proof.
  revert t2. induction t1 as [|[c st] t1 IH]; intros [|[c' st'] t2] E; try discriminate; [reflexivity|].
  assert (E1 : c = c') by (cbn in E; congruence).
  assert (E2 : css_look st = css_look st') by (cbn [map fst snd] in E; congruence).
  apply C16_look_injective in E2. subst. f_equal. apply IH. cbn in E. congruence.
Qed.

(** C60: two HTML outputs are equal exactly when the styled texts written are: no two different
    texts or styles are conflated, and nothing else about the writes is visible. *)
Theorem C60_html_faithful (h1 h2 : history) :
  (html_finished h1 = html_finished h2 <-> denote h1 = denote h2) /\
  (html_unfinished h1 = html_unfinished h2 <-> denote h1 = denote h2).
Proof.
  split; (split; [|intros H; apply C19_chunking; exact H]); intros E; apply looks_inj.
  - destruct (C16_viewer_shows h1) as (_ & H1 & _), (C16_viewer_shows h2) as (_ & H2 & _).
    rewrite E, H2 in H1. now injection H1.
  - destruct (C16_viewer_shows h1) as (_ & _ & H1), (C16_viewer_shows h2) as (_ & _ & H2).
    rewrite E, H2 in H1. now symmetry.
Qed.

(** C60: the same for ANSI output of texts without control characters. *)
Theorem C60_ansi_faithful (h1 h2 : history) :
  no_controls (text_of h1) -> no_controls (text_of h2) ->
  (ansi_finished h1 = ansi_finished h2 <-> denote h1 = denote h2) /\
  (ansi_unfinished h1 = ansi_unfinished h2 <-> denote h1 = denote h2).
Proof.
  intros N1 N2. destruct (C10_terminal_shows h1 N1) as (_ & U1 & F1), (C10_terminal_shows h2 N2) as (_ & U2 & F2).
  split; (split; [|intros H; apply C12_chunking; exact H]); intros E; congruence.
Qed.

(** With control characters in the text it fails: text can imitate a style change. *)
Theorem C60_ansi_controls_needed :
  exists h1 h2, ansi_finished h1 = ansi_finished h2 /\ denote h1 <> denote h2.
Proof.
  exists [(lit "a", mk_style Red ColorDefault Normal)],
    [([27%N] ++ lit "[31ma" ++ [27%N] ++ lit "[0m", style_default)].
  split; [reflexivity|discriminate].
Qed.

(** C60: equal [String] values replay the same styled text. *)
Theorem C60_string_faithful (h1 h2 : history) : built h1 = built h2 -> denote h1 = denote h2.
Proof.
  intros E. rewrite <- (proj1 (C22_replay h1 (mk_formatter style_default fargs_default))).
  rewrite <- (proj1 (C22_replay h2 (mk_formatter style_default fargs_default))). now rewrite E.
Qed.
Print Assumptions C60_html_faithful.
Print Assumptions C60_ansi_faithful.
Print Assumptions C60_ansi_controls_needed.
Print Assumptions C60_string_faithful.

Example C60_nonvacuous :
  let h1 := [(lit "ab", mk_style Blue ColorDefault Normal)] in
  let h2 := [(lit "ab", mk_style BrightBlue ColorDefault Normal)] in
  no_controls (text_of h1) /\ no_controls (text_of h2) /\ html_finished h1 <> html_finished h2 /\
  ansi_finished h1 <> ansi_finished h2 /\ built h1 <> built h2.
Proof. repeat split; repeat constructor; intros E; discriminate E. Qed.

(** * C61 *)

(** C61: sending the outputs of several finished adaptors one after the other to a terminal, or
    putting them one after the other in a page, shows the concatenation of their texts. *)
Theorem C61_ansi_concat (hs : list history) :
  Forall (fun h => no_controls (text_of h)) hs ->
  term_feed sgr_style term_new (concat (map ansi_finished hs))
  = mk_term Ground style_default (concat (map denote hs)).
Proof.
  intros H. unfold term_new. change (mk_style ColorDefault ColorDefault Normal) with style_default.
  enough (G : forall scr, term_feed sgr_style (mk_term Ground style_default scr) (concat (map ansi_finished hs))
            = mk_term Ground style_default (scr ++ concat (map denote hs))) by exact (G []).
  induction H as [|h hs Hh Hs IH]; intros scr; cbn [map concat]; [cbn; now rewrite app_nil_r|].
  rewrite <- chars_denote in Hh.
  rewrite feed_app, ansi_finished_eq, feed_app, render_shows by exact Hh. rewrite esc_default_ends, IH.
  now rewrite <- app_assoc.
Qed.
Theorem C61_html_concat (hs : list history) :
  page_feed page_new (concat (map html_finished hs))
  = mk_page Data [] (map (fun cs => (fst cs, css_look (snd cs))) (concat (map denote hs))).
Proof.
  unfold page_new.
  enough (G : forall cells, page_feed (mk_page Data [] cells) (concat (map html_finished hs))
            = mk_page Data [] (cells ++ looks (concat (map denote hs)))) by exact (G []).
  induction hs as [|h hs IH]; intros cells; cbn [map concat]; [cbn; now rewrite app_nil_r|].
  rewrite pfeed_app, html_finished_eq, pfeed_app.
  change (mk_page Data [] cells) with (mk_page Data (open_elements style_default) cells).
  rewrite html_render_view, feed_hesc. change (open_elements style_default) with (@nil css).
  rewrite IH. unfold looks. now rewrite map_app, app_assoc.
Qed.
(** Without [finish] the style of one output leaks into the next. *)
Theorem C61_finish_needed :
  let red := [(lit "a", mk_style Red ColorDefault Normal)] in let b := [(lit "b", style_default)] in
  tm_screen (term_feed sgr_style term_new (ansi_unfinished red ++ ansi_finished b)) <> denote (red ++ b) /\
  pg_cells (page_feed page_new (html_unfinished red ++ html_finished b)) <> looks (denote (red ++ b)).
Proof. split; intros E; discriminate E. Qed.
Print Assumptions C61_ansi_concat.
Print Assumptions C61_html_concat.
Print Assumptions C61_finish_needed.

Example C61_nonvacuous :
  let red := [(lit "a", mk_style Red ColorDefault Normal)] in let b := [(lit "b", style_default)] in
  Forall (fun h => no_controls (text_of h)) [red; b; red] /\
  concat (map html_finished [red; b]) = lit "<span style=color:red>a</span>b".
Proof. split; repeat constructor. Qed.

(** * C62 *)
Lemma newlines_app_clean b s r : forallb (fun c => negb (N.eqb c CR) && negb (N.eqb c LF)) s = true -> s <> [] ->
  newlines_from b (s ++ r) = s ++ newlines_from false r.
Proof.
  revert b. induction s as [|c s IH]; intros b H Hne; [congruence|]. cbn [forallb] in H.
  apply andb_true_iff in H as [Hc H]. apply andb_true_iff in Hc as [H1 H2].
  apply negb_true_iff in H1. apply negb_true_iff in H2. cbn [app newlines_from]. rewrite H1, H2, andb_false_r.
  f_equal. destruct s as [|c' s]; [reflexivity|]. apply IH; [exact H|discriminate].
Qed.
Lemma hesc_clean cur st : cur <> st ->
  hesc cur st <> [] /\ forallb (fun c => negb (N.eqb c CR) && negb (N.eqb c LF)) (hesc cur st) = true.
Proof.
  intros H. rewrite hesc_spec. destruct (style_eqb_spec cur st) as [?|_]; [congruence|].
  rewrite forallb_app. unfold close_tag, open_text. split.
  - destruct (style_eqb_spec cur style_default) as [->|Hc]; [|discriminate].
    destruct (style_eqb_spec st style_default) as [->|Hs]; [congruence|]. discriminate.
  - apply andb_true_iff. split; [destruct (style_eqb cur style_default); reflexivity|].
    destruct st as [f b i]; destruct f, b, i; vm_compute; reflexivity.
Qed.
Lemma escaped_char_other c : c <> CR -> c <> LF ->
  escaped_char c <> [] /\ forallb (fun c => negb (N.eqb c CR) && negb (N.eqb c LF)) (escaped_char c) = true.
Proof.
  intros H1 H2. unfold escaped_char.
  destruct (N.eqb c 34); [split; [discriminate|reflexivity]|]. destruct (N.eqb c 38); [split; [discriminate|reflexivity]|].
  destruct (N.eqb c 39); [split; [discriminate|reflexivity]|]. destruct (N.eqb c 60); [split; [discriminate|reflexivity]|].
  destruct (N.eqb c 62); [split; [discriminate|reflexivity]|]. split; [discriminate|]. cbn.
  apply N.eqb_neq in H1. apply N.eqb_neq in H2. now rewrite H1, H2.
Qed.

Lemma newlines_render t : forall cur b,
  newlines_from b (html_render cur t ++ hesc (last_style cur t) style_default)
  = html_render cur (newlines_styled (if b then Some cur else None) t)
    ++ hesc (last_style cur (newlines_styled (if b then Some cur else None) t)) style_default.
Proof.
  induction t as [|[c st] t IH]; intros cur b.
  - cbn [html_render last_style newlines_styled app].
    destruct (style_eqb_spec cur style_default) as [->|H]; [rewrite hesc_same; reflexivity|].
    destruct (hesc_clean cur style_default H) as [H1 H2].
    rewrite <- (app_nil_r (hesc cur style_default)) at 1. now rewrite newlines_app_clean, app_nil_r by assumption.
  - cbn [html_render last_style]. rewrite <- !app_assoc.
    assert (Hst : forall rest, newlines_from b (hesc cur st ++ rest)
               = hesc cur st ++ newlines_from (if style_eqb cur st then b else false) rest).
    { intros rest. destruct (style_eqb_spec cur st) as [->|H]; [now rewrite hesc_same|].
      destruct (hesc_clean cur st H). now apply newlines_app_clean. }
    rewrite Hst. cbn [newlines_styled]. destruct (N.eqb_spec c CR) as [->|Hc].
    + cbn [html_render last_style]. rewrite <- !app_assoc. f_equal.
      change (escaped_char CR) with [CR]. change (escaped_char LF) with [LF]. cbn [app newlines_from].
      change (N.eqb CR CR) with true. cbn iota. f_equal. apply (IH st true).
    + destruct (N.eqb_spec c LF) as [->|Hl].
      * rewrite andb_true_r. change (escaped_char LF) with [LF]. cbn [app newlines_from].
        change (N.eqb LF CR) with false. change (N.eqb LF LF) with true. cbn iota. rewrite andb_true_r.
        destruct (style_eqb_spec cur st) as [->|H].
        -- rewrite hesc_same. destruct b; [rewrite style_eqb_refl|]; cbn iota; [exact (IH st false)|].
           cbn [html_render last_style app]. rewrite hesc_same. cbn [app]. change (escaped_char LF) with [LF].
           cbn [app]. f_equal. exact (IH st false).
        -- replace (match (if b then Some cur else None) with Some st' => style_eqb st' st | None => false end)
             with false by (destruct b; [now rewrite (style_eqb_neq _ _ H)|reflexivity]).
           cbn [html_render last_style]. rewrite <- !app_assoc. f_equal. change (escaped_char LF) with [LF].
           cbn [app]. f_equal. exact (IH st false).
      * rewrite andb_false_r. cbn [html_render last_style]. rewrite <- !app_assoc. f_equal.
        destruct (escaped_char_other c Hc Hl). rewrite newlines_app_clean by assumption. f_equal. exact (IH st false).
Qed.

Lemma bfold_other p s : forallb (fun c => negb (N.eqb c 0)) s = true ->
  fold_left browser_step s p = page_feed p s.
Proof.
  revert p. induction s as [|c s IH]; intros p H; [reflexivity|]. cbn [forallb] in H.
  apply andb_true_iff in H as [Hc H]. apply negb_true_iff in Hc. cbn [fold_left page_feed].
  rewrite IH by exact H. unfold browser_step. rewrite Hc. destruct (pg_state p); reflexivity.
Qed.
Lemma hesc_no_nul cur st : forallb (fun c => negb (N.eqb c 0)) (hesc cur st) = true.
Proof.
  rewrite hesc_spec. destruct (style_eqb cur st); [reflexivity|]. rewrite forallb_app. unfold close_tag, open_text.
  apply andb_true_iff. split; [destruct (style_eqb cur style_default); reflexivity|].
  destruct st as [f b i]; destruct f, b, i; vm_compute; reflexivity.
Qed.
Lemma escaped_char_no_nul c : c <> 0%N -> forallb (fun c => negb (N.eqb c 0)) (escaped_char c) = true.
Proof.
  intros H. unfold escaped_char.
  destruct (N.eqb c 34); [reflexivity|]. destruct (N.eqb c 38); [reflexivity|].
  destruct (N.eqb c 39); [reflexivity|]. destruct (N.eqb c 60); [reflexivity|].
  destruct (N.eqb c 62); [reflexivity|]. cbn. apply N.eqb_neq in H. now rewrite H.
Qed.
Lemma browser_render_view cur t cells :
  fold_left browser_step (html_render cur t) (mk_page Data (open_elements cur) cells)
  = mk_page Data (open_elements (last_style cur t)) (cells ++ looks (without_nul t)).
Proof.
  revert cur cells; induction t as [|[c st] t IH]; intros cur cells; cbn [html_render last_style].
  - cbn. now rewrite app_nil_r.
  - rewrite !fold_left_app, (bfold_other _ _ (hesc_no_nul _ _)), feed_hesc.
    cbn [without_nul filter fst]. destruct (N.eqb_spec c 0) as [->|H]; cbn [negb].
    + change (escaped_char 0%N) with [0%N]. cbn [fold_left]. unfold browser_step at 2. cbn [pg_state N.eqb].
      exact (IH st cells).
    + rewrite (bfold_other _ _ (escaped_char_no_nul _ H)), feed_escaped_char, open_elements_style, IH.
      unfold looks. cbn [map fst snd]. now rewrite <- app_assoc.
Qed.

(** C62: in a browser, the finished output is a complete page showing the written text in the
    written styles up to exactly this: CR becomes LF, an LF directly after a CR in the same style
    is merged with it, and NUL is dropped. *)
Theorem C62_browser_normalises (h : history) :
  browser_feed page_new (html_finished h)
  = mk_page Data [] (map (fun cs => (fst cs, css_look (snd cs))) (browser_text (denote h))).
Proof.
  unfold browser_feed, newlines. rewrite html_finished_eq, (newlines_render (denote h) style_default false).
  unfold browser_text. rewrite fold_left_app.
  change page_new with (mk_page Data (open_elements style_default) []).
  rewrite browser_render_view, (bfold_other _ _ (hesc_no_nul _ _)), feed_hesc. reflexivity.
Qed.

(** C62 as stated (every character is shown) is false. *)
Theorem C62_shown_refuted :
  exists h1 h2, Forall (fun e => snd e = style_default) (h1 ++ h2) /\
    pg_cells (browser_feed page_new (html_finished h1))
    <> map (fun cs => (fst cs, css_look (snd cs))) (denote h1) /\
    denote h1 <> denote h2 /\
    browser_feed page_new (html_finished h1) = browser_feed page_new (html_finished h2).
Proof.
  exists [([97; 13; 10; 0; 98]%N, style_default)], [([97; 10; 98]%N, style_default)].
  split; [repeat constructor|]. split; [|split]; [intros E; discriminate E..|]. reflexivity.
Qed.

Lemma newlines_styled_id a t : ~ In CR (chars t) -> newlines_styled a t = t \/ a <> None.
Proof. destruct a; [right; discriminate|left]. induction t as [|[c st] t IH]; [reflexivity|].
  cbn [newlines_styled]. destruct (N.eqb_spec c CR) as [->|_]; [exfalso; apply H; now left|].
  cbn [andb]. rewrite IH; [reflexivity|]. intros Hi. apply H. now right.
Qed.
(** C62: it holds for text without CR and NUL.  Missing: texts with them. *)
Theorem C62_shown_partial (h : history) :
  ~ In CR (text_of h) -> ~ In 0%N (text_of h) ->
  browser_feed page_new (html_finished h)
  = mk_page Data [] (map (fun cs => (fst cs, css_look (snd cs))) (denote h)).
Proof.
  intros H1 H2. rewrite C62_browser_normalises. do 2 f_equal. rewrite <- chars_denote in H1, H2.
  unfold browser_text. destruct (newlines_styled_id None (denote h) H1) as [->|?]; [|congruence].
  unfold without_nul. induction (denote h) as [|[c st] t IH]; [reflexivity|]. cbn [filter fst].
  destruct (N.eqb_spec c 0) as [->|_]; [exfalso; apply H2; now left|]. cbn [negb]. f_equal.
  apply IH; intros Hi; [apply H1|apply H2]; now right.
Qed.
Print Assumptions C62_browser_normalises.
Print Assumptions C62_shown_refuted.
Print Assumptions C62_shown_partial.

Example C62_nonvacuous :
  let red := mk_style Red ColorDefault Normal in
  browser_text (denote [([97; 13; 10; 98; 13]%N, red); ([10; 0]%N, style_default)])
  = [(97, red); (10, red); (98, red); (10, red); (10, style_default)]%N /\
  ~ In CR (text_of [(lit "a" ++ [10%N], red)]).
Proof. split; [reflexivity|]. cbn. intuition discriminate. Qed.

(** * C63 *)
Lemma esc_length cur st : length (esc cur st) <= 12.
Proof.
  destruct (esc_cases cur st) as [[_ ->]|[(_ & _ & ->)|(_ & _ & _ & ->)]]; [cbn; lia..|].
  unfold change_segs. destruct (diff_from st cur) as [[f|] [b|] [i|]]; cbn [d_foreground d_background d_intensity option_map somes flat_map app];
    unfold sgr_seq; cbn [sgr_join]; repeat match goal with
      | |- context [ansi_foreground ?c] =>
          let H := fresh in assert (H : length (ansi_foreground c) <= 2) by (destruct c; cbn; lia);
          revert H; generalize (ansi_foreground c); intros
      | |- context [ansi_background ?c] =>
          let H := fresh in assert (H : length (ansi_background c) <= 3) by (destruct c; cbn; lia);
          revert H; generalize (ansi_background c); intros
      | |- context [ansi_intensity ?c] =>
          let H := fresh in assert (H : length (ansi_intensity c) <= 2) by (destruct c; cbn; lia);
          revert H; generalize (ansi_intensity c); intros
      end; cbn [length]; repeat (rewrite app_length; cbn [length lit]); cbn [length lit]; lia.
Qed.
Lemma changed_zero a b : Nat.eqb (attributes_changed a b) 0 = style_eqb a b.
Proof.
  destruct a as [f1 b1 i1], b as [f2 b2 i2]. unfold attributes_changed, differs. cbn [foreground background intens].
  destruct (style_eqb_spec (mk_style f1 b1 i1) (mk_style f2 b2 i2)) as [E|E];
    destruct (color_eq_dec f1 f2), (color_eq_dec b1 b2), (intensity_eq_dec i1 i2); subst; try reflexivity;
    try congruence.
Qed.
Lemma render_length cur t :
  length (ansi_render cur t) <= length (chars t) + 12 * style_changes cur t.
Proof.
  revert cur. induction t as [|[c st] t IH]; intros cur; [cbn; lia|].
  cbn [ansi_render style_changes chars map fst]. rewrite changed_zero, app_length. cbn [length].
  specialize (IH st). unfold chars in IH. destruct (style_eqb_spec cur st) as [->|Hne].
  - rewrite esc_same. cbn [length]. lia.
  - pose proof (esc_length cur st). lia.
Qed.
Lemma hesc_length cur st : length (hesc cur st) <= 78.
Proof.
  rewrite hesc_spec. destruct (style_eqb cur st); [cbn; lia|]. rewrite app_length.
  assert (length (close_tag cur) <= 7) by (unfold close_tag; destruct (style_eqb cur style_default); cbn; lia).
  assert (length (open_text st) <= 71).
  { apply Nat.leb_le. destruct st as [f b i]; destruct f, b, i; vm_compute; reflexivity. }
  lia.
Qed.
Lemma escaped_char_length c : length (escaped_char c) <= 6.
Proof.
  unfold escaped_char. destruct (N.eqb c 34); [cbn; lia|]. destruct (N.eqb c 38); [cbn; lia|].
  destruct (N.eqb c 39); [cbn; lia|]. destruct (N.eqb c 60); [cbn; lia|]. destruct (N.eqb c 62); cbn; lia.
Qed.
Lemma html_render_length cur t :
  length (html_render cur t) <= 6 * length (chars t) + 78 * style_changes cur t.
Proof.
  revert cur. induction t as [|[c st] t IH]; intros cur; [cbn; lia|].
  cbn [html_render style_changes chars map fst]. rewrite changed_zero, !app_length. cbn [length].
  specialize (IH st). unfold chars in IH. pose proof (escaped_char_length c). destruct (style_eqb_spec cur st) as [->|Hne].
  - rewrite hesc_same. cbn [length]. lia.
  - pose proof (hesc_length cur st). lia.
Qed.
Lemma changes_le cur t : style_changes cur t <= length (chars t).
Proof.
  revert cur. induction t as [|[c st] t IH]; intros cur; [cbn; lia|]. cbn. specialize (IH st). unfold chars in IH.
  destruct (Nat.eqb _ 0); lia.
Qed.

(** C63: an ANSI output has at most 12 characters per style change (and 4 for [finish]) more than
    the text; an HTML output at most 6 characters per character of text and 78 per style change
    (and 7 for [finish]).  In particular outputs are linear in the text. *)
Theorem C63_ansi_size (h : history) :
  length (ansi_unfinished h) <= length (text_of h) + 12 * style_changes style_default (denote h) /\
  length (ansi_finished h) <= length (ansi_unfinished h) + 4 /\
  length (ansi_finished h) <= 13 * length (text_of h) + 4.
Proof.
  rewrite ansi_finished_eq, ansi_unfinished_eq, <- chars_denote.
  pose proof (render_length style_default (denote h)). pose proof (changes_le style_default (denote h)).
  split; [lia|]. rewrite app_length.
  assert (length (esc (last_style style_default (denote h)) style_default) <= 4).
  { generalize (last_style style_default (denote h)). intros st.
    destruct (esc_cases st style_default) as [[_ ->]|[(_ & _ & ->)|(_ & ? & _)]]; [cbn; lia..|congruence]. }
  lia.
Qed.
Theorem C63_html_size (h : history) :
  length (html_unfinished h) <= 6 * length (text_of h) + 78 * style_changes style_default (denote h) /\
  length (html_finished h) <= length (html_unfinished h) + 7 /\
  length (html_finished h) <= 84 * length (text_of h) + 7.
Proof.
  rewrite html_finished_eq, html_unfinished_eq, <- chars_denote.
  pose proof (html_render_length style_default (denote h)). pose proof (changes_le style_default (denote h)).
  split; [lia|]. rewrite app_length.
  assert (length (hesc (last_style style_default (denote h)) style_default) <= 7).
  { rewrite hesc_default. unfold close_tag. destruct (style_eqb _ style_default); cbn; lia. }
  lia.
Qed.
Print Assumptions C63_ansi_size.
Print Assumptions C63_html_size.

(** The constants are reached. *)
Example C63_nonvacuous :
  let a := mk_style BrightRed ColorDefault Bold in let b := mk_style BrightBlue BrightBlue Normal in
  length (ansi_unfinished [(lit "x", a); (lit "y", b)]) = 1 + 7 + 1 + 12 /\
  length (html_unfinished [(lit "'", mk_style BrightRed BrightBlue Faint); (lit "'", mk_style BrightRed BrightBlue Bold)])
  = 6 + 71 + 6 + 77.
Proof. split; reflexivity. Qed.
