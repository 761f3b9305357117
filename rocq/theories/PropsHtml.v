(** Property theorems C16-C21 and C28: the HTML adaptor. *)
From Verif Require Import Base Style Fmt Html SpecText TextFacts SpecSink SpecHtml HtmlFacts
  SinkFacts.

(** What a user's writes leave in the String behind an Html adaptor, without and with
    [finish()?]. *)
Definition html_unfinished (h : history) : str :=
  ht_inner (fst (play (html_write_str string_sink) h (html_new []))).
Definition html_finished (h : history) : str :=
  fst (html_finish string_sink (fst (play (html_write_str string_sink) h (html_new [])))).

Lemma html_unfinished_eq h : html_unfinished h = html_render style_default (denote h).
Proof. unfold html_unfinished. now rewrite html_play. Qed.
Lemma html_finished_eq h :
  html_finished h = html_render style_default (denote h)
                    ++ hesc (last_style style_default (denote h)) style_default.
Proof. unfold html_finished. now rewrite html_play, html_finish_string. Qed.

(** C16: a viewer shows exactly the written characters, each in the CSS look of its style, and
    all elements are closed; before [finish] the text is shown as well. *)
Theorem C16_viewer_shows (h : history) :
  snd (play (html_write_str string_sink) h (html_new [])) = Returned Ok /\
  page_feed page_new (html_finished h)
  = mk_page Data [] (map (fun cs => (fst cs, css_look (snd cs))) (denote h)) /\
  pg_cells (page_feed page_new (html_unfinished h))
  = map (fun cs => (fst cs, css_look (snd cs))) (denote h).
Proof.
  split; [now rewrite html_play|].
  rewrite html_finished_eq, html_unfinished_eq, pfeed_app.
  change page_new with (mk_page Data (open_elements style_default) []).
  rewrite html_render_view. split; [|reflexivity]. now rewrite feed_hesc.
Qed.
Print Assumptions C16_viewer_shows.

(** C16: the look determines the style: different styles are written differently. *)
Theorem C16_look_injective (a b : style) : css_look a = css_look b -> a = b.
Proof.
  destruct a as [f1 b1 i1], b as [f2 b2 i2]. unfold css_look; cbn. intros H.
  injection H as Hf Hb Hi.
  assert (f1 = f2) by (destruct f1, f2; reflexivity || discriminate Hf).
  assert (b1 = b2) by (destruct b1, b2; reflexivity || discriminate Hb).
  assert (i1 = i2) by (destruct i1, i2; reflexivity || discriminate Hi).
  congruence.
Qed.
Print Assumptions C16_look_injective.

Example C16_nonvacuous :
  let h := [(lit "a<b ", style_default); (lit "&", mk_style Red ColorDefault Bold);
            (lit "!", mk_style ColorDefault Blue Faint)] in
  html_finished h
  = lit "a&lt;b <span style=color:red;font-weight:bolder>&amp;</span><span style=background-color:blue;font-weight:lighter>!</span>"
  /\ pg_cells (page_feed page_new (html_finished h))
     = [(97, css_page); (60, css_page); (98, css_page); (32, css_page);
        (38, mk_css (Some (lit "red")) None 700);
        (33, mk_css None (Some (lit "blue")) 100)]%N.
Proof. split; reflexivity. Qed.

(** C17: the finished output is a well-formed document: clean text and non-nested, non-empty
    spans whose attribute value needs no quotes. *)
Theorem C17_well_formed (h : history) : well_formed (html_finished h).
Proof.
  rewrite html_finished_eq, html_reference.
  exact (reference_well_formed _ (runs_nonempty (denote h))).
Qed.
Print Assumptions C17_well_formed.

(** C18: the text parts contain no markup character, and reading the character references back
    gives the data, for any data; escaping any data never changes the structure of the page. *)
Theorem C18_injection_safe (data : str) (h1 h2 : history) (st : style) :
  clean_text (escaped data) /\
  page_feed page_new (escaped data) = mk_page Data [] (map (fun c => (c, css_page)) data) /\
  html_unfinished [(data, style_default)] = escaped data /\
  pg_cells (page_feed page_new (html_finished (h1 ++ (data, st) :: h2)))
  = pg_cells (page_feed page_new (html_finished h1))
    ++ map (fun c => (c, css_look st)) data
    ++ pg_cells (page_feed page_new (html_finished h2)).
Proof.
  split; [apply escaped_clean|]. split; [apply escaped_view|]. split.
  - rewrite html_unfinished_eq. cbn [denote]. rewrite app_nil_r. apply html_render_paint_same.
  - destruct (C16_viewer_shows (h1 ++ (data, st) :: h2)) as (_ & -> & _).
    destruct (C16_viewer_shows h1) as (_ & -> & _).
    destruct (C16_viewer_shows h2) as (_ & -> & _).
    cbn [pg_cells]. rewrite denote_app, map_app. f_equal. cbn [denote]. rewrite map_app.
    f_equal. unfold paint. now rewrite map_map.
Qed.
Print Assumptions C18_injection_safe.

Example C18_nonvacuous :
  let red := mk_style Red ColorDefault Normal in
  let data := lit "</span><script>&lt;" in
  html_finished [(lit "a", red); (data, red)]
  = lit "<span style=color:red>a&lt;/span&gt;&lt;script&gt;&amp;lt;</span>" /\
  map fst (pg_cells (page_feed page_new (html_finished [(lit "a", red); (data, red)]))) = lit "a" ++ data.
Proof. split; vm_compute; reflexivity. Qed.
Example C17_nonvacuous :
  let red := mk_style Red ColorDefault Normal in
  let bold := mk_style ColorDefault ColorDefault Bold in
  html_finished [(lit "a", red); (lit "b", bold); (lit "c", style_default)]
  = lit "<span style=color:red>a</span><span style=font-weight:bolder>b</span>c" /\
  well_formed (lit "<span style=color:red>a</span>b").
Proof.
  split; [vm_compute; reflexivity|].
  exact (C17_well_formed [(lit "a", mk_style Red ColorDefault Normal); (lit "b", style_default)]).
Qed.

(** C19: the output is a function of the styled text alone. *)
Theorem C19_chunking (h1 h2 : history) :
  denote h1 = denote h2 ->
  html_unfinished h1 = html_unfinished h2 /\ html_finished h1 = html_finished h2.
Proof. intros H. rewrite !html_unfinished_eq, !html_finished_eq, H. auto. Qed.
Print Assumptions C19_chunking.

Example C19_nonvacuous :
  let red := mk_style Red ColorDefault Normal in
  denote [(lit "ab", red); (lit "", style_default); (lit "c", red)]
  = denote [(lit "", style_default); (lit "a", red); (lit "bc", red)].
Proof. reflexivity. Qed.

(** C20: the output is the reference document: one span per maximal run of non-default text,
    listing exactly the non-default attributes; default text has no element. *)
Theorem C20_reference (h : history) : html_finished h = reference (runs (denote h)).
Proof. rewrite html_finished_eq. exact (html_reference (denote h)). Qed.
Print Assumptions C20_reference.

(** The runs are maximal, non-empty, and together are the styled text. *)
Theorem C20_runs_maximal (t : stext) :
  flat_map (fun r => paint (fst r) (snd r)) (runs t) = t /\
  alternating (runs t) /\ Forall (fun r => snd r <> []) (runs t).
Proof. exact (conj (runs_denote t) (conj (runs_alternating t) (runs_nonempty t))). Qed.
Print Assumptions C20_runs_maximal.

(** An attribute list never mentions inherit, and is empty exactly for the default style. *)
Theorem C20_attributes (st : style) :
  (attributes st = [] <-> st = style_default) /\
  forall a, In a (attributes st) ->
    a <> lit "color:inherit" /\ a <> lit "background-color:inherit" /\
    a <> lit "font-weight:inherit".
Proof.
  split; [apply attributes_nil|].
  assert (H : forallb (fun a => negb (str_eqb a (lit "color:inherit"))
                 && negb (str_eqb a (lit "background-color:inherit"))
                 && negb (str_eqb a (lit "font-weight:inherit"))) (attributes st) = true).
  { destruct st as [f b i]; destruct f, b, i; vm_compute; reflexivity. }
  intros a Ha. rewrite forallb_forall in H. specialize (H a Ha).
  apply andb_true_iff in H as [H H3]. apply andb_true_iff in H as [H1 H2].
  repeat split; intros ->; discriminate.
Qed.
Print Assumptions C20_attributes.

Example C20_nonvacuous :
  let s := mk_style Red ColorDefault Bold in
  attributes s = [lit "color:red"; lit "font-weight:bolder"] /\
  html_finished [(lit "a", s); (lit "b", s); (lit "c", style_default)]
  = lit "<span style=color:red;font-weight:bolder>ab</span>c".
Proof. split; vm_compute; reflexivity. Qed.

(** The RGB value in which a page shows a character written in style [st] ([get] selects the
    text or the background color); [None]: that of the surrounding page. *)
Definition shown_rgb (get : css -> option str) (st : style) : option rgb :=
  match pg_cells (page_feed page_new (html_finished [(lit "x", st)])) with
  | [(_, look)] => match get look with Some v => css_rgb v | None => None end
  | _ => None
  end.
Definition text_rgb (c : color) : option rgb := shown_rgb v_color (mk_style c ColorDefault Normal).

(** C21 as stated is false in both parts. *)
Theorem C21_distinct_refuted :
  (exists a b, a <> b /\ text_rgb a = text_rgb b /\ text_rgb a <> None) /\
  (exists ra rb, text_rgb Red = Some ra /\ text_rgb BrightRed = Some rb /\
     (brightness rb < brightness ra)%N).
Proof.
  split.
  - exists Blue, BrightBlue. repeat split; discriminate.
  - do 2 eexists. repeat split; reflexivity.
Qed.
Print Assumptions C21_distinct_refuted.

(** Exactly which colors collide: five of the eight normal colors equal their bright
    counterpart; all other pairs are distinct, and every color has an RGB value, as text and as
    background color and whatever the other attributes; a bright color is at least as bright as
    its normal counterpart except for red.  Missing from the full statement: those five pairs,
    and the order of Red and BrightRed. *)
Definition collides (a b : color) : bool :=
  match a, b with
  | Yellow, BrightYellow | BrightYellow, Yellow
  | Blue, BrightBlue | BrightBlue, Blue
  | Magenta, BrightMagenta | BrightMagenta, Magenta
  | Cyan, BrightCyan | BrightCyan, Cyan
  | White, BrightWhite | BrightWhite, White => true
  | _, _ => false
  end.
Definition brightened (c : color) : option color :=
  match c with
  | Black => Some BrightBlack | Red => Some BrightRed | Green => Some BrightGreen
  | Yellow => Some BrightYellow | Blue => Some BrightBlue | Magenta => Some BrightMagenta
  | Cyan => Some BrightCyan | White => Some BrightWhite
  | _ => None
  end.
Definition color_rgb (c : color) : option rgb :=
  match css_name c with Some v => css_rgb v | None => None end.
Lemma shown_rgb_eq st :
  shown_rgb v_color st = color_rgb (foreground st) /\
  shown_rgb v_background st = color_rgb (background st).
Proof.
  unfold shown_rgb. destruct (C16_viewer_shows [(lit "x", st)]) as (_ & -> & _). split; reflexivity.
Qed.
Lemma color_rgb_distinct (a b : color) :
  (color_rgb a = None <-> a = ColorDefault) /\
  (color_rgb a = color_rgb b <-> a = b \/ collides a b = true).
Proof.
  split.
  - destruct a; split; intros H; try reflexivity; try discriminate H.
  - destruct a, b; split; intros H;
      first [ left; reflexivity | right; reflexivity | vm_compute in H; discriminate H
            | reflexivity | destruct H as [H|H]; discriminate H ].
Qed.
Theorem C21_distinct_partial (a b : style) :
  (shown_rgb v_color a = None <-> foreground a = ColorDefault) /\
  (shown_rgb v_background a = None <-> background a = ColorDefault) /\
  (shown_rgb v_color a = shown_rgb v_color b <->
   foreground a = foreground b \/ collides (foreground a) (foreground b) = true) /\
  (shown_rgb v_background a = shown_rgb v_background b <->
   background a = background b \/ collides (background a) (background b) = true) /\
  (shown_rgb v_color a = shown_rgb v_background b <->
   foreground a = background b \/ collides (foreground a) (background b) = true) /\
  (forall c, brightened (foreground a) = Some c -> foreground b = c -> c <> BrightRed ->
   exists ra rb, shown_rgb v_color a = Some ra /\ shown_rgb v_color b = Some rb /\
     (brightness ra <= brightness rb)%N).
Proof.
  destruct (shown_rgb_eq a) as [-> ->], (shown_rgb_eq b) as [-> ->].
  split; [exact (proj1 (color_rgb_distinct _ Red))|].
  split; [exact (proj1 (color_rgb_distinct _ Red))|].
  do 3 (split; [apply color_rgb_distinct|]).
  intros c H <-. destruct (foreground a); try discriminate H; injection H as <-; intros Hr;
    try congruence; do 2 eexists; (split; [reflexivity|]); (split; [reflexivity|]); vm_compute; discriminate.
Qed.
Print Assumptions C21_distinct_partial.

Example C21_nonvacuous :
  shown_rgb v_color (mk_style Red ColorDefault Normal) <> shown_rgb v_color (mk_style Green ColorDefault Normal) /\
  shown_rgb v_color (mk_style Red ColorDefault Normal) <> None /\
  brightened Green = Some BrightGreen.
Proof. split; [vm_compute; discriminate|split; [vm_compute; discriminate|reflexivity]]. Qed.

(** C28 (HTML): see [C28_ansi_failures]. *)
Theorem C28_html_failures {S} (sink : fmt_sink S) (h : history) (i : S) :
  let '(w', o) := play (html_write_str (logged sink)) h (html_new (start i)) in
  let '(wf, _) := play (html_write_str (logged string_sink)) h (html_new (@start str [])) in
  failure_contract (snd (ht_inner wf)) (snd (ht_inner w')) o.
Proof. exact (html_contract sink h i). Qed.
Print Assumptions C28_html_failures.

Example C28_html_nonvacuous :
  let '(w', o) := play (html_write_str (logged flaky)) [(lit "a", mk_style Red ColorDefault Normal)]
                    (html_new (start ([], [Returned Ok; Crashed Panic]))) in
  o = Crashed Panic /\
  snd (ht_inner w') = [(lit "<span style=", Returned Ok); (lit "color:red", Crashed Panic)].
Proof. split; reflexivity. Qed.
