(** Proofs about html/src/html.rs. *)
From Verif Require Import Base Style Fmt Ansi Html SpecText TextFacts StyleFacts SpecHtml
  AnsiFacts.

(** * The output as a function of the styled text *)
Definition hesc (cur st : style) : str := concat (html_change cur st).

Fixpoint html_render (cur : style) (t : stext) : str :=
  match t with
  | [] => []
  | (c, st) :: r => hesc cur st ++ escaped_char c ++ html_render st r
  end.

Lemma html_entity_spec c :
  escaped_char c = match html_entity c with Some e => e | None => [c] end.
Proof.
  unfold escaped_char, html_entity.
  destruct (N.eqb c 34), (N.eqb c 38), (N.eqb c 39), (N.eqb c 60), (N.eqb c 62); reflexivity.
Qed.

Lemma escape_parts_from_concat acc s : concat (escape_parts_from acc s) = acc ++ escaped s.
Proof.
  revert acc; induction s as [|c s IH]; intros acc; cbn.
  - reflexivity.
  - rewrite html_entity_spec. destruct (html_entity c) as [e|]; cbn [concat].
    + rewrite IH. reflexivity.
    + rewrite IH. now rewrite <- app_assoc.
Qed.

Lemma escape_parts_concat s : concat (escape_parts s) = escaped s.
Proof. apply escape_parts_from_concat. Qed.

Lemma html_change_same st : html_change st st = [].
Proof.
  unfold html_change. destruct (style_eqb_spec st style_default) as [->|H].
  - reflexivity.
  - now rewrite style_eqb_refl.
Qed.

Lemma hesc_same st : hesc st st = [].
Proof. unfold hesc; now rewrite html_change_same. Qed.

Lemma html_render_app cur a b :
  html_render cur (a ++ b) = html_render cur a ++ html_render (last_style cur a) b.
Proof.
  revert cur; induction a as [|[c st] a IH]; intros cur; cbn; [reflexivity|].
  rewrite IH. now rewrite <- !app_assoc.
Qed.

Lemma html_render_paint_same st s : html_render st (paint st s) = escaped s.
Proof.
  induction s as [|c s IH]; [reflexivity|]. rewrite paint_cons; cbn [html_render].
  rewrite hesc_same, IH. reflexivity.
Qed.

Lemma html_render_paint cur st s :
  s <> [] -> html_render cur (paint st s) = hesc cur st ++ escaped s.
Proof.
  destruct s as [|c s]; [congruence|]; intros _. rewrite paint_cons; cbn [html_render].
  now rewrite html_render_paint_same.
Qed.

Lemma html_write_string w s st :
  html_write_str string_sink w s st =
  (mk_html (ht_inner w ++ html_render (ht_current w) (paint st s))
     (last_style (ht_current w) (paint st s)), Returned Ok).
Proof.
  destruct w as [i cur]; unfold html_write_str; cbn [ht_inner ht_current].
  destruct s as [|c s]; cbn [is_empty].
  - cbn. now rewrite app_nil_r.
  - rewrite !write_parts_string.
    rewrite last_style_paint, html_render_paint by congruence.
    rewrite escape_parts_concat. unfold hesc. rewrite <- app_assoc. reflexivity.
Qed.

Lemma html_play h w :
  play (html_write_str string_sink) h w =
  (mk_html (ht_inner w ++ html_render (ht_current w) (denote h))
     (last_style (ht_current w) (denote h)), Returned Ok).
Proof.
  revert w; induction h as [|[s st] h IH]; intros w; cbn [play denote].
  - cbn. rewrite app_nil_r. destruct w; reflexivity.
  - rewrite html_write_string, IH. cbn [ht_inner ht_current].
    rewrite html_render_app, last_style_app, <- app_assoc. reflexivity.
Qed.

Lemma html_infallible : infallible (html_write_str string_sink).
Proof. intros w s st. now rewrite html_write_string. Qed.

Lemma html_finish_string w :
  html_finish string_sink w = (ht_inner w ++ hesc (ht_current w) style_default, Returned Ok).
Proof.
  destruct w as [i cur]. unfold html_finish; cbn [ht_inner ht_current].
  unfold hesc, html_change. rewrite style_eqb_refl.
  destruct (style_eqb_spec cur style_default) as [->|H]; cbn [negb].
  - cbn. now rewrite app_nil_r.
  - now rewrite write_parts_string.
Qed.

(** * The tags *)
Definition close_tag (st : style) : str :=
  if style_eqb st style_default then [] else lit "</span>".
Definition open_text (st : style) : str :=
  if style_eqb st style_default then [] else start_tag st.

Lemma fg_text c :
  c <> ColorDefault ->
  exists v, css_name c = Some v /\ html_foreground c = lit "color:" ++ v.
Proof. destruct c; cbn; intros H; try (eexists; split; reflexivity). congruence. Qed.
Lemma bg_text c :
  c <> ColorDefault ->
  exists v, css_name c = Some v /\ html_background c = lit "background-color:" ++ v.
Proof. destruct c; cbn; intros H; try (eexists; split; reflexivity). congruence. Qed.

Lemma segments_attributes st :
  somes [ option_map html_foreground (d_foreground (diff_from st style_default));
          option_map html_background (d_background (diff_from st style_default));
          option_map html_intensity (d_intensity (diff_from st style_default)) ]
  = attributes st.
Proof. destruct st as [f b i]; destruct f, b, i; reflexivity. Qed.

Lemma attributes_nil st : attributes st = [] <-> st = style_default.
Proof. destruct st as [f b i]; destruct f, b, i; split; intros H; try reflexivity; discriminate H. Qed.

Lemma semicolons_concat seg rest :
  concat (seg :: flat_map (fun s => [lit ";"; s]) rest) = semicolons (seg :: rest).
Proof.
  revert seg; induction rest as [|r rest IH]; intros seg; cbn; [apply app_nil_r|].
  specialize (IH r). cbn in IH. rewrite IH. reflexivity.
Qed.

Lemma hesc_spec cur st :
  hesc cur st = if style_eqb cur st then [] else close_tag cur ++ open_text st.
Proof.
  destruct (style_eqb_spec cur st) as [->|Hn]; [apply hesc_same|].
  unfold hesc, html_change, close_tag, open_text.
  destruct (style_eqb_spec st style_default) as [->|Hd].
  - rewrite (style_eqb_neq _ _ Hn); reflexivity.
  - rewrite (style_eqb_neq st cur) by congruence. cbn [negb].
    rewrite segments_attributes. unfold start_tag.
    destruct (attributes st) as [|seg rest] eqn:E; [now apply attributes_nil in E|].
    assert (Hc : concat ([lit "<span style="; seg] ++
              flat_map (fun segment => [lit ";"; segment]) rest ++ [lit ">"])
            = lit "<span style=" ++ semicolons (seg :: rest) ++ lit ">").
    { cbn [concat app]. f_equal. rewrite <- semicolons_concat. cbn [concat].
      rewrite concat_app. cbn [concat]. now rewrite app_nil_r, <- app_assoc. }
    rewrite concat_app, Hc. destruct (style_eqb cur style_default); cbn [negb concat];
      reflexivity.
Qed.

(** * Reference document *)
Lemma reference_cons st s l :
  reference ((st, s) :: l) = open_text st ++ escaped s ++ close_tag st ++ reference l.
Proof.
  cbn [reference]. unfold open_text, close_tag.
  destruct (style_eqb_spec st style_default) as [->|H].
  - reflexivity.
  - destruct (attributes st) eqn:E; [now apply attributes_nil in E|].
    now rewrite <- !app_assoc.
Qed.

Lemma render_runs t cur :
  html_render cur t ++ close_tag (last_style cur t) =
  match runs t with
  | [] => close_tag cur
  | (st, s) :: l =>
      (if style_eqb cur st then [] else close_tag cur ++ open_text st)
      ++ escaped s ++ close_tag st ++ reference l
  end.
Proof.
  revert cur; induction t as [|[c st] t IH]; intros cur; [reflexivity|].
  cbn [html_render last_style runs]. rewrite <- !app_assoc, (IH st), hesc_spec.
  destruct (runs t) as [|[st' s] l].
  - cbn [escaped flat_map]. rewrite app_nil_r. now rewrite app_nil_r.
  - destruct (style_eqb_spec st st') as [<-|Hn].
    + cbn [escaped flat_map]. now rewrite <- !app_assoc.
    + cbn [escaped flat_map]. rewrite reference_cons, app_nil_r.
      now rewrite <- !app_assoc.
Qed.

Lemma hesc_default cur : hesc cur style_default = close_tag cur.
Proof.
  rewrite hesc_spec. unfold close_tag at 1. unfold open_text. rewrite style_eqb_refl.
  destruct (style_eqb_spec cur style_default) as [->|H]; [reflexivity|].
  unfold close_tag. now rewrite (style_eqb_neq _ _ H), app_nil_r.
Qed.

Lemma html_reference t :
  html_render style_default t ++ hesc (last_style style_default t) style_default
  = reference (runs t).
Proof.
  rewrite hesc_default, render_runs. destruct (runs t) as [|[st s] l]; [reflexivity|].
  rewrite reference_cons. unfold open_text at 2, close_tag at 1.
  destruct (style_eqb_spec style_default st) as [<-|H]; [reflexivity|].
  unfold open_text. rewrite (style_eqb_neq st style_default) by congruence.
  now rewrite style_eqb_refl.
Qed.

(** * Viewing *)
Lemma pfeed_app p a b : page_feed p (a ++ b) = page_feed (page_feed p a) b.
Proof. apply fold_left_app. Qed.

Lemma feed_in_tag acc open cells s :
  forallb (fun c => negb (N.eqb c 62)) s = true ->
  page_feed (mk_page (InTag acc) open cells) s = mk_page (InTag (acc ++ s)) open cells.
Proof.
  revert acc; induction s as [|c s IH]; intros acc H; cbn.
  - now rewrite app_nil_r.
  - cbn [forallb] in H. apply andb_true_iff in H as [Hc H].
    change (fold_left page_step s ?p) with (page_feed p s).
    destruct (N.eqb c 62); [discriminate|]. rewrite IH by auto. now rewrite <- app_assoc.
Qed.

Definition tag_body (st : style) : str := lit "span style=" ++ semicolons (attributes st).

Lemma tag_body_facts st :
  st <> style_default ->
  forallb (fun c => negb (N.eqb c 62)) (tag_body st) = true /\
  str_eqb (tag_body st) (lit "/span") = false /\
  open_tag css_page (tag_body st) = Some (css_look st).
Proof.
  intros H. split; [|split].
  - destruct st as [f b i]; destruct f, b, i; vm_compute; reflexivity.
  - destruct st as [f b i]; destruct f, b, i; vm_compute; reflexivity.
  - destruct st as [f b i]; destruct f, b, i; try (vm_compute; reflexivity). now destruct H.
Qed.

Lemma open_elements_style st :
  match open_elements st with x :: _ => x | [] => css_page end = css_look st.
Proof.
  unfold open_elements. destruct (style_eqb_spec st style_default) as [->|H]; reflexivity.
Qed.

Lemma feed_close cur cells :
  page_feed (mk_page Data (open_elements cur) cells) (close_tag cur) = mk_page Data [] cells.
Proof.
  unfold open_elements, close_tag. destruct (style_eqb cur style_default); reflexivity.
Qed.

Lemma feed_open st cells :
  page_feed (mk_page Data [] cells) (open_text st) = mk_page Data (open_elements st) cells.
Proof.
  unfold open_elements, open_text. destruct (style_eqb_spec st style_default) as [_|H];
    [reflexivity|].
  destruct (tag_body_facts st H) as (H1 & H2 & H3).
  change (start_tag st) with ([60%N] ++ (tag_body st ++ [62%N])).
  rewrite pfeed_app.
  change (page_feed (mk_page Data [] cells) [60%N]) with (mk_page (InTag []) [] cells).
  rewrite pfeed_app, feed_in_tag by auto. cbn [app].
  change (page_feed ?p [62%N]) with (page_step p 62%N).
  unfold page_step; cbn [pg_state N.eqb Pos.eqb pg_open pg_cells pg_style].
  change (N.eqb 62 62) with true. cbn iota. rewrite H2.
  change (pg_style (mk_page (InTag (tag_body st)) [] cells)) with css_page. now rewrite H3.
Qed.

Lemma feed_hesc cur st cells :
  page_feed (mk_page Data (open_elements cur) cells) (hesc cur st)
  = mk_page Data (open_elements st) cells.
Proof.
  rewrite hesc_spec. destruct (style_eqb_spec cur st) as [->|H]; [reflexivity|].
  now rewrite pfeed_app, feed_close, feed_open.
Qed.

Lemma feed_escaped_char c open cells :
  page_feed (mk_page Data open cells) (escaped_char c) =
  mk_page Data open (cells ++ [(c, match open with x :: _ => x | [] => css_page end)]).
Proof.
  unfold escaped_char.
  destruct (N.eqb_spec c 34) as [->|H1]; [reflexivity|].
  destruct (N.eqb_spec c 38) as [->|H2]; [reflexivity|].
  destruct (N.eqb_spec c 39) as [->|H3]; [reflexivity|].
  destruct (N.eqb_spec c 60) as [->|H4]; [reflexivity|].
  destruct (N.eqb_spec c 62) as [->|H5]; [reflexivity|].
  change (page_feed ?p [c]) with (page_step p c). unfold page_step; cbn [pg_state].
  destruct (N.eqb_spec c 60); [congruence|]. destruct (N.eqb_spec c 38); [congruence|].
  reflexivity.
Qed.

Lemma html_render_view cur t cells :
  page_feed (mk_page Data (open_elements cur) cells) (html_render cur t) =
  mk_page Data (open_elements (last_style cur t)) (cells ++ looks t).
Proof.
  revert cur cells; induction t as [|[c st] t IH]; intros cur cells;
    cbn [html_render last_style].
  - cbn. now rewrite app_nil_r.
  - rewrite !pfeed_app, feed_hesc, feed_escaped_char, open_elements_style, IH.
    now rewrite <- app_assoc.
Qed.

(** * Properties of the reference document *)

Lemma clean_app a b : clean_text a -> clean_text b -> clean_text (a ++ b).
Proof.
  intros Ha Hb; induction Ha; cbn [app]; auto.
  - now constructor.
  - rewrite <- app_assoc. cbn [app]. now apply ct_ref with (c := c).
Qed.

Lemma escaped_char_clean c : clean_text (escaped_char c).
Proof.
  unfold escaped_char.
  destruct (N.eqb_spec c 34) as [->|H1];
    [apply ct_ref with (name := lit "quot") (c := 34%N) (s := []); [reflexivity|constructor]|].
  destruct (N.eqb_spec c 38) as [->|H2];
    [apply ct_ref with (name := lit "amp") (c := 38%N) (s := []); [reflexivity|constructor]|].
  destruct (N.eqb_spec c 39) as [->|H3];
    [apply ct_ref with (name := lit "#x27") (c := 39%N) (s := []); [reflexivity|constructor]|].
  destruct (N.eqb_spec c 60) as [->|H4];
    [apply ct_ref with (name := lit "lt") (c := 60%N) (s := []); [reflexivity|constructor]|].
  destruct (N.eqb_spec c 62) as [->|H5];
    [apply ct_ref with (name := lit "gt") (c := 62%N) (s := []); [reflexivity|constructor]|].
  constructor; [|constructor]. cbn.
  repeat match goal with H : c <> _ |- _ => apply N.eqb_neq in H; rewrite H; clear H end.
  reflexivity.
Qed.

Lemma escaped_clean s : clean_text (escaped s).
Proof.
  induction s as [|c s IH]; cbn; [constructor|]. apply clean_app; auto using escaped_char_clean.
Qed.

Lemma escaped_nonempty s : s <> [] -> escaped s <> [].
Proof.
  destruct s as [|c s]; [congruence|]. intros _. cbn. unfold escaped_char.
  destruct (N.eqb c 34); [discriminate|]. destruct (N.eqb c 38); [discriminate|].
  destruct (N.eqb c 39); [discriminate|]. destruct (N.eqb c 60); [discriminate|].
  destruct (N.eqb c 62); discriminate.
Qed.

Lemma attribute_value_ok st :
  forallb (fun c => negb (ends_unquoted c)) (semicolons (attributes st)) = true.
Proof. destruct st as [f b i]; destruct f, b, i; vm_compute; reflexivity. Qed.

Lemma semicolons_nonempty st : st <> style_default -> semicolons (attributes st) <> [].
Proof.
  destruct st as [f b i]; destruct f, b, i; intros H;
    try (intros E; discriminate E). now destruct H.
Qed.

Lemma runs_nonempty t : Forall (fun r => snd r <> []) (runs t).
Proof.
  induction t as [|[c st] t IH]; cbn; [constructor|].
  destruct (runs t) as [|[st' s] l]; [repeat constructor; discriminate|].
  inversion IH; subst. destruct (style_eqb st st'); repeat constructor; auto; discriminate.
Qed.

Lemma reference_well_formed l : Forall (fun r => snd r <> []) l -> well_formed (reference l).
Proof.
  induction 1 as [|[st s] l Hs _ IH]; [constructor|]. cbn [reference].
  destruct (attributes st) as [|a at_] eqn:E.
  - apply wf_text; auto using escaped_clean.
  - unfold start_tag. rewrite <- !app_assoc. apply wf_span; auto.
    + apply semicolons_nonempty. intros ->. discriminate.
    + apply attribute_value_ok.
    + apply escaped_nonempty; auto.
    + apply escaped_clean.
Qed.

Lemma runs_denote t : flat_map (fun r => paint (fst r) (snd r)) (runs t) = t.
Proof.
  induction t as [|[c st] t IH]; [reflexivity|]. cbn [runs].
  destruct (runs t) as [|[st' s] l]; cbn in *.
  - subst; reflexivity.
  - destruct (style_eqb_spec st st') as [<-|Hn]; cbn; rewrite <- IH; reflexivity.
Qed.

Lemma runs_alternating t : alternating (runs t).
Proof.
  induction t as [|[c st] t IH]; cbn [runs]; [exact I|].
  destruct (runs t) as [|[st' s] l]; [exact I|].
  destruct (style_eqb_spec st st') as [<-|Hn].
  - destruct l as [|[b sb] l]; cbn in *; auto.
  - cbn [alternating]. split; auto.
Qed.

(** Unescaping with the viewer's character references. *)
Lemma escaped_view s cells :
  page_feed (mk_page Data [] cells) (escaped s)
  = mk_page Data [] (cells ++ map (fun c => (c, css_page)) s).
Proof.
  revert cells; induction s as [|c s IH]; intros cells; cbn [escaped flat_map map].
  - cbn. now rewrite app_nil_r.
  - rewrite pfeed_app, feed_escaped_char. fold (escaped s). rewrite IH.
    now rewrite <- app_assoc.
Qed.
