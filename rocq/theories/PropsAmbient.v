(** Properties C75 and C76: output shown in surroundings that are not in the default style. *)
From Verif Require Import Base Style Fmt Ansi Html SpecText TextFacts StyleFacts SpecTerminal SpecSgr
  SpecHtml AnsiFacts HtmlFacts PropsAnsi PropsHtml SpecAmbient.

(** * HTML *)
Lemma open_tag_within p st :
  st <> style_default -> open_tag p (tag_body st) = Some (look_within p st).
Proof.
  intros H. destruct p as [c b w], st as [f g i]; destruct f, g, i; try (now destruct H);
    cbv -[bolder lighter]; reflexivity.
Qed.

Definition elements_within (open : list css) (p : css) (st : style) : list css :=
  if style_eqb st style_default then open else look_within p st :: open.
Definition innermost (open : list css) : css := match open with x :: _ => x | [] => css_page end.

Lemma look_within_default p : look_within p style_default = p.
Proof. now destruct p. Qed.

Lemma within_style open st :
  innermost (elements_within open (innermost open) st) = look_within (innermost open) st.
Proof.
  unfold elements_within. destruct (style_eqb_spec st style_default) as [->|H]; [|reflexivity].
  now rewrite look_within_default.
Qed.

Lemma feed_close_within open cur cells :
  page_feed (mk_page Data (elements_within open (innermost open) cur) cells) (close_tag cur) = mk_page Data open cells.
Proof. unfold elements_within, close_tag. destruct (style_eqb cur style_default); reflexivity. Qed.

Lemma feed_open_within open st cells :
  page_feed (mk_page Data open cells) (open_text st) = mk_page Data (elements_within open (innermost open) st) cells.
Proof.
  unfold elements_within, open_text. destruct (style_eqb_spec st style_default) as [_|H]; [reflexivity|].
  destruct (tag_body_facts st H) as (H1 & H2 & _).
  change (start_tag st) with ([60%N] ++ (tag_body st ++ [62%N])).
  rewrite pfeed_app.
  change (page_feed (mk_page Data open cells) [60%N]) with (mk_page (InTag []) open cells).
  rewrite pfeed_app, feed_in_tag by auto. cbn [app].
  change (page_feed ?p [62%N]) with (page_step p 62%N).
  unfold page_step; cbn [pg_state pg_open pg_cells].
  change (N.eqb 62 62) with true. cbn iota. rewrite H2.
  change (pg_style (mk_page (InTag (tag_body st)) open cells)) with (innermost open).
  now rewrite (open_tag_within _ _ H).
Qed.

Lemma render_within open t : forall cur cells,
  page_feed (mk_page Data (elements_within open (innermost open) cur) cells) (html_render cur t) =
  mk_page Data (elements_within open (innermost open) (last_style cur t))
    (cells ++ map (fun cs => (fst cs, look_within (innermost open) (snd cs))) t).
Proof.
  induction t as [|[c st] t IH]; intros cur cells; cbn [html_render last_style].
  - cbn. now rewrite app_nil_r.
  - rewrite !pfeed_app.
    assert (E : page_feed (mk_page Data (elements_within open (innermost open) cur) cells) (hesc cur st)
                = mk_page Data (elements_within open (innermost open) st) cells).
    { rewrite hesc_spec. destruct (style_eqb_spec cur st) as [->|H]; [reflexivity|].
      now rewrite pfeed_app, feed_close_within, feed_open_within. }
    rewrite E, feed_escaped_char.
    change (match elements_within open (innermost open) st with x :: _ => x | [] => css_page end)
      with (innermost (elements_within open (innermost open) st)).
    rewrite within_style, IH. cbn [map fst snd]. now rewrite <- app_assoc.
Qed.

(** C75: finished HTML output put anywhere in the text of a page, inside any elements: every
    character is shown in its style relative to the surroundings, and the elements open
    afterwards are those open before. *)
Theorem C75_any_surroundings (h : history) (p : page) :
  pg_state p = Data ->
  page_feed p (html_finished h)
  = mk_page Data (pg_open p)
      (pg_cells p ++ map (fun cs => (fst cs, look_within (pg_style p) (snd cs))) (denote h)).
Proof.
  destruct p as [s open cells]. cbn [pg_state]. intros ->. rewrite html_finished_eq, pfeed_app.
  cbn [pg_open pg_cells]. change (pg_style (mk_page Data open cells)) with (innermost open).
  assert (E : mk_page Data open cells = mk_page Data (elements_within open (innermost open) style_default) cells)
    by (unfold elements_within; now rewrite style_eqb_refl).
  rewrite E, render_within, hesc_default, feed_close_within. reflexivity.
Qed.
Print Assumptions C75_any_surroundings.

(** C75: when two styles look alike there: only because the surroundings have the color that one
    of them asks for, or because they are already as bold or as light as can be. *)
Theorem C75_distinguishable (p : css) (a b : style) :
  look_within p a = look_within p b <->
  (css_name (foreground a) = css_name (foreground b) \/
   (foreground a = ColorDefault /\ css_name (foreground b) = v_color p) \/
   (foreground b = ColorDefault /\ css_name (foreground a) = v_color p)) /\
  (css_name (background a) = css_name (background b) \/
   (background a = ColorDefault /\ css_name (background b) = v_background p) \/
   (background b = ColorDefault /\ css_name (background a) = v_background p)) /\
  (intens a = intens b \/
   ((900 <= v_weight p)%N /\ intens a <> Faint /\ intens b <> Faint) \/
   ((v_weight p <= 100)%N /\ intens a <> Bold /\ intens b <> Bold)).
Proof.
  assert (HC : forall x y (q : option str),
    or_surrounding (css_name x) q = or_surrounding (css_name y) q <->
    (css_name x = css_name y \/ (x = ColorDefault /\ css_name y = q) \/ (y = ColorDefault /\ css_name x = q))).
  { intros x y q. split.
    - intros H. destruct (css_name x) as [vx|] eqn:Ex, (css_name y) as [vy|] eqn:Ey; cbn in H; auto.
      + right; right. split; [destruct y; discriminate Ey || reflexivity|exact H].
      + right; left. split; [destruct x; discriminate Ex || reflexivity|now symmetry].
    - intros [H|[[-> H]|[-> H]]]; [now rewrite H|rewrite H|rewrite H]; cbn; destruct q; reflexivity. }
  assert (HW : forall i j w,
    match i with Normal => w | Bold => bolder w | Faint => lighter w end
    = match j with Normal => w | Bold => bolder w | Faint => lighter w end <->
    (i = j \/ ((900 <= w)%N /\ i <> Faint /\ j <> Faint) \/ ((w <= 100)%N /\ i <> Bold /\ j <> Bold))).
  { intros i j w. unfold bolder, lighter.
    destruct (N.ltb_spec w 350), (N.ltb_spec w 550), (N.ltb_spec w 900), (N.ltb_spec w 100), (N.ltb_spec w 750); try lia;
      destruct i, j; split; intros HH; try lia; try (left; reflexivity); try reflexivity.
    all: try (destruct HH as [HH|[(? & ? & ?)|(? & ? & ?)]]; congruence || lia).
    all: try (right; left; repeat split; congruence || lia).
    all: try (right; right; repeat split; congruence || lia). }
  rewrite <- HC, <- HC, <- HW. unfold look_within. split.
  - intros H. injection H as H1 H2 H3. auto.
  - intros (-> & -> & ->). reflexivity.
Qed.
Print Assumptions C75_distinguishable.

Example C75_nonvacuous :
  let red := mk_style Red ColorDefault Bold in
  let p := page_feed page_new (lit "x<span style=color:blue;font-weight:lighter>y") in
  pg_state p = Data /\
  page_feed p (html_finished [(lit "a", style_default); (lit "b", red)])
  = mk_page Data [mk_css (Some (lit "blue")) None 100]
      [(120%N, css_page); (121%N, mk_css (Some (lit "blue")) None 100);
       (97%N, mk_css (Some (lit "blue")) None 100); (98%N, mk_css (Some (lit "red")) None 400)].
Proof. vm_compute. split; reflexivity. Qed.

(** * Terminals *)

(** The rendition after a change. *)
Definition rend_step (cur st rend : style) : style :=
  if style_eqb cur st then rend
  else if style_eqb st style_default then style_default
  else mk_style (if color_eq_dec (foreground cur) (foreground st) then foreground rend else foreground st)
                (if color_eq_dec (background cur) (background st) then background rend else background st)
                (if intensity_eq_dec (intens cur) (intens st) then intens rend else intens st).
Lemma esc_codes_step cur st rend :
  fold_left (fun r n => sgr_style n r) (esc_codes cur st) rend = rend_step cur st rend.
Proof.
  unfold esc_codes, rend_step. destruct (style_eqb_spec cur st) as [->|Hn]; [reflexivity|].
  destruct (style_eqb_spec st style_default) as [->|Hd]; [reflexivity|].
  unfold change_codes, diff_from, diff_field. cbn [d_foreground d_background d_intensity].
  assert (HC : forall x y : color, color_eqb x y = if color_eq_dec x y then true else false).
  { intros x y. destruct (color_eq_dec x y) as [->|E]; [destruct y; reflexivity|]. destruct x, y; try reflexivity; congruence. }
  assert (HI : forall x y : intensity, intensity_eqb x y = if intensity_eq_dec x y then true else false).
  { intros x y. destruct (intensity_eq_dec x y) as [->|E]; [destruct y; reflexivity|]. destruct x, y; try reflexivity; congruence. }
  rewrite !HC, HI. clear.
  destruct (color_eq_dec (foreground cur) (foreground st)), (color_eq_dec (background cur) (background st)),
    (intensity_eq_dec (intens cur) (intens st)); cbn [option_map somes flat_map app fold_left];
    rewrite ?sgr_style_fg, ?sgr_style_bg, ?sgr_style_int; cbn [foreground background intens];
    destruct rend; reflexivity.
Qed.

(** The rendition at the end of a text, and the cells. *)
Definition rend_end (ambient : style) (t : stext) : style :=
  snd (fold_left (fun s (cs : char * style) => (snd cs, rend_step (fst s) (snd cs) (snd s))) t (style_default, ambient)).
Lemma fold_cur ambient t cur :
  fst (fold_left (fun s (cs : char * style) => (snd cs, rend_step (fst s) (snd cs) (snd s))) t (cur, ambient))
  = last_style cur t.
Proof. revert cur ambient. induction t as [|[c st] t IH]; intros cur ambient; [reflexivity|]. apply IH. Qed.
Lemma rend_end_snoc ambient t c st :
  rend_end ambient (t ++ [(c, st)]) = rend_step (last_style style_default t) st (rend_end ambient t).
Proof. unfold rend_end. rewrite fold_left_app. cbn [fold_left snd]. now rewrite fold_cur. Qed.

Lemma render_on ambient : forall t, no_controls (chars t) -> forall screen,
  exists cells, term_feed sgr_style (mk_term Ground ambient screen) (ansi_render style_default t)
    = mk_term Ground (rend_end ambient t) (screen ++ cells) /\ length cells = length t /\
    forall t1 c st t2, t = t1 ++ (c, st) :: t2 ->
      nth_error cells (length t1) = Some (c, rend_end ambient (t1 ++ [(c, st)])).
Proof.
  intros t. induction t as [|[c st] t IH] using rev_ind; intros Hc screen.
  - exists []. split; [cbn; now rewrite app_nil_r|]. split; [reflexivity|]. intros [|x t1] c st t2 E; discriminate E.
  - unfold chars in Hc. rewrite map_app in Hc. apply Forall_app in Hc as [Hc1 Hc2].
    destruct (IH Hc1 screen) as (cells & E & L & Hn).
    exists (cells ++ [(c, rend_end ambient (t ++ [(c, st)]))]). split; [|split].
    + rewrite ansi_render_app, feed_app, E. cbn [ansi_render]. rewrite feed_app, feed_esc, esc_codes_step, <- (rend_end_snoc _ _ c).
      rewrite feed_text by exact Hc2. cbn [map]. now rewrite <- app_assoc.
    + rewrite !app_length, L. reflexivity.
    + intros t1 c' st' t2 E'. destruct t2 as [|y t2 _] using rev_ind.
      * apply app_inj_tail in E' as [<- [= <- <-]]. rewrite nth_error_app2 by (rewrite L; reflexivity). now rewrite L, Nat.sub_diag.
      * assert (E2 : t1 ++ (c', st') :: t2 ++ [y] = (t1 ++ (c', st') :: t2) ++ [y]) by now rewrite <- app_assoc.
        rewrite E2 in E'. apply app_inj_tail in E' as [-> _].
        rewrite nth_error_app1; [now apply (Hn t1 c' st' t2)|].
        rewrite L, app_length. cbn [length]. apply Nat.lt_add_pos_r. lia.
Qed.

(** * Attributes never set *)
Lemma never_back_prefix t x : never_back (t ++ [x]) -> never_back t.
Proof.
  intros (b & a & E & Hb & Ha). destruct a as [|y a _] using rev_ind.
  - rewrite app_nil_r in E. subst b. apply Forall_app in Hb as [Hb _]. exists t, []. rewrite app_nil_r. auto.
  - rewrite app_assoc in E. apply app_inj_tail in E as [-> ->]. apply Forall_app in Ha as [Ha _]. now exists b, a.
Qed.
Lemma never_back_more t x : never_back t -> snd x <> style_default -> never_back (t ++ [x]).
Proof.
  intros (b & a & -> & Hb & Ha) Hx. exists b, (a ++ [x]). rewrite app_assoc. repeat split; auto.
  apply Forall_app. auto.
Qed.
Lemma last_style_snoc cur t c st : last_style cur (t ++ [(c, st)]) = st.
Proof. now rewrite last_style_app. Qed.
Lemma last_forall (P : style -> Prop) t : P style_default -> Forall (fun cs : char * style => P (snd cs)) t -> P (last_style style_default t).
Proof.
  intros H0 H. destruct t as [|[c st] t _] using rev_ind; [exact H0|]. rewrite last_style_snoc.
  apply Forall_app in H as [_ H]. now inversion H.
Qed.
Lemma never_back_back t c : last_style style_default t <> style_default -> ~ never_back (t ++ [(c, style_default)]).
Proof.
  intros Hl (b & a & E & Hb & Ha). destruct a as [|y a _] using rev_ind.
  - rewrite app_nil_r in E. subst b. apply Forall_app in Hb as [Hb _].
    exact (Hl (last_forall (fun s => s = style_default) t eq_refl Hb)).
  - rewrite app_assoc in E. apply app_inj_tail in E as [_ <-]. apply Forall_app in Ha as [_ Ha]. now inversion Ha.
Qed.
Lemma never_back_same t c : never_back t -> never_back (t ++ [(c, last_style style_default t)]).
Proof.
  intros Ht. destruct (style_eqb_spec (last_style style_default t) style_default) as [E|E]; [|now apply never_back_more].
  rewrite E. destruct Ht as (b & a & -> & Hb & Ha). destruct a as [|[x sx] a _] using rev_ind.
  - exists ((b ++ []) ++ [(c, style_default)]), []. rewrite !app_nil_r. repeat split; auto. apply Forall_app. auto.
  - rewrite app_assoc, last_style_snoc in E. subst sx. apply Forall_app in Ha as [_ Ha]. now inversion Ha.
Qed.

(** One attribute: the invariant. *)
Section Attribute.
Context {A : Type} (get : style -> A) (d : A) (eq_dec : forall x y : A, {x = y} + {x <> y}).
Hypothesis Hd : get style_default = d.
Hypothesis Hget : forall cur st rend, cur <> st -> st <> style_default ->
  get (rend_step cur st rend) = if eq_dec (get cur) (get st) then get rend else get st.

Lemma untouched_prefix t x : untouched get d (t ++ [x]) -> untouched get d t.
Proof. intros [H1 H2]. split; [now apply never_back_prefix in H1|]. now apply Forall_app in H2 as [H2 _]. Qed.
Lemma untouched_last t : untouched get d t -> get (last_style style_default t) = d.
Proof. intros [_ H]. now apply (last_forall (fun s => get s = d)). Qed.

Lemma attribute_end ambient t :
  attribute_shown get d ambient t (last_style style_default t) (rend_end ambient t).
Proof.
  induction t as [|[c st] t [IH1 IH2]] using rev_ind.
  - split; [reflexivity|]. intros H. exfalso. apply H. split; [|constructor]. exists [], []. auto.
  - rewrite last_style_snoc, rend_end_snoc. set (cur := last_style style_default t) in *.
    destruct (style_eqb_spec cur st) as [E|E].
    + unfold rend_step. rewrite E, style_eqb_refl. split; intros H.
      * apply IH1. now apply untouched_prefix in H.
      * rewrite <- E. apply IH2. intros Hu. apply H. split.
        -- rewrite <- E. apply never_back_same. apply Hu.
        -- apply Forall_app. split; [apply Hu|]. constructor; [|constructor]. cbn. rewrite <- E. now apply untouched_last.
    + destruct (style_eqb_spec st style_default) as [->|E2].
      * unfold rend_step. rewrite (style_eqb_neq _ _ E), style_eqb_refl. split; [|reflexivity].
        intros [H _]. now apply never_back_back in H.
      * unfold attribute_shown. rewrite (Hget _ _ _ E E2). destruct (eq_dec (get cur) (get st)) as [E3|E3]; split; intros H.
        -- apply IH1. now apply untouched_prefix in H.
        -- rewrite <- E3. apply IH2. intros Hu. apply H. split; [apply never_back_more; [apply Hu|exact E2]|].
           apply Forall_app. split; [apply Hu|]. constructor; [|constructor]. cbn. rewrite <- E3. now apply untouched_last.
        -- exfalso. apply E3. rewrite (untouched_last _ (untouched_prefix _ _ H) : get cur = d). destruct H as [_ H].
           apply Forall_app in H as [_ H]. inversion H; subst. now symmetry.
        -- reflexivity.
Qed.
End Attribute.

Lemma shown_end ambient t : shown_on ambient t (last_style style_default t) (rend_end ambient t).
Proof.
  repeat split; (eapply attribute_end; [reflexivity|]);
    intros cur st rend H1 H2; unfold rend_step; rewrite (style_eqb_neq _ _ H1), (style_eqb_neq _ _ H2); reflexivity.
Qed.

(** C76 as stated is false: on a terminal left in red, text in the default style is red. *)
Theorem C76_ambient_refuted :
  exists h ambient, no_controls (text_of h) /\
    tm_screen (term_feed sgr_style (mk_term Ground ambient []) (ansi_finished h)) <> denote h.
Proof.
  exists [(lit "a", style_default)], (mk_style Red ColorDefault Normal). split.
  - repeat constructor.
  - discriminate.
Qed.
Print Assumptions C76_ambient_refuted.

(** C76: what is shown on a terminal in any rendition: an attribute shows through exactly until it
    is first written or everything is reset; afterwards the terminal is in the default style if
    anything but default-styled text was written, and as before otherwise. *)
Theorem C76_ambient_partial (h : history) (ambient : style) (screen : stext) :
  no_controls (text_of h) ->
  exists cells,
    term_feed sgr_style (mk_term Ground ambient screen) (ansi_finished h)
    = mk_term Ground (if forallb (fun cs => style_eqb (snd cs) style_default) (denote h)
                      then ambient else style_default) (screen ++ cells) /\
    length cells = length (denote h) /\
    forall before c st after, denote h = before ++ (c, st) :: after ->
      exists r, nth_error cells (length before) = Some (c, r) /\
                shown_on ambient (before ++ [(c, st)]) st r.
Proof.
  intros Hc. rewrite ansi_finished_eq.
  assert (Hc' : no_controls (chars (denote h))) by now rewrite chars_denote.
  destruct (render_on ambient (denote h) Hc' screen) as (cells & E & L & Hn).
  exists cells. split; [|split; [exact L|]].
  - rewrite feed_app, E, feed_esc, esc_codes_step. f_equal.
    set (t := denote h). pose proof (shown_end ambient t) as (Hf & Hb & Hi).
    unfold rend_step. destruct (style_eqb_spec (last_style style_default t) style_default) as [El|El];
      destruct (forallb (fun cs : char * style => style_eqb (snd cs) style_default) t) eqn:Ea.
    + assert (HF : Forall (fun cs : char * style => snd cs = style_default) t).
      { apply Forall_forall. intros x Hx. rewrite forallb_forall in Ea. specialize (Ea x Hx).
        now destruct (style_eqb_spec (snd x) style_default). }
      assert (Hu : forall {A} (get : style -> A) d, get style_default = d -> untouched get d t).
      { intros A get d Hd. split; [exists t, []; rewrite app_nil_r; auto|].
        eapply Forall_impl; [|exact HF]. cbn. intros x ->. exact Hd. }
      pose proof (proj1 Hf (Hu _ _ _ eq_refl)) as H1. pose proof (proj1 Hb (Hu _ _ _ eq_refl)) as H2.
      pose proof (proj1 Hi (Hu _ _ _ eq_refl)) as H3.
      destruct (rend_end ambient t), ambient. cbn in H1, H2, H3. congruence.
    + assert (HN : ~ never_back t).
      { intros (b & a & E' & Hb' & Ha). destruct a as [|[x sx] a _] using rev_ind.
        - rewrite app_nil_r in E'. subst b. enough (forallb (fun cs : char * style => style_eqb (snd cs) style_default) t = true) by congruence.
          apply forallb_forall. intros x Hx. rewrite Forall_forall in Hb'. rewrite (Hb' x Hx). apply style_eqb_refl.
        - rewrite E', app_assoc, last_style_snoc in El. subst sx. apply Forall_app in Ha as [_ Ha]. now inversion Ha. }
      pose proof (proj2 Hf (fun H => HN (proj1 H))) as H1. pose proof (proj2 Hb (fun H => HN (proj1 H))) as H2.
      pose proof (proj2 Hi (fun H => HN (proj1 H))) as H3. rewrite El in H1, H2, H3.
      destruct (rend_end ambient t). cbn in H1, H2, H3. unfold style_default. congruence.
    + exfalso. apply El. apply (last_forall (fun s => s = style_default)); [reflexivity|].
      apply Forall_forall. intros x Hx. rewrite forallb_forall in Ea. specialize (Ea x Hx).
      now destruct (style_eqb_spec (snd x) style_default).
    + now rewrite style_eqb_refl.
  - intros before c st after Eh. exists (rend_end ambient (before ++ [(c, st)])).
    split; [now apply (Hn before c st after)|]. pose proof (shown_end ambient (before ++ [(c, st)])) as H.
    now rewrite last_style_snoc in H.
Qed.
Print Assumptions C76_ambient_partial.

Lemma list_ext {A} (l l' : list A) :
  length l = length l' -> (forall n x, nth_error l' n = Some x -> nth_error l n = Some x) -> l = l'.
Proof.
  revert l'. induction l as [|a l IH]; intros [|a' l'] L H; try discriminate L; [reflexivity|].
  pose proof (H 0 a' eq_refl) as [= ->]. f_equal. apply IH; [now injection L|]. intros n. exact (H (S n)).
Qed.

(** C76: exactly when the property holds: every attribute its first character leaves at the default
    is at the default on the terminal too. *)
Theorem C76_exact (h : history) (ambient : style) (screen : stext) :
  no_controls (text_of h) ->
  (tm_screen (term_feed sgr_style (mk_term Ground ambient screen) (ansi_finished h)) = screen ++ denote h
   <->
   forall c st t, denote h = (c, st) :: t ->
     (foreground st = ColorDefault -> foreground ambient = ColorDefault) /\
     (background st = ColorDefault -> background ambient = ColorDefault) /\
     (intens st = Normal -> intens ambient = Normal)).
Proof.
  intros Hc. destruct (C76_ambient_partial h ambient screen Hc) as (cells & -> & L & Hn).
  cbn [tm_screen]. split.
  - intros Hcells. apply app_inv_head in Hcells. subst cells. intros c st t E.
    destruct (Hn [] c st t E) as (r & Enth & [Hf _] & [Hb _] & [Hi _]).
    rewrite E in Enth. cbn in Enth. injection Enth as <-. cbn [app] in Hf, Hb, Hi.
    assert (Hnb : never_back [(c, st)]).
    { destruct (style_eqb_spec st style_default) as [Es|Es].
      - exists [(c, st)], []. split; [reflexivity|]. split; [|constructor]. now apply Forall_cons; [|constructor].
      - exists [], [(c, st)]. split; [reflexivity|]. split; [constructor|]. now apply Forall_cons; [|constructor]. }
    assert (U : forall {A} (get : style -> A) (d : A), get st = d -> untouched get d [(c, st)]).
    { intros A get d Hd. split; [exact Hnb|]. apply Forall_cons; [exact Hd|constructor]. }
    repeat split; intros Hd.
    + rewrite <- (Hf (U _ _ _ Hd)). exact Hd.
    + rewrite <- (Hb (U _ _ _ Hd)). exact Hd.
    + rewrite <- (Hi (U _ _ _ Hd)). exact Hd.
  - intros Hcond. f_equal. apply list_ext; [exact L|]. intros n [c st] E.
    apply nth_error_split in E as (before & after & E & <-).
    destruct (Hn before c st after E) as (r & Enth & Hf & Hb & Hi).
    assert (G : forall {A} (get : style -> A) (d : A) (eq_dec : forall x y : A, {x = y} + {x <> y}),
       (forall c st t, denote h = (c, st) :: t -> get st = d -> get ambient = d) ->
       attribute_shown get d ambient (before ++ [(c, st)]) st r -> get r = get st).
    { intros A get d eq_dec Hor [H1 H2]. destruct (eq_dec (get r) (get st)) as [|Hne]; [assumption|].
      apply H2. intros Hu. apply Hne. rewrite (H1 Hu). destruct Hu as [_ Hu].
      assert (Hst : get st = d).
      { apply Forall_app in Hu as [_ Hu]. inversion Hu; subst. reflexivity. }
      rewrite Hst. destruct before as [|[c0 st0] before].
      + exact (Hor c st after E Hst).
      + inversion Hu as [|? ? H0 Hu']; subst x l. exact (Hor c0 st0 (before ++ (c, st) :: after) E H0). }
    assert (Er : r = st).
    { pose proof (G _ foreground ColorDefault color_eq_dec (fun c st t E => proj1 (Hcond c st t E)) Hf) as H1.
      pose proof (G _ background ColorDefault color_eq_dec (fun c st t E => proj1 (proj2 (Hcond c st t E))) Hb) as H2.
      pose proof (G _ intens Normal intensity_eq_dec (fun c st t E => proj2 (proj2 (Hcond c st t E))) Hi) as H3.
      destruct r, st. cbn in H1, H2, H3. f_equal; assumption. }
    subst r. exact Enth.
Qed.
Print Assumptions C76_exact.

Example C76_nonvacuous :
  let ambient := mk_style Red Blue Bold in
  let h := [(lit "a", style_default); (lit "b", mk_style Green ColorDefault Normal); (lit "c", style_default)] in
  no_controls (text_of h) /\
  term_feed sgr_style (mk_term Ground ambient []) (ansi_finished h)
  = mk_term Ground style_default [(97%N, ambient); (98%N, mk_style Green Blue Bold); (99%N, style_default)].
Proof. split; [repeat constructor|vm_compute; reflexivity]. Qed.
