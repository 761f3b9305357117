(** Property C83: the lines of output on their own. *)
From Verif Require Import Base Style Fmt Ansi Html SpecText TextFacts StyleFacts SpecTerminal SpecSgr
  SpecHtml AnsiFacts HtmlFacts PropsAnsi PropsHtml PropsAmbient RetryFacts SpecLines.

(** * Splitting *)
Section Split.
Context {A : Type} (nl : A -> bool).
Lemma split_cons l : exists y ys, split_at nl l = y :: ys.
Proof.
  destruct l as [|x l]; cbn; [eauto|]. destruct (nl x); [eauto|]. destruct (split_at nl l); eauto.
Qed.
Lemma split_app_plain p l y ys :
  Forall (fun x => nl x = false) p -> split_at nl l = y :: ys -> split_at nl (p ++ l) = (p ++ y) :: ys.
Proof.
  intros H E. induction H as [|x p Hx H IH]; [exact E|]. cbn. now rewrite Hx, IH.
Qed.
Lemma split_plain p : Forall (fun x => nl x = false) p -> split_at nl p = [p].
Proof.
  intros H. rewrite <- (app_nil_r p) at 1. rewrite (split_app_plain p [] [] [] H eq_refl). now rewrite app_nil_r.
Qed.
End Split.

(** Lines with the styles before and after. *)
Fixpoint pieces (s : style) (t : stext) : list (style * stext * style) :=
  match t with
  | [] => [(s, [], style_default)]
  | (c, st) :: r =>
      if is_newline c then (s, [], st) :: pieces st r
      else match pieces st r with
           | (_, l, e) :: ps => (s, (c, st) :: l, e) :: ps
           | [] => []
           end
  end.
Definition p_in (x : style * stext * style) : style := fst (fst x).
Definition p_line (x : style * stext * style) : stext := snd (fst x).
Definition p_out (x : style * stext * style) : style := snd x.

Lemma pieces_cons s t : exists l e ps, pieces s t = (s, l, e) :: ps.
Proof.
  revert s. induction t as [|[c st] t IH]; intros s; cbn; [eauto|].
  destruct (is_newline c); [eauto|]. destruct (IH st) as (l & e & ps & ->). eauto.
Qed.

Lemma pieces_lines s t : map p_line (pieces s t) = styled_lines t.
Proof.
  revert s. induction t as [|[c st] t IH]; intros s; [reflexivity|].
  cbn [pieces styled_lines split_at]. unfold is_newline_cell at 1. cbn [fst].
  destruct (is_newline c).
  - cbn [map]. f_equal. apply IH.
  - specialize (IH st). destruct (pieces_cons st t) as (l & e & ps & E). rewrite E in *. cbn [map] in *.
    unfold styled_lines in IH. rewrite <- IH. reflexivity.
Qed.

Lemma pieces_in s t : map p_in (pieces s t) = s :: map snd (filter is_newline_cell t).
Proof.
  revert s. induction t as [|[c st] t IH]; intros s; [reflexivity|].
  cbn [pieces filter]. unfold is_newline_cell at 1. cbn [fst].
  destruct (is_newline c).
  - cbn [map snd]. f_equal. apply IH.
  - specialize (IH st). destruct (pieces_cons st t) as (l & e & ps & E). rewrite E in *. cbn [map] in *.
    unfold p_in in *. cbn [fst snd] in *. now injection IH as ->.
Qed.

Lemma pieces_out s t : map p_out (pieces s t) = map snd (filter is_newline_cell t) ++ [style_default].
Proof.
  revert s. induction t as [|[c st] t IH]; intros s; [reflexivity|].
  cbn [pieces filter]. unfold is_newline_cell at 1. cbn [fst].
  destruct (is_newline c).
  - cbn [map snd app]. f_equal. apply IH.
  - specialize (IH st). destruct (pieces_cons st t) as (l & e & ps & E). rewrite E in *. exact IH.
Qed.

Lemma pieces_plain s t : Forall (fun x => Forall (fun cs => is_newline_cell cs = false) (p_line x)) (pieces s t).
Proof.
  revert s. induction t as [|[c st] t IH]; intros s; cbn [pieces].
  - constructor; constructor.
  - destruct (is_newline c) eqn:Ec.
    + constructor; [constructor|apply IH].
    + specialize (IH st). destruct (pieces_cons st t) as (l & e & ps & E). rewrite E in *.
      inversion IH as [|? ? H1 H2]. subst. constructor; [|exact H2]. constructor; [exact Ec|exact H1].
Qed.

(** * No newline in escape sequences and tags *)
Lemma esc_plain cur st : Forall (fun c => is_newline c = false) (esc cur st).
Proof.
  destruct (style_eqb_spec cur st) as [->|Hn]; [rewrite esc_same; constructor|].
  destruct (esc_shape cur st Hn) as (mid & -> & Hm). constructor; [reflexivity|]. constructor; [reflexivity|].
  apply Forall_app. split; [|repeat constructor]. apply Forall_forall. intros c Hc.
  rewrite forallb_forall in Hm. specialize (Hm c Hc). unfold is_newline, newline.
  destruct (N.eqb_spec c 10) as [->|]; [discriminate Hm|reflexivity].
Qed.
Lemma hesc_plain cur st : Forall (fun c => is_newline c = false) (hesc cur st).
Proof.
  rewrite hesc_spec. destruct (style_eqb cur st); [constructor|]. apply Forall_app. split.
  - unfold close_tag. destruct (style_eqb cur style_default); [constructor|]. repeat constructor.
  - unfold open_text. destruct (style_eqb st style_default); [constructor|].
    apply Forall_forall. intros c Hc.
    assert (G : forallb (fun c => negb (is_newline c)) (start_tag st) = true)
      by (destruct st as [f g i]; destruct f, g, i; vm_compute; reflexivity).
    rewrite forallb_forall in G. specialize (G c Hc). now destruct (is_newline c).
Qed.
Lemma escaped_plain c : is_newline c = false -> Forall (fun c => is_newline c = false) (escaped_char c).
Proof.
  intros H. unfold escaped_char. repeat match goal with |- context [if ?b then _ else _] => destruct b end;
    repeat constructor. exact H.
Qed.
Lemma escaped_newline c : is_newline c = true -> escaped_char c = [c].
Proof. unfold is_newline, newline. intros H. apply N.eqb_eq in H. subst c. reflexivity. Qed.

(** * The lines of the output *)
Definition out_line (x : style * stext * style) : str :=
  ansi_render (p_in x) (p_line x) ++ esc (last_style (p_in x) (p_line x)) (p_out x).
Definition html_line (x : style * stext * style) : str :=
  html_render (p_in x) (p_line x) ++ hesc (last_style (p_in x) (p_line x)) (p_out x).

Lemma lines_app_plain p l y ys :
  Forall (fun c => is_newline c = false) p -> lines l = y :: ys -> lines (p ++ l) = (p ++ y) :: ys.
Proof. apply split_app_plain. Qed.
Lemma lines_newline c l : is_newline c = true -> lines (c :: l) = [] :: lines l.
Proof. intros H. unfold lines. cbn. now rewrite H. Qed.
Lemma lines_other c l y ys : is_newline c = false -> lines l = y :: ys -> lines (c :: l) = (c :: y) :: ys.
Proof. intros H E. unfold lines in *. cbn. now rewrite H, E. Qed.

Lemma render_lines s t :
  lines (ansi_render s t ++ esc (last_style s t) style_default) = map out_line (pieces s t).
Proof.
  revert s. induction t as [|[c st] t IH]; intros s.
  - exact (split_plain is_newline _ (esc_plain s style_default)).
  - cbn [ansi_render last_style pieces]. rewrite <- app_assoc. cbn [app].
    specialize (IH st). destruct (is_newline c) eqn:Ec.
    + cbn [map]. rewrite <- IH. unfold out_line, p_in, p_line, p_out. cbn [fst snd ansi_render last_style app].
      rewrite (lines_app_plain (esc s st) _ [] _ (esc_plain s st) (lines_newline c _ Ec)). now rewrite app_nil_r.
    + destruct (pieces_cons st t) as (l & e & ps & E). rewrite E in *. cbn [map] in *.
      rewrite (lines_app_plain (esc s st) _ _ _ (esc_plain s st) (lines_other c _ _ _ Ec IH)).
      f_equal. unfold out_line, p_in, p_line, p_out. cbn [fst snd ansi_render last_style]. now rewrite <- app_assoc.
Qed.

Lemma html_render_lines s t :
  lines (html_render s t ++ hesc (last_style s t) style_default) = map html_line (pieces s t).
Proof.
  revert s. induction t as [|[c st] t IH]; intros s.
  - exact (split_plain is_newline _ (hesc_plain s style_default)).
  - cbn [html_render last_style pieces]. rewrite <- !app_assoc.
    specialize (IH st). destruct (is_newline c) eqn:Ec.
    + cbn [map]. rewrite <- IH. unfold html_line, p_in, p_line, p_out. cbn [fst snd html_render last_style app].
      rewrite (escaped_newline c Ec). cbn [app].
      rewrite (lines_app_plain (hesc s st) _ [] _ (hesc_plain s st) (lines_newline c _ Ec)). now rewrite app_nil_r.
    + destruct (pieces_cons st t) as (l & e & ps & E). rewrite E in *. cbn [map] in *.
      rewrite (lines_app_plain (hesc s st) _ _ _ (hesc_plain s st) (lines_app_plain _ _ _ _ (escaped_plain c Ec) IH)).
      f_equal. unfold html_line, p_in, p_line, p_out. cbn [fst snd html_render last_style]. now rewrite <- !app_assoc.
Qed.

(** * A line on its own *)
Definition rend_alone (s : style) (t : stext) : style :=
  snd (fold_left (fun a (cs : char * style) => (snd cs, rend_step (fst a) (snd cs) (snd a))) t (s, style_default)).
Lemma rend_alone_snoc s t c st :
  rend_alone s (t ++ [(c, st)]) = rend_step (last_style s t) st (rend_alone s t).
Proof. unfold rend_alone. rewrite fold_left_app. cbn [fold_left snd]. now rewrite fold_cur. Qed.

Lemma render_alone s : forall t, no_controls (chars t) -> forall screen,
  exists cells, term_feed sgr_style (mk_term Ground style_default screen) (ansi_render s t)
    = mk_term Ground (rend_alone s t) (screen ++ cells) /\ map fst cells = chars t /\
    forall t1 c st t2, t = t1 ++ (c, st) :: t2 ->
      nth_error cells (length t1) = Some (c, rend_alone s (t1 ++ [(c, st)])).
Proof.
  intros t. induction t as [|[c st] t IH] using rev_ind; intros Hc screen.
  - exists []. split; [cbn; now rewrite app_nil_r|]. split; [reflexivity|]. intros [|x t1] c st t2 E; discriminate E.
  - unfold chars in Hc. rewrite map_app in Hc. apply Forall_app in Hc as [Hc1 Hc2].
    destruct (IH Hc1 screen) as (cells & E & L & Hn).
    assert (L' : length cells = length t) by (rewrite <- (map_length fst cells), L; apply map_length).
    exists (cells ++ [(c, rend_alone s (t ++ [(c, st)]))]). split; [|split].
    + rewrite ansi_render_app, feed_app, E. cbn [ansi_render]. rewrite feed_app, feed_esc, esc_codes_step, <- (rend_alone_snoc _ _ c).
      rewrite feed_text by exact Hc2. cbn [map]. now rewrite <- app_assoc.
    + unfold chars in *. rewrite !map_app. f_equal. exact L.
    + intros t1 c' st' t2 E'. destruct t2 as [|y t2 _] using rev_ind.
      * apply app_inj_tail in E' as [<- [= <- <-]]. rewrite nth_error_app2 by (rewrite L'; reflexivity). now rewrite L', Nat.sub_diag.
      * assert (E2 : t1 ++ (c', st') :: t2 ++ [y] = (t1 ++ (c', st') :: t2) ++ [y]) by now rewrite <- app_assoc.
        rewrite E2 in E'. apply app_inj_tail in E' as [-> _].
        rewrite nth_error_app1; [now apply (Hn t1 c' st' t2)|].
        rewrite L', app_length. cbn [length]. apply Nat.lt_add_pos_r. lia.
Qed.

Lemma last_snoc s t c st : last_style s (t ++ [(c, st)]) = st.
Proof. now rewrite last_style_app. Qed.

Section Attribute.
Context {A : Type} (get : style -> A) (eq_dec : forall x y : A, {x = y} + {x <> y}).
Hypothesis Hget : forall cur st rend, cur <> st -> st <> style_default ->
  get (rend_step cur st rend) = if eq_dec (get cur) (get st) then get rend else get st.

Lemma forall_last s t : Forall (fun cs : char * style => get (snd cs) = get s) t -> get (last_style s t) = get s.
Proof.
  intros H. destruct t as [|[c st] t _] using rev_ind; [reflexivity|]. rewrite last_snoc.
  apply Forall_app in H as [_ H]. now inversion H.
Qed.

Lemma alone_end s t : attribute_alone get s t (last_style s t) (rend_alone s t).
Proof.
  induction t as [|[c st] t [IH1 IH2]] using rev_ind.
  - split; [reflexivity|]. intros H. exfalso. apply H. constructor.
  - rewrite last_snoc, rend_alone_snoc. set (cur := last_style s t) in *.
    assert (K : get cur = get st -> attribute_alone get s (t ++ [(c, st)]) st (rend_alone s t)).
    { intros E. split; intros H.
      - apply IH1. now apply Forall_app in H as [H _].
      - rewrite <- E. apply IH2. intros HF. apply H. apply Forall_app. split; [exact HF|].
        constructor; [|constructor]. cbn [snd]. rewrite <- E. now apply forall_last. }
    destruct (style_eqb_spec cur st) as [E|E].
    + unfold rend_step. rewrite E, style_eqb_refl. apply K. now rewrite E.
    + destruct (style_eqb_spec st style_default) as [->|E2].
      * unfold rend_step. rewrite (style_eqb_neq _ _ E), style_eqb_refl. now split.
      * unfold attribute_alone. rewrite (Hget _ _ _ E E2). destruct (eq_dec (get cur) (get st)) as [E3|E3]; [now apply K|].
        split; [|reflexivity]. intros H. exfalso. apply E3. apply Forall_app in H as [H1 H2].
        rewrite (forall_last s t H1 : get cur = get s). inversion H2; subst. now symmetry.
Qed.
End Attribute.

Lemma shown_alone_end s t : shown_alone s t (last_style s t) (rend_alone s t).
Proof.
  split; [|split]; (eapply alone_end);
    intros cur st rend H1 H2; unfold rend_step; rewrite (style_eqb_neq _ _ H1), (style_eqb_neq _ _ H2); reflexivity.
Qed.

(** * The theorems *)
Lemma nth_pieces t k line :
  nth_error (styled_lines t) k = Some line ->
  exists e, nth_error (pieces style_default t) k = Some (style_before t k, line, e).
Proof.
  intros H. rewrite <- (pieces_lines style_default t) in H.
  rewrite nth_error_map in H. destruct (nth_error (pieces style_default t) k) as [[[s l] e]|] eqn:E; [|discriminate H].
  injection H as H. unfold p_line in H. cbn in H. subst l. exists e.
  assert (Hs : nth_error (map p_in (pieces style_default t)) k = Some s) by (rewrite nth_error_map, E; reflexivity).
  rewrite pieces_in in Hs. destruct k as [|k]; cbn [nth_error style_before] in *.
  - now injection Hs as <-.
  - rewrite nth_error_map in Hs. destruct (nth_error (filter is_newline_cell t) k) as [x|] eqn:Ex; [|discriminate Hs].
    injection Hs as <-. now rewrite (nth_error_nth _ _ _ Ex).
Qed.

Lemma finished_lines h : lines (ansi_finished h) = map out_line (pieces style_default (denote h)).
Proof. rewrite ansi_finished_eq. apply render_lines. Qed.
Lemma html_finished_lines h : lines (html_finished h) = map html_line (pieces style_default (denote h)).
Proof. rewrite html_finished_eq. apply html_render_lines. Qed.

(** C83: the output has as many lines as the text, and each, sent on its own to a fresh terminal,
    shows the characters of that line of the text: in their style, but for the attributes that
    have not changed since the newline before. *)
Theorem C83_lines (h : history) :
  length (lines (ansi_finished h)) = length (styled_lines (denote h)) /\
  forall k line, nth_error (styled_lines (denote h)) k = Some line -> no_controls (chars line) ->
  exists o cells r,
    nth_error (lines (ansi_finished h)) k = Some o /\
    term_feed sgr_style term_new o = mk_term Ground r cells /\
    map fst cells = chars line /\
    forall p c st q, line = p ++ (c, st) :: q ->
      exists look, nth_error cells (length p) = Some (c, look) /\
        shown_alone (style_before (denote h) k) (p ++ [(c, st)]) st look.
Proof.
  rewrite finished_lines. split.
  - rewrite map_length, <- (pieces_lines style_default), map_length. reflexivity.
  - intros k line Hk Hc. destruct (nth_pieces _ _ _ Hk) as (e & E). set (s := style_before (denote h) k) in *.
    destruct (render_alone s line Hc []) as (cells & Ef & Em & Hn). 
    eexists _, cells, _. split; [rewrite nth_error_map, E; reflexivity|]. split.
    + unfold out_line, p_in, p_line, p_out. cbn [fst snd]. rewrite feed_app. unfold term_new.
      change (mk_style ColorDefault ColorDefault Normal) with style_default.
      rewrite Ef. cbn [app]. rewrite feed_esc. reflexivity.
    + split; [exact Em|]. intros p c st q El. exists (rend_alone s (p ++ [(c, st)])). split; [now apply (Hn p c st q)|].
      pose proof (shown_alone_end s (p ++ [(c, st)])) as H. now rewrite last_snoc in H.
Qed.
Print Assumptions C83_lines.

(** C83: a line shows right on its own exactly if its first character has no attribute in common
    with the newline before, but default ones. *)
Theorem C83_right_iff (h : history) (k : nat) (line : stext) (o : str) :
  nth_error (styled_lines (denote h)) k = Some line -> no_controls (chars line) ->
  nth_error (lines (ansi_finished h)) k = Some o ->
  (tm_screen (term_feed sgr_style term_new o) = line <->
   forall c st q, line = (c, st) :: q -> ~ share_attribute (style_before (denote h) k) st).
Proof.
  intros Hk Hc Ho. destruct (C83_lines h) as [_ H]. destruct (H k line Hk Hc) as (o' & cells & r & Ho' & Ef & Em & Hn).
  assert (o' = o) by (rewrite Ho' in Ho; now injection Ho). subst o'. rewrite Ef. cbn [tm_screen]. clear H Ho Ho' Ef.
  set (s := style_before (denote h) k) in *. split.
  - intros -> c st q -> HS. destruct (Hn [] c st q eq_refl) as (look & El & H1 & H2 & H3).
    cbn in El. injection El as <-. cbn [app] in *.
    assert (G : forall {A} (get : style -> A), attribute_alone get s [(c, st)] st st -> get s = get st -> get s = get style_default).
    { intros A get [Ha _] E. rewrite E. apply Ha. constructor; [|constructor]. now symmetry. }
    destruct HS as [[E N]|[[E N]|[E N]]]; apply N; eapply G; eauto.
  - intros HS. apply list_ext; [rewrite <- (map_length fst cells), Em; apply map_length|].
    intros n [c st] E. apply nth_error_split in E as (p & q & El & <-).
    destruct (Hn p c st q El) as (look & Enth & H1 & H2 & H3).
    assert (G : forall {A} (get : style -> A) (eq_dec : forall x y : A, {x = y} + {x <> y}),
      (forall c st q, line = (c, st) :: q -> get s = get st -> get s = get style_default) ->
      attribute_alone get s (p ++ [(c, st)]) st look -> get look = get st).
    { intros A get eq_dec Hs [Ha Hb]. destruct (eq_dec (get look) (get st)) as [|N]; [assumption|]. apply Hb.
      intros HF. apply N. rewrite (Ha HF). apply Forall_app in HF as [HF1 HF2].
      inversion HF2 as [|? ? HF3 _]; subst. cbn in HF3. rewrite HF3. symmetry.
      destruct p as [|[c0 st0] p]; [now apply (Hs c st q)|]. inversion HF1 as [|? ? HF4 _]; subst.
      now apply (Hs c0 st0 (p ++ (c, st) :: q)). }
    assert (N : foreground look = foreground st /\ background look = background st /\ intens look = intens st).
    { split; [|split].
      - apply (G _ foreground color_eq_dec); [|exact H1]. intros c0 st0 q0 E0 E1.
        destruct (color_eq_dec (foreground s) ColorDefault) as [|N]; [assumption|]. exfalso. apply (HS c0 st0 q0 E0). left. auto.
      - apply (G _ background color_eq_dec); [|exact H2]. intros c0 st0 q0 E0 E1.
        destruct (color_eq_dec (background s) ColorDefault) as [|N]; [assumption|]. exfalso. apply (HS c0 st0 q0 E0). right; left. auto.
      - apply (G _ intens intensity_eq_dec); [|exact H3]. intros c0 st0 q0 E0 E1.
        destruct (intensity_eq_dec (intens s) Normal) as [|N]; [assumption|]. exfalso. apply (HS c0 st0 q0 E0). right; right. auto. }
    destruct N as (N1 & N2 & N3). destruct look, st. cbn in N1, N2, N3. now subst.
Qed.
Print Assumptions C83_right_iff.

(** * Newlines in the default style *)
Lemma plain_pieces t : plain_newlines t ->
  Forall (fun x => p_in x = style_default /\ p_out x = style_default) (pieces style_default t).
Proof.
  intros H.
  assert (HF : Forall (fun s => s = style_default) (map snd (filter is_newline_cell t))).
  { apply Forall_forall. intros s Hs. apply in_map_iff in Hs as ([c st] & <- & Hin). apply filter_In in Hin as [Hin Hc].
    apply (H c st Hin). unfold is_newline_cell, is_newline in Hc. now apply N.eqb_eq in Hc. }
  assert (H1 : Forall (fun s => s = style_default) (map p_in (pieces style_default t)))
    by (rewrite pieces_in; constructor; auto).
  assert (H2 : Forall (fun s => s = style_default) (map p_out (pieces style_default t)))
    by (rewrite pieces_out; apply Forall_app; auto).
  rewrite Forall_map in H1, H2. apply Forall_forall. intros x Hx. rewrite Forall_forall in H1, H2. auto.
Qed.

Lemma pieces_chars s t x : In x (pieces s t) -> forall c, In c (chars (p_line x)) -> In c (chars t).
Proof.
  revert s x. induction t as [|[c st] t IH]; intros s x Hx c0 Hc; cbn [pieces] in Hx.
  - destruct Hx as [<-|[]]. destruct Hc.
  - cbn [chars map fst]. destruct (is_newline c).
    + destruct Hx as [<-|Hx]; [destruct Hc|]. right. now apply (IH st x Hx).
    + destruct (pieces_cons st t) as (l & e & ps & E). specialize (IH st). rewrite E in *. destruct Hx as [<-|Hx].
      * destruct Hc as [Hc|Hc]; [now left|]. right. apply (IH (st, l, e) (or_introl eq_refl)). exact Hc.
      * right. apply (IH x (or_intror Hx)). exact Hc.
Qed.

Lemma nth_pick {X A B} (f : X -> list A) (g : X -> list B) (P : list A -> list B -> Prop) (xs : list X) k :
  P [] [] -> (forall x, In x xs -> P (f x) (g x)) -> P (nth k (map f xs) []) (nth k (map g xs) []).
Proof.
  intros H0 H. destruct (nth_error xs k) as [x|] eqn:E.
  - rewrite (nth_error_nth (map f xs) k [] (x := f x)) by (rewrite nth_error_map, E; reflexivity).
    rewrite (nth_error_nth (map g xs) k [] (x := g x)) by (rewrite nth_error_map, E; reflexivity).
    apply H. now apply nth_error_In in E.
  - apply nth_error_None in E. rewrite !nth_overflow by (rewrite map_length; exact E). exact H0.
Qed.

(** C83: if all newlines are in the default style, then any selection of lines of the output, in
    any order, shows those lines of the text, and leaves the terminal in the default style. *)
Theorem C83_select (h : history) (ks : list nat) :
  no_controls (text_of h) -> plain_newlines (denote h) ->
  term_feed sgr_style term_new (pick newline (lines (ansi_finished h)) ks)
  = mk_term Ground style_default (pick (newline, style_default) (styled_lines (denote h)) ks).
Proof.
  intros Hc Hp. rewrite finished_lines, <- (pieces_lines style_default). unfold term_new.
  change (mk_style ColorDefault ColorDefault Normal) with style_default.
  assert (G : forall screen, term_feed sgr_style (mk_term Ground style_default screen)
      (pick newline (map out_line (pieces style_default (denote h))) ks)
    = mk_term Ground style_default (screen ++ pick (newline, style_default) (map p_line (pieces style_default (denote h))) ks));
    [|apply (G [])].
  induction ks as [|k ks IH]; intros screen; [cbn; now rewrite app_nil_r|].
  unfold pick in *. cbn [flat_map]. rewrite <- !app_assoc. rewrite feed_app.
  assert (E : term_feed sgr_style (mk_term Ground style_default screen) (nth k (map out_line (pieces style_default (denote h))) [])
    = mk_term Ground style_default (screen ++ nth k (map p_line (pieces style_default (denote h))) [])).
  { revert screen. clear IH. pattern (nth k (map out_line (pieces style_default (denote h))) []), (nth k (map p_line (pieces style_default (denote h))) []).
    apply nth_pick.
    - intros screen. cbn. now rewrite app_nil_r.
    - intros x Hx screen. unfold out_line.
      pose proof (proj1 (Forall_forall _ _) (plain_pieces _ Hp) x Hx) as [-> ->].
      rewrite feed_app, render_shows.
      + apply esc_default_ends.
      + apply Forall_forall. intros c Hin. apply (pieces_chars _ _ _ Hx) in Hin.
        rewrite chars_denote in Hin. unfold no_controls in Hc. rewrite Forall_forall in Hc. auto. }
  etransitivity; [exact (f_equal (fun x => term_feed sgr_style x _) E)|]. rewrite feed_app, feed_text by (repeat constructor). rewrite IH. cbn [map]. now rewrite <- !app_assoc.
Qed.
Print Assumptions C83_select.

(** C83: the same for HTML. *)
Theorem C83_html_select (h : history) (ks : list nat) :
  plain_newlines (denote h) ->
  page_feed page_new (pick newline (lines (html_finished h)) ks)
  = mk_page Data [] (map (fun cs => (fst cs, css_look (snd cs)))
                       (pick (newline, style_default) (styled_lines (denote h)) ks)).
Proof.
  intros Hp. rewrite html_finished_lines, <- (pieces_lines style_default).
  set (looks := map (fun cs : char * style => (fst cs, css_look (snd cs)))).
  assert (G : forall cells, page_feed (mk_page Data [] cells)
      (pick newline (map html_line (pieces style_default (denote h))) ks)
    = mk_page Data [] (cells ++ looks (pick (newline, style_default) (map p_line (pieces style_default (denote h))) ks)));
    [|apply (G [])].
  induction ks as [|k ks IH]; intros cells; [cbn; now rewrite app_nil_r|].
  unfold pick in *. cbn [flat_map]. rewrite <- !app_assoc. rewrite pfeed_app.
  assert (E : page_feed (mk_page Data [] cells) (nth k (map html_line (pieces style_default (denote h))) [])
    = mk_page Data [] (cells ++ looks (nth k (map p_line (pieces style_default (denote h))) []))).
  { revert cells. clear IH. pattern (nth k (map html_line (pieces style_default (denote h))) []), (nth k (map p_line (pieces style_default (denote h))) []).
    apply nth_pick.
    - intros cells. cbn. now rewrite app_nil_r.
    - intros x Hx cells. unfold html_line.
      pose proof (proj1 (Forall_forall _ _) (plain_pieces _ Hp) x Hx) as [-> ->].
      change (mk_page Data [] cells) with (mk_page Data (open_elements style_default) cells).
      rewrite pfeed_app, html_render_view, feed_hesc. reflexivity. }
  etransitivity; [exact (f_equal (fun x => page_feed x _) E)|]. rewrite pfeed_app.
  change (page_feed (mk_page Data [] ?c) [newline]) with (mk_page Data [] (c ++ [(newline, css_page)])).
  rewrite IH. unfold looks. rewrite !map_app. cbn [map fst snd]. now rewrite <- !app_assoc.
Qed.
Print Assumptions C83_html_select.

Example C83_nonvacuous :
  let red := mk_style Red ColorDefault Normal in
  let h := [(lit "a", red); ([newline], style_default); (lit "bc", red); ([newline], red); (lit "d", red)] in
  nth_error (styled_lines (denote h)) 1 = Some (paint red (lit "bc")) /\
  nth_error (styled_lines (denote h)) 2 = Some (paint red (lit "d")) /\
  style_before (denote h) 1 = style_default /\ style_before (denote h) 2 = red /\
  option_map (fun o => tm_screen (term_feed sgr_style term_new o)) (nth_error (lines (ansi_finished h)) 1)
  = Some (paint red (lit "bc")) /\
  option_map (fun o => tm_screen (term_feed sgr_style term_new o)) (nth_error (lines (ansi_finished h)) 2)
  = Some (paint style_default (lit "d")).
Proof. vm_compute. repeat split. Qed.

Example C83_select_nonvacuous :
  let red := mk_style Red ColorDefault Normal in
  let h := [(lit "a", red); ([newline], style_default); (lit "b", style_default); (lit "c", red)] in
  no_controls (text_of h) /\ plain_newlines (denote h) /\
  pick (newline, style_default) (styled_lines (denote h)) [1; 0]
  = [(98%N, style_default); (99%N, red); (newline, style_default); (97%N, red); (newline, style_default)].
Proof.
  cbv zeta. split; [repeat constructor|]. split; [|vm_compute; reflexivity].
  intros c st H ->. cbn in H. destruct H as [H|[H|[H|[H|[]]]]]; try discriminate H. now injection H as <-.
Qed.
