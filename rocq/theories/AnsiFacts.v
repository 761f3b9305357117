(** Proofs about ansi/src/ansi.rs. *)
From Verif Require Import Base Style Fmt Ansi SpecText TextFacts StyleFacts SpecTerminal SpecSgr.

(** * The output as a function of the styled text *)
Definition esc (cur st : style) : str := concat (ansi_change cur st).

Fixpoint ansi_render (cur : style) (t : stext) : str :=
  match t with
  | [] => []
  | (c, st) :: r => esc cur st ++ c :: ansi_render st r
  end.

Lemma ansi_change_same st : ansi_change st st = [].
Proof.
  unfold ansi_change. rewrite style_eqb_refl; cbn [negb andb].
  assert (diff_from st st = diff_default) as -> by now apply diff_empty_iff.
  reflexivity.
Qed.

Lemma esc_same st : esc st st = [].
Proof. unfold esc; now rewrite ansi_change_same. Qed.

Lemma write_parts_string parts s : write_parts string_sink parts s = (s ++ concat parts, Returned Ok).
Proof.
  revert s; induction parts as [|p ps IH]; intros s; cbn; [now rewrite app_nil_r|].
  rewrite IH. now rewrite <- app_assoc.
Qed.

Lemma ansi_render_app cur a b :
  ansi_render cur (a ++ b) = ansi_render cur a ++ ansi_render (last_style cur a) b.
Proof.
  revert cur; induction a as [|[c st] a IH]; intros cur; cbn; [reflexivity|].
  rewrite IH. rewrite <- app_assoc. reflexivity.
Qed.

Lemma ansi_render_paint_same st s : ansi_render st (paint st s) = s.
Proof.
  induction s as [|c s IH]; [reflexivity|]. rewrite paint_cons; cbn [ansi_render].
  rewrite esc_same, IH. reflexivity.
Qed.

Lemma ansi_render_paint cur st s : s <> [] -> ansi_render cur (paint st s) = esc cur st ++ s.
Proof.
  destruct s as [|c s]; [congruence|]; intros _. rewrite paint_cons; cbn [ansi_render].
  now rewrite ansi_render_paint_same.
Qed.

Lemma ansi_write_string w s st :
  ansi_write_str string_sink w s st =
  (mk_ansi (an_inner w ++ ansi_render (an_current w) (paint st s))
     (last_style (an_current w) (paint st s)), Returned Ok).
Proof.
  destruct w as [i cur]; unfold ansi_write_str; cbn [an_inner an_current].
  destruct s as [|c s]; cbn [is_empty].
  - cbn. now rewrite app_nil_r.
  - rewrite write_parts_string. cbn [string_sink].
    rewrite last_style_paint, ansi_render_paint by congruence.
    unfold esc, string_sink. rewrite <- app_assoc. reflexivity.
Qed.

Lemma ansi_play h w :
  play (ansi_write_str string_sink) h w =
  (mk_ansi (an_inner w ++ ansi_render (an_current w) (denote h))
     (last_style (an_current w) (denote h)), Returned Ok).
Proof.
  revert w; induction h as [|[s st] h IH]; intros w; cbn [play denote].
  - cbn. rewrite app_nil_r. destruct w; reflexivity.
  - rewrite ansi_write_string, IH. cbn [an_inner an_current].
    rewrite ansi_render_app, last_style_app, <- app_assoc. reflexivity.
Qed.

Lemma ansi_infallible : infallible (ansi_write_str string_sink).
Proof. intros w s st. now rewrite ansi_write_string. Qed.

Lemma ansi_finish_string w :
  ansi_finish string_sink w = (an_inner w ++ esc (an_current w) style_default, Returned Ok).
Proof.
  destruct w as [i cur]. unfold ansi_finish; cbn [an_inner an_current].
  unfold esc, ansi_change.
  destruct (style_eqb_spec cur style_default) as [->|H]; cbn [negb andb].
  - cbn. now rewrite app_nil_r.
  - rewrite style_eqb_refl, write_parts_string. reflexivity.
Qed.

(** * The escape as SGR parameters *)

(** Joining parameter texts. *)
Fixpoint sgr_join (segs : list str) : str :=
  match segs with
  | [] => []
  | [s] => s
  | s :: r => s ++ lit ";" ++ sgr_join r
  end.
Definition sgr_seq (segs : list str) : str := ESC :: lit "[" ++ sgr_join segs ++ lit "m".

Lemma concat_segments seg rest :
  concat (seg :: flat_map (fun s => [lit ";"; s]) rest) = sgr_join (seg :: rest).
Proof.
  revert seg; induction rest as [|r rest IH]; intros seg; cbn; [apply app_nil_r|].
  specialize (IH r). cbn in IH. rewrite IH. reflexivity.
Qed.

Definition change_segs (cur st : style) : list str :=
  somes [ option_map ansi_foreground (d_foreground (diff_from st cur));
          option_map ansi_background (d_background (diff_from st cur));
          option_map ansi_intensity (d_intensity (diff_from st cur)) ].

Lemma change_segs_nil cur st : change_segs cur st = [] -> cur = st.
Proof.
  intros H; apply diff_empty_iff. unfold change_segs in H.
  destruct (diff_from st cur) as [[f|] [b|] [i|]]; cbn in H; try discriminate. reflexivity.
Qed.

Lemma esc_cases cur st :
  (cur = st /\ esc cur st = []) \/
  (cur <> st /\ st = style_default /\ esc cur st = sgr_seq [lit "0"]) \/
  (cur <> st /\ st <> style_default /\ change_segs cur st <> [] /\
   esc cur st = sgr_seq (change_segs cur st)).
Proof.
  destruct (style_eqb_spec cur st) as [->|H].
  - left; split; auto using esc_same.
  - right. unfold esc, ansi_change. rewrite (style_eqb_neq _ _ H); cbn [negb andb].
    destruct (style_eqb_spec st style_default) as [->|Hd].
    + left; repeat split; auto.
    + right. split; [auto|split; [auto|]].
      change (somes _) with (change_segs cur st).
      destruct (change_segs cur st) as [|seg rest] eqn:E.
      * now apply change_segs_nil in E.
      * split; [congruence|].
        rewrite app_comm_cons. cbn [concat]. rewrite concat_app.
        rewrite concat_segments. cbn [concat]. rewrite app_nil_r. reflexivity.
Qed.

(** * Feeding escapes to a terminal *)
Section Feed.
Context {R : Type} (sgr : N -> R -> R).

Lemma feed_app t a b : term_feed sgr t (a ++ b) = term_feed sgr (term_feed sgr t a) b.
Proof. apply fold_left_app. Qed.

(** A text that reads as the parameter [n]. *)
Definition reads_as (seg : str) (n : N) : Prop :=
  forall done rend screen,
    term_feed sgr (mk_term (Csi done 0) rend screen) seg = mk_term (Csi done n) rend screen.

Lemma feed_join segs codes done rend screen :
  Forall2 reads_as segs codes -> segs <> [] ->
  term_feed sgr (mk_term (Csi done 0) rend screen) (sgr_join segs ++ lit "m") =
  mk_term Ground (fold_left (fun r n => sgr n r) (done ++ codes) rend) screen.
Proof.
  intros H; revert done; induction H as [|s n segs codes Hs H IH]; intros done Hne;
    [congruence|].
  destruct H as [|s' n' segs codes Hs' H].
  - cbn [sgr_join]. rewrite feed_app, Hs. reflexivity.
  - change (sgr_join (s :: s' :: segs)) with (s ++ lit ";" ++ sgr_join (s' :: segs)).
    rewrite <- app_assoc, feed_app, Hs, <- app_assoc, feed_app.
    change (term_feed sgr (mk_term (Csi done n) rend screen) (lit ";"))
      with (mk_term (Csi (done ++ [n]) 0) rend screen).
    rewrite IH by congruence. rewrite <- app_assoc. reflexivity.
Qed.

(** Any state in which ESC starts a new sequence. *)
Lemma feed_sgr_seq state segs codes rend screen :
  Forall2 reads_as segs codes -> segs <> [] ->
  term_feed sgr (mk_term state rend screen) (sgr_seq segs) =
  mk_term Ground (fold_left (fun r n => sgr n r) codes rend) screen.
Proof.
  intros H Hne. unfold sgr_seq.
  change (ESC :: lit "[" ++ sgr_join segs ++ lit "m")
    with ((ESC :: lit "[") ++ (sgr_join segs ++ lit "m")).
  rewrite feed_app.
  assert (term_feed sgr (mk_term state rend screen) (ESC :: lit "[")
          = mk_term (Csi [] 0) rend screen) as -> by (destruct state; reflexivity).
  now rewrite feed_join with (codes := codes).
Qed.

Lemma feed_text rend screen s :
  no_controls s ->
  term_feed sgr (mk_term Ground rend screen) s =
  mk_term Ground rend (screen ++ map (fun c => (c, rend)) s).
Proof.
  intros H; revert screen; induction H as [|c s Hc H IH]; intros screen.
  - cbn. now rewrite app_nil_r.
  - unfold starts_control in Hc. apply orb_false_iff in Hc as [Hc H3].
    apply orb_false_iff in Hc as [H1 H2].
    change (term_feed sgr (mk_term Ground rend screen) (c :: s))
      with (term_feed sgr (term_step sgr (mk_term Ground rend screen) c) s).
    unfold term_step; cbn [tm_state]. rewrite H1, H2, H3. cbn [tm_rend tm_screen].
    rewrite IH, <- app_assoc. reflexivity.
Qed.

(** The parameter numbers. *)
Definition fg_code (c : color) : N :=
  match c with
  | Black => 30 | Red => 31 | Green => 32 | Yellow => 33 | Blue => 34 | Magenta => 35
  | Cyan => 36 | White => 37 | ColorDefault => 39
  | BrightBlack => 90 | BrightRed => 91 | BrightGreen => 92 | BrightYellow => 93
  | BrightBlue => 94 | BrightMagenta => 95 | BrightCyan => 96 | BrightWhite => 97
  end%N.
Definition bg_code (c : color) : N := (fg_code c + 10)%N.
Definition int_code (i : intensity) : N :=
  match i with Bold => 1 | Faint => 2 | Normal => 22 end%N.

Lemma reads_fg c : reads_as (ansi_foreground c) (fg_code c).
Proof. intros done rend screen; destruct c; reflexivity. Qed.
Lemma reads_bg c : reads_as (ansi_background c) (bg_code c).
Proof. intros done rend screen; destruct c; reflexivity. Qed.
Lemma reads_int i : reads_as (ansi_intensity i) (int_code i).
Proof. intros done rend screen; destruct i; reflexivity. Qed.
Lemma reads_zero : reads_as (lit "0") 0%N.
Proof. intros done rend screen; reflexivity. Qed.

Definition change_codes (cur st : style) : list N :=
  somes [ option_map fg_code (d_foreground (diff_from st cur));
          option_map bg_code (d_background (diff_from st cur));
          option_map int_code (d_intensity (diff_from st cur)) ].

Lemma reads_change cur st : Forall2 reads_as (change_segs cur st) (change_codes cur st).
Proof.
  unfold change_segs, change_codes.
  destruct (diff_from st cur) as [[f|] [b|] [i|]]; cbn;
    repeat constructor; auto using reads_fg, reads_bg, reads_int.
Qed.

(** The SGR parameters of a change: a lone 0 or the changed attributes. *)
Definition esc_codes (cur st : style) : list N :=
  if style_eqb cur st then []
  else if style_eqb st style_default then [0%N]
  else change_codes cur st.

Lemma feed_esc cur st rend screen :
  term_feed sgr (mk_term Ground rend screen) (esc cur st) =
  mk_term Ground (fold_left (fun r n => sgr n r) (esc_codes cur st) rend) screen.
Proof.
  unfold esc_codes.
  destruct (esc_cases cur st) as [[-> ->]|[(Hn & -> & ->)|(Hn & Hd & Hne & ->)]].
  - rewrite style_eqb_refl. reflexivity.
  - rewrite (style_eqb_neq _ _ Hn), style_eqb_refl.
    apply feed_sgr_seq; [|congruence]. constructor; auto using reads_zero.
  - rewrite (style_eqb_neq _ _ Hn), (style_eqb_neq _ _ Hd).
    apply feed_sgr_seq; auto using reads_change.
Qed.

(** From any parse state, a non-empty change still works: ESC cancels what is pending. *)
Lemma feed_esc_any state cur st rend screen :
  cur <> st ->
  term_feed sgr (mk_term state rend screen) (esc cur st) =
  mk_term Ground (fold_left (fun r n => sgr n r) (esc_codes cur st) rend) screen.
Proof.
  intros Hne0. unfold esc_codes.
  destruct (esc_cases cur st) as [[-> _]|[(Hn & -> & ->)|(Hn & Hd & Hne & ->)]].
  - congruence.
  - rewrite (style_eqb_neq _ _ Hn), style_eqb_refl.
    apply feed_sgr_seq; [|congruence]. constructor; auto using reads_zero.
  - rewrite (style_eqb_neq _ _ Hn), (style_eqb_neq _ _ Hd).
    apply feed_sgr_seq; auto using reads_change.
Qed.
End Feed.

(** * Terminal 1 *)
Lemma sgr_style_fg c r : sgr_style (fg_code c) r = mk_style c (background r) (intens r).
Proof. destruct c; reflexivity. Qed.
Lemma sgr_style_bg c r : sgr_style (bg_code c) r = mk_style (foreground r) c (intens r).
Proof. destruct c; reflexivity. Qed.
Lemma sgr_style_int i r : sgr_style (int_code i) r = mk_style (foreground r) (background r) i.
Proof. destruct i; reflexivity. Qed.

Lemma change_codes_style cur st :
  fold_left (fun r n => sgr_style n r) (change_codes cur st) cur = st.
Proof.
  rewrite <- (diff_round_trip cur st) at 2. unfold change_codes.
  destruct (diff_from st cur) as [[f|] [b|] [i|]];
    cbn [d_foreground d_background d_intensity option_map somes flat_map app fold_left];
    rewrite ?sgr_style_fg, ?sgr_style_bg, ?sgr_style_int; destruct cur; reflexivity.
Qed.

Lemma esc_codes_style cur st :
  fold_left (fun r n => sgr_style n r) (esc_codes cur st) cur = st.
Proof.
  unfold esc_codes. destruct (style_eqb_spec cur st) as [->|_]; [reflexivity|].
  destruct (style_eqb_spec st style_default) as [->|_]; [reflexivity|].
  apply change_codes_style.
Qed.

Lemma render_shows cur t screen :
  no_controls (chars t) ->
  term_feed sgr_style (mk_term Ground cur screen) (ansi_render cur t) =
  mk_term Ground (last_style cur t) (screen ++ t).
Proof.
  revert cur screen; induction t as [|[c st] t IH]; intros cur screen H; cbn [ansi_render last_style map].
  - cbn; now rewrite app_nil_r.
  - inversion H; subst. rewrite feed_app, feed_esc, esc_codes_style.
    change (c :: ansi_render st t) with ([c] ++ ansi_render st t).
    rewrite feed_app, feed_text by (constructor; auto; constructor).
    rewrite IH by auto. rewrite <- app_assoc. reflexivity.
Qed.

Lemma esc_default_ends cur screen :
  term_feed sgr_style (mk_term Ground cur screen) (esc cur style_default) =
  mk_term Ground style_default screen.
Proof. now rewrite feed_esc, esc_codes_style. Qed.

(** * Terminal 2 *)
Lemma sgr_xterm_fg c r :
  sgr_xterm (fg_code c) r = mk_xrend c (x_bg r) (x_bold r) (x_faint r).
Proof. destruct c; reflexivity. Qed.
Lemma sgr_xterm_bg c r :
  sgr_xterm (bg_code c) r = mk_xrend (x_fg r) c (x_bold r) (x_faint r).
Proof. destruct c; reflexivity. Qed.

Definition bits_ok (b f : bool) (i : intensity) : Prop :=
  match i with Normal => b = false /\ f = false | Bold => b = true | Faint => f = true end.
Definition next_bold (b : bool) (i : intensity) : bool :=
  match i with Normal => false | Bold => true | Faint => b end.
Definition next_faint (f : bool) (i : intensity) : bool :=
  match i with Normal => false | Bold => f | Faint => true end.

Lemma esc_codes_xterm cur st b f :
  bits_ok b f (intens cur) ->
  fold_left (fun r n => sgr_xterm n r) (esc_codes cur st) (mk_xrend (foreground cur) (background cur) b f)
  = mk_xrend (foreground st) (background st) (next_bold b (intens st)) (next_faint f (intens st)).
Proof.
  intros Hb. unfold esc_codes. destruct (style_eqb_spec cur st) as [->|_].
  { destruct st as [sf sb i]; destruct i; cbn in *; try (subst; reflexivity).
    destruct Hb as [-> ->]; reflexivity. }
  destruct (style_eqb_spec st style_default) as [->|_]; [reflexivity|].
  unfold change_codes.
  pose proof (diff_mentions cur st) as (H1 & H2 & H3 & H4 & H5 & H6).
  destruct cur as [cf cb ci], st as [sf sb si]. cbn [foreground background intens] in *.
  destruct (color_eq_dec cf sf) as [E1|E1]; [rewrite (H1 E1)|rewrite (H2 E1)];
  (destruct (color_eq_dec cb sb) as [E2|E2]; [rewrite (H3 E2)|rewrite (H4 E2)]);
  (destruct (intensity_eq_dec ci si) as [E3|E3]; [rewrite (H5 E3)|rewrite (H6 E3)]);
    clear H1 H2 H3 H4 H5 H6;
    cbn [option_map somes flat_map app fold_left]; rewrite ?sgr_xterm_fg, ?sgr_xterm_bg; cbn [x_fg x_bg x_bold x_faint];
    subst; destruct si; cbn in *; try reflexivity; subst; try reflexivity; try (destruct Hb as [-> ->]; reflexivity).
Qed.

Lemma bits_next b f i : bits_ok (next_bold b i) (next_faint f i) i.
Proof. destruct i; cbn; auto. Qed.

Lemma render_shows_xterm cur t b f screen :
  no_controls (chars t) -> bits_ok b f (intens cur) ->
  exists r,
  term_feed sgr_xterm (mk_term Ground (mk_xrend (foreground cur) (background cur) b f) screen) (ansi_render cur t) =
  mk_term Ground r (screen ++ sticky b f t).
Proof.
  revert cur b f screen; induction t as [|[c st] t IH]; intros cur b f screen H Hb; cbn [ansi_render sticky].
  - eexists. cbn; now rewrite app_nil_r.
  - inversion H as [|x y Hc Ht]; subst.
    rewrite feed_app, feed_esc, esc_codes_xterm by exact Hb.
    change (c :: ansi_render st t) with ([c] ++ ansi_render st t).
    rewrite feed_app, feed_text by (constructor; auto; constructor).
    destruct (IH st _ _ (screen ++ map (fun c => (c, mk_xrend (foreground st) (background st)
      (next_bold b (intens st)) (next_faint f (intens st)))) [c]) Ht (bits_next b f (intens st))) as (r & ->).
    exists r. rewrite <- app_assoc. reflexivity.
Qed.

Lemma sticky_exact cur t :
  sticky (match intens cur with Bold => true | _ => false end)
         (match intens cur with Faint => true | _ => false end) t
  = map (fun cs => (fst cs, xterm_look (snd cs))) t <-> no_direct_switch cur t.
Proof.
  revert cur; induction t as [|[c st] t IH]; intros cur; cbn [sticky map no_direct_switch fst snd].
  - split; auto.
  - specialize (IH st). unfold compatible, xterm_look at 1. split.
    + intros H. injection H as H1 H2 H3. rewrite H1, H2 in H3. split.
      * destruct (intens cur), (intens st); auto; discriminate.
      * apply IH. exact H3.
    + intros [Hc Hs]. apply IH in Hs.
      assert (E1 : match intens st with Normal => false | Bold => true
                   | Faint => match intens cur with Bold => true | _ => false end end
                   = match intens st with Bold => true | _ => false end)
        by (destruct (intens cur), (intens st); try reflexivity; destruct Hc as [?|[?|?]]; discriminate).
      assert (E2 : match intens st with Normal => false | Faint => true
                   | Bold => match intens cur with Faint => true | _ => false end end
                   = match intens st with Faint => true | _ => false end)
        by (destruct (intens cur), (intens st); try reflexivity; destruct Hc as [?|[?|?]]; discriminate).
      rewrite E1, E2, Hs. reflexivity.
Qed.
