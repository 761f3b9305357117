(** C66-C68: whole sessions of calls on one writer; growing and fixed-size byte buffers.  Also
    the parts of C22 and C38 that are about sessions. *)
From Verif Require Import Base Style Fmt SString Plain Ansi Html Io Format StdIo Lib SpecText TextFacts
  SpecTerminal AnsiFacts SpecHtml HtmlFacts StringFacts FormatFacts SpecUtf8 Utf8Facts SpecIo IoFacts SpecSession
  PropsAnsi PropsHtml PropsString PropsRetry.

Lemma do_call_play {W} (ws : write_fn W) (c : wcall) (w : W) : infallible ws ->
  do_call (Write_default ws) w c = (fst (play ws (call_text c) w), call_outcome c).
Proof.
  intros H. destruct c as [s st|c st|args]; cbn [do_call call_text call_outcome].
  - cbn [Write_default w_write_str play]. rewrite (infallible_eq ws w s st H). reflexivity.
  - cbn [Write_default w_write_char play]. unfold default_write_char. rewrite (infallible_eq ws w [c] st H). reflexivity.
  - cbn [Write_default w_write_fmt]. rewrite default_write_fmt_run. now apply run_infallible.
Qed.

Lemma session_play {W} (ws : write_fn W) (calls : list wcall) : infallible ws -> forall w,
  session (Write_default ws) calls w = (fst (play ws (session_text calls) w), map call_outcome calls).
Proof.
  intros H. induction calls as [|c calls IH]; intros w; [reflexivity|].
  cbn [session map]. rewrite (do_call_play ws c w H), IH.
  unfold session_text. cbn [flat_map]. rewrite play_app, (infallible_play ws (call_text c) w H). reflexivity.
Qed.

(** * C66 *)

(** C66: any sequence of write_str, write_char and write! calls on an Ansi adaptor over a String,
    whatever each of them returns and even if formatting code fails or panics in the middle:
    each call returns what the formatting code itself says, and after [finish] the terminal has
    shown exactly the styled text written, and is reset. *)
Theorem C66_ansi (calls : list wcall) :
  no_controls (text_of (session_text calls)) ->
  let (w, returned) := session (Write_ansi string_sink) calls (lib_ansi []) in
  returned = map call_outcome calls /\
  exists out, ansi_finish string_sink w = (out, Returned Ok) /\
    term_feed sgr_style term_new out = mk_term Ground style_default (denote (session_text calls)).
Proof.
  intros Hn. unfold Write_ansi. rewrite (session_play _ calls ansi_infallible). split; [reflexivity|].
  unfold lib_ansi, ansi_new. rewrite ansi_play. cbn [fst an_inner an_current].
  rewrite ansi_finish_string. cbn [an_inner an_current]. eexists. split; [reflexivity|].
  cbn [app]. rewrite feed_app. unfold term_new.
  change (mk_style ColorDefault ColorDefault Normal) with style_default.
  rewrite render_shows by (now rewrite chars_denote). apply esc_default_ends.
Qed.
Print Assumptions C66_ansi.

(** C66: the same for an Html adaptor over a String and an HTML viewer (any characters). *)
Theorem C66_html (calls : list wcall) :
  let (w, returned) := session (Write_html string_sink) calls (lib_html []) in
  returned = map call_outcome calls /\
  exists out, html_finish string_sink w = (out, Returned Ok) /\
    page_feed page_new out = mk_page Data [] (looks (denote (session_text calls))).
Proof.
  unfold Write_html. rewrite (session_play _ calls html_infallible). split; [reflexivity|].
  exists (html_finished (session_text calls)). split.
  - unfold html_finished, lib_html. rewrite html_play. cbn [fst]. now rewrite html_finish_string.
  - pose proof (html_render_view style_default (denote (session_text calls)) []) as H.
    rewrite html_finished_eq, pfeed_app. cbn in H. unfold page_new in *.
    change (open_elements style_default) with (@nil css) in H.
    rewrite H. rewrite feed_hesc. reflexivity.
Qed.
Print Assumptions C66_html.

(** C66: and for a Plain adaptor over a String. *)
Theorem C66_plain (calls : list wcall) :
  let (w, returned) := session (Write_plain string_sink) calls (lib_plain []) in
  returned = map call_outcome calls /\
  plain_into_inner w = text_of (session_text calls).
Proof.
  unfold Write_plain. rewrite (session_play _ calls plain_infallible). split; [reflexivity|].
  now rewrite plain_play.
Qed.
Print Assumptions C66_plain.

(** C22: every String a user can build with any sequence of calls is one of those the other
    theorems about String are about, and each call returns what the formatting code says. *)
Theorem C22_any_session (calls : list wcall) :
  session Write_sstring calls sstring_new = (built (session_text calls), map call_outcome calls).
Proof. unfold Write_sstring. now rewrite (session_play _ calls sstring_infallible). Qed.
Print Assumptions C22_any_session.

(** C22: so displaying it later replays the styled text of the whole session. *)
Theorem C22_session_replay (calls : list wcall) (f : formatter) :
  produces (Display_sstring (fst (session Write_sstring calls sstring_new)) f) = denote (session_text calls) /\
  ok_outcome (Display_sstring (fst (session Write_sstring calls sstring_new)) f) = Returned Ok.
Proof. rewrite C22_any_session. apply C22_replay. Qed.
Print Assumptions C22_session_replay.

(** C38: writing a text character by character leaves every provided in-memory writer in the same
    state as writing it at once: same output so far and same behaviour afterwards. *)
Definition chr (st : style) (c : char) : wcall := CChar c st.
Lemma denote_chars (s : str) (st : style) :
  denote (session_text (map (chr st) s)) = paint st s.
Proof. induction s as [|c s IH]; [reflexivity|]. unfold session_text in *. cbn [map flat_map chr call_text app denote].
  now rewrite IH. Qed.
Lemma text_chars (s : str) (st : style) : text_of (session_text (map (chr st) s)) = s.
Proof. rewrite <- chars_denote, denote_chars. apply chars_paint. Qed.

Theorem C38_char_by_char (s : str) (st : style) :
  (forall w, fst (session (Write_ansi string_sink) (map (chr st) s) w)
             = fst (w_write_str (Write_ansi string_sink) w s st)) /\
  (forall w, fst (session (Write_html string_sink) (map (chr st) s) w)
             = fst (w_write_str (Write_html string_sink) w s st)) /\
  (forall w, fst (session (Write_plain string_sink) (map (chr st) s) w)
             = fst (w_write_str (Write_plain string_sink) w s st)) /\
  (s <> [] -> forall w, fst (session Write_sstring (map (chr st) s) w)
             = fst (w_write_str Write_sstring w s st)).
Proof.
  split; [|split; [|split]].
  - intros w. unfold Write_ansi. rewrite (session_play _ _ ansi_infallible), ansi_play.
    cbn [fst Write_default w_write_str]. now rewrite ansi_write_string, denote_chars.
  - intros w. unfold Write_html. rewrite (session_play _ _ html_infallible), html_play.
    cbn [fst Write_default w_write_str]. now rewrite html_write_string, denote_chars.
  - intros w. unfold Write_plain. rewrite (session_play _ _ plain_infallible), plain_play.
    cbn [fst Write_default w_write_str]. now rewrite text_chars.
  - intros Hs w. unfold Write_sstring. rewrite (session_play _ _ sstring_infallible).
    cbn [fst Write_default w_write_str].
    assert (G : forall s (w : sstring), last_style_is (ss_styles w) st = true ->
      fst (play sstring_write_str (session_text (map (chr st) s)) w)
      = mk_sstring (ss_string w ++ s) (ss_styles w)).
    { clear. induction s as [|c s IH]; intros [txt l] Hl; cbn [ss_styles ss_string] in *.
      - cbn. now rewrite app_nil_r.
      - change (session_text (map (chr st) (c :: s)))
          with (([c], st) :: session_text (map (chr st) s)).
        cbn [play]. unfold sstring_write_str at 1. cbn [ss_styles ss_string]. rewrite Hl. cbn [negb].
        rewrite IH by exact Hl. cbn [ss_styles ss_string]. now rewrite <- app_assoc. }
    destruct s as [|c s]; [congruence|].
    change (session_text (map (chr st) (c :: s)))
      with (([c], st) :: session_text (map (chr st) s)).
    cbn [play]. unfold sstring_write_str at 1 3.
    assert (L : forall l (n : nat), last_style_is (l ++ [(n, st)]) st = true).
    { intros l n. unfold last_style_is. assert (E : last_opt (l ++ [(n, st)]) = Some (n, st)).
      { clear. induction l as [|x l IH]; [reflexivity|]. cbn. rewrite IH. destruct l; reflexivity. }
      rewrite E. apply style_eqb_refl. }
    destruct (last_style_is (ss_styles w) st) eqn:El; cbn [negb];
      (rewrite G; [|cbn [ss_styles]; auto]); cbn [ss_styles ss_string fst];
      now rewrite <- app_assoc.
Qed.
Print Assumptions C38_char_by_char.

(** * C66: io writers *)
Lemma map_app_inv {A B} (f : A -> B) l : forall a b, map f l = a ++ b ->
  exists l1 l2, l = l1 ++ l2 /\ map f l1 = a /\ map f l2 = b.
Proof.
  induction l as [|x l IH]; intros a b H.
  - cbn in H. symmetry in H. apply app_eq_nil in H as [-> ->]. exists [], []. auto.
  - destruct a as [|y a].
    + exists [], (x :: l). auto.
    + injection H as <- H. apply IH in H as (l1 & l2 & -> & <- & <-). exists (x :: l1), l2. auto.
Qed.

Lemma ascii_scalar (s : str) : Forall (fun c => (c < 128)%N) s -> scalar_text s.
Proof. apply Forall_impl. intros c H. unfold is_scalar. apply orb_true_iff. left. apply N.ltb_lt. lia. Qed.

(** What the pieces are sent as, starting in style [cur]. *)
Fixpoint bytes_sent (cur : style) (l : list (bytes * style)) : bytes :=
  match l with [] => [] | (b, st) :: r => utf8 (esc cur st) ++ b ++ bytes_sent st r end.
Fixpoint last_sent (cur : style) (l : list (bytes * style)) : style :=
  match l with [] => cur | (_, st) :: r => last_sent st r end.
Lemma bytes_sent_app a : forall cur b, bytes_sent cur (a ++ b) = bytes_sent cur a ++ bytes_sent (last_sent cur a) b.
Proof. induction a as [|[x st] a IH]; intros cur b; [reflexivity|]. cbn [app bytes_sent last_sent]. now rewrite IH, !app_assoc. Qed.
Lemma last_sent_app a : forall cur b, last_sent cur (a ++ b) = last_sent (last_sent cur a) b.
Proof. induction a as [|[x st] a IH]; intros cur b; [reflexivity|]. cbn [app last_sent]. apply IH. Qed.
Lemma joined_sent l m : joined l m -> forall cur, bytes_sent cur l = bytes_sent cur m /\ last_sent cur l = last_sent cur m.
Proof.
  induction 1 as [|[b st] l m _ IH|b1 b2 st l m _ IH]; intros cur; [auto| |].
  - cbn [bytes_sent last_sent]. destruct (IH st) as [-> ->]. auto.
  - destruct (IH cur) as [<- <-]. cbn [bytes_sent last_sent]. rewrite esc_same. cbn [utf8 flat_map app].
    now rewrite <- !app_assoc.
Qed.

(** Empty pieces may be left out: an empty [write_all] sends nothing. *)
Inductive thinned : list (bytes * style) -> list (bytes * style) -> Prop :=
  | th_nil : thinned [] []
  | th_keep x l m : thinned l m -> thinned (x :: l) (x :: m)
  | th_drop st l m : thinned l m -> thinned (([], st) :: l) m.
Lemma thinned_refl l : thinned l l.
Proof. induction l; constructor; auto. Qed.
Lemma thinned_app a b a' b' : thinned a a' -> thinned b b' -> thinned (a ++ b) (a' ++ b').
Proof. intros Ha Hb. induction Ha; cbn [app]; [exact Hb|constructor; auto|constructor; auto]. Qed.
Lemma thinned_joined l m : joined l m -> forall l', thinned l l' -> exists m', joined l' m' /\ thinned m m'.
Proof.
  induction 1 as [|x l m _ IH|b1 b2 st l m _ IH]; intros l' H.
  - inversion H; subst. exists []. split; constructor.
  - inversion H as [|x0 l0 m0 H0|st0 l0 m0 H0]; subst.
    + destruct (IH _ H0) as (m' & A & B). exists (x :: m'). split; constructor; assumption.
    + destruct (IH _ H0) as (m' & A & B). exists m'. split; [assumption|constructor; assumption].
  - inversion H as [|x0 l0 m0 H0|st0 l0 m0 H0]; subst; inversion H0 as [|x1 l1 m1 H1|st1 l1 m1 H1]; subst.
    + destruct (IH ((b1 ++ b2, st) :: m1)) as (m' & A & B); [constructor; assumption|].
      exists m'. split; [now apply jo_join|assumption].
    + destruct (IH ((b1, st) :: m0)) as (m' & A & B); [rewrite app_nil_r; constructor; assumption|]. eauto.
    + destruct (IH ((b2, st) :: m1)) as (m' & A & B); [constructor; assumption|]. eauto.
    + destruct (IH l') as (m' & A & B); [constructor; assumption|]. eauto.
Qed.
Lemma thinned_text (h : history) : forall m, thinned (map (fun e => (utf8 (fst e), snd e)) h) m ->
  exists h', m = map (fun e => (utf8 (fst e), snd e)) h' /\ denote h' = denote h.
Proof.
  induction h as [|[s st] h IH]; intros m H; cbn [map] in H.
  - inversion H. exists []. auto.
  - inversion H as [|x l0 m0 H0|st0 l0 m0 H0 E]; subst.
    + destruct (IH _ H0) as (h' & -> & E). exists ((s, st) :: h'). split; [reflexivity|]. cbn [denote]. now rewrite E.
    + destruct (IH _ H0) as (h' & -> & E'). exists h'. split; [reflexivity|]. cbn [fst] in E. symmetry in E.
      apply (proj1 (utf8_nil s)) in E. subst s. exact E'.
Qed.

Lemma text_sent (h : history) : forall cur, no_controls (text_of h) ->
  exists out, bytes_sent cur (map (fun e => (utf8 (fst e), snd e)) h) = utf8 out /\
    (scalar_text (text_of h) -> scalar_text out) /\
    forall screen, term_feed sgr_style (mk_term Ground cur screen) out
      = mk_term Ground (last_sent cur (map (fun e => (utf8 (fst e), snd e)) h)) (screen ++ denote h).
Proof.
  induction h as [|[s st] h IH]; intros cur Hn.
  - exists []. split; [reflexivity|]. split; [auto|]. intros screen. cbn. now rewrite app_nil_r.
  - assert (T : text_of ((s, st) :: h) = s ++ text_of h) by reflexivity. rewrite T in *.
    apply Forall_app in Hn as [H1 H2]. destruct (IH st H2) as (out & A & B & C).
    exists (esc cur st ++ s ++ out). cbn [map bytes_sent last_sent fst snd denote]. rewrite A, !utf8_app.
    split; [reflexivity|]. split.
    + intros Hs. apply Forall_app in Hs as [Hs1 Hs2]. apply Forall_app. split; [apply ascii_scalar, esc_ascii|].
      apply Forall_app. split; [exact Hs1|apply B; exact Hs2].
    + intros screen. rewrite !feed_app, feed_esc, esc_codes_style, feed_text by exact H1.
      now rewrite C, <- app_assoc.
Qed.

(** What one successful call sends. *)
Lemma play_sent (h : history) : forall cur,
  exists l, thinned (map (fun e : str * style => (utf8 (fst e), snd e)) h) l /\
    bytes_sent cur l = utf8 (ansi_render cur (denote h)) /\ last_sent cur l = last_style cur (denote h).
Proof.
  induction h as [|[s st] h IH]; intros cur.
  - exists []. split; [constructor|]. auto.
  - destruct s as [|c s].
    + destruct (IH cur) as (l & A & B & C). exists l. split; [apply th_drop; exact A|]. auto.
    + destruct (IH st) as (l & A & B & C). exists ((utf8 (c :: s), st) :: l). split; [constructor; exact A|].
      cbn [bytes_sent last_sent denote]. rewrite ansi_render_app, ansi_render_paint by discriminate.
      rewrite last_style_app, last_style_paint by discriminate. rewrite B, C, !utf8_app, <- app_assoc. auto.
Qed.
Lemma io_call_sent {S} (sink : std_io S) (held : S -> bytes) (fuel : nat) (c : iocall) (n : nat) (w w' : io_ansi S) :
  honest sink held -> call_regular c ->
  do_iocall (IoWrite_ansi fuel sink) w c = (w', IoOk n) ->
  exists l, thinned (accepted (c, IoOk n)) l /\ ia_current w' = last_sent (ia_current w) l /\
    held (ia_inner w') = held (ia_inner w) ++ bytes_sent (ia_current w) l.
Proof.
  intros Hh Hp Hc.
  destruct c as [b st|b st| |args]; cbn [do_iocall IoWrite_ansi io_write io_write_all io_flush io_write_fmt accepted] in *.
  - apply (io_write_ok _ _ held Hh) in Hc as (H1 & H2 & H3). exists [(firstn n b, st)]. split; [apply thinned_refl|].
    cbn [last_sent bytes_sent]. rewrite app_nil_r. auto.
  - destruct (io_ansi_write_all fuel sink w b st) as [w1 [[]|e|c]] eqn:E; try discriminate.
    injection Hc as <- _. apply (io_write_all_ok _ _ held Hh) in E as [H1 H2]. destruct b as [|x b]; cbn [is_empty] in *.
    + exists []. split; [constructor; constructor|]. auto.
    + exists [(x :: b, st)]. split; [apply thinned_refl|]. cbn [last_sent bytes_sent]. rewrite app_nil_r. auto.
  - destruct (io_ansi_flush sink w) as [w1 [[]|e|c]] eqn:E; try discriminate. injection Hc as <- _.
    unfold io_ansi_flush in E. destruct (si_flush sink (ia_inner w)) as [i r] eqn:E2. injection E as <- ->.
    apply (ho_flush _ _ Hh) in E2. exists []. split; [constructor|]. cbn [ia_inner ia_current last_sent bytes_sent].
    rewrite app_nil_r. auto.
  - destruct (default_io_write_fmt (io_ansi_write_all fuel sink) w args) as [w1 [[]|e|c]] eqn:E; try discriminate.
    injection Hc as <- _. destruct Hp as [Hp _].
    rewrite default_io_run, run_propagates in E by exact Hp.
    destruct (play (trap_write_str (io_ansi_write_all fuel sink)) (ok_events (args formatter_new)) (trap_new w))
      as [t o] eqn:Ep. destruct o as [[|]|c]; try discriminate.
    destruct (ok_outcome (args formatter_new)) as [[|]|c]; try discriminate.
    injection E as <-. apply (trap_play_ok _ _ held Hh) in Ep as [H1 H2]. cbn [trap_new et_inner] in H1, H2.
    destruct (play_sent (ok_events (args formatter_new)) (ia_current w)) as (l & A & B & C).
    exists l. rewrite B, C. auto.
Qed.
Lemma io_session_sent {S} (sink : std_io S) (held : S -> bytes) (fuel : nat) (calls : list iocall) :
  honest sink held -> Forall call_regular calls -> forall (w w' : io_ansi S) l,
  io_session (IoWrite_ansi fuel sink) calls w = (w', l) -> Forall succeeded l ->
  exists m, thinned (flat_map accepted l) m /\ ia_current w' = last_sent (ia_current w) m /\
    held (ia_inner w') = held (ia_inner w) ++ bytes_sent (ia_current w) m.
Proof.
  intros Hh. induction 1 as [|c calls Hc _ IH]; intros w w' l; cbn [io_session].
  - intros [= <- <-] _. exists []. split; [constructor|]. cbn. rewrite app_nil_r. auto.
  - destruct (do_iocall (IoWrite_ansi fuel sink) w c) as [w1 o] eqn:E1.
    destruct (io_session (IoWrite_ansi fuel sink) calls w1) as [w2 os] eqn:E2.
    intros [= <- <-] Hs. inversion Hs as [|x y [n Hn1] Hs']; subst. cbn [snd] in Hn1. subst o.
    destruct (io_call_sent sink held fuel c n w w1 Hh Hc E1) as (l1 & A1 & A2 & A3).
    destruct (IH w1 w2 os E2 Hs') as (l2 & B1 & B2 & B3).
    exists (l1 ++ l2). cbn [flat_map]. split; [now apply thinned_app|].
    rewrite last_sent_app, bytes_sent_app, <- A2, app_assoc, <- A3. auto.
Qed.

Lemma io_session_shows {S} (sink : std_io S) (held : S -> bytes) (fuel : nat) (calls : list iocall) :
  honest sink held -> Forall call_regular calls -> forall (w w' : io_ansi S) l (h : history),
  io_session (IoWrite_ansi fuel sink) calls w = (w', l) -> Forall succeeded l ->
  encodes (flat_map accepted l) h -> no_controls (text_of h) ->
  exists out : str, held (ia_inner w') = held (ia_inner w) ++ utf8 out /\
    (scalar_text (text_of h) -> scalar_text out) /\
    forall screen, term_feed sgr_style (mk_term Ground (ia_current w) screen) out
                   = mk_term Ground (ia_current w') (screen ++ denote h).
Proof.
  intros Hh Hc w w' l h Hs Hl Hw Hn.
  destruct (io_session_sent sink held fuel calls Hh Hc w w' l Hs Hl) as (m & A1 & A2 & A3).
  destruct (thinned_joined _ _ Hw _ A1) as (m' & B1 & B2). destruct (thinned_text _ _ B2) as (h' & -> & B3).
  destruct (joined_sent _ _ B1 (ia_current w)) as [C1 C2].
  assert (T : text_of h' = text_of h) by now rewrite <- !chars_denote, B3.
  rewrite <- T in Hn |- *. destruct (text_sent h' (ia_current w) Hn) as (out & D1 & D2 & D3).
  exists out. rewrite A3, C1, D1, A2, C2, <- B3. auto.
Qed.

(** C66: any sequence of successful write, write_all, write! and flush calls on io::Ansi over any
    honest sink (short writes and interruptions included), where what was accepted is the UTF-8
    encoding of some styled text [h] (characters may be split over several writes in their style):
    the sink received the encoding of a character stream on which a terminal shows exactly [h],
    and after [finish] it is reset. *)
Theorem C66_io_ansi {S} (sink : std_io S) (held : S -> bytes) (fuel : nat) (calls : list iocall)
  (s s' : S) (w : io_ansi S) (l : list (iocall * io_res nat)) (h : history) :
  honest sink held -> Forall call_regular calls ->
  io_session (IoWrite_ansi fuel sink) calls (lib_io_ansi s) = (w, l) -> Forall succeeded l ->
  io_ansi_finish sink w = (s', IoOk tt) ->
  encodes (flat_map accepted l) h -> no_controls (text_of h) ->
  exists out, held s' = held s ++ utf8 out /\ (scalar_text (text_of h) -> scalar_text out) /\
    term_feed sgr_style term_new out = mk_term Ground style_default (denote h).
Proof.
  intros Hh Hc Hs Hl Hf Hw Hn.
  destruct (io_session_shows sink held fuel calls Hh Hc _ _ _ h Hs Hl Hw Hn) as (o1 & A1 & A3 & A2).
  cbn [lib_io_ansi io_ansi_new ia_inner ia_current] in A1, A2.
  exists (o1 ++ esc (ia_current w) style_default). split; [|split].
  - rewrite utf8_app, app_assoc, <- A1. revert Hf. unfold io_ansi_finish, esc, ansi_change.
    destruct (style_eqb_spec (ia_current w) style_default) as [->|Hne]; cbn [negb andb].
    + intros [= <-]. cbn. now rewrite app_nil_r.
    + intros H. apply (parts_ok _ _ held Hh) in H. exact H.
  - intros H. apply Forall_app. split; [exact (A3 H)|apply ascii_scalar, esc_ascii].
  - rewrite feed_app. unfold term_new. change (mk_style ColorDefault ColorDefault Normal) with style_default.
    rewrite A2. apply esc_default_ends.
Qed.
Print Assumptions C66_io_ansi.

(** C66: any sequence of calls on io::Plain over any honest sink, all returning Ok: the sink
    received exactly the accepted bytes, in order, whatever the styles. *)
Theorem C66_io_plain {S} (sink : std_io S) (held : S -> bytes) (calls : list iocall)
  (s : S) (w : io_plain S) (l : list (iocall * io_res nat)) :
  honest sink held -> Forall call_regular calls ->
  io_session (IoWrite_plain sink) calls (lib_io_plain s) = (w, l) -> Forall succeeded l ->
  held (io_plain_into_inner w) = held s ++ concat (map fst (flat_map accepted l)).
Proof.
  intros Hh Hc. change s with (ipl_inner (lib_io_plain s)) at 2. generalize (lib_io_plain s) as v.
  unfold io_plain_into_inner. revert w l.
  induction Hc as [|c calls Hr _ IH]; intros w l v; cbn [io_session].
  - intros [= <- <-] _. cbn. now rewrite app_nil_r.
  - destruct (do_iocall (IoWrite_plain sink) v c) as [w1 o] eqn:E1.
    destruct (io_session (IoWrite_plain sink) calls w1) as [w2 os] eqn:E2.
    intros [= <- <-] Hs. inversion Hs as [|x y [n Hn1] Hs']; subst. cbn [snd] in Hn1. subst o.
    cbn [flat_map]. rewrite (IH _ _ _ E2 Hs'), map_app, concat_app, app_assoc. f_equal.
    destruct c as [b st|b st| |args];
      cbn [do_iocall IoWrite_plain io_write io_write_all io_flush io_write_fmt accepted] in *.
    + unfold io_plain_write in E1. destruct (si_write sink (ipl_inner v) b) as [i r] eqn:E. injection E1 as <- ->.
      apply (ho_write_ok _ _ Hh) in E as [_ E]. cbn. now rewrite app_nil_r.
    + unfold io_plain_write_all in E1. destruct (si_write_all sink (ipl_inner v) b) as [i [[]|e|c]] eqn:E;
        try discriminate. injection E1 as <- _. apply (ho_all_ok _ _ Hh) in E. cbn. now rewrite app_nil_r.
    + unfold io_plain_flush in E1. destruct (si_flush sink (ipl_inner v)) as [i [[]|e|c]] eqn:E;
        try discriminate. injection E1 as <- _. apply (ho_flush _ _ Hh) in E. cbn. now rewrite app_nil_r.
    + destruct (default_io_write_fmt (io_plain_write_all sink) v args) as [v1 [[]|e|c]] eqn:E; try discriminate.
      injection E1 as <- _. destruct Hr as [Hp _]. rewrite default_io_run, run_propagates in E by exact Hp.
      destruct (play (trap_write_str (io_plain_write_all sink)) (ok_events (args formatter_new)) (trap_new v))
        as [t o] eqn:Ep. destruct o as [[|]|c]; try discriminate.
      destruct (ok_outcome (args formatter_new)) as [[|]|c]; try discriminate.
      injection E as <-. apply (plain_trap_ok _ _ held Hh) in Ep. cbn [trap_new et_inner] in Ep. rewrite Ep. f_equal.
      rewrite map_map. cbn [fst]. clear. unfold text_of. induction (ok_events (args formatter_new)) as [|e l IH]; [reflexivity|].
      cbn [map concat]. now rewrite utf8_app, IH.
Qed.
Print Assumptions C66_io_plain.

Example C66_nonvacuous :
  let red := mk_style Red ColorDefault Normal in
  let half : arguments := fun f => try_ (formatter_write_str f (lit "b")) (Ret Err) in
  let calls := [CStr (lit "a") red; CFmt half; CChar 99%N red; CFmt (fun _ => Abort Panic)] in
  no_controls (text_of (session_text calls)) /\
  map call_outcome calls = [Returned Ok; Returned Err; Returned Ok; Crashed Panic] /\
  denote (session_text calls) = [(97%N, red); (98%N, style_default); (99%N, red)] /\
  fst (ansi_finish string_sink (fst (session (Write_ansi string_sink) calls (lib_ansi []))))
  = ESC :: lit "[31ma" ++ ESC :: lit "[0mb" ++ ESC :: lit "[31mc" ++ ESC :: lit "[0m".
Proof. split; [repeat constructor|]. split; [reflexivity|]. split; reflexivity. Qed.

(** A session on io::Ansi with a short write inside a character (which the user completes), an
    empty write in another style, a flush and a write!. *)
Example C66_io_nonvacuous :
  let red := mk_style Red ColorDefault Normal in
  let args : arguments := fun f => formatter_write_str f (lit "c") in
  let calls := [IWrite (utf8 [97%N; 233%N]) red; IFlush; IWrite [169%N] red; IWrite [] (mk_style Blue ColorDefault Bold); IFmt args] in
  let sink := scripted 9 in
  exists w l, io_session (IoWrite_ansi 9 sink) calls (lib_io_ansi ([], [inl 9; inl 9; inl 9; inl 2])) = (w, l) /\
    Forall succeeded l /\ Forall call_regular calls /\
    flat_map accepted l = [([97%N; 195%N], red); ([169%N], red); ([], mk_style Blue ColorDefault Bold); (lit "c", style_default)] /\
    encodes (flat_map accepted l) [([97%N; 233%N], red); ([], mk_style Blue ColorDefault Bold); (lit "c", style_default)] /\
    snd (io_ansi_finish sink w) = IoOk tt /\
    fst (fst (io_ansi_finish sink w))
    = lit "" ++ ESC :: lit "[31ma" ++ utf8 [233%N] ++ ESC :: lit "[34;1m" ++ ESC :: lit "[0mc".
Proof.
  cbv zeta. eexists. eexists. split; [reflexivity|]. split.
  - repeat constructor; eexists; reflexivity.
  - split; [repeat constructor|]. split; [reflexivity|]. split; [|split; reflexivity].
    apply jo_join. repeat constructor.
Qed.
