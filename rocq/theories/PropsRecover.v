(** C72: sessions on io::Ansi in which writes fail and the caller goes on. *)
From Verif Require Import Base Style Fmt Plain Ansi Io StdIo Lib SpecText TextFacts StyleFacts SpecTerminal AnsiFacts
  SpecSink RetryFacts SpecUtf8 Utf8Facts SpecIo IoFacts SpecSession PropsSession PropsRetry PropsMore.

Lemma esc_from cur st state rend screen :
  (rend = cur \/ rend = st) -> (state = Ground \/ cur <> st) ->
  term_feed sgr_style (mk_term state rend screen) (esc cur st) = mk_term Ground st screen.
Proof.
  intros Hrend Hst.
  assert (F : fold_left (fun r n => sgr_style n r) (esc_codes cur st) rend = st)
    by (destruct Hrend as [->| ->]; [apply esc_codes_style|apply codes_again]).
  destruct Hst as [->|Hne]; [now rewrite feed_esc, F|now rewrite feed_esc_any, F].
Qed.

Lemma last_style_last (t : stext) : forall cur c st, 
  last_style cur ((c, st) :: t) = last (map snd ((c, st) :: t)) style_default.
Proof.
  induction t as [|[c1 st1] t IH]; intros cur c st; [reflexivity|].
  change (last_style cur ((c, st) :: (c1, st1) :: t)) with (last_style st ((c1, st1) :: t)).
  rewrite (IH st c1 st1). reflexivity.
Qed.

(** What a successful call sends, to a terminal that need not be in the tracked style. *)
Lemma io_call_sends {S} (sink : std_io S) (held : S -> bytes) (fuel : nat) (c : iocall) (n : nat)
  (w w' : io_ansi S) (h : history) :
  honest sink held -> call_regular c ->
  do_iocall (IoWrite_ansi fuel sink) w c = (w', IoOk n) ->
  map (fun e : str * style => (utf8 (fst e), snd e)) h = accepted (c, IoOk n) -> no_controls (text_of h) -> scalar_text (text_of h) ->
  exists out : str, held (ia_inner w') = held (ia_inner w) ++ utf8 out /\
    match begins c with
    | None => out = [] /\ ia_current w' = ia_current w /\ denote h = []
    | Some st => ia_current w' = ends c /\
        forall state rend screen, (rend = ia_current w \/ rend = st) -> (state = Ground \/ ia_current w <> st) ->
          term_feed sgr_style (mk_term state rend screen) out = mk_term Ground (ends c) (screen ++ denote h)
    end.
Proof.
  intros Hh Hp Hc Hw Hn Hsc.
  assert (ONE : forall (s : str) (st : style) cur state rend screen, no_controls s ->
    (rend = cur \/ rend = st) -> (state = Ground \/ cur <> st) ->
    term_feed sgr_style (mk_term state rend screen) (esc cur st ++ s)
    = mk_term Ground st (screen ++ paint st s)).
  { intros s st cur state rend screen Hs H1 H2. rewrite feed_app, esc_from, feed_text by assumption. reflexivity. }
  destruct c as [b st|b st| |args]; cbn [do_iocall IoWrite_ansi io_write io_write_all io_flush io_write_fmt accepted begins ends] in *.
  - apply (io_write_ok _ _ held Hh) in Hc as (H1 & H2 & H3).
    destruct h as [|[s st'] [|]]; try discriminate. cbn [map fst snd] in Hw. injection Hw as Hs ->.
    exists (esc (ia_current w) st ++ s). rewrite H1, H3, utf8_app, Hs. split; [reflexivity|]. split; [reflexivity|].
    intros state rend screen Hr1 Hr2. cbn in Hn. rewrite app_nil_r in Hn. cbn [denote]. rewrite app_nil_r. now apply ONE.
  - destruct (io_ansi_write_all fuel sink w b st) as [w1 [[]|e|c]] eqn:E; try discriminate.
    injection Hc as <- _. apply (io_write_all_ok _ _ held Hh) in E as [H1 H2].
    destruct h as [|[s st'] [|]]; try discriminate. cbn [map fst snd] in Hw. injection Hw as Hs ->.
    cbn in Hn. rewrite app_nil_r in Hn. destruct b as [|x b]; cbn [is_empty] in *.
    + apply (proj1 (utf8_nil s)) in Hs. subst s. exists []. split; [exact H2|]. auto.
    + exists (esc (ia_current w) st ++ s). rewrite H1, H2, utf8_app, Hs. split; [reflexivity|]. split; [reflexivity|].
      intros state rend screen Hr1 Hr2. cbn [denote]. rewrite app_nil_r. now apply ONE.
  - destruct (io_ansi_flush sink w) as [w1 [[]|e|c]] eqn:E; try discriminate. injection Hc as <- _.
    unfold io_ansi_flush in E. destruct (si_flush sink (ia_inner w)) as [i r] eqn:E2. injection E as <- ->.
    apply (ho_flush _ _ Hh) in E2. destruct h; [|discriminate]. exists []. cbn [ia_inner ia_current].
    split; [cbn; now rewrite app_nil_r|]. auto.
  - destruct (default_io_write_fmt (io_ansi_write_all fuel sink) w args) as [w1 [[]|e|c]] eqn:E; try discriminate.
    injection Hc as <- _. destruct Hp as [Hp Hp2].
    rewrite default_io_run, run_propagates in E by exact Hp.
    destruct (play (trap_write_str (io_ansi_write_all fuel sink)) (ok_events (args formatter_new)) (trap_new w))
      as [t o] eqn:Ep. destruct o as [[|]|c]; try discriminate.
    destruct (ok_outcome (args formatter_new)) as [[|]|c]; try discriminate.
    injection E as <-. apply (trap_play_ok _ _ held Hh) in Ep as [H1 H2]. cbn [trap_new et_inner] in H1, H2.
    assert (X : h = ok_events (args formatter_new)).
    { revert Hw Hp2 Hsc. generalize (ok_events (args formatter_new)). clear. intros l. revert l.
      induction h as [|[s st] h IH]; intros [|[s' st'] l] H A B; try discriminate; [reflexivity|].
      cbn [map fst snd] in H. injection H as Hs -> H. unfold scalar_text, text_of in A, B. cbn [map fst concat] in A, B.
      apply Forall_app in A as [A1 A2]. apply Forall_app in B as [B1 B2].
      apply decode_utf8 in A1. apply decode_utf8 in B1. rewrite Hs, A1 in B1. injection B1 as ->.
      f_equal. now apply IH. }
    subst h. exists (ansi_render (ia_current w) (denote (ok_events (args formatter_new)))).
    split; [exact H2|]. rewrite H1. assert (Hn' : no_controls (chars (denote (ok_events (args formatter_new))))) by now rewrite chars_denote.
    destruct (denote (ok_events (args formatter_new))) as [|[c0 st0] t'] eqn:Ed; cbn [map hd_error snd].
    + auto.
    + split; [apply last_style_last|]. intros state rend screen Hr1 Hr2.
      cbn [ansi_render]. rewrite feed_app, esc_from by assumption.
      pose proof (render_shows (ia_current w) ((c0, st0) :: t') screen Hn') as R.
      cbn [ansi_render] in R. rewrite feed_app, esc_from in R by auto.
      rewrite R. f_equal. apply last_style_last.
Qed.

Section Recover.
Context {S : Type} (sink : std_io S) (held : S -> bytes) (fuel : nat).
Hypothesis Hh : honest sink held.
Variable rule : style -> list style -> style -> Prop.
(** The tracked style, the terminal's parser state and its rendition. *)
Variable Inv : style -> list style -> style -> pstate -> style -> Prop.
Hypothesis Inv_ok : forall last tried cur state rend st,
  Inv last tried cur state rend -> rule last tried st ->
  (rend = cur \/ rend = st) /\ (state = Ground \/ cur <> st).
Hypothesis Inv_new : forall st, Inv st [] st Ground st.
Hypothesis Inv_done : forall last tried st, Inv last (st :: tried) st Ground st.
Hypothesis Inv_torn : forall last tried cur state rend st i i' e screen,
  Inv last tried cur state rend -> rule last tried st ->
  write_all_parts sink (ansi_change cur st) i = (i', IoErr e) ->
  exists p state' rend', held i' = held i ++ utf8 p /\
    term_feed sgr_style (mk_term state rend screen) p = mk_term state' rend' screen /\
    Inv last (st :: tried) cur state' rend'.

Lemma recover calls : Forall call_regular calls -> forall last tried (w w' : io_ansi S) l (h : history) state rend screen,
  io_session (IoWrite_ansi fuel sink) calls w = (w', l) -> follows rule last tried l ->
  Inv last tried (ia_current w) state rend ->
  map (fun e : str * style => (utf8 (fst e), snd e)) h = flat_map accepted l ->
  no_controls (text_of h) -> scalar_text (text_of h) ->
  exists out : str, held (ia_inner w') = held (ia_inner w) ++ utf8 out /\
    term_feed sgr_style (mk_term state rend screen) (out ++ esc (ia_current w') style_default)
    = mk_term Ground style_default (screen ++ denote h).
Proof.
  induction 1 as [|c calls Hc _ IH]; intros last tried w w' l h state rend screen; cbn [io_session].
  - intros [= <- <-] Hf Hi Hw _ _. destruct h; [|discriminate]. exists [].
    split; [cbn; now rewrite app_nil_r|]. inversion Hf; subst. cbn [app denote]. rewrite app_nil_r.
    destruct (Inv_ok _ _ _ _ _ _ Hi ltac:(eassumption)). now apply esc_from.
  - destruct (do_iocall (IoWrite_ansi fuel sink) w c) as [w1 o] eqn:E1.
    destruct (io_session (IoWrite_ansi fuel sink) calls w1) as [w2 os] eqn:E2.
    intros [= <- <-] Hf Hi Hw Hn Hsc.
    cbn [flat_map] in Hw. apply map_app_inv in Hw as (h1 & h2 & -> & Hw1 & Hw2).
    assert (T : text_of (h1 ++ h2) = text_of h1 ++ text_of h2)
      by (unfold text_of; now rewrite map_app, concat_app).
    rewrite T in Hn, Hsc. apply Forall_app in Hn as [Hn1 Hn2]. apply Forall_app in Hsc as [Hsc1 Hsc2].
    assert (STEP : forall last' tried' state' rend' (p : str),
      held (ia_inner w1) = held (ia_inner w) ++ utf8 p ->
      term_feed sgr_style (mk_term state rend screen) p = mk_term state' rend' (screen ++ denote h1) ->
      Inv last' tried' (ia_current w1) state' rend' -> follows rule last' tried' os ->
      exists out : str, held (ia_inner w2) = held (ia_inner w) ++ utf8 out /\
        term_feed sgr_style (mk_term state rend screen) (out ++ esc (ia_current w2) style_default)
        = mk_term Ground style_default (screen ++ denote (h1 ++ h2))).
    { intros last' tried' state' rend' p Hp Hfeed Hinv Hfo.
      destruct (IH last' tried' w1 w2 os h2 state' rend' (screen ++ denote h1) E2 Hfo Hinv Hw2 Hn2 Hsc2) as (o2 & B1 & B2).
      exists (p ++ o2). rewrite utf8_app, B1, Hp, <- app_assoc. split; [reflexivity|].
      rewrite <- app_assoc, feed_app, Hfeed, B2, denote_app, app_assoc. reflexivity. }
    assert (NOTHING : held (ia_inner w1) = held (ia_inner w) -> ia_current w1 = ia_current w -> denote h1 = [] ->
      follows rule last tried os ->
      exists out : str, held (ia_inner w2) = held (ia_inner w) ++ utf8 out /\
        term_feed sgr_style (mk_term state rend screen) (out ++ esc (ia_current w2) style_default)
        = mk_term Ground style_default (screen ++ denote (h1 ++ h2))).
    { intros Hhe Hcu Hde Hfo. apply (STEP last tried state rend []); auto.
      - rewrite Hhe. cbn. now rewrite app_nil_r.
      - rewrite Hde, app_nil_r. reflexivity.
      - now rewrite Hcu. }
    assert (FAIL : forall b st e, c = IWrite b st -> o = IoErr e -> rule last tried st ->
      (ia_current w1 = st /\ held (ia_inner w1) = held (ia_inner w) ++ utf8 (esc (ia_current w) st) /\
       term_feed sgr_style (mk_term state rend screen) (esc (ia_current w) st) = mk_term Ground st (screen ++ denote h1)) \/
      (err_kind e <> Interrupted /\ exists p state' rend', held (ia_inner w1) = held (ia_inner w) ++ utf8 p /\
       term_feed sgr_style (mk_term state rend screen) p = mk_term state' rend' (screen ++ denote h1) /\
       Inv last (st :: tried) (ia_current w1) state' rend')).
    { intros b st e -> -> Hru. destruct h1; [|discriminate]. cbn [denote]. rewrite app_nil_r.
      cbn [do_iocall IoWrite_ansi io_write] in E1. unfold io_ansi_write in E1. rewrite io_change_same in E1.
      destruct (write_all_parts sink (ansi_change (ia_current w) st) (ia_inner w)) as [i1 [[]|e1|c1]] eqn:Ep.
      - left. destruct (si_write sink i1 b) as [i2 r2] eqn:Ew. injection E1 as <- ->. cbn [ia_current ia_inner].
        apply (parts_ok _ _ held Hh) in Ep. apply (ho_write_err _ _ Hh) in Ew. rewrite Ew. split; [reflexivity|].
        split; [exact Ep|]. destruct (Inv_ok _ _ _ _ _ _ Hi Hru). now apply esc_from.
      - right. injection E1 as <- ->. cbn [ia_current ia_inner].
        pose proof (parts_err _ _ held Hh _ _ _ _ Ep) as [He _]. split; [exact He|].
        exact (Inv_torn _ _ _ _ _ _ _ _ _ screen Hi Hru Ep).
      - discriminate. }
    inversion Hf; subst.
    + cbn [do_iocall IoWrite_ansi io_flush] in E1. unfold io_ansi_flush in E1.
      destruct (si_flush sink (ia_inner w)) as [i r] eqn:Ef. apply (ho_flush _ _ Hh) in Ef. injection E1 as <- <-.
      apply NOTHING; auto. destruct h1; [reflexivity|]. destruct r; discriminate.
    + destruct (io_call_sends sink held fuel c n w w1 h1 Hh Hc E1 Hw1 Hn1 Hsc1) as (o1 & A1 & A2).
      match goal with H : begins c = None |- _ => rewrite H in A2 end. destruct A2 as (-> & A2 & A3).
      apply NOTHING; auto. rewrite A1. cbn. now rewrite app_nil_r.
    + destruct (io_call_sends sink held fuel c n w w1 h1 Hh Hc E1 Hw1 Hn1 Hsc1) as (o1 & A1 & A2).
      match goal with H : begins c = Some _ |- _ => rewrite H in A2 end. destruct A2 as (A2 & A3).
      match goal with H : rule last tried _ |- _ => destruct (Inv_ok _ _ _ _ _ _ Hi H) as [I1 I2] end.
      apply (STEP (ends c) [] Ground (ends c) o1); auto. rewrite A2. apply Inv_new.
    + destruct (FAIL b st e eq_refl eq_refl ltac:(assumption)) as [(F1 & F2 & F3)|(F1 & _)]; [|congruence].
      apply (STEP st [] Ground st _ F2 F3); auto. rewrite F1. apply Inv_new.
    + destruct (FAIL b st e eq_refl eq_refl ltac:(assumption)) as [(F1 & F2 & F3)|(F1 & p & state' & rend' & F2 & F3 & F4)].
      * apply (STEP last (st :: tried) Ground st _ F2 F3); auto. rewrite F1. apply Inv_done.
      * apply (STEP last (st :: tried) state' rend' _ F2 F3); auto.
Qed.

Lemma recover_finish (calls : list iocall) (s s' : S) (w : io_ansi S) l (h : history) :
  Forall call_regular calls ->
  io_session (IoWrite_ansi fuel sink) calls (lib_io_ansi s) = (w, l) -> follows rule style_default [] l ->
  io_ansi_finish sink w = (s', IoOk tt) ->
  map (fun e : str * style => (utf8 (fst e), snd e)) h = flat_map accepted l ->
  no_controls (text_of h) -> scalar_text (text_of h) ->
  exists out, held s' = held s ++ utf8 out /\
    term_feed sgr_style term_new out = mk_term Ground style_default (denote h).
Proof.
  intros Hc Hs Hl Hf Hw Hn Hsc.
  destruct (recover calls Hc _ _ _ _ _ h Ground style_default [] Hs Hl (Inv_new _) Hw Hn Hsc) as (o1 & A1 & A2).
  cbn [lib_io_ansi io_ansi_new ia_inner ia_current] in A1.
  exists (o1 ++ esc (ia_current w) style_default). split; [|exact A2].
  rewrite utf8_app, app_assoc, <- A1. revert Hf. unfold io_ansi_finish, esc, ansi_change.
  destruct (style_eqb_spec (ia_current w) style_default) as [->|Hne]; cbn [negb andb].
  - intros [= <-]. cbn. now rewrite app_nil_r.
  - intros H. apply (parts_ok _ _ held Hh) in H. exact H.
Qed.
End Recover.

(** C72: any sequence of write, write_all, write! and flush calls on io::Ansi over any honest sink,
    in which [write] and [flush] calls may fail with any errors at any point, as long as after a
    failed [write] (other than an interrupted one, after which there is no restriction) the caller
    next writes in the same style: what a terminal shows is exactly what the successful calls
    accepted ([h]); failed calls and half-written style changes leave no trace. *)
Theorem C72_retry {S} (sink : std_io S) (held : S -> bytes) (fuel : nat) (calls : list iocall)
  (s s' : S) (w : io_ansi S) (l : list (iocall * io_res nat)) (h : history) :
  honest sink held -> Forall call_regular calls ->
  io_session (IoWrite_ansi fuel sink) calls (lib_io_ansi s) = (w, l) ->
  follows again style_default [] l ->
  io_ansi_finish sink w = (s', IoOk tt) ->
  map (fun e : str * style => (utf8 (fst e), snd e)) h = flat_map accepted l ->
  no_controls (text_of h) -> scalar_text (text_of h) ->
  exists out, held s' = held s ++ utf8 out /\
    term_feed sgr_style term_new out = mk_term Ground style_default (denote h).
Proof.
  intros Hh.
  apply (recover_finish sink held fuel Hh again
    (fun _ tried cur state rend => match tried with
       | [] => state = Ground /\ rend = cur
       | t :: _ => (rend = cur \/ rend = t) /\ (state = Ground \/ cur <> t) end)).
  - intros last [|t tried] cur state rend st; cbn [again]; [intros [-> ->] _; auto|]. intros H ->. exact H.
  - auto.
  - auto.
  - intros last tried cur state rend st i i' e screen Hi Hr Hp.
    assert (Hs : (rend = cur \/ rend = st) /\ (state = Ground \/ cur <> st)).
    { destruct tried as [|t tried]; cbn [again] in Hr; [destruct Hi as [-> ->]; auto|]. subst t. exact Hi. }
    clear Hi Hr. destruct Hs as [Hs1 Hs2].
    assert (Hne : cur <> st) by (intros ->; rewrite ansi_change_same in Hp; discriminate).
    pose proof (parts_err _ _ held Hh _ _ _ _ Hp) as (_ & p & (q & Hq) & Hheld).
    change (concat (ansi_change cur st)) with (esc cur st) in Hq.
    rewrite (utf8_ascii _ (esc_ascii cur st)) in Hq.
    assert (Hpa : utf8 p = p).
    { apply utf8_ascii. pose proof (esc_ascii cur st) as A. unfold bytes, str, char in *. rewrite Hq in A. now apply Forall_app in A. }
    exists p. destruct q as [|q0 q].
    + rewrite app_nil_r in Hq. exists Ground, st. rewrite Hpa. split; [exact Hheld|].
      unfold bytes, str, char in *. rewrite <- Hq. split; [now apply esc_from|]. auto.
    + destruct (feed_prefix sgr_style cur st p (q0 :: q) state rend screen Hq ltac:(discriminate)) as [state' F].
      exists state', rend. rewrite Hpa. split; [exact Hheld|]. split; [exact F|]. auto.
Qed.
Print Assumptions C72_retry.

Lemma parts_short {S} (sink : std_io S) (held : S -> bytes) : honest sink held -> stops_short sink held ->
  forall parts, Forall (fun p => utf8 p <> []) parts -> forall i i' e,
  write_all_parts sink parts i = (i', IoErr e) ->
  exists p q, utf8 (concat parts) = p ++ q /\ q <> [] /\ held i' = held i ++ p.
Proof.
  intros Hh Hs parts. induction 1 as [|x parts Hx _ IH]; intros i i' e; cbn [write_all_parts concat]; [discriminate|].
  rewrite utf8_app. destruct (si_write_all sink i (utf8 x)) as [i1 [[]|e1|c]] eqn:E.
  - intros H. apply IH in H as (p & q & Hc & Hq & H). apply (ho_all_ok _ _ Hh) in E.
    exists (utf8 x ++ p), q. rewrite Hc, H, E, !app_assoc. auto.
  - intros [= <- <-]. destruct (Hs _ _ _ _ E Hx) as (p & q & E1 & E2 & E3).
    exists p, (q ++ utf8 (concat parts)). rewrite E1, <- app_assoc. split; [reflexivity|]. split; [|exact E3].
    intros N. apply app_eq_nil in N as [N _]. auto.
  - discriminate.
Qed.

Lemma change_nonempty cur st : Forall (fun p => utf8 p <> []) (ansi_change cur st).
Proof.
  unfold ansi_change. destruct (negb _ && _); [repeat constructor; discriminate|].
  fold (change_segs cur st). unfold change_segs.
  destruct (diff_from st cur) as [[f|] [b|] [i|]]; cbn [d_foreground d_background d_intensity option_map somes flat_map app];
    repeat constructor; try discriminate; try (destruct f; discriminate); try (destruct b; discriminate);
    destruct i; discriminate.
Qed.

(** C72: on sinks whose [write_all] does not fail after delivering everything (std's provided one
    does not) the caller may also go on in a style not used since the last successful call. *)
Theorem C72_fresh {S} (sink : std_io S) (held : S -> bytes) (fuel : nat) (calls : list iocall)
  (s s' : S) (w : io_ansi S) (l : list (iocall * io_res nat)) (h : history) :
  honest sink held -> stops_short sink held -> Forall call_regular calls ->
  io_session (IoWrite_ansi fuel sink) calls (lib_io_ansi s) = (w, l) ->
  follows again_or_fresh style_default [] l ->
  io_ansi_finish sink w = (s', IoOk tt) ->
  map (fun e : str * style => (utf8 (fst e), snd e)) h = flat_map accepted l ->
  no_controls (text_of h) -> scalar_text (text_of h) ->
  exists out, held s' = held s ++ utf8 out /\
    term_feed sgr_style term_new out = mk_term Ground style_default (denote h).
Proof.
  intros Hh Hshort.
  apply (recover_finish sink held fuel Hh again_or_fresh
    (fun last tried cur state rend => rend = cur /\ match tried with
       | [] => state = Ground /\ cur = last
       | t :: earlier => (state = Ground /\ In cur (last :: tried)) \/ (In cur (last :: earlier) /\ cur <> t) end)).
  - intros last [|t tried] cur state rend st; cbn [again_or_fresh]; [intros (-> & -> & _) _; auto|].
    intros (-> & H) Hr. split; [auto|]. destruct H as [[-> _]|[H1 H2]]; [auto|]. right. intros ->.
    destruct Hr as [->|Hr]; auto.
  - auto.
  - intros last tried st. split; [reflexivity|]. left. split; [reflexivity|]. right. left. reflexivity.
  - intros last tried cur state rend st i i' e screen (-> & Hi) Hr Hp.
    assert (Hne : cur <> st) by (intros ->; rewrite ansi_change_same in Hp; discriminate).
    destruct (parts_short sink held Hh Hshort _ (change_nonempty cur st) _ _ _ Hp) as (p & q & Hq & Hq0 & Hheld).
    change (concat (ansi_change cur st)) with (esc cur st) in Hq.
    rewrite (utf8_ascii _ (esc_ascii cur st)) in Hq.
    assert (Hpa : utf8 p = p).
    { apply utf8_ascii. pose proof (esc_ascii cur st) as A. unfold bytes, str, char in *. rewrite Hq in A. now apply Forall_app in A. }
    destruct (feed_prefix sgr_style cur st p q state cur screen Hq Hq0) as [state' F].
    exists p, state', cur. rewrite Hpa. split; [exact Hheld|]. split; [exact F|]. split; [reflexivity|].
    right. split; [|exact Hne]. destruct tried as [|t tried].
    + destruct Hi as [_ ->]. left. reflexivity.
    + destruct Hi as [[_ Hi]|[Hi _]]; [exact Hi|]. destruct Hi as [<-|Hi]; [left; reflexivity|]. right. right. exact Hi.
Qed.
Print Assumptions C72_fresh.

(** std's provided [write_all] stops short when it fails. *)
Lemma std_default_short {S} (held : S -> bytes) fuel (write : S -> bytes -> S * io_res nat) flush :
  (forall s b s' n, write s b = (s', IoOk n) -> n <= length b /\ held s' = held s ++ firstn n b) ->
  (forall s b s' e, write s b = (s', IoErr e) -> held s' = held s) ->
  stops_short (std_default fuel write flush) held.
Proof.
  intros H1 H2. unfold stops_short. cbn [std_default si_write_all].
  induction fuel as [|fuel IH]; intros s [|x b] s' e; cbn [std_write_all]; try discriminate.
  destruct (write s (x :: b)) as [s1 [[|n]|e1|c]] eqn:E; try discriminate.
  - intros [= <- <-] _. exists [], (x :: b). split; [reflexivity|]. split; [discriminate|].
    apply H1 in E as [_ E]. exact E.
  - destruct (Datatypes.S n <=? length (x :: b)) eqn:En; [|discriminate]. intros H _.
    apply H1 in E as [_ E]. destruct (skipn (Datatypes.S n) (x :: b)) as [|y r] eqn:Es.
    { destruct fuel; discriminate. }
    destruct (IH _ _ _ _ H ltac:(discriminate)) as (p & q & Hr & Hq & Hp).
    exists (firstn (Datatypes.S n) (x :: b) ++ p), q. split; [|split; [exact Hq|]].
    + rewrite <- app_assoc, <- Hr, <- Es. symmetry. apply firstn_skipn.
    + now rewrite Hp, E, app_assoc.
  - destruct (is_interrupted e1).
    + intros H Hne. apply H2 in E. rewrite <- E. exact (IH _ _ _ _ H Hne).
    + intros [= <- <-] _. exists [], (x :: b). split; [reflexivity|]. split; [discriminate|].
      apply H2 in E. now rewrite app_nil_r.
Qed.
Lemma scripted_short fuel : stops_short (scripted fuel) fst.
Proof.
  apply std_default_short.
  - intros [h sc] b s' n. unfold scripted_write. cbn [fst snd]. destruct sc as [|[k|e] r].
    + intros [= <- <-]. cbn [fst]. split; [lia|]. now rewrite firstn_all.
    + intros [= <- <-]. cbn [fst]. split; [lia|]. f_equal.
      destruct (Nat.le_ge_cases k (length b)).
      * now rewrite Nat.min_l.
      * rewrite Nat.min_r, firstn_all, firstn_all2; auto.
    + discriminate.
  - intros [h sc] b s' e. unfold scripted_write. cbn [fst snd]. destruct sc as [|[k|e'] r]; try discriminate.
    intros [= <- <-]. reflexivity.
Qed.

(** C72: the rule is needed: a failed [write] in red followed by a successful one in the style
    written before loses text, whichever way the sink fails. *)
Theorem C72_rule_needed :
  let red := mk_style Red ColorDefault Normal in
  let e := mk_error (Kind 3) 7 in
  let calls := [IWrite (lit "a") red; IWrite (lit "5mb") style_default] in
  let '(w, l) := io_session (IoWrite_ansi 9 (scripted 9)) calls (lib_io_ansi ([], [inl 2; inr e])) in
  map snd l = [IoErr e; IoOk 3] /\
  let '(s', r) := io_ansi_finish (scripted 9) w in
  r = IoOk tt /\ fst s' = ESC :: lit "[5mb" /\
  term_feed sgr_style term_new (fst s') = mk_term Ground style_default [(98%N, style_default)].
Proof. vm_compute. repeat split; reflexivity. Qed.
Print Assumptions C72_rule_needed.

(** Non-vacuity: an interrupted write followed by another style, two different failures in one
    style change and then a fresh style, a failed flush, a write!. *)
Example C72_nonvacuous :
  let red := mk_style Red ColorDefault Normal in let blue := mk_style Blue ColorDefault Bold in
  let int := mk_error Interrupted 1 in let e := mk_error (Kind 3) 7 in
  let args : arguments := fun f => formatter_write_str f (lit "c") in
  let sc := [inl 2; inl 2; inl 1; inr int;            (* red: escape done, text interrupted *)
             inl 2; inl 1; inr e;                     (* blue: torn after ESC [ 3 *)
             inr e;                                   (* blue again: torn at once *)
             inl 4; inl 4] in                         (* default: reset, text *)
  let calls := [IWrite (lit "a") red; IWrite (lit "b") blue; IWrite (lit "b") blue; IWrite (lit "x") style_default;
                IFlush; IFmt args] in
  honest (scripted 9) fst /\ stops_short (scripted 9) fst /\ Forall call_regular calls /\
  let '(w, l) := io_session (IoWrite_ansi 9 (scripted 9)) calls (lib_io_ansi ([], sc)) in
  map snd l = [IoErr int; IoErr e; IoErr e; IoOk 1; IoOk 0; IoOk 0] /\
  follows again_or_fresh style_default [] l /\ snd (io_ansi_finish (scripted 9) w) = IoOk tt /\
  map (fun e : str * style => (utf8 (fst e), snd e)) [(lit "x", style_default); (lit "c", style_default)] = flat_map accepted l.
Proof.
  split; [apply scripted_honest|]. split; [apply scripted_short|]. split.
  { repeat constructor; cbn; auto. }
  cbv zeta.
  match goal with |- let '(w, l) := ?x in _ => let y := eval vm_compute in x in change x with y end. cbv iota beta.
  split; [reflexivity|]. split; [|split; reflexivity].
  apply fo_interrupted; [reflexivity|exact I|]. apply fo_failure; [exact I|].
  apply fo_failure; [left; reflexivity|]. eapply fo_success; [reflexivity| |].
  - cbn [again_or_fresh]. right. intros [H|[H|[]]]; discriminate.
  - apply fo_flush. eapply fo_success; [reflexivity|exact I|]. apply fo_finish. exact I.
Qed.
Example C72_retry_nonvacuous :
  let red := mk_style Red ColorDefault Normal in let e := mk_error (Kind 3) 7 in
  let calls := [IWrite (lit "ab") red; IWrite (lit "ab") red; IFlush; IAll (lit "ab") red; IWrite (lit "c") style_default] in
  Forall call_regular calls /\
  let '(w, l) := io_session (IoWrite_ansi 9 (scripted 9)) calls (lib_io_ansi ([], [inl 2; inr e; inl 1; inr e])) in
  map snd l = [IoErr e; IoErr e; IoOk 0; IoOk 0; IoOk 1] /\ follows again style_default [] l /\
  fst (fst (io_ansi_finish (scripted 9) w)) = ESC :: lit "[" ++ ESC :: ESC :: lit "[31mab" ++ ESC :: lit "[0mc".
Proof.
  split; [repeat constructor|]. cbv zeta.
  match goal with |- let '(w, l) := ?x in _ => let y := eval vm_compute in x in change x with y end. cbv iota beta.
  split; [reflexivity|]. split; [|reflexivity].
  apply fo_failure; [exact I|]. apply fo_failure; [reflexivity|]. apply fo_flush.
  eapply fo_success; [reflexivity|reflexivity|]. eapply fo_success; [reflexivity|exact I|]. apply fo_finish. exact I.
Qed.

(** * C73: in-memory Ansi *)
Lemma ansi_write_ok {S} (sink : fmt_sink S) held w s st w' : honest_fmt sink held ->
  ansi_write_str sink w s st = (w', Returned Ok) ->
  held (an_inner w') = held (an_inner w) ++ ansi_render (an_current w) (paint st s) /\
  an_current w' = last_style (an_current w) (paint st s).
Proof.
  intros Hh. unfold ansi_write_str. destruct s as [|c s]; cbn [is_empty].
  - intros [= <-]. cbn. now rewrite app_nil_r.
  - destruct (write_parts sink (ansi_change (an_current w) st) (an_inner w)) as [i [[|]|]] eqn:E; try discriminate.
    destruct (sink i (c :: s)) as [i' r] eqn:E2. intros [= <- ->].
    pose proof (honest_parts _ _ _ _ _ _ Hh E) as H1. cbn in H1. pose proof (Hh _ _ _ _ E2) as H2. cbn in H2.
    cbn [an_inner an_current]. rewrite H2, H1, last_style_paint, ansi_render_paint by congruence.
    unfold esc. rewrite <- app_assoc. auto.
Qed.
Lemma ansi_play_ok {S} (sink : fmt_sink S) held : honest_fmt sink held -> forall h w w',
  play (ansi_write_str sink) h w = (w', Returned Ok) ->
  held (an_inner w') = held (an_inner w) ++ ansi_render (an_current w) (denote h) /\
  an_current w' = last_style (an_current w) (denote h).
Proof.
  intros Hh. induction h as [|[s st] h IH]; intros w w'; cbn [play].
  - intros [= <-]. cbn. now rewrite app_nil_r.
  - destruct (ansi_write_str sink w s st) as [w1 [[|]|]] eqn:E; try discriminate. intros H.
    apply (ansi_write_ok _ _ _ _ _ _ Hh) in E as [E1 E2]. apply IH in H as [H1 H2].
    cbn [denote]. rewrite H1, E1, H2, E2, ansi_render_app, last_style_app, <- app_assoc. auto.
Qed.

Lemma render_from cur c st t state rend screen : no_controls (chars ((c, st) :: t)) ->
  (rend = cur \/ rend = st) -> (state = Ground \/ cur <> st) ->
  term_feed sgr_style (mk_term state rend screen) (ansi_render cur ((c, st) :: t))
  = mk_term Ground (last_style cur ((c, st) :: t)) (screen ++ (c, st) :: t).
Proof.
  intros Hn H1 H2. rewrite <- (render_shows cur _ screen Hn). cbn [ansi_render].
  rewrite !feed_app, !esc_from; auto.
Qed.

Section RecoverMem.
Context {S : Type} (sink : fmt_sink S) (held : S -> str).
Hypothesis Hh : honest_fmt sink held.
Hypothesis Ha : atomic_fmt sink held.

Lemma call_ok (c : wcall) (w w' : ansi S) :
  wcall_regular c -> do_call (Write_ansi sink) w c = (w', Returned Ok) ->
  held (an_inner w') = held (an_inner w) ++ ansi_render (an_current w) (denote (call_text c)) /\
  an_current w' = last_style (an_current w) (denote (call_text c)).
Proof.
  intros Hr H. destruct c as [s st|c st|args]; cbn [do_call Write_ansi Write_default w_write_str w_write_char w_write_fmt call_text] in *.
  - cbn [denote]. rewrite app_nil_r. exact (ansi_write_ok _ _ _ _ _ _ Hh H).
  - unfold default_write_char in H. cbn [denote]. rewrite app_nil_r. exact (ansi_write_ok _ _ _ _ _ _ Hh H).
  - rewrite default_write_fmt_run, run_propagates in H by exact Hr.
    destruct (play (ansi_write_str sink) (ok_events (args formatter_new)) w) as [w1 [[|]|]] eqn:E; try discriminate.
    injection H as -> _. exact (ansi_play_ok _ _ Hh _ _ _ E).
Qed.

(** A failed write either made the style change, or stopped inside it. *)
Lemma call_failed (c : wcall) (w w' : ansi S) (st : style) (o : outcome) :
  single c -> wbegins c = Some st -> do_call (Write_ansi sink) w c = (w', o) -> o <> Returned Ok ->
  (an_current w' = st /\ held (an_inner w') = held (an_inner w) ++ esc (an_current w) st) \/
  (an_current w' = an_current w /\ an_current w <> st /\
   exists p q, esc (an_current w) st = p ++ q /\ q <> [] /\ held (an_inner w') = held (an_inner w) ++ p).
Proof.
  assert (G : forall s : str, s <> [] -> ansi_write_str sink w s st = (w', o) -> o <> Returned Ok ->
    (an_current w' = st /\ held (an_inner w') = held (an_inner w) ++ esc (an_current w) st) \/
    (an_current w' = an_current w /\ an_current w <> st /\
     exists p q, esc (an_current w) st = p ++ q /\ q <> [] /\ held (an_inner w') = held (an_inner w) ++ p)).
  { intros s Hs H Ho. unfold ansi_write_str in H. destruct s as [|c0 s]; [congruence|]. cbn [is_empty] in H.
    destruct (write_parts sink (ansi_change (an_current w) st) (an_inner w)) as [i o1] eqn:E.
    assert (T : o1 <> Returned Ok -> (w', o) = (mk_ansi i (an_current w), o1) ->
      an_current w' = an_current w /\ an_current w <> st /\
      exists p q, esc (an_current w) st = p ++ q /\ q <> [] /\ held (an_inner w') = held (an_inner w) ++ p).
    { intros Ho1 [= -> ->]. cbn [an_current an_inner]. split; [reflexivity|]. split.
      - intros X. rewrite X, ansi_change_same in E. cbn in E. congruence.
      - destruct (atomic_parts _ _ _ _ _ _ Ha E Ho1) as (l1 & x & l2 & Hl & Hheld).
        exists (concat l1), (x ++ concat l2). unfold esc. rewrite Hl, concat_app. split; [reflexivity|].
        split; [|exact Hheld]. pose proof (change_nonempty (an_current w) st) as N. rewrite Hl in N.
        apply Forall_app in N as [_ N]. inversion N as [|y z Hy _]; subst. intros X.
        apply app_eq_nil in X as [-> _]. now apply Hy. }
    destruct o1 as [[|]|c1].
    - destruct (sink i (c0 :: s)) as [i' r] eqn:E2. injection H as <- ->. left. cbn [an_current an_inner].
      split; [reflexivity|]. pose proof (honest_parts _ _ _ _ _ _ Hh E) as H1. cbn in H1.
      pose proof (Ha _ _ _ _ E2) as H2. unfold esc. rewrite <- H1. destruct o as [[|]|]; congruence.
    - right. apply T; [discriminate|congruence].
    - right. apply T; [discriminate|congruence]. }
  intros Hsi Hb H Ho. destruct c as [s st'|c st'|args]; [| |destruct Hsi];
    cbn [do_call Write_ansi Write_default w_write_str w_write_char w_write_fmt] in H; unfold wbegins in Hb; cbn [call_text denote] in Hb.
  - rewrite app_nil_r in Hb. destruct s as [|c s]; [discriminate|]. cbn in Hb. injection Hb as ->.
    now apply (G (c :: s)).
  - cbn in Hb. injection Hb as ->. unfold default_write_char in H. now apply (G [c]).
Qed.

Lemma recover_mem (calls : list wcall) : Forall wcall_regular calls -> forall last tried (w : ansi S) state rend screen,
  let (w', os) := session (Write_ansi sink) calls w in
  let l := combine calls os in
  wfollows again_or_fresh last tried l ->
  (rend = an_current w /\ match tried with
     | [] => state = Ground /\ an_current w = last
     | t :: earlier => (state = Ground /\ In (an_current w) (last :: tried)) \/
                       (In (an_current w) (last :: earlier) /\ an_current w <> t) end) ->
  no_controls (text_of (flat_map wrote l)) ->
  exists out : str, held (an_inner w') = held (an_inner w) ++ out /\
    term_feed sgr_style (mk_term state rend screen) (out ++ esc (an_current w') style_default)
    = mk_term Ground style_default (screen ++ denote (flat_map wrote l)).
Proof.
  assert (READY : forall last tried cur state rend st,
    (rend = cur /\ match tried with
     | [] => state = Ground /\ cur = last
     | t :: earlier => (state = Ground /\ In cur (last :: tried)) \/ (In cur (last :: earlier) /\ cur <> t) end) ->
    again_or_fresh last tried st -> (rend = cur \/ rend = st) /\ (state = Ground \/ cur <> st)).
  { intros last [|t tried] cur state rend st; cbn [again_or_fresh]; [intros (-> & -> & _) _; auto|].
    intros (-> & H) Hr. split; [auto|]. destruct H as [[-> _]|[H1 H2]]; [auto|]. right. intros ->.
    destruct Hr as [->|Hr]; auto. }
  induction 1 as [|c calls Hc _ IH]; intros last tried w state rend screen; cbn [session].
  - cbn [combine flat_map]. intros Hf Hi _. exists []. split; [now rewrite app_nil_r|]. cbn [app denote]. rewrite app_nil_r.
    inversion Hf; subst. destruct (READY _ _ _ _ _ _ Hi ltac:(eassumption)). now apply esc_from.
  - destruct (do_call (Write_ansi sink) w c) as [w1 o] eqn:E1.
    specialize (fun last tried => IH last tried w1).
    destruct (session (Write_ansi sink) calls w1) as [w2 os] eqn:E2.
    cbn [combine flat_map]. intros Hf Hi Hn.
    assert (T : text_of (wrote (c, o) ++ flat_map wrote (combine calls os)) = text_of (wrote (c, o)) ++ text_of (flat_map wrote (combine calls os)))
      by (unfold text_of; now rewrite map_app, concat_app).
    rewrite T in Hn. apply Forall_app in Hn as [Hn1 Hn2]. rewrite denote_app.
    inversion Hf; subst.
    + cbn [wrote] in *. unfold wbegins in *. apply call_ok in E1 as [A1 A2]; [|exact Hc].
      destruct (denote (call_text c)); [|discriminate]. cbn in A1, A2. rewrite app_nil_r in A1.
      destruct (IH last tried state rend screen ltac:(assumption) ltac:(now rewrite A2) Hn2) as (out & B1 & B2).
      exists out. rewrite B1, A1. split; [reflexivity|]. exact B2.
    + cbn [wrote] in *. unfold wbegins, wends in *. apply call_ok in E1 as [A1 A2]; [|exact Hc].
      assert (Hn1' : no_controls (chars (denote (call_text c)))) by now rewrite chars_denote.
      destruct (denote (call_text c)) as [|[c0 st0] t] eqn:Ed; [discriminate|].
      match goal with H : hd_error _ = Some st |- _ => cbn in H; injection H as -> end.
      match goal with H : again_or_fresh _ _ _ |- _ => destruct (READY _ _ _ _ _ _ Hi H) as [R1 R2] end.
      pose proof (render_from (an_current w) c0 st t state rend screen Hn1' R1 R2) as F.
      rewrite last_style_last in A2, F.
      destruct (IH _ [] Ground (an_current w1) (screen ++ (c0, st) :: t) ltac:(eassumption)
        ltac:(split; [reflexivity|split; [reflexivity|exact A2]]) Hn2) as (out & B1 & B2).
      eexists. split; [rewrite B1, A1, <- app_assoc; reflexivity|].
      rewrite <- app_assoc, feed_app. match goal with |- term_feed _ ?x _ = _ => replace x with (mk_term Ground (an_current w1) (screen ++ (c0, st) :: t)) by (rewrite A2; symmetry; exact F) end. rewrite B2, <- app_assoc. reflexivity.
    + assert (W : wrote (c, o) = []) by (destruct o as [[|]|]; cbn; congruence). rewrite W in *. cbn [denote app].
      match goal with H : again_or_fresh _ _ _ |- _ => destruct (READY _ _ _ _ _ _ Hi H) as [R1 R2] end.
      destruct (call_failed c w w1 st o ltac:(assumption) ltac:(assumption) E1 ltac:(assumption)) as [(F1 & F2)|(F1 & F2 & p & q & F3 & F4 & F5)].
      * destruct (IH last (st :: tried) Ground st screen ltac:(assumption)
          ltac:(split; [now rewrite F1|left; split; [reflexivity|right; left; now rewrite F1]]) Hn2) as (out & B1 & B2).
        exists (esc (an_current w) st ++ out). rewrite B1, F2, <- !app_assoc. split; [reflexivity|].
        rewrite feed_app, esc_from by assumption. exact B2.
      * destruct (feed_prefix sgr_style (an_current w) st p q state rend screen F3 F4) as [state' F].
        destruct (IH last (st :: tried) state' rend screen ltac:(assumption)) as (out & B1 & B2).
        { rewrite F1. split; [apply Hi|]. right. split; [|exact F2]. destruct Hi as [_ Hi]. destruct tried as [|t tried].
          - destruct Hi as [_ ->]. left. reflexivity.
          - destruct Hi as [[_ Hi]|[Hi _]]; [exact Hi|]. destruct Hi as [<-|Hi]; [left; reflexivity|]. right. right. exact Hi. }
        { exact Hn2. }
        exists (p ++ out). rewrite B1, F5, <- !app_assoc. split; [reflexivity|]. now rewrite feed_app, F.
Qed.
End RecoverMem.

(** C73: any sequence of write_str, write_char and write! calls on an Ansi adaptor over any sink that
    takes all or nothing of each call, in which write_str and write_char calls may fail or panic
    at any point, as long as the caller next writes in the style of the failed call or in one not
    used since the last success: a terminal shows exactly what the successful calls wrote. *)
Theorem C73_sessions {S} (sink : fmt_sink S) (held : S -> str) (calls : list wcall) (i i' : S) :
  atomic_fmt sink held -> held i = [] -> Forall wcall_regular calls ->
  let (w, results) := session (Write_ansi sink) calls (lib_ansi i) in
  let log := combine calls results in
  wfollows again_or_fresh style_default [] log ->
  ansi_finish sink w = (i', Returned Ok) ->
  no_controls (text_of (flat_map wrote log)) ->
  term_feed sgr_style term_new (held i') = mk_term Ground style_default (denote (flat_map wrote log)).
Proof.
  intros Ha H0 Hc. pose proof (atomic_honest sink held Ha) as Hh.
  pose proof (recover_mem sink held Hh Ha calls Hc style_default [] (lib_ansi i) Ground style_default []) as G.
  destruct (session (Write_ansi sink) calls (lib_ansi i)) as [w os]. cbv zeta in *. intros Hf Hfin Hn.
  destruct (G Hf ltac:(auto) Hn) as (out & G1 & G2). cbn [lib_ansi ansi_new an_inner] in G1. rewrite H0 in G1. cbn [app] in G1.
  assert (E : held i' = out ++ esc (an_current w) style_default).
  { rewrite <- G1. revert Hfin. unfold ansi_finish, esc, ansi_change.
    destruct (style_eqb_spec (an_current w) style_default) as [->|Hne]; cbn [negb andb].
    - intros [= <-]. cbn. now rewrite app_nil_r.
    - intros H. exact (honest_parts _ _ _ _ _ _ Hh H). }
  rewrite E. exact G2.
Qed.
Print Assumptions C73_sessions.

Example C73_nonvacuous :
  let red := mk_style Red ColorDefault Normal in let blue := mk_style Blue ColorDefault Normal in
  let ok := Returned Ok in
  let args : arguments := fun f => formatter_write_str f (lit "c") in
  let calls := [CStr (lit "a") red; CStr [] blue; CChar 98%N red; CChar 98%N blue; CFmt args] in
  (* a torn change to red, torn again after the bracket, then blue *)
  let '(w, results) := session (Write_ansi flaky) calls (lib_ansi (lit "", [ok; Crashed Panic; ok; Returned Err])) in
  let log := combine calls results in
  results = [Crashed Panic; ok; Returned Err; ok; ok] /\ Forall wcall_regular calls /\
  wfollows again_or_fresh style_default [] log /\ no_controls (text_of (flat_map wrote log)) /\
  denote (flat_map wrote log) = [(98%N, blue); (99%N, style_default)] /\
  fst (fst (ansi_finish flaky w)) = ESC :: lit "[" ++ ESC :: lit "[" ++ ESC :: lit "[34mb" ++ ESC :: lit "[0mc".
Proof.
  cbv zeta.
  match goal with |- let '(w, l) := ?x in _ => let y := eval vm_compute in x in change x with y end. cbv iota beta zeta.
  split; [reflexivity|]. split; [repeat constructor|]. split; [|split; [repeat constructor|split; reflexivity]].
  cbn [combine]. eapply wf_failure; [exact I|reflexivity|discriminate|exact I|].
  apply wf_nothing; [reflexivity|]. eapply wf_failure; [exact I|reflexivity|discriminate|left; reflexivity|].
  eapply wf_success; [reflexivity| |].
  - cbn [again_or_fresh]. right. intros [H|[H|[]]]; discriminate.
  - eapply wf_success; [reflexivity|exact I|]. apply wf_finish. exact I.
Qed.

(** * C61 for io::Ansi *)
(** Several adaptors, one after the other, on the same sink: each takes the sink, makes some calls
    that all succeed, and gives it back with [finish]. *)
Inductive in_turn {S} (sink : std_io S) (fuel : nat) : S -> list (list (iocall * io_res nat)) -> S -> Prop :=
  | it_nil s : in_turn sink fuel s [] s
  | it_cons s calls w l s1 ls s2 :
      Forall call_regular calls ->
      io_session (IoWrite_ansi fuel sink) calls (lib_io_ansi s) = (w, l) -> Forall succeeded l ->
      io_ansi_finish sink w = (s1, IoOk tt) -> in_turn sink fuel s1 ls s2 ->
      in_turn sink fuel s (l :: ls) s2.

(** C61: the terminal shows what they accepted, one after the other. *)
Theorem C61_io_concat {S} (sink : std_io S) (held : S -> bytes) (fuel : nat) (s s' : S)
  (ls : list (list (iocall * io_res nat))) (hs : list history) :
  honest sink held -> in_turn sink fuel s ls s' ->
  Forall2 (fun l h => encodes (flat_map accepted l) h) ls hs -> no_controls (text_of (concat hs)) ->
  exists out, held s' = held s ++ utf8 out /\
    term_feed sgr_style term_new out = mk_term Ground style_default (denote (concat hs)).
Proof.
  intros Hh Ht Hw Hn.
  enough (G : exists out, held s' = held s ++ utf8 out /\
    forall screen, term_feed sgr_style (mk_term Ground style_default screen) out
                   = mk_term Ground style_default (screen ++ denote (concat hs))).
  { destruct G as (out & G1 & G2). exists out. split; [exact G1|]. apply G2. }
  revert hs Hw Hn. induction Ht as [s|s calls w l s1 ls s2 Hc Hses Hok Hfin _ IH]; intros hs Hw Hn.
  - inversion Hw; subst. exists []. split; [cbn; now rewrite app_nil_r|]. intros screen. cbn. now rewrite app_nil_r.
  - inversion Hw as [|l0 h1 ls0 hs1 Hw1 Hw2]; subst. cbn [concat] in *.
    assert (T : text_of (h1 ++ concat hs1) = text_of h1 ++ text_of (concat hs1))
      by (unfold text_of; now rewrite map_app, concat_app).
    rewrite T in Hn. apply Forall_app in Hn as [Hn1 Hn2].
    destruct (IH hs1 Hw2 Hn2) as (o2 & B1 & B2).
    destruct (io_session_shows sink held fuel calls Hh Hc _ _ _ h1 Hses Hok Hw1 Hn1) as (o1 & A1 & _ & A2).
    cbn [lib_io_ansi io_ansi_new ia_inner ia_current] in A1, A2.
    exists ((o1 ++ esc (ia_current w) style_default) ++ o2). split.
    + rewrite B1, utf8_app, app_assoc. f_equal. rewrite utf8_app, app_assoc, <- A1.
      revert Hfin. unfold io_ansi_finish, esc, ansi_change.
      destruct (style_eqb_spec (ia_current w) style_default) as [->|Hne]; cbn [negb andb].
      * intros [= <-]. cbn. now rewrite app_nil_r.
      * intros H. apply (parts_ok _ _ held Hh) in H. exact H.
    + intros screen. rewrite !feed_app, A2, esc_default_ends, B2, denote_app, app_assoc. reflexivity.
Qed.
Print Assumptions C61_io_concat.
Example C61_io_nonvacuous :
  let red := mk_style Red ColorDefault Normal in
  exists s', in_turn vec_sink 1 ([] : bytes)
    [[(IAll (lit "a") red, IoOk 0)]; [(IWrite (lit "b") style_default, IoOk 1)]] s' /\
    s' = ESC :: lit "[31ma" ++ ESC :: lit "[0mb".
Proof.
  eexists. split.
  - eapply (it_cons vec_sink 1 _ [IAll (lit "a") (mk_style Red ColorDefault Normal)]);
      [repeat constructor|reflexivity|repeat constructor; eexists; reflexivity|reflexivity|].
    eapply (it_cons vec_sink 1 _ [IWrite (lit "b") style_default]);
      [repeat constructor|reflexivity|repeat constructor; eexists; reflexivity|reflexivity|]. apply it_nil.
  - reflexivity.
Qed.

(** * C60, C63 for io::Ansi *)
(** C60: two sessions (on any two honest sinks) that leave the same bytes wrote the same styled
    text. *)
Theorem C60_io_faithful {S T} (sink1 : std_io S) (sink2 : std_io T) (held1 : S -> bytes) (held2 : T -> bytes)
  (fuel1 fuel2 : nat) (calls1 calls2 : list iocall) s1 s1' s2 s2' w1 w2 l1 l2 (h1 h2 : history) :
  honest sink1 held1 -> honest sink2 held2 -> Forall call_regular calls1 -> Forall call_regular calls2 ->
  io_session (IoWrite_ansi fuel1 sink1) calls1 (lib_io_ansi s1) = (w1, l1) -> Forall succeeded l1 ->
  io_session (IoWrite_ansi fuel2 sink2) calls2 (lib_io_ansi s2) = (w2, l2) -> Forall succeeded l2 ->
  io_ansi_finish sink1 w1 = (s1', IoOk tt) -> io_ansi_finish sink2 w2 = (s2', IoOk tt) ->
  encodes (flat_map accepted l1) h1 -> encodes (flat_map accepted l2) h2 ->
  no_controls (text_of h1) -> no_controls (text_of h2) -> scalar_text (text_of h1) -> scalar_text (text_of h2) ->
  held1 s1 = [] -> held2 s2 = [] -> held1 s1' = held2 s2' -> denote h1 = denote h2.
Proof.
  intros Ha Hb Ca Cb Sa La Sb Lb Fa Fb Ea Eb Na Nb Ua Ub Za Zb E.
  destruct (C66_io_ansi sink1 held1 fuel1 calls1 s1 s1' w1 l1 h1 Ha Ca Sa La Fa Ea Na) as (o1 & A1 & A2 & A3).
  destruct (C66_io_ansi sink2 held2 fuel2 calls2 s2 s2' w2 l2 h2 Hb Cb Sb Lb Fb Eb Nb) as (o2 & B1 & B2 & B3).
  rewrite A1, B1, Za, Zb in E. cbn [app] in E.
  pose proof (decode_utf8 _ (A2 Ua)) as D1. pose proof (decode_utf8 _ (B2 Ub)) as D2.
  rewrite E, D2 in D1. injection D1 as ->. rewrite A3 in B3. now injection B3.
Qed.
Print Assumptions C60_io_faithful.

Lemma esc_sent_length cur st : length (utf8 (esc cur st)) <= 12.
Proof. rewrite (utf8_ascii _ (esc_ascii cur st)). apply esc_length. Qed.
Lemma sent_length l : forall cur,
  length (bytes_sent cur l) <= length (concat (map fst l)) + 12 * length l.
Proof.
  induction l as [|[b st] l IH]; intros cur; [cbn; lia|]. cbn [bytes_sent map concat fst length].
  rewrite !app_length. pose proof (esc_sent_length cur st). specialize (IH st). lia.
Qed.
Lemma thinned_length l m : thinned l m ->
  length (concat (map fst m)) = length (concat (map fst l)) /\ length m <= length l.
Proof.
  induction 1 as [|x l m _ [IH1 IH2]|st l m _ [IH1 IH2]]; cbn [map concat fst length app]; [auto| |]; rewrite ?app_length; lia.
Qed.
(** C63: the bytes sent are at most those accepted, 12 for each accepted write and 4 for
    [finish]. *)
Theorem C63_io_size {S} (sink : std_io S) (held : S -> bytes) (fuel : nat) (calls : list iocall)
  (s s' : S) (w : io_ansi S) (l : list (iocall * io_res nat)) :
  honest sink held -> Forall call_regular calls ->
  io_session (IoWrite_ansi fuel sink) calls (lib_io_ansi s) = (w, l) -> Forall succeeded l ->
  io_ansi_finish sink w = (s', IoOk tt) ->
  length (held s') <= length (held s) + length (concat (map fst (flat_map accepted l)))
                      + 12 * length (flat_map accepted l) + 4.
Proof.
  intros Hh Hc Hs Hl Hf.
  destruct (io_session_sent sink held fuel calls Hh Hc _ _ _ Hs Hl) as (m & A1 & A2 & A3).
  cbn [lib_io_ansi io_ansi_new ia_inner ia_current] in A3.
  assert (F : length (held s') <= length (held (ia_inner w)) + 4).
  { revert Hf. unfold io_ansi_finish. destruct (style_eqb (ia_current w) style_default); cbn [negb].
    - intros [= <-]. lia.
    - intros H. apply (parts_ok _ _ held Hh) in H. rewrite H, app_length. cbn. lia. }
  rewrite A3, app_length in F. pose proof (sent_length m style_default).
  destruct (thinned_length _ _ A1) as [E1 E2]. lia.
Qed.
Print Assumptions C63_io_size.
