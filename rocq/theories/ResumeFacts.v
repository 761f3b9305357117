(** Lemmas for C91 and C92: sessions on Ansi adaptors in which any call may fail, as seen on a terminal of any
    kind. *)
From Verif Require Import Base Style Fmt Plain Ansi Io StdIo Lib SpecText TextFacts StyleFacts SpecTerminal AnsiFacts
  SpecSink RetryFacts SpecUtf8 Utf8Facts SpecIo IoFacts SpecSession PropsSession PropsRetry PropsMore PropsRecover SpecResume SpecAnyTerm AnyTermFacts.

(** * Styles *)
Lemma sole_all l : forall st, sole l = Some st -> forall x, In x l -> x = st.
Proof.
  destruct l as [|s l]; intros st; cbn [sole]; [discriminate|].
  destruct (forallb (style_eqb s) l) eqn:E; [|discriminate]. intros [= <-] x [->|Hx]; [reflexivity|].
  rewrite forallb_forall in E. specialize (E x Hx). destruct (style_eqb_spec s x); congruence.
Qed.

Lemma same_text (l : history) : forall h : history, map (fun e : str * style => (utf8 (fst e), snd e)) h
  = map (fun e : str * style => (utf8 (fst e), snd e)) l ->
  scalar_text (text_of l) -> scalar_text (text_of h) -> h = l.
Proof.
  induction l as [|[s' st'] l IH]; intros [|[s st] h] H A B; try discriminate; [reflexivity|].
  cbn [map fst snd] in H. injection H as Hs -> H. unfold scalar_text, text_of in A, B. cbn [map fst concat] in A, B.
  apply Forall_app in A as [A1 A2]. apply Forall_app in B as [B1 B2].
  apply decode_utf8 in A1. apply decode_utf8 in B1. rewrite Hs, A1 in B1. injection B1 as ->.
  f_equal. now apply IH.
Qed.
Lemma text_app (a b : history) : text_of (a ++ b) = text_of a ++ text_of b.
Proof. unfold text_of. now rewrite map_app, concat_app. Qed.
Lemma last_style_in t : forall cur, In (last_style cur t) (cur :: map snd t).
Proof.
  induction t as [|[c st] t IH]; intros cur; [left; reflexivity|]. cbn [map snd].
  change (last_style cur ((c, st) :: t)) with (last_style st t). right. apply IH.
Qed.

Section AnyTerminal.
Context {R : Type} (sgr : N -> R -> R) (look : style -> R) (allowed : intensity -> Prop).
Hypothesis Hu : understands sgr look allowed.
Notation ready := (ready look allowed).
Notation fine st := (allowed (intens st)).

Definition sync (fresh : bool) (last : style) (tried : list style) (retry : option style)
  (cur : style) (state : pstate) (rend : R) : Prop :=
  (forall st, fine st -> may fresh last tried retry st -> ready cur state rend st) /\
  (fresh = true -> rend = look cur /\ In cur (last :: tried)).
Lemma sync_new fresh st : fine st -> sync fresh st [] None st Ground (look st).
Proof. intros H. split; [intros x Hx _; now apply ready_at|]. intros _. split; [reflexivity|]. left. reflexivity. Qed.
Lemma sync_fail fresh last tried retry cur state rend cur' state' rend' styles at' :
  sync fresh last tried retry cur state rend -> In at' styles ->
  In cur' (cur :: styles) -> ready cur' state' rend' at' -> (fresh = true -> rend' = look cur') ->
  sync fresh last (styles ++ tried) (sole styles) cur' state' rend'.
Proof.
  intros [_ Hf] Ha Hc Hr Hrend. split.
  - intros st Hfine [H|[H|[Hfr H]]].
    + apply app_eq_nil in H as [-> _]. destruct Ha.
    + rewrite <- (sole_all _ _ H _ Ha). exact Hr.
    + destruct (Hf Hfr) as [_ Hin]. split; [split; [apply Hr|exact Hfine]|]. split; [left; auto|]. right. intros ->. apply H.
      destruct Hc as [<-|Hc]; [|right; apply in_or_app; auto].
      destruct Hin as [->|Hin]; [left; reflexivity|right; apply in_or_app; auto].
  - intros Hfr. destruct (Hf Hfr) as [_ Hin]. split; [auto|].
    destruct Hc as [<-|Hc]; [|right; apply in_or_app; auto].
    destruct Hin as [->|Hin]; [left; reflexivity|right; apply in_or_app; auto].
Qed.

(** The styles of a call are understood. *)
Definition call_fine (c : iocall) : Prop := Forall (fun st => fine st) (call_styles c).
Definition wcall_fine (c : wcall) : Prop := Forall (fun st => fine st) (wcall_styles c).
Lemma styles_within (t : stext) : Forall (fun st => fine st) (map snd t) <-> all_within allowed t.
Proof. unfold all_within. rewrite Forall_map. reflexivity. Qed.
Lemma in_fine (t : stext) st : all_within allowed t -> In st (map snd t) -> fine st.
Proof. intros H Hin. apply styles_within in H. exact (proj1 (Forall_forall _ _) H st Hin). Qed.
Lemma begins_fine c st : call_fine c -> begins c = Some st -> fine st.
Proof.
  destruct c as [b st'|b st'| |args]; unfold call_fine; cbn [begins call_styles]; intros H Hb.
  - injection Hb as ->. now inversion H.
  - destruct b; [discriminate|]. injection Hb as ->. now inversion H.
  - discriminate.
  - destruct (denote _) as [|[c0 st0] t]; [discriminate|]. cbn in Hb. injection Hb as ->. now inversion H.
Qed.

(** What a successful call sends, to a terminal that need not be in the tracked style. *)
Lemma io_call_sends_on {S} (sink : std_io S) (held : S -> bytes) (fuel : nat) (c : iocall) (n : nat)
  (w w' : io_ansi S) (h : history) :
  honest sink held -> call_regular c -> call_fine c ->
  do_iocall (IoWrite_ansi fuel sink) w c = (w', IoOk n) ->
  map (fun e : str * style => (utf8 (fst e), snd e)) h = accepted (c, IoOk n) -> no_controls (text_of h) -> scalar_text (text_of h) ->
  exists out : str, held (ia_inner w') = held (ia_inner w) ++ utf8 out /\
    match begins c with
    | None => out = [] /\ ia_current w' = ia_current w /\ denote h = []
    | Some st => ia_current w' = ends c /\ fine (ends c) /\
        forall state rend screen, ready (ia_current w) state rend st ->
          term_feed sgr (mk_term state rend screen) out = mk_term Ground (look (ends c)) (screen ++ seen look (denote h))
    end.
Proof.
  intros Hh Hp Hfi Hc Hw Hn Hsc.
  assert (ONE : forall (s : str) (st : style) cur state rend screen, no_controls s -> ready cur state rend st ->
    term_feed sgr (mk_term state rend screen) (esc cur st ++ s)
    = mk_term Ground (look st) (screen ++ seen look (paint st s))).
  { intros s st cur state rend screen Hs H. rewrite feed_app, (esc_ready sgr look allowed Hu), feed_text by assumption.
    unfold seen, paint. rewrite map_map. reflexivity. }
  destruct c as [b st|b st| |args]; cbn [do_iocall IoWrite_ansi io_write io_write_all io_flush io_write_fmt accepted begins ends] in *;
    unfold call_fine in Hfi; cbn [call_styles] in Hfi.
  - apply (io_write_ok _ _ held Hh) in Hc as (H1 & H2 & H3).
    destruct h as [|[s st'] [|]]; try discriminate. cbn [map fst snd] in Hw. injection Hw as Hs ->.
    exists (esc (ia_current w) st ++ s). rewrite H1, H3, utf8_app, Hs. split; [reflexivity|]. split; [reflexivity|].
    split; [now inversion Hfi|].
    intros state rend screen Hr. cbn in Hn. rewrite app_nil_r in Hn. cbn [denote]. rewrite app_nil_r. now apply ONE.
  - destruct (io_ansi_write_all fuel sink w b st) as [w1 [[]|e|c]] eqn:E; try discriminate.
    injection Hc as <- _. apply (io_write_all_ok _ _ held Hh) in E as [H1 H2].
    destruct h as [|[s st'] [|]]; try discriminate. cbn [map fst snd] in Hw. injection Hw as Hs ->.
    cbn in Hn. rewrite app_nil_r in Hn. destruct b as [|x b]; cbn [is_empty] in *.
    + apply (proj1 (utf8_nil s)) in Hs. subst s. exists []. split; [exact H2|]. auto.
    + exists (esc (ia_current w) st ++ s). rewrite H1, H2, utf8_app, Hs. split; [reflexivity|]. split; [reflexivity|].
      split; [now inversion Hfi|].
      intros state rend screen Hr. cbn [denote]. rewrite app_nil_r. now apply ONE.
  - destruct (io_ansi_flush sink w) as [w1 [[]|e|c]] eqn:E; try discriminate. injection Hc as <- _.
    unfold io_ansi_flush in E. destruct (si_flush sink (ia_inner w)) as [i r] eqn:E2. injection E as <- ->.
    apply (ho_flush _ _ Hh) in E2. destruct h; [|discriminate]. exists []. cbn [ia_inner ia_current].
    split; [cbn; now rewrite app_nil_r|]. auto.
  - destruct (default_io_write_fmt (io_ansi_write_all fuel sink) w args) as [w1 [[]|e|c]] eqn:E; try discriminate.
    injection Hc as <- _. destruct Hp as [Hp Hp2].
    rewrite default_io_run, run_propagates in E by exact Hp.
    destruct (play (trap_write_str (io_ansi_write_all fuel sink)) (ok_events (args formatter_new)) (trap_new w))
      as [t o] eqn:Ep. destruct o as [[|]|c]; try discriminate.
    destruct (ok_outcome (args formatter_new)) as [[|]|c]; try discriminate.
    injection E as <-. apply (trap_play_ok _ _ held Hh) in Ep as [H1 H2]. cbn [trap_new et_inner] in H1, H2.
    apply same_text in Hw; [|assumption..]. subst h.
    exists (ansi_render (ia_current w) (denote (ok_events (args formatter_new)))).
    split; [exact H2|]. rewrite H1. assert (Hn' : no_controls (chars (denote (ok_events (args formatter_new))))) by now rewrite chars_denote.
    apply styles_within in Hfi.
    destruct (denote (ok_events (args formatter_new))) as [|[c0 st0] t'] eqn:Ed; cbn [map hd_error snd].
    + auto.
    + pose proof (last_style_last t' (ia_current w) c0 st0) as EL. cbn [map snd] in EL. split; [exact EL|]. rewrite <- EL.
      split. { inversion Hfi; subst. change (last_style (ia_current w) ((c0, st0) :: t')) with (last_style st0 t'). now apply last_within. }
      intros state rend screen Hr. now apply (render_from_on sgr look allowed Hu).
Qed.

(** * io::Ansi: one call that fails *)
Section IoCall.
Context {S : Type} (sink : std_io S) (held : S -> bytes) (fuel : nat).
Hypothesis Hh : honest sink held.
Variable fresh : bool.
Hypothesis Hshort : fresh = true -> stops_short sink held.

(** A torn style change. *)
Lemma torn cur st i i' e :
  write_all_parts sink (ansi_change cur st) i = (i', IoErr e) ->
  cur <> st /\ exists p : str, held i' = held i ++ utf8 p /\
    forall state rend screen, ready cur state rend st ->
    exists state' rend', term_feed sgr (mk_term state rend screen) p = mk_term state' rend' screen /\
      ready cur state' rend' st /\ (fresh = true -> rend = look cur -> rend' = look cur).
Proof.
  intros Hp.
  assert (Hne : cur <> st) by (intros ->; rewrite ansi_change_same in Hp; discriminate).
  split; [exact Hne|].
  pose proof (parts_err _ _ held Hh _ _ _ _ Hp) as (_ & p & (q & Hq) & Hheld).
  change (concat (ansi_change cur st)) with (esc cur st) in Hq.
  rewrite (utf8_ascii _ (esc_ascii cur st)) in Hq.
  assert (Hpa : utf8 p = p).
  { apply utf8_ascii. pose proof (esc_ascii cur st) as A. unfold bytes, str, char in *. rewrite Hq in A. now apply Forall_app in A. }
  exists p. rewrite Hpa. split; [exact Hheld|]. intros state rend screen Hr. destruct q as [|q0 q].
  - rewrite app_nil_r in Hq. exists Ground, (look st). unfold bytes, str, char in *. rewrite <- Hq.
    split; [now apply (esc_ready sgr look allowed Hu)|]. split; [split; [apply Hr|auto]|]. intros Hfr _. exfalso.
    destruct (parts_short sink held Hh (Hshort Hfr) _ (change_nonempty cur st) _ _ _ Hp) as (p' & q' & Hq' & Hq0 & Hheld').
    change (concat (ansi_change cur st)) with (esc cur st) in Hq'.
    rewrite (utf8_ascii _ (esc_ascii cur st)) in Hq'. unfold bytes, str, char in *.
    rewrite Hheld in Hheld'. apply app_inv_head in Hheld'. subst p'. rewrite Hq in Hq'.
    rewrite <- (app_nil_r p) in Hq' at 1. apply app_inv_head in Hq'. auto.
  - destruct (feed_prefix sgr cur st p (q0 :: q) state rend screen Hq ltac:(discriminate)) as [state' F].
    exists state', rend. split; [exact F|]. split; [|auto]. split; [apply Hr|]. split; [apply Hr|auto].
Qed.

(** [write_all] fails in the style change or later. *)
Lemma all_fails st : forall b w w' e,
  io_ansi_write_all fuel sink w b st = (w', IoErr e) ->
  b <> [] /\
  ((ia_current w' = st /\ exists p, is_prefix p b /\
      held (ia_inner w') = held (ia_inner w) ++ utf8 (esc (ia_current w) st) ++ p) \/
   (ia_current w' = ia_current w /\
      exists i' e', ia_inner w' = i' /\ write_all_parts sink (ansi_change (ia_current w) st) (ia_inner w) = (i', IoErr e'))).
Proof.
  unfold io_ansi_write_all. clear Hshort. induction fuel as [|fu IH]; intros [|x b] w w' e;
    cbn [default_write_all]; try discriminate. intros H. split; [discriminate|]. revert H.
  assert (LATER : forall w1 b', ia_current w1 = st ->
    default_write_all fu (io_ansi_write sink) w1 b' st = (w', IoErr e) ->
    ia_current w' = st /\ exists p, is_prefix p b' /\ held (ia_inner w') = held (ia_inner w1) ++ p).
  { intros w1 b' H1 H. apply IH in H as [_ [(A1 & p & A2 & A3)|(A1 & i' & e' & A2 & A3)]].
    - split; [exact A1|]. exists p. split; [exact A2|]. rewrite A3, H1, esc_same. reflexivity.
    - rewrite H1, ansi_change_same in A3. discriminate. }
  destruct (io_ansi_write sink w (x :: b) st) as [w1 [[|n]|e1|c]] eqn:E; try discriminate.
  - intros [= <- <-]. left. apply (io_write_ok _ _ held Hh) in E as (E1 & _ & E). split; [exact E1|].
    exists []. split; [exists (x :: b); reflexivity|]. exact E.
  - destruct (Datatypes.S n <=? length (x :: b)) eqn:En; [|discriminate]. intros H.
    apply (io_write_ok _ _ held Hh) in E as (E1 & _ & E3). apply LATER in H as (H1 & p & H2 & H3); [|exact E1].
    left. split; [exact H1|]. exists (firstn (Datatypes.S n) (x :: b) ++ p). split.
    + rewrite <- (firstn_skipn (Datatypes.S n) (x :: b)) at 2. now apply prefix_cons_app.
    + rewrite H3, E3. now rewrite <- !app_assoc.
  - destruct (is_interrupted e1) eqn:Ei.
    + intros H. apply is_interrupted_spec in Ei.
      apply (io_write_err _ _ held Hh) in E as [(E1 & E2)|(_ & E2 & _)]; [|congruence].
      apply LATER in H as (H1 & p & H2 & H3); [|exact E1]. left. split; [exact H1|]. exists p.
      split; [exact H2|]. now rewrite H3, E2, <- app_assoc.
    + intros [= <- <-]. unfold io_ansi_write in E. rewrite io_change_same in E.
      destruct (write_all_parts sink (ansi_change (ia_current w) st) (ia_inner w)) as [i [[]|e2|c]] eqn:Ep; try discriminate.
      * destruct (si_write sink i (x :: b)) as [i' r] eqn:E2. injection E as <- ->. left. cbn [ia_current ia_inner].
        split; [reflexivity|]. exists []. split; [exists (x :: b); reflexivity|].
        apply (ho_write_err _ _ Hh) in E2. apply (parts_ok _ _ held Hh) in Ep. rewrite E2, Ep, app_nil_r. reflexivity.
      * injection E as <- ->. right. cbn [ia_current ia_inner]. split; [reflexivity|]. eauto.
Qed.

(** The same as seen on the terminal. *)
Lemma all_fails_seen st b w w' e :
  io_ansi_write_all fuel sink w b st = (w', IoErr e) ->
  b <> [] /\ exists p B, begun p [(b, st)] /\ held (ia_inner w') = held (ia_inner w) ++ B /\
    In (ia_current w') [ia_current w; st] /\
    forall h : history, map (fun e : str * style => (utf8 (fst e), snd e)) h = p -> no_controls (text_of h) ->
    exists out : str, B = utf8 out /\
      forall state rend screen, ready (ia_current w) state rend st ->
      exists state' rend', term_feed sgr (mk_term state rend screen) out = mk_term state' rend' (screen ++ seen look (denote h)) /\
        ready (ia_current w') state' rend' st /\ (fresh = true -> rend = look (ia_current w) -> rend' = look (ia_current w')).
Proof.
  intros H. apply all_fails in H as [Hb [(A1 & p & A2 & A3)|(A1 & i' & e' & A2 & A3)]]; (split; [exact Hb|]).
  - exists [(p, st)], (utf8 (esc (ia_current w) st) ++ p). split; [now constructor|]. split; [exact A3|].
    split; [rewrite A1; right; left; reflexivity|].
    intros [|[s st'] [|]] Hm Hn; try discriminate. cbn [map fst snd] in Hm. injection Hm as Hs ->.
    exists (esc (ia_current w) st ++ s). rewrite utf8_app, Hs. split; [reflexivity|].
    intros state rend screen Hr. exists Ground, (look st). rewrite feed_app, (esc_ready sgr look allowed Hu) by exact Hr.
    unfold text_of in Hn. cbn [map fst concat] in Hn. rewrite app_nil_r in Hn.
    rewrite feed_text by exact Hn. cbn [denote]. rewrite app_nil_r.
    split; [unfold seen, paint; now rewrite map_map|]. rewrite A1. split; [|auto]. apply ready_at; apply Hr.
  - apply torn in A3 as (Hne & p & Hheld & Hseen). exists [], (utf8 p). split; [constructor|].
    rewrite A1, A2. split; [exact Hheld|]. split; [left; reflexivity|].
    intros [|] Hm _; [|discriminate]. exists p. split; [reflexivity|]. cbn [denote].
    intros state rend screen Hr. cbn [seen map]. rewrite app_nil_r. now apply Hseen.
Qed.

(** Playing events that fail. *)
Lemma play_fails h0 : forall t t',
  play (trap_write_str (io_ansi_write_all fuel sink)) h0 t = (t', Returned Err) ->
  exists h1 s st h2 t1 e, h0 = h1 ++ (s, st) :: h2 /\
    play (trap_write_str (io_ansi_write_all fuel sink)) h1 t = (t1, Returned Ok) /\
    io_ansi_write_all fuel sink (et_inner t1) (utf8 s) st = (et_inner t', IoErr e).
Proof.
  induction h0 as [|[s st] h0 IH]; intros t t'; cbn [play]; [discriminate|].
  destruct (trap_write_str (io_ansi_write_all fuel sink) t s st) as [t1 [[|]|c]] eqn:E; try discriminate.
  - intros H. apply IH in H as (h1 & s1 & st1 & h2 & t2 & e & -> & H1 & H2).
    exists ((s, st) :: h1), s1, st1, h2, t2, e. cbn [play app]. rewrite E. auto.
  - intros [= <-]. revert E. unfold trap_write_str.
    destruct (io_ansi_write_all fuel sink (et_inner t) (utf8 s) st) as [w1 [[]|e|c]] eqn:E; try discriminate.
    intros [= <-]. exists [], s, st, h0, t, e. cbn [et_inner]. auto.
Qed.

Lemma begun_app a : forall p b, begun p b -> begun (a ++ p) (a ++ b).
Proof. induction a as [|[x st] a IH]; intros p b H; cbn [app]; [exact H|]. constructor. now apply IH. Qed.
Lemma begun_more p l r : begun p l -> begun p (l ++ r).
Proof. induction 1; cbn [app]; constructor; auto. Qed.


Lemma call_fails c st w w' e :
  call_regular c -> call_fine c -> begins c = Some st -> do_iocall (IoWrite_ansi fuel sink) w c = (w', IoErr e) ->
  exists p B, arrives (c, IoErr e) p /\ held (ia_inner w') = held (ia_inner w) ++ B /\
    In (ia_current w') (ia_current w :: call_styles c) /\
    forall h : history, map (fun e : str * style => (utf8 (fst e), snd e)) h = p ->
      no_controls (text_of h) -> scalar_text (text_of h) ->
    exists (out : str) at', B = utf8 out /\ In at' (call_styles c) /\
      forall state rend screen, ready (ia_current w) state rend st ->
      exists state' rend', term_feed sgr (mk_term state rend screen) out = mk_term state' rend' (screen ++ seen look (denote h)) /\
        ready (ia_current w') state' rend' at' /\ (fresh = true -> rend = look (ia_current w) -> rend' = look (ia_current w')).
Proof.
  intros Hc Hfi Hb H. pose proof Hfi as Hfi'. destruct c as [b st'|b st'| |args]; unfold call_fine in Hfi';
    cbn [do_iocall IoWrite_ansi io_write io_write_all io_flush io_write_fmt arrives asked begins call_styles] in *.
  - injection Hb as ->. unfold io_ansi_write in H. rewrite io_change_same in H.
    destruct (write_all_parts sink (ansi_change (ia_current w) st) (ia_inner w)) as [i1 [[]|e1|c1]] eqn:Ep; [| |discriminate].
    + destruct (si_write sink i1 b) as [i2 r2] eqn:Ew. injection H as <- ->. cbn [ia_current ia_inner].
      apply (parts_ok _ _ held Hh) in Ep. apply (ho_write_err _ _ Hh) in Ew. rewrite Ew.
      exists [], (utf8 (esc (ia_current w) st)). split; [reflexivity|]. split; [exact Ep|]. split; [cbn; auto|].
      intros [|] Hm _ _; [|discriminate]. exists (esc (ia_current w) st), st. split; [reflexivity|]. split; [cbn; auto|].
      intros state rend screen Hr. exists Ground, (look st). rewrite (esc_ready sgr look allowed Hu) by exact Hr. cbn [denote seen map]. rewrite app_nil_r.
      split; [reflexivity|]. split; [|auto]. apply ready_at; apply Hr.
    + injection H as <- ->. cbn [ia_current ia_inner].
      apply torn in Ep as (Hne & p & Hheld & Hseen). exists [], (utf8 p). split; [reflexivity|]. split; [exact Hheld|].
      split; [left; reflexivity|]. intros [|] Hm _ _; [|discriminate]. exists p, st. split; [reflexivity|]. split; [cbn; auto|].
      cbn [denote seen map]. intros state rend screen Hr. rewrite app_nil_r. now apply Hseen.
  - destruct (io_ansi_write_all fuel sink w b st') as [w1 [[]|e1|c1]] eqn:E; try discriminate. injection H as <- ->.
    destruct b as [|x b]; [discriminate|]. injection Hb as ->.
    apply all_fails_seen in E as (_ & p & B & E1 & E2 & E3 & E4). exists p, B. split; [exact E1|]. split; [exact E2|].
    split; [cbn in *; tauto|]. intros h Hm Hn _. destruct (E4 h Hm Hn) as (out & F1 & F2). exists out, st.
    split; [exact F1|]. split; [cbn; auto|]. exact F2.
  - discriminate.
  - destruct (default_io_write_fmt (io_ansi_write_all fuel sink) w args) as [w1 [[]|e1|c1]] eqn:E; try discriminate.
    injection H as <- ->. destruct Hc as [Hp Hsc0]. rewrite default_io_run, run_propagates in E by exact Hp.
    apply styles_within in Hfi'. clear Hfi.
    revert Hsc0 Hb E Hfi'. generalize (ok_events (args formatter_new)). intros h0 Hsc0 Hb E Hfi'.
    (* the part that was written *)
    assert (PLAYED : forall h1 t1, play (trap_write_str (io_ansi_write_all fuel sink)) h1 (trap_new w) = (t1, Returned Ok) ->
      no_controls (text_of h1) -> forall r, denote h0 = denote h1 ++ r ->
      ia_current (et_inner t1) = last_style (ia_current w) (denote h1) /\
      held (ia_inner (et_inner t1)) = held (ia_inner w) ++ utf8 (ansi_render (ia_current w) (denote h1)) /\
      forall state rend screen, ready (ia_current w) state rend st ->
      exists state' rend',
        term_feed sgr (mk_term state rend screen) (ansi_render (ia_current w) (denote h1))
          = mk_term state' rend' (screen ++ seen look (denote h1)) /\
        (denote h1 = [] /\ state' = state /\ rend' = rend \/ state' = Ground /\ rend' = look (ia_current (et_inner t1))) /\
        (fresh = true -> rend = look (ia_current w) -> rend' = look (ia_current (et_inner t1)))).
    { intros h1 t1 Ht Hn r Hr. apply (trap_play_ok _ _ held Hh) in Ht as [T1 T2]. cbn [trap_new et_inner] in T1, T2.
      split; [exact T1|]. split; [exact T2|]. intros state rend screen Hr0.
      assert (Hn' : no_controls (chars (denote h1))) by now rewrite chars_denote.
      destruct (denote h1) as [|[c0 st0] d] eqn:Ed.
      - exists state, rend. cbn [seen map]. rewrite app_nil_r. change (ia_current (et_inner t1) = ia_current w) in T1. rewrite T1.
        split; [reflexivity|]. split; [left; auto|]. auto.
      - rewrite Hr in Hb. cbn in Hb. injection Hb as ->. exists Ground, (look (last_style (ia_current w) ((c0, st) :: d))).
        rewrite Hr in Hfi'. apply Forall_app in Hfi' as [Hfi1 _].
        split; [exact (render_from_on sgr look allowed Hu (ia_current w) c0 st d state rend screen Hn' Hfi1 Hr0)|]. rewrite T1. split; [right; auto|]. auto. }
    destruct (play (trap_write_str (io_ansi_write_all fuel sink)) h0 (trap_new w)) as [t o] eqn:Ep.
    destruct o as [[|]|c]; [| |discriminate].
    + (* the formatting code failed *)
      destruct (ok_outcome (args formatter_new)) as [[|]|c]; try discriminate. injection E as <- _.
      exists (map (fun e : str * style => (utf8 (fst e), snd e)) h0), (utf8 (ansi_render (ia_current w) (denote h0))).
      split. { rewrite <- (app_nil_r (map _ h0)) at 1. rewrite <- (app_nil_r (map _ h0)) at 2. apply begun_app. constructor. }
      pose proof (trap_play_ok _ _ held Hh _ _ _ _ Ep) as [T1 T2]. cbn [trap_new et_inner] in T1, T2.
      split; [exact T2|]. split; [rewrite T1; apply last_style_in|].
      intros h Hm Hn Hsc. apply same_text in Hm; [|assumption..]. subst h.
      exists (ansi_render (ia_current w) (denote h0)), (ia_current (et_inner t)). split; [reflexivity|].
      assert (Hin : In (ia_current (et_inner t)) (map snd (denote h0))).
      { rewrite T1. destruct (denote h0) as [|[c0 st0] d]; [discriminate|].
        change (last_style (ia_current w) ((c0, st0) :: d)) with (last_style st0 d). apply (last_style_in d st0). }
      split; [exact Hin|]. intros state rend screen Hr.
      destruct (PLAYED h0 t Ep Hn [] ltac:(now rewrite app_nil_r)) as (_ & _ & P).
      destruct (P state rend screen Hr) as (state' & rend' & P1 & P2 & P3). exists state', rend'.
      split; [exact P1|]. split; [|exact P3]. destruct P2 as [(D & _)|[-> ->]]; [|apply ready_at; exact (in_fine _ _ Hfi' Hin)].
      rewrite D in Hb. discriminate.
    + (* a write failed *)
      injection E as <- _. apply play_fails in Ep as (h1 & s & st1 & h2 & t1 & e' & -> & Ep1 & Ep2).
      pose proof (trap_play_ok _ _ held Hh _ _ _ _ Ep1) as [T1 T2]. cbn [trap_new et_inner] in T1, T2.
      apply all_fails_seen in Ep2 as (Hb2 & p & B & E1 & E2 & E3 & E4).
      exists (map (fun e : str * style => (utf8 (fst e), snd e)) h1 ++ p), (utf8 (ansi_render (ia_current w) (denote h1)) ++ B).
      split. { rewrite map_app. apply begun_app. cbn [map fst snd]. change ((utf8 s, st1) :: ?r) with ([(utf8 s, st1)] ++ r). now apply begun_more. }
      split; [rewrite E2, T2, app_assoc; reflexivity|].
      assert (Hs : s <> []) by (intros ->; apply Hb2; reflexivity).
      assert (Hst1 : In st1 (map snd (denote (h1 ++ (s, st1) :: h2)))).
      { rewrite denote_app, map_app. apply in_or_app. right. destruct s as [|c0 s]; [congruence|]. left. reflexivity. }
      split.
      { destruct E3 as [<-|[<-|[]]]; [|right; exact Hst1]. rewrite T1.
        destruct (last_style_in (denote h1) (ia_current w)) as [G|G]; [left; exact G|].
        right. rewrite denote_app, map_app. apply in_or_app. left. exact G. }
      intros h Hm Hn Hsc. apply map_app_inv in Hm as (ha & hb & -> & Hm1 & Hm2).
      rewrite text_app in Hn, Hsc, Hsc0. apply Forall_app in Hn as [Hn1 Hn2]. apply Forall_app in Hsc as [Hsc1 Hsc2].
      apply Forall_app in Hsc0 as [Hsc01 Hsc02]. apply same_text in Hm1; [|assumption..]. subst ha.
      destruct (E4 hb Hm2 Hn2) as (out & F1 & F2). subst B.
      exists (ansi_render (ia_current w) (denote h1) ++ out), st1. rewrite utf8_app. split; [reflexivity|]. split; [exact Hst1|].
      intros state rend screen Hr.
      destruct (PLAYED h1 t1 Ep1 Hn1 (denote ((s, st1) :: h2)) ltac:(now rewrite denote_app)) as (_ & _ & P).
      destruct (P state rend screen Hr) as (state1 & rend1 & P1 & P2 & P3).
      assert (Hr1 : ready (ia_current (et_inner t1)) state1 rend1 st1).
      { destruct P2 as [(D & -> & ->)|[-> ->]]; [|apply ready_at; [|exact (in_fine _ _ Hfi' Hst1)]; rewrite T1; apply last_within; [apply Hr|];
          rewrite denote_app in Hfi'; now apply Forall_app in Hfi'].
        rewrite T1, D. cbn. rewrite denote_app, D in Hb. destruct s as [|c0 s]; [congruence|]. cbn in Hb. injection Hb as ->. exact Hr. }
      destruct (F2 state1 rend1 (screen ++ seen look (denote h1)) Hr1) as (state' & rend' & G1 & G2 & G3).
      exists state', rend'. rewrite feed_app, P1, G1, denote_app, seen_app, app_assoc. split; [reflexivity|]. split; [exact G2|].
      intros Hfr Hcur. apply (G3 Hfr). exact (P3 Hfr Hcur).
Qed.

(** A call without text sends nothing. *)
Lemma trap_nothing h0 : denote h0 = [] -> forall t,
  play (trap_write_str (io_ansi_write_all fuel sink)) h0 t = (t, Returned Ok).
Proof.
  induction h0 as [|[s st] h0 IH]; intros Hd t; cbn [play]; [reflexivity|].
  destruct s as [|c s]; [|discriminate]. cbn [denote paint map app] in Hd.
  assert (E : trap_write_str (io_ansi_write_all fuel sink) t [] st = (t, Returned Ok)).
  { unfold trap_write_str, io_ansi_write_all. destruct t as [w er]. destruct fuel; reflexivity. }
  rewrite E. now apply IH.
Qed.
Lemma empty_pieces (h0 h : history) : denote h0 = [] ->
  map (fun e : str * style => (utf8 (fst e), snd e)) h = map (fun e : str * style => (utf8 (fst e), snd e)) h0 -> denote h = [].
Proof.
  revert h. induction h0 as [|[s0 st0] h0 IH]; intros [|[s st] h] Hd H; try discriminate; [reflexivity|].
  cbn [map fst snd] in H. injection H as Hs _ H. destruct s0 as [|]; [|discriminate].
  apply (proj1 (utf8_nil s)) in Hs. subst s. cbn [denote paint map app] in *. now apply IH.
Qed.
Lemma call_nothing c w w' r :
  call_regular c -> begins c = None -> (forall x, r <> IoCrash x) ->
  do_iocall (IoWrite_ansi fuel sink) w c = (w', r) ->
  ia_current w' = ia_current w /\ held (ia_inner w') = held (ia_inner w) /\
  exists p, arrives (c, r) p /\ forall h : history, map (fun e : str * style => (utf8 (fst e), snd e)) h = p -> denote h = [].
Proof.
  intros Hc Hb Hr H. destruct c as [b st|b st| |args];
    cbn [do_iocall IoWrite_ansi io_write io_write_all io_flush io_write_fmt arrives asked begins accepted] in *.
  - discriminate.
  - destruct b as [|]; [|discriminate]. unfold io_ansi_write_all in H.
    assert (E : default_write_all fuel (io_ansi_write sink) w [] st = (w, IoOk tt)) by (destruct fuel; reflexivity).
    rewrite E in H. injection H as <- <-. split; [reflexivity|]. split; [reflexivity|]. exists [([], st)].
    split; [reflexivity|]. intros [|[s st'] [|]] Hm; try discriminate. cbn [map fst snd] in Hm. injection Hm as Hs _.
    apply (proj1 (utf8_nil s)) in Hs. now subst s.
  - unfold io_ansi_flush in H. destruct (si_flush sink (ia_inner w)) as [i r'] eqn:E. injection H as <- <-.
    apply (ho_flush _ _ Hh) in E. cbn [ia_current ia_inner]. split; [reflexivity|]. split; [exact E|]. exists [].
    split; [destruct r'; reflexivity|]. intros [|] Hm; [reflexivity|discriminate].
  - destruct Hc as [Hp _].
    assert (Hd : denote (ok_events (args formatter_new)) = []) by (destruct (denote _); [reflexivity|discriminate]).
    rewrite default_io_run, run_propagates, trap_nothing in H by assumption.
    destruct (ok_outcome (args formatter_new)) as [[|]|c]; cbn [trap_new et_inner] in H; injection H as <- <-.
    + split; [reflexivity|]. split; [reflexivity|].
      exists (map (fun e : str * style => (utf8 (fst e), snd e)) (ok_events (args formatter_new))).
      split; [reflexivity|]. intros h. now apply empty_pieces.
    + split; [reflexivity|]. split; [reflexivity|]. exists []. split; [constructor|].
      intros [|] Hm; [reflexivity|discriminate].
    + exfalso. now apply (Hr c).
Qed.

Lemma resume calls : Forall (fun c => call_regular c /\ call_fine c) calls -> forall last tried retry (w w' : io_ansi S) l,
  io_session (IoWrite_ansi fuel sink) calls w = (w', l) -> careful fresh last tried retry l ->
  exists parts, Forall2 arrives l parts /\
    forall (h : history) state rend screen, sync fresh last tried retry (ia_current w) state rend ->
      map (fun e : str * style => (utf8 (fst e), snd e)) h = concat parts ->
      no_controls (text_of h) -> scalar_text (text_of h) ->
      exists out : str, held (ia_inner w') = held (ia_inner w) ++ utf8 out /\
        term_feed sgr (mk_term state rend screen) (out ++ esc (ia_current w') style_default)
        = mk_term Ground (look style_default) (screen ++ seen look (denote h)).
Proof.
  induction 1 as [|c calls [Hc Hfi] _ IH]; intros last tried retry w w' l; cbn [io_session].
  - intros [= <- <-] Hf. exists []. split; [constructor|]. intros [|] state rend screen Hi Hw _ _; [|discriminate].
    exists []. split; [cbn; now rewrite app_nil_r|]. inversion Hf; subst. cbn [app denote seen map]. rewrite app_nil_r.
    apply (esc_ready sgr look allowed Hu). apply (proj1 Hi); [exact (proj1 Hu)|assumption].
  - destruct (do_iocall (IoWrite_ansi fuel sink) w c) as [w1 o] eqn:E1.
    destruct (io_session (IoWrite_ansi fuel sink) calls w1) as [w2 os] eqn:E2.
    intros [= <- <-] Hf.
    (* one call, then the rest *)
    assert (STEP : forall last' tried' retry' p, careful fresh last' tried' retry' os -> arrives (c, o) p ->
      (forall (h : history) state rend screen, sync fresh last tried retry (ia_current w) state rend ->
        map (fun e : str * style => (utf8 (fst e), snd e)) h = p -> no_controls (text_of h) -> scalar_text (text_of h) ->
        exists (out : str) state' rend', held (ia_inner w1) = held (ia_inner w) ++ utf8 out /\
          term_feed sgr (mk_term state rend screen) out = mk_term state' rend' (screen ++ seen look (denote h)) /\
          sync fresh last' tried' retry' (ia_current w1) state' rend') ->
      exists parts, Forall2 arrives ((c, o) :: os) parts /\
      forall (h : history) state rend screen, sync fresh last tried retry (ia_current w) state rend ->
      map (fun e : str * style => (utf8 (fst e), snd e)) h = concat parts ->
      no_controls (text_of h) -> scalar_text (text_of h) ->
      exists out : str, held (ia_inner w2) = held (ia_inner w) ++ utf8 out /\
        term_feed sgr (mk_term state rend screen) (out ++ esc (ia_current w2) style_default)
        = mk_term Ground (look style_default) (screen ++ seen look (denote h))).
    { intros last' tried' retry' p Hf' Hp Hone. destruct (IH _ _ _ _ _ _ E2 Hf') as (parts & Hparts & Hrest).
      exists (p :: parts). split; [now constructor|]. intros h state rend screen Hi Hw Hn Hsc.
      cbn [concat] in Hw. apply map_app_inv in Hw as (h1 & h2 & -> & Hw1 & Hw2).
      rewrite text_app in Hn, Hsc. apply Forall_app in Hn as [Hn1 Hn2]. apply Forall_app in Hsc as [Hsc1 Hsc2].
      destruct (Hone h1 state rend screen Hi Hw1 Hn1 Hsc1) as (o1 & state' & rend' & A1 & A2 & A3).
      destruct (Hrest h2 state' rend' (screen ++ seen look (denote h1)) A3 Hw2 Hn2 Hsc2) as (o2 & B1 & B2).
      exists (o1 ++ o2). rewrite utf8_app, B1, A1, <- app_assoc. split; [reflexivity|].
      rewrite <- app_assoc, feed_app, A2, B2, denote_app, seen_app, app_assoc. reflexivity. }
    assert (NOTHING : begins c = None -> (forall x, o <> IoCrash x) -> careful fresh last tried retry os ->
      exists p, arrives (c, o) p /\
      (forall (h : history) state rend screen, sync fresh last tried retry (ia_current w) state rend ->
        map (fun e : str * style => (utf8 (fst e), snd e)) h = p -> no_controls (text_of h) -> scalar_text (text_of h) ->
        exists (out : str) state' rend', held (ia_inner w1) = held (ia_inner w) ++ utf8 out /\
          term_feed sgr (mk_term state rend screen) out = mk_term state' rend' (screen ++ seen look (denote h)) /\
          sync fresh last tried retry (ia_current w1) state' rend')).
    { intros Hb Hr _. destruct (call_nothing _ _ _ _ Hc Hb Hr E1) as (A1 & A2 & p & A3 & A4). exists p.
      split; [exact A3|]. intros h state rend screen Hi Hm _ _. exists [], state, rend. rewrite A1, A2, (A4 h Hm).
      cbn. rewrite ?app_nil_r. auto. }
    inversion Hf; subst.
    + cbn [do_iocall IoWrite_ansi io_flush] in E1. unfold io_ansi_flush in E1.
      destruct (si_flush sink (ia_inner w)) as [i r] eqn:Ef. apply (ho_flush _ _ Hh) in Ef. injection E1 as <- <-.
      apply (STEP last tried retry []); [assumption|destruct r; reflexivity|].
      intros [|] state rend screen Hi Hm _ _; [|discriminate]. exists [], state, rend. cbn [ia_inner ia_current utf8 denote flat_map seen map].
      rewrite Ef, !app_nil_r. split; [reflexivity|]. split; [reflexivity|]. exact Hi.
    + destruct NOTHING as (p & N1 & N2); [assumption..|]. now apply (STEP last tried retry p).
    + apply (STEP (ends c) [] None (accepted (c, IoOk n))); [assumption|destruct c; reflexivity|].
      intros h state rend screen Hi Hm Hn Hsc.
      destruct (io_call_sends_on sink held fuel c n w w1 h Hh Hc Hfi E1 Hm Hn Hsc) as (o1 & A1 & A2).
      match goal with H : begins c = Some _ |- _ => rewrite H in A2; pose proof (begins_fine _ _ Hfi H) as Hfi1 end. destruct A2 as (A2 & A3 & A4).
      match goal with H : may _ last tried retry _ |- _ => pose proof (proj1 Hi _ Hfi1 H) as I1 end.
      exists o1, Ground, (look (ends c)). split; [exact A1|]. split; [now apply A4|]. rewrite A2. now apply sync_new.
    + apply (STEP st [] None []); [assumption|reflexivity|]. intros [|] state rend screen Hi Hm _ _; [|discriminate].
      cbn [do_iocall IoWrite_ansi io_write] in E1. apply (io_write_err _ _ held Hh) in E1 as [(F1 & F2)|(_ & F2 & _)]; [|congruence].
      assert (Hfi1 : fine st) by now inversion Hfi.
      exists (esc (ia_current w) st), Ground, (look st). split; [exact F2|]. cbn [denote seen map]. rewrite app_nil_r.
      split; [apply (esc_ready sgr look allowed Hu); now apply (proj1 Hi)|]. rewrite F1. now apply sync_new.
    + match goal with H : begins c = Some _ |- _ => pose proof (begins_fine _ _ Hfi H) as Hfi1 end.
      destruct (call_fails _ _ _ _ _ Hc Hfi ltac:(eassumption) E1) as (p & B & F1 & F2 & F3 & F4).
      apply (STEP last (call_styles c ++ tried) (sole (call_styles c)) p); [assumption..|].
      intros h state rend screen Hi Hm Hn Hsc. destruct (F4 h Hm Hn Hsc) as (out & at' & -> & F5 & F6).
      match goal with H : may _ last tried retry _ |- _ => pose proof (proj1 Hi _ Hfi1 H) as I1 end.
      destruct (F6 state rend screen I1) as (state' & rend' & G1 & G2 & G3). exists out, state', rend'.
      split; [exact F2|]. split; [exact G1|]. eapply sync_fail; try eassumption.
      intros Hfr. apply (G3 Hfr). now apply (proj2 Hi).
Qed.

Lemma resume_finish (calls : list iocall) (s : S) (w : io_ansi S) l :
  Forall (fun c => call_regular c /\ call_fine c) calls ->
  io_session (IoWrite_ansi fuel sink) calls (lib_io_ansi s) = (w, l) -> careful fresh style_default [] None l ->
  exists parts, Forall2 arrives l parts /\
    forall (s' : S) (h : history), io_ansi_finish sink w = (s', IoOk tt) ->
      map (fun e : str * style => (utf8 (fst e), snd e)) h = concat parts ->
      no_controls (text_of h) -> scalar_text (text_of h) ->
      exists out, held s' = held s ++ utf8 out /\
        term_feed sgr (fresh_term look) out = mk_term Ground (look style_default) (seen look (denote h)).
Proof.
  intros Hc Hs Hl. destruct (resume calls Hc _ _ _ _ _ _ Hs Hl) as (parts & Hp & G). exists parts. split; [exact Hp|].
  intros s' h Hf Hw Hn Hsc.
  destruct (G h Ground (look style_default) [] (sync_new fresh style_default (proj1 Hu)) Hw Hn Hsc) as (o1 & A1 & A2).
  cbn [lib_io_ansi io_ansi_new ia_inner ia_current] in A1.
  exists (o1 ++ esc (ia_current w) style_default). split; [|exact A2].
  rewrite utf8_app, app_assoc, <- A1. revert Hf. unfold io_ansi_finish, esc, ansi_change.
  destruct (style_eqb_spec (ia_current w) style_default) as [->|Hne]; cbn [negb andb].
  - intros [= <-]. cbn. now rewrite app_nil_r.
  - intros H. apply (parts_ok _ _ held Hh) in H. exact H.
Qed.
End IoCall.

(** * In-memory Ansi *)
Section MemCall.
Context {S : Type} (sink : fmt_sink S) (held : S -> str).
Hypothesis Ha : atomic_fmt sink held.

Lemma wplay_fails {W} (ws : write_fn W) h0 : forall w w' o,
  play ws h0 w = (w', o) -> o <> Returned Ok ->
  exists h1 s st h2 w1, h0 = h1 ++ (s, st) :: h2 /\ play ws h1 w = (w1, Returned Ok) /\ ws w1 s st = (w', o).
Proof.
  induction h0 as [|[s st] h0 IH]; intros w w' o; cbn [play]; [congruence|].
  assert (F : forall w1 o1, ws w s st = (w1, o1) -> o1 <> Returned Ok -> (w1, o1) = (w', o) ->
    exists h1 s1 st1 h2 w2, (s, st) :: h0 = h1 ++ (s1, st1) :: h2 /\ play ws h1 w = (w2, Returned Ok) /\ ws w2 s1 st1 = (w', o)).
  { intros w1 o1 E _ [= <- <-]. exists [], s, st, h0, w. auto. }
  destruct (ws w s st) as [w1 [[|]|c]] eqn:E.
  - intros H Ho. apply (IH _ _ _ H) in Ho as (h1 & s1 & st1 & h2 & w2 & -> & H1 & H2).
    exists ((s, st) :: h1), s1, st1, h2, w2. cbn [play app]. rewrite E. auto.
  - intros H _. exact (F w1 (Returned Err) eq_refl ltac:(discriminate) H).
  - intros H _. exact (F w1 (Crashed c) eq_refl ltac:(discriminate) H).
Qed.

Lemma wbegins_fine c st : wcall_fine c -> wbegins c = Some st -> fine st.
Proof.
  unfold wcall_fine, wcall_styles, wbegins. destruct (denote (call_text c)) as [|[c0 st0] t]; [discriminate|].
  cbn. intros H [= ->]. now inversion H.
Qed.

Lemma write_fails (s : str) st w w' o :
  ansi_write_str sink w s st = (w', o) -> o <> Returned Ok ->
  s <> [] /\ In (an_current w') [an_current w; st] /\
  exists out, held (an_inner w') = held (an_inner w) ++ out /\
    forall state screen, ready (an_current w) state (look (an_current w)) st ->
    exists state', term_feed sgr (mk_term state (look (an_current w)) screen) out = mk_term state' (look (an_current w')) screen /\
      ready (an_current w') state' (look (an_current w')) st.
Proof.
  intros H Ho. assert (Hs : s <> []) by (intros ->; cbn in H; congruence). split; [exact Hs|].
  destruct (call_failed sink held (atomic_honest sink held Ha) Ha (CStr s st) w w' st o) as [(F1 & F2)|(F1 & F2 & p & q & F3 & F4 & F5)].
  - exact I.
  - destruct s; [congruence|reflexivity].
  - exact H.
  - exact Ho.
  - split; [rewrite F1; right; left; reflexivity|]. exists (esc (an_current w) st). split; [exact F2|].
    intros state screen Hr. exists Ground. rewrite (esc_ready sgr look allowed Hu), F1 by exact Hr. split; [reflexivity|]. apply ready_at; apply Hr.
  - split; [rewrite F1; left; reflexivity|]. exists p. split; [exact F5|]. intros state screen Hr.
    destruct (feed_prefix sgr (an_current w) st p q state (look (an_current w)) screen F3 F4) as [state' F].
    exists state'. rewrite F1. split; [exact F|]. split; [apply Hr|]. split; [left; reflexivity|]. right. intros E.
    rewrite E, esc_same in F3. symmetry in F3. apply app_eq_nil in F3 as [_ F3]. exact (F4 F3).
Qed.

Lemma wcall_fails c st w w' o :
  wcall_regular c -> wcall_fine c -> wbegins c = Some st -> do_call (Write_ansi sink) w c = (w', o) -> o <> Returned Ok ->
  exists h, warrives (c, o) h /\ In (an_current w') (an_current w :: wcall_styles c) /\
    exists out at', held (an_inner w') = held (an_inner w) ++ out /\ In at' (wcall_styles c) /\
    (no_controls (text_of h) ->
     forall state screen, ready (an_current w) state (look (an_current w)) st ->
     exists state', term_feed sgr (mk_term state (look (an_current w)) screen) out = mk_term state' (look (an_current w')) (screen ++ seen look (denote h)) /\
      ready (an_current w') state' (look (an_current w')) at').
Proof.
  intros Hc Hfi Hb H Ho. pose proof (atomic_honest sink held Ha) as Hh.
  assert (ONE : forall (s : str) (st' : style), wbegins c = hd_error (map snd (paint st' s)) ->
    wcall_styles c = map snd (paint st' s) -> (forall h, h = [] -> warrives (c, o) h) ->
    ansi_write_str sink w s st' = (w', o) ->
    exists h, warrives (c, o) h /\ In (an_current w') (an_current w :: wcall_styles c) /\
    exists out at', held (an_inner w') = held (an_inner w) ++ out /\ In at' (wcall_styles c) /\
    (no_controls (text_of h) ->
     forall state screen, ready (an_current w) state (look (an_current w)) st ->
     exists state', term_feed sgr (mk_term state (look (an_current w)) screen) out = mk_term state' (look (an_current w')) (screen ++ seen look (denote h)) /\
      ready (an_current w') state' (look (an_current w')) at')).
  { intros s st' B1 B2 B3 B4. apply write_fails in B4 as (Hs & C1 & out & C2 & C3); [|exact Ho].
    destruct s as [|c0 s]; [congruence|]. rewrite Hb in B1. cbn in B1. injection B1 as <-.
    exists []. split; [now apply B3|]. rewrite B2. cbn [paint map snd].
    split; [destruct C1 as [E|[E|[]]]; [left; exact E|right; left; exact E]|]. exists out, st. split; [exact C2|]. split; [left; reflexivity|].
    intros _ state screen Hr. cbn [denote seen map]. rewrite app_nil_r. now apply C3. }
  destruct c as [s st'|ch st'|args]; cbn [do_call Write_ansi Write_default w_write_str w_write_char w_write_fmt] in H.
  - apply (ONE s st'); [| | |exact H].
    + unfold wbegins. cbn [call_text denote]. now rewrite app_nil_r.
    + unfold wcall_styles. cbn [call_text denote]. now rewrite app_nil_r.
    + intros h ->. destruct o as [[|]|]; cbn; congruence.
  - apply (ONE [ch] st'); [reflexivity|reflexivity| |exact H]. intros h ->. destruct o as [[|]|]; cbn; congruence.
  - cbn [wcall_regular] in Hc. rewrite default_write_fmt_run, run_propagates in H by exact Hc.
    unfold wbegins in Hb. unfold wcall_fine, wcall_styles in *. cbn [call_text] in *. apply styles_within in Hfi.
    assert (ARR : forall h, is_prefix h (ok_events (args formatter_new)) -> warrives (CFmt args, o) h).
    { intros h Hp. destruct o as [[|]|]; [congruence|exact Hp|exact Hp]. }
    cbn [warrives] in *. revert ARR Hfi Hb H. generalize (ok_events (args formatter_new)) (ok_outcome (args formatter_new)).
    intros h0 o0 ARR Hfi Hb H.
    assert (PLAYED : forall h1 w1, play (ansi_write_str sink) h1 w = (w1, Returned Ok) -> forall r, denote h0 = denote h1 ++ r ->
      an_current w1 = last_style (an_current w) (denote h1) /\
      held (an_inner w1) = held (an_inner w) ++ ansi_render (an_current w) (denote h1) /\
      (no_controls (text_of h1) -> forall state screen, ready (an_current w) state (look (an_current w)) st ->
      exists state', term_feed sgr (mk_term state (look (an_current w)) screen) (ansi_render (an_current w) (denote h1))
          = mk_term state' (look (an_current w1)) (screen ++ seen look (denote h1)) /\
        (denote h1 = [] /\ state' = state \/ state' = Ground))).
    { intros h1 w1 Ht r Hr. apply (ansi_play_ok _ _ Hh) in Ht as [T2 T1].
      split; [exact T1|]. split; [exact T2|]. intros Hn state screen HR.
      assert (Hn' : no_controls (chars (denote h1))) by now rewrite chars_denote.
      destruct (denote h1) as [|[c0 st0] d] eqn:Ed.
      - exists state. change (an_current w1 = an_current w) in T1. rewrite T1. cbn [seen map]. rewrite app_nil_r. split; [reflexivity|]. left. auto.
      - rewrite Hr in Hb. cbn in Hb. injection Hb as ->. exists Ground. rewrite T1.
        split; [|right; reflexivity]. apply (render_from_on sgr look allowed Hu); [exact Hn'| |exact HR].
        unfold all_within in *. rewrite Hr in Hfi. apply Forall_app in Hfi. apply Hfi. }
    destruct (play (ansi_write_str sink) h0 w) as [wx ox] eqn:Ep.
    assert (CASES : ox = Returned Ok /\ w' = wx \/ ox <> Returned Ok /\ wx = w' /\ ox = o).
    { destruct ox as [[|]|]; injection H as -> ->; [left; auto|right; split; [exact Ho|auto]|right; split; [exact Ho|auto]]. }
    destruct CASES as [[-> ->]|(Hox & -> & ->)].
    + exists h0. split; [apply ARR; exists []; now rewrite app_nil_r|].
      destruct (PLAYED h0 wx Ep [] ltac:(now rewrite app_nil_r)) as (T1 & T2 & P).
      split; [rewrite T1; apply last_style_in|]. exists (ansi_render (an_current w) (denote h0)), (an_current wx).
      split; [exact T2|]. split.
      { rewrite T1. destruct (denote h0) as [|[c0 st0] d]; [discriminate|].
        change (last_style (an_current w) ((c0, st0) :: d)) with (last_style st0 d). apply (last_style_in d st0). }
      intros Hn state screen Hr. destruct (P Hn state screen Hr) as (state' & P1 & P2). exists state'.
      split; [exact P1|]. destruct P2 as [[D _]| ->]; [rewrite D in Hb; discriminate|].
      assert (Hx : fine (an_current wx)) by (rewrite T1; apply last_within; [apply Hr|exact Hfi]). now apply ready_at.
    + apply wplay_fails in Ep as (h1 & s & st1 & h2 & w1 & E0 & Ep1 & Ep2); [|exact Ho].
      apply write_fails in Ep2 as (Hs & C1 & out & C2 & C3); [|exact Ho].
      assert (Hst1 : In st1 (map snd (denote h0))).
      { rewrite E0, denote_app, map_app. apply in_or_app. right. destruct s as [|c0 s]; [congruence|]. left. reflexivity. }
      destruct (PLAYED h1 w1 Ep1 (denote ((s, st1) :: h2)) ltac:(now rewrite E0, denote_app)) as (T1 & T2 & P).
      exists h1. split; [apply ARR; exists ((s, st1) :: h2); exact E0|]. split.
      { destruct C1 as [<-|[<-|[]]]; [|right; exact Hst1]. rewrite T1.
        destruct (last_style_in (denote h1) (an_current w)) as [G|G]; [left; exact G|].
        right. rewrite E0, denote_app, map_app. apply in_or_app. left. exact G. }
      exists (ansi_render (an_current w) (denote h1) ++ out), st1.
      split; [rewrite C2, T2, app_assoc; reflexivity|]. split; [exact Hst1|].
      intros Hn state screen Hr. destruct (P Hn state screen Hr) as (state1 & P1 & P2).
      assert (Hr1 : ready (an_current w1) state1 (look (an_current w1)) st1).
      { destruct P2 as [(D & ->)| ->]; [|apply ready_at; [rewrite T1; apply last_within; [apply Hr|]|exact (in_fine _ _ Hfi Hst1)];
          unfold all_within in *; rewrite E0, denote_app in Hfi; apply Forall_app in Hfi; apply Hfi].
        rewrite T1, D. cbn. rewrite E0, denote_app, D in Hb. destruct s as [|c0 s]; [congruence|]. cbn in Hb. injection Hb as ->. exact Hr. }
      destruct (C3 state1 (screen ++ seen look (denote h1)) Hr1) as (state' & G1 & G2).
      exists state'. rewrite feed_app, P1. split; [exact G1|exact G2].
Qed.

Lemma wresume calls : Forall (fun c => wcall_regular c /\ wcall_fine c) calls -> forall last tried retry (w : ansi S),
  let (w', results) := session (Write_ansi sink) calls w in
  wcareful last tried retry (combine calls results) ->
  exists parts, Forall2 warrives (combine calls results) parts /\
    exists out, held (an_inner w') = held (an_inner w) ++ out /\
    (no_controls (text_of (concat parts)) ->
     forall state screen, sync true last tried retry (an_current w) state (look (an_current w)) ->
       term_feed sgr (mk_term state (look (an_current w)) screen) (out ++ esc (an_current w') style_default)
       = mk_term Ground (look style_default) (screen ++ seen look (denote (concat parts)))).
Proof.
  pose proof (atomic_honest sink held Ha) as Hh.
  induction 1 as [|c calls [Hc Hfi] _ IH]; intros last tried retry w; cbn [session].
  - cbn [combine]. intros Hf. exists []. split; [constructor|]. exists []. split; [now rewrite app_nil_r|].
    intros _ state screen Hi. cbn [app concat denote seen map]. rewrite app_nil_r. inversion Hf; subst. apply (esc_ready sgr look allowed Hu). apply (proj1 Hi); [exact (proj1 Hu)|assumption].
  - destruct (do_call (Write_ansi sink) w c) as [w1 o] eqn:E1.
    specialize (fun last tried retry => IH last tried retry w1).
    destruct (session (Write_ansi sink) calls w1) as [w2 os] eqn:E2. cbn [combine]. intros Hf.
    assert (STEP : forall last' tried' retry' p o1, wcareful last' tried' retry' (combine calls os) -> warrives (c, o) p ->
      held (an_inner w1) = held (an_inner w) ++ o1 ->
      (no_controls (text_of p) -> forall state screen, sync true last tried retry (an_current w) state (look (an_current w)) ->
        exists state', term_feed sgr (mk_term state (look (an_current w)) screen) o1 = mk_term state' (look (an_current w1)) (screen ++ seen look (denote p)) /\
          sync true last' tried' retry' (an_current w1) state' (look (an_current w1))) ->
      exists parts, Forall2 warrives ((c, o) :: combine calls os) parts /\
        exists out, held (an_inner w2) = held (an_inner w) ++ out /\
        (no_controls (text_of (concat parts)) ->
         forall state screen, sync true last tried retry (an_current w) state (look (an_current w)) ->
           term_feed sgr (mk_term state (look (an_current w)) screen) (out ++ esc (an_current w2) style_default)
           = mk_term Ground (look style_default) (screen ++ seen look (denote (concat parts))))).
    { intros last' tried' retry' p o1 Hf' Hp Ho1 Hone. destruct (IH _ _ _ Hf') as (parts & Hparts & out & B1 & B2).
      exists (p :: parts). split; [now constructor|]. exists (o1 ++ out). split; [rewrite B1, Ho1, app_assoc; reflexivity|].
      cbn [concat]. rewrite text_app. intros Hn state screen Hi. apply Forall_app in Hn as [Hn1 Hn2].
      destruct (Hone Hn1 state screen Hi) as (state' & A2 & A3).
      rewrite <- app_assoc, feed_app, A2, (B2 Hn2 _ _ A3), denote_app, seen_app, app_assoc. reflexivity. }
    inversion Hf; subst.
    + (* no text *)
      match goal with H : wbegins c = None |- _ => rename H into Hb end.
      assert (N : held (an_inner w1) = held (an_inner w) /\ an_current w1 = an_current w /\ exists p, warrives (c, o) p /\ denote p = []).
      { unfold wbegins in Hb. assert (Hd : denote (call_text c) = []) by (destruct (denote _); [reflexivity|discriminate]).
        destruct c as [s st'|ch st'|args]; cbn [do_call Write_ansi Write_default w_write_str w_write_char w_write_fmt call_text] in *.
        - destruct s as [|]; [|discriminate]. cbn in E1. injection E1 as <- <-. split; [reflexivity|]. split; [reflexivity|].
          exists [([], st')]. split; reflexivity.
        - discriminate.
        - cbn [wcall_regular] in Hc. rewrite default_write_fmt_run, run_propagates in E1 by exact Hc.
          assert (P : forall h w, denote h = [] -> play (ansi_write_str sink) h w = (w, Returned Ok)).
          { clear. induction h as [|[s st] h IH]; intros w Hd; cbn [play]; [reflexivity|].
            destruct s as [|c s]; [|discriminate]. cbn [ansi_write_str is_empty]. now apply IH. }
          rewrite P in E1 by exact Hd. injection E1 as <- <-. split; [reflexivity|]. split; [reflexivity|].
          destruct (ok_outcome (args formatter_new)) as [[|]|cr].
          + exists (ok_events (args formatter_new)). split; [reflexivity|exact Hd].
          + exists []. split; [eexists; reflexivity|reflexivity].
          + exists []. split; [eexists; reflexivity|reflexivity]. }
      destruct N as (N1 & N2 & p & N3 & N4). apply (STEP last tried retry p []); [assumption|exact N3|now rewrite app_nil_r|].
      intros _ state screen Hi. exists state. rewrite N2, N4. cbn [seen map]. rewrite app_nil_r. split; [reflexivity|exact Hi].
    + match goal with H : wbegins c = Some _ |- _ => rename H into Hb end.
      destruct (call_ok sink held Hh c w w1 Hc E1) as [A1 A2].
      apply (STEP (wends c) [] None (call_text c) _ ltac:(assumption) ltac:(destruct c; reflexivity) A1).
      intros Hn state screen Hi.
      match goal with H : may _ last tried retry _ |- _ => pose proof (proj1 Hi _ (wbegins_fine _ _ Hfi Hb) H) as I1 end.
      unfold wcall_fine, wcall_styles in Hfi. apply styles_within in Hfi.
      assert (Hn' : no_controls (chars (denote (call_text c)))) by now rewrite chars_denote.
      unfold wbegins in Hb. unfold wends.
      destruct (denote (call_text c)) as [|[c0 st0] t] eqn:Ed; [discriminate|]. cbn in Hb. injection Hb as ->.
      exists Ground. rewrite A2. split; [now apply (render_from_on sgr look allowed Hu)|].
      rewrite last_style_last. apply sync_new. rewrite <- (last_style_last t (an_current w)). apply last_within; [apply I1|exact Hfi].
    + match goal with H : wbegins c = Some _ |- _ => rename H into Hb end.
      destruct (wcall_fails c st w w1 o Hc Hfi Hb E1 ltac:(assumption)) as (p & F1 & F2 & out & at' & F3 & F4 & F5).
      apply (STEP last (wcall_styles c ++ tried) (sole (wcall_styles c)) p out ltac:(assumption) F1 F3).
      intros Hn state screen Hi.
      match goal with H : may _ last tried retry _ |- _ => pose proof (proj1 Hi _ (wbegins_fine _ _ Hfi Hb) H) as I1 end.
      destruct (F5 Hn state screen I1) as (state' & G1 & G2). exists state'. split; [exact G1|].
      eapply sync_fail; try eassumption. auto.
Qed.

Lemma wresume_finish (calls : list wcall) (i : S) :
  held i = [] -> Forall (fun c => wcall_regular c /\ wcall_fine c) calls ->
  let (w, results) := session (Write_ansi sink) calls (lib_ansi i) in
  let log := combine calls results in
  wcareful style_default [] None log ->
  exists parts, Forall2 warrives log parts /\
    forall i', ansi_finish sink w = (i', Returned Ok) -> no_controls (text_of (concat parts)) ->
      term_feed sgr (fresh_term look) (held i') = mk_term Ground (look style_default) (seen look (denote (concat parts))).
Proof.
  intros H0 Hc. pose proof (atomic_honest sink held Ha) as Hh.
  pose proof (wresume calls Hc style_default [] None (lib_ansi i)) as G.
  destruct (session (Write_ansi sink) calls (lib_ansi i)) as [w os]. cbv zeta in *. intros Hf.
  destruct (G Hf) as (parts & Hp & out & G1 & G2). exists parts. split; [exact Hp|]. intros i' Hfin Hn.
  cbn [lib_ansi ansi_new an_inner an_current] in G1, G2. rewrite H0 in G1. cbn [app] in G1.
  assert (E : held i' = out ++ esc (an_current w) style_default).
  { rewrite <- G1. revert Hfin. unfold ansi_finish, esc, ansi_change.
    destruct (style_eqb_spec (an_current w) style_default) as [->|Hne]; cbn [negb andb].
    - intros [= <-]. cbn. now rewrite app_nil_r.
    - intros H. exact (honest_parts _ _ _ _ _ _ Hh H). }
  rewrite E. exact (G2 Hn Ground [] (sync_new true style_default (proj1 Hu))).
Qed.
End MemCall.
End AnyTerminal.
