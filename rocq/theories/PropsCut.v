(** Property C93: sessions on io::Ansi in which calls may fail and characters may be cut between calls. *)
From Verif Require Import Base Style Fmt Plain Ansi Io StdIo Lib SpecText TextFacts StyleFacts SpecTerminal AnsiFacts
  SpecSink RetryFacts SpecUtf8 Utf8Facts SpecIo IoFacts SpecSession PropsSession PropsRetry PropsMore PropsRecover
  SpecResume SpecAnyTerm AnyTermFacts ResumeFacts SpecCut.

(** * What reaches the sink, step by step *)
Inductive step :=
  | Did (b : bytes) (st : style)      (* a style change and bytes *)
  | Tore (p : bytes) (st : style)     (* the first bytes of a style change *)
  | Skipped (st : style).             (* nothing *)
Fixpoint wire (cur : style) (l : list step) : bytes :=
  match l with
  | [] => []
  | Did b st :: r => utf8 (esc cur st) ++ b ++ wire st r
  | Tore p _ :: r => p ++ wire cur r
  | Skipped _ :: r => wire cur r
  end.
Definition piece (x : step) : bytes * style :=
  match x with Did b st => (b, st) | Tore _ st => ([], st) | Skipped st => ([], st) end.

Section Trail.
Variable fresh : bool.
(** [torn]: the style that a style change was torn on the way to, since the last one that was not. *)
Definition fits (cur : style) (torn : option style) (st : style) : Prop :=
  torn = None \/ torn = Some st \/ (fresh = true /\ st <> cur).
Inductive trail : style * option style -> list step -> style * option style -> Prop :=
  | tr_nil x : trail x [] x
  | tr_did cur torn b st l y : fits cur torn st -> trail (st, None) l y -> trail (cur, torn) (Did b st :: l) y
  | tr_skip x st l y : trail x l y -> trail x (Skipped st :: l) y
  | tr_tore cur torn p q st l y : fits cur torn st -> cur <> st -> esc cur st = p ++ q -> (fresh = true -> q <> []) ->
      trail (cur, Some st) l y -> trail (cur, torn) (Tore p st :: l) y.

Lemma trail_app x a y : trail x a y -> forall b z, trail y b z -> trail x (a ++ b) z.
Proof. induction 1; intros b' z Hb; cbn [app]; [exact Hb| | |]; econstructor; eauto. Qed.
Lemma wire_app x a y : trail x a y -> forall b, wire (fst x) (a ++ b) = wire (fst x) a ++ wire (fst y) b.
Proof.
  induction 1; intros b'; cbn [app wire fst] in *; [reflexivity| | |]; rewrite ?IHtrail, ?app_assoc; reflexivity.
Qed.

(** * What a terminal shows of it *)
Section AnyTerminal.
Context {R : Type} (sgr : N -> R -> R) (look : style -> R) (allowed : intensity -> Prop).
Hypothesis Hu : understands sgr look allowed.

(** The terminal is in [state] with rendition [rend] and has not yet been sent the bytes [pend], in style
    [sty], the first part of a piece of text. *)
Definition flows (cur : style) (torn : option style) (state : pstate) (rend : R) (pend : bytes) (sty : style) : Prop :=
  allowed (intens cur) /\
  match torn with
  | None => state = Ground /\ rend = look cur
  | Some at' => cur <> at' /\ (rend = look cur \/ rend = look at') /\ (fresh = true -> rend = look cur)
  end /\
  (pend = [] \/ (sty = cur /\ torn = None)).

Lemma flows_ready cur torn state rend pend sty st :
  flows cur torn state rend pend sty -> allowed (intens st) -> fits cur torn st -> ready look allowed cur state rend st.
Proof.
  intros (A & B & _) Ha [->|[->|[Hf Hne]]].
  - destruct B as [-> ->]. now apply ready_at.
  - destruct B as (B1 & B2 & _). split; [split; assumption|]. split; [exact B2|right; exact B1].
  - split; [split; assumption|]. destruct torn as [at'|].
    + destruct B as (B1 & B2 & B3). split; [left; auto|right; congruence].
    + destruct B as [-> ->]. split; auto.
Qed.

(** Sending the pending bytes. *)
Lemma flows_flush cur torn state rend pend sty (s : str) screen :
  flows cur torn state rend pend sty -> utf8 s = pend -> no_controls s ->
  term_feed sgr (mk_term state rend screen) s = mk_term state rend (screen ++ seen look (paint sty s)).
Proof.
  intros (_ & B & C) Hs Hn. destruct C as [->|[-> ->]].
  - apply (proj1 (utf8_nil s)) in Hs. subst s. cbn. now rewrite app_nil_r.
  - destruct B as [-> ->]. rewrite feed_text by exact Hn. unfold seen, paint. now rewrite map_map.
Qed.

Lemma trail_shows x steps y : trail x steps y ->
  Forall (fun e => match e with Skipped _ => True | Did _ st | Tore _ st => allowed (intens st) end) steps -> fits (fst y) (snd y) style_default ->
  forall state rend pend sty screen (h : history), flows (fst x) (snd x) state rend pend sty ->
    encodes ((pend, sty) :: map piece steps) h -> no_controls (text_of h) ->
    exists out, utf8 out = pend ++ wire (fst x) steps ++ utf8 (esc (fst y) style_default) /\
      term_feed sgr (mk_term state rend screen) out = mk_term Ground (look style_default) (screen ++ seen look (denote h)).
Proof.
  intros Ht Hal Hend. unfold encodes.
  assert (KEEP : forall cur torn state rend pend sty h l, flows cur torn state rend pend sty ->
    joined ((pend, sty) :: l) (map (fun e : str * style => (utf8 (fst e), snd e)) h) -> no_controls (text_of h) ->
    (exists s h', h = (s, sty) :: h' /\ utf8 s = pend /\ no_controls (text_of h') /\
      joined l (map (fun e : str * style => (utf8 (fst e), snd e)) h') /\
      forall screen, term_feed sgr (mk_term state rend screen) s = mk_term state rend (screen ++ seen look (paint sty s))) \/
    exists b l', l = (b, sty) :: l' /\ joined ((pend ++ b, sty) :: l') (map (fun e : str * style => (utf8 (fst e), snd e)) h)).
  { intros cur torn state rend pend sty h l Hfl H Hn. inversion H as [|x0 l0 m0 H1 E1 E2|b1 b2 st0 l0 m0 H1 E1 E2].
    - subst x0 l0. destruct h as [|[s st] h]; [discriminate|]. cbn [map fst snd] in E2. injection E2 as Es Est Em. subst st pend m0.
      change (text_of ((s, sty) :: h)) with (s ++ text_of h) in Hn. apply Forall_app in Hn as [Hn1 Hn2].
      left. exists s, h. split; [reflexivity|]. split; [reflexivity|]. split; [exact Hn2|]. split; [exact H1|].
      intros screen. now apply (flows_flush cur torn _ _ (utf8 s)).
    - subst. right. exists b2, l0. split; [reflexivity|exact H1]. }
  induction Ht as [[cur torn]|cur torn b st l y Hf Ht IH|x st l y Ht IH|cur torn p q st l y Hf Hne Hpq Hq Ht IH];
    intros state rend pend sty screen h Hfl He Hn.
  - destruct (KEEP _ _ _ _ _ _ _ _ Hfl He Hn) as [(s & h' & -> & Hs & Hn' & Hj & Hfeed)|(b & l' & E & _)]; [|discriminate].
    destruct h'; [|inversion Hj]. exists (s ++ esc cur style_default). cbn [fst snd wire app] in *. rewrite utf8_app, Hs.
    split; [reflexivity|]. rewrite feed_app, Hfeed. cbn [denote]. rewrite app_nil_r.
    apply (esc_ready sgr look allowed Hu). eapply flows_ready; [exact Hfl|exact (proj1 Hu)|exact Hend].
  - inversion Hal as [|x0 l0 Hal1 Hal2]; subst.
    pose proof (flows_ready _ _ _ _ _ _ _ Hfl Hal1 Hf) as Hr. specialize (IH Hal2 Hend). cbn [fst snd wire map piece] in *.
    assert (NEW : forall pend', flows st None Ground (look st) pend' st) by (intros pend'; split; [exact Hal1|split; auto]).
    destruct (KEEP _ _ _ _ _ _ _ _ Hfl He Hn) as [(s & h' & -> & Hs & Hn' & Hj & Hfeed)|(b' & l' & E & Hj)].
    + destruct (IH Ground (look st) b st (screen ++ seen look (paint sty s)) h' (NEW b) Hj Hn') as (out & O1 & O2).
      exists (s ++ esc cur st ++ out). rewrite !utf8_app, Hs, O1, <- !app_assoc. split; [reflexivity|].
      rewrite feed_app, Hfeed, feed_app, (esc_ready sgr look allowed Hu) by exact Hr. rewrite O2.
      cbn [denote]. now rewrite seen_app, app_assoc.
    + injection E as <- <- <-.
      destruct (IH Ground (look st) (pend ++ b) st screen h (NEW (pend ++ b)) Hj Hn) as (out & O1 & O2).
      destruct Hfl as (F1 & F2 & [->|[<- ->]]).
      * exists (esc cur st ++ out). rewrite utf8_app, O1, <- !app_assoc. split; [reflexivity|].
        rewrite feed_app, (esc_ready sgr look allowed Hu) by exact Hr. exact O2.
      * exists out. rewrite O1, esc_same, <- !app_assoc. split; [reflexivity|]. destruct F2 as [-> ->]. exact O2.
  - inversion Hal as [|x0 l0 Hal1 Hal2]; subst. specialize (IH Hal2 Hend). cbn [fst snd wire map piece] in *.
    destruct (KEEP _ _ _ _ _ _ _ _ Hfl He Hn) as [(s & h' & -> & Hs & Hn' & Hj & Hfeed)|(b' & l' & E & Hj)].
    + destruct (IH state rend [] st (screen ++ seen look (paint sty s)) h') as (out & O1 & O2); [|exact Hj|exact Hn'|].
      { destruct Hfl as (F1 & F2 & _). split; [exact F1|]. split; [exact F2|]. left. reflexivity. }
      exists (s ++ out). rewrite utf8_app, Hs, O1. split; [reflexivity|]. rewrite feed_app, Hfeed, O2. cbn [denote]. now rewrite seen_app, app_assoc.
    + injection E as <- <- <-. rewrite app_nil_r in Hj. exact (IH state rend pend st screen h Hfl Hj Hn).
  - inversion Hal as [|x0 l0 Hal1 Hal2]; subst.
    pose proof (flows_ready _ _ _ _ _ _ _ Hfl Hal1 Hf) as Hr. specialize (IH Hal2 Hend). cbn [fst snd wire map piece] in *.
    assert (Hp : utf8 p = p).
    { apply utf8_ascii. pose proof (esc_ascii cur st) as A. unfold bytes, str, char in *. rewrite Hpq in A. now apply Forall_app in A. }
    (* the torn style change *)
    assert (TORN : forall screen, exists state' rend', term_feed sgr (mk_term state rend screen) p = mk_term state' rend' screen /\
      flows cur (Some st) state' rend' [] st).
    { intros sc. destruct q as [|q0 q].
      - rewrite app_nil_r in Hpq. subst p. exists Ground, (look st). split; [now apply (esc_ready sgr look allowed Hu)|].
        split; [apply Hr|]. split; [|left; reflexivity]. split; [exact Hne|]. split; [right; reflexivity|]. intros Hfr. now specialize (Hq Hfr).
      - destruct (feed_prefix sgr cur st p (q0 :: q) state rend sc Hpq ltac:(discriminate)) as [state' F].
        exists state', rend. split; [exact F|]. split; [apply Hr|]. split; [|left; reflexivity]. split; [exact Hne|].
        split; [apply Hr|]. intros Hfr. destruct Hfl as (_ & F2 & _). destruct torn as [at'|]; [now apply F2|apply F2]. }
    destruct (KEEP _ _ _ _ _ _ _ _ Hfl He Hn) as [(s & h' & -> & Hs & Hn' & Hj & Hfeed)|(b' & l' & E & Hj)].
    + destruct (TORN (screen ++ seen look (paint sty s))) as (state' & rend' & T1 & T2).
      destruct (IH state' rend' [] st (screen ++ seen look (paint sty s)) h' T2 Hj Hn') as (out & O1 & O2).
      exists (s ++ p ++ out). rewrite !utf8_app, Hs, Hp, O1, <- !app_assoc. split; [reflexivity|].
      rewrite feed_app, Hfeed, feed_app, T1, O2. cbn [denote]. now rewrite seen_app, app_assoc.
    + injection E as <- <- <-. rewrite app_nil_r in Hj.
      assert (pend = []) as -> by (destruct Hfl as (_ & _ & [F|[F _]]); [exact F|congruence]).
      destruct (TORN screen) as (state' & rend' & T1 & T2).
      destruct (IH state' rend' [] st screen h T2 Hj Hn) as (out & O1 & O2).
      exists (p ++ out). rewrite utf8_app, Hp, O1, <- !app_assoc. split; [reflexivity|]. now rewrite feed_app, T1.
Qed.
End AnyTerminal.
End Trail.

(** * Calls *)
Section Calls.
Context {S : Type} (sink : std_io S) (held : S -> bytes) (fuel : nat).
Hypothesis Hh : honest sink held.
Variable fresh : bool.
Hypothesis Hshort : fresh = true -> stops_short sink held.

Lemma tears cur st i i' e :
  write_all_parts sink (ansi_change cur st) i = (i', IoErr e) ->
  cur <> st /\ exists p q, esc cur st = p ++ q /\ (fresh = true -> q <> []) /\ held i' = held i ++ p.
Proof.
  intros Hp. split; [intros ->; rewrite ansi_change_same in Hp; discriminate|].
  pose proof (parts_err _ _ held Hh _ _ _ _ Hp) as (_ & p & (q & Hq) & Hheld).
  change (concat (ansi_change cur st)) with (esc cur st) in Hq. rewrite (utf8_ascii _ (esc_ascii cur st)) in Hq.
  exists p, q. split; [exact Hq|]. split; [|exact Hheld]. intros Hfr ->. rewrite app_nil_r in Hq.
  destruct (parts_short sink held Hh (Hshort Hfr) _ (change_nonempty cur st) _ _ _ Hp) as (p' & q' & Hq' & Hq0 & Hheld').
  change (concat (ansi_change cur st)) with (esc cur st) in Hq'. rewrite (utf8_ascii _ (esc_ascii cur st)) in Hq'.
  unfold bytes, str, char in *. rewrite Hheld in Hheld'. apply app_inv_head in Hheld'. subst p'. rewrite Hq in Hq'.
  rewrite <- (app_nil_r p) in Hq' at 1. apply app_inv_head in Hq'. auto.
Qed.

Notation used l := (fun e => match e with Skipped _ => True | Did _ st | Tore _ st => In st l end).

(** [write_all] that fails. *)
Lemma all_steps b st w w' e torn :
  io_ansi_write_all fuel sink w b st = (w', IoErr e) -> fits fresh (ia_current w) torn st ->
  b <> [] /\ exists x torn', begun [piece x] [(b, st)] /\
    trail fresh (ia_current w, torn) [x] (ia_current w', torn') /\
    held (ia_inner w') = held (ia_inner w) ++ wire (ia_current w) [x] /\
    used [st] x /\ (torn' = None \/ torn' = Some st) /\ In (ia_current w') [ia_current w; st].
Proof.
  intros H Hf. apply (all_fails sink held fuel Hh) in H as [Hb [(A1 & p & A2 & A3)|(A1 & i' & e' & A2 & A3)]]; (split; [exact Hb|]).
  - exists (Did p st), None. split; [now constructor|]. rewrite A1. split; [constructor; [exact Hf|constructor]|].
    split; [cbn [wire]; now rewrite app_nil_r|]. split; [left; reflexivity|]. split; [left; reflexivity|right; left; reflexivity].
  - apply tears in A3 as (Hne & p & q & Hpq & Hq & Hheld). exists (Tore p st), (Some st).
    split; [constructor; now exists b|]. rewrite A1, A2. split; [econstructor; [exact Hf|exact Hne|exact Hpq|exact Hq|constructor]|].
    split; [cbn [wire]; now rewrite app_nil_r|]. split; [left; reflexivity|]. split; [right; reflexivity|left; reflexivity].
Qed.

(** Events. *)
Definition event_step (e : str * style) : step :=
  match fst e with [] => Skipped (snd e) | _ :: _ => Did (utf8 (fst e)) (snd e) end.
Lemma event_piece e : piece (event_step e) = (utf8 (fst e), snd e).
Proof. destruct e as [[|c s] st]; reflexivity. Qed.
Lemma events_steps h0 : forall t t' torn,
  play (trap_write_str (io_ansi_write_all fuel sink)) h0 t = (t', Returned Ok) ->
  (forall st, hd_error (map snd (denote h0)) = Some st -> fits fresh (ia_current (et_inner t)) torn st) ->
  trail fresh (ia_current (et_inner t), torn) (map event_step h0)
    (ia_current (et_inner t'), match denote h0 with [] => torn | _ :: _ => None end) /\
  held (ia_inner (et_inner t')) = held (ia_inner (et_inner t)) ++ wire (ia_current (et_inner t)) (map event_step h0) /\
  Forall (used (map snd (denote h0))) (map event_step h0) /\
  ia_current (et_inner t') = last_style (ia_current (et_inner t)) (denote h0).
Proof.
  induction h0 as [|[s st] h0 IH]; intros t t' torn; cbn [play map denote].
  - intros [= <-] _. cbn. rewrite app_nil_r. repeat split; constructor.
  - destruct (trap_write_str (io_ansi_write_all fuel sink) t s st) as [t1 [[|]|c]] eqn:E; try discriminate.
    intros H Hf. revert E. unfold trap_write_str.
    destruct (io_ansi_write_all fuel sink (et_inner t) (utf8 s) st) as [w1 [[]|e1|c1]] eqn:E; try discriminate.
    intros [= <-]. cbn [et_inner] in *. apply (io_write_all_ok _ _ held Hh) in E as [E1 E2].
    destruct s as [|c0 s]; unfold event_step at 1 3 5; cbn [fst snd map paint app] in *.
    + cbn [utf8 flat_map is_empty] in E1, E2. destruct (IH _ _ torn H) as (I1 & I2 & I3 & I4).
      { cbn [et_inner]. rewrite E1. exact Hf. }
      cbn [et_inner] in *. rewrite E1 in *. rewrite app_nil_r in E2. rewrite E2 in I2. cbn [wire].
      split; [now constructor|]. split; [exact I2|]. split; [constructor; [exact I|exact I3]|exact I4].
    + assert (Hne : is_empty (utf8 (c0 :: s)) = false).
      { destruct (utf8 (c0 :: s)) eqn:U; [|reflexivity]. apply (proj1 (utf8_nil _)) in U. discriminate. }
      rewrite Hne in E1, E2. destruct (IH _ _ None H) as (I1 & I2 & I3 & I4); [intros; left; reflexivity|].
      cbn [et_inner] in *. rewrite E1 in *. rewrite E2 in I2. cbn [wire].
      split.
      { constructor; [apply Hf; reflexivity|]. destruct (denote h0); exact I1. }
      split; [rewrite I2, <- !app_assoc; reflexivity|]. split.
      { constructor; [left; reflexivity|]. eapply Forall_impl; [|exact I3]. intros [b' st'|p' st'|st']; cbn beta iota; auto;
          intros Hin; right; rewrite map_app; apply in_or_app; right; exact Hin. }
      change ((c0, st) :: map (fun c => (c, st)) s ++ denote h0) with (paint st (c0 :: s) ++ denote h0).
      rewrite last_style_app, I4. f_equal. clear. revert c0. induction s as [|c s IH]; intros c0; [reflexivity|]. apply (IH c).
Qed.

(** One call. *)
Lemma call_steps c w w' r torn :
  call_regular c -> do_iocall (IoWrite_ansi fuel sink) w c = (w', r) -> (forall x, r <> IoCrash x) ->
  (forall st, begins c = Some st -> fits fresh (ia_current w) torn st) ->
  exists steps torn', leaves (c, r) (map piece steps) /\
    trail fresh (ia_current w, torn) steps (ia_current w', torn') /\
    held (ia_inner w') = held (ia_inner w) ++ wire (ia_current w) steps /\
    Forall (used (call_styles c)) steps /\
    (begins c = None -> torn' = torn /\ ia_current w' = ia_current w) /\
    (begins c <> None ->
      (torn' = None \/ exists at', torn' = Some at' /\ In at' (call_styles c)) /\
      In (ia_current w') (ia_current w :: call_styles c) /\
      (forall n, r = IoOk n -> torn' = None /\ ia_current w' = ends c) /\
      (forall b st e, c = IWrite b st -> r = IoErr e -> err_kind e = Interrupted -> torn' = None /\ ia_current w' = st)).
Proof.
  intros Hc H Hr Hf. destruct c as [b st|b st| |args];
    cbn [do_iocall IoWrite_ansi io_write io_write_all io_flush io_write_fmt leaves accepted asked begins call_styles ends] in *.
  - (* write *)
    assert (Hf' := Hf st eq_refl). destruct r as [n|e|x]; [| |now destruct (Hr x)].
    + apply (io_write_ok _ _ held Hh) in H as (H1 & H2 & H3). exists [Did (firstn n b) st], None.
      split; [reflexivity|]. rewrite H1. split; [constructor; [exact Hf'|constructor]|].
      split; [cbn [wire]; now rewrite app_nil_r|]. split; [constructor; [left; reflexivity|constructor]|].
      split; [discriminate|]. intros _. split; [left; reflexivity|]. split; [right; left; reflexivity|]. split; [auto|]. intros; discriminate.
    + unfold io_ansi_write in H. rewrite io_change_same in H.
      destruct (write_all_parts sink (ansi_change (ia_current w) st) (ia_inner w)) as [i1 [[]|e1|c1]] eqn:Ep; [| |discriminate].
      * destruct (si_write sink i1 b) as [i2 r2] eqn:Ew. injection H as <- ->. cbn [ia_current ia_inner].
        apply (parts_ok _ _ held Hh) in Ep. apply (ho_write_err _ _ Hh) in Ew. rewrite Ew.
        exists [Did [] st], None. split; [reflexivity|]. split; [constructor; [exact Hf'|constructor]|].
        split; [cbn [wire app]; rewrite app_nil_r; exact Ep|]. split; [constructor; [left; reflexivity|constructor]|].
        split; [discriminate|]. intros _. split; [left; reflexivity|]. split; [right; left; reflexivity|]. split; [discriminate|].
        intros b' st' e' [= <- <-] _ _. auto.
      * injection H as <- ->. cbn [ia_current ia_inner]. pose proof (parts_err _ _ held Hh _ _ _ _ Ep) as (Hi & _).
        apply tears in Ep as (Hne & p & q & Hpq & Hq & Hheld). exists [Tore p st], (Some st). split; [reflexivity|].
        split; [econstructor; [exact Hf'|exact Hne|exact Hpq|exact Hq|constructor]|].
        split; [cbn [wire]; now rewrite app_nil_r|]. split; [constructor; [left; reflexivity|constructor]|].
        split; [discriminate|]. intros _. split; [right; exists st; split; [reflexivity|left; reflexivity]|].
        split; [left; reflexivity|]. split; [discriminate|]. intros b' st' e' _ [= <-] Hk. now destruct Hi.
  - (* write_all *)
    destruct (io_ansi_write_all fuel sink w b st) as [w1 [[]|e1|c1]] eqn:E; injection H as <- <-; [| |now destruct (Hr c1)].
    + apply (io_write_all_ok _ _ held Hh) in E as [E1 E2]. destruct b as [|x b]; cbn [is_empty] in *.
      * exists [Skipped st], torn. split; [reflexivity|]. rewrite E1. split; [constructor; constructor|]. split; [exact E2|].
        split; [constructor; [exact I|constructor]|]. split; [auto|]. intros Hx. now destruct Hx.
      * exists [Did (x :: b) st], None. split; [reflexivity|]. rewrite E1. split; [constructor; [now apply Hf|constructor]|].
        split; [cbn [wire]; rewrite app_nil_r; exact E2|]. split; [constructor; [left; reflexivity|constructor]|].
        split; [discriminate|]. intros _. split; [left; reflexivity|]. split; [right; left; reflexivity|]. split; [auto|]. intros; discriminate.
    + assert (Hb : b <> []) by (intros ->; unfold io_ansi_write_all in E; destruct fuel; discriminate).
      destruct b as [|x b]; [congruence|]. apply (all_steps _ _ _ _ _ torn) in E as (_ & y & torn' & E1 & E2 & E3 & E4 & E5 & E6); [|now apply Hf].
      exists [y], torn'. split; [exact E1|]. split; [exact E2|]. split; [exact E3|]. split; [constructor; [exact E4|constructor]|].
      split; [discriminate|]. intros _. split; [destruct E5 as [E5|E5]; [left; exact E5|right; exists st; split; [exact E5|left; reflexivity]]|].
      split; [destruct E6 as [E6|[E6|[]]]; [left; exact E6|right; left; exact E6]|]. split; [discriminate|]. intros; discriminate.
  - (* flush *)
    unfold io_ansi_flush in H. destruct (si_flush sink (ia_inner w)) as [i r'] eqn:E. injection H as <- <-.
    apply (ho_flush _ _ Hh) in E. cbn [ia_current ia_inner]. exists [], torn. split; [destruct r'; reflexivity|].
    split; [constructor|]. split; [cbn; now rewrite app_nil_r|]. split; [constructor|]. split; [auto|]. intros Hx. now destruct Hx.
  - (* write! *)
    destruct (default_io_write_fmt (io_ansi_write_all fuel sink) w args) as [w1 r1] eqn:E.
    assert (HH : w1 = w' /\ match r1 with IoOk _ => exists n, r = IoOk n | IoErr e => r = IoErr e | IoCrash x => r = IoCrash x end).
    { destruct r1; injection H as <- <-; split; eauto. }
    clear H. destruct HH as [-> HH]. destruct Hc as [Hp _]. rewrite default_io_run, run_propagates in E by exact Hp.
    revert Hf E HH. generalize (ok_events (args formatter_new)). intros h0 Hf E HH.
    assert (MP : forall h : history, map piece (map event_step h) = map (fun e : str * style => (utf8 (fst e), snd e)) h).
    { intros h. rewrite map_map. apply map_ext. apply event_piece. }
    assert (LST : forall cur, hd_error (map snd (denote h0)) <> None ->
      In (last_style cur (denote h0)) (map snd (denote h0)) /\ last_style cur (denote h0) = last (map snd (denote h0)) style_default).
    { intros cur Hx. destruct (denote h0) as [|[c0 st0] d] eqn:Ed; [now destruct Hx|]. split.
      - change (last_style cur ((c0, st0) :: d)) with (last_style st0 d). apply (last_style_in d st0).
      - apply last_style_last. }
    destruct (play (trap_write_str (io_ansi_write_all fuel sink)) h0 (trap_new w)) as [t o] eqn:Ep.
    destruct o as [[|]|x]; [| |injection E as <- <-; now destruct (Hr x)].
    + assert (Et : et_inner t = w' /\ ((exists n, r = IoOk n) \/ (exists e, r = IoErr e))).
      { destruct (ok_outcome (args formatter_new)) as [[|]|x]; injection E as <- <-; [eauto|eauto|now destruct (Hr x)]. }
      destruct Et as [Et Er]. apply (events_steps _ _ _ torn) in Ep as (P1 & P2 & P3 & P4); [|exact Hf].
      cbn [trap_new et_inner] in P1, P2, P4. rewrite Et in *.
      exists (map event_step h0), (match denote h0 with [] => torn | _ :: _ => None end).
      split.
      { rewrite MP. destruct Er as [(n & ->)|(e & ->)]; [reflexivity|].
        rewrite <- (app_nil_r (map _ h0)) at 1. rewrite <- (app_nil_r (map _ h0)) at 2. apply begun_app. constructor. }
      split; [exact P1|]. split; [exact P2|]. split; [exact P3|]. split.
      { intros Hb. destruct (denote h0); [|discriminate]. split; [reflexivity|exact P4]. }
      intros Hb. destruct (LST (ia_current w) Hb) as [L1 L2]. rewrite P4.
      assert (Hn : match denote h0 with [] => torn | _ :: _ => None end = None) by (destruct (denote h0); [now destruct Hb|reflexivity]).
      split; [left; exact Hn|]. split; [right; exact L1|]. split; [intros n _; split; [exact Hn|exact L2]|]. intros; discriminate.
    + injection E as <- <-. apply (play_fails sink fuel) in Ep as (h1 & s & st1 & h2 & t1 & e' & -> & Ep1 & Ep2).
      assert (Hs : s <> []) by (intros ->; unfold io_ansi_write_all in Ep2; destruct fuel; discriminate).
      assert (Hst1 : In st1 (map snd (denote (h1 ++ (s, st1) :: h2)))).
      { rewrite denote_app, map_app. apply in_or_app. right. destruct s as [|c0 s]; [congruence|]. left. reflexivity. }
      assert (Hbg : hd_error (map snd (denote (h1 ++ (s, st1) :: h2))) = Some (hd st1 (map snd (denote h1)))).
      { rewrite denote_app, map_app. destruct (denote h1) as [|[c1 x1] d1]; [|reflexivity]. destruct s as [|c0 s]; [congruence|reflexivity]. }
      apply (events_steps _ _ _ torn) in Ep1 as (P1 & P2 & P3 & P4).
      2:{ intros st Hst. apply Hf. rewrite Hbg. destruct (denote h1); [discriminate|exact Hst]. }
      cbn [trap_new et_inner] in P1, P2, P4.
      apply (all_steps _ _ _ _ _ (match denote h1 with [] => torn | _ :: _ => None end)) in Ep2 as (_ & y & torn' & E1 & E2 & E3 & E4 & E5 & E6).
      2:{ destruct (denote h1) as [|x1 d1] eqn:Ed; [|left; reflexivity]. rewrite P4. cbn [last_style]. apply Hf. rewrite Hbg. reflexivity. }
      exists (map event_step h1 ++ [y]), torn'. split.
      { rewrite HH, map_app, MP, map_app. apply begun_app. cbn [map]. change ((?a, ?b) :: ?r) with ([(a, b)] ++ r). now apply begun_more. }
      split; [eapply trail_app; eassumption|].
      split; [rewrite E3, P2, <- app_assoc; f_equal; symmetry; exact (wire_app _ _ _ _ P1 _)|].
      split.
      { apply Forall_app. split.
        - eapply Forall_impl; [|exact P3]. intros [b' st'|p' st'|st']; cbn beta iota; auto;
            intros Hin; rewrite denote_app, map_app; apply in_or_app; left; exact Hin.
        - constructor; [|constructor]. destruct y; cbn in *; auto; destruct E4 as [<-|[]]; exact Hst1. }
      split; [rewrite Hbg; discriminate|]. intros _.
      split; [destruct E5 as [E5|E5]; [left; exact E5|right; exists st1; split; [exact E5|exact Hst1]]|].
      split.
      { destruct E6 as [<-|[<-|[]]]; [|right; exact Hst1]. rewrite P4.
        destruct (last_style_in (denote h1) (ia_current w)) as [G|G]; [left; exact G|].
        right. rewrite denote_app, map_app. apply in_or_app. left. exact G. }
      split; [intros n Hx; rewrite HH in Hx; discriminate|]. intros; discriminate.
Qed.

(** * Sessions *)
Lemma session_steps calls : Forall call_regular calls -> forall last tried retry torn (w w' : io_ansi S) l,
  io_session (IoWrite_ansi fuel sink) calls w = (w', l) -> careful fresh last tried retry l ->
  (forall st, may fresh last tried retry st -> fits fresh (ia_current w) torn st) ->
  (fresh = true -> In (ia_current w) (last :: tried)) ->
  exists parts steps torn', Forall2 leaves l parts /\ concat parts = map piece steps /\
    trail fresh (ia_current w, torn) steps (ia_current w', torn') /\ fits fresh (ia_current w') torn' style_default /\
    held (ia_inner w') = held (ia_inner w) ++ wire (ia_current w) steps /\
    Forall (used (flat_map call_styles calls)) steps.
Proof.
  induction 1 as [|c calls Hc _ IH]; intros last tried retry torn w w' l; cbn [io_session].
  - intros [= <- <-] Hl Hm _. exists [], [], torn. split; [constructor|]. split; [reflexivity|]. split; [constructor|].
    inversion Hl; subst. split; [now apply Hm|]. split; [cbn; now rewrite app_nil_r|constructor].
  - destruct (do_iocall (IoWrite_ansi fuel sink) w c) as [w1 r] eqn:E1.
    destruct (io_session (IoWrite_ansi fuel sink) calls w1) as [w2 l2] eqn:E2. intros [= <- <-] Hl Hm Hin.
    assert (GO : forall last' tried' retry' torn1 steps, careful fresh last' tried' retry' l2 ->
      leaves (c, r) (map piece steps) -> trail fresh (ia_current w, torn) steps (ia_current w1, torn1) ->
      held (ia_inner w1) = held (ia_inner w) ++ wire (ia_current w) steps -> Forall (used (call_styles c)) steps ->
      (forall st, may fresh last' tried' retry' st -> fits fresh (ia_current w1) torn1 st) ->
      (fresh = true -> In (ia_current w1) (last' :: tried')) ->
      exists parts steps torn', Forall2 leaves ((c, r) :: l2) parts /\ concat parts = map piece steps /\
        trail fresh (ia_current w, torn) steps (ia_current w2, torn') /\ fits fresh (ia_current w2) torn' style_default /\
        held (ia_inner w2) = held (ia_inner w) ++ wire (ia_current w) steps /\
        Forall (used (flat_map call_styles (c :: calls))) steps).
    { intros last' tried' retry' torn1 steps Hl' G1 G2 G3 G4 G5 G6.
      destruct (IH _ _ _ torn1 _ _ _ E2 Hl' G5 G6) as (parts & steps2 & torn' & I1 & I2 & I3 & I4 & I5 & I6).
      exists (map piece steps :: parts), (steps ++ steps2), torn'. split; [now constructor|].
      split; [cbn [concat]; rewrite I2, map_app; reflexivity|]. split; [eapply trail_app; eassumption|]. split; [exact I4|].
      split; [rewrite I5, G3, <- app_assoc; f_equal; symmetry; exact (wire_app _ _ _ _ G2 _)|].
      cbn [flat_map]. apply Forall_app. split; [eapply Forall_impl; [|exact G4]|eapply Forall_impl; [|exact I6]];
        intros [b' st'|p' st'|st']; cbn beta iota; auto; intros Hi; apply in_or_app; auto. }
    assert (NC : (forall x, r <> IoCrash x) -> (forall st, begins c = Some st -> may fresh last tried retry st) ->
      exists steps torn1, leaves (c, r) (map piece steps) /\
        trail fresh (ia_current w, torn) steps (ia_current w1, torn1) /\
        held (ia_inner w1) = held (ia_inner w) ++ wire (ia_current w) steps /\ Forall (used (call_styles c)) steps /\
        (begins c = None -> torn1 = torn /\ ia_current w1 = ia_current w) /\
        (begins c <> None ->
          (torn1 = None \/ exists at', torn1 = Some at' /\ In at' (call_styles c)) /\
          In (ia_current w1) (ia_current w :: call_styles c) /\
          (forall n, r = IoOk n -> torn1 = None /\ ia_current w1 = ends c) /\
          (forall b st e, c = IWrite b st -> r = IoErr e -> err_kind e = Interrupted -> torn1 = None /\ ia_current w1 = st))).
    { intros Hr Hb. apply call_steps; auto. }
    inversion Hl; subst.
    + (* flush *)
      cbn [do_iocall IoWrite_ansi io_flush] in E1. unfold io_ansi_flush in E1.
      destruct (si_flush sink (ia_inner w)) as [i r'] eqn:Ef. apply (ho_flush _ _ Hh) in Ef. injection E1 as <- <-.
      apply (GO last tried retry torn []); [assumption|destruct r'; reflexivity|constructor| |constructor|exact Hm|exact Hin].
      cbn [ia_inner wire]. now rewrite app_nil_r.
    + (* no text *)
      destruct NC as (steps & torn1 & N1 & N2 & N3 & N4 & N5 & _); [assumption|congruence|].
      destruct N5 as [-> N5]; [assumption|].
      apply (GO last tried retry torn steps); try assumption; rewrite N5; assumption.
    + (* success *)
      destruct NC as (steps & torn1 & N1 & N2 & N3 & N4 & _ & N6); [discriminate|congruence|].
      destruct N6 as (_ & _ & N6 & _); [congruence|]. destruct (N6 n eq_refl) as [-> N7].
      apply (GO (ends c) [] None None steps); try assumption; [intros; left; reflexivity|]. intros _. left. now rewrite N7.
    + (* interrupted *)
      destruct NC as (steps & torn1 & N1 & N2 & N3 & N4 & _ & N6); [discriminate|intros st' [= <-]; assumption|].
      destruct N6 as (_ & _ & _ & N6); [discriminate|]. destruct (N6 _ _ _ eq_refl eq_refl ltac:(assumption)) as [-> N7].
      apply (GO st [] None None steps); try assumption; [intros; left; reflexivity|]. intros _. left. now rewrite N7.
    + (* failure *)
      destruct NC as (steps & torn1 & N1 & N2 & N3 & N4 & _ & N6); [discriminate|congruence|].
      destruct N6 as (N6 & N7 & _ & _); [congruence|].
      assert (Hin1 : fresh = true -> In (ia_current w1) (last :: call_styles c ++ tried)).
      { intros Hfr. specialize (Hin Hfr). destruct N7 as [<-|N7]; [|right; apply in_or_app; auto].
        destruct Hin as [Hin|Hin]; [left; exact Hin|right; apply in_or_app; auto]. }
      apply (GO last (call_styles c ++ tried) (sole (call_styles c)) torn1 steps); try assumption.
      intros st' [Ht|[Ht|[Hfr Ht]]].
      * apply app_eq_nil in Ht as [Ht _]. exfalso. destruct c as [b0 st0|b0 st0| |args]; cbn [begins call_styles] in *; try discriminate.
        -- destruct b0; discriminate.
        -- rewrite Ht in *. discriminate.
      * destruct N6 as [->|(at' & -> & Hat)]; [left; reflexivity|]. right. left. f_equal. exact (sole_all _ _ Ht _ Hat).
      * right. right. split; [exact Hfr|]. intros ->. apply Ht. now apply Hin1.
Qed.
End Calls.

(** C93: any sequence of write, write_all, write! and flush calls on io::Ansi over any honest sink, on any
    terminal that understands the styles. Any call may fail at any point and write may accept any number of
    bytes, also parts of characters. The caller goes on as in C91. If what the calls left, with adjacent
    pieces in the same style joined, is the UTF-8 encoding of a styled text, the terminal shows exactly that. *)
Theorem C93_cut {R} (sgr : N -> R -> R) (look : style -> R) (allowed : intensity -> Prop)
  {S} (sink : std_io S) (held : S -> bytes) (fuel : nat) (fresh : bool) (calls : list iocall)
  (s : S) (w : io_ansi S) (l : list (iocall * io_res nat)) :
  understands sgr look allowed -> honest sink held -> (fresh = true -> stops_short sink held) ->
  Forall call_regular calls -> Forall (fun c => Forall (fun st => allowed (intens st)) (call_styles c)) calls ->
  io_session (IoWrite_ansi fuel sink) calls (lib_io_ansi s) = (w, l) ->
  careful fresh style_default [] None l ->
  exists parts, Forall2 leaves l parts /\
    forall (s' : S) (h : history), io_ansi_finish sink w = (s', IoOk tt) ->
      encodes (concat parts) h -> no_controls (text_of h) ->
      exists out, held s' = held s ++ utf8 out /\
        term_feed sgr (fresh_term look) out = mk_term Ground (look style_default) (seen look (denote h)).
Proof.
  intros Hu Hh Hs Hc Hw Hses Hl.
  destruct (session_steps sink held fuel Hh fresh Hs calls Hc style_default [] None None _ _ _ Hses Hl)
    as (parts & steps & torn' & P1 & P2 & P3 & P4 & P5 & P6).
  { intros st _. left. reflexivity. }
  { intros _. left. reflexivity. }
  exists parts. split; [exact P1|]. intros s' h Hfin He Hn. rewrite P2 in He.
  cbn [lib_io_ansi io_ansi_new ia_inner ia_current] in *.
  destruct (trail_shows fresh sgr look allowed Hu _ _ _ P3) with (state := Ground) (rend := look style_default) (pend := [] : bytes)
    (sty := style_default) (screen := [] : list (char * R)) (h := ([], style_default) :: h) as (out & O1 & O2).
  - eapply Forall_impl; [|exact P6]. intros [b' st'|p' st'|st']; cbn beta iota; auto; intros Hin;
      apply in_flat_map in Hin as (c & Hc1 & Hc2); rewrite Forall_forall in Hw; specialize (Hw c Hc1);
      rewrite Forall_forall in Hw; auto.
  - exact P4.
  - split; [exact (proj1 Hu)|]. split; [split; reflexivity|]. left. reflexivity.
  - unfold encodes. cbn [map fst snd]. apply jo_keep. exact He.
  - exact Hn.
  - exists out. split; [|exact O2]. rewrite O1. cbn [fst app]. rewrite app_assoc, <- P5.
    revert Hfin. unfold io_ansi_finish, esc, ansi_change.
    destruct (style_eqb_spec (ia_current w) style_default) as [->|Hne]; cbn [negb andb].
    + intros [= <-]. cbn. now rewrite app_nil_r.
    + intros H. apply (parts_ok _ _ held Hh) in H. exact H.
Qed.
Print Assumptions C93_cut.

(** C93: texts that are offered to write again and again until they are accepted are shown exactly once,
    on any honest sink (for instance a non-blocking one), however they are cut. *)
Lemma joined_pieces st (ps : list (bytes * style)) : ps <> [] -> Forall (fun x => snd x = st) ps ->
  forall l m, joined l m -> joined (ps ++ l) ((concat (map fst ps), st) :: m).
Proof.
  intros Hne H. destruct ps as [|[b st0] ps]; [congruence|]. clear Hne. inversion H as [|x y H1 H2]; subst. cbn [snd] in *. clear H.
  revert b. induction H2 as [|[b2 st2] ps E _ IH]; intros b l m Hj; cbn [map fst concat app].
  - rewrite app_nil_r. now constructor.
  - cbn [snd] in E. subst st2. apply jo_join. specialize (IH (b ++ b2) l m Hj). cbn [map fst concat app] in IH.
    now rewrite <- app_assoc in IH.
Qed.
Lemma careful_tries st tries b n l : Forall (try_in st) tries -> careful false st [] None l ->
  forall last tried retry, (tried = [] \/ retry = Some st) ->
  careful false last tried retry ((tries ++ [(IWrite b st, IoOk n)]) ++ l).
Proof.
  intros H Hl. induction H as [|[c r] tries Hc _ IH]; intros last tried retry Hm; cbn [app].
  - eapply ca_success; [reflexivity|destruct Hm as [Hm|Hm]; [left; exact Hm|right; left; exact Hm]|exact Hl].
  - assert (Hm' : may false last tried retry st) by (destruct Hm as [Hm|Hm]; [left; exact Hm|right; left; exact Hm]).
    destruct c as [b' st'|b' st'| |args]; try (destruct Hc; fail).
    + destruct r as [k|e|x]; [| |destruct Hc]; cbn [try_in] in Hc; subst st'.
      * eapply ca_success; [reflexivity|exact Hm'|]. apply IH. left. reflexivity.
      * eapply ca_failure; [reflexivity|exact Hm'|]. apply IH. right. reflexivity.
    + apply ca_flush. now apply IH.
Qed.
Theorem C93_write_loop {R} (sgr : N -> R -> R) (look : style -> R) (allowed : intensity -> Prop)
  {S} (sink : std_io S) (held : S -> bytes) (fuel : nat) (calls : list iocall)
  (s s' : S) (w : io_ansi S) (l : list (iocall * io_res nat)) (h : history) :
  understands sgr look allowed -> within allowed h -> honest sink held ->
  io_session (IoWrite_ansi fuel sink) calls (lib_io_ansi s) = (w, l) ->
  sent l h -> no_controls (text_of h) -> io_ansi_finish sink w = (s', IoOk tt) ->
  exists out, held s' = held s ++ utf8 out /\
    term_feed sgr (fresh_term look) out = mk_term Ground (look style_default) (seen look (denote h)).
Proof.
  intros Hu Hw Hh Hses Hse Hn Hfin.
  assert (MF : map fst l = calls).
  { revert Hses. clear. generalize (lib_io_ansi s). revert w l. induction calls as [|c calls IH]; intros w l w0; cbn [io_session].
    - intros [= <- <-]. reflexivity.
    - destruct (do_iocall (IoWrite_ansi fuel sink) w0 c) as [w1 r]. destruct (io_session (IoWrite_ansi fuel sink) calls w1) as [w2 l2] eqn:E.
      intros [= <- <-]. cbn [map fst]. f_equal. eapply IH; eassumption. }
  assert (CA : careful false style_default [] None l).
  { clear -Hse. generalize style_default. induction Hse as [|tries b n s st l h Ht _ _ IH]; intros last.
    - apply ca_finish. left. reflexivity.
    - apply careful_tries; [exact Ht|apply IH|left; reflexivity]. }
  assert (LOG : Forall (fun e => exists b st, (fst e = IWrite b st /\ In st (map snd h)) \/ fst e = IFlush) l).
  { clear -Hse. induction Hse as [|tries b n s st l h Ht _ _ IH]; [constructor|]. apply Forall_app. split.
    - apply Forall_app. split.
      + eapply Forall_impl; [|exact Ht]. intros [c r] Hc. destruct c as [b' st'|b' st'| |args]; try (destruct Hc; fail).
        * exists b', st'. left. split; [reflexivity|]. destruct r; cbn [try_in] in Hc; try (destruct Hc; fail); subst; left; reflexivity.
        * exists [], st. right. reflexivity.
      + constructor; [|constructor]. exists b, st. left. split; [reflexivity|]. left. reflexivity.
    - eapply Forall_impl; [|exact IH]. intros e (b' & st' & [[H1 H2]|H1]); exists b', st'; [left; split; [exact H1|right; exact H2]|right; exact H1]. }
  destruct (C93_cut sgr look allowed sink held fuel false calls s w l Hu Hh ltac:(discriminate)) as (parts & P1 & P2); [| |exact Hses|exact CA|].
  - rewrite <- MF. clear -LOG. induction LOG as [|[c r] l (b & st & [[H _]|H]) _ IH]; [constructor| |]; cbn [map fst] in *; subst c; constructor; try exact IH; exact I.
  - rewrite <- MF. unfold within in Hw. rewrite Forall_forall in Hw. clear -LOG Hw. induction LOG as [|[c r] l (b & st & [[H H2]|H]) _ IH]; [constructor| |]; cbn [map fst] in *; subst c;
      (constructor; [|exact IH]); cbn [call_styles]; [|constructor]. constructor; [|constructor].
    apply in_map_iff in H2 as (e & <- & H2). now apply Hw.
  - apply (P2 s' h Hfin); [|exact Hn]. clear -Hse P1. unfold encodes. revert parts P1.
    induction Hse as [|tries b n s st l h Ht Hs _ IH]; intros parts P1.
    + inversion P1; subst. constructor.
    + apply Forall2_app_inv_l in P1 as (pa & pb & Pa & Pb & ->). rewrite concat_app. cbn [map fst snd].
      assert (Q : Forall (fun x => snd x = st) (concat pa) /\
        concat (map fst (concat pa)) = concat (map fst (flat_map accepted (tries ++ [(IWrite b st, IoOk n)]))) /\ concat pa <> []).
      { clear -Pa Ht. apply Forall2_app_inv_l in Pa as (p1 & p2 & Pa & Pb & ->).
        inversion Pb as [|x y lx ly E1 E2]; subst. inversion E2; subst. cbn [leaves accepted] in E1. subst y.
        assert (Q : Forall (fun x => snd x = st) (concat p1) /\ concat (map fst (concat p1)) = concat (map fst (flat_map accepted tries))).
        { clear -Pa Ht. induction Pa as [|[c r] p tries p1 H1 _ IH]; [split; constructor|]. inversion Ht as [|x y Hc Ht']; subst.
          destruct (IH Ht') as [IH1 IH2]. cbn [concat flat_map]. rewrite !map_app, !concat_app, IH2.
          destruct c as [b' st'|b' st'| |args]; try (destruct Hc; fail).
          - destruct r as [k|e|x]; [| |destruct Hc]; cbn [try_in] in Hc; subst st'; cbn [leaves accepted] in *; subst p; cbn [map fst concat app].
            + split; [constructor; [reflexivity|exact IH1]|reflexivity].
            + split; [constructor; [reflexivity|exact IH1]|reflexivity].
          - destruct r; cbn [leaves accepted] in *; subst p; cbn [map concat app]; auto. }
        destruct Q as [Q1 Q2]. rewrite concat_app, flat_map_app, !map_app, !concat_app, Q2. cbn [concat map fst snd app flat_map accepted].
        split; [apply Forall_app; split; [exact Q1|repeat constructor]|]. split; [reflexivity|]. intros H. apply app_eq_nil in H as [_ H]. discriminate. }
      destruct Q as (Q1 & Q2 & Q3). unfold bytes, str, char in *. rewrite <- Hs, <- Q2. apply joined_pieces; [exact Q3|exact Q1|]. now apply IH.
Qed.
Print Assumptions C93_write_loop.

(** C93: a failed write in another style does come between two parts of a character: here the second
    byte of U+00E9 arrives after two style changes and is lost. *)
Theorem C93_pieces_needed :
  let red := mk_style Red ColorDefault Normal in
  let e := mk_error Interrupted 4 in
  let calls := [IWrite [195; 169]%N red; IWrite (lit "x") style_default; IWrite [169]%N red] in
  let '(w, l) := io_session (IoWrite_ansi 9 (scripted 9)) calls (lib_io_ansi ([], [inl 2; inl 2; inl 1; inl 1; inl 4; inr e])) in
  map snd l = [IoOk 1; IoErr e; IoOk 1] /\ careful false style_default [] None l /\
  Forall2 arrives l [[([195]%N, red)]; []; [([169]%N, red)]] /\
  encodes (concat [[([195]%N, red)]; []; [([169]%N, red)]]) [([233]%N, red)] /\
  io_ansi_finish (scripted 9) w =
    ((ESC :: lit "[31m" ++ [195]%N ++ ESC :: lit "[0m" ++ ESC :: lit "[31m" ++ [169]%N ++ ESC :: lit "[0m", []), IoOk tt).
Proof.
  cbv zeta.
  match goal with |- let '(w, l) := ?x in _ => let y := eval vm_compute in x in change x with y end. cbv iota beta.
  split; [reflexivity|]. split.
  { eapply ca_success; [reflexivity|left; reflexivity|]. apply ca_interrupted; [reflexivity|left; reflexivity|].
    eapply ca_success; [reflexivity|left; reflexivity|]. apply ca_finish. left. reflexivity. }
  split; [repeat (apply Forall2_cons; [reflexivity|]); apply Forall2_nil|]. split; [|vm_compute; reflexivity].
  unfold encodes. cbn [concat app map fst snd]. apply jo_join. apply jo_keep. constructor.
Qed.
Print Assumptions C93_pieces_needed.

(** Non-vacuity: U+00E9 in red cut by a short write, then WouldBlock, an interrupted call, the rest; then
    text in blue whose style change is torn once. *)
Example C93_nonvacuous :
  let red := mk_style Red ColorDefault Bold in let blue := mk_style Blue ColorDefault Normal in
  let e := mk_error (Kind 13) 11 in let int := mk_error Interrupted 4 in
  let calls := [IWrite [97; 195; 169]%N red; IWrite [169]%N red; IWrite [169]%N red; IFlush; IWrite [169]%N red;
                IWrite (lit "b") blue; IWrite (lit "b") blue] in
  let sc := [inl 2; inl 2; inl 1; inl 1; inl 1; inl 2; inr e; inr int; inl 1; inl 2; inr e] in
  honest (scripted 9) fst /\
  let '(w, l) := io_session (IoWrite_ansi 9 (scripted 9)) calls (lib_io_ansi ([], sc)) in
  map snd l = [IoOk 2; IoErr e; IoErr int; IoOk 0; IoOk 1; IoErr e; IoOk 1] /\
  sent l [([97; 233]%N, red); (lit "b", blue)] /\ within (fun i => i <> Faint) [([97; 233]%N, red); (lit "b", blue)] /\
  exists s' out, io_ansi_finish (scripted 9) w = (s', IoOk tt) /\ utf8_decode (fst s') = Some out /\
    term_feed sgr_xterm (fresh_term xterm_look) out = mk_term Ground (xterm_look style_default)
      [(97, xterm_look red); (233, xterm_look red); (98, xterm_look blue)]%N.
Proof.
  split; [apply scripted_honest|]. cbv zeta.
  match goal with |- let '(w, l) := ?x in _ => let y := eval vm_compute in x in change x with y end. cbv iota beta.
  split; [reflexivity|]. split.
  { match goal with |- sent (?a :: ?b :: ?c :: ?d :: (IWrite ?x ?st, IoOk ?n) :: ?f :: (IWrite ?y ?st2, IoOk ?m) :: []) _ =>
      apply (se_text [a; b; c; d] x n [97; 233]%N st [f; (IWrite y st2, IoOk m)] [(lit "b", st2)]);
      [| |apply (se_text [f] y m (lit "b") st2 [] [])] end.
    - repeat (apply Forall_cons; [exact I || reflexivity|]); apply Forall_nil.
    - vm_compute. reflexivity.
    - repeat (apply Forall_cons; [exact I || reflexivity|]); apply Forall_nil.
    - vm_compute. reflexivity.
    - constructor. }
  split; [repeat (apply Forall_cons; [discriminate|]); apply Forall_nil|].
  eexists. eexists. split; [vm_compute; reflexivity|]. split; vm_compute; reflexivity.
Qed.
