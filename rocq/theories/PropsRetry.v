(** Property theorems about retrying after a failure: Html (C53) and io::Ansi (C57). *)
From Verif Require Import Base Style Fmt Plain Ansi Html Io SpecText TextFacts StyleFacts SpecTerminal SpecSink
  SpecHtml HtmlFacts AnsiFacts SinkFacts RetryFacts HtmlRetryFacts SpecUtf8 Utf8Facts SpecIo IoFacts.

(** * C53: Html *)

(** C53 as stated is false: a first attempt that fails after part of a start tag was delivered,
    repeated with success, leaves a document that a viewer cannot read. *)
Theorem C53_retry_refuted :
  exists (w w' w'' : html (str * list outcome)) (red : style),
    page_feed page_new (fst (ht_inner w)) = page_new /\
    html_write_str flaky w (lit "a") red = (w', Returned Err) /\
    html_write_str flaky w' (lit "a") red = (w'', Returned Ok) /\
    pg_state (page_feed page_new (fst (html_finish string_sink
       (mk_html (fst (ht_inner w'')) (ht_current w''))))) = Broken.
Proof.
  exists (mk_html ([], [Returned Ok; Returned Err]) style_default). do 2 eexists.
  exists (mk_style Red ColorDefault Normal).
  split; [reflexivity|]. split; [reflexivity|]. split; [reflexivity|]. vm_compute. reflexivity.
Qed.
Print Assumptions C53_retry_refuted.

(** C53: and one that fails in the middle of the text shows the first part twice. *)
Theorem C53_text_twice_refuted :
  exists (w w' w'' : html (str * list outcome)),
    html_write_str flaky w (lit "a<") style_default = (w', Returned Err) /\
    html_write_str flaky w' (lit "a<") style_default = (w'', Returned Ok) /\
    pg_cells (page_feed page_new (fst (ht_inner w''))) =
      map (fun c => (c, css_page)) (lit "aa<").
Proof.
  exists (mk_html ([], [Returned Ok; Returned Err]) style_default). do 2 eexists.
  split; [reflexivity|]. split; [reflexivity|]. vm_compute. reflexivity.
Qed.
Print Assumptions C53_text_twice_refuted.

(** What has arrived shows exactly [cells], and the tags are as the adaptor believes: the
    element of the current style, if any, is open and no tag is unfinished. *)
Definition in_page {S} (held : S -> str) (w : html S) (cells : list (char * css)) : Prop :=
  page_feed page_new (held (ht_inner w)) = mk_page Data (open_elements (ht_current w)) cells.

(** C53: in that situation a successful write shows its text, once, in its style. *)
Theorem C53_success {S} (sink : fmt_sink S) (held : S -> str) (w w' : html S) (s : str) (st : style)
  (cells : list (char * css)) :
  honest_fmt sink held -> in_page held w cells ->
  html_write_str sink w s st = (w', Returned Ok) -> in_page held w' (cells ++ looks (paint st s)).
Proof. exact (sync_success sink held w w' s st cells). Qed.
Print Assumptions C53_success.

(** C53: the exact effect of a write that fails or panics, on a sink that takes nothing of such
    a call.  Either some prefix of the text is shown (nothing, if it stopped at the first call),
    tags and adaptor agree, and by [C53_success] the repeated write shows the whole text after
    it; or the write stopped inside the tags of a style change, and however often it is
    repeated until it succeeds, the text is not shown and the document is broken.  Missing
    from the full statement: in the first case the prefix is shown twice; the second case. *)
Theorem C53_failure_partial {S} (sink : fmt_sink S) (held : S -> str) (w w1 : html S) (s : str)
  (st : style) (cells : list (char * css)) (o : outcome) :
  atomic_fmt sink held -> in_page held w cells ->
  html_write_str sink w s st = (w1, o) -> o <> Returned Ok ->
  (exists p q, s = p ++ q /\ in_page held w1 (cells ++ looks (paint st p)) /\
     (held (ht_inner w1) = held (ht_inner w) -> p = []))
  \/
  (st <> style_default /\ st <> ht_current w /\ held (ht_inner w1) <> held (ht_inner w) /\
   (forall cells', ~ in_page held w1 cells') /\
   forall w', repeated_write (html_write_str sink) s st w1 w' ->
     pg_state (page_feed page_new (held (ht_inner w'))) = Broken /\
     pg_cells (page_feed page_new (held (ht_inner w'))) = cells).
Proof. exact (sync_failure sink held w w1 s st cells o). Qed.
Print Assumptions C53_failure_partial.

(** C53: so if no attempt delivers anything before the successful one, the text is shown
    exactly once. *)
Inductive repeated_clean {S} (sink : fmt_sink S) (held : S -> str) (s : str) (st : style)
  : html S -> html S -> Prop :=
  | rc_done w w' : html_write_str sink w s st = (w', Returned Ok) -> repeated_clean sink held s st w w'
  | rc_again w w1 w' o : html_write_str sink w s st = (w1, o) -> o <> Returned Ok ->
      held (ht_inner w1) = held (ht_inner w) ->
      repeated_clean sink held s st w1 w' -> repeated_clean sink held s st w w'.
Theorem C53_clean_failure_partial {S} (sink : fmt_sink S) (held : S -> str) (w w' : html S) (s : str)
  (st : style) (cells : list (char * css)) :
  atomic_fmt sink held -> in_page held w cells -> repeated_clean sink held s st w w' ->
  in_page held w' (cells ++ looks (paint st s)).
Proof.
  intros Ha Hp Hr; revert Hp; induction Hr as [w w' H|w w1 w' o H Ho Hs Hr IH]; intros Hp.
  - exact (C53_success sink held w w' s st cells (atomic_honest _ _ Ha) Hp H).
  - destruct (C53_failure_partial sink held w w1 s st cells o Ha Hp H Ho)
      as [(p & q & _ & H1 & H2)|(_ & _ & Hn & _)]; [|congruence].
    rewrite (H2 Hs) in H1. apply IH. cbn [paint map looks] in H1. now rewrite app_nil_r in H1.
Qed.
Print Assumptions C53_clean_failure_partial.

Example C53_nonvacuous :
  let red := mk_style Red ColorDefault Normal in
  let w := mk_html (lit "x", [Returned Err; Crashed Panic]) style_default in
  in_page fst w [(120%N, css_page)] /\
  exists w', repeated_clean flaky fst (lit "a") red w w' /\
    fst (ht_inner w') = lit "x<span style=color:red>a".
Proof.
  split; [reflexivity|]. eexists. split.
  - do 2 (eapply rc_again; [reflexivity|discriminate|reflexivity|]). apply rc_done. reflexivity.
  - reflexivity.
Qed.
(** The second case of [C53_failure_partial] also happens when only the end tag of the previous
    style was delivered. *)
Example C53_torn_nonvacuous :
  let red := mk_style Red ColorDefault Normal in let bold := mk_style ColorDefault ColorDefault Bold in
  let w := mk_html (lit "<span style=color:red>x", [Returned Ok; Returned Err]) red in
  in_page fst w [(120%N, css_look red)] /\
  exists w1 w', html_write_str flaky w (lit "a") bold = (w1, Returned Err) /\
    fst (ht_inner w1) = lit "<span style=color:red>x</span>" /\
    repeated_write (html_write_str flaky) (lit "a") bold w1 w'.
Proof.
  split; [reflexivity|]. do 2 eexists. split; [reflexivity|]. split; [reflexivity|].
  apply rw_done. reflexivity.
Qed.

(** * C57: io::Ansi *)
(** ASCII text: bytes are characters. *)
Lemma utf8_ascii (s : str) : Forall (fun c => (c < 128)%N) s -> utf8 s = s.
Proof.
  induction 1 as [|c s Hc _ IH]; [reflexivity|]. unfold utf8 in *. cbn [flat_map]. rewrite IH.
  unfold utf8_char. apply N.ltb_lt in Hc. change 0x80%N with 128%N. now rewrite Hc.
Qed.
Lemma esc_ascii cur st : Forall (fun c => (c < 128)%N) (esc cur st).
Proof.
  destruct (style_eqb_spec cur st) as [->|Hn]; [rewrite esc_same; constructor|].
  destruct (esc_shape cur st Hn) as (mid & -> & Hm).
  constructor; [reflexivity|]. constructor; [reflexivity|]. apply Forall_app. split; [|repeat constructor].
  apply Forall_forall. intros c Hc. rewrite forallb_forall in Hm. specialize (Hm c Hc).
  unfold csi_char in Hm. apply orb_true_iff in Hm as [Hm|Hm].
  - apply andb_true_iff in Hm as [_ Hm]. apply N.leb_le in Hm. lia.
  - apply N.eqb_eq in Hm. subst. reflexivity.
Qed.

(** Repeating one [write] call until it does not fail. *)
Inductive repeated {S} (sink : std_io S) (b : bytes) (st : style) : io_ansi S -> io_ansi S -> nat -> Prop :=
  | rp_done w w' n : io_write (IoWrite_ansi 0 sink) w b st = (w', IoOk n) -> repeated sink b st w w' n
  | rp_again w w1 w' e n : io_write (IoWrite_ansi 0 sink) w b st = (w1, IoErr e) ->
      repeated sink b st w1 w' n -> repeated sink b st w w' n.

(** C57: whatever errors an honest sink reports and wherever in the style change it stops,
    repeating the same [write] until it returns Ok(n) delivers some control text that puts a
    terminal showing the old style (whatever it shows) exactly into the new style, followed by
    exactly the first n bytes of the buffer. *)
Theorem C57_retry {S} (sink : std_io S) (held : S -> bytes) (b : bytes) (st : style)
  (w w' : io_ansi S) (n : nat) :
  honest sink held -> repeated sink b st w w' n ->
  ia_current w' = st /\ n <= length b /\
  exists control : str,
    held (ia_inner w') = held (ia_inner w) ++ utf8 control ++ firstn n b /\
    forall screen, term_feed sgr_style (mk_term Ground (ia_current w) screen) control
                   = mk_term Ground st screen.
Proof.
  intros Hh Hr.
  enough (G : ia_current w' = st /\ n <= length b /\
    exists control : str,
      held (ia_inner w') = held (ia_inner w) ++ utf8 control ++ firstn n b /\
      forall screen state rend, (rend = ia_current w \/ rend = st) -> (state = Ground \/ ia_current w <> st) ->
        term_feed sgr_style (mk_term state rend screen) control = mk_term Ground st screen).
  { destruct G as (G1 & G2 & c & G3 & G4). split; [exact G1|]. split; [exact G2|]. exists c.
    split; [exact G3|]. intros screen. apply G4; auto. }
  assert (Fin : forall cur screen state rend, (rend = cur \/ rend = st) -> (state = Ground \/ cur <> st) ->
     term_feed sgr_style (mk_term state rend screen) (esc cur st) = mk_term Ground st screen).
  { intros cur screen state rend Hrend Hst.
    assert (F : fold_left (fun r n => sgr_style n r) (esc_codes cur st) rend = st)
      by (destruct Hrend as [->| ->]; [apply esc_codes_style|apply codes_again]).
    destruct Hst as [->|Hne]; [now rewrite feed_esc, F|now rewrite feed_esc_any, F]. }
  induction Hr as [w w' n Hw|w w1 w' e n Hw Hr IH].
  - cbn [IoWrite_ansi io_write] in Hw. apply (io_write_ok _ _ held Hh) in Hw as (H1 & H2 & H3).
    split; [exact H1|]. split; [exact H2|]. exists (esc (ia_current w) st). split; [exact H3|].
    intros. now apply Fin.
  - destruct IH as (I1 & I2 & c & I3 & I4). split; [exact I1|]. split; [exact I2|].
    cbn [IoWrite_ansi io_write] in Hw.
    apply (io_write_err _ _ held Hh) in Hw as [[H1 H2]|(H1 & _ & p & (q & Hq) & H2)].
    + exists (esc (ia_current w) st ++ c). split.
      * now rewrite I3, H2, utf8_app, <- !app_assoc.
      * intros screen state rend Hrend Hst. rewrite feed_app, Fin by auto. apply I4; auto.
    + exists (p ++ c). rewrite utf8_ascii in Hq by apply esc_ascii.
      assert (Hp : utf8 p = p).
      { apply utf8_ascii. pose proof (esc_ascii (ia_current w) st) as F. rewrite Hq in F.
        now apply Forall_app in F. }
      split.
      * rewrite I3, H2, utf8_app, Hp, <- !app_assoc. reflexivity.
      * intros screen state rend Hrend Hst. rewrite feed_app. rewrite H1 in I4.
        destruct (style_eqb_spec (ia_current w) st) as [Ec|Hne].
        { rewrite Ec, esc_same in Hq. destruct p; [|discriminate]. apply I4; auto. }
        destruct q as [|q0 q].
        { rewrite app_nil_r in Hq. subst p. rewrite Fin by auto. apply I4; auto. }
        destruct (feed_prefix sgr_style _ _ p (q0 :: q) state rend screen Hq ltac:(discriminate)) as [state' ->].
        apply I4; auto.
Qed.
Print Assumptions C57_retry.

(** C57: [flush] forwards to the sink and changes neither the tracked style nor the output. *)
Theorem C57_flush {S} (sink : std_io S) (held : S -> bytes) (w w' : io_ansi S) (r : io_res unit) (fuel : nat) :
  honest sink held -> io_flush (IoWrite_ansi fuel sink) w = (w', r) ->
  si_flush sink (ia_inner w) = (ia_inner w', r) /\ ia_current w' = ia_current w /\
  held (ia_inner w') = held (ia_inner w).
Proof.
  intros Hh. cbn [IoWrite_ansi io_flush]. unfold io_ansi_flush.
  destruct (si_flush sink (ia_inner w)) as [i r'] eqn:E. intros [= <- <-]. cbn [ia_inner ia_current].
  split; [reflexivity|]. split; [reflexivity|]. now apply (ho_flush _ _ Hh) in E.
Qed.
Print Assumptions C57_flush.

(** Non-vacuity: an error after three bytes of the style change, an error at the text, success. *)
Example C57_nonvacuous :
  let e := mk_error (Kind 3) 7 in
  let sink := scripted 50 in
  let red := mk_style Red ColorDefault Normal in
  let w0 := io_ansi_new ([], [inl 2; inl 1; inr e; inl 2; inl 2; inl 1; inr e; inl 1]) in
  exists w', repeated sink (lit "hi") red w0 w' 1 /\
    fst (ia_inner w') = [27%N] ++ lit "[3" ++ [27%N] ++ lit "[31mh".
Proof.
  cbn zeta. eexists. split.
  - eapply rp_again; [vm_compute; reflexivity|]. eapply rp_again; [vm_compute; reflexivity|].
    apply rp_done. vm_compute. reflexivity.
  - reflexivity.
Qed.
