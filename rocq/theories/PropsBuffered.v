(** C94: std's buffered writers between an io adaptor and the destination. *)
From Verif Require Import Base Style Fmt Ansi Io Lib SpecText TextFacts StyleFacts SpecTerminal AnsiFacts SpecUtf8 Utf8Facts
  SpecIo IoFacts SpecSession PropsSession PropsTruncated Buffered SpecBuffered BufferedFacts.

(** C94: [BufWriter] and [LineWriter] on any honest destination are honest themselves, where what they hold
    is what reached the destination and then the buffer.  So whatever is proved for io adaptors on honest
    sinks (C30-C37, C57, C66, C72, C91-C93) holds with these writers in between, also several of them. *)
Theorem C94_contract {S} (k : buffering) (fuel : nat) (inner : std_io S) (cap : nat) (held : S -> bytes) :
  honest inner held -> panics_clean inner held ->
  honest (buffered k fuel inner cap) (given held) /\ panics_clean (buffered k fuel inner cap) (given held).
Proof.
  intros Hh Hp. split.
  - destruct k as [|newer]; constructor; cbn [buffered buf_sink line_sink si_write si_write_all si_flush].
    + intros s b s' n. now apply bw_write_ok.
    + intros s b s' e E. apply (bw_write_fails _ _ _ _ Hh Hp) in E; [exact E|discriminate].
    + intros s b s'. now apply bw_all_ok.
    + intros s b s' e E. apply (bw_all_err _ _ _ _ Hh Hp) in E as (H1 & p & H2 & H3 & _). eauto.
    + intros s s' r E. now apply (bw_flush_held _ _ _ Hh Hp) in E as [E _].
    + intros s b s' n. now apply lw_write_ok.
    + intros s b s' e E. apply (lw_write_fails _ _ _ _ Hh Hp) in E; [exact E|discriminate].
    + intros s b s'. now apply lw_all_ok.
    + intros s b s' e E. now apply (lw_all_err _ _ _ _ Hh Hp) in E.
    + intros s s' r E. now apply (bw_flush_held _ _ _ Hh Hp) in E as [E _].
  - intros s b s' c. destruct k as [|newer]; cbn [buffered buf_sink line_sink si_write]; intros E.
    + apply (bw_write_fails _ _ _ _ Hh Hp) in E; [exact E|discriminate].
    + apply (lw_write_fails _ _ _ _ Hh Hp) in E; [exact E|discriminate].
Qed.
Print Assumptions C94_contract.

(** * What holds after every call *)
Section Invariant.
Context {S : Type}.
Variable sink : std_io S.
Variable P : S -> Prop.
Hypothesis Pw : forall s b, P s -> P (fst (si_write sink s b)).
Hypothesis Pa : forall s b, P s -> P (fst (si_write_all sink s b)).
Hypothesis Pf : forall s, P s -> P (fst (si_flush sink s)).

Lemma parts_inv parts : forall s, P s -> P (fst (write_all_parts sink parts s)).
Proof using Pa.
  induction parts as [|p parts IH]; intros s H; [exact H|]. cbn [write_all_parts].
  pose proof (Pa s (utf8 p) H) as H1. destruct (si_write_all sink s (utf8 p)) as [s1 [u|e|c]]; try exact H1. now apply IH.
Qed.
Lemma ansi_write_inv w b st : P (ia_inner w) -> P (ia_inner (fst (io_ansi_write sink w b st))).
Proof using Pw Pa.
  intros H. unfold io_ansi_write. pose proof (parts_inv (io_ansi_change (ia_current w) st) _ H) as H1.
  destruct (write_all_parts sink (io_ansi_change (ia_current w) st) (ia_inner w)) as [i [u|e|c]]; try exact H1.
  cbn [fst] in H1. pose proof (Pw i b H1) as H2. destruct (si_write sink i b) as [i' r]. exact H2.
Qed.
Lemma loop_inv {W} (Q : W -> Prop) (write : W -> bytes -> style -> W * io_res nat) fuel st :
  (forall w b, Q w -> Q (fst (write w b st))) -> forall w b, Q w -> Q (fst (default_write_all fuel write w b st)).
Proof.
  intros HQ. induction fuel as [|fuel IH]; intros w [|x b] H; cbn [default_write_all]; try exact H.
  pose proof (HQ w (x :: b) H) as H1. destruct (write w (x :: b) st) as [w1 [[|n]|e|c]]; try exact H1.
  - destruct (_ <=? _); [now apply IH|exact H1].
  - destruct (is_interrupted e); [now apply IH|exact H1].
Qed.
Lemma run_inv {W} (Q : W -> Prop) (wa : W -> bytes -> style -> W * io_res unit) :
  (forall w b st, Q w -> Q (fst (wa w b st))) -> forall p (t : error_trap W), Q (et_inner t) ->
  Q (et_inner (fst (run (trap_write_str wa) p t))).
Proof.
  intros HQ. induction p as [r|c|s st k IH]; intros t H; cbn [run]; try exact H.
  pose proof (HQ (et_inner t) (utf8 s) st H) as H1. unfold trap_write_str at 1.
  destruct (wa (et_inner t) (utf8 s) st) as [w1 [u|e|c]]; cbn [fst] in H1; [|now apply IH|exact H1]. now apply IH.
Qed.
Lemma fmt_inv {W} (Q : W -> Prop) (wa : W -> bytes -> style -> W * io_res unit) w args :
  (forall w b st, Q w -> Q (fst (wa w b st))) -> Q w -> Q (fst (default_io_write_fmt wa w args)).
Proof.
  intros HQ H. rewrite default_io_run. pose proof (run_inv Q wa HQ (args formatter_new) (trap_new w) H) as H1.
  destruct (run (trap_write_str wa) (args formatter_new) (trap_new w)) as [t [[|]|c]]; exact H1.
Qed.
Lemma ansi_session_inv fuel calls : forall w, P (ia_inner w) ->
  P (ia_inner (fst (io_session (IoWrite_ansi fuel sink) calls w))).
Proof using Pw Pa Pf.
  induction calls as [|c calls IH]; intros w H; [exact H|]. cbn [io_session].
  assert (H1 : P (ia_inner (fst (do_iocall (IoWrite_ansi fuel sink) w c)))).
  { assert (Q : forall w b st, P (ia_inner w) -> P (ia_inner (fst (io_ansi_write_all fuel sink w b st)))).
    { intros w0 b st H0. apply (loop_inv (fun w => P (ia_inner w))); [|exact H0]. intros. now apply ansi_write_inv. }
    destruct c as [b st|b st| |args]; cbn [do_iocall IoWrite_ansi io_write io_write_all io_flush io_write_fmt].
    - now apply ansi_write_inv.
    - specialize (Q w b st H). destruct (io_ansi_write_all fuel sink w b st) as [w' r]. exact Q.
    - unfold io_ansi_flush. pose proof (Pf _ H) as F. destruct (si_flush sink (ia_inner w)) as [i r]. exact F.
    - pose proof (fmt_inv (fun w => P (ia_inner w)) (io_ansi_write_all fuel sink) w args Q H) as F.
      destruct (default_io_write_fmt (io_ansi_write_all fuel sink) w args) as [w' r]. exact F. }
  destruct (do_iocall (IoWrite_ansi fuel sink) w c) as [w1 o]. cbn [fst] in H1. specialize (IH w1 H1).
  destruct (io_session (IoWrite_ansi fuel sink) calls w1) as [w2 os]. exact IH.
Qed.
Lemma ansi_finish_inv w : P (ia_inner w) -> P (fst (io_ansi_finish sink w)).
Proof using Pa.
  intros H. unfold io_ansi_finish. destruct (negb _); [|exact H]. now apply parts_inv.
Qed.
Lemma plain_session_inv calls : forall w, P (ipl_inner w) ->
  P (ipl_inner (fst (io_session (IoWrite_plain sink) calls w))).
Proof using Pw Pa Pf.
  induction calls as [|c calls IH]; intros w H; [exact H|]. cbn [io_session].
  assert (H1 : P (ipl_inner (fst (do_iocall (IoWrite_plain sink) w c)))).
  { assert (Q : forall w b st, P (ipl_inner w) -> P (ipl_inner (fst (io_plain_write_all sink w b st)))).
    { intros w0 b st H0. unfold io_plain_write_all. pose proof (Pa _ b H0) as F.
      destruct (si_write_all sink (ipl_inner w0) b) as [i r]. exact F. }
    destruct c as [b st|b st| |args]; cbn [do_iocall IoWrite_plain io_write io_write_all io_flush io_write_fmt].
    - unfold io_plain_write. pose proof (Pw _ b H) as F. destruct (si_write sink (ipl_inner w) b) as [i r]. exact F.
    - specialize (Q w b st H). destruct (io_plain_write_all sink w b st) as [w' r]. exact Q.
    - unfold io_plain_flush. pose proof (Pf _ H) as F. destruct (si_flush sink (ipl_inner w)) as [i r]. exact F.
    - pose proof (fmt_inv (fun w => P (ipl_inner w)) (io_plain_write_all sink) w args Q H) as F.
      destruct (default_io_write_fmt (io_plain_write_all sink) w args) as [w' r]. exact F. }
  destruct (do_iocall (IoWrite_plain sink) w c) as [w1 o]. cbn [fst] in H1. specialize (IH w1 H1).
  destruct (io_session (IoWrite_plain sink) calls w1) as [w2 os]. exact IH.
Qed.
End Invariant.

(** C94: on any destination at all, whatever calls were made and however they ended, at most [cap] bytes
    are in the buffer. *)
Theorem C94_bounded {S} (k : buffering) (fuel fuel' : nat) (inner : std_io S) (cap : nat) (calls : list iocall) (s : S) :
  let sink := buffered k fuel inner cap in
  let wa := fst (io_session (IoWrite_ansi fuel' sink) calls (lib_io_ansi (bw_new s))) in
  let wp := fst (io_session (IoWrite_plain sink) calls (lib_io_plain (bw_new s))) in
  length (bw_buf (ia_inner wa)) <= cap /\ length (bw_buf (fst (io_ansi_finish sink wa))) <= cap /\
  length (bw_buf (io_plain_into_inner wp)) <= cap.
Proof.
  intros sink wa wp.
  assert (Fw : forall s b, fits cap s -> fits cap (fst (si_write sink s b))).
  { subst sink. intros s0 b H. destruct k; cbn [buffered buf_sink line_sink si_write];
      [now apply bw_write_fits|now apply lw_write_fits]. }
  assert (Fa : forall s b, fits cap s -> fits cap (fst (si_write_all sink s b))).
  { subst sink. intros s0 b H. destruct k; cbn [buffered buf_sink line_sink si_write_all];
      [now apply bw_all_fits|now apply lw_all_fits]. }
  assert (Ff : forall s, fits cap s -> fits cap (fst (si_flush sink s))).
  { subst sink. intros s0 H. destruct k; cbn [buffered buf_sink line_sink si_flush]; now apply bw_flush_fits. }
  assert (I : fits cap (ia_inner wa)).
  { apply (ansi_session_inv sink (fits cap)); auto. unfold fits. cbn. lia. }
  split; [exact I|]. split; [now apply (ansi_finish_inv sink (fits cap))|].
  apply (plain_session_inv sink (fits cap)); auto. unfold fits. cbn. lia.
Qed.
Print Assumptions C94_bounded.

(** * Flushing *)
Lemma flush_gives {S} (k : buffering) (fuel : nat) (inner : std_io S) (cap : nat) (held : S -> bytes) w w' :
  honest inner held -> panics_clean inner held ->
  si_flush (buffered k fuel inner cap) w = (w', IoOk tt) -> reached held w' = given held w.
Proof.
  intros Hh Hp E. assert (E' : bw_flush fuel inner w = (w', IoOk tt)) by (destruct k; exact E).
  apply (bw_flush_held _ _ _ Hh Hp) in E' as [E1 E2]. rewrite <- E1. unfold reached, given.
  rewrite (E2 eq_refl). now rewrite app_nil_r.
Qed.
Lemma into_inner_gives {S} (fuel : nat) (inner : std_io S) (held : S -> bytes) w s :
  honest inner held -> panics_clean inner held ->
  bw_into_inner fuel inner w = (s, IoOk tt) -> held s = given held w.
Proof.
  intros Hh Hp. unfold bw_into_inner. destruct (bw_flush_buf fuel inner w) as [w1 r] eqn:E. intros [= <- ->].
  apply (flush_spec _ _ _ Hh Hp) in E as (E1 & E2 & _). rewrite <- E1. unfold given. rewrite (E2 eq_refl).
  now rewrite app_nil_r.
Qed.

(** C94: after any session of successful calls on io::Ansi over a buffered writer, and [finish]: the
    destination and the buffer together hold an output that a terminal shows as exactly the styled text,
    ending in the default style; the destination holds all of it once [flush] or [into_inner] succeeds; and if
    the writer is dropped instead, if flushing it then would have succeeded (its failure is not reported). *)
Theorem C94_ansi {S} (k : buffering) (fuel fuel' : nat) (inner : std_io S) (cap : nat) (held : S -> bytes)
  (calls : list iocall) (s : S) (b : buf_writer S) (w : io_ansi (buf_writer S)) (l : list (iocall * io_res nat))
  (h : history) :
  let sink := buffered k fuel inner cap in
  honest inner held -> panics_clean inner held -> Forall call_regular calls ->
  io_session (IoWrite_ansi fuel' sink) calls (lib_io_ansi (bw_new s)) = (w, l) -> Forall succeeded l ->
  io_ansi_finish sink w = (b, IoOk tt) ->
  encodes (flat_map accepted l) h -> no_controls (text_of h) ->
  exists out : str,
    term_feed sgr_style term_new out = mk_term Ground style_default (denote h) /\
    held (bw_inner b) ++ bw_buf b = held s ++ utf8 out /\ length (bw_buf b) <= cap /\
    (forall b', si_flush sink b = (b', IoOk tt) -> held (bw_inner b') = held s ++ utf8 out) /\
    (forall s', bw_into_inner fuel inner b = (s', IoOk tt) -> held s' = held s ++ utf8 out) /\
    (bw_panicked b = false -> snd (bw_into_inner fuel inner b) = IoOk tt ->
       held (bw_drop fuel inner b) = held s ++ utf8 out).
Proof.
  intros sink Hh Hp Hc Hs Hl Hf He Hn.
  destruct (C94_contract k fuel inner cap held Hh Hp) as [H1 H2].
  destruct (C66_io_ansi sink (given held) fuel' calls (bw_new s) b w l h H1 Hc Hs Hl Hf He Hn) as (out & A1 & _ & A3).
  assert (A : held (bw_inner b) ++ bw_buf b = held s ++ utf8 out).
  { unfold given in A1. cbn [bw_new bw_inner bw_buf] in A1. rewrite app_nil_r in A1. exact A1. }
  exists out. split; [exact A3|]. split; [exact A|]. split.
  { pose proof (C94_bounded k fuel fuel' inner cap calls s) as (_ & B & _). fold sink in B. rewrite Hs in B.
    cbn [fst] in B. rewrite Hf in B. exact B. }
  split; [|split].
  - intros b' E. apply (flush_gives _ _ _ _ held _ _ Hh Hp) in E. unfold reached in E. rewrite E. exact A.
  - intros s' E. apply (into_inner_gives _ _ held _ _ Hh Hp) in E. rewrite E. exact A.
  - intros E1 E2. unfold bw_drop. rewrite E1.
    destruct (bw_into_inner fuel inner b) as [s' r] eqn:E. cbn [snd] in E2. subst r. pose proof E as E'.
    apply (into_inner_gives _ _ held _ _ Hh Hp) in E. unfold bw_into_inner in E'.
    destruct (bw_flush_buf fuel inner b) as [w1 r]. injection E' as E3 _. cbn [fst]. rewrite E3, E. exact A.
Qed.
Print Assumptions C94_ansi.

(** C94: [flush] on the adaptor itself, at any time, whatever happened before: if it succeeds, everything
    given so far has reached the destination; and the adaptor goes on as before. *)
Theorem C94_flush {S} (k : buffering) (fuel fuel' : nat) (inner : std_io S) (cap : nat) (held : S -> bytes) :
  let sink := buffered k fuel inner cap in
  honest inner held -> panics_clean inner held ->
  (forall w w', io_flush (IoWrite_ansi fuel' sink) w = (w', IoOk tt) ->
     held (bw_inner (ia_inner w')) = held (bw_inner (ia_inner w)) ++ bw_buf (ia_inner w) /\
     bw_buf (ia_inner w') = [] /\ ia_current w' = ia_current w) /\
  (forall w w', io_flush (IoWrite_plain sink) w = (w', IoOk tt) ->
     held (bw_inner (io_plain_into_inner w'))
     = held (bw_inner (io_plain_into_inner w)) ++ bw_buf (io_plain_into_inner w) /\
     bw_buf (io_plain_into_inner w') = []).
Proof.
  intros sink Hh Hp.
  assert (F : forall b b', si_flush sink b = (b', IoOk tt) ->
    held (bw_inner b') = held (bw_inner b) ++ bw_buf b /\ bw_buf b' = []).
  { intros b b' E. split; [exact (flush_gives k fuel inner cap held _ _ Hh Hp E)|].
    assert (E' : bw_flush fuel inner b = (b', IoOk tt)) by (subst sink; destruct k; exact E).
    apply (bw_flush_held _ _ _ Hh Hp) in E' as [_ E2]. now apply E2. }
  split; intros w w'; cbn [IoWrite_ansi IoWrite_plain io_flush].
  - unfold io_ansi_flush. destruct (si_flush sink (ia_inner w)) as [i r] eqn:E. intros [= <- ->].
    apply F in E as [E1 E2]. auto.
  - unfold io_plain_flush. destruct (si_flush sink (ipl_inner w)) as [i r] eqn:E. intros [= <- ->].
    apply F in E as [E1 E2]. auto.
Qed.
Print Assumptions C94_flush.

(** C94: the same for io::Plain. *)
Theorem C94_plain {S} (k : buffering) (fuel : nat) (inner : std_io S) (cap : nat) (held : S -> bytes)
  (calls : list iocall) (s : S) (w : io_plain (buf_writer S)) (l : list (iocall * io_res nat)) :
  let sink := buffered k fuel inner cap in
  honest inner held -> panics_clean inner held -> Forall call_regular calls ->
  io_session (IoWrite_plain sink) calls (lib_io_plain (bw_new s)) = (w, l) -> Forall succeeded l ->
  let all := held s ++ concat (map fst (flat_map accepted l)) in
  let b := io_plain_into_inner w in
  held (bw_inner b) ++ bw_buf b = all /\ length (bw_buf b) <= cap /\
  (forall b', si_flush sink b = (b', IoOk tt) -> held (bw_inner b') = all).
Proof.
  intros sink Hh Hp Hc Hs Hl all b.
  destruct (C94_contract k fuel inner cap held Hh Hp) as [H1 H2].
  pose proof (C66_io_plain sink (given held) calls (bw_new s) w l H1 Hc Hs Hl) as A.
  assert (A' : given held b = all).
  { subst b all. rewrite A. unfold given. cbn [bw_new bw_inner bw_buf]. now rewrite app_nil_r. }
  split; [exact A'|]. split.
  { pose proof (C94_bounded k fuel 0 inner cap calls s) as (_ & _ & B). fold sink in B. rewrite Hs in B. exact B. }
  intros b' E. apply (flush_gives _ _ _ _ held _ _ Hh Hp) in E. unfold reached in E. rewrite E. exact A'.
Qed.
Print Assumptions C94_plain.

(** * Meanwhile *)
Lemma feed_grows {R} (sgr : N -> R -> R) (q : str) : forall t,
  exists cells, tm_screen (term_feed sgr t q) = tm_screen t ++ cells /\ length cells <= length q /\
    forall c r, In (c, r) cells -> In c q.
Proof.
  induction q as [|x q IH]; intros t.
  - exists []. cbn. rewrite app_nil_r. split; [reflexivity|]. split; [lia|contradiction].
  - destruct (IH (term_step sgr t x)) as (cells & H1 & H2 & H3).
    assert (D : exists one, tm_screen (term_step sgr t x) = tm_screen t ++ one /\ (one = [] \/ one = [(x, tm_rend t)])).
    { destruct t as [state rend screen]. unfold term_step. cbn [tm_state tm_rend tm_screen].
      destruct state; repeat match goal with |- context [if ?b then _ else _] => destruct b end; cbn [tm_screen];
        solve [exists []; rewrite app_nil_r; auto | exists [(x, rend)]; auto]. }
    destruct D as (one & D1 & D2). exists (one ++ cells). split; [|split].
    + change (term_feed sgr t (x :: q)) with (term_feed sgr (term_step sgr t x) q). rewrite H1, D1.
      now rewrite app_assoc.
    + destruct D2 as [->| ->]; cbn [app length]; lia.
    + intros c r Hin. apply in_app_or in Hin as [Hin|Hin]; [|right; exact (H3 c r Hin)].
      destruct D2 as [->| ->]; [contradiction|]. destruct Hin as [[= -> _]|[]]. now left.
Qed.
Lemma utf8_char_nonempty c : 1 <= length (utf8_char c).
Proof. unfold utf8_char. repeat match goal with |- context [if ?b then _ else _] => destruct b end; cbn; lia. Qed.
Lemma utf8_at_least (q : str) : length q <= length (utf8 q).
Proof.
  induction q as [|c q IH]; [auto|]. change (utf8 (c :: q)) with (utf8_char c ++ utf8 q). rewrite app_length.
  pose proof (utf8_char_nonempty c). cbn [length]. lia.
Qed.
Lemma utf8_newline (q : str) : In newline q -> In newline (utf8 q).
Proof.
  intros H. unfold utf8. apply in_flat_map. exists newline. split; [exact H|]. vm_compute. now left.
Qed.
(** What is still to come of a stream of bytes has at least as many bytes as characters, and all the
    newlines. *)
Lemma rest_of (out : str) (b b' : bytes) : Forall (fun c => is_scalar c = true) out -> utf8 out = b ++ b' ->
  exists p q part, out = p ++ q /\ b = utf8 p ++ part /\ utf8_decode (utf8 p) = Some p /\
    (part = [] \/ exists c more, utf8_char c = part ++ more /\ more <> []) /\
    length q <= length b' /\ (In newline q -> In newline b').
Proof.
  intros Hs He. destruct (C81_bytes out b b' Hs He) as (p & q & part & H1 & H2 & H3 & H4).
  exists p, q, part. split; [exact H1|]. split; [exact H2|]. split; [exact H3|].
  assert (E : utf8 q = part ++ b').
  { subst out b. rewrite utf8_app, <- app_assoc in He. now apply app_inv_head in He. }
  destruct H4 as [->|(c & q' & more & -> & H5 & H6)].
  - cbn [app] in E. subst b'. split; [now left|]. split; [apply utf8_at_least|apply utf8_newline].
  - split; [right; eauto|]. change (utf8 (c :: q')) with (utf8_char c ++ utf8 q') in E.
    rewrite H5, <- app_assoc in E. apply app_inv_head in E. subst b'. split.
    + rewrite app_length. pose proof (utf8_at_least q'). destruct more; [now elim H6|]. cbn [length]. lia.
    + intros [->|H]; [|apply in_or_app; right; now apply utf8_newline].
      assert (H7 : part ++ more = [newline]) by (rewrite <- H5; reflexivity).
      destruct part as [|x part].
      * cbn [app] in H7. subst more. now left.
      * injection H7 as _ H7. apply app_eq_nil in H7 as [_ H7]. now elim H6.
Qed.

(** C94: at any time in between (after successful calls, not finished nor flushed) what has reached the
    destination is, but for a character still incomplete, the encoding of characters on which a terminal shows a
    beginning of the styled text: all but at most [cap] characters. *)
Theorem C94_meanwhile {S} (k : buffering) (fuel fuel' : nat) (inner : std_io S) (cap : nat) (held : S -> bytes)
  (calls : list iocall) (s : S) (w : io_ansi (buf_writer S)) (l : list (iocall * io_res nat)) (h : history) :
  let sink := buffered k fuel inner cap in
  honest inner held -> panics_clean inner held -> held s = [] -> Forall call_regular calls ->
  io_session (IoWrite_ansi fuel' sink) calls (lib_io_ansi (bw_new s)) = (w, l) -> Forall succeeded l ->
  encodes (flat_map accepted l) h -> no_controls (text_of h) -> scalar_text (text_of h) ->
  exists (p : str) (part : bytes) (shown hidden : stext),
    held (bw_inner (ia_inner w)) = utf8 p ++ part /\ utf8_decode (utf8 p) = Some p /\
    (part = [] \/ exists c more, utf8_char c = part ++ more /\ more <> []) /\
    tm_screen (term_feed sgr_style term_new p) = shown /\ denote h = shown ++ hidden /\ length hidden <= cap /\
    (~ In newline (bw_buf (ia_inner w)) -> forall c st, In (c, st) hidden -> c <> newline).
Proof.
  intros sink Hh Hp H0 Hc Hs Hl He Hn Hsc.
  destruct (C94_contract k fuel inner cap held Hh Hp) as [H1 H2].
  destruct (io_session_shows sink (given held) fuel' calls H1 Hc _ _ _ h Hs Hl He Hn) as (out & A1 & A2 & A3).
  assert (A : utf8 out = held (bw_inner (ia_inner w)) ++ bw_buf (ia_inner w)).
  { unfold given in A1. cbn [lib_io_ansi io_ansi_new ia_inner bw_new bw_inner bw_buf] in A1.
    rewrite H0 in A1. cbn [app] in A1. now rewrite A1. }
  destruct (rest_of _ _ _ (A2 Hsc) A) as (p & q & part & B1 & B2 & B3 & B4 & B5 & B6).
  specialize (A3 []). cbn [lib_io_ansi io_ansi_new ia_current app] in A3.
  subst out. rewrite feed_app in A3.
  destruct (feed_grows sgr_style q (term_feed sgr_style term_new p)) as (cells & C1 & C2 & C3).
  change (mk_term Ground style_default []) with term_new in A3. rewrite A3 in C1. cbn [tm_screen] in C1.
  exists p, part, (tm_screen (term_feed sgr_style term_new p)), cells.
  split; [exact B2|]. split; [exact B3|]. split; [exact B4|]. split; [reflexivity|]. split; [exact C1|]. split.
  - pose proof (C94_bounded k fuel fuel' inner cap calls s) as (B & _). fold sink in B. rewrite Hs in B. cbn [fst] in B.
    eapply Nat.le_trans; [exact C2|]. eapply Nat.le_trans; [exact B5|exact B].
  - intros F c st Hin -> . apply F, B6. exact (C3 _ _ Hin).
Qed.
Print Assumptions C94_meanwhile.

(** * Lines *)
Section Success.
Context {S : Type}.
Variable sink : std_io S.
(** [N] holds throughout, [C] after every successful call of the sink. *)
Variables N C : S -> Prop.
Hypothesis CN : forall s, C s -> N s.
Hypothesis Nw : forall s b s' r, N s -> si_write sink s b = (s', r) -> N s' /\ (forall n, r = IoOk n -> C s').
Hypothesis Na : forall s b s' r, N s -> si_write_all sink s b = (s', r) -> N s' /\ (forall u, r = IoOk u -> C s').
Hypothesis Nf : forall s s' r, N s -> si_flush sink s = (s', r) -> N s' /\ (forall u, r = IoOk u -> C s').

Lemma parts_success parts : forall s s' r, N s -> write_all_parts sink parts s = (s', r) ->
  N s' /\ (r = IoOk tt -> C s -> C s').
Proof using Na CN.
  induction parts as [|p parts IH]; intros s s' r Hn; cbn [write_all_parts].
  - intros [= <- <-]. auto.
  - destruct (si_write_all sink s (utf8 p)) as [s1 r1] eqn:E. apply (Na _ _ _ _ Hn) in E as [N1 C1].
    destruct r1 as [u|e|c].
    + intros H. apply (IH _ _ _ N1) in H as [H1 H2]. split; [exact H1|]. intros Hr _. apply H2; [exact Hr|].
      exact (C1 u eq_refl).
    + intros [= <- <-]. split; [exact N1|discriminate].
    + intros [= <- <-]. split; [exact N1|discriminate].
Qed.
Lemma ansi_write_success w b st w' r : N (ia_inner w) -> io_ansi_write sink w b st = (w', r) ->
  N (ia_inner w') /\ (forall n, r = IoOk n -> C (ia_inner w')).
Proof using Nw Na CN.
  intros Hn. unfold io_ansi_write.
  destruct (write_all_parts sink (io_ansi_change (ia_current w) st) (ia_inner w)) as [i r1] eqn:E.
  apply (parts_success _ _ _ _ Hn) in E as [N1 _]. destruct r1 as [u|e|c].
  - destruct (si_write sink i b) as [i' r2] eqn:E. intros [= <- <-]. exact (Nw _ _ _ _ N1 E).
  - intros [= <- <-]. split; [exact N1|discriminate].
  - intros [= <- <-]. split; [exact N1|discriminate].
Qed.
Lemma ansi_all_success fuel st : forall b w w' r, N (ia_inner w) -> io_ansi_write_all fuel sink w b st = (w', r) ->
  N (ia_inner w') /\ (r = IoOk tt -> b <> [] \/ C (ia_inner w) -> C (ia_inner w')).
Proof using Nw Na CN.
  unfold io_ansi_write_all.
  induction fuel as [|fuel IH]; intros [|x b] w w' r Hn; cbn [default_write_all].
  - intros [= <- <-]. split; [exact Hn|]. intros _ [H|H]; [now elim H|exact H].
  - intros [= <- <-]. split; [exact Hn|discriminate].
  - intros [= <- <-]. split; [exact Hn|]. intros _ [H|H]; [now elim H|exact H].
  - destruct (io_ansi_write sink w (x :: b) st) as [w1 r1] eqn:E. apply (ansi_write_success _ _ _ _ _ Hn) in E as [N1 C1].
    destruct r1 as [[|n]|e|c].
    + intros [= <- <-]. split; [exact N1|discriminate].
    + specialize (C1 _ eq_refl). destruct (Datatypes.S n <=? length (x :: b)).
      * intros H. apply IH in H as [H1 H2]; [|exact N1]. split; [exact H1|]. intros Hr _. apply H2; auto.
      * intros [= <- <-]. split; [exact N1|discriminate].
    + destruct (is_interrupted e).
      * intros H. apply IH in H as [H1 H2]; [|exact N1]. split; [exact H1|]. intros Hr _. apply H2; [exact Hr|].
        left. discriminate.
      * intros [= <- <-]. split; [exact N1|discriminate].
    + intros [= <- <-]. split; [exact N1|discriminate].
Qed.
Lemma play_success fuel h : forall t t', C (ia_inner (et_inner t)) ->
  play (trap_write_str (io_ansi_write_all fuel sink)) h t = (t', Returned Ok) -> C (ia_inner (et_inner t')).
Proof using Nw Na CN.
  induction h as [|[s st] h IH]; intros t t' Hc; cbn [play].
  - intros [= <-]. exact Hc.
  - unfold trap_write_str at 1.
    destruct (io_ansi_write_all fuel sink (et_inner t) (utf8 s) st) as [w1 r1] eqn:E.
    apply ansi_all_success in E as [N1 C1]; [|exact (CN _ Hc)]. destruct r1 as [[]|e|c]; try discriminate.
    intros H. apply IH in H; [exact H|]. cbn [et_inner]. apply C1; auto.
Qed.
Lemma session_success fuel calls : Forall call_regular calls -> forall w w' l,
  C (ia_inner w) -> io_session (IoWrite_ansi fuel sink) calls w = (w', l) -> Forall succeeded l -> C (ia_inner w').
Proof using Nw Na Nf CN.
  induction 1 as [|c calls Hc _ IH]; intros w w' l Hw; cbn [io_session].
  - intros [= <- <-] _. exact Hw.
  - destruct (do_iocall (IoWrite_ansi fuel sink) w c) as [w1 o] eqn:E1.
    destruct (io_session (IoWrite_ansi fuel sink) calls w1) as [w2 os] eqn:E2.
    intros [= <- <-] Hs. inversion Hs as [|x y [n Hn1] Hs']; subst. cbn [snd] in Hn1. subst o.
    apply (IH w1 w2 os); [|exact E2|exact Hs'].
    destruct c as [b st|b st| |args]; cbn [do_iocall IoWrite_ansi io_write io_write_all io_flush io_write_fmt] in E1.
    + apply ansi_write_success in E1 as [_ E1]; [|exact (CN _ Hw)]. exact (E1 n eq_refl).
    + destruct (io_ansi_write_all fuel sink w b st) as [w0 [[]|e|c]] eqn:E; try discriminate. injection E1 as -> _.
      apply ansi_all_success in E as [_ E]; [|exact (CN _ Hw)]. apply E; auto.
    + unfold io_ansi_flush in E1. destruct (si_flush sink (ia_inner w)) as [i [u|e|c]] eqn:E; try discriminate.
      injection E1 as <- _. apply Nf in E as [_ E]; [|exact (CN _ Hw)]. exact (E u eq_refl).
    + destruct (default_io_write_fmt (io_ansi_write_all fuel sink) w args) as [w0 [[]|e|c]] eqn:E; try discriminate.
      injection E1 as -> _. destruct Hc as [Hc _].
      rewrite default_io_run, run_propagates in E by exact Hc.
      destruct (play (trap_write_str (io_ansi_write_all fuel sink)) (ok_events (args formatter_new)) (trap_new w))
        as [t o] eqn:Ep. destruct o as [[|]|c]; try discriminate.
      destruct (ok_outcome (args formatter_new)) as [[|]|c]; try discriminate.
      injection E as <-. exact (play_success _ _ (trap_new w) _ Hw Ep).
Qed.
End Success.

(** C94: over a [LineWriter] on a destination that takes all it is offered or fails, no complete line is
    held back: after successful calls the buffer contains no newline, so all newlines have been shown. *)
Theorem C94_lines {S} (newer : bool) (fuel fuel' : nat) (inner : std_io S) (cap : nat) (held : S -> bytes)
  (calls : list iocall) (s : S) (w : io_ansi (buf_writer S)) (l : list (iocall * io_res nat)) (h : history) :
  let sink := buffered (Lines newer) fuel inner cap in
  honest inner held -> panics_clean inner held -> takes_all inner -> held s = [] -> Forall call_regular calls ->
  io_session (IoWrite_ansi fuel' sink) calls (lib_io_ansi (bw_new s)) = (w, l) -> Forall succeeded l ->
  ~ In newline (bw_buf (ia_inner w)) /\
  (encodes (flat_map accepted l) h -> no_controls (text_of h) -> scalar_text (text_of h) ->
   exists (p : str) (part : bytes) (shown hidden : stext),
    held (bw_inner (ia_inner w)) = utf8 p ++ part /\
    (part = [] \/ exists c more, utf8_char c = part ++ more /\ more <> []) /\
    tm_screen (term_feed sgr_style term_new p) = shown /\ denote h = shown ++ hidden /\
    forall c st, In (c, st) hidden -> c <> newline).
Proof.
  intros sink Hh Hp Ht H0 Hc Hs Hl.
  assert (C : clear (ia_inner w)).
  { assert (C0 : clear (ia_inner (lib_io_ansi (bw_new s)))) by (intros []).
    refine (session_success sink neat clear _ _ _ _ fuel' calls Hc _ w l C0 Hs Hl).
    - intros s0 H. now left.
    - intros s0 b s' r. now apply lw_write_lines.
    - intros s0 b s' r. apply lw_all_lines.
    - intros s0 s' r. apply bw_flush_lines. }
  split; [exact C|]. intros He Hn Hsc.
  destruct (C94_meanwhile (Lines newer) fuel fuel' inner cap held calls s w l h Hh Hp H0 Hc Hs Hl He Hn Hsc)
    as (p & part & shown & hidden & A1 & A2 & A3 & A4 & A5 & A6 & A7).
  exists p, part, shown, hidden. split; [exact A1|]. split; [exact A3|]. split; [exact A4|]. split; [exact A5|].
  exact (A7 C).
Qed.
Print Assumptions C94_lines.

(** * What does not hold *)

(** A destination that refuses everything. *)
Definition broken_error : io_error := mk_error (Kind 32) 7.
Definition broken : std_io bytes :=
  mk_std_io (fun s _ => (s, IoErr broken_error)) (fun s => (s, IoOk tt)) (fun s _ => (s, IoErr broken_error)).
Lemma broken_honest : honest broken (fun s => s) /\ panics_clean broken (fun s => s).
Proof.
  split; [constructor|]; cbn [broken si_write si_write_all si_flush].
  - discriminate.
  - intros s b s' e [= <- _]. reflexivity.
  - discriminate.
  - intros s b s' e [= <- <-]. split; [discriminate|]. exists []. split; [apply prefix_nil|]. now rewrite app_nil_r.
  - intros s s' r [= <- _]. reflexivity.
  - intros s b s' c. discriminate.
Qed.

(** C94: the flush is needed, and its result: on a destination that refuses everything, all calls and
    [finish] succeed, nothing arrives, only [flush] and [into_inner] report the error, and dropping the writer
    loses the text without a word. *)
Theorem C94_flush_needed (k : buffering) :
  let red := mk_style Red ColorDefault Normal in
  let sink := buffered k 9 broken 64 in
  exists w b, io_session (IoWrite_ansi 9 sink) [IAll (lit "text") red] (lib_io_ansi (bw_new []))
              = (w, [(IAll (lit "text") red, IoOk 0)]) /\
    io_ansi_finish sink w = (b, IoOk tt) /\ bw_inner b = [] /\ bw_buf b = ESC :: lit "[31mtext" ++ ESC :: lit "[0m" /\
    snd (si_flush sink b) = IoErr broken_error /\ snd (bw_into_inner 9 broken b) = IoErr broken_error /\
    bw_drop 9 broken b = [].
Proof. destruct k as [|[|]]; vm_compute; eexists; eexists; repeat (split; [reflexivity|]); reflexivity. Qed.
Print Assumptions C94_flush_needed.

(** C94: over a [BufWriter] a failed call can be retried as over its destination (C72, C91). *)
Theorem C94_retry {S} (fuel : nat) (inner : std_io S) (cap : nat) (held : S -> bytes) :
  honest inner held -> panics_clean inner held -> stops_short inner held ->
  stops_short (buffered Blocks fuel inner cap) (given held).
Proof.
  intros Hh Hp Hs w b w' e. cbn [buffered buf_sink si_write_all]. intros E Hb.
  apply (bw_all_err _ _ _ _ Hh Hp) in E as (_ & p & [q H1] & H2 & H3). exists p, q. split; [exact H1|].
  split; [|exact H2]. intros ->. rewrite app_nil_r in H1. now elim (H3 Hs Hb).
Qed.
Print Assumptions C94_retry.

(** C94: over a [LineWriter] it cannot: a [write_all] that fails may have taken all of the text. *)
Theorem C94_line_retry (newer : bool) :
  exists (s : bytes * schedule) (w w' : buf_writer (bytes * schedule)) e,
    si_write_all (buffered (Lines newer) 9 (scripted 9) 64) w (lit "x" ++ [newline]) = (w', IoErr e) /\
    given fst w' = given fst w ++ lit "x" ++ [newline] /\
    w = fst (si_write_all (buffered (Lines newer) 9 (scripted 9) 64) (bw_new s) (lit "a")).
Proof.
  exists ([], [inr broken_error]), (mk_bw ([], [inr broken_error]) (lit "a") false). destruct newer; vm_compute;
    do 2 eexists; repeat split; reflexivity.
Qed.
Print Assumptions C94_line_retry.

(** A session on io::Ansi over a LineWriter over a Vec, and over a BufWriter over a LineWriter over a
    destination with a schedule of short writes and interruptions. *)
Example C94_nonvacuous :
  let red := mk_style Red ColorDefault Normal in
  let vec := mk_std_io (fun v b => (v ++ b, IoOk (length b))) (fun v : bytes => (v, IoOk tt))
               (fun v b => (v ++ b, IoOk tt)) in
  let sink := buffered (Lines true) 9 vec 64 in
  let calls := [IAll (lit "one" ++ [newline]) red; IAll (lit "two") style_default] in
  (honest vec (fun v => v) /\ panics_clean vec (fun v => v) /\ takes_all vec) /\
  (let r := io_session (IoWrite_ansi 9 sink) calls (lib_io_ansi (bw_new [])) in
   map snd (snd r) = [IoOk 0; IoOk 0] /\
   bw_inner (ia_inner (fst r)) = ESC :: lit "[31mone" ++ [newline] /\ bw_buf (ia_inner (fst r)) = ESC :: lit "[0mtwo") /\
  (let deep := buffered Blocks 9 (buffered (Lines false) 9 (scripted 9) 4) 8 in
   let r := io_session (IoWrite_ansi 9 deep) calls
     (lib_io_ansi (bw_new (bw_new ([], [inl 2; inr (mk_error Interrupted 0); inl 3; inl 1])))) in
   let f := io_ansi_finish deep (fst r) in
   map snd (snd r) = [IoOk 0; IoOk 0] /\ snd f = IoOk tt /\
   fst (bw_inner (bw_inner (fst (si_flush deep (fst f))))) = ESC :: lit "[31mone" ++ newline :: ESC :: lit "[0mtwo").
Proof.
  cbn zeta. split; [|split].
  - split; [|split].
    + constructor; cbn [si_write si_write_all si_flush].
      * intros s b s' n [= <- <-]. split; [lia|]. now rewrite firstn_all.
      * discriminate.
      * intros s b s' [= <-]. reflexivity.
      * discriminate.
      * intros s s' r [= <- _]. reflexivity.
    + intros s b s' c. discriminate.
    + intros s b s' n [= <- <-]. reflexivity.
  - split; [vm_compute; reflexivity|]. split; vm_compute; reflexivity.
  - split; [vm_compute; reflexivity|]. split; vm_compute; reflexivity.
Qed.
