(** C91: sessions on Ansi adaptors in which any call may fail, also write_all and write!. *)
From Verif Require Import Base Style Fmt Plain Ansi Io StdIo Lib SpecText TextFacts StyleFacts SpecTerminal AnsiFacts
  SpecSink RetryFacts SpecUtf8 Utf8Facts SpecIo IoFacts SpecSession PropsSession PropsRetry PropsMore PropsRecover
  PropsHtmlSession SpecResume SpecAnyTerm AnyTermFacts ResumeFacts.

(** A terminal that follows ECMA-48. *)
Lemma plain_understands : understands sgr_style (fun s => s) (fun _ => True).
Proof. split; [exact I|]. intros n s _ _ _. reflexivity. Qed.
Lemma seen_same (t : stext) : seen (fun s => s) t = t.
Proof. unfold seen. induction t as [|[c s] t IH]; [reflexivity|]. cbn [map fst snd]. now rewrite IH. Qed.
Lemma all_true (l : list style) : Forall (fun _ => True) l.
Proof. apply Forall_forall. auto. Qed.

(** C91: any sequence of write, write_all, write! and flush calls on io::Ansi over any honest sink,
    any of which may fail with any error at any point, as long as after a failed call the caller
    goes on in the style of that call's text (finish counts as the default style): a terminal shows
    exactly what arrived, each character in its style: all of the text of the successful calls, and
    some first part of that of each failed write_all and write!. *)
Theorem C91_retry {S} (sink : std_io S) (held : S -> bytes) (fuel : nat) (calls : list iocall)
  (s : S) (w : io_ansi S) (l : list (iocall * io_res nat)) :
  honest sink held -> Forall call_regular calls ->
  io_session (IoWrite_ansi fuel sink) calls (lib_io_ansi s) = (w, l) ->
  careful false style_default [] None l ->
  exists parts, Forall2 arrives l parts /\
    forall (s' : S) (h : history), io_ansi_finish sink w = (s', IoOk tt) ->
      map (fun e : str * style => (utf8 (fst e), snd e)) h = concat parts ->
      no_controls (text_of h) -> scalar_text (text_of h) ->
      exists out, held s' = held s ++ utf8 out /\
        term_feed sgr_style term_new out = mk_term Ground style_default (denote h).
Proof.
  intros Hh Hc Hs Hl. destruct (resume_finish sgr_style (fun s => s) (fun _ => True) plain_understands
    sink held fuel Hh false ltac:(discriminate) calls s w l) as (parts & H1 & H2); [|assumption..|].
  { eapply Forall_impl; [|exact Hc]. intros c H. split; [exact H|apply all_true]. }
  exists parts. split; [exact H1|]. intros s' h Hf Hm Hn Hsc. destruct (H2 s' h Hf Hm Hn Hsc) as (out & A1 & A2).
  rewrite seen_same in A2. exists out. auto.
Qed.
Print Assumptions C91_retry.

(** C91: on sinks whose write_all does not fail after delivering everything, the caller may also go
    on in any style that was not used since, and by, the last successful call; after a failed
    write! of text in several styles too. *)
Theorem C91_fresh {S} (sink : std_io S) (held : S -> bytes) (fuel : nat) (calls : list iocall)
  (s : S) (w : io_ansi S) (l : list (iocall * io_res nat)) :
  honest sink held -> stops_short sink held -> Forall call_regular calls ->
  io_session (IoWrite_ansi fuel sink) calls (lib_io_ansi s) = (w, l) ->
  careful true style_default [] None l ->
  exists parts, Forall2 arrives l parts /\
    forall (s' : S) (h : history), io_ansi_finish sink w = (s', IoOk tt) ->
      map (fun e : str * style => (utf8 (fst e), snd e)) h = concat parts ->
      no_controls (text_of h) -> scalar_text (text_of h) ->
      exists out, held s' = held s ++ utf8 out /\
        term_feed sgr_style term_new out = mk_term Ground style_default (denote h).
Proof.
  intros Hh Hsh Hc Hs Hl. destruct (resume_finish sgr_style (fun s => s) (fun _ => True) plain_understands
    sink held fuel Hh true (fun _ => Hsh) calls s w l) as (parts & H1 & H2); [|assumption..|].
  { eapply Forall_impl; [|exact Hc]. intros c H. split; [exact H|apply all_true]. }
  exists parts. split; [exact H1|]. intros s' h Hf Hm Hn Hsc. destruct (H2 s' h Hf Hm Hn Hsc) as (out & A1 & A2).
  rewrite seen_same in A2. exists out. auto.
Qed.
Print Assumptions C91_fresh.

(** C91: what arrived is always such a text (that is, no character is cut) if the calls' texts are
    ASCII: then the terminal shows it, whatever failed. *)
Definition plain_ascii (b : bytes) : Prop := Forall (fun x => (x < 128)%N /\ x <> 27%N) b.
Lemma ascii_controls b : plain_ascii b -> no_controls b /\ Forall (fun x => (x < 128)%N) b.
Proof.
  intros H. split.
  - unfold no_controls. eapply Forall_impl; [|exact H]. intros x [H1 H2]. cbn beta. unfold starts_control, opens_string.
    cbn [existsb]. repeat match goal with |- context [N.eqb x ?k] => destruct (N.eqb_spec x k); [lia|] end. reflexivity.
  - eapply Forall_impl; [|exact H]. now intros x [H1 _].
Qed.
Lemma begun_ascii p l : begun p l -> Forall (fun e => plain_ascii (fst e)) l -> Forall (fun e => plain_ascii (fst e)) p.
Proof.
  induction 1 as [|p b st l [q ->]|b st p l H IH]; intros HF; [constructor| |].
  - inversion HF as [|x y H1 H2]; subst. constructor; [|constructor]. cbn [fst] in *. now apply Forall_app in H1.
  - inversion HF; subst. constructor; auto.
Qed.
Lemma arrives_ascii e p : arrives e p -> Forall (fun e => plain_ascii (fst e)) (asked (fst e)) ->
  Forall (fun e => plain_ascii (fst e)) p.
Proof.
  destruct e as [c r]. cbn [fst]. intros H HF. destruct r as [n|er|cr].
  - destruct c as [b st|b st| |args]; cbn [arrives accepted asked] in *; subst p; try exact HF.
    constructor; [|constructor]. inversion HF as [|x y H1 _]; subst. cbn [fst] in *. unfold plain_ascii in *.
    rewrite <- (firstn_skipn n b) in H1. now apply Forall_app in H1.
  - destruct c; cbn [arrives] in H; try (subst p; constructor); now apply (begun_ascii _ _ H).
  - destruct c; cbn [arrives] in H; try (subst p; constructor); now apply (begun_ascii _ _ H).
Qed.
Theorem C91_ascii {S} (sink : std_io S) (held : S -> bytes) (fuel : nat) (calls : list iocall)
  (s s' : S) (w : io_ansi S) (l : list (iocall * io_res nat)) :
  honest sink held -> stops_short sink held -> Forall call_regular calls ->
  Forall (fun c => Forall (fun e => plain_ascii (fst e)) (asked c)) calls ->
  io_session (IoWrite_ansi fuel sink) calls (lib_io_ansi s) = (w, l) ->
  careful true style_default [] None l ->
  io_ansi_finish sink w = (s', IoOk tt) ->
  exists (parts : list history) out, Forall2 arrives l parts /\ held s' = held s ++ utf8 out /\
    term_feed sgr_style term_new out = mk_term Ground style_default (denote (concat parts)).
Proof.
  intros Hh Hs Hc Ha Hses Hl Hf.
  destruct (C91_fresh sink held fuel calls s w l Hh Hs Hc Hses Hl) as (parts & Hp & G).
  assert (HL : Forall (fun e : iocall * io_res nat => Forall (fun e => plain_ascii (fst e)) (asked (fst e))) l).
  { revert Ha Hses. clear. generalize (lib_io_ansi s). revert w l.
    induction calls as [|c calls IH]; intros w l w0 Ha H; cbn [io_session] in H.
    - injection H as _ <-. constructor.
    - destruct (do_iocall (IoWrite_ansi fuel sink) w0 c) as [w1 o]. destruct (io_session (IoWrite_ansi fuel sink) calls w1) as [w2 os] eqn:E.
      injection H as _ <-. inversion Ha; subst. constructor; [assumption|]. eapply IH; eassumption. }
  assert (HP : Forall (fun e : bytes * style => plain_ascii (fst e)) (concat parts)).
  { clear -Hp HL. induction Hp as [|e p l parts H1 _ IH]; [constructor|]. inversion HL; subst. cbn [concat]. apply Forall_app. split.
    - eapply arrives_ascii; eassumption.
    - now apply IH. }
  assert (HT : no_controls (text_of (concat parts)) /\ Forall (fun x => (x < 128)%N) (text_of (concat parts))).
  { clear -HP. revert HP. generalize (concat parts : history). clear. intros h. induction h as [|[b st] h IH]; intros H.
    - split; constructor.
    - inversion H as [|x y H1 H2]; subst. cbn [fst] in H1. apply ascii_controls in H1 as [A1 A2].
      destruct (IH H2) as [B1 B2]. change (text_of ((b, st) :: h)) with (b ++ text_of h).
      split; apply Forall_app; auto. }
  destruct HT as [HT1 HT2].
  destruct (G s' (concat parts) Hf) as (out & A1 & A2).
  - clear -HP. revert HP. generalize (concat parts : history). clear. intros h. induction h as [|[b st] h IH]; intros H; [reflexivity|].
    inversion H as [|x y H1 H2]; subst. cbn [fst map snd] in *. rewrite (IH H2). f_equal. f_equal.
    apply utf8_ascii. now apply ascii_controls.
  - exact HT1.
  - now apply ascii_scalar.
  - exists parts, out. auto.
Qed.
Print Assumptions C91_ascii.

(** C91: this covers everything that C72 covers. *)
Theorem C91_covers_C72 (last : style) (tried : list style) (l : list (iocall * io_res nat)) :
  (follows again last tried l -> careful false last tried (hd_error tried) l) /\
  (follows again_or_fresh last tried l -> careful true last tried (hd_error tried) l).
Proof.
  assert (R1 : forall last tried st, again last tried st -> may false last tried (hd_error tried) st).
  { intros la [|t tr] st; cbn; [left; reflexivity|]. intros ->. right. left. reflexivity. }
  assert (R2 : forall last tried st, again_or_fresh last tried st -> may true last tried (hd_error tried) st).
  { intros la [|t tr] st; cbn; [left; reflexivity|]. unfold may. cbn [In]. destruct (style_eqb_spec st t) as [->|Hn].
    - intros _. right. left. reflexivity.
    - intros [E|H]; [congruence|]. right. right. split; [reflexivity|]. cbn [In] in H. intros [E|[E|E]]; [auto|congruence|auto]. }
  assert (G : forall (rule : style -> list style -> style -> Prop) fresh, (forall last tried st, rule last tried st -> may fresh last tried (hd_error tried) st) ->
    follows rule last tried l -> careful fresh last tried (hd_error tried) l).
  { intros rule fresh R. induction 1 as [la tr H|la tr r l H IH|la tr c n l Hb H IH|la tr c st n l Hb Hr H IH|la tr b st e l He Hr H IH|la tr b st e l Hr H IH].
    - apply ca_finish. auto.
    - now apply ca_flush.
    - apply ca_nothing; [assumption|discriminate|assumption].
    - eapply ca_success; [eassumption|auto|exact IH].
    - apply ca_interrupted; [assumption|auto|exact IH].
    - eapply ca_failure; [reflexivity|auto|exact IH]. }
  split; apply G; assumption.
Qed.
Print Assumptions C91_covers_C72.

(** C91: the rule is needed: a write! that fails between two of its styles, followed by a write in
    the first of them, loses text. *)
Definition two_styles : arguments := fun _ =>
  Emit (lit "a") (mk_style Red ColorDefault Normal) (fun r => match r with
    | Ok => Emit (lit "b") (mk_style Blue ColorDefault Normal) (fun r => Ret r)
    | Err => Ret Err end).
Theorem C91_rule_needed :
  let red := mk_style Red ColorDefault Normal in
  let e := mk_error (Kind 3) 7 in
  let calls := [IFmt two_styles; IAll (lit "5mc") red] in
  honest (scripted 9) fst /\ stops_short (scripted 9) fst /\ Forall call_regular calls /\
  let '(w, l) := io_session (IoWrite_ansi 9 (scripted 9)) calls
                   (lib_io_ansi ([], [inl 2; inl 2; inl 1; inl 1; inl 2; inr e])) in
  map snd l = [IoErr e; IoOk 0] /\
  let '(s', r) := io_ansi_finish (scripted 9) w in
  r = IoOk tt /\ term_feed sgr_style term_new (fst s') = mk_term Ground style_default [(97%N, red); (99%N, red)].
Proof.
  split; [apply scripted_honest|]. split; [apply scripted_short|]. split.
  { repeat constructor. }
  vm_compute. repeat split; reflexivity.
Qed.
Print Assumptions C91_rule_needed.

(** Non-vacuity: a write_all fails in the middle of its text and goes on, a write! fails between its
    styles and the caller goes on in green, a write_all is torn in its style change and repeated. *)
Example C91_nonvacuous :
  let red := mk_style Red ColorDefault Normal in let blue := mk_style Blue ColorDefault Normal in
  let green := mk_style Green ColorDefault Bold in
  let e := mk_error (Kind 3) 7 in
  let calls := [IAll (lit "xyz") red; IAll (lit "z") red; IFmt two_styles; IAll (lit "c") green;
                IAll (lit "d") blue; IAll (lit "d") blue] in
  let sc := [inl 2; inl 2; inl 1; inl 2; inr e;       (* red xy, then an error *)
             inl 1; inl 1; inl 2; inr e;              (* z; a; the change to blue is torn *)
             inl 2; inl 2; inl 1; inl 1; inl 1; inl 1;  (* the change to green, c *)
             inl 2; inl 1; inr e] in                  (* the change to blue is torn *)
  honest (scripted 9) fst /\ stops_short (scripted 9) fst /\ Forall call_regular calls /\
  Forall (fun c => Forall (fun e => plain_ascii (fst e)) (asked c)) calls /\
  let '(w, l) := io_session (IoWrite_ansi 9 (scripted 9)) calls (lib_io_ansi ([], sc)) in
  map snd l = [IoErr e; IoOk 0; IoErr e; IoOk 0; IoErr e; IoOk 0] /\
  careful true style_default [] None l /\ snd (io_ansi_finish (scripted 9) w) = IoOk tt /\
  term_feed sgr_style term_new (fst (fst (io_ansi_finish (scripted 9) w))) = mk_term Ground style_default
    [(120%N, red); (121%N, red); (122%N, red); (97%N, red); (99%N, green); (100%N, blue)].
Proof.
  split; [apply scripted_honest|]. split; [apply scripted_short|]. split; [repeat constructor|]. split.
  { repeat constructor; try reflexivity; try discriminate. }
  cbv zeta.
  match goal with |- let '(w, l) := ?x in _ => let y := eval vm_compute in x in change x with y end. cbv iota beta.
  split; [reflexivity|]. split; [|split; reflexivity].
  eapply ca_failure; [reflexivity|left; reflexivity|]. eapply ca_success; [reflexivity|right; left; reflexivity|].
  eapply ca_failure; [reflexivity|left; reflexivity|].
  eapply ca_success; [reflexivity|right; right; split; [reflexivity|]|].
  { cbn. intros H. repeat destruct H as [H|H]; discriminate || destruct H. }
  eapply ca_failure; [reflexivity|left; reflexivity|]. eapply ca_success; [reflexivity|right; left; reflexivity|].
  apply ca_finish. left. reflexivity.
Qed.

(** C91: any sequence of write_str, write_char and write! calls on an Ansi adaptor over any sink that
    takes all or nothing of each call; any of them may fail or panic (the sink or the formatting
    code) at any point, as long as the caller next writes in the style of the failed call's text or
    in one not used since, and by, the last successful call: a terminal shows exactly what arrived,
    the texts of the successful calls and the first so many writes of each failed write!. *)
Theorem C91_in_memory {S} (sink : fmt_sink S) (held : S -> str) (calls : list wcall) (i : S) :
  atomic_fmt sink held -> held i = [] -> Forall wcall_regular calls ->
  let (w, results) := session (Write_ansi sink) calls (lib_ansi i) in
  let log := combine calls results in
  wcareful style_default [] None log ->
  exists parts, Forall2 warrives log parts /\
    forall i', ansi_finish sink w = (i', Returned Ok) -> no_controls (text_of (concat parts)) ->
      term_feed sgr_style term_new (held i') = mk_term Ground style_default (denote (concat parts)).
Proof.
  intros Ha H0 Hc.
  pose proof (wresume_finish sgr_style (fun s => s) (fun _ => True) plain_understands sink held Ha calls i H0) as G.
  destruct (session (Write_ansi sink) calls (lib_ansi i)) as [w os]. cbv zeta in *. intros Hf.
  destruct G as (parts & Hp & G); [|exact Hf|].
  { eapply Forall_impl; [|exact Hc]. intros c H. split; [exact H|apply all_true]. }
  exists parts. split; [exact Hp|]. intros i' Hfin Hn. specialize (G i' Hfin Hn). rewrite seen_same in G. exact G.
Qed.
Print Assumptions C91_in_memory.

(** Non-vacuity: a write! whose second style change fails, the caller goes on in another style; then
    formatting code that panics after its text. *)
Definition text_then_panic : arguments := fun _ =>
  Emit (lit "p") style_default (fun r => match r with Ok => Abort Panic | Err => Ret Err end).
Example C91_in_memory_nonvacuous :
  let red := mk_style Red ColorDefault Normal in let green := mk_style Green ColorDefault Bold in
  let ok := Returned Ok in
  let calls := [CFmt two_styles; CStr (lit "c") green; CFmt text_then_panic; CChar 100%N style_default] in
  let '(w, results) := session (Write_ansi flaky) calls (lib_ansi (lit "", [ok; ok; ok; ok; ok; Returned Err])) in
  let log := combine calls results in
  results = [Returned Err; ok; Crashed Panic; ok] /\ Forall wcall_regular calls /\
  wcareful style_default [] None log /\
  Forall2 warrives log [[(lit "a", red)]; [(lit "c", green)]; [(lit "p", style_default)]; [(lit "d", style_default)]] /\
  term_feed sgr_style term_new (fst (fst (ansi_finish flaky w))) = mk_term Ground style_default
    [(97%N, red); (99%N, green); (112%N, style_default); (100%N, style_default)].
Proof.
  cbv zeta.
  match goal with |- let '(w, l) := ?x in _ => let y := eval vm_compute in x in change x with y end. cbv iota beta zeta.
  split; [reflexivity|]. split; [repeat constructor|]. split.
  { cbn [combine]. eapply wc_failure; [reflexivity|left; reflexivity|discriminate|].
    eapply wc_success; [reflexivity|right; right; split; [reflexivity|]|].
    { cbn. intros H. repeat destruct H as [H|H]; discriminate || destruct H. }
    eapply wc_failure; [reflexivity|left; reflexivity|discriminate|].
    eapply wc_success; [reflexivity|right; left; reflexivity|].
    apply wc_finish. left. reflexivity. }
  split; [|reflexivity]. cbn [combine].
  constructor; [eexists; reflexivity|]. constructor; [reflexivity|]. constructor; [eexists; reflexivity|]. constructor; [reflexivity|constructor].
Qed.

(** C91: formatting code that goes on after failed writes: a watcher sees the single writes that all
    the calls of a session make; if these follow the rule of C73 (go on in the style of a failed
    write or in one not used since the last successful write), then a terminal shows exactly the
    texts of those that succeeded. *)
Lemma attempts_session {S} (sink : fmt_sink S) (l : wlog) : forall w w',
  attempts (ansi_write_str sink) w l w' ->
  session (Write_ansi sink) (map (fun e => CStr (fst (fst e)) (snd (fst e))) l) w = (w', map snd l).
Proof.
  induction l as [|[[s st] o] l IH]; intros w w' H; inversion H; subst; [reflexivity|].
  cbn [map session fst snd do_call Write_ansi Write_default w_write_str].
  match goal with E : ansi_write_str sink w s st = _ |- _ => rewrite E end.
  match goal with E : attempts _ _ l w' |- _ => rewrite (IH _ _ E) end. reflexivity.
Qed.
Theorem C91_any_code {S} (sink : fmt_sink S) (held : S -> str) (calls : list wcall) (i : S)
  (w : ansi S) (writes : wlog) (results : list outcome) :
  atomic_fmt sink held -> held i = [] ->
  session (Write_default (watched (ansi_write_str sink))) calls (lib_ansi i, []) = ((w, writes), results) ->
  session (Write_ansi sink) calls (lib_ansi i) = (w, results) /\
  let log := map (fun e => (CStr (fst (fst e)) (snd (fst e)), snd e)) writes in
  (wfollows again_or_fresh style_default [] log ->
   forall i', ansi_finish sink w = (i', Returned Ok) -> no_controls (text_of (flat_map wrote log)) ->
     term_feed sgr_style term_new (held i') = mk_term Ground style_default (denote (flat_map wrote log))).
Proof.
  intros Ha H0 H. apply C77_calls in H as [H1 H2]. split; [exact H1|]. cbv zeta.
  apply attempts_session in H2. intros Hf i' Hfin.
  pose proof (C73_sessions sink held (map (fun e => CStr (fst (fst e)) (snd (fst e))) writes) i i' Ha H0) as G.
  rewrite H2 in G. cbv zeta in G.
  assert (E : combine (map (fun e : str * style * outcome => CStr (fst (fst e)) (snd (fst e))) writes) (map snd writes)
    = map (fun e => (CStr (fst (fst e)) (snd (fst e)), snd e)) writes).
  { clear. induction writes as [|e l IH]; [reflexivity|]. cbn [map combine]. now rewrite IH. }
  rewrite E in G. apply G; [|assumption..].
  clear. induction writes as [|e l IH]; constructor; [exact I|exact IH].
Qed.
Print Assumptions C91_any_code.
(** Non-vacuity: code that tries green if red fails. *)
Example C91_any_code_nonvacuous :
  let red := mk_style Red ColorDefault Normal in let green := mk_style Green ColorDefault Normal in
  let ok := Returned Ok in
  let args : arguments := fun _ => Emit (lit "a") red (fun r => match r with
    | Ok => Ret Ok | Err => Emit (lit "b") green (fun r => Ret r) end) in
  let calls := [CFmt args; CStr (lit "c") green] in
  ~ wcall_regular (CFmt args) /\
  let '((w, writes), results) := session (Write_default (watched (ansi_write_str flaky))) calls
    (lib_ansi (lit "", [ok; Returned Err]), []) in
  let log := map (fun e => (CStr (fst (fst e)) (snd (fst e)), snd e)) writes in
  results = [ok; ok] /\ wfollows again_or_fresh style_default [] log /\
  flat_map wrote log = [(lit "b", green); (lit "c", green)] /\
  fst (fst (ansi_finish flaky w)) = ESC :: lit "[" ++ ESC :: lit "[32mbc" ++ ESC :: lit "[0m".
Proof.
  cbv zeta. split.
  { intros [H _]. cbn in H. discriminate. }
  match goal with |- let '(w, l) := ?x in _ => let y := eval vm_compute in x in change x with y end. cbv iota beta zeta.
  split; [reflexivity|]. split; [|split; reflexivity].
  cbn [map fst snd]. eapply wf_failure; [exact I|reflexivity|discriminate|exact I|].
  eapply wf_success; [reflexivity| |].
  - cbn [again_or_fresh]. right. intros [H|[]]; discriminate.
  - eapply wf_success; [reflexivity|exact I|]. apply wf_finish. exact I.
Qed.
