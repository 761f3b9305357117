(** Property theorems about the io writers (C30-C37). *)
From Verif Require Import Base Style Fmt Plain Ansi Io Format SpecText TextFacts StyleFacts AnsiFacts
  FormatFacts SpecUtf8 Utf8Facts SpecIo IoFacts.

(** * The provided write_all *)

(** C30: if [write_all] returns Ok then, whatever the writer did (short writes, interruptions),
    every call offered exactly the part of the buffer not accepted so far, with the given
    style, and the bytes accepted are exactly the buffer. *)
Theorem C30_exactly_once {W} (write : W -> bytes -> style -> W * io_res nat) (fuel : nat)
  (w w' : W) (l : iolog) (buf : bytes) (st : style) :
  default_write_all fuel (logged_io write) (w, []) buf st = ((w', l), IoOk tt) ->
  delivered l = buf /\ offers st buf l.
Proof.
  intros H. pose proof (write_all_log write fuel st w [] buf) as X. rewrite H in X.
  destruct X as (new & -> & Ho & _ & Hd). auto.
Qed.

(** C30: the log used to observe the calls does not influence them. *)
Theorem C30_log_faithful {W} (write : W -> bytes -> style -> W * io_res nat) (fuel : nat)
  (w : W) (buf : bytes) (st : style) :
  let '((w', _), r) := default_write_all fuel (logged_io write) (w, []) buf st in
  default_write_all fuel write w buf st = (w', r).
Proof. exact (write_all_logged write fuel st w [] buf). Qed.

(** C31: if [write_all] fails: every call but the last accepted something or was interrupted;
    the last call accepted zero bytes (then the error is WriteZero) or failed with the returned
    error, which is not Interrupted; what was accepted is a proper prefix of the buffer. *)
Theorem C31_failure {W} (write : W -> bytes -> style -> W * io_res nat) (fuel : nat)
  (w w' : W) (l : iolog) (buf : bytes) (st : style) (e : io_error) :
  default_write_all fuel (logged_io write) (w, []) buf st = ((w', l), IoErr e) ->
  err_kind e <> Interrupted /\
  exists l0 rest, Forall goes_on l0 /\ rest <> [] /\ buf = delivered l ++ rest /\
    (l = l0 ++ [(rest, st, IoOk 0)] /\ err_kind e = WriteZero \/ l = l0 ++ [(rest, st, IoErr e)]).
Proof.
  intros H. pose proof (write_all_log write fuel st w [] buf) as X. rewrite H in X.
  destruct X as (new & E & _ & (l0 & b & H1 & H2 & H3 & H4)). cbn [app] in E. subst new.
  assert (D : delivered l = delivered l0).
  { destruct H4 as [[-> _]|[-> _]]; unfold delivered; rewrite flat_map_app; cbn; now rewrite app_nil_r. }
  split.
  - destruct H4 as [[_ ->]|[_ H4]]; [discriminate|exact H4].
  - exists l0, b. rewrite D. repeat split; auto. destruct H4 as [[-> ->]|[-> _]]; auto.
Qed.

(** C31: an empty buffer is written without calling the writer. *)
Theorem C31_empty {W} (write : W -> bytes -> style -> W * io_res nat) (fuel : nat) (w : W)
  (st : style) : default_write_all fuel (logged_io write) (w, []) [] st = ((w, []), IoOk tt).
Proof. destruct fuel; reflexivity. Qed.

(** C31: it panics only if the writer panicked or claimed to have written more than it was
    given (in the last call). *)
Theorem C31_panic {W} (write : W -> bytes -> style -> W * io_res nat) (fuel : nat)
  (w w' : W) (l : iolog) (buf : bytes) (st : style) :
  default_write_all fuel (logged_io write) (w, []) buf st = ((w', l), IoCrash Panic) ->
  exists l0 b r, l = l0 ++ [(b, st, r)] /\ Forall goes_on l0 /\
    (r = IoCrash Panic \/ exists n, r = IoOk n /\ length b < n).
Proof.
  intros H. pose proof (write_all_log write fuel st w [] buf) as X. rewrite H in X.
  destruct X as (new & E & _ & (l0 & b & H1 & H2 & H3 & H4)). cbn [app] in E. subst new.
  destruct H4 as [(n & -> & Hn & _)|[->|(_ & _ & [=])]]; exists l0, b; eexists; eauto 6.
Qed.

(** C32: if the writer never interrupts forever (and itself always returns), [write_all]
    returns: some amount of fuel is enough, and more fuel does not change the result. *)
Theorem C32_terminates {W} (write : W -> bytes -> style -> W * io_res nat) (st : style) :
  (forall w b, b <> [] -> settles write b st w) ->
  (forall w b, snd (write w b st) <> IoCrash Diverge) ->
  forall buf w, exists fuel w' r, r <> IoCrash Diverge /\
    forall fuel', fuel <= fuel' -> default_write_all fuel' write w buf st = (w', r).
Proof.
  intros Hs Hd buf w. destruct (write_all_settles write st Hs Hd buf w) as [fuel Hf].
  exists fuel. destruct (default_write_all fuel write w buf st) as [w' r] eqn:E. exists w', r.
  split; [exact Hf|]. intros fuel' Hle. eapply write_all_mono; eauto.
Qed.

(** C32: the condition is needed: when [write_all] returns, the writer did not interrupt
    forever. *)
Theorem C32_condition_needed {W} (write : W -> bytes -> style -> W * io_res nat) (st : style)
  (fuel : nat) (w : W) (b : bytes) :
  b <> [] -> snd (default_write_all fuel write w b st) <> IoCrash Diverge -> settles write b st w.
Proof. apply settles_needed. Qed.

(** C32: the number of calls is at most the number of bytes plus the number of interruptions
    plus one for the call that failed. *)
Theorem C32_calls {W} (write : W -> bytes -> style -> W * io_res nat) (fuel : nat)
  (w w' : W) (l : iolog) (buf : bytes) (st : style) (r : io_res unit) :
  default_write_all fuel (logged_io write) (w, []) buf st = ((w', l), r) ->
  length l <= length buf + interruptions l + (match r with IoOk _ => 0 | _ => 1 end).
Proof.
  intros H. pose proof (write_all_log write fuel st w [] buf) as X. rewrite H in X.
  destruct X as (new & E & Ho & Hf). cbn [app] in E. subst new.
  assert (O : forall l0 x buf, offers st buf (l0 ++ x) -> offers st buf l0).
  { clear. induction l0 as [|e l0 IH]; intros x buf Ho; [constructor|].
    inversion Ho; subst. constructor; eauto. }
  assert (I : forall l0 x, interruptions l0 <= interruptions (l0 ++ x)).
  { clear. induction l0 as [|[[b s] [n|e|c]] l0 IH]; intros x; cbn; try lia; specialize (IH x); try lia. }
  destruct r as [u|e|c]; cbn in Hf.
  - destruct Hf as [H1 H2]. pose proof (goes_on_count l st buf Ho H1). rewrite H2 in *. lia.
  - destruct Hf as (l0 & b & H1 & H2 & H3 & H4).
    assert (X : exists x, l = l0 ++ [x]) by (destruct H4 as [[-> _]|[-> _]]; eauto).
    destruct X as [x ->]. apply O in Ho. pose proof (goes_on_count l0 st buf Ho H1) as G.
    rewrite app_length. cbn [length]. specialize (I l0 [x]).
    assert (length (delivered l0) <= length buf) by (rewrite H2, app_length; lia). lia.
  - destruct Hf as (l0 & b & H1 & H2 & H3 & H4).
    assert (X : exists x, l = l0 ++ x /\ length x <= 1).
    { destruct H4 as [(n & -> & _)|[->|(-> & _)]]; eauto. exists []. rewrite app_nil_r. cbn. auto. }
    destruct X as (x & -> & Hx). apply O in Ho. pose proof (goes_on_count l0 st buf Ho H1) as G.
    rewrite app_length. specialize (I l0 x).
    assert (length (delivered l0) <= length buf) by (rewrite H2, app_length; lia). lia.
Qed.
Print Assumptions C30_exactly_once.
Print Assumptions C30_log_faithful.
Print Assumptions C31_failure.
Print Assumptions C31_empty.
Print Assumptions C31_panic.
Print Assumptions C32_terminates.
Print Assumptions C32_condition_needed.
Print Assumptions C32_calls.

Definition interrupted : io_error := mk_error Interrupted 1.
Definition broken_pipe : io_error := mk_error (Kind 3) 7.
Definition styled_scripted (s : bytes * schedule) (b : bytes) (_ : style) := scripted_write s b.
Example C30_nonvacuous :
  default_write_all 10 (logged_io styled_scripted)
    (([], [inl 2; inr interrupted; inl 1; inr interrupted]), []) [1; 2; 3; 4; 5]%N style_default
  = (([1; 2; 3; 4; 5]%N, [],
      [([1; 2; 3; 4; 5]%N, style_default, IoOk 2); ([3; 4; 5]%N, style_default, IoErr interrupted);
       ([3; 4; 5]%N, style_default, IoOk 1); ([4; 5]%N, style_default, IoErr interrupted);
       ([4; 5]%N, style_default, IoOk 2)]), IoOk tt).
Proof. reflexivity. Qed.
Example C31_nonvacuous :
  default_write_all 10 styled_scripted ([], [inl 2; inr interrupted; inr broken_pipe]) [1; 2; 3]%N style_default
  = (([1; 2]%N, []), IoErr broken_pipe) /\
  default_write_all 10 styled_scripted ([], [inl 2; inl 0]) [1; 2; 3]%N style_default
  = (([1; 2]%N, []), IoErr write_zero_error) /\
  default_write_all 10 (fun (w : unit) b _ => (w, IoOk (S (length b)))) tt [1]%N style_default
  = (tt, IoCrash Panic).
Proof. repeat split. Qed.
(** Every scripted sink settles, so [write_all] on it terminates; a sink that always interrupts
    does not. *)
Example C32_nonvacuous : forall w b st, b <> [] -> settles styled_scripted b st w.
Proof.
  intros [h sc] b st Hb. revert h. induction sc as [|[n|e] r IH]; intros h.
  - apply se_now. cbn. discriminate.
  - apply se_now. cbn. discriminate.
  - apply se_later. cbn. apply IH.
Qed.
Example C32_forever : forall fuel,
  default_write_all fuel (fun (w : unit) _ _ => (w, IoErr interrupted)) tt [1]%N style_default
  = (tt, IoCrash Diverge).
Proof. induction fuel as [|f IH]; [reflexivity|exact IH]. Qed.

(** * io::Ansi *)

Section Sinks.
Context {S : Type} (sink : std_io S) (held : S -> bytes).
Hypothesis Hh : honest sink held.

(** C33: formatting into io::Ansi over any honest sink (any schedule of short writes and
    interruptions), compared with formatting into the in-memory Ansi adaptor in the same style:
    if it returns Ok, so does the in-memory one, the tracked styles agree afterwards and the
    sink received exactly the UTF-8 bytes of what the in-memory one appended.  Being stated for
    any starting style it chains over any number of calls. *)
Theorem C33_step (fuel : nat) (w w' : io_ansi S) (out : str) (args : arguments) :
  propagates (args formatter_new) ->
  io_write_fmt (IoWrite_ansi fuel sink) w args = (w', IoOk tt) ->
  exists new,
    w_write_fmt (Write_ansi string_sink) (mk_ansi out (ia_current w)) args
    = (mk_ansi (out ++ new) (ia_current w'), Returned Ok) /\
    held (ia_inner w') = held (ia_inner w) ++ utf8 new.
Proof.
  intros Hp. cbn [IoWrite_ansi io_write_fmt Write_ansi Write_default w_write_fmt].
  rewrite default_io_run, default_write_fmt_run, !run_propagates by exact Hp.
  rewrite ansi_play. cbn [an_inner an_current].
  destruct (play (trap_write_str _) (ok_events (args formatter_new)) (trap_new w)) as [t [[|]|c]] eqn:E;
    try discriminate.
  apply (trap_play_ok _ _ held Hh) in E as [E1 E2]. cbn [trap_new et_inner] in *.
  destruct (ok_outcome (args formatter_new)) as [[|]|c]; try discriminate.
  intros [= <-]. eexists. rewrite E1. split; [reflexivity|exact E2].
Qed.

Theorem C33_finish (w : io_ansi S) (s' : S) (out : str) :
  io_ansi_finish sink w = (s', IoOk tt) ->
  exists new, ansi_finish string_sink (mk_ansi out (ia_current w)) = (out ++ new, Returned Ok) /\
    held s' = held (ia_inner w) ++ utf8 new.
Proof.
  unfold io_ansi_finish, ansi_finish. cbn [an_current an_inner].
  destruct (style_eqb (ia_current w) style_default); cbn [negb].
  - intros [= <-]. exists []. now rewrite !app_nil_r.
  - intros H. apply (parts_ok _ _ held Hh) in H. exists ansi_reset. split; [reflexivity|].
    rewrite H. cbn [concat]. now rewrite app_nil_r.
Qed.

(** C33: so a whole output, from a fresh io::Ansi to [finish], is what [ansi::format] gives. *)
Theorem C33_same_bytes (fuel : nat) (s s' : S) (w' : io_ansi S) (args : arguments) :
  propagates (args formatter_new) ->
  io_write_fmt (IoWrite_ansi fuel sink) (io_ansi_new s) args = (w', IoOk tt) ->
  io_ansi_finish sink w' = (s', IoOk tt) ->
  exists out, ansi_format args = Value out /\ held s' = held s ++ utf8 out.
Proof.
  intros Hp H Hf. destruct (C33_step fuel _ _ [] args Hp H) as (n1 & E1 & E2).
  destruct (C33_finish w' s' n1 Hf) as (n2 & E3 & E4). exists (n1 ++ n2).
  unfold ansi_format, ansi_new. cbn [io_ansi_new ia_current ia_inner] in *. unfold str, char in *. rewrite E1.
  cbn [app]. rewrite E3. split; [reflexivity|]. rewrite E4, E2. now rewrite utf8_app, app_assoc.
Qed.

(** C33: and if it fails, the sink holds a prefix of those bytes (formatting that would succeed
    in memory). *)
Theorem C33_prefix (fuel : nat) (w w' : io_ansi S) (out : str) (args : arguments) (e : io_error) :
  propagates (args formatter_new) -> ok_outcome (args formatter_new) = Returned Ok ->
  io_write_fmt (IoWrite_ansi fuel sink) w args = (w', IoErr e) ->
  exists new p st,
    w_write_fmt (Write_ansi string_sink) (mk_ansi out (ia_current w)) args
    = (mk_ansi (out ++ new) st, Returned Ok) /\
    is_prefix p (utf8 new) /\ held (ia_inner w') = held (ia_inner w) ++ p.
Proof.
  intros Hp Hok. cbn [IoWrite_ansi io_write_fmt Write_ansi Write_default w_write_fmt].
  rewrite default_io_run, default_write_fmt_run, !run_propagates by exact Hp.
  rewrite ansi_play, Hok. cbn [an_inner an_current].
  destruct (play (trap_write_str _) (ok_events (args formatter_new)) (trap_new w)) as [t [[|]|c]] eqn:E;
    try discriminate.
  apply (trap_play_err _ _ held Hh) in E as (p & Hpre & E). cbn [trap_new et_inner] in *.
  intros [= <- _]. do 3 eexists. split; [reflexivity|]. split; [exact Hpre|exact E].
Qed.

(** C34: one call of io::Ansi::write.  [escape] is what the in-memory adaptor writes to change
    the style.  Either the style change was delivered completely, the tracked style is the new
    one, and a single write of the buffer was then made whose result is returned (Ok(n) having
    delivered exactly the first n bytes); or the style change failed: none of the buffer was
    delivered, the tracked style is unchanged, and the error is not Interrupted. *)
Theorem C34_write_contract (w w' : io_ansi S) (b : bytes) (st : style) (r : io_res nat) :
  io_write (IoWrite_ansi 0 sink) w b st = (w', r) -> (forall c, r <> IoCrash c) ->
  exists escape,
    (forall out x, x <> [] -> ansi_write_str string_sink (mk_ansi out (ia_current w)) x st
                              = (mk_ansi (out ++ escape ++ x) st, Returned Ok)) /\
    ((ia_current w' = st /\
      exists i, held i = held (ia_inner w) ++ utf8 escape /\ si_write sink i b = (ia_inner w', r) /\
        match r with
        | IoOk n => n <= length b /\
                    held (ia_inner w') = held (ia_inner w) ++ utf8 escape ++ firstn n b
        | _ => held (ia_inner w') = held (ia_inner w) ++ utf8 escape
        end)
     \/
     (ia_current w' = ia_current w /\
      exists e p, r = IoErr e /\ err_kind e <> Interrupted /\
        is_prefix p (utf8 escape) /\ held (ia_inner w') = held (ia_inner w) ++ p)).
Proof.
  intros H Hr. exists (esc (ia_current w) st). split.
  { intros out x Hx. rewrite ansi_write_string. cbn [an_inner an_current].
    now rewrite last_style_paint, ansi_render_paint by exact Hx. }
  cbn [IoWrite_ansi io_write] in H. pose proof H as H0. revert H. unfold io_ansi_write.
  rewrite io_change_same.
  destruct (write_all_parts sink (ansi_change (ia_current w) st) (ia_inner w)) as [i [[]|e|c]] eqn:E.
  - destruct (si_write sink i b) as [i' r'] eqn:E2. intros [= <- ->]. left. split; [reflexivity|].
    exists i. cbn [ia_inner]. apply (parts_ok _ _ held Hh) in E. split; [exact E|]. split; [exact E2|].
    destruct r as [n|e|c].
    + apply (ho_write_ok _ _ Hh) in E2 as [H1 H2]. split; [exact H1|]. now rewrite H2, E, <- app_assoc.
    + apply (ho_write_err _ _ Hh) in E2. now rewrite E2, E.
    + now destruct (Hr c).
  - intros [= <- <-]. right. split; [reflexivity|]. cbn [ia_inner].
    apply (parts_err _ _ held Hh) in E as (H1 & p & H2 & H3). eauto 8.
  - intros [= <- <-]. now destruct (Hr c).
Qed.

(** C37: io::Plain delivers, through [write_fmt], exactly the bytes of the plain text. *)
Theorem C37_plain_bytes (w w' : io_plain S) (args : arguments) :
  propagates (args formatter_new) ->
  io_write_fmt (IoWrite_plain sink) w args = (w', IoOk tt) ->
  exists txt, plain_format args = Value txt /\
    held (io_plain_into_inner w') = held (io_plain_into_inner w) ++ utf8 txt.
Proof.
  intros Hp. cbn [IoWrite_plain io_write_fmt]. rewrite default_io_run, run_propagates by exact Hp.
  rewrite plain_format_spec.
  destruct (play (trap_write_str _) (ok_events (args formatter_new)) (trap_new w)) as [t [[|]|c]] eqn:E;
    try discriminate.
  apply (plain_trap_ok _ _ held Hh) in E. cbn [trap_new et_inner] in *.
  destruct (ok_outcome (args formatter_new)) as [[|]|c]; try discriminate.
  intros [= <-]. eexists. split; [reflexivity|]. unfold produces. rewrite chars_denote. exact E.
Qed.
End Sinks.

(** C37: io::Plain forwards every method to the sink, once and unchanged, whatever the style,
    and returns the sink's result. *)
Theorem C37_plain_transparent {S} (sink : std_io S) (w : io_plain S) (b : bytes) (st : style) :
  let d := IoWrite_plain sink in
  (ipl_inner (fst (io_write d w b st)), snd (io_write d w b st)) = si_write sink (ipl_inner w) b /\
  (ipl_inner (fst (io_flush d w)), snd (io_flush d w)) = si_flush sink (ipl_inner w) /\
  (ipl_inner (fst (io_write_all d w b st)), snd (io_write_all d w b st))
  = si_write_all sink (ipl_inner w) b.
Proof.
  cbn. unfold io_plain_write, io_plain_flush, io_plain_write_all. repeat split.
  - destruct (si_write sink (ipl_inner w) b); reflexivity.
  - destruct (si_flush sink (ipl_inner w)); reflexivity.
  - destruct (si_write_all sink (ipl_inner w) b); reflexivity.
Qed.
Print Assumptions C33_step.
Print Assumptions C33_finish.
Print Assumptions C33_same_bytes.
Print Assumptions C33_prefix.
Print Assumptions C34_write_contract.
Print Assumptions C37_plain_bytes.
Print Assumptions C37_plain_transparent.
Example C37_nonvacuous :
  let red := mk_style Red ColorDefault Normal in
  let args : arguments := fun f =>
    try_ (formatter_write_str f (lit "ab")) (formatter_write_str (formatter_with Restyle_Style f red) [233%N]) in
  propagates (args formatter_new) /\
  io_write_fmt (IoWrite_plain (scripted 9)) (io_plain_new ([], [inl 1; inl 1])) args
  = (mk_io_plain (lit "ab" ++ [195%N; 169%N], []), IoOk tt).
Proof. split; [vm_compute; repeat split|vm_compute; reflexivity]. Qed.

(** The scripted sink is honest under every schedule, and so is any sink that implements [write]
    honestly and keeps std's [write_all]. *)
Example honest_scripted (fuel : nat) : honest (scripted fuel) fst := scripted_honest fuel.
Example C33_nonvacuous :
  let args : arguments := fun f =>
    try_ (formatter_write_str (formatter_with Restyle_Foreground f (Foreground Red)) (lit "ab"))
      (formatter_write_str f (lit "c")) in
  let sc := [inl 1; inr interrupted; inl 2; inl 1; inl 3; inr interrupted; inl 1; inl 1; inr interrupted] in
  match io_write_fmt (IoWrite_ansi 20 (scripted 20)) (io_ansi_new ([], sc)) args with
  | (w', IoOk tt) => io_ansi_finish (scripted 20) w'
  | (w', _) => (ia_inner w', IoErr broken_pipe)
  end = ((utf8 (ESC :: lit "[31mab" ++ ESC :: lit "[0mc"), []), IoOk tt) /\
  propagates (args formatter_new).
Proof. cbn zeta. split; [vm_compute; reflexivity|]. cbn. auto. Qed.
Example C34_nonvacuous :
  let red := mk_style Red ColorDefault Normal in
  io_ansi_write (scripted 20) (io_ansi_new ([], [inl 9; inl 9; inl 9; inl 2])) [1; 2; 3]%N red
  = (mk_io_ansi (utf8 (ESC :: lit "[31m") ++ [1; 2]%N, []) red, IoOk 2) /\
  io_ansi_write (scripted 20) (io_ansi_new ([], [inl 9; inl 1; inr broken_pipe])) [1; 2; 3]%N red
  = (mk_io_ansi (utf8 (ESC :: lit "[3"), []) style_default, IoErr broken_pipe).
Proof. split; vm_compute; reflexivity. Qed.

(** * write_fmt and errors *)

(** C35: [write_fmt] over any writer.  It returns Ok exactly when formatting returned Ok; when
    formatting returned Err it returns the last I/O error that occurred, or an error of kind
    Other if none did; a panic is passed on. *)
Theorem C35_right_error {W} (write_all : W -> bytes -> style -> W * io_res unit) (w : W)
  (args : arguments) :
  let '((_, l), r) := default_io_write_fmt (logged_all write_all) (w, []) args in
  match snd (run (trap_write_str (logged_all write_all)) (args formatter_new) (trap_new (w, []))) with
  | Returned Ok => r = IoOk tt
  | Returned Err => match last_error l with
                    | Some e => r = IoErr e
                    | None => exists e, r = IoErr e /\ err_kind e = OtherError
                    end
  | Crashed c => r = IoCrash c
  end.
Proof.
  rewrite default_io_run. pose proof (trap_run_log write_all (args formatter_new) w [] None) as H.
  revert H. unfold trap_new.
  destruct (run (trap_write_str (logged_all write_all)) (args formatter_new) (mk_trap (w, []) None)) as [t o].
  intros (new & H1 & H2 & _). destruct t as [[w1 l] err]. cbn in H1, H2. subst.
  destruct o as [[|]|c]; cbn [et_inner snd]; auto.
  unfold trap_error. cbn [et_error]. change (last_error_from None new) with (last_error new).
  destruct (last_error new) as [e|]; eauto.
Qed.

(** C35: for Arguments that propagate errors (all generated ones do, C26).  The writes made are
    the first ones of the text, in order, each as the UTF-8 bytes of one styled piece.  Ok means
    that the formatting code succeeded and that all of them were made and delivered.  An error
    means that the last write made is the one that failed, earlier ones having been delivered,
    and the error is its error; or that everything was delivered and the formatting code itself
    failed (kind Other).  A panic is that of the last write or of the formatting code. *)
Theorem C35_propagating {W} (write_all : W -> bytes -> style -> W * io_res unit) (w : W)
  (args : arguments) :
  propagates (args formatter_new) ->
  let text := map (fun e => (utf8 (fst e), snd e)) (ok_events (args formatter_new)) in
  let '((_, l), r) := default_io_write_fmt (logged_all write_all) (w, []) args in
  (exists rest, text = map fst l ++ rest) /\
  match r with
  | IoOk _ => all_delivered l /\ map fst l = text /\ ok_outcome (args formatter_new) = Returned Ok
  | IoErr e =>
      (all_delivered l /\ map fst l = text /\ ok_outcome (args formatter_new) = Returned Err /\
       err_kind e = OtherError) \/
      exists l0 b st, l = l0 ++ [(b, st, IoErr e)] /\ all_delivered l0
  | IoCrash c =>
      (all_delivered l /\ map fst l = text /\ ok_outcome (args formatter_new) = Crashed c) \/
      exists l0 b st, l = l0 ++ [(b, st, IoCrash c)] /\ all_delivered l0
  end.
Proof.
  intros Hp text. rewrite default_io_run. rewrite run_propagates by exact Hp.
  pose proof (trap_play_log write_all (ok_events (args formatter_new)) w [] None) as H. revert H. unfold trap_new.
  destruct (play (trap_write_str (logged_all write_all)) (ok_events (args formatter_new)) (mk_trap (w, []) None)) as [t o].
  intros (new & H1 & H2). destruct t as [[w1 l] err]. cbn in H1, H2. subst l.
  fold (wire (ok_events (args formatter_new))) in text.
  destruct o as [[|]|c].
  - destruct H2 as (A & B & ->).
    assert (T : exists rest, text = map fst new ++ rest) by (exists []; rewrite app_nil_r; now rewrite B).
    destruct (ok_outcome (args formatter_new)) as [[|]|c] eqn:Eo; cbn [et_inner snd].
    + auto.
    + split; [exact T|]. left. auto.
    + split; [exact T|]. left. auto.
  - destruct H2 as (n0 & b & st & e & rest & -> & A & -> & C). cbn [et_inner snd trap_error et_error].
    split; [exists rest; exact C|]. right. exists n0, b, st. auto.
  - destruct H2 as (n0 & b & st & rest & -> & A & C). cbn [et_inner snd].
    split; [exists rest; exact C|]. right. exists n0, b, st. auto.
Qed.

(** C36 (partial): for Arguments that propagate errors, an I/O error during any write makes
    [write_fmt] return an error (that very error, by C35). *)
Theorem C36_surfaced_partial {W} (write_all : W -> bytes -> style -> W * io_res unit) (w : W)
  (args : arguments) :
  propagates (args formatter_new) ->
  let '((_, l), r) := default_io_write_fmt (logged_all write_all) (w, []) args in
  (exists b st e, In (b, st, IoErr e) l) -> forall u, r <> IoOk u.
Proof.
  intros Hp. pose proof (C35_propagating write_all w args Hp) as H. revert H.
  destruct (default_io_write_fmt (logged_all write_all) (w, []) args) as [[w' l] r].
  intros [_ H] (b & st & e & Hin) u ->. destruct H as [H _]. unfold all_delivered in H.
  rewrite Forall_forall in H. specialize (H _ Hin). discriminate.
Qed.

(** C36 (refuted in full): a Display implementation that ignores a failed write hides the I/O
    error: [write_fmt] returns Ok although nothing was delivered. *)
Theorem C36_surfaced_refuted {W} (write_all : W -> bytes -> style -> W * io_res unit) (w w1 : W)
  (s : str) (e : io_error) :
  write_all w (utf8 s) style_default = (w1, IoErr e) ->
  let careless : arguments := fun f => bind (formatter_write_str f s) (fun _ => Ret Ok) in
  default_io_write_fmt (logged_all write_all) (w, []) careless
  = ((w1, [(utf8 s, style_default, IoErr e)]), IoOk tt).
Proof.
  intros H. cbn zeta. rewrite default_io_run. cbn. unfold trap_write_str, logged_all.
  cbn [trap_new et_inner fst snd]. now rewrite H.
Qed.
Print Assumptions C35_right_error.
Print Assumptions C35_propagating.
Print Assumptions C36_surfaced_partial.
Example C36_nonvacuous :
  let args : arguments := fun f => try_ (formatter_write_str f (lit "ab")) (formatter_write_str f (lit "c")) in
  propagates (args formatter_new) /\
  default_io_write_fmt (logged_all (io_ansi_write_all 9 (scripted 9))) (io_ansi_new ([], [inl 2; inr broken_pipe]), []) args
  = ((mk_io_ansi (lit "ab", []) style_default,
      [(lit "ab", style_default, IoOk tt); (lit "c", style_default, IoErr broken_pipe)]), IoErr broken_pipe).
Proof. split; [vm_compute; repeat split|vm_compute; reflexivity]. Qed.
Print Assumptions C36_surfaced_refuted.

Example C35_nonvacuous :
  let args : arguments := fun f => try_ (formatter_write_str f (lit "ab")) (formatter_write_str f (lit "c")) in
  default_io_write_fmt (io_ansi_write_all 9 (scripted 9)) (io_ansi_new ([], [inl 2; inr broken_pipe])) args
  = (mk_io_ansi (lit "ab", []) style_default, IoErr broken_pipe) /\
  default_io_write_fmt (io_ansi_write_all 9 (scripted 9)) (io_ansi_new ([], [])) (fun _ => Ret Err)
  = (mk_io_ansi ([], []) style_default, IoErr formatter_error).
Proof. split; vm_compute; reflexivity. Qed.
