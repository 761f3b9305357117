(** C69, C70: formatters used as writers by generic code, and adaptors created on a formatter
    inside a Display implementation; forwarding for whole sessions (C39). *)
From Verif Require Import Base Style Fmt SString Plain Ansi Html Io Format Lib SpecText TextFacts
  SpecTerminal AnsiFacts SpecHtml HtmlFacts StringFacts FormatFacts SinkFacts SpecSession PropsAnsi PropsHtml
  PropsSession.

(** * C39: whole sessions *)

(** C39: any sequence of calls on [&mut W] does what the same calls do on [W], for both traits
    and any implementor (provided methods overridden or not). *)
Theorem C39_sessions {W V} (d : Write W) (io : IoWrite V) :
  (forall calls w, session (Write_mut_ref d) calls w = session d calls w) /\
  (forall calls w, io_session (IoWrite_mut_ref io) calls w = io_session io calls w).
Proof.
  split.
  - induction calls as [|c calls IH]; intros w; cbn [session]; [reflexivity|].
    replace (do_call (Write_mut_ref d) w c) with (do_call d w c) by now destruct c.
    destruct (do_call d w c) as [w1 o]. now rewrite IH.
  - induction calls as [|c calls IH]; intros w; cbn [io_session]; [reflexivity|].
    replace (do_iocall (IoWrite_mut_ref io) w c) with (do_iocall io w c) by now destruct c.
    destruct (do_iocall io w c) as [w1 o]. now rewrite IH.
Qed.
Print Assumptions C39_sessions.

(** * C69 *)

(** C69: a call on a Formatter through stylish::Write, over any writer (failing or not): a
    string or character is written to the writer as it is, in the given style; a [write!] runs
    its Arguments from the formatter's own style and flags, not from the default style as on
    other writers. *)
Theorem C69_call {W} (ws : write_fn W) (f : formatter) (w : W) :
  (forall s st, do_call (Write_Formatter ws f) w (CStr s st) = ws w s st) /\
  (forall c st, do_call (Write_Formatter ws f) w (CChar c st) = ws w [c] st) /\
  (forall args, do_call (Write_Formatter ws f) w (CFmt args) = run ws (args f) w).
Proof.
  assert (E : forall s st, run ws (Formatter_Write_write_str f s st) w = ws w s st).
  { intros s st. cbn. unfold style_with, Restyle_Style. destruct (ws w s st) as [w' [[|]|c]]; reflexivity. }
  repeat split; intros; cbn [do_call Write_Formatter w_write_str w_write_char w_write_fmt]; auto.
  apply same_run, write_fmt_same.
Qed.
Print Assumptions C69_call.

(** C69: so for any session of calls on a writer that accepts everything, it ends as if the
    prescribed styled texts had been written to it directly, and each call returns what the
    formatting code says. *)
Theorem C69_session {W} (ws : write_fn W) (f : formatter) (calls : list wcall) (w : W) :
  infallible ws ->
  session (Write_Formatter ws f) calls w
  = (fst (play ws (flat_map (call_text_in f) calls) w), map (call_outcome_in f) calls).
Proof.
  intros Hw. revert w. induction calls as [|c calls IH]; intros w; cbn [session map flat_map]; [reflexivity|].
  assert (E : do_call (Write_Formatter ws f) w c = (fst (play ws (call_text_in f c) w), call_outcome_in f c)).
  { destruct (C69_call ws f w) as (E1 & E2 & E3). destruct c as [s st|c st|args].
    - rewrite E1. cbn. rewrite (infallible_eq ws w s st Hw). reflexivity.
    - rewrite E2. cbn. rewrite (infallible_eq ws w [c] st Hw). reflexivity.
    - rewrite E3. cbn. rewrite (run_infallible ws (args f) w Hw). reflexivity. }
  rewrite E, IH, play_app, (infallible_play ws _ w Hw). reflexivity.
Qed.
Print Assumptions C69_session.

(** C69: on formatters made by [write!] (default style, no flags) generic code behaves as on
    any other writer. *)
Theorem C69_fresh {W} (ws : write_fn W) (calls : list wcall) (w : W) :
  session (Write_Formatter ws formatter_new) calls w = session (Write_default ws) calls w.
Proof.
  revert w. induction calls as [|c calls IH]; intros w; cbn [session]; [reflexivity|].
  assert (E : do_call (Write_Formatter ws formatter_new) w c = do_call (Write_default ws) w c).
  { destruct (C69_call ws formatter_new w) as (E1 & E2 & E3). destruct c as [s st|c st|args].
    - now rewrite E1.
    - now rewrite E2.
    - rewrite E3. symmetry. apply default_write_fmt_run. }
  rewrite E. destruct (do_call (Write_default ws) w c) as [w1 o]. now rewrite IH.
Qed.
Print Assumptions C69_fresh.

(** * C70: adaptors on a formatter *)

Lemma formatter_sink_write {W} (ws : write_fn W) (f : formatter) (w : W) (s : str) :
  Formatter_sink ws f w s = ws w s (fm_style f).
Proof.
  unfold Formatter_sink, Formatter_std_write_str. cbn. destruct (ws w s (fm_style f)) as [w' [[|]|c]]; reflexivity.
Qed.

(** C70: a Plain adaptor on a formatter removes the styling and nothing else: code run on it
    makes the same writes, in the formatter's style, sees the same results and ends the same
    way, on any writer. *)
Theorem C70_plain {W} (ws : write_fn W) (f : formatter) (p : wprog) (w : W) :
  let (w1, o1) := run (plain_write_str (Formatter_sink ws f)) p (lib_plain w) in
  let (w2, o2) := run ws (in_style (fm_style f) p) w in
  plain_into_inner w1 = w2 /\ o1 = o2.
Proof.
  revert w. induction p as [r|c|s st k IH]; intros w; cbn [run in_style]; [split; reflexivity|split; reflexivity|].
  unfold plain_write_str at 1. cbn [pl_inner lib_plain plain_new]. rewrite formatter_sink_write.
  destruct (ws w s (fm_style f)) as [w' [r|c]]; [|split; reflexivity]. apply IH.
Qed.
Print Assumptions C70_plain.

(** C70: in particular it shows the text of the code in the formatter's style. *)
Theorem C70_plain_text (st : style) (p : wprog) :
  produces (in_style st p) = paint st (chars (produces p)) /\
  ok_outcome (in_style st p) = ok_outcome p.
Proof.
  unfold produces. induction p as [r|c|s st' k IH]; cbn [in_style ok_events ok_outcome denote]; [split; reflexivity|split; reflexivity|].
  destruct (IH Ok) as [IH1 IH2]. rewrite IH1, IH2, chars_app, chars_paint, paint_app. split; reflexivity.
Qed.
Print Assumptions C70_plain_text.

(** * C71: adaptors only use their sink through its interface *)

(** Sinks that cannot be told apart through [write_str]: states are related by [R], calls on
    related states have the same outcome and lead to related states. *)
Definition alike {S T} (R : S -> T -> Prop) (sink1 : fmt_sink S) (sink2 : fmt_sink T) : Prop :=
  forall i j s, R i j ->
    snd (sink1 i s) = snd (sink2 j s) /\ R (fst (sink1 i s)) (fst (sink2 j s)).

Section Alike.
Context {S T : Type} (R : S -> T -> Prop) (sink1 : fmt_sink S) (sink2 : fmt_sink T).
Hypothesis HR : alike R sink1 sink2.

Lemma alike_parts parts i j : R i j ->
  snd (write_parts sink1 parts i) = snd (write_parts sink2 parts j) /\
  R (fst (write_parts sink1 parts i)) (fst (write_parts sink2 parts j)).
Proof.
  revert i j. induction parts as [|s parts IH]; intros i j Hij; cbn [write_parts]; [auto|].
  destruct (HR i j s Hij) as [E H']. destruct (sink1 i s) as [i' o1], (sink2 j s) as [j' o2].
  cbn [fst snd] in *. subst o2. destruct o1 as [[|]|c]; cbn [fst snd]; auto.
Qed.

Definition R_ansi (a : ansi S) (b : ansi T) : Prop :=
  R (an_inner a) (an_inner b) /\ an_current a = an_current b.
Definition R_html (a : html S) (b : html T) : Prop :=
  R (ht_inner a) (ht_inner b) /\ ht_current a = ht_current b.
Definition R_plain (a : plain S) (b : plain T) : Prop := R (pl_inner a) (pl_inner b).

Lemma alike_ansi a b s st : R_ansi a b ->
  snd (ansi_write_str sink1 a s st) = snd (ansi_write_str sink2 b s st) /\
  R_ansi (fst (ansi_write_str sink1 a s st)) (fst (ansi_write_str sink2 b s st)).
Proof.
  intros [Hi Hc]. unfold ansi_write_str. destruct (is_empty s); [split; [reflexivity|split; assumption]|].
  rewrite Hc. destruct (alike_parts (ansi_change (an_current b) st) _ _ Hi) as [E Hi'].
  destruct (write_parts sink1 _ (an_inner a)) as [i' o1], (write_parts sink2 _ (an_inner b)) as [j' o2].
  cbn [fst snd] in *. subst o2. destruct o1 as [[|]|c]; [|split; [reflexivity|split; [assumption|reflexivity]]..].
  destruct (HR i' j' s Hi') as [E' Hi'']. destruct (sink1 i' s) as [i'' p1], (sink2 j' s) as [j'' p2].
  cbn [fst snd] in *. split; [exact E'|split; [exact Hi''|reflexivity]].
Qed.
Lemma alike_html a b s st : R_html a b ->
  snd (html_write_str sink1 a s st) = snd (html_write_str sink2 b s st) /\
  R_html (fst (html_write_str sink1 a s st)) (fst (html_write_str sink2 b s st)).
Proof.
  intros [Hi Hc]. unfold html_write_str. destruct (is_empty s); [split; [reflexivity|split; assumption]|].
  rewrite Hc. destruct (alike_parts (html_change (ht_current b) st) _ _ Hi) as [E Hi'].
  destruct (write_parts sink1 _ (ht_inner a)) as [i' o1], (write_parts sink2 _ (ht_inner b)) as [j' o2].
  cbn [fst snd] in *. subst o2. destruct o1 as [[|]|c]; [|split; [reflexivity|split; [assumption|reflexivity]]..].
  destruct (alike_parts (escape_parts s) i' j' Hi') as [E' Hi''].
  destruct (write_parts sink1 _ i') as [i'' p1], (write_parts sink2 _ j') as [j'' p2].
  cbn [fst snd] in *. split; [exact E'|split; [exact Hi''|reflexivity]].
Qed.
Lemma alike_plain a b s st : R_plain a b ->
  snd (plain_write_str sink1 a s st) = snd (plain_write_str sink2 b s st) /\
  R_plain (fst (plain_write_str sink1 a s st)) (fst (plain_write_str sink2 b s st)).
Proof.
  intros Hi. unfold plain_write_str. destruct (HR _ _ s Hi) as [E H'].
  destruct (sink1 (pl_inner a) s), (sink2 (pl_inner b) s). split; assumption.
Qed.
End Alike.

Lemma alike_run {A B} (Q : A -> B -> Prop) (ws1 : write_fn A) (ws2 : write_fn B) (p : wprog) :
  (forall a b s st, Q a b -> snd (ws1 a s st) = snd (ws2 b s st) /\ Q (fst (ws1 a s st)) (fst (ws2 b s st))) ->
  forall a b, Q a b -> snd (run ws1 p a) = snd (run ws2 p b) /\ Q (fst (run ws1 p a)) (fst (run ws2 p b)).
Proof.
  intros HQ. induction p as [r|c|s st k IH]; intros a b Hab; cbn [run]; auto.
  destruct (HQ a b s st Hab) as [E H']. destruct (ws1 a s st) as [a' o1], (ws2 b s st) as [b' o2].
  cbn [fst snd] in *. subst o2. destruct o1 as [r|c]; auto.
Qed.
Lemma alike_session {A B} (Q : A -> B -> Prop) (ws1 : write_fn A) (ws2 : write_fn B) (calls : list wcall) :
  (forall a b s st, Q a b -> snd (ws1 a s st) = snd (ws2 b s st) /\ Q (fst (ws1 a s st)) (fst (ws2 b s st))) ->
  forall a b, Q a b ->
  snd (session (Write_default ws1) calls a) = snd (session (Write_default ws2) calls b) /\
  Q (fst (session (Write_default ws1) calls a)) (fst (session (Write_default ws2) calls b)).
Proof.
  intros HQ. induction calls as [|c calls IH]; intros a b Hab; cbn [session]; auto.
  assert (H1 : snd (do_call (Write_default ws1) a c) = snd (do_call (Write_default ws2) b c) /\
               Q (fst (do_call (Write_default ws1) a c)) (fst (do_call (Write_default ws2) b c))).
  { destruct c as [s st|c st|args]; cbn [do_call Write_default w_write_str w_write_char w_write_fmt].
    - now apply HQ.
    - now apply HQ.
    - now apply alike_run. }
  destruct (do_call (Write_default ws1) a c) as [a' o1], (do_call (Write_default ws2) b c) as [b' o2].
  cbn [fst snd] in H1. destruct H1 as [-> H']. specialize (IH a' b' H').
  destruct (session (Write_default ws1) calls a'), (session (Write_default ws2) calls b').
  cbn [fst snd] in *. destruct IH as [-> IH]. auto.
Qed.

(** C71: any session of calls on an adaptor, followed by [finish], gives the same results and
    leaves related sinks, if it starts with related sinks: an adaptor's behaviour depends on
    nothing but what the calls on its sink return. *)
Theorem C71_ansi {S T} (R : S -> T -> Prop) (sink1 : fmt_sink S) (sink2 : fmt_sink T)
  (calls : list wcall) (i : S) (j : T) :
  alike R sink1 sink2 -> R i j ->
  let (a, r1) := session (Write_ansi sink1) calls (lib_ansi i) in
  let (b, r2) := session (Write_ansi sink2) calls (lib_ansi j) in
  r1 = r2 /\ an_current a = an_current b /\ R (an_inner a) (an_inner b) /\
  snd (ansi_finish sink1 a) = snd (ansi_finish sink2 b) /\
  R (fst (ansi_finish sink1 a)) (fst (ansi_finish sink2 b)).
Proof.
  intros HR Hij.
  destruct (alike_session (R_ansi R) _ _ calls (alike_ansi R sink1 sink2 HR) (lib_ansi i) (lib_ansi j)) as [E [Hi Hc]];
    [split; [exact Hij|reflexivity]|].
  unfold Write_ansi. destruct (session (Write_default (ansi_write_str sink1)) calls (lib_ansi i)) as [a r1].
  destruct (session (Write_default (ansi_write_str sink2)) calls (lib_ansi j)) as [b r2]. cbn [fst snd] in *.
  split; [exact E|]. split; [exact Hc|]. split; [exact Hi|]. unfold ansi_finish. rewrite Hc.
  destruct (negb (style_eqb (an_current b) style_default)); [now apply alike_parts|split; [reflexivity|exact Hi]].
Qed.
Print Assumptions C71_ansi.

Theorem C71_html {S T} (R : S -> T -> Prop) (sink1 : fmt_sink S) (sink2 : fmt_sink T)
  (calls : list wcall) (i : S) (j : T) :
  alike R sink1 sink2 -> R i j ->
  let (a, r1) := session (Write_html sink1) calls (lib_html i) in
  let (b, r2) := session (Write_html sink2) calls (lib_html j) in
  r1 = r2 /\ ht_current a = ht_current b /\ R (ht_inner a) (ht_inner b) /\
  snd (html_finish sink1 a) = snd (html_finish sink2 b) /\
  R (fst (html_finish sink1 a)) (fst (html_finish sink2 b)).
Proof.
  intros HR Hij.
  destruct (alike_session (R_html R) _ _ calls (alike_html R sink1 sink2 HR) (lib_html i) (lib_html j)) as [E [Hi Hc]];
    [split; [exact Hij|reflexivity]|].
  unfold Write_html. destruct (session (Write_default (html_write_str sink1)) calls (lib_html i)) as [a r1].
  destruct (session (Write_default (html_write_str sink2)) calls (lib_html j)) as [b r2]. cbn [fst snd] in *.
  split; [exact E|]. split; [exact Hc|]. split; [exact Hi|]. unfold html_finish. rewrite Hc.
  destruct (negb (style_eqb (ht_current b) style_default)); [now apply alike_parts|split; [reflexivity|exact Hi]].
Qed.
Print Assumptions C71_html.

Theorem C71_plain {S T} (R : S -> T -> Prop) (sink1 : fmt_sink S) (sink2 : fmt_sink T)
  (calls : list wcall) (i : S) (j : T) :
  alike R sink1 sink2 -> R i j ->
  let (a, r1) := session (Write_plain sink1) calls (lib_plain i) in
  let (b, r2) := session (Write_plain sink2) calls (lib_plain j) in
  r1 = r2 /\ R (plain_into_inner a) (plain_into_inner b).
Proof.
  intros HR Hij.
  destruct (alike_session (R_plain R) _ _ calls (alike_plain R sink1 sink2 HR) (lib_plain i) (lib_plain j) Hij) as [E Hi].
  unfold Write_plain. destruct (session (Write_default (plain_write_str sink1)) calls (lib_plain i)) as [a r1].
  destruct (session (Write_default (plain_write_str sink2)) calls (lib_plain j)) as [b r2]. cbn [fst snd] in *.
  split; [exact E|exact Hi].
Qed.
Print Assumptions C71_plain.

(** The same for io sinks. *)
Definition io_alike {S T} (R : S -> T -> Prop) (sink1 : std_io S) (sink2 : std_io T) : Prop :=
  forall i j b, R i j ->
    (snd (si_write sink1 i b) = snd (si_write sink2 j b) /\
     R (fst (si_write sink1 i b)) (fst (si_write sink2 j b))) /\
    (snd (si_flush sink1 i) = snd (si_flush sink2 j) /\
     R (fst (si_flush sink1 i)) (fst (si_flush sink2 j))) /\
    (snd (si_write_all sink1 i b) = snd (si_write_all sink2 j b) /\
     R (fst (si_write_all sink1 i b)) (fst (si_write_all sink2 j b))).

Lemma io_alike_parts {S T} (R : S -> T -> Prop) sink1 sink2 parts i j :
  io_alike R sink1 sink2 -> R i j ->
  snd (write_all_parts sink1 parts i) = snd (write_all_parts sink2 parts j) /\
  R (fst (write_all_parts sink1 parts i)) (fst (write_all_parts sink2 parts j)).
Proof.
  intros HR. revert i j. induction parts as [|s parts IH]; intros i j Hij; cbn [write_all_parts]; [auto|].
  destruct (HR i j (utf8 s) Hij) as (_ & _ & E & H').
  destruct (si_write_all sink1 i (utf8 s)) as [i' o1], (si_write_all sink2 j (utf8 s)) as [j' o2].
  cbn [fst snd] in *. subst o2. destruct o1 as [[]|e|c]; cbn [fst snd]; auto.
Qed.

(** Two io writers with related states. *)
Section IoSession.
Context {A B : Type} (Q : A -> B -> Prop).
Definition io_same {X} (r1 : A * io_res X) (r2 : B * io_res X) : Prop :=
  snd r1 = snd r2 /\ Q (fst r1) (fst r2).

Lemma io_same_write_all fuel (w1 : A -> bytes -> style -> A * io_res nat) w2 buf st :
  (forall a b s st, Q a b -> io_same (w1 a s st) (w2 b s st)) ->
  forall a b, Q a b -> io_same (default_write_all fuel w1 a buf st) (default_write_all fuel w2 b buf st).
Proof.
  intros H. revert buf. induction fuel as [|fuel IH]; intros buf a b Hab; destruct buf as [|x buf];
    cbn [default_write_all]; try (split; [reflexivity|exact Hab]).
  destruct (H a b (x :: buf) st Hab) as [E H'].
  destruct (w1 a (x :: buf) st) as [a' o1], (w2 b (x :: buf) st) as [b' o2]. cbn [fst snd] in *. subst o2.
  destruct o1 as [[|n]|e|c]; try (split; [reflexivity|exact H']).
  - destruct (Datatypes.S n <=? length (x :: buf)); [now apply IH|split; [reflexivity|exact H']].
  - destruct (is_interrupted e); [now apply IH|split; [reflexivity|exact H']].
Qed.

Lemma io_same_write_fmt (w1 : A -> bytes -> style -> A * io_res unit) w2 args :
  (forall a b s st, Q a b -> io_same (w1 a s st) (w2 b s st)) ->
  forall a b, Q a b -> io_same (default_io_write_fmt w1 a args) (default_io_write_fmt w2 b args).
Proof.
  intros H a b Hab. unfold default_io_write_fmt, default_write_fmt.
  destruct (alike_run (fun t u => Q (et_inner t) (et_inner u) /\ et_error t = et_error u)
              (trap_write_str w1) (trap_write_str w2) (formatter_write_fmt formatter_new args)) with
    (a := trap_new a) (b := trap_new b) as [E [H1 H2]].
  - intros t u s st [Hi He]. unfold trap_write_str. destruct (H _ _ (utf8 s) st Hi) as [E H'].
    destruct (w1 (et_inner t) (utf8 s) st) as [a' o1], (w2 (et_inner u) (utf8 s) st) as [b' o2].
    cbn [fst snd] in *. subst o2. destruct o1; cbn; auto.
  - split; [exact Hab|reflexivity].
  - destruct (run (trap_write_str w1) _ (trap_new a)) as [t o1], (run (trap_write_str w2) _ (trap_new b)) as [u o2].
    cbn [fst snd] in *. subst o2. destruct o1 as [[|]|c]; (split; [|exact H1]); cbn; auto.
    unfold trap_error. now rewrite H2.
Qed.

Lemma io_same_session (d1 : IoWrite A) (d2 : IoWrite B) :
  (forall a b s st, Q a b -> io_same (io_write d1 a s st) (io_write d2 b s st)) ->
  (forall a b, Q a b -> io_same (io_flush d1 a) (io_flush d2 b)) ->
  (forall a b s st, Q a b -> io_same (io_write_all d1 a s st) (io_write_all d2 b s st)) ->
  (forall a b args, Q a b -> io_same (io_write_fmt d1 a args) (io_write_fmt d2 b args)) ->
  forall calls a b, Q a b ->
    snd (io_session d1 calls a) = snd (io_session d2 calls b) /\
    Q (fst (io_session d1 calls a)) (fst (io_session d2 calls b)).
Proof.
  intros H1 H2 H3 H4. induction calls as [|c calls IH]; intros a b Hab; cbn [io_session]; [auto|].
  assert (Hc : io_same (do_iocall d1 a c) (do_iocall d2 b c)).
  { destruct c as [s st|s st| |args]; cbn [do_iocall].
    - now apply H1.
    - destruct (H3 a b s st Hab) as [E H']. destruct (io_write_all d1 a s st), (io_write_all d2 b s st).
      cbn in *. subst. split; [reflexivity|exact H'].
    - destruct (H2 a b Hab) as [E H']. destruct (io_flush d1 a), (io_flush d2 b).
      cbn in *. subst. split; [reflexivity|exact H'].
    - destruct (H4 a b args Hab) as [E H']. destruct (io_write_fmt d1 a args), (io_write_fmt d2 b args).
      cbn in *. subst. split; [reflexivity|exact H']. }
  destruct Hc as [E H']. destruct (do_iocall d1 a c) as [a' o1], (do_iocall d2 b c) as [b' o2].
  cbn [fst snd] in *. subst o2. specialize (IH a' b' H').
  destruct (io_session d1 calls a'), (io_session d2 calls b'). cbn [fst snd] in *.
  destruct IH as [-> IH]. auto.
Qed.
End IoSession.

(** C71: any session on io::Ansi (followed by [finish]) or io::Plain. *)
Theorem C71_io_ansi {S T} (R : S -> T -> Prop) (sink1 : std_io S) (sink2 : std_io T) (fuel : nat)
  (calls : list iocall) (i : S) (j : T) :
  io_alike R sink1 sink2 -> R i j ->
  let (a, r1) := io_session (IoWrite_ansi fuel sink1) calls (lib_io_ansi i) in
  let (b, r2) := io_session (IoWrite_ansi fuel sink2) calls (lib_io_ansi j) in
  r1 = r2 /\ ia_current a = ia_current b /\ R (ia_inner a) (ia_inner b) /\
  snd (io_ansi_finish sink1 a) = snd (io_ansi_finish sink2 b) /\
  R (fst (io_ansi_finish sink1 a)) (fst (io_ansi_finish sink2 b)).
Proof.
  intros HR Hij.
  set (Q := fun (a : io_ansi S) (b : io_ansi T) => R (ia_inner a) (ia_inner b) /\ ia_current a = ia_current b).
  assert (HW : forall a b s st, Q a b -> io_same Q (io_ansi_write sink1 a s st) (io_ansi_write sink2 b s st)).
  { intros a b s st [Hi Hc]. unfold io_ansi_write. rewrite Hc.
    destruct (io_alike_parts R sink1 sink2 (io_ansi_change (ia_current b) st) _ _ HR Hi) as [E Hi'].
    destruct (write_all_parts sink1 _ (ia_inner a)) as [i' o1], (write_all_parts sink2 _ (ia_inner b)) as [j' o2].
    cbn [fst snd] in *. subst o2. destruct o1 as [[]|e|c]; [|split; [reflexivity|split; [exact Hi'|reflexivity]]..].
    destruct (HR i' j' s Hi') as ((E' & Hi'') & _). destruct (si_write sink1 i' s), (si_write sink2 j' s).
    cbn [fst snd] in *. split; [exact E'|split; [exact Hi''|reflexivity]]. }
  destruct (io_same_session Q (IoWrite_ansi fuel sink1) (IoWrite_ansi fuel sink2)) with
    (calls := calls) (a := lib_io_ansi i) (b := lib_io_ansi j) as [E [Hi Hc]].
  - exact HW.
  - intros a b [Hi Hc]. cbn [io_flush IoWrite_ansi]. unfold io_ansi_flush. destruct (HR _ _ [] Hi) as (_ & (E' & Hi'') & _).
    destruct (si_flush sink1 (ia_inner a)), (si_flush sink2 (ia_inner b)). cbn [fst snd] in *.
    split; [exact E'|split; [exact Hi''|exact Hc]].
  - intros a b s st Hab. now apply io_same_write_all.
  - intros a b args Hab. apply io_same_write_fmt; [|exact Hab].
    intros a' b' s st Hab'. now apply io_same_write_all.
  - split; [exact Hij|reflexivity].
  - destruct (io_session (IoWrite_ansi fuel sink1) calls (lib_io_ansi i)) as [a r1].
    destruct (io_session (IoWrite_ansi fuel sink2) calls (lib_io_ansi j)) as [b r2]. cbn [fst snd] in *.
    split; [exact E|]. split; [exact Hc|]. split; [exact Hi|]. unfold io_ansi_finish. rewrite Hc.
    destruct (negb (style_eqb (ia_current b) style_default));
      [now apply io_alike_parts|split; [reflexivity|exact Hi]].
Qed.
Print Assumptions C71_io_ansi.

Theorem C71_io_plain {S T} (R : S -> T -> Prop) (sink1 : std_io S) (sink2 : std_io T)
  (calls : list iocall) (i : S) (j : T) :
  io_alike R sink1 sink2 -> R i j ->
  let (a, r1) := io_session (IoWrite_plain sink1) calls (lib_io_plain i) in
  let (b, r2) := io_session (IoWrite_plain sink2) calls (lib_io_plain j) in
  r1 = r2 /\ R (io_plain_into_inner a) (io_plain_into_inner b).
Proof.
  intros HR Hij.
  set (Q := fun (a : io_plain S) (b : io_plain T) => R (ipl_inner a) (ipl_inner b)).
  assert (HA : forall a b s st, Q a b -> io_same Q (io_plain_write_all sink1 a s st) (io_plain_write_all sink2 b s st)).
  { intros a b s st Hab. unfold io_plain_write_all. destruct (HR _ _ s Hab) as (_ & _ & E & H').
    destruct (si_write_all sink1 (ipl_inner a) s), (si_write_all sink2 (ipl_inner b) s). split; assumption. }
  destruct (io_same_session Q (IoWrite_plain sink1) (IoWrite_plain sink2)) with
    (calls := calls) (a := lib_io_plain i) (b := lib_io_plain j) as [E Hi].
  - intros a b s st Hab. cbn [io_write IoWrite_plain]. unfold io_plain_write. destruct (HR _ _ s Hab) as ((E & H') & _).
    destruct (si_write sink1 (ipl_inner a) s), (si_write sink2 (ipl_inner b) s). split; assumption.
  - intros a b Hab. cbn [io_flush IoWrite_plain]. unfold io_plain_flush. destruct (HR _ _ [] Hab) as (_ & (E & H') & _).
    destruct (si_flush sink1 (ipl_inner a)), (si_flush sink2 (ipl_inner b)). split; assumption.
  - exact HA.
  - intros a b args Hab. now apply io_same_write_fmt.
  - exact Hij.
  - destruct (io_session (IoWrite_plain sink1) calls (lib_io_plain i)) as [a r1].
    destruct (io_session (IoWrite_plain sink2) calls (lib_io_plain j)) as [b r2]. split; assumption.
Qed.
Print Assumptions C71_io_plain.

(** * C70: Ansi and Html on a formatter *)

(** The writer [w1] is [w0] after some writes of [text], all in style [st]. *)
Definition received {W} (ws : write_fn W) (st : style) (w0 w1 : W) (text : str) : Prop :=
  exists h, denote h = paint st text /\ fst (play ws h w0) = w1.

Lemma received_alike {W} (ws : write_fn W) (f : formatter) (w0 : W) : infallible ws ->
  alike (received ws (fm_style f) w0) (Formatter_sink ws f) string_sink.
Proof.
  intros Hw w t s (h & Ed & Ep). rewrite formatter_sink_write. split; [apply Hw|].
  exists (h ++ [(s, fm_style f)]). split.
  - rewrite denote_app, Ed. cbn [denote]. rewrite app_nil_r. symmetry. apply paint_app.
  - rewrite play_app, (infallible_play ws h w0 Hw). cbn [fst]. rewrite Ep. cbn [play].
    rewrite (infallible_eq ws w s (fm_style f) Hw). reflexivity.
Qed.
Lemma received_start {W} (ws : write_fn W) st (w : W) : received ws st w w ([] : str).
Proof. exists []. split; reflexivity. Qed.

(** C70: an Ansi adaptor created on a formatter (inside a Display implementation) passes its
    output, escape sequences included, to the formatter as text in the formatter's style:
    exactly the text it writes to a String for the same calls; and all results are the same. *)
Theorem C70_ansi {W} (ws : write_fn W) (f : formatter) (calls : list wcall) (w : W) :
  infallible ws ->
  let (a, r1) := session (Write_ansi (Formatter_sink ws f)) calls (lib_ansi w) in
  let (b, r2) := session (Write_ansi string_sink) calls (lib_ansi []) in
  r1 = r2 /\ received ws (fm_style f) w (an_inner a) (an_inner b) /\
  snd (ansi_finish (Formatter_sink ws f) a) = snd (ansi_finish string_sink b) /\
  received ws (fm_style f) w (fst (ansi_finish (Formatter_sink ws f) a)) (fst (ansi_finish string_sink b)).
Proof.
  intros Hw. pose proof (C71_ansi _ _ _ calls w ([] : str) (received_alike ws f w Hw) (received_start ws _ w)) as X.
  revert X. unfold str, char. destruct (session (Write_ansi (Formatter_sink ws f)) calls (lib_ansi w)) as [a r1].
  match goal with |- (let (_, _) := ?x in _) -> _ => destruct x as [b r2] end.
  intros (X1 & _ & X2 & X3 & X4). split; [exact X1|]. split; [exact X2|]. split; [exact X3|exact X4].
Qed.
Print Assumptions C70_ansi.

(** C70: likewise for Html. *)
Theorem C70_html {W} (ws : write_fn W) (f : formatter) (calls : list wcall) (w : W) :
  infallible ws ->
  let (a, r1) := session (Write_html (Formatter_sink ws f)) calls (lib_html w) in
  let (b, r2) := session (Write_html string_sink) calls (lib_html []) in
  r1 = r2 /\ received ws (fm_style f) w (ht_inner a) (ht_inner b) /\
  snd (html_finish (Formatter_sink ws f) a) = snd (html_finish string_sink b) /\
  received ws (fm_style f) w (fst (html_finish (Formatter_sink ws f) a)) (fst (html_finish string_sink b)).
Proof.
  intros Hw. pose proof (C71_html _ _ _ calls w ([] : str) (received_alike ws f w Hw) (received_start ws _ w)) as X.
  revert X. unfold str, char. destruct (session (Write_html (Formatter_sink ws f)) calls (lib_html w)) as [a r1].
  match goal with |- (let (_, _) := ?x in _) -> _ => destruct x as [b r2] end.
  intros (X1 & _ & X2 & X3 & X4). split; [exact X1|]. split; [exact X2|]. split; [exact X3|exact X4].
Qed.
Print Assumptions C70_html.

(** C69: generic code writing through its formatter, shown in bold red: the string keeps its own
    style, the [write!] starts from bold red. *)
Example C69_nonvacuous :
  let f := mk_formatter (mk_style Red ColorDefault Bold) fargs_default in
  let calls := [CStr (lit "a") style_default; CChar 98%N (mk_style Blue ColorDefault Normal);
                CFmt (fun g => formatter_write_str g (lit "c")); CFmt (fun _ => Ret Err)] in
  let '(w, r) := session (Write_Formatter (html_write_str string_sink) f) calls (lib_html []) in
  fst (html_finish string_sink w)
  = lit "a<span style=color:blue>b</span><span style=color:red;font-weight:bolder>c</span>" /\
  r = [Returned Ok; Returned Ok; Returned Ok; Returned Err].
Proof. vm_compute. split; reflexivity. Qed.

(** C70: Plain, Ansi and Html created on a red formatter of an Html adaptor, given green text. *)
Example C70_nonvacuous :
  let f := mk_formatter (mk_style Red ColorDefault Normal) fargs_default in
  let green := mk_style Green ColorDefault Normal in
  let ws := html_write_str string_sink in
  let calls := [CStr (lit "x<") green] in
  ht_inner (plain_into_inner (fst (session (Write_plain (Formatter_sink ws f)) calls (lib_plain (lib_html [])))))
  = lit "<span style=color:red>x&lt;" /\
  ht_inner (fst (ansi_finish (Formatter_sink ws f) (fst (session (Write_ansi (Formatter_sink ws f)) calls (lib_ansi (lib_html []))))))
  = lit "<span style=color:red>" ++ [ESC] ++ lit "[32mx&lt;" ++ [ESC] ++ lit "[0m" /\
  ht_inner (fst (html_finish (Formatter_sink ws f) (fst (session (Write_html (Formatter_sink ws f)) calls (lib_html (lib_html []))))))
  = lit "<span style=color:red>&lt;span style=color:green&gt;x&amp;lt;&lt;/span&gt;".
Proof. vm_compute. repeat split; reflexivity. Qed.

(** C71: a sink behind a counter of its calls is alike the sink itself. *)
Example C71_nonvacuous :
  alike (fun (i : str * nat) j => fst i = j) (fun i s => let (j, o) := string_sink (fst i) s in ((j, Datatypes.S (snd i)), o))
    string_sink.
Proof. intros [i n] j s E. cbn in E. subst j. split; reflexivity. Qed.
