(** Specification vocabulary: sessions, that is arbitrary sequences of calls of the public
    methods of a writer, made one after the other whatever each of them returns (a panic is
    caught by the caller). *)
From Verif Require Import Base Style Fmt SpecText Io.

(** * [stylish::Write] *)
Inductive wcall :=
  | CStr (s : str) (st : style)       (* w.write_str(s, st) *)
  | CChar (c : char) (st : style)     (* w.write_char(c, st) *)
  | CFmt (args : arguments).          (* w.write_fmt(args), write!(w, ..) *)

Definition do_call {W} (d : Write W) (w : W) (c : wcall) : W * outcome :=
  match c with
  | CStr s st => w_write_str d w s st
  | CChar c st => w_write_char d w c st
  | CFmt args => w_write_fmt d w args
  end.

(** The writer afterwards and what each call returned. *)
Fixpoint session {W} (d : Write W) (calls : list wcall) (w : W) : W * list outcome :=
  match calls with
  | [] => (w, [])
  | c :: r =>
      let (w1, o) := do_call d w c in
      let (w2, os) := session d r w1 in (w2, o :: os)
  end.

(** The styled text a call stands for (up to the point where the formatting code of a
    [write_fmt] stops), and how the call ends if the writer accepts everything. *)
Definition call_text (c : wcall) : history :=
  match c with
  | CStr s st => [(s, st)]
  | CChar c st => [([c], st)]
  | CFmt args => ok_events (args formatter_new)
  end.
Definition call_outcome (c : wcall) : outcome :=
  match c with
  | CStr _ _ | CChar _ _ => Returned Ok
  | CFmt args => ok_outcome (args formatter_new)
  end.
Definition session_text (calls : list wcall) : history := flat_map call_text calls.

(** The same for calls made inside an implementation of [Display] on its formatter [f]. *)
Definition call_text_in (f : formatter) (c : wcall) : history :=
  match c with
  | CStr s st => [(s, st)]
  | CChar c st => [([c], st)]
  | CFmt args => ok_events (args f)
  end.
Definition call_outcome_in (f : formatter) (c : wcall) : outcome :=
  match c with
  | CStr _ _ | CChar _ _ => Returned Ok
  | CFmt args => ok_outcome (args f)
  end.

(** Code with all styling removed: the same writes, all in style [st]. *)
Fixpoint in_style (st : style) (p : wprog) : wprog :=
  match p with
  | Ret r => Ret r
  | Abort c => Abort c
  | Emit s _ k => Emit s st (fun r => in_style st (k r))
  end.

(** * [stylish::io::Write] *)
Inductive iocall :=
  | IWrite (b : bytes) (st : style)   (* w.write(b, st) *)
  | IAll (b : bytes) (st : style)     (* w.write_all(b, st) *)
  | IFlush                            (* w.flush() *)
  | IFmt (args : arguments).          (* w.write_fmt(args), write!(w, ..) *)

(** [Ok(())] is reported as [Ok(0)] to have one type of results. *)
Definition unit_res (r : io_res unit) : io_res nat :=
  match r with IoOk _ => IoOk 0 | IoErr e => IoErr e | IoCrash c => IoCrash c end.
Definition do_iocall {W} (d : IoWrite W) (w : W) (c : iocall) : W * io_res nat :=
  match c with
  | IWrite b st => io_write d w b st
  | IAll b st => let (w', r) := io_write_all d w b st in (w', unit_res r)
  | IFlush => let (w', r) := io_flush d w in (w', unit_res r)
  | IFmt args => let (w', r) := io_write_fmt d w args in (w', unit_res r)
  end.
Fixpoint io_session {W} (d : IoWrite W) (calls : list iocall) (w : W)
  : W * list (iocall * io_res nat) :=
  match calls with
  | [] => (w, [])
  | c :: r =>
      let (w1, o) := do_iocall d w c in
      let (w2, os) := io_session d r w1 in (w2, (c, o) :: os)
  end.

(** The styled bytes that a successful call stands for: [Ok(n)] from [write] is the first [n]
    bytes. *)
Definition accepted (e : iocall * io_res nat) : list (bytes * style) :=
  match e with
  | (IWrite b st, IoOk n) => [(firstn n b, st)]
  | (IAll b st, IoOk _) => [(b, st)]
  | (IFmt args, IoOk _) =>
      map (fun e => (utf8 (fst e), snd e)) (ok_events (args formatter_new))
  | _ => []
  end.
(** Adjacent pieces in the same style may be joined: a character can arrive in several pieces. *)
Inductive joined : list (bytes * style) -> list (bytes * style) -> Prop :=
  | jo_nil : joined [] []
  | jo_keep x l m : joined l m -> joined (x :: l) (x :: m)
  | jo_join b1 b2 st l m : joined ((b1 ++ b2, st) :: l) m -> joined ((b1, st) :: (b2, st) :: l) m.
(** These pieces are the UTF-8 encoding of the styled text [h]. *)
Definition encodes (pieces : list (bytes * style)) (h : history) : Prop :=
  joined pieces (map (fun e => (utf8 (fst e), snd e)) h).
Definition succeeded (e : iocall * io_res nat) : Prop := exists n, snd e = IoOk n.
(** Formatting code that stops at the first failed write, and (as every Rust string) writes
    Unicode scalar values only. *)
Definition scalar_text (s : str) : Prop := Forall (fun c => is_scalar c = true) s.
Definition call_regular (c : iocall) : Prop :=
  match c with
  | IFmt args => propagates (args formatter_new) /\ scalar_text (text_of (ok_events (args formatter_new)))
  | _ => True
  end.

(** * Sessions with failing writes *)

(** The style in which a call begins to write ([None]: it writes nothing), and the one in which it
    ends. *)
Definition begins (c : iocall) : option style :=
  match c with
  | IWrite _ st => Some st
  | IAll [] _ => None
  | IAll (_ :: _) st => Some st
  | IFlush => None
  | IFmt args => hd_error (map snd (denote (ok_events (args formatter_new))))
  end.
Definition ends (c : iocall) : style :=
  match c with
  | IWrite _ st | IAll _ st => st
  | IFlush => style_default
  | IFmt args => last (map snd (denote (ok_events (args formatter_new)))) style_default
  end.

(** What the caller may write after failed [write] calls: [last] is the style of the last
    successful call, [tried] the styles of the failed ones since then, the latest first.
    - the style of the latest failed call again;
    - that, or a style not used since (and in) the last successful call. *)
Definition again (last : style) (tried : list style) (st : style) : Prop :=
  match tried with [] => True | t :: _ => st = t end.
Definition again_or_fresh (last : style) (tried : list style) (st : style) : Prop :=
  match tried with [] => True | t :: earlier => st = t \/ ~ In st (last :: earlier) end.

(** A log of calls, until [finish] (which counts as a write in the default style), that follows
    such a rule.  The calls that may fail are [flush] and [write]; an interrupted [write] counts as
    a successful one. *)
Inductive follows (rule : style -> list style -> style -> Prop)
  : style -> list style -> list (iocall * io_res nat) -> Prop :=
  | fo_finish last tried : rule last tried style_default -> follows rule last tried []
  | fo_flush last tried r l : follows rule last tried l -> follows rule last tried ((IFlush, r) :: l)
  | fo_nothing last tried c n l : begins c = None -> follows rule last tried l ->
      follows rule last tried ((c, IoOk n) :: l)
  | fo_success last tried c st n l : begins c = Some st -> rule last tried st ->
      follows rule (ends c) [] l -> follows rule last tried ((c, IoOk n) :: l)
  | fo_interrupted last tried b st e l : err_kind e = Interrupted -> rule last tried st ->
      follows rule st [] l -> follows rule last tried ((IWrite b st, IoErr e) :: l)
  | fo_failure last tried b st e l : rule last tried st ->
      follows rule last (st :: tried) l -> follows rule last tried ((IWrite b st, IoErr e) :: l).

(** The same for [stylish::Write]: the calls that may fail (or panic) are [write_str] and
    [write_char]; an empty [write_str] writes nothing. *)
Definition wbegins (c : wcall) : option style := hd_error (map snd (denote (call_text c))).
Definition wends (c : wcall) : style := last (map snd (denote (call_text c))) style_default.
Definition single (c : wcall) : Prop := match c with CFmt _ => False | _ => True end.
Inductive wfollows (rule : style -> list style -> style -> Prop)
  : style -> list style -> list (wcall * outcome) -> Prop :=
  | wf_finish last tried : rule last tried style_default -> wfollows rule last tried []
  | wf_nothing last tried c l : wbegins c = None -> wfollows rule last tried l ->
      wfollows rule last tried ((c, Returned Ok) :: l)
  | wf_success last tried c st l : wbegins c = Some st -> rule last tried st ->
      wfollows rule (wends c) [] l -> wfollows rule last tried ((c, Returned Ok) :: l)
  | wf_failure last tried c st o l : single c -> wbegins c = Some st -> o <> Returned Ok ->
      rule last tried st -> wfollows rule last (st :: tried) l -> wfollows rule last tried ((c, o) :: l).
(** What the successful calls of a session wrote. *)
Definition wrote (e : wcall * outcome) : history :=
  match e with (c, Returned Ok) => call_text c | _ => [] end.
Definition wcall_regular (c : wcall) : Prop :=
  match c with CFmt args => propagates (args formatter_new) | _ => True end.
