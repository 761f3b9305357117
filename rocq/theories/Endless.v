(** The core of stylish once more, for values whose formatting code may run forever (showing an
    endless sequence, waiting for something that never happens), besides having side effects and
    catching panics.  The same source as in [Fmt], [StdCompat], [Codegen] and [Effects]; there,
    formatting code terminates. *)
From Verif Require Import Base Style Fmt SpecStd StdCompat Parse Codegen Io.

Section Endless.
(** The state that formatting code reads and changes besides the writer. *)
Variable H : Type.

(** User code run against a formatter's writer, as [wprog] in [Fmt] (core/src/formatter.rs:143):
    possibly infinitely many steps.  The code learns how each write ended, a panic included.
    Simplification: the writer itself does not touch the state. *)
CoInductive lprog :=
  | LRet (r : fresult)
  | LAbort (c : crash)
  | LGet (k : H -> lprog)
  | LPut (h : H) (p : lprog)
  | LEmit (s : str) (st : style) (k : outcome -> lprog).

CoFixpoint lbind (p : lprog) (k : fresult -> lprog) : lprog :=
  match p with
  | LRet r => k r
  | LAbort c => LAbort c
  | LGet k' => LGet (fun h => lbind (k' h) k)
  | LPut h p' => LPut h (lbind p' k)
  | LEmit s st k' => LEmit s st (fun o => lbind (k' o) k)
  end.

(** The question-mark operator. *)
Definition ltry (p q : lprog) : lprog :=
  lbind p (fun r => match r with Ok => q | Err => LRet Err end).

(** Going on after a call without catching panics. *)
Definition lunwind (k : fresult -> lprog) (o : outcome) : lprog :=
  match o with Returned r => k r | Crashed c => LAbort c end.

(** One step of running code against a writer.  While a call of the writer does not return there is
    no next step. *)
Inductive lstep {W} (ws : write_fn W) : lprog -> W -> H -> lprog -> W -> H -> Prop :=
  | ls_get k w h : lstep ws (LGet k) w h (k h) w h
  | ls_put h' p w h : lstep ws (LPut h' p) w h p w h'
  | ls_emit s st k w h w' o : ws w s st = (w', o) -> o <> Crashed Diverge ->
      lstep ws (LEmit s st k) w h (k o) w' h.
(** [leads ws p w h q w' h']: at some moment of running [p] from [w] and [h], [q] is still to be
    run and the writer and the state are [w'] and [h']. *)
Inductive leads {W} (ws : write_fn W) : lprog -> W -> H -> lprog -> W -> H -> Prop :=
  | le_here p w h : leads ws p w h p w h
  | le_step p w h p1 w1 h1 q w' h' : lstep ws p w h p1 w1 h1 -> leads ws p1 w1 h1 q w' h' ->
      leads ws p w h q w' h'.

(** core/src/display.rs:29-53 [trait Display], core/src/arguments.rs:55-60 [struct Arguments]. *)
Definition ldisplay := formatter -> lprog.
Definition larguments := formatter -> lprog.

(** core/src/formatter.rs:142-145 [Formatter::write_str]. *)
Definition lformatter_write_str (f : formatter) (s : str) : lprog :=
  ltry (LEmit s (fm_style f) (lunwind LRet)) (LRet Ok).

(** core/src/formatter.rs:170-173 [Formatter::write_fmt]. *)
Definition lformatter_write_fmt (f : formatter) (args : larguments) : lprog :=
  ltry (args f) (LRet Ok).

(** core/src/write.rs:90-92 provided method [write_fmt]: the code that it runs on the writer. *)
Definition ldefault_write_fmt (args : larguments) : lprog :=
  lformatter_write_fmt formatter_new args.

(** Whether code has ended, and how. *)
Definition ended (p : lprog) : option outcome :=
  match p with LRet r => Some (Returned r) | LAbort c => Some (Crashed c) | _ => None end.

(** core/src/io.rs:218-222 provided method [write_fmt] of [io::Write]: the code runs on the
    [ErrorTrap]; what the call has returned at some moment ([None]: nothing yet), the writer and
    the state then. *)
Inductive io_leads {W} (write_all : W -> bytes -> style -> W * io_res unit) (args : larguments) (w : W) (h : H)
  : option (io_res unit) -> W -> H -> Prop :=
  | il_running q t h' :
      leads (trap_write_str write_all) (ldefault_write_fmt args) (trap_new w) h q t h' -> ended q = None ->
      io_leads write_all args w h None (et_inner t) h'
  | il_ok q t h' :
      leads (trap_write_str write_all) (ldefault_write_fmt args) (trap_new w) h q t h' ->
      ended q = Some (Returned Ok) -> io_leads write_all args w h (Some (IoOk tt)) (et_inner t) h'
  | il_err q t h' :
      leads (trap_write_str write_all) (ldefault_write_fmt args) (trap_new w) h q t h' ->
      ended q = Some (Returned Err) -> io_leads write_all args w h (Some (IoErr (trap_error t))) (et_inner t) h'
  | il_crash q t h' c :
      leads (trap_write_str write_all) (ldefault_write_fmt args) (trap_new w) h q t h' ->
      ended q = Some (Crashed c) -> io_leads write_all args w h (Some (IoCrash c)) (et_inner t) h'.

(** * std implementations *)
CoInductive lsprog :=
  | LSRet (r : fresult)
  | LSAbort (c : crash)
  | LSGet (k : H -> lsprog)
  | LSPut (h : H) (p : lsprog)
  | LSEmit (s : str) (k : outcome -> lsprog).
Definition lstd_display := std_flags -> lsprog.

(** core/src/std_compat.rs:78-84 [StdProxy], as [ethrough_proxy] in [Effects]. *)
CoFixpoint lthrough_proxy (f : formatter) (p : lsprog) : lprog :=
  match p with
  | LSRet r => LRet r
  | LSAbort c => LAbort c
  | LSGet k => LGet (fun h => lthrough_proxy f (k h))
  | LSPut h p' => LPut h (lthrough_proxy f p')
  | LSEmit s k => LEmit s (fm_style f) (fun o => lthrough_proxy f (k o))
  end.

(** core/src/std_compat.rs:7 [core::write!(StdProxy(f), literal, *val, named..)]. *)
Definition lstd_write (arms : list arm) (f : formatter) (val : lstd_display) : lprog :=
  match select arms (fm_format f) with
  | None => LAbort Panic
  | Some (literal, env) =>
      match std_write_call literal env with
      | None => LAbort Panic
      | Some (_, flags) => lthrough_proxy f (val flags)
      end
  end.

(** core/src/arguments.rs:62-76 [Display for StdFmtOther], [Display for StdFmtDebug]. *)
Definition LDisplay_StdFmtOther (val : lstd_display) : ldisplay :=
  fun f => lstd_write (expand arms_other) f val.
Definition LDisplay_StdFmtDebug (val : lstd_display) : ldisplay :=
  fun f => lstd_write (expand arms_debug) f val.

(** * Running the generated code *)
Record lvalue := mk_lvalue {
  lv_std : std_trait -> lstd_display;
  lv_stylish : ldisplay
}.

(** Argument expressions act on the same state; one that never ends gives no value. *)
Definition lexpr := H -> H * option lvalue.
Variable scope : str -> lvalue.

(** macros/src/lib.rs:116, 125-127. *)
Fixpoint leval_tuple (es : list lexpr) (h : H) : H * option (list lvalue) :=
  match es with
  | [] => (h, Some [])
  | e :: r =>
      match e h with
      | (h1, None) => (h1, None)
      | (h1, Some v) =>
          match leval_tuple r h1 with
          | (h2, None) => (h2, None)
          | (h2, Some vs) => (h2, Some (v :: vs))
          end
      end
  end.

Record ltuples := mk_ltuples {
  lt_positional : list lvalue;
  lt_named : list lvalue;
  lt_implicit : list lvalue
}.
Definition lplace_value (t : ltuples) (p : place) : option lvalue :=
  match p with
  | PosArg i => nth_error (lt_positional t) i
  | NamedArg i => nth_error (lt_named t) i
  | ImplicitArg i => nth_error (lt_implicit t) i
  end.

(** macros/src/to_tokens.rs:212-239. *)
Definition lwrapped_display (w : wrap) (v : lvalue) : ldisplay :=
  match w with
  | WStylish => lv_stylish v
  | WStdDebug t => LDisplay_StdFmtDebug (lv_std v t)
  | WStdOther t => LDisplay_StdFmtOther (lv_std v t)
  end.

(** The closure body, macros/src/lib.rs:216-220 with statements from lines 138 and 189-198. *)
Fixpoint lexec_stmts (t : ltuples) (ss : list stmt) (f : formatter) : lprog :=
  match ss with
  | [] => LRet Ok
  | SLit s :: r => ltry (lformatter_write_str f s) (lexec_stmts t r f)
  | SFmt w p fargs st :: r =>
      match lplace_value t p with
      | None => LAbort Panic
      | Some v =>
          ltry (lwrapped_display w v (formatter_with_args Restyle_StyleDiff f fargs st))
            (lexec_stmts t r f)
      end
  end.

(** macros/src/lib.rs:213-224: the [match] and the closure. *)
Definition leval_code (c : code lexpr) (h : H) : H * option larguments :=
  match leval_tuple (c_positional c) h with
  | (h1, None) => (h1, None)
  | (h1, Some ps) =>
      match leval_tuple (c_named c) h1 with
      | (h2, None) => (h2, None)
      | (h2, Some ns) =>
          (h2, Some (lexec_stmts (mk_ltuples ps ns (map scope (c_implicit c))) (c_stmts c)))
      end
  end.
End Endless.

Arguments LRet {H} r.
Arguments LAbort {H} c.
Arguments LGet {H} k.
Arguments LPut {H} h p.
Arguments LEmit {H} s st k.
Arguments LSRet {H} r.
Arguments LSAbort {H} c.
Arguments LSGet {H} k.
Arguments LSPut {H} h p.
Arguments LSEmit {H} s k.
Arguments lbind {H} p k.
Arguments ltry {H} p q.
Arguments lunwind {H} k o.
Arguments lstep {H W} ws _ _ _ _ _ _.
Arguments leads {H W} ws _ _ _ _ _ _.
Arguments ended {H} p.
Arguments io_leads {H W} write_all args w h _ _ _.
Arguments lformatter_write_str {H} f s.
Arguments lformatter_write_fmt {H} f args.
Arguments ldefault_write_fmt {H} args.
Arguments lthrough_proxy {H} f p.
Arguments lstd_write {H} arms f val.
Arguments LDisplay_StdFmtOther {H} val f.
Arguments LDisplay_StdFmtDebug {H} val f.
Arguments mk_lvalue {H} _ _.
Arguments lv_std {H} _.
Arguments lv_stylish {H} _.
Arguments leval_tuple {H} es h.
Arguments mk_ltuples {H} _ _ _.
Arguments lplace_value {H} t p.
Arguments lwrapped_display {H} w v f.
Arguments lexec_stmts {H} t ss f.
Arguments leval_code {H} scope c h.
