(** The core of stylish again, for values whose formatting code has side effects (interior
    mutability, I/O, reading a clock ...) and may catch panics.  The same source as in [Fmt],
    [StdCompat] and [Codegen]; there, formatting code does nothing but write. *)
From Verif Require Import Base Style Fmt SpecStd StdCompat Parse Codegen.

Section Effects.
(** The state that formatting code reads and changes besides the writer. *)
Variable H : Type.

(** User code run against a formatter's writer, as [wprog] in [Fmt] (core/src/formatter.rs:143),
    with access to the state.  The code learns how each write ended, a panic included
    ([catch_unwind]); code that does not catch it aborts then.  Simplifications: terminating
    code; the writer itself does not touch the state. *)
Inductive eprog :=
  | ERet (r : fresult)
  | EAbort (c : crash)
  | EGet (k : H -> eprog)
  | EPut (h : H) (p : eprog)
  | EEmit (s : str) (st : style) (k : outcome -> eprog).

Fixpoint ebind (p : eprog) (k : fresult -> eprog) : eprog :=
  match p with
  | ERet r => k r
  | EAbort c => EAbort c
  | EGet k' => EGet (fun h => ebind (k' h) k)
  | EPut h p' => EPut h (ebind p' k)
  | EEmit s st k' => EEmit s st (fun o => ebind (k' o) k)
  end.

(** The question-mark operator. *)
Definition etry (p q : eprog) : eprog :=
  ebind p (fun r => match r with Ok => q | Err => ERet Err end).

(** Going on after a call without catching panics. *)
Definition unwind (k : fresult -> eprog) (o : outcome) : eprog :=
  match o with Returned r => k r | Crashed c => EAbort c end.

(** Running code against a writer.  A writer that does not return cannot be caught. *)
Fixpoint erun {W} (ws : write_fn W) (p : eprog) (w : W) (h : H) : W * H * outcome :=
  match p with
  | ERet r => (w, h, Returned r)
  | EAbort c => (w, h, Crashed c)
  | EGet k => erun ws (k h) w h
  | EPut h' p' => erun ws p' w h'
  | EEmit s st k =>
      match ws w s st with
      | (w', Crashed Diverge) => (w', h, Crashed Diverge)
      | (w', o) => erun ws (k o) w' h
      end
  end.

(** core/src/display.rs:29-53 [trait Display], core/src/arguments.rs:55-60 [struct Arguments]. *)
Definition edisplay := formatter -> eprog.
Definition earguments := formatter -> eprog.

(** core/src/formatter.rs:142-145 [Formatter::write_str]. *)
Definition eformatter_write_str (f : formatter) (s : str) : eprog :=
  etry (EEmit s (fm_style f) (unwind ERet)) (ERet Ok).

(** core/src/formatter.rs:170-173 [Formatter::write_fmt]. *)
Definition eformatter_write_fmt (f : formatter) (args : earguments) : eprog :=
  etry (args f) (ERet Ok).

(** core/src/write.rs:90-92 provided method [write_fmt]. *)
Definition edefault_write_fmt {W} (ws : write_fn W) (w : W) (h : H) (args : earguments) : W * H * outcome :=
  erun ws (eformatter_write_fmt formatter_new args) w h.

(** * std implementations with side effects *)
Inductive esprog :=
  | ESRet (r : fresult)
  | ESAbort (c : crash)
  | ESGet (k : H -> esprog)
  | ESPut (h : H) (p : esprog)
  | ESEmit (s : str) (k : outcome -> esprog).
Definition estd_display := std_flags -> esprog.

(** core/src/std_compat.rs:78-84 [StdProxy].  Its [write_str] is one [Formatter::write_str], one
    write to the writer; the std implementation may catch its panic. *)
Fixpoint ethrough_proxy (f : formatter) (p : esprog) : eprog :=
  match p with
  | ESRet r => ERet r
  | ESAbort c => EAbort c
  | ESGet k => EGet (fun h => ethrough_proxy f (k h))
  | ESPut h p' => EPut h (ethrough_proxy f p')
  | ESEmit s k => EEmit s (fm_style f) (fun o => ethrough_proxy f (k o))
  end.

(** core/src/std_compat.rs:7 [core::write!(StdProxy(f), literal, *val, named..)]. *)
Definition estd_write (arms : list arm) (f : formatter) (val : estd_display) : eprog :=
  match select arms (fm_format f) with
  | None => EAbort Panic
  | Some (literal, env) =>
      match std_write_call literal env with
      | None => EAbort Panic
      | Some (_, flags) => ethrough_proxy f (val flags)
      end
  end.

(** core/src/arguments.rs:62-76 [Display for StdFmtOther], [Display for StdFmtDebug]. *)
Definition EDisplay_StdFmtOther (val : estd_display) : edisplay :=
  fun f => estd_write (expand arms_other) f val.
Definition EDisplay_StdFmtDebug (val : estd_display) : edisplay :=
  fun f => estd_write (expand arms_debug) f val.

(** * Running the generated code *)
Record evalue := mk_evalue {
  ev_std : std_trait -> estd_display;
  ev_stylish : edisplay
}.

(** Argument expressions act on the same state. *)
Definition eexpr := H -> H * option evalue.
Variable scope : str -> evalue.

(** macros/src/lib.rs:116, 125-127. *)
Fixpoint eeval_tuple (es : list eexpr) (h : H) : H * option (list evalue) :=
  match es with
  | [] => (h, Some [])
  | e :: r =>
      match e h with
      | (h1, None) => (h1, None)
      | (h1, Some v) =>
          match eeval_tuple r h1 with
          | (h2, None) => (h2, None)
          | (h2, Some vs) => (h2, Some (v :: vs))
          end
      end
  end.

Record etuples := mk_etuples {
  et_positional : list evalue;
  et_named : list evalue;
  et_implicit : list evalue
}.
Definition eplace_value (t : etuples) (p : place) : option evalue :=
  match p with
  | PosArg i => nth_error (et_positional t) i
  | NamedArg i => nth_error (et_named t) i
  | ImplicitArg i => nth_error (et_implicit t) i
  end.

(** macros/src/to_tokens.rs:212-239. *)
Definition ewrapped_display (w : wrap) (v : evalue) : edisplay :=
  match w with
  | WStylish => ev_stylish v
  | WStdDebug t => EDisplay_StdFmtDebug (ev_std v t)
  | WStdOther t => EDisplay_StdFmtOther (ev_std v t)
  end.

(** The closure body, macros/src/lib.rs:216-220 with statements from lines 138 and 189-198. *)
Fixpoint eexec_stmts (t : etuples) (ss : list stmt) (f : formatter) : eprog :=
  match ss with
  | [] => ERet Ok
  | SLit s :: r => etry (eformatter_write_str f s) (eexec_stmts t r f)
  | SFmt w p fargs st :: r =>
      match eplace_value t p with
      | None => EAbort Panic
      | Some v =>
          etry (ewrapped_display w v (formatter_with_args Restyle_StyleDiff f fargs st))
            (eexec_stmts t r f)
      end
  end.

(** macros/src/lib.rs:213-224: the [match] and the closure. *)
Definition eeval_code (c : code eexpr) (h : H) : H * option earguments :=
  match eeval_tuple (c_positional c) h with
  | (h1, None) => (h1, None)
  | (h1, Some ps) =>
      match eeval_tuple (c_named c) h1 with
      | (h2, None) => (h2, None)
      | (h2, Some ns) =>
          (h2, Some (eexec_stmts (mk_etuples ps ns (map scope (c_implicit c))) (c_stmts c)))
      end
  end.
End Effects.

Arguments ERet {H} r.
Arguments EAbort {H} c.
Arguments EGet {H} k.
Arguments EPut {H} h p.
Arguments EEmit {H} s st k.
Arguments ESRet {H} r.
Arguments ESAbort {H} c.
Arguments ESGet {H} k.
Arguments ESPut {H} h p.
Arguments ESEmit {H} s k.
Arguments ebind {H} p k.
Arguments etry {H} p q.
Arguments unwind {H} k o.
Arguments erun {H W} ws p w h.
Arguments eformatter_write_str {H} f s.
Arguments eformatter_write_fmt {H} f args.
Arguments edefault_write_fmt {H W} ws w h args.
Arguments ethrough_proxy {H} f p.
Arguments estd_write {H} arms f val.
Arguments EDisplay_StdFmtOther {H} val f.
Arguments EDisplay_StdFmtDebug {H} val f.
Arguments mk_evalue {H} _ _.
Arguments ev_std {H} _.
Arguments ev_stylish {H} _.
Arguments mk_etuples {H} _ _ _.
Arguments et_positional {H} _.
Arguments et_named {H} _.
Arguments et_implicit {H} _.
Arguments eplace_value {H} t p.
Arguments ewrapped_display {H} w v f.
Arguments eexec_stmts {H} t ss f.
Arguments eeval_tuple {H} es h.
Arguments eeval_code {H} scope c h.
