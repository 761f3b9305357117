(** Model of core/src/formatter.rs, core/src/write.rs, core/src/display.rs and
    core/src/arguments.rs (the stylish part). *)
From Verif Require Import Base Style.

(** core/src/formatter.rs:3-23 [enum Align], [enum Sign], [enum DebugHex]. *)
Inductive align_t := ALeft | ACenter | ARight.
Inductive sign_t := SPlus | SMinus.
Inductive debug_hex_t := HexLower | HexUpper.

(** core/src/formatter.rs:25-35 [struct FormatterArgs].  Width and precision are
    [Option<&usize>] in Rust; the reference is dropped. *)
Record formatter_args := mk_fargs {
  fa_align : option align_t;
  fa_sign : option sign_t;
  fa_alternate : bool;
  fa_zero : bool;
  fa_width : option N;
  fa_precision : option N;
  fa_debug_hex : option debug_hex_t
}.

(** Derived [Default], core/src/formatter.rs:26. *)
Definition fargs_default : formatter_args :=
  mk_fargs None None false false None None None.

(** core/src/formatter.rs:44-48 [struct Formatter].  The [write] field is not stored: every
    sub-formatter reborrows the same writer (lines 98 and 112), so the writer is the ambient
    state threaded by [run] below. *)
Record formatter := mk_formatter {
  fm_style : style;
  fm_format : formatter_args
}.

(** A run of user code against a formatter's writer: every method of [Formatter] bottoms out
    in [self.write.write_str(s, style)] (core/src/formatter.rs:143), whose [Result] the code
    may inspect.  A [wprog] is the tree of such calls: arbitrary control flow, any number of
    writes, any use of the returned results.  Simplification: terminating code without side
    effects other than writing. *)
Inductive wprog :=
  | Ret (r : fresult)                                  (* return r *)
  | Abort (c : crash)                                  (* panic (or not returning) *)
  | Emit (s : str) (st : style) (k : fresult -> wprog). (* write.write_str(s, st), go on *)

(** Sequential composition of code that returns a [Result]. *)
Fixpoint bind (p : wprog) (k : fresult -> wprog) : wprog :=
  match p with
  | Ret r => k r
  | Abort c => Abort c
  | Emit s st k' => Emit s st (fun r => bind (k' r) k)
  end.

(** The question-mark operator: [p?; q]. *)
Definition try_ (p q : wprog) : wprog :=
  bind p (fun r => match r with Ok => q | Err => Ret Err end).

(** core/src/display.rs:29-53 [trait Display]: what [fmt(&self, f)] does for one value. *)
Definition display := formatter -> wprog.

(** core/src/display.rs:55-59 [Display for &T]. *)
Definition Display_ref (d : display) : display := fun f => d f.

(** core/src/arguments.rs:55-60 [struct Arguments]: the closure [f]. *)
Definition arguments := formatter -> wprog.

(** core/src/arguments.rs:78-83 [Display for Arguments]. *)
Definition Display_Arguments (a : arguments) : display := fun f => a f.

(** core/src/formatter.rs:62-68 [Formatter::new]. *)
Definition formatter_new : formatter := mk_formatter style_default fargs_default.

(** core/src/formatter.rs:96-102 [Formatter::with]. *)
Definition formatter_with {T} (d : Restyle T) (f : formatter) (restyle : T) : formatter :=
  mk_formatter (style_with d (fm_style f) restyle) (fm_format f).

(** core/src/formatter.rs:106-116 [Formatter::with_args]. *)
Definition formatter_with_args {T} (d : Restyle T) (f : formatter) (format : formatter_args)
  (restyle : T) : formatter :=
  mk_formatter (style_with d (fm_style f) restyle) format.

(** core/src/formatter.rs:142-145 [Formatter::write_str]. *)
Definition formatter_write_str (f : formatter) (s : str) : wprog :=
  try_ (Emit s (fm_style f) Ret) (Ret Ok).

(** core/src/formatter.rs:170-173 [Formatter::write_fmt]. *)
Definition formatter_write_fmt (f : formatter) (args : arguments) : wprog :=
  try_ (Display_Arguments args f) (Ret Ok).

(** core/src/formatter.rs:176-186 [Write for Formatter]. *)
Definition Formatter_Write_write_str (f : formatter) (s : str) (st : style) : wprog :=
  formatter_write_str (formatter_with Restyle_Style f st) s.
Definition Formatter_Write_write_fmt (f : formatter) (args : arguments) : wprog :=
  formatter_write_fmt f args.

(** core/src/formatter.rs:188-193 [core::fmt::Write for Formatter]. *)
Definition Formatter_std_write_str (f : formatter) (s : str) : wprog :=
  formatter_write_str f s.

(** The required method of [trait Write], core/src/write.rs:36. *)
Definition write_fn (W : Type) := W -> str -> style -> W * outcome.

(** Running code against a writer.  A panic inside the writer unwinds through the code. *)
Fixpoint run {W} (ws : write_fn W) (p : wprog) (w : W) : W * outcome :=
  match p with
  | Ret r => (w, Returned r)
  | Abort c => (w, Crashed c)
  | Emit s st k =>
      match ws w s st with
      | (w', Returned r) => run ws (k r) w'
      | (w', Crashed c) => (w', Crashed c)
      end
  end.

(** core/src/write.rs:12-93 [trait Write], as a dictionary with all three methods, so that
    implementors can override the provided ones. *)
Record Write (W : Type) := mk_Write {
  w_write_str : write_fn W;
  w_write_char : W -> char -> style -> W * outcome;
  w_write_fmt : W -> arguments -> W * outcome
}.
Arguments w_write_str {W} _.
Arguments w_write_char {W} _.
Arguments w_write_fmt {W} _.
Arguments mk_Write {W} _ _ _.

(** core/src/write.rs:68-70 provided method [write_char]: [encode_utf8] yields the
    one-character string. *)
Definition default_write_char {W} (ws : write_fn W) (w : W) (c : char) (st : style)
  : W * outcome := ws w [c] st.

(** core/src/write.rs:90-92 provided method [write_fmt]. *)
Definition default_write_fmt {W} (ws : write_fn W) (w : W) (args : arguments)
  : W * outcome := run ws (formatter_write_fmt formatter_new args) w.

(** An implementor that only gives the required method. *)
Definition Write_default {W} (ws : write_fn W) : Write W :=
  mk_Write ws (default_write_char ws) (default_write_fmt ws).

(** core/src/write.rs:95-107 [Write for &mut W]. *)
Definition Write_mut_ref {W} (d : Write W) : Write W :=
  mk_Write (fun w s st => w_write_str d w s st)
           (fun w c st => w_write_char d w c st)
           (fun w args => w_write_fmt d w args).

(** [core::fmt::Write] (the sink behind the adaptors): its [write_str].  Sinks are arbitrary
    state machines and may accept, fail or panic on any call.  Simplification: a sink does not
    override [write_fmt]/[write_char] with something that disagrees with [write_str]. *)
Definition fmt_sink (S : Type) := S -> str -> S * outcome.

(** [core::fmt::Write for String] (alloc): appends, never fails. *)
Definition string_sink : fmt_sink str := fun s x => (s ++ x, Returned Ok).

(** A sequence of [sink.write_str(part)?]. *)
Fixpoint write_parts {S} (sink : fmt_sink S) (parts : list str) (s : S) : S * outcome :=
  match parts with
  | [] => (s, Returned Ok)
  | p :: ps =>
      match sink s p with
      | (s', Returned Ok) => write_parts sink ps s'
      | r => r
      end
  end.

(** A Formatter [f] over a writer [w], used as a writer itself by generic code.
    core/src/formatter.rs:176-186 [Write for Formatter] ([write_char] is the provided method, core/src/write.rs:68-70). *)
Definition Write_Formatter {W} (ws : write_fn W) (f : formatter) : Write W :=
  mk_Write (fun w s st => run ws (Formatter_Write_write_str f s st) w)
           (fun w c st => run ws (Formatter_Write_write_str f [c] st) w)
           (fun w args => run ws (Formatter_Write_write_fmt f args) w).

(** core/src/formatter.rs:188-193 [core::fmt::Write for Formatter]: the sink it is for an adaptor
    created on it. *)
Definition Formatter_sink {W} (ws : write_fn W) (f : formatter) : fmt_sink W :=
  fun w s => run ws (Formatter_std_write_str f s) w.
