(** Model of core/src/io.rs, plain/src/io.rs and ansi/src/io.rs. *)
From Verif Require Import Base Style Fmt Ansi.

(** [std::io::ErrorKind]: the kinds the code mentions, and any other. *)
Inductive error_kind := Interrupted | WriteZero | OtherError | Kind (n : N).

(** [std::io::Error]: a kind and an opaque payload (to tell errors apart). *)
Record io_error := mk_error { err_kind : error_kind; err_payload : N }.

(** Outcome of a call returning [io::Result<A>]. *)
Inductive io_res (A : Type) := IoOk (a : A) | IoErr (e : io_error) | IoCrash (c : crash).
Arguments IoOk {A} a.
Arguments IoErr {A} e.
Arguments IoCrash {A} c.

(** [e.kind() == ErrorKind::Interrupted]. *)
Definition is_interrupted (e : io_error) : bool :=
  match err_kind e with Interrupted => true | _ => false end.

(** The three methods of [std::io::Write] the code calls, as a dictionary: sinks are
    arbitrary state machines and may override [write_all]. *)
Record std_io (S : Type) := mk_std_io {
  si_write : S -> bytes -> S * io_res nat;
  si_flush : S -> S * io_res unit;
  si_write_all : S -> bytes -> S * io_res unit
}.
Arguments mk_std_io {S} _ _ _.
Arguments si_write {S} _.
Arguments si_flush {S} _.
Arguments si_write_all {S} _.

(** core/src/io.rs:69-252 [trait Write], as a dictionary with all overridable methods. *)
Record IoWrite (W : Type) := mk_IoWrite {
  io_write : W -> bytes -> style -> W * io_res nat;
  io_flush : W -> W * io_res unit;
  io_write_all : W -> bytes -> style -> W * io_res unit;
  io_write_fmt : W -> arguments -> W * io_res unit
}.
Arguments mk_IoWrite {W} _ _ _ _.
Arguments io_write {W} _.
Arguments io_flush {W} _.
Arguments io_write_all {W} _.
Arguments io_write_fmt {W} _.

(** core/src/io.rs:179-182, the error for a zero-length write. *)
Definition write_zero_error : io_error := mk_error WriteZero 0.

(** core/src/io.rs:21, the error when formatting fails without an I/O error. *)
Definition formatter_error : io_error := mk_error OtherError 0.

(** core/src/io.rs:175-190 provided method [write_all].  The [while] loop takes fuel; running
    out is [IoCrash Diverge].  [&buf[n..]] (line 184) panics when [n] exceeds the length. *)
Fixpoint default_write_all {W} (fuel : nat) (write : W -> bytes -> style -> W * io_res nat)
  (w : W) (buf : bytes) (st : style) : W * io_res unit :=
  match buf with
  | [] => (w, IoOk tt)
  | _ :: _ =>
      match fuel with
      | O => (w, IoCrash Diverge)
      | S fuel' =>
          match write w buf st with
          | (w', IoOk n) =>
              match n with
              | O => (w', IoErr write_zero_error)
              | S _ =>
                  if n <=? length buf then default_write_all fuel' write w' (skipn n buf) st
                  else (w', IoCrash Panic)
              end
          | (w', IoErr e) =>
              if is_interrupted e then default_write_all fuel' write w' buf st
              else (w', IoErr e)
          | (w', IoCrash c) => (w', IoCrash c)
          end
      end
  end.

(** core/src/io.rs:8-11 [struct ErrorTrap]. *)
Record error_trap (W : Type) := mk_trap { et_inner : W; et_error : option io_error }.
Arguments mk_trap {W} _ _.
Arguments et_inner {W} _.
Arguments et_error {W} _.

(** core/src/io.rs:14-16 [ErrorTrap::new]. *)
Definition trap_new {W} (inner : W) : error_trap W := mk_trap inner None.

(** core/src/io.rs:18-22 [ErrorTrap::error]. *)
Definition trap_error {W} (t : error_trap W) : io_error :=
  match et_error t with Some e => e | None => formatter_error end.

(** core/src/io.rs:25-35 [crate::Write for ErrorTrap]. *)
Definition trap_write_str {W} (write_all : W -> bytes -> style -> W * io_res unit)
  : write_fn (error_trap W) :=
  fun t s st =>
    match write_all (et_inner t) (utf8 s) st with
    | (w, IoOk _) => (mk_trap w (et_error t), Returned Ok)
    | (w, IoErr e) => (mk_trap w (Some e), Returned Err)
    | (w, IoCrash c) => (mk_trap w (et_error t), Crashed c)
    end.

(** core/src/io.rs:218-222 provided method [write_fmt]. *)
Definition default_io_write_fmt {W} (write_all : W -> bytes -> style -> W * io_res unit)
  (w : W) (args : arguments) : W * io_res unit :=
  match default_write_fmt (trap_write_str write_all) (trap_new w) args with
  | (t, Returned Ok) => (et_inner t, IoOk tt)
  | (t, Returned Err) => (et_inner t, IoErr (trap_error t))
  | (t, Crashed c) => (et_inner t, IoCrash c)
  end.

(** core/src/io.rs:254-270 [Write for &mut W]. *)
Definition IoWrite_mut_ref {W} (d : IoWrite W) : IoWrite W :=
  mk_IoWrite (fun w s st => io_write d w s st)
             (fun w => io_flush d w)
             (fun w s st => io_write_all d w s st)
             (fun w args => io_write_fmt d w args).

(** core/src/io.rs:246-251 [by_ref]. *)
Definition by_ref {W} (w : W) : W := w.

(** plain/src/io.rs:19-21 [struct Plain], :25-27 [new], :37-39 [into_inner]. *)
Record io_plain (S : Type) := mk_io_plain { ipl_inner : S }.
Arguments mk_io_plain {S} _.
Arguments ipl_inner {S} _.
Definition io_plain_new {S} (inner : S) : io_plain S := mk_io_plain inner.
Definition io_plain_into_inner {S} (w : io_plain S) : S := ipl_inner w.

(** plain/src/io.rs:42-54 [Write for Plain]; [write_fmt] is the provided one. *)
Definition io_plain_write {S} (sink : std_io S) (w : io_plain S) (s : bytes) (_style : style)
  : io_plain S * io_res nat :=
  let (i, r) := si_write sink (ipl_inner w) s in (mk_io_plain i, r).
Definition io_plain_flush {S} (sink : std_io S) (w : io_plain S) : io_plain S * io_res unit :=
  let (i, r) := si_flush sink (ipl_inner w) in (mk_io_plain i, r).
Definition io_plain_write_all {S} (sink : std_io S) (w : io_plain S) (s : bytes)
  (_style : style) : io_plain S * io_res unit :=
  let (i, r) := si_write_all sink (ipl_inner w) s in (mk_io_plain i, r).
Definition IoWrite_plain {S} (sink : std_io S) : IoWrite (io_plain S) :=
  mk_IoWrite (io_plain_write sink) (io_plain_flush sink) (io_plain_write_all sink)
    (default_io_write_fmt (io_plain_write_all sink)).

(** ansi/src/io.rs:21-24 [struct Ansi], :28-33 [new]. *)
Record io_ansi (S : Type) := mk_io_ansi { ia_inner : S; ia_current : style }.
Arguments mk_io_ansi {S} _ _.
Arguments ia_inner {S} _.
Arguments ia_current {S} _.
Definition io_ansi_new {S} (inner : S) : io_ansi S := mk_io_ansi inner style_default.

(** A sequence of [inner.write_all(part)?] on ASCII literals. *)
Fixpoint write_all_parts {S} (sink : std_io S) (parts : list str) (s : S)
  : S * io_res unit :=
  match parts with
  | [] => (s, IoOk tt)
  | p :: ps =>
      match si_write_all sink s (utf8 p) with
      | (s', IoOk _) => write_all_parts sink ps s'
      | (s', IoErr e) => (s', IoErr e)
      | (s', IoCrash c) => (s', IoCrash c)
      end
  end.

(** ansi/src/io.rs:57-76: the byte strings written with [write_all], in order, to change from
    [current] to [st] (a second copy of the code in ansi/src/ansi.rs:55-74). *)
Definition io_ansi_change (current st : style) : list str :=
  if negb (style_eqb current st) && style_eqb st style_default then [ansi_reset]
  else
    let diff := diff_from st current in
    let segments := somes
      [ option_map ansi_foreground (d_foreground diff);
        option_map ansi_background (d_background diff);
        option_map ansi_intensity (d_intensity diff) ] in
    match segments with
    | [] => []
    | segment :: rest =>
        ansi_open :: segment :: flat_map (fun segment => [lit ";"; segment]) rest ++ [lit "m"]
    end.

(** ansi/src/io.rs:56-80 [Ansi::write]. *)
Definition io_ansi_write {S} (sink : std_io S) (w : io_ansi S) (s : bytes) (st : style)
  : io_ansi S * io_res nat :=
  match write_all_parts sink (io_ansi_change (ia_current w) st) (ia_inner w) with
  | (i, IoErr e) => (mk_io_ansi i (ia_current w), IoErr e)
  | (i, IoCrash c) => (mk_io_ansi i (ia_current w), IoCrash c)
  | (i, IoOk _) =>
      let (i', r) := si_write sink i s in (mk_io_ansi i' st, r)
  end.

(** ansi/src/io.rs:82-84 [Ansi::flush]. *)
Definition io_ansi_flush {S} (sink : std_io S) (w : io_ansi S) : io_ansi S * io_res unit :=
  let (i, r) := si_flush sink (ia_inner w) in (mk_io_ansi i (ia_current w), r).

(** ansi/src/io.rs:55 uses the provided [write_all] and [write_fmt]. *)
Definition io_ansi_write_all {S} (fuel : nat) (sink : std_io S)
  : io_ansi S -> bytes -> style -> io_ansi S * io_res unit :=
  default_write_all fuel (io_ansi_write sink).
Definition IoWrite_ansi {S} (fuel : nat) (sink : std_io S) : IoWrite (io_ansi S) :=
  mk_IoWrite (io_ansi_write sink) (io_ansi_flush sink) (io_ansi_write_all fuel sink)
    (default_io_write_fmt (io_ansi_write_all fuel sink)).

(** ansi/src/io.rs:45-50 [Ansi::finish]: the sink's state and the result. *)
Definition io_ansi_finish {S} (sink : std_io S) (w : io_ansi S) : S * io_res unit :=
  if negb (style_eqb (ia_current w) style_default)
  then write_all_parts sink [ansi_reset] (ia_inner w)
  else (ia_inner w, IoOk tt).
