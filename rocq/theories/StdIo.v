(** Models of two std byte sinks used behind the io adaptors (std is not in the repository; from
    the documented behaviour of library/std/src/io/impls.rs). *)
From Verif Require Import Base Style Fmt Io.

(** [impl io::Write for Vec<u8>]: every call appends everything; [flush] does nothing. *)
Definition vec_sink : std_io bytes :=
  mk_std_io (fun v b => (v ++ b, IoOk (length b)))
            (fun v => (v, IoOk tt))
            (fun v b => (v ++ b, IoOk tt)).

(** [impl io::Write for &mut [u8]]: the state is what was written so far and the room left.
    [write] takes as much as fits (possibly nothing); [write_all] makes one such [write] and
    fails with kind WriteZero if it was short; [flush] does nothing. *)
Definition slice_full : io_error := mk_error WriteZero 1.
Definition slice_write (s : bytes * nat) (b : bytes) : (bytes * nat) * io_res nat :=
  let n := Nat.min (snd s) (length b) in
  ((fst s ++ firstn n b, snd s - n), IoOk n).
Definition slice_write_all (s : bytes * nat) (b : bytes) : (bytes * nat) * io_res unit :=
  match slice_write s b with
  | (s', IoOk n) => if n =? length b then (s', IoOk tt) else (s', IoErr slice_full)
  | (s', IoErr e) => (s', IoErr e)
  | (s', IoCrash c) => (s', IoCrash c)
  end.
Definition slice_sink : std_io (bytes * nat) :=
  mk_std_io slice_write (fun s => (s, IoOk tt)) slice_write_all.
