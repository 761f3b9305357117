(** Models of std's buffered writers, [BufWriter] and [LineWriter] (the writer behind [Stdout]), as sinks
    of the io adaptors (std is not in the repository; from library/std/src/io/buffered/bufwriter.rs and
    linewritershim.rs). *)
From Verif Require Import Base Style Fmt Io.

(** [struct BufWriter]: the destination, the buffer, and whether a panic escaped from the destination.  The
    capacity is a parameter of the methods. *)
Record buf_writer (S : Type) := mk_bw { bw_inner : S; bw_buf : bytes; bw_panicked : bool }.
Arguments mk_bw {S} _ _ _.
Arguments bw_inner {S} _.
Arguments bw_buf {S} _.
Arguments bw_panicked {S} _.

(** [BufWriter::with_capacity]. *)
Definition bw_new {S} (inner : S) : buf_writer S := mk_bw inner [] false.

(** The error of [flush_buf] when the destination accepts nothing. *)
Definition bw_zero_error : io_error := mk_error WriteZero 2.

(** The newline byte, and the position after its last occurrence ([memrchr] plus one). *)
Definition newline : N := 10%N.
Fixpoint lines_end (b : bytes) : option nat :=
  match b with
  | [] => None
  | x :: r =>
      match lines_end r with
      | Some n => Some (Datatypes.S n)
      | None => if N.eqb x newline then Some 1 else None
      end
  end.

Section Buffered.
Context {S : Type}.
Variable fuel : nat.
Variable inner : std_io S.
Variable cap : nat.

(** [BufWriter::flush_buf]: the loop (with fuel), the removal of what was written by the guard's [drop]
    (which panics when the destination claims to have taken more than it was offered). *)
Fixpoint bw_flush_loop (n : nat) (w : buf_writer S) : buf_writer S * io_res unit :=
  match bw_buf w with
  | [] => (w, IoOk tt)
  | _ :: _ =>
      match n with
      | O => (w, IoCrash Diverge)
      | Datatypes.S n' =>
          match si_write inner (bw_inner w) (bw_buf w) with
          | (i, IoOk 0) => (mk_bw i (bw_buf w) (bw_panicked w), IoErr bw_zero_error)
          | (i, IoOk k) =>
              if k <=? length (bw_buf w)
              then bw_flush_loop n' (mk_bw i (skipn k (bw_buf w)) (bw_panicked w))
              else (mk_bw i (bw_buf w) (bw_panicked w), IoCrash Panic)
          | (i, IoErr e) =>
              if is_interrupted e then bw_flush_loop n' (mk_bw i (bw_buf w) (bw_panicked w))
              else (mk_bw i (bw_buf w) (bw_panicked w), IoErr e)
          | (i, IoCrash c) => (mk_bw i (bw_buf w) true, IoCrash c)
          end
      end
  end.
Definition bw_flush_buf : buf_writer S -> buf_writer S * io_res unit := bw_flush_loop fuel.

(** [spare_capacity], and appending to the buffer. *)
Definition bw_spare (w : buf_writer S) : nat := cap - length (bw_buf w).
Definition bw_push (w : buf_writer S) (b : bytes) : buf_writer S :=
  mk_bw (bw_inner w) (bw_buf w ++ b) (bw_panicked w).

(** [impl Write for BufWriter]: [write] (with [write_cold]), [write_all] (with [write_all_cold]) and
    [flush]. *)
Definition bw_write (w : buf_writer S) (b : bytes) : buf_writer S * io_res nat :=
  if length b <? bw_spare w then (bw_push w b, IoOk (length b))
  else
    match (if bw_spare w <? length b then bw_flush_buf w else (w, IoOk tt)) with
    | (w1, IoOk _) =>
        if cap <=? length b then
          match si_write inner (bw_inner w1) b with
          | (i, IoCrash c) => (mk_bw i (bw_buf w1) true, IoCrash c)
          | (i, r) => (mk_bw i (bw_buf w1) (bw_panicked w1), r)
          end
        else (bw_push w1 b, IoOk (length b))
    | (w1, IoErr e) => (w1, IoErr e)
    | (w1, IoCrash c) => (w1, IoCrash c)
    end.
Definition bw_write_all (w : buf_writer S) (b : bytes) : buf_writer S * io_res unit :=
  if length b <? bw_spare w then (bw_push w b, IoOk tt)
  else
    match (if bw_spare w <? length b then bw_flush_buf w else (w, IoOk tt)) with
    | (w1, IoOk _) =>
        if cap <=? length b then
          match si_write_all inner (bw_inner w1) b with
          | (i, IoCrash c) => (mk_bw i (bw_buf w1) true, IoCrash c)
          | (i, r) => (mk_bw i (bw_buf w1) (bw_panicked w1), r)
          end
        else (bw_push w1 b, IoOk tt)
    | r => r
    end.
Definition bw_flush (w : buf_writer S) : buf_writer S * io_res unit :=
  match bw_flush_buf w with
  | (w1, IoOk _) =>
      let (i, r) := si_flush inner (bw_inner w1) in (mk_bw i (bw_buf w1) (bw_panicked w1), r)
  | r => r
  end.
Definition buf_sink : std_io (buf_writer S) := mk_std_io bw_write bw_flush bw_write_all.

(** [impl Drop for BufWriter] and [into_inner]: both flush the buffer (not the destination); the first
    ignores the result, and does nothing after a panic of the destination. *)
Definition bw_drop (w : buf_writer S) : S :=
  if bw_panicked w then bw_inner w else bw_inner (fst (bw_flush_buf w)).
Definition bw_into_inner (w : buf_writer S) : S * io_res unit :=
  let (w1, r) := bw_flush_buf w in (bw_inner w1, r).

(** [LineWriterShim]: [flush_if_completed_line]. *)
Definition lw_flush_completed (w : buf_writer S) : buf_writer S * io_res unit :=
  if N.eqb (last (bw_buf w) 0%N) newline then bw_flush_buf w else (w, IoOk tt).

(** [LineWriterShim::write].  Newer versions of std ([newer]) do not begin to buffer a last line that
    would not fit into the buffer. *)
Definition lw_write (newer : bool) (w : buf_writer S) (b : bytes) : buf_writer S * io_res nat :=
  match lines_end b with
  | None =>
      match lw_flush_completed w with
      | (w1, IoOk _) => bw_write w1 b
      | (w1, IoErr e) => (w1, IoErr e)
      | (w1, IoCrash c) => (w1, IoCrash c)
      end
  | Some e =>
      match bw_flush_buf w with
      | (w1, IoOk _) =>
          match si_write inner (bw_inner w1) (firstn e b) with
          | (i, IoOk 0) => (mk_bw i (bw_buf w1) (bw_panicked w1), IoOk 0)
          | (i, IoOk flushed) =>
              let w2 := mk_bw i (bw_buf w1) (bw_panicked w1) in
              if length b <? flushed then (w2, IoCrash Panic)
              else
                let rest := skipn flushed b in
                if e <=? flushed then
                  if newer && (cap <=? length rest) then (w2, IoOk flushed)
                  else
                    let kept := firstn (bw_spare w2) rest in
                    (bw_push w2 kept, IoOk (flushed + length kept))
                else
                  let tail :=
                    if e - flushed <=? cap then firstn (e - flushed) rest
                    else
                      let scan_area := firstn cap rest in
                      match lines_end scan_area with
                      | Some k => firstn k scan_area
                      | None => scan_area
                      end in
                  let kept := firstn (bw_spare w2) tail in
                  (bw_push w2 kept, IoOk (flushed + length kept))
          | (i, IoErr e) => (mk_bw i (bw_buf w1) (bw_panicked w1), IoErr e)
          | (i, IoCrash c) => (mk_bw i (bw_buf w1) (bw_panicked w1), IoCrash c)
          end
      | (w1, IoErr e) => (w1, IoErr e)
      | (w1, IoCrash c) => (w1, IoCrash c)
      end
  end.

(** [LineWriterShim::write_all]. *)
Definition lw_write_all (w : buf_writer S) (b : bytes) : buf_writer S * io_res unit :=
  match lines_end b with
  | None =>
      match lw_flush_completed w with
      | (w1, IoOk _) => bw_write_all w1 b
      | r => r
      end
  | Some e =>
      match
        (match bw_buf w with
         | [] =>
             let (i, r) := si_write_all inner (bw_inner w) (firstn e b) in
             (mk_bw i (bw_buf w) (bw_panicked w), r)
         | _ :: _ =>
             match bw_write_all w (firstn e b) with
             | (w1, IoOk _) => bw_flush_buf w1
             | r => r
             end
         end)
      with
      | (w1, IoOk _) => bw_write_all w1 (skipn e b)
      | r => r
      end
  end.
Definition line_sink (newer : bool) : std_io (buf_writer S) :=
  mk_std_io (lw_write newer) bw_flush lw_write_all.
End Buffered.
