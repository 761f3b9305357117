(** Specification vocabulary: std's buffered writers between an io adaptor and its destination. *)
From Verif Require Import Base Style Fmt Io SpecIo Buffered.

(** [BufWriter], or [LineWriter] of an older or newer std. *)
Inductive buffering := Blocks | Lines (newer : bool).
Definition buffered {S} (k : buffering) (fuel : nat) (inner : std_io S) (cap : nat) : std_io (buf_writer S) :=
  match k with
  | Blocks => buf_sink fuel inner cap
  | Lines newer => line_sink fuel inner cap newer
  end.

(** What has reached the destination, and everything the buffered writer was given: that, then what is
    still in the buffer. *)
Definition reached {S} (held : S -> bytes) (w : buf_writer S) : bytes := held (bw_inner w).
Definition given {S} (held : S -> bytes) (w : buf_writer S) : bytes := held (bw_inner w) ++ bw_buf w.

(** A write that panics has delivered nothing. *)
Definition panics_clean {S} (sink : std_io S) (held : S -> bytes) : Prop :=
  forall s b s' c, si_write sink s b = (s', IoCrash c) -> held s' = held s.

(** A destination that takes all it is offered, or fails. *)
Definition takes_all {S} (sink : std_io S) : Prop :=
  forall s b s' n, si_write sink s b = (s', IoOk n) -> n = length b.
