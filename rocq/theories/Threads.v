(** Model of threads that each have an Ansi (or Html) adaptor of their own on a handle to one shared place that
    locks for each call made on it (such as [std::io::stdout()] or an [Arc<Mutex<_>>]): what is
    atomic is a call of the adaptor on its handle, not a call on the adaptor. *)
From Verif Require Import Base Style Fmt Ansi Html Io.

(** What a thread does with its adaptor: write a text in a style, or finish it (and go on with a new
    adaptor on the handle). *)
Inductive op :=
  | Put (s : str) (st : style)
  | Done.

(** A sink that accepts everything and remembers the calls made on it. *)
Definition recorder : fmt_sink (list str) := fun calls s => (calls ++ [s], Returned Ok).

(** One operation of a thread: ansi/src/ansi.rs:49-80 [write_str], :41-46 [finish], :24-29 [new]. *)
Definition thread_step (w : ansi (list str)) (o : op) : ansi (list str) :=
  match o with
  | Put s st => fst (ansi_write_str recorder w s st)
  | Done => ansi_new (fst (ansi_finish recorder w))
  end.
(** The calls a thread makes on its handle, in order. *)
Definition sink_calls (ops : list op) : list str := an_inner (fold_left thread_step ops (ansi_new [])).

(** The same for io::Ansi: a std writer whose [write] and [write_all] take everything. *)
Definition io_recorder : std_io (list bytes) :=
  mk_std_io (fun calls b => (calls ++ [b], IoOk (length b)))
            (fun calls => (calls, IoOk tt))
            (fun calls b => (calls ++ [b], IoOk tt)).
(** ansi/src/io.rs:56-80 through the provided [write_all] (core/src/io.rs:176-190), :45-50 [finish], :28-33 [new]. *)
Definition io_thread_step (w : io_ansi (list bytes)) (o : op) : io_ansi (list bytes) :=
  match o with
  | Put s st => fst (io_write_all (IoWrite_ansi 1 io_recorder) w (utf8 s) st)
  | Done => io_ansi_new (fst (io_ansi_finish io_recorder w))
  end.
Definition io_sink_calls (ops : list op) : list bytes := ia_inner (fold_left io_thread_step ops (io_ansi_new [])).

(** The same for Html: html/src/html.rs:53-90 [write_str], :45-50 [finish], :28-33 [new]. *)
Definition html_thread_step (w : html (list str)) (o : op) : html (list str) :=
  match o with
  | Put s st => fst (html_write_str recorder w s st)
  | Done => html_new (fst (html_finish recorder w))
  end.
Definition html_sink_calls (ops : list op) : list str := ht_inner (fold_left html_thread_step ops (html_new [])).

(** A schedule: which thread made which call, in the order the shared place received them. *)
Definition schedule := list (nat * str).
Definition by_thread (k : nat) (tr : schedule) : list str :=
  map snd (filter (fun e => Nat.eqb (fst e) k) tr).
(** A schedule of threads that run these programs: every thread makes its calls in its order. *)
Definition scheduled (progs : nat -> list op) (tr : schedule) : Prop :=
  forall k, by_thread k tr = sink_calls (progs k).
Definition html_scheduled (progs : nat -> list op) (tr : schedule) : Prop :=
  forall k, by_thread k tr = html_sink_calls (progs k).
(** What the shared place receives. *)
Definition received (tr : schedule) : str := concat (map snd tr).
