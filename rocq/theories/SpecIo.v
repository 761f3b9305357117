(** Specification vocabulary for io sinks: logs of calls, what was delivered, and the contract
    of [std::io::Write]. *)
From Verif Require Import Base Style Fmt SpecText Io.

(** * Observing a byte writer *)

(** The log of [write] calls: buffer offered, style, result. *)
Notation iolog := (list (bytes * style * io_res nat)).
Definition logged_io {W} (write : W -> bytes -> style -> W * io_res nat)
  : W * iolog -> bytes -> style -> (W * iolog) * io_res nat :=
  fun wl b st => let (w', r) := write (fst wl) b st in ((w', snd wl ++ [(b, st, r)]), r).

(** The bytes the sink said it accepted: [Ok(n)] means the first [n] bytes offered. *)
Definition taken (e : bytes * style * io_res nat) : bytes :=
  match e with (b, _, IoOk n) => firstn n b | _ => [] end.
Definition delivered (l : iolog) : bytes := flat_map taken l.

(** One call after which writing goes on: some bytes were accepted, or it was interrupted. *)
Definition goes_on (e : bytes * style * io_res nat) : Prop :=
  match e with
  | (b, _, IoOk n) => 1 <= n <= length b
  | (_, _, IoErr err) => err_kind err = Interrupted
  | (_, _, IoCrash _) => False
  end.

(** [offers buf l]: each call of the log offers exactly what of [buf] was not yet delivered. *)
Inductive offers (st : style) : bytes -> iolog -> Prop :=
  | of_nil buf : offers st buf []
  | of_call buf r l : buf <> [] ->
      offers st (skipn (length (taken (buf, st, r))) buf) l -> offers st buf ((buf, st, r) :: l).

(** The number of interrupted calls. *)
Fixpoint interruptions (l : iolog) : nat :=
  match l with
  | [] => 0
  | (_, _, IoErr e) :: r => (if is_interrupted e then 1 else 0) + interruptions r
  | _ :: r => interruptions r
  end.

(** A writer does not interrupt forever: offering [buf] again and again from state [w] gets an
    answer other than Interrupted after finitely many calls. *)
Inductive settles {W} (write : W -> bytes -> style -> W * io_res nat) (buf : bytes) (st : style)
  : W -> Prop :=
  | se_now w : (forall e, snd (write w buf st) = IoErr e -> err_kind e <> Interrupted) ->
      settles write buf st w
  | se_later w : settles write buf st (fst (write w buf st)) -> settles write buf st w.

(** * The contract of [std::io::Write]

    [held s] is what the sink in state [s] has received so far. *)
Definition extended (held held' : bytes) (b : bytes) : Prop := held' = held ++ b.
Definition is_prefix {A} (a b : list A) : Prop := exists r, b = a ++ r.

Record honest {S} (sink : std_io S) (held : S -> bytes) : Prop := mk_honest {
  (* [write]: Ok(n) accepts exactly the first n bytes, an error none *)
  ho_write_ok : forall s b s' n, si_write sink s b = (s', IoOk n) ->
    n <= length b /\ held s' = held s ++ firstn n b;
  ho_write_err : forall s b s' e, si_write sink s b = (s', IoErr e) -> held s' = held s;
  (* [write_all]: Ok accepts everything, an error (never Interrupted) a prefix *)
  ho_all_ok : forall s b s', si_write_all sink s b = (s', IoOk tt) -> held s' = held s ++ b;
  ho_all_err : forall s b s' e, si_write_all sink s b = (s', IoErr e) ->
    err_kind e <> Interrupted /\ exists p, is_prefix p b /\ held s' = held s ++ p;
  ho_flush : forall s s' r, si_flush sink s = (s', r) -> held s' = held s
}.

(** The provided [std::io::Write::write_all]: the same loop without a style.  Sinks that do not
    override it are of the form [std_default write flush]. *)
Fixpoint std_write_all {S} (fuel : nat) (write : S -> bytes -> S * io_res nat) (s : S)
  (buf : bytes) : S * io_res unit :=
  match buf with
  | [] => (s, IoOk tt)
  | _ :: _ =>
      match fuel with
      | O => (s, IoCrash Diverge)
      | Datatypes.S fuel' =>
          match write s buf with
          | (s', IoOk 0) => (s', IoErr write_zero_error)
          | (s', IoOk n) => if n <=? length buf then std_write_all fuel' write s' (skipn n buf)
                            else (s', IoCrash Panic)
          | (s', IoErr e) => if is_interrupted e then std_write_all fuel' write s' buf
                             else (s', IoErr e)
          | (s', IoCrash c) => (s', IoCrash c)
          end
      end
  end.
Definition std_default {S} (fuel : nat) (write : S -> bytes -> S * io_res nat)
  (flush : S -> S * io_res unit) : std_io S :=
  mk_std_io write flush (std_write_all fuel write).

(** A test sink: what it received, and a schedule of answers ([inl n]: accept up to [n] bytes;
    [inr e]: fail with [e]); afterwards it accepts everything. *)
Notation schedule := (list (nat + io_error)).
Definition scripted_write (s : bytes * schedule) (b : bytes) : (bytes * schedule) * io_res nat :=
  match snd s with
  | [] => ((fst s ++ b, []), IoOk (length b))
  | inl n :: r => ((fst s ++ firstn n b, r), IoOk (Nat.min n (length b)))
  | inr e :: r => ((fst s, r), IoErr e)
  end.
Definition scripted (fuel : nat) : std_io (bytes * schedule) :=
  std_default fuel scripted_write (fun s => (s, IoOk tt)).

(** * Observing [write_all] calls of formatting code *)
Notation alllog := (list (bytes * style * io_res unit)).
Definition logged_all {W} (write_all : W -> bytes -> style -> W * io_res unit)
  : W * alllog -> bytes -> style -> (W * alllog) * io_res unit :=
  fun wl b st => let (w', r) := write_all (fst wl) b st in ((w', snd wl ++ [(b, st, r)]), r).
(** The last error in a log. *)
Definition last_error (l : alllog) : option io_error :=
  fold_left (fun acc e => match e with (_, _, IoErr err) => Some err | _ => acc end) l None.
Definition all_delivered (l : alllog) : Prop := Forall (fun e => snd e = IoOk tt) l.

(** Sinks whose [write_all] does not fail after having delivered everything. *)
Definition stops_short {S} (sink : std_io S) (held : S -> bytes) : Prop :=
  forall s b s' e, si_write_all sink s b = (s', IoErr e) -> b <> [] ->
    exists p q, b = p ++ q /\ q <> [] /\ held s' = held s ++ p.
