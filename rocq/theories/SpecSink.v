(** Specification vocabulary for sinks: observing the calls made on a sink, and a sink that
    refuses some calls. *)
From Verif Require Import Base Style Fmt SpecText.

(** Any sink, with a log of the calls made on it and their results. *)
Notation log := (list (str * outcome)).
Definition logged {S} (sink : fmt_sink S) : fmt_sink (S * log) :=
  fun sl s => let (i, r) := sink (fst sl) s in ((i, snd sl ++ [(s, r)]), r).

(** A sink in state [i] with an empty log. *)
Definition start {S} (i : S) : S * log := (i, []).

(** All logged calls succeeded. *)
Definition all_ok (l : log) : Prop := Forall (fun e => snd e = Returned Ok) l.

(** Only the last logged call did not succeed, and its outcome was [o]. *)
Definition stopped_with (o : outcome) (l : log) : Prop :=
  o <> Returned Ok /\ exists l0 s, l = l0 ++ [(s, o)] /\ all_ok l0.

(** What an adaptor promises on an arbitrary sink, where [full] are the calls it makes on a
    sink that never fails and [made] those it made: the calls are made in the same order and
    none is skipped; the outcome is success exactly when all calls were made and succeeded; and
    any other outcome is that of the last call made, all earlier ones having succeeded. *)
Definition failure_contract (full made : log) (o : outcome) : Prop :=
  (exists rest, map fst full = map fst made ++ rest) /\
  (o = Returned Ok <-> all_ok made /\ map fst made = map fst full) /\
  (forall bad, bad <> Returned Ok -> (o = bad <-> stopped_with bad made)).

(** A sink that appends to a string when the schedule says success (or is exhausted) and
    otherwise accepts nothing and ends the call as scheduled. *)
Definition flaky : fmt_sink (str * list outcome) :=
  fun st s =>
    match snd st with
    | [] => (@pair str (list outcome) (fst st ++ s) [], Returned Ok)
    | Returned Ok :: r => (@pair str (list outcome) (fst st ++ s) r, Returned Ok)
    | o :: r => (@pair str (list outcome) (fst st) r, o)
    end.

(** Sinks that keep what they are given: [held] is what has arrived so far; a successful call
    delivers all of its text, any other call some prefix of it. *)
Definition honest_fmt {S} (sink : fmt_sink S) (held : S -> str) : Prop :=
  forall i s i' o, sink i s = (i', o) ->
    match o with
    | Returned Ok => held i' = held i ++ s
    | _ => exists p q, s = p ++ q /\ held i' = held i ++ p
    end.

(** Sinks that take a call's text entirely or, when the call does not succeed, not at all. *)
Definition atomic_fmt {S} (sink : fmt_sink S) (held : S -> str) : Prop :=
  forall i s i' o, sink i s = (i', o) ->
    match o with
    | Returned Ok => held i' = held i ++ s
    | _ => held i' = held i
    end.

(** A writer and the very same write repeated until it succeeds (an error or a panic caught by
    the caller does not stop the repetition). *)
Inductive repeated_write {W} (ws : write_fn W) (s : str) (st : style) : W -> W -> Prop :=
  | rw_done w w' : ws w s st = (w', Returned Ok) -> repeated_write ws s st w w'
  | rw_again w w1 w' o : ws w s st = (w1, o) -> o <> Returned Ok ->
      repeated_write ws s st w1 w' -> repeated_write ws s st w w'.

(** Any writer, with a log of the styled writes made on it. *)
Notation wlog := (list (str * style * outcome)).
Definition watched {W} (ws : write_fn W) : write_fn (W * wlog) :=
  fun wl s st => let (w', o) := ws (fst wl) s st in ((w', snd wl ++ [(s, st, o)]), o).

(** All watched writes succeeded. *)
Definition w_all_ok (l : wlog) : Prop := Forall (fun e => snd e = Returned Ok) l.
