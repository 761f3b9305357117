(** Specification: sinks with their own [write_fmt]. *)
From Verif Require Import Base Style Fmt SpecText SpecSgr SpecHtml Overrides.

(** A sink both of whose methods keep what they are given: all of it when they succeed, a prefix otherwise.
    The two may go about it in any way (buffer, count, write the whole text in one piece, fail in different
    places). *)
Definition keeps {S} (held : S -> str) (i : S) (text : str) (res : S * outcome) : Prop :=
  match snd res with
  | Returned Ok => held (fst res) = held i ++ text
  | _ => exists p q, text = p ++ q /\ held (fst res) = held i ++ p
  end.
Definition honest_impl {S} (d : fmt_impl S) (held : S -> str) : Prop :=
  (forall i s, keeps held i s (fi_write_str d i s)) /\
  (forall i parts, keeps held i (concat parts) (fi_write_fmt d i parts)).

(** An implementation for which the two methods mean the same: formatting text in one go is writing it. *)
Definition consistent {S} (d : fmt_impl S) : Prop :=
  forall i parts, fi_write_fmt d i parts = write_parts (fi_write_str d) parts i.

(** A sink that records the calls it gets. *)
Inductive call := CStr (s : str) | CFmt (parts : list str).
Definition recorder : fmt_impl (list call) :=
  mk_impl (fun l s => (l ++ [CStr s], Returned Ok)) (fun l parts => (l ++ [CFmt parts], Returned Ok)).

(** What reached each method. *)
Definition via_str (l : list call) : str :=
  concat (flat_map (fun c => match c with CStr s => [s] | CFmt _ => [] end) l).
Definition via_fmt (l : list call) : list str :=
  flat_map (fun c => match c with CStr _ => [] | CFmt parts => [concat parts] end) l.
Definition all_calls (l : list call) : str :=
  concat (map (fun c => match c with CStr s => s | CFmt parts => concat parts end) l).

(** A sink that does something to the text on its way (upper case, a translation), in [write_fmt] only. *)
Definition rewriting (f : str -> str) : fmt_impl str :=
  mk_impl (fun i s => (i ++ s, Returned Ok)) (fun i parts => (i ++ f (concat parts), Returned Ok)).

(** The texts of the writes that write something. *)
Definition texts (h : history) : list str := filter (fun s => negb (is_empty s)) (map fst h).

(** The same writes with their texts changed by [f]; a write of nothing stays one. *)
Definition retext (f : str -> str) (h : history) : history :=
  map (fun e => (match fst e with [] => [] | _ => f (fst e) end, snd e)) h.
