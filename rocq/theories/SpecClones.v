(** Specification: adaptors and their clones, as their users see them. *)
From Verif Require Import Base Style SpecText SpecShared Shared Clones.

(** What was written, in order, whoever wrote it. *)
Definition all_written (es : list cevent) : history :=
  written (flat_map (fun e => match e with Does e => [e] | Clones _ _ => [] end) es).

(** What was written to each adaptor since it was new: a clone has the history of the adaptor it was
    cloned from. *)
Definition histories_step (h : nat -> history) (e : cevent) : nat -> history :=
  fun i =>
    match e with
    | Does (Puts k s st) => if Nat.eqb i k then h k ++ [(s, st)] else h i
    | Does (Finishes k) => if Nat.eqb i k then [] else h i
    | Clones k j => if Nat.eqb i j then h k else h i
    end.
Definition histories (es : list cevent) : nat -> history := fold_left histories_step es (fun _ => []).

(** The style of the last character of each of these histories. *)
Definition style_of (k : nat) (es : list cevent) : style := last_style style_default (denote (histories es k)).

(** The style in force on the terminal after [es] if everything so far is shown right. *)
Fixpoint force_from (before : list cevent) (st0 : style) (es : list cevent) : style :=
  match es with
  | [] => st0
  | e :: r =>
      force_from (before ++ [e])
        (match e with
         | Does (Puts _ [] _) => st0
         | Does (Puts _ (_ :: _) st) => st
         | Does (Finishes k) => if style_eqb (style_of k before) style_default then st0 else style_default
         | Clones _ _ => st0
         end) r
  end.
Definition force (es : list cevent) : style := force_from [] style_default es.

(** All adaptors are finished, or have last written in the default style. *)
Definition everyone_back (es : list cevent) : Prop := forall k, style_of k es = style_default.
(** A clone gets a number that is not that of an adaptor in a style: none is dropped unfinished. *)
Definition none_dropped (es : list cevent) : Prop :=
  forall before k j after, es = before ++ Clones k j :: after -> style_of j before = style_default.
(** A clone was made of an adaptor in a style other than the default one. *)
Definition cloned_in_style (es : list cevent) : Prop :=
  exists before k j after, es = before ++ Clones k j :: after /\ style_of k before <> style_default.
