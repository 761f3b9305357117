(** Specification: how many calls on the sink writes may take. *)
From Verif Require Import Base Style SpecText SpecSgr.

(** A write that changes the style: nothing, one call for a reset, or two calls for each attribute
    and one to end the sequence. *)
Definition ansi_change_calls (cur st : style) : nat :=
  match attributes_changed cur st with
  | 0 => 0
  | k => if Nat.eqb (attributes_changed style_default st) 0 then 1 else 2 * k + 1
  end.
Fixpoint ansi_calls (cur : style) (h : history) : nat :=
  match h with
  | [] => 0
  | ([], _) :: r => ansi_calls cur r
  | (_ :: _, st) :: r => ansi_change_calls cur st + 1 + ansi_calls st r
  end.

(** The closing tag, and the opening tag with its attributes. *)
Definition html_change_calls (cur st : style) : nat :=
  match attributes_changed cur st with
  | 0 => 0
  | _ => (if Nat.eqb (attributes_changed style_default cur) 0 then 0 else 1) +
         (match attributes_changed style_default st with 0 => 0 | k => 2 * k + 1 end)
  end.
(** Characters that are escaped. *)
Definition specials (s : str) : nat := length (filter (fun c => existsb (N.eqb c) [34; 38; 39; 60; 62]%N) s).
Fixpoint html_calls (cur : style) (h : history) : nat :=
  match h with
  | [] => 0
  | ([], _) :: r => html_calls cur r
  | (s, st) :: r => html_change_calls cur st + 1 + 2 * specials s + html_calls st r
  end.
(** Writes that write something. *)
Definition real_writes (h : history) : nat := length (filter (fun w => match fst w with [] => false | _ => true end) h).
