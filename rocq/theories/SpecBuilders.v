(** Specification for C85: the layout of a value shown with a Debug placeholder (std::fmt
    documentation of Formatter::debug_struct and its siblings), on one line and, with the '#' flag, on
    several lines. *)
From Coq Require Import ZArith.
From Verif Require Import Base Style Fmt SpecStd StdVal Builders.

(** A text moved four columns to the right: every line after the first starts with four spaces. *)
Definition shift (s : str) : str :=
  flat_map (fun c => if N.eqb c 10 then c :: lit "    " else [c]) s.
(** Items separated by commas. *)
Definition join (items : list str) : str :=
  match items with [] => [] | t :: r => t ++ flat_map (fun t => lit ", " ++ t) r end.
(** One item per line (or more), each followed by a comma. *)
Definition lines (items : list str) : str :=
  flat_map (fun t => lit "    " ++ shift t ++ lit "," ++ [10%N]) items.

Section Leaf.
(** The text of the leaves. *)
Variable leaf : std_display -> str.

Fixpoint one_line (d : dbg) : str :=
  match d with
  | DLeaf v => leaf v
  | DStruct name fields exhaustive =>
      name ++ match map (fun f => fst f ++ lit ": " ++ one_line (snd f)) fields
                    ++ (if exhaustive then [] else [lit ".."]) with
              | [] => []
              | items => lit " { " ++ join items ++ lit " }"
              end
  | DTuple name fields =>
      name ++ match map one_line fields with
              | [] => []
              | [t] => lit "(" ++ t ++ (match name with [] => lit "," | _ => [] end) ++ lit ")"
              | items => lit "(" ++ join items ++ lit ")"
              end
  | DList entries => lit "[" ++ join (map one_line entries) ++ lit "]"
  | DSet entries => lit "{" ++ join (map one_line entries) ++ lit "}"
  | DMap entries =>
      lit "{" ++ join (map (fun e => one_line (fst e) ++ lit ": " ++ one_line (snd e)) entries) ++ lit "}"
  end.

Definition block (open : str) (items : list str) (close : str) : str :=
  match items with [] => open ++ close | _ => open ++ [10%N] ++ lines items ++ close end.
Fixpoint many_lines (d : dbg) : str :=
  match d with
  | DLeaf v => leaf v
  | DStruct name fields exhaustive =>
      let fields := map (fun f => fst f ++ lit ": " ++ many_lines (snd f)) fields in
      if exhaustive then
        match fields with [] => name | _ => name ++ block (lit " {") fields (lit "}") end
      else name ++ lit " {" ++ [10%N] ++ lines fields ++ lit "    .." ++ [10%N] ++ lit "}"
  | DTuple name fields =>
      match map many_lines fields with [] => name | items => name ++ block (lit "(") items (lit ")") end
  | DList entries => block (lit "[") (map many_lines entries) (lit "]")
  | DSet entries => block (lit "{") (map many_lines entries) (lit "}")
  | DMap entries =>
      block (lit "{") (map (fun e => many_lines (fst e) ++ lit ": " ++ many_lines (snd e)) entries) (lit "}")
  end.
End Leaf.

(** The leaves, in the order in which they are shown. *)
Fixpoint leaves (d : dbg) : list std_display :=
  match d with
  | DLeaf v => [v]
  | DStruct _ fields _ => flat_map (fun f => leaves (snd f)) fields
  | DTuple _ l | DList l | DSet l => flat_map leaves l
  | DMap entries => flat_map (fun e => leaves (fst e) ++ leaves (snd e)) entries
  end.
(** What the first of some calls that does not succeed does. *)
Fixpoint first_failure (l : list outcome) : outcome :=
  match l with
  | [] => Returned Ok
  | Returned Ok :: r => first_failure r
  | o :: _ => o
  end.
(** Calls of key and value in turns, as [DebugMap] wants them. *)
Inductive in_turns : list map_call -> Prop :=
  | turns_nil : in_turns []
  | turns_entry k v r : in_turns r -> in_turns (MKey k :: MValue v :: r).
Definition call_code (c : map_call) : sprog := match c with MKey p | MValue p => p end.
