(** Specification: lines of text, and lines of output looked at on their own (what grep, head,
    tail, sort ... show of colored output). *)
From Verif Require Import Base Style SpecText SpecTerminal SpecHtml.

(** The lines of a list, which elements [nl] separate. *)
Fixpoint split_at {A} (nl : A -> bool) (l : list A) : list (list A) :=
  match l with
  | [] => [[]]
  | x :: r => if nl x then [] :: split_at nl r
              else match split_at nl r with y :: ys => (x :: y) :: ys | [] => [[x]] end
  end.
Definition newline : char := 10%N.
Definition is_newline (c : char) : bool := N.eqb c newline.
Definition is_newline_cell (cs : char * style) : bool := is_newline (fst cs).

(** The lines of a stream, and of styled text. *)
Definition lines (s : str) : list str := split_at is_newline s.
Definition styled_lines (t : stext) : list stext := split_at is_newline_cell t.

(** The style in which the newline before line [k] was written; the default one for the first
    line. *)
Definition style_before (t : stext) (k : nat) : style :=
  match k with
  | O => style_default
  | S j => snd (nth j (filter is_newline_cell t) (newline, style_default))
  end.

(** The line up to and with a character of style [st] is [p]; the character is shown in rendition
    [r] when the line is sent on its own to a fresh terminal, and the newline before the line was
    in style [before].  An attribute that has not changed since that newline is not shown. *)
Definition attribute_alone {A} (get : style -> A) (before : style) (p : stext) (st r : style) : Prop :=
  (Forall (fun cs => get (snd cs) = get before) p -> get r = get style_default) /\
  (~ Forall (fun cs => get (snd cs) = get before) p -> get r = get st).
Definition shown_alone (before : style) (p : stext) (st r : style) : Prop :=
  attribute_alone foreground before p st r /\
  attribute_alone background before p st r /\
  attribute_alone intens before p st r.

(** Two styles that have some attribute in common which is not the default one. *)
Definition share_attribute (a b : style) : Prop :=
  (foreground a = foreground b /\ foreground a <> ColorDefault) \/
  (background a = background b /\ background a <> ColorDefault) \/
  (intens a = intens b /\ intens a <> Normal).

(** All newlines are in the default style. *)
Definition plain_newlines (t : stext) : Prop :=
  forall c st, In (c, st) t -> c = newline -> st = style_default.

(** Some of the lines, in any order, with repetitions, each ended by a newline. *)
Definition pick {A} (nl : A) (ls : list (list A)) (ks : list nat) : list A :=
  flat_map (fun k => nth k ls [] ++ [nl]) ks.
