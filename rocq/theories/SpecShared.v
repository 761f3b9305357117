(** Specification: several adaptors that write to one place, as their users see them. *)
From Verif Require Import Base Style SpecText SpecHtml SpecAmbient Shared.

(** What was written, in the order it was written, whoever wrote it. *)
Definition written (es : list event) : history :=
  flat_map (fun e => match e with Puts _ s st => [(s, st)] | Finishes _ => [] end) es.

(** The style of the last character adaptor [k] wrote; the default style if there is none or the
    adaptor was finished since. *)
Definition own_step (k : nat) (st0 : style) (e : event) : style :=
  match e with
  | Puts j s st => if Nat.eqb j k then match s with [] => st0 | _ :: _ => st end else st0
  | Finishes j => if Nat.eqb j k then style_default else st0
  end.
Definition own (k : nat) (es : list event) : style := fold_left (own_step k) es style_default.

(** The style in force on the terminal after [es] if everything so far is shown right: that of the last
    character, or the default style if an adaptor that was not in it was finished since. *)
Fixpoint in_force_from (before : list event) (st0 : style) (es : list event) : style :=
  match es with
  | [] => st0
  | e :: r =>
      in_force_from (before ++ [e])
        (match e with
         | Puts _ [] _ => st0
         | Puts _ (_ :: _) st => st
         | Finishes k => if style_eqb (own k before) style_default then st0 else style_default
         end) r
  end.
Definition in_force (es : list event) : style := in_force_from [] style_default es.

(** An adaptor that last wrote in style [own] writes in style [st], with [force] in force on the
    terminal: every attribute it does not change already is what it should be. (The change to the
    default style resets everything.) *)
Definition takes_effect (force own st : style) : Prop :=
  (st = style_default /\ own <> style_default) \/
  ((foreground st = foreground own -> foreground force = foreground st) /\
   (background st = background own -> background force = background st) /\
   (intens st = intens own -> intens force = intens st)).

(** Taking turns: an adaptor is only used while all others are in the default style. *)
Definition taking_turns (es : list event) : Prop :=
  forall before e after, es = before ++ e :: after ->
  forall j, j <> who e -> own j before = style_default.

(** All adaptors are finished, or have last written in the default style. *)
Definition all_back (es : list event) : Prop := forall k, own k es = style_default.

(** * HTML: the open elements *)

(** A style change by an adaptor in style [own] to style [st]: it closes an element if it believes
    that it has one open (the innermost one, whoever opened it), and opens one unless [st] is the
    default style. *)
Definition nest_step (own st : style) (open : list style) : list style :=
  if style_eqb own st then open
  else
    let rest := if style_eqb own style_default then open else tl open in
    if style_eqb st style_default then rest else st :: rest.

(** How text looks inside these elements, innermost first. *)
Fixpoint look_nested (open : list style) : css :=
  match open with [] => css_page | st :: r => look_within (look_nested r) st end.

(** The open elements and the characters shown. *)
Fixpoint nested_from (before : list event) (p : list style * list (char * css)) (es : list event) :
  list style * list (char * css) :=
  match es with
  | [] => p
  | e :: r =>
      nested_from (before ++ [e])
        (match e with
         | Puts _ [] _ => p
         | Puts k ((_ :: _) as s) st =>
             let open := nest_step (own k before) st (fst p) in
             (open, snd p ++ map (fun c => (c, look_nested open)) s)
         | Finishes k => (nest_step (own k before) style_default (fst p), snd p)
         end) r
  end.
Definition nested (es : list event) : list style * list (char * css) := nested_from [] ([], []) es.

(** How many of the first [n] adaptors are in a style other than the default one. *)
Definition styled (n : nat) (es : list event) : nat :=
  length (filter (fun k => negb (style_eqb (own k es) style_default)) (seq 0 n)).
