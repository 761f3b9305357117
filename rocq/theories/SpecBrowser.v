(** Specification: what a browser does to the characters of a document before and while showing
    them (HTML, 13.2.3.5 preprocessing the input stream; 13.2.6.4.7 the "in body" insertion mode):
    CR LF and lone CR become LF; NUL in text is dropped.  The viewer of SpecHtml is the rest. *)
From Verif Require Import Base Style SpecText SpecHtml.

Definition CR : char := 13%N.
Definition LF : char := 10%N.

(** Newline normalisation: [after_cr] says that the previous character was a CR, already shown as
    LF. *)
Fixpoint newlines_from (after_cr : bool) (s : str) : str :=
  match s with
  | [] => []
  | c :: r =>
      if N.eqb c CR then LF :: newlines_from true r
      else if (after_cr && N.eqb c LF)%bool then newlines_from false r
      else c :: newlines_from false r
  end.
Definition newlines (s : str) : str := newlines_from false s.

Definition browser_step (p : page) (c : char) : page :=
  match pg_state p with
  | Data => if N.eqb c 0 then p else page_step p c
  | _ => page_step p c
  end.
Definition browser_feed (p : page) (s : str) : page := fold_left browser_step (newlines s) p.

(** The same on styled text: a CR and an LF merge when nothing, not even a style change, is
    between them. *)
Fixpoint newlines_styled (after_cr : option style) (t : stext) : stext :=
  match t with
  | [] => []
  | (c, st) :: r =>
      if N.eqb c CR then (LF, st) :: newlines_styled (Some st) r
      else if (match after_cr with Some st' => style_eqb st' st | None => false end
               && N.eqb c LF)%bool
      then newlines_styled None r
      else (c, st) :: newlines_styled None r
  end.
Definition without_nul (t : stext) : stext := filter (fun cs => negb (N.eqb (fst cs) 0)) t.
Definition browser_text (t : stext) : stext := without_nul (newlines_styled None t).
