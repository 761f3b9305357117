(** Specification vocabulary: styled text, write histories, and what a piece of user code
    writes when every write succeeds.  Nothing here refers to an output backend. *)
From Verif Require Import Base Style Fmt.

(** Styled text: each character with the style it is to be shown in. *)
Definition cell := (char * style)%type.
Definition stext := list cell.

(** A run of characters in one style. *)
Definition paint (st : style) (s : str) : stext := map (fun c => (c, st)) s.

(** A history of styled writes, oldest first. *)
Definition history := list (str * style).

(** The styled text a history stands for. *)
Fixpoint denote (h : history) : stext :=
  match h with
  | [] => []
  | (s, st) :: r => paint st s ++ denote r
  end.

(** The characters alone, and the text of a history. *)
Definition chars (t : stext) : str := map fst t.
Definition text_of (h : history) : str := concat (map fst h).

(** The style of the last character, [cur] when there is none. *)
Fixpoint last_style (cur : style) (t : stext) : style :=
  match t with
  | [] => cur
  | (_, st) :: r => last_style st r
  end.

(** A user making the writes of a history one after the other, stopping at the first one that
    does not return [Ok]. *)
Fixpoint play {W} (ws : write_fn W) (h : history) (w : W) : W * outcome :=
  match h with
  | [] => (w, Returned Ok)
  | (s, st) :: r =>
      match ws w s st with
      | (w', Returned Ok) => play ws r w'
      | (w', o) => (w', o)
      end
  end.

(** The writes that code makes when every write returns [Ok], and how it then ends. *)
Fixpoint ok_events (p : wprog) : history :=
  match p with
  | Ret _ | Abort _ => []
  | Emit s st k => (s, st) :: ok_events (k Ok)
  end.
Fixpoint ok_outcome (p : wprog) : outcome :=
  match p with
  | Ret r => Returned r
  | Abort c => Crashed c
  | Emit _ _ k => ok_outcome (k Ok)
  end.

(** The styled text that code produces. *)
Definition produces (p : wprog) : stext := denote (ok_events p).

(** A writer that accepts every write. *)
Definition infallible {W} (ws : write_fn W) : Prop :=
  forall w s st, snd (ws w s st) = Returned Ok.

(** Code that stops with [Err] as soon as a write returns [Err] (the usual question-mark
    style). *)
Fixpoint propagates (p : wprog) : Prop :=
  match p with
  | Ret _ | Abort _ => True
  | Emit _ _ k => k Err = Ret Err /\ propagates (k Ok)
  end.

(** Equality of code up to the identity of continuations: same writes, same reactions. *)
Inductive same_prog : wprog -> wprog -> Prop :=
  | same_ret r : same_prog (Ret r) (Ret r)
  | same_abort c : same_prog (Abort c) (Abort c)
  | same_emit s st k1 k2 :
      (forall r, same_prog (k1 r) (k2 r)) -> same_prog (Emit s st k1) (Emit s st k2).

(** Maximal runs of equally styled characters. *)
Fixpoint runs (t : stext) : list (style * str) :=
  match t with
  | [] => []
  | (c, st) :: r =>
      match runs r with
      | (st', s) :: l => if style_eqb st st' then (st, c :: s) :: l
                         else (st, [c]) :: (st', s) :: l
      | [] => [(st, [c])]
      end
  end.

(** Code that never panics, whatever its writes return. *)
Fixpoint never_aborts (p : wprog) : Prop :=
  match p with
  | Ret _ => True
  | Abort _ => False
  | Emit _ _ k => forall r, never_aborts (k r)
  end.

(** Neighbours differ. *)
Fixpoint neighbours_differ {A} (l : list A) : Prop :=
  match l with
  | x :: ((y :: _) as r) => x <> y /\ neighbours_differ r
  | _ => True
  end.
