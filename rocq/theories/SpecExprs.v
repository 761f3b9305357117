(** Specification for C97: which argument expressions a macro takes whole, and what types and
    values the elements of the generated tuples have. *)
From Verif Require Import Base Parse Codegen Macros Exprs.

(** Expressions whose outermost construct is not a binary operator, a range with a left end, an
    assignment or a cast. *)
Definition whole (e : sexpr) : Prop :=
  match e with XBin _ _ _ | XCast _ _ | XFrom _ => False | _ => True end.

(** The expression with a reference taken of its leftmost operand instead of the whole. *)
Fixpoint leftmost_ref (e : sexpr) : sexpr :=
  match e with
  | XBin o l r => XBin o (leftmost_ref l) r
  | XCast l ty => XCast (leftmost_ref l) ty
  | XFrom l => XFrom (leftmost_ref l)
  | e => XRef e
  end.

(** * Types *)
Inductive ty := TyVal (name : str) | TyRef (t : ty).
(** The types of primary expressions and what the operators do with types: arbitrary tables, as
    users may define operators for their own types.  [None]: a type error. *)
Record typing := mk_typing {
  prim_ty : prim -> option ty;
  post_ty : str -> ty -> option ty;
  un_ty : uop -> ty -> option ty;
  low_ty : str -> option ty -> option ty;
  bin_ty : bop -> ty -> ty -> option ty;
  cast_ty : str -> ty -> option ty;
  from_ty : ty -> option ty;
  to_ty : bop -> ty -> option ty;
  full_ty : ty
}.
Fixpoint type_of (T : typing) (e : sexpr) : option ty :=
  match e with
  | XPrim p => prim_ty T p
  | XParen e => type_of T e
  | XPost e p => match type_of T e with Some t => post_ty T p t | None => None end
  | XRef e | XRefMut e => option_map TyRef (type_of T e)
  | XUn u e => match type_of T e with Some t => un_ty T u t | None => None end
  | XLow h e => low_ty T h (type_of T e)
  | XBin o l r =>
      match type_of T l, type_of T r with Some t, Some t' => bin_ty T o t t' | _, _ => None end
  | XCast e c => match type_of T e with Some t => cast_ty T c t | None => None end
  | XFrom e => match type_of T e with Some t => from_ty T t | None => None end
  | XTo o e => match type_of T e with Some t => to_ty T o t | None => None end
  | XFull => Some (full_ty T)
  end.

(** The type of an element of the tuples is right for a placeholder: the std traits' [fmt] takes a
    reference (macros/src/to_tokens.rs:224), the stylish trait's gets a reference to the element
    (macros/src/lib.rs:191). *)
Definition fits (w : wrap) (t : ty) : Prop :=
  match w with WStylish => True | _ => exists t', t = TyRef t' end.
(** rustc accepts the placeholders with these elements in the tuples.  (That the types implement the
    traits is not part of it.) *)
Definition well_typed (T : typing) (pos named : list sexpr) (ss : list stmt) : Prop :=
  forall w p fargs st, In (SFmt w p fargs st) ss ->
    match p with
    | PosArg i => exists e t, nth_error pos i = Some e /\ type_of T e = Some t /\ fits w t
    | NamedArg i => exists e t, nth_error named i = Some e /\ type_of T e = Some t /\ fits w t
    | ImplicitArg _ => True
    end.

(** * Values *)

(** A value, or a reference to one. *)
Inductive tval := Val (v : value_t) | RefTo (t : tval).
Section Meaning.
Variable H : Type.
Definition run := H -> H * option tval.
(** What primary expressions and operators do: arbitrary. *)
Record meanings := mk_meanings {
  prim_run : prim -> run;
  post_run : str -> run -> run;
  un_run : uop -> run -> run;
  low_run : str -> run -> run;
  bin_run : bop -> run -> run -> run;
  cast_run : str -> run -> run;
  from_run : run -> run;
  to_run : bop -> run -> run;
  full_run : run;
  (* how a reference to a value is formatted *)
  ref_value : value_t -> value_t
}.
Fixpoint run_of (M : meanings) (e : sexpr) : run :=
  match e with
  | XPrim p => prim_run M p
  | XParen e => run_of M e
  | XPost e p => post_run M p (run_of M e)
  | XRef e | XRefMut e => fun h => match run_of M e h with (h', Some t) => (h', Some (RefTo t)) | x => x end
  | XUn u e => un_run M u (run_of M e)
  | XLow l e => low_run M l (run_of M e)
  | XBin o l r => bin_run M o (run_of M l) (run_of M r)
  | XCast e c => cast_run M c (run_of M e)
  | XFrom e => from_run M (run_of M e)
  | XTo o e => to_run M o (run_of M e)
  | XFull => full_run M
  end.
Fixpoint value_of (M : meanings) (t : tval) : value_t :=
  match t with Val v => v | RefTo t => ref_value M (value_of M t) end.

(** The argument as the user means it: the expression is evaluated and its value formatted. *)
Definition argument (M : meanings) (e : sexpr) : expr H :=
  fun h => match run_of M e h with (h', Some t) => (h', Some (value_of M t)) | (h', None) => (h', None) end.
(** An element of a generated tuple: it is evaluated, and what it refers to is formatted. *)
Definition element (M : meanings) (e : sexpr) : expr H :=
  fun h => match run_of M e h with
           | (h', Some (RefTo t)) => (h', Some (value_of M t))
           | (h', Some (Val v)) => (h', Some v)
           | (h', None) => (h', None)
           end.
End Meaning.
Arguments run_of {H} M e.
Arguments argument {H} M e.
Arguments element {H} M e.
Arguments value_of {H} M t.
Arguments mk_meanings {H} _ _ _ _ _ _ _ _ _ _.
