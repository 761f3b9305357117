(** Specification: the shape of a call of a formatting macro (as for std's macros):

      call      := format (',' positional)* (',' name '=' expr)* [',']

    Positional arguments first, then named ones, optionally a trailing comma. *)
From Verif Require Import Base Codegen Macros.

(** An expression that is a named argument: an assignment to a path with one segment and no
    generic arguments.  ([:: x] and [<T>::x] are such paths; that these should not name an
    argument is C78.) *)
Inductive names_arg {E} : mexpr E -> str * E -> Prop :=
  | na_intro prefix name v e : names_arg (MAssign (LPath prefix [(name, false)]) v e) (name, v).
Definition positional_arg {E} (m : mexpr E) : Prop := forall n, ~ names_arg m n.

Definition separated {E} (l : list (mexpr E)) : list (tok E) :=
  flat_map (fun m => [TComma; TExpr m]) l.

(** [spelled_call toks format pos named]: the tokens are such a call, whose format string is the
    literal [format]. *)
Inductive spelled_call {E} : list (tok E) -> str -> list E -> list (str * E) -> Prop :=
  | sc_intro format e ps ns named trailing :
      Forall positional_arg ps -> Forall2 names_arg ns named ->
      trailing = [] \/ trailing = [TComma] ->
      spelled_call (TExpr (MStr format e) :: separated (ps ++ ns) ++ trailing)
        format (map expr_value ps) named.

(** The same call with the literal replaced by a builtin macro call with the same value. *)
Inductive builtin_call {E} : list (tok E) -> str -> list E -> list (str * E) -> Prop :=
  | bc_intro format e e' rest pos named :
      spelled_call (TExpr (MStr format e) :: rest) format pos named ->
      builtin_call (TExpr (MBuiltin format e') :: rest) format pos named.

(** A raw identifier as printed: r, hash, the name. *)
Definition raw_ident (name : str) : str := lit "r#" ++ name.

(** * Names (C78) *)
(** The arguments that std's macros read as named: an identifier, an equals sign and a value. *)
Definition identifier_assigned {E} (m : mexpr E) (n : str * E) : Prop :=
  exists e, m = MAssign (LPath PlainPath [(fst n, false)]) (snd n) e.
(** Assignments to [:: x] or [<T>::x]. *)
Definition prefixed_assigned {E} (m : mexpr E) : Prop :=
  exists prefix name v e, prefix <> PlainPath /\ m = MAssign (LPath prefix [(name, false)]) v e.
(** The same call with these prefixes removed. *)
Definition unprefixed {E} (t : tok E) : tok E :=
  match t with
  | TExpr (MAssign (LPath _ [x]) v e) => TExpr (MAssign (LPath PlainPath [x]) v e)
  | t => t
  end.
