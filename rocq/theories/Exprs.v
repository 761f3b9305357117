(** Model of the argument expressions of a macro call as tokens: how they are read (syn's
    [Expr], macros/src/lib.rs:67, and rustc after the expansion), how the macro prints them again
    behind an ampersand (macros/src/lib.rs:116, :125-127) and how rustc reads the printed tuple.
    [Macros] and [Codegen] take each argument expression as one token and one element. *)
From Verif Require Import Base Parse Codegen Macros.

(** Binary operators; [AssignWith] are the compound assignments. *)
Inductive bop :=
  | Mul | Div | Rem | Add | Sub | Shl | Shr | BitAnd | BitXor | BitOr
  | Eq | Ne | Lt | Le | Gt | Ge | LAnd | LOr | DotDot | DotDotEq | Assign | AssignWith (o : str).
Inductive uop := Deref | Neg | Not.
(** Primary expressions without their postfixes: a path, a string literal, a builtin macro such as
    [concat!] with its string value, anything else (a literal, block, [if], [match], struct
    literal, macro call, tuple, array: spelled by [s]). *)
Inductive prim :=
  | PPath (p : path_prefix) (segments : list (str * bool))
  | PStr (s : str)
  | PBuiltin (s : str)
  | POther (s : str).

(** Tokens.  Simplifications: a postfix (a field, a method call, a call, an index, the question
    mark), a cast with its type, and what stands in front of the body of a closure or the operand
    of [return] or [break] are single tokens; [&&] in front of an operand is two [KAmp];
    attributes are left out. *)
Inductive otok :=
  | KPrim (p : prim)
  | KPost (p : str)
  | KOpen | KClose
  | KAmp | KAmpMut                (* & and &mut *)
  | KStar | KMinus | KBang
  | KOp (o : bop)                 (* an operator that is always binary *)
  | KAs (ty : str)                (* as ty *)
  | KLow (h : str)                (* |x|, return, break *)
  | KComma.

(** Expressions as syn and rustc see them; parentheses are kept. *)
Inductive sexpr :=
  | XPrim (p : prim)
  | XParen (e : sexpr)
  | XPost (e : sexpr) (p : str)
  | XRef (e : sexpr)
  | XRefMut (e : sexpr)
  | XUn (u : uop) (e : sexpr)
  | XLow (h : str) (e : sexpr)
  | XBin (o : bop) (l r : sexpr)
  | XCast (e : sexpr) (ty : str)
  | XFrom (e : sexpr)             (* e.. *)
  | XTo (o : bop) (e : sexpr)     (* ..e and ..=e *)
  | XFull.                        (* .. *)

Definition op_tok (o : bop) : otok :=
  match o with BitAnd => KAmp | Mul => KStar | Sub => KMinus | o => KOp o end.
Definition un_tok (u : uop) : otok :=
  match u with Deref => KStar | Neg => KMinus | Not => KBang end.

(** The Rust reference, expression precedence (rustc's [AssocOp::precedence]). *)
Definition cast_prec : nat := 14.
Definition prec (o : bop) : nat :=
  match o with
  | Mul | Div | Rem => 13
  | Add | Sub => 12
  | Shl | Shr => 11
  | BitAnd => 10
  | BitXor => 9
  | BitOr => 8
  | Eq | Ne | Lt | Le | Gt | Ge => 7
  | LAnd => 6
  | LOr => 5
  | DotDot | DotDotEq => 4
  | Assign | AssignWith _ => 2
  end.
Definition is_range (o : bop) : bool := match o with DotDot | DotDotEq => true | _ => false end.
Definition is_comparison (o : bop) : bool :=
  match o with Eq | Ne | Lt | Le | Gt | Ge => true | _ => false end.
Definition compares (e : sexpr) : bool := match e with XBin o _ _ => is_comparison o | _ => false end.
(** The least precedence of the right operand: assignments associate to the right. *)
Definition right_prec (o : bop) : nat := match o with Assign | AssignWith _ => prec o | _ => S (prec o) end.

(** No operator of precedence at least [n] follows; no postfix follows. *)
Definition stops (n : nat) (ts : list otok) : Prop :=
  match ts with
  | [] => True
  | t :: _ => (forall o, t = op_tok o -> prec o < n) /\ (forall ty, t = KAs ty -> cast_prec < n)
  end.
Definition no_post (ts : list otok) : Prop := match ts with KPost _ :: _ => False | _ => True end.
(** The argument, or the contents of the parentheses, end here. *)
Definition ender (ts : list otok) : Prop :=
  match ts with [] | KComma :: _ | KClose :: _ => True | _ => False end.

(** Reading expressions: [reads n ts e r], the longest expression [e] at the front of [ts] whose
    operators outside parentheses have precedence at least [n]; [r] is what follows.  This is
    precedence climbing as in rustc's [parse_expr_assoc_with] and syn's [parse_expr] ([reads_pre]:
    [parse_expr_prefix] and [unary_expr]; [reads_range]: [parse_expr_prefix_range], a range without
    left end, which may stand where an expression starts and behind [&]).  Comparisons cannot be
    chained (rustc; syn accepts them, so that rustc rejects them in the expansion).  A range without
    right end ends an argument or a parenthesis (nothing else that may follow it can be read on). *)
Inductive reads_pre : list otok -> sexpr -> list otok -> Prop :=
  | rp_ref ts e r : reads_pre ts e r -> reads_pre (KAmp :: ts) (XRef e) r
  | rp_ref_range ts e r : reads_range ts e r -> reads_pre (KAmp :: ts) (XRef e) r
  | rp_refmut_range ts e r : reads_range ts e r -> reads_pre (KAmpMut :: ts) (XRefMut e) r
  | rp_refmut ts e r : reads_pre ts e r -> reads_pre (KAmpMut :: ts) (XRefMut e) r
  | rp_un u ts e r : reads_pre ts e r -> reads_pre (un_tok u :: ts) (XUn u e) r
  | rp_low h ts e r : reads 0 ts e r -> reads_pre (KLow h :: ts) (XLow h e) r
  | rp_prim p ts e r : reads_post (XPrim p) ts e r -> reads_pre (KPrim p :: ts) e r
  | rp_paren ts e r e' r' : reads 0 ts e (KClose :: r) -> reads_post (XParen e) r e' r' ->
      reads_pre (KOpen :: ts) e' r'
with reads_post : sexpr -> list otok -> sexpr -> list otok -> Prop :=
  | po_end a ts : no_post ts -> reads_post a ts a ts
  | po_more a p ts e r : reads_post (XPost a p) ts e r -> reads_post a (KPost p :: ts) e r
with reads : nat -> list otok -> sexpr -> list otok -> Prop :=
  | re_intro n ts a ts' e r : reads_pre ts a ts' -> reads_ops n a ts' e r -> reads n ts e r
  | re_range n ts e r : reads_range ts e r -> reads n ts e r
with reads_range : list otok -> sexpr -> list otok -> Prop :=
  | rg_to o ts e r : is_range o = true -> reads (right_prec o) ts e r ->
      reads_range (op_tok o :: ts) (XTo o e) r
  | rg_full ts : ender ts -> reads_range (op_tok DotDot :: ts) XFull ts
with reads_ops : nat -> sexpr -> list otok -> sexpr -> list otok -> Prop :=
  | ro_end n l ts : stops n ts -> reads_ops n l ts l ts
  | ro_bin n l o ts a ts' e r : n <= prec o -> is_range o = false ->
      (is_comparison o = true -> compares l = false) ->
      reads (right_prec o) ts a ts' -> reads_ops n (XBin o l a) ts' e r ->
      reads_ops n l (op_tok o :: ts) e r
  | ro_range n l o ts a ts' : n <= prec o -> is_range o = true ->
      reads (right_prec o) ts a ts' -> reads_ops n l (op_tok o :: ts) (XBin o l a) ts'
  | ro_from n l ts : n <= prec DotDot -> ender ts -> reads_ops n l (op_tok DotDot :: ts) (XFrom l) ts
  | ro_as n l ty ts e r : n <= cast_prec -> reads_ops n (XCast l ty) ts e r ->
      reads_ops n l (KAs ty :: ts) e r.

(** syn's [ToTokens for Expr]: the tokens as they were, nothing added. *)
Fixpoint print (e : sexpr) : list otok :=
  match e with
  | XPrim p => [KPrim p]
  | XParen e => KOpen :: print e ++ [KClose]
  | XPost e p => print e ++ [KPost p]
  | XRef e => KAmp :: print e
  | XRefMut e => KAmpMut :: print e
  | XUn u e => un_tok u :: print e
  | XLow h e => KLow h :: print e
  | XBin o l r => print l ++ op_tok o :: print r
  | XCast e ty => print e ++ [KAs ty]
  | XFrom e => print e ++ [op_tok DotDot]
  | XTo o e => op_tok o :: print e
  | XFull => [op_tok DotDot]
  end.

(** What the macro sees of an expression (macros/src/lib.rs:43, :67-79). *)
Definition lhs_of (e : sexpr) : lhs := match e with XPrim (PPath p segs) => LPath p segs | _ => LOther end.
Definition classify (e : sexpr) : mexpr sexpr :=
  match e with
  | XPrim (PStr s) => MStr s e
  | XPrim (PBuiltin s) => MBuiltin s e
  | XBin Assign l r => MAssign (lhs_of l) r e
  | e => MOther e
  end.

(** The tokens of a call: expressions and commas. *)
Inductive reads_call : list otok -> list (tok sexpr) -> Prop :=
  | rc_nil : reads_call [] []
  | rc_comma ts l : reads_call ts l -> reads_call (KComma :: ts) (TComma :: l)
  | rc_expr ts e r l : reads 0 ts e r -> r = [] \/ (exists r', r = KComma :: r') ->
      reads_call r l -> reads_call ts (TExpr (classify e) :: l).

(** macros/src/lib.rs:116, :125-127: the contents of a tuple, an ampersand in front of each
    expression and a comma after it. *)
Definition tuple_tokens (es : list sexpr) : list otok :=
  flat_map (fun e => KAmp :: print e ++ [KComma]) es.

(** rustc reads a tuple. *)
Inductive reads_tuple : list otok -> list sexpr -> Prop :=
  | rt_nil : reads_tuple [] []
  | rt_cons ts e r es : reads 0 ts e (KComma :: r) -> reads_tuple r es -> reads_tuple ts (e :: es).
