(** Model of how a macro call reaches [format_args_impl]: the argument list parser of
    macros/src/lib.rs:26-96, the proc macros at lines 227-245 and the macro_rules of
    core/src/lib.rs:90-112 and core/src/write.rs:135-169. *)
From Verif Require Import Base Parse Codegen.

(** What stands in front of the first segment of a path expression: nothing, [::], or a type as in
    [<T>::x] (syn's [leading_colon] and [qself]). *)
Inductive path_prefix := PlainPath | GlobalPath | TypePath.
(** The left-hand side of an assignment expression: a path (its prefix and its segments: identifier
    as printed by [Ident::to_string], and whether it has generic arguments), or anything else.
    Attributes in front of an expression are not modelled (the macro drops those of a named
    argument). *)
Inductive lhs := LPath (prefix : path_prefix) (segments : list (str * bool)) | LOther.

(** An expression as syn sees it; [E] is its meaning as an argument expression. *)
Inductive mexpr (E : Type) :=
  | MStr (s : str) (e : E)                  (* a string literal *)
  | MBuiltin (s : str) (e : E)              (* concat!(..) and the like, with string value s *)
  | MAssign (l : lhs) (value : E) (e : E)   (* l = value *)
  | MOther (e : E).
Arguments MStr {E} s e.
Arguments MBuiltin {E} s e.
Arguments MAssign {E} l value e.
Arguments MOther {E} e.

(** The expression itself, used as an argument. *)
Definition expr_value {E} (m : mexpr E) : E :=
  match m with MStr _ e | MBuiltin _ e | MAssign _ _ e | MOther e => e end.

(** The tokens of a macro call.  Simplification: expressions and paths are single tokens;
    [Exprs] models how syn and rustc delimit expressions. *)
Inductive tok (E : Type) := TCrate | TEq | TPath | TComma | TExpr (m : mexpr E).
Arguments TCrate {E}.
Arguments TEq {E}.
Arguments TPath {E}.
Arguments TComma {E}.
Arguments TExpr {E} m.

(** macros/src/lib.rs:26-31 [struct ArgsInput]; of [krate] only its presence. *)
Record args_input (E : Type) := mk_input {
  in_krate : bool;
  in_format : str;
  in_positional : list E;
  in_named : list (str * E)
}.
Arguments mk_input {E} _ _ _ _.
Arguments in_krate {E} _.
Arguments in_format {E} _.
Arguments in_positional {E} _.
Arguments in_named {E} _.

(** macros/src/lib.rs:69-77: is it a named argument, and which.  The prefix is not looked at. *)
Definition named_arg {E} (m : mexpr E) : option (str * E) :=
  match m with
  | MAssign (LPath _ [(ident, false)]) value _ => Some (ident, value)
  | _ => None
  end.

(** macros/src/lib.rs:59-88, the loop.  [None]: a syn error, the panic at line 83, or (for
    leftover tokens) the error of [parse_macro_input!]. *)
Fixpoint parse_items {E} (onto_named : bool) (positional : list E) (named : list (str * E))
  (toks : list (tok E)) : option (list E * list (str * E)) :=
  match toks with
  | [] => Some (positional, named)
  | TComma :: [] => Some (positional, named)
  | TComma :: TExpr m :: rest =>
      match named_arg m with
      | Some n => parse_items true positional (named ++ [n]) rest
      | None =>
          if onto_named then None
          else parse_items onto_named (positional ++ [expr_value m]) named rest
      end
  | _ => None
  end.

(** macros/src/lib.rs:33-96 [Parse for ArgsInput] followed by the end-of-input check of
    [parse_macro_input!] (default configuration, without [stylish_proc_macro_expand]). *)
Definition parse_args_input {E} (toks : list (tok E)) : option (args_input E) :=
  let krate :=
    match toks with
    | TCrate :: TEq :: TPath :: TComma :: rest => Some (true, rest)
    | TCrate :: _ => None
    | _ => Some (false, toks)
    end in
  match krate with
  | Some (k, TExpr (MStr format _) :: rest) =>
      match parse_items false [] [] rest with
      | Some (positional, named) => Some (mk_input k format positional named)
      | None => None
      end
  | _ => None
  end.

(** What every exported macro puts in front: [crate=$crate,]. *)
Definition crate_prefix {E} : list (tok E) := [TCrate; TEq; TPath; TComma].

Section Xid.
Variable xid_start xid_continue : char -> bool.

(** macros/src/lib.rs:227-234 [format_args] (the proc macro); [expect] at line 106 panics
    without a crate. *)
Definition proc_format_args {E} (toks : list (tok E)) : expansion E :=
  match parse_args_input toks with
  | Some i => if in_krate i
              then format_args_impl xid_start xid_continue (in_format i) (in_positional i) (in_named i)
              else CompileError
  | None => CompileError
  end.

(** macros/src/lib.rs:236-245 [format_args_nl]. *)
Definition proc_format_args_nl {E} (toks : list (tok E)) : expansion E :=
  match parse_args_input toks with
  | Some i => if in_krate i
              then format_args_nl xid_start xid_continue (in_format i) (in_positional i) (in_named i)
              else CompileError
  | None => CompileError
  end.

(** The optional tail (a comma and any tokens) of the rules at core/src/lib.rs:92, 95. *)
Definition optional_tail {E} (rest : list (tok E)) : bool :=
  match rest with [] | TComma :: _ => true | _ => false end.

(** core/src/lib.rs:90-112 [format_args!] and [_format_args!]: a literal goes to the proc macro;
    another expression first goes through [with_builtin!] (third-party), which evaluates the
    builtin macros and rejects anything else. *)
Definition format_args_macro {E} (toks : list (tok E)) : expansion E :=
  match toks with
  | TExpr (MStr s e) :: rest =>
      if optional_tail rest then proc_format_args (crate_prefix ++ TExpr (MStr s e) :: rest)
      else CompileError
  | TExpr (MBuiltin s e) :: rest =>
      if optional_tail rest then proc_format_args (crate_prefix ++ TExpr (MStr s e) :: rest)
      else CompileError
  | _ => CompileError
  end.

(** core/src/write.rs:135-140 [write!]; the tokens after the destination expression.  The
    expansion is the Arguments handed to [dst.write_fmt]. *)
Definition write_macro {E} (toks : list (tok E)) : expansion E :=
  match toks with
  | TComma :: args => format_args_macro args
  | _ => CompileError
  end.

(** core/src/write.rs:161-169 [writeln!].  [unit_expr] is the meaning of the literal it inserts
    in the first rule (unused: it is a format string). *)
Definition writeln_macro {E} (unit_expr : E) (toks : list (tok E)) : expansion E :=
  match toks with
  | [] | [TComma] => write_macro [TComma; TExpr (MStr [10%N] unit_expr)]
  | TComma :: args => proc_format_args_nl (crate_prefix ++ args)
  | _ => CompileError
  end.
End Xid.

(** * The configuration [stylish_proc_macro_expand] (nightly) *)

(** proc_macro's [expand_expr] followed by [syn::parse::<LitStr>] (macros/src/lib.rs:47-57): a
    string literal is itself, builtin macros are evaluated, and so are user macros that expand to
    a string literal; [user_macro e] is the literal such a macro gives, [None] for any other
    expression. *)
Definition expand_format {E} (user_macro : E -> option str) (m : mexpr E) : option str :=
  match m with
  | MStr s _ | MBuiltin s _ => Some s
  | MAssign _ _ _ => None
  | MOther e => user_macro e
  end.

(** macros/src/lib.rs:33-96 in this configuration. *)
Definition parse_args_input_expand {E} (user_macro : E -> option str) (toks : list (tok E))
  : option (args_input E) :=
  let krate :=
    match toks with
    | TCrate :: TEq :: TPath :: TComma :: rest => Some (true, rest)
    | TCrate :: _ => None
    | _ => Some (false, toks)
    end in
  match krate with
  | Some (k, TExpr m :: rest) =>
      match expand_format user_macro m with
      | Some format =>
          match parse_items false [] [] rest with
          | Some (positional, named) => Some (mk_input k format positional named)
          | None => None
          end
      | None => None
      end
  | _ => None
  end.

Section XidExpand.
Variable xid_start xid_continue : char -> bool.

(** macros/src/lib.rs:227-234, :236-245 in this configuration. *)
Definition proc_format_args_expand {E} (user_macro : E -> option str) (toks : list (tok E))
  : expansion E :=
  match parse_args_input_expand user_macro toks with
  | Some i => if in_krate i
              then format_args_impl xid_start xid_continue (in_format i) (in_positional i) (in_named i)
              else CompileError
  | None => CompileError
  end.
Definition proc_format_args_nl_expand {E} (user_macro : E -> option str) (toks : list (tok E))
  : expansion E :=
  match parse_args_input_expand user_macro toks with
  | Some i => if in_krate i
              then format_args_nl xid_start xid_continue (in_format i) (in_positional i) (in_named i)
              else CompileError
  | None => CompileError
  end.

(** core/src/lib.rs:90-97, :115-123: any expression goes to the proc macro. *)
Definition format_args_macro_expand {E} (user_macro : E -> option str) (toks : list (tok E))
  : expansion E :=
  match toks with
  | TExpr m :: rest =>
      if optional_tail rest then proc_format_args_expand user_macro (crate_prefix ++ TExpr m :: rest)
      else CompileError
  | _ => CompileError
  end.

(** core/src/write.rs:135-140 and :161-169 in this configuration. *)
Definition write_macro_expand {E} (user_macro : E -> option str) (toks : list (tok E)) : expansion E :=
  match toks with
  | TComma :: args => format_args_macro_expand user_macro args
  | _ => CompileError
  end.
Definition writeln_macro_expand {E} (user_macro : E -> option str) (unit_expr : E)
  (toks : list (tok E)) : expansion E :=
  match toks with
  | [] | [TComma] => write_macro_expand user_macro [TComma; TExpr (MStr [10%N] unit_expr)]
  | TComma :: args => proc_format_args_nl_expand user_macro (crate_prefix ++ args)
  | _ => CompileError
  end.
End XidExpand.
