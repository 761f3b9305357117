(** The same macro as in [Codegen] and [Macros], with its messages: which error or panic a rejected call
    is rejected with.  [PropsDiagnose] proves that forgetting the messages gives the other model. *)
From Verif Require Import Base Style Fmt SpecStd StdCompat Nom Parse Codegen Macros.

(** What the compiler reports. *)
Inductive diagnostic :=
  | Malformed                      (* an error of syn, or no rule of the macro_rules macro matches *)
  | PositionalAfterNamed           (* macros/src/lib.rs:83 "positional arg after named" *)
  | BadFormat                      (* line 112: unwrap of the error of Format::parse *)
  | UnsupportedFill                (* macros/src/format.rs:179 todo!() *)
  | Leftover                       (* macros/src/lib.rs:113 assert!(leftover.is_empty()) *)
  | NoCrate                        (* line 106 "base crate not specified .." *)
  | MissingArgument                (* line 153 "missing argument" *)
  | MissingPositional (i : N)      (* line 161 "missing positional argument {i}" *)
  | IndexTooLarge (i : N)          (* line 159: syn::Index::from asserts index < u32::MAX *)
  | NotCapturable (name : str)     (* line 176: Ident::new_raw panics, naming the identifier *)
  | ParameterCount                 (* to_tokens.rs:145 "parameter reference counts are not yet supported" *)
  | UnknownStyle                   (* to_tokens.rs:63, 77 "unknown color ..", "unknown intensity .." *)
  | UnusedArguments.               (* lib.rs:207 "unused formatting arguments" *)

Inductive checked (A : Type) := Good (a : A) | Bad (d : diagnostic).
Arguments Good {A} a.
Arguments Bad {A} d.

(** macros/src/lib.rs:151-186 (see [Codegen.gen_place]).  Line 159 is evaluated before line 160. *)
Definition check_place (num_positional : nat) (names : list str) (arg : option arg_ref)
  (g : gen_state) : checked (gen_state * place) :=
  match arg with
  | None =>
      if g_next g <? num_positional then
        Good (mk_gen (S (g_next g)) (g_next g :: g_used_pos g) (g_used_named g) (g_implicit g),
              PosArg (g_next g))
      else Bad MissingArgument
  | Some (Positional i) =>
      if (N.of_nat num_positional <=? i)%N
      then Bad (if (i <? 4294967295)%N then MissingPositional i else IndexTooLarge i)
      else Good (mk_gen (g_next g) (N.to_nat i :: g_used_pos g) (g_used_named g) (g_implicit g),
                 PosArg (N.to_nat i))
  | Some (Named name) =>
      match named_index names name with
      | Some i =>
          Good (mk_gen (g_next g) (g_used_pos g) (name :: g_used_named g) (g_implicit g),
                NamedArg i)
      | None =>
          if cannot_be_raw name then Bad (NotCapturable name)
          else Good (mk_gen (g_next g) (g_used_pos g) (g_used_named g) (g_implicit g ++ [name]),
                     ImplicitArg (length (g_implicit g)))
      end
  end.

(** macros/src/lib.rs:135-200 (see [Codegen.gen_piece]): the argument is resolved first, then the flags
    and the style are turned into tokens in the order of the quotation at lines 189-198. *)
Definition check_piece (num_positional : nat) (names : list str) (p : piece) (g : gen_state)
  : checked (gen_state * stmt) :=
  match p with
  | Lit s => Good (g, SLit (replace2 123%N 123%N 123%N s))
  | Arg (mk_farg arg (mk_spec fargs st tr)) =>
      match check_place num_positional names arg g with
      | Bad d => Bad d
      | Good (g', pl) =>
          match fargs_tokens fargs with
          | None => Bad ParameterCount
          | Some fargs' =>
              match style_diff_tokens st with
              | None => Bad UnknownStyle
              | Some st' => Good (g', SFmt (wrap_tokens tr) pl fargs' st')
              end
          end
      end
  end.

(** macros/src/lib.rs:132-201: the first panic ends the iteration. *)
Fixpoint check_pieces (num_positional : nat) (names : list str) (ps : list piece)
  (g : gen_state) : checked (gen_state * list stmt) :=
  match ps with
  | [] => Good (g, [])
  | p :: ps' =>
      match check_piece num_positional names p g with
      | Bad d => Bad d
      | Good (g', s) =>
          match check_pieces num_positional names ps' g' with
          | Bad d => Bad d
          | Good (g'', ss) => Good (g'', s :: ss)
          end
      end
  end.

(** macros/src/lib.rs:114-224 (see [Codegen.generate]). *)
Definition check_generate {E} (ps : list piece) (positional : list E) (named : list (str * E))
  : checked (code E) :=
  match check_pieces (length positional) (map fst named) ps gen_init with
  | Bad d => Bad d
  | Good (g, ss) =>
      if all_used (length positional) (map fst named) g
      then Good (mk_code positional (map snd named) (g_implicit g) ss)
      else Bad UnusedArguments
  end.

(** macros/src/lib.rs:59-88 (see [Macros.parse_items]): the panic of line 83 comes as soon as the
    argument has been read. *)
Fixpoint check_items {E} (onto_named : bool) (positional : list E) (named : list (str * E))
  (toks : list (tok E)) : checked (list E * list (str * E)) :=
  match toks with
  | [] => Good (positional, named)
  | TComma :: [] => Good (positional, named)
  | TComma :: TExpr m :: rest =>
      match named_arg m with
      | Some n => check_items true positional (named ++ [n]) rest
      | None =>
          if onto_named then Bad PositionalAfterNamed
          else check_items onto_named (positional ++ [expr_value m]) named rest
      end
  | _ => Bad Malformed
  end.

(** macros/src/lib.rs:33-96 (see [Macros.parse_args_input]). *)
Definition check_args_input {E} (toks : list (tok E)) : checked (args_input E) :=
  let krate :=
    match toks with
    | TCrate :: TEq :: TPath :: TComma :: rest => Some (true, rest)
    | TCrate :: _ => None
    | _ => Some (false, toks)
    end in
  match krate with
  | Some (k, TExpr (MStr format _) :: rest) =>
      match check_items false [] [] rest with
      | Good (positional, named) => Good (mk_input k format positional named)
      | Bad d => Bad d
      end
  | _ => Bad Malformed
  end.

Section Xid.
Variable xid_start xid_continue : char -> bool.

(** macros/src/lib.rs:98-225 (see [Codegen.format_args_impl]). *)
Definition check_format_args_impl {E} (format : str) (positional : list E)
  (named : list (str * E)) : checked (code E) :=
  match parse_format xid_start xid_continue format with
  | POk [] pieces => check_generate pieces positional named
  | POk _ _ => Bad Leftover
  | PErr | PFail => Bad BadFormat
  | PPanic => Bad UnsupportedFill
  end.

(** macros/src/lib.rs:227-234 and 236-245. *)
Definition check_proc_format_args {E} (toks : list (tok E)) : checked (code E) :=
  match check_args_input toks with
  | Good i => if in_krate i
              then check_format_args_impl (in_format i) (in_positional i) (in_named i)
              else Bad NoCrate
  | Bad d => Bad d
  end.
Definition check_proc_format_args_nl {E} (toks : list (tok E)) : checked (code E) :=
  match check_args_input toks with
  | Good i => if in_krate i
              then check_format_args_impl (in_format i ++ [10%N]) (in_positional i) (in_named i)
              else Bad NoCrate
  | Bad d => Bad d
  end.

(** core/src/lib.rs:90-112, core/src/write.rs:135-140, 161-169 (see [Macros]). *)
Definition check_format_args {E} (toks : list (tok E)) : checked (code E) :=
  match toks with
  | TExpr (MStr s e) :: rest | TExpr (MBuiltin s e) :: rest =>
      if optional_tail rest then check_proc_format_args (crate_prefix ++ TExpr (MStr s e) :: rest)
      else Bad Malformed
  | _ => Bad Malformed
  end.
Definition check_write {E} (toks : list (tok E)) : checked (code E) :=
  match toks with
  | TComma :: args => check_format_args args
  | _ => Bad Malformed
  end.
Definition check_writeln {E} (unit_expr : E) (toks : list (tok E)) : checked (code E) :=
  match toks with
  | [] | [TComma] => check_write [TComma; TExpr (MStr [10%N] unit_expr)]
  | TComma :: args => check_proc_format_args_nl (crate_prefix ++ args)
  | _ => Bad Malformed
  end.
End Xid.

(** Forgetting the message. *)
Definition erase {E} (r : checked (code E)) : expansion E :=
  match r with Good c => Expanded c | Bad _ => CompileError end.
