(** Model of macros/src/lib.rs ([format_args_impl], [format_args_nl]) and
    macros/src/to_tokens.rs, and of running the generated code. *)
From Verif Require Import Base Style Fmt SpecStd StdCompat Nom Parse.

(** * Token generation for constants (macros/src/to_tokens.rs)

    Tokens that spell a constant of a core type are represented by that constant; [None] is a
    panic of the macro. *)

(** macros/src/to_tokens.rs:50-67; other colors hit [unreachable!]. *)
Definition color_tokens (c : color) : option color :=
  match c with
  | Black => Some Black
  | Red => Some Red
  | Green => Some Green
  | Yellow => Some Yellow
  | Blue => Some Blue
  | Magenta => Some Magenta
  | Cyan => Some Cyan
  | White => Some White
  | ColorDefault => Some ColorDefault
  | _ => None
  end.

(** macros/src/to_tokens.rs:69-80. *)
Definition intensity_tokens (i : intensity) : option intensity :=
  match i with
  | Normal => Some Normal
  | Bold => Some Bold
  | Faint => Some Faint
  end.

(** macros/src/to_tokens.rs:91-117: start from the default diff and assign the present
    fields. *)
Definition style_diff_tokens (d : style_diff) : option style_diff :=
  let diff := Some diff_default in
  let diff :=
    match diff, d_foreground d with
    | Some diff, Some c =>
        match color_tokens c with
        | Some c => Some (mk_diff (Some c) (d_background diff) (d_intensity diff))
        | None => None
        end
    | diff, _ => diff
    end in
  let diff :=
    match diff, d_background d with
    | Some diff, Some c =>
        match color_tokens c with
        | Some c => Some (mk_diff (d_foreground diff) (Some c) (d_intensity diff))
        | None => None
        end
    | diff, _ => diff
    end in
  match diff, d_intensity d with
  | Some diff, Some i =>
      match intensity_tokens i with
      | Some i => Some (mk_diff (d_foreground diff) (d_background diff) (Some i))
      | None => None
      end
  | diff, _ => diff
  end.

(** macros/src/to_tokens.rs:119-129, 131-140, 151-160. *)
Definition align_tokens (a : p_align) : align_t :=
  match a with PLeft => ALeft | PCenter => ACenter | PRight => ARight end.
Definition sign_tokens (s : p_sign) : sign_t :=
  match s with PPlus => SPlus | PMinus => SMinus end.
Definition debug_hex_tokens (h : p_debug_hex) : debug_hex_t :=
  match h with PLower => HexLower | PUpper => HexUpper end.

(** macros/src/to_tokens.rs:142-149; a parameter count hits [todo!]. *)
Definition count_tokens (c : count) : option N :=
  match c with CParam _ => None | CInt n => Some n end.

(** macros/src/to_tokens.rs:11-23 [quote_opt], for contents that may panic. *)
Definition quote_opt {A B} (f : A -> option B) (o : option A) : option (option B) :=
  match o with
  | Some v => match f v with Some t => Some (Some t) | None => None end
  | None => Some None
  end.

(** macros/src/to_tokens.rs:162-192. *)
Definition fargs_tokens (a : p_fargs) : option formatter_args :=
  match quote_opt count_tokens (pa_width a), quote_opt count_tokens (pa_precision a) with
  | Some w, Some p =>
      Some (mk_fargs (option_map align_tokens (pa_align a)) (option_map sign_tokens (pa_sign a))
              (pa_alternate a) (pa_zero a) w p (option_map debug_hex_tokens (pa_debug_hex a)))
  | _, _ => None
  end.

(** The std traits a placeholder can select (macros/src/to_tokens.rs:194-210). *)
Inductive std_trait :=
  | TDisplay | TDebug | TOctal | TLowerHex | TUpperHex | TPointer | TBinary | TLowerExp
  | TUpperExp.

(** macros/src/to_tokens.rs:212-239: how the argument is wrapped. *)
Inductive wrap := WStylish | WStdDebug (t : std_trait) | WStdOther (t : std_trait).
Definition wrap_tokens (t : format_trait) : wrap :=
  match t with
  | FStylish => WStylish
  | FDebug => WStdDebug TDebug
  | FDisplay => WStdOther TDisplay
  | FOctal => WStdOther TOctal
  | FLowerHex => WStdOther TLowerHex
  | FUpperHex => WStdOther TUpperHex
  | FPointer => WStdOther TPointer
  | FBinary => WStdOther TBinary
  | FLowerExp => WStdOther TLowerExp
  | FUpperExp => WStdOther TUpperExp
  end.

(** * The generated code (macros/src/lib.rs:98-225) *)

(** Which tuple a placeholder refers to (lines 156, 164, 170, 183). *)
Inductive place := PosArg (i : nat) | NamedArg (i : nat) | ImplicitArg (i : nat).

(** A statement of the generated closure (lines 136-141 and 189-198). *)
Inductive stmt :=
  | SLit (s : str)
  | SFmt (w : wrap) (p : place) (fargs : formatter_args) (st : style_diff).

(** The generated expression (lines 212-224): three tuples and the closure body.  Positional
    and named argument expressions are of an arbitrary type [E]. *)
Record code (E : Type) := mk_code {
  c_positional : list E;
  c_named : list E;
  c_implicit : list str;
  c_stmts : list stmt
}.
Arguments mk_code {E} _ _ _ _.
Arguments c_positional {E} _.
Arguments c_named {E} _.
Arguments c_implicit {E} _.
Arguments c_stmts {E} _.

(** The result of running the macro: generated code, or a panic (a compile error for the
    user). *)
Inductive expansion (E : Type) := Expanded (c : code E) | CompileError.
Arguments Expanded {E} c.
Arguments CompileError {E}.

(** lines 117-123: [named_args_names], a HashMap from name to index built by inserting in
    order, so a later duplicate replaces an earlier one. *)
Fixpoint named_index_from (i : nat) (names : list str) (name : str) : option nat :=
  match names with
  | [] => None
  | n :: r =>
      match named_index_from (S i) r name with
      | Some j => Some j
      | None => if str_eqb n name then Some i else None
      end
  end.
Definition named_index (names : list str) (name : str) : option nat :=
  named_index_from 0 names name.

(** [str::replace] with a two-character pattern and a one-character replacement (core
    library), used at line 137 as replace of doubled open braces. *)
Fixpoint replace2 (a b c : char) (s : str) : str :=
  match s with
  | x :: ((y :: r) as r1) =>
      if N.eqb x a && N.eqb y b then c :: replace2 a b c r else x :: replace2 a b c r1
  | _ => s
  end.

(** proc_macro [Ident::new_raw] (line 173) panics on these names. *)
Definition cannot_be_raw (name : str) : bool :=
  existsb (str_eqb name) [lit "_"; lit "self"; lit "Self"; lit "super"; lit "crate"].

(** The mutable state of the mapping closure (lines 128-131). *)
Record gen_state := mk_gen {
  g_next : nat;                 (* next_arg_iter: the next value of 0..num_positional *)
  g_used_pos : list nat;        (* used_positional_args *)
  g_used_named : list str;      (* used_named_args *)
  g_implicit : list str         (* implicit_named_args_values *)
}.
Definition gen_init : gen_state := mk_gen 0 [] [] [].

(** lines 151-186: resolving the argument of one placeholder. *)
Definition gen_place (num_positional : nat) (names : list str) (arg : option arg_ref)
  (g : gen_state) : option (gen_state * place) :=
  match arg with
  | None =>
      if g_next g <? num_positional then
        Some (mk_gen (S (g_next g)) (g_next g :: g_used_pos g) (g_used_named g) (g_implicit g),
              PosArg (g_next g))
      else None                                             (* missing argument *)
  | Some (Positional i) =>
      if (N.of_nat num_positional <=? i)%N then None        (* missing positional argument *)
      else Some (mk_gen (g_next g) (N.to_nat i :: g_used_pos g) (g_used_named g) (g_implicit g),
                 PosArg (N.to_nat i))
  | Some (Named name) =>
      match named_index names name with
      | Some i =>
          Some (mk_gen (g_next g) (g_used_pos g) (name :: g_used_named g) (g_implicit g),
                NamedArg i)
      | None =>
          if cannot_be_raw name then None
          else Some (mk_gen (g_next g) (g_used_pos g) (g_used_named g) (g_implicit g ++ [name]),
                     ImplicitArg (length (g_implicit g)))
      end
  end.

(** lines 135-200: one piece. *)
Definition gen_piece (num_positional : nat) (names : list str) (p : piece) (g : gen_state)
  : option (gen_state * stmt) :=
  match p with
  | Lit s => Some (g, SLit (replace2 123%N 123%N 123%N s))
  | Arg (mk_farg arg (mk_spec fargs st tr)) =>
      match gen_place num_positional names arg g with
      | None => None
      | Some (g', pl) =>
          match fargs_tokens fargs, style_diff_tokens st with
          | Some fargs', Some st' => Some (g', SFmt (wrap_tokens tr) pl fargs' st')
          | _, _ => None
          end
      end
  end.

(** lines 132-201: the iteration over the pieces. *)
Fixpoint gen_pieces (num_positional : nat) (names : list str) (ps : list piece)
  (g : gen_state) : option (gen_state * list stmt) :=
  match ps with
  | [] => Some (g, [])
  | p :: ps' =>
      match gen_piece num_positional names p g with
      | None => None
      | Some (g', s) =>
          match gen_pieces num_positional names ps' g' with
          | None => None
          | Some (g'', ss) => Some (g'', s :: ss)
          end
      end
  end.

(** lines 202-208: the check for unused arguments (set differences). *)
Definition all_used (num_positional : nat) (names : list str) (g : gen_state) : bool :=
  forallb (fun i => existsb (Nat.eqb i) (g_used_pos g)) (seq 0 num_positional)
  && forallb (fun n => existsb (str_eqb n) (g_used_named g)) names.

(** macros/src/lib.rs:114-224, after the format string has been parsed. *)
Definition generate {E} (ps : list piece) (positional : list E) (named : list (str * E))
  : expansion E :=
  match gen_pieces (length positional) (map fst named) ps gen_init with
  | None => CompileError
  | Some (g, ss) =>
      if all_used (length positional) (map fst named) g
      then Expanded (mk_code positional (map snd named) (g_implicit g) ss)
      else CompileError
  end.

Section Xid.
Variable xid_start xid_continue : char -> bool.

(** macros/src/lib.rs:98-225 [format_args_impl]; [unwrap] (line 112) panics on any parse
    error. *)
Definition format_args_impl {E} (format : str) (positional : list E)
  (named : list (str * E)) : expansion E :=
  match parse_format xid_start xid_continue format with
  | POk [] pieces => generate pieces positional named
  | _ => CompileError
  end.

(** macros/src/lib.rs:239-245 [format_args_nl]. *)
Definition format_args_nl {E} (format : str) (positional : list E)
  (named : list (str * E)) : expansion E :=
  format_args_impl (format ++ [10%N]) positional named.
End Xid.

(** * Running the generated code *)

(** A runtime value: what each std trait and the stylish trait does for it.  rustc checks that
    the selected trait is implemented; here every trait is given. *)
Record value_t := mk_value {
  v_std : std_trait -> std_display;
  v_stylish : display
}.

Section Eval.
(** Evaluation of argument expressions may have side effects on some state [H], and may not
    complete ([None]: it panics, or leaves the surrounding block by [return], [break] or [?]);
    variables in scope are looked up in [scope]. *)
Variable H : Type.
Definition expr := H -> H * option value_t.
Variable scope : str -> value_t.

(** A tuple of references to expressions, [(&e0, &e1, ..)] (macros/src/lib.rs:116, 125-127), is
    evaluated left to right, up to the first expression that does not complete. *)
Fixpoint eval_tuple (es : list expr) (h : H) : H * option (list value_t) :=
  match es with
  | [] => (h, Some [])
  | e :: r =>
      match e h with
      | (h1, None) => (h1, None)
      | (h1, Some v) =>
          match eval_tuple r h1 with
          | (h2, None) => (h2, None)
          | (h2, Some vs) => (h2, Some (v :: vs))
          end
      end
  end.

(** The three tuples bound by the [match] at macros/src/lib.rs:214-215. *)
Record tuples := mk_tuples {
  t_positional : list value_t;
  t_named : list value_t;
  t_implicit : list value_t
}.

Definition place_value (t : tuples) (p : place) : option value_t :=
  match p with
  | PosArg i => nth_error (t_positional t) i
  | NamedArg i => nth_error (t_named t) i
  | ImplicitArg i => nth_error (t_implicit t) i
  end.

(** macros/src/to_tokens.rs:212-239: the [Display] a wrapped argument uses.  An unwrapped
    argument is a reference already and is passed by reference ([&&T]). *)
Definition wrapped_display (w : wrap) (v : value_t) : display :=
  match w with
  | WStylish => Display_ref (v_stylish v)
  | WStdDebug t => Display_StdFmtDebug (v_std v t)
  | WStdOther t => Display_StdFmtOther (v_std v t)
  end.

(** The closure body, macros/src/lib.rs:216-220 with statements from lines 138 and 189-198.  An
    index outside a tuple would be rejected by rustc: [Abort Panic], proved unreachable. *)
Fixpoint exec_stmts (t : tuples) (ss : list stmt) (f : formatter) : wprog :=
  match ss with
  | [] => Ret Ok
  | SLit s :: r => try_ (formatter_write_str f s) (exec_stmts t r f)
  | SFmt w p fargs st :: r =>
      match place_value t p with
      | None => Abort Panic
      | Some v =>
          try_ (wrapped_display w v (formatter_with_args Restyle_StyleDiff f fargs st))
            (exec_stmts t r f)
      end
  end.

(** Evaluating the generated expression: the [match] scrutinee (all three tuples, in order),
    then the closure.  [None]: evaluating an argument did not complete, so there is no
    Arguments value. *)
Definition eval_code (c : code expr) (h : H) : H * option arguments :=
  match eval_tuple (c_positional c) h with
  | (h1, None) => (h1, None)
  | (h1, Some ps) =>
      match eval_tuple (c_named c) h1 with
      | (h2, None) => (h2, None)
      | (h2, Some ns) =>
          (h2, Some (exec_stmts (mk_tuples ps ns (map scope (c_implicit c))) (c_stmts c)))
      end
  end.
End Eval.

Arguments eval_tuple {H} es h.
Arguments eval_code {H} scope c h.
