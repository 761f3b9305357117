(** Model of the expression the macros generate as the Rust expression it is
    (macros/src/lib.rs:136-141, :151-225 and macros/src/to_tokens.rs), with its identifiers, and of
    how that expression is evaluated where the macro is called.  [Codegen] models the same code
    by what it computes; [PropsHygiene] relates the two for every scope at the place of the
    call. *)
From Verif Require Import Base Style Fmt SpecStd StdCompat Parse Codegen.

(** The items the generated code reaches through the path [#export], that is through [$crate]:
    they mean the same wherever the macro is called. *)
Inductive item :=
  | IArguments             (* Arguments { f: & _ }, lib.rs:213 *)
  | IWriteStr              (* Formatter::write_str, lib.rs:138 *)
  | IDisplayFmt            (* Display::fmt, lib.rs:190 *)
  | IWithArgs              (* Formatter::with_args, lib.rs:192 *)
  | IOk                    (* fmt::Result::Ok(()), lib.rs:219 *)
  | IDiffDefault           (* StyleDiff::default(), to_tokens.rs:101 *)
  | IStdFmt                (* StdFmt { f: & _ }, to_tokens.rs:219 *)
  | IStdFmtDebug           (* to_tokens.rs:231 *)
  | IStdFmtOther           (* to_tokens.rs:233 *)
  | ITraitFmt (t : std_trait).  (* fmt::Trait::fmt, to_tokens.rs:224 *)

Inductive diff_field_name := FldForeground | FldBackground | FldIntensity.

(** The generated expressions.  [E] is the type of the expressions the user wrote. *)
Inductive gexpr (E : Type) :=
  | GUser (e : E)                              (* an argument expression of the user *)
  | GIdent (x : str)                           (* an identifier *)
  | GStr (s : str)
  | GFargs (a : formatter_args)                (* &#export::FormatterArgs { .. }, to_tokens.rs:179-189 *)
  | GColor (c : color)                         (* #export::Color::.. *)
  | GIntensity (i : intensity)                 (* #export::Intensity::.. *)
  | GTuple (l : list (gexpr E))
  | GField (e : gexpr E) (i : nat)             (* e.i *)
  | GRef (e : gexpr E)                         (* &e, &mut e *)
  | GMatch (e : gexpr E) (x : str) (b : gexpr E)            (* match e { x => b } *)
  | GMatch3 (e : gexpr E) (x y z : str) (b : gexpr E)       (* match e { (x, y, z) => b } *)
  | GFn (x : str) (b : gexpr E)                (* move |x: &mut #export::Formatter| { b } *)
  | GStdFn (x : str) (b : gexpr E)             (* move |x: &mut #export::fmt::Formatter<'_>| { b } *)
  | GCall (p : item) (args : list (gexpr E))
  | GCallIdent (f : str) (e : gexpr E)         (* f(e) *)
  | GTryThen (e b : gexpr E)                   (* e?; b *)
  | GLetMut (x : str) (e b : gexpr E)          (* { let mut x = e; b } *)
  | GAssign (x : str) (fld : diff_field_name) (e b : gexpr E).   (* x.fld = e; b *)
Arguments GUser {E} e.
Arguments GIdent {E} x.
Arguments GStr {E} s.
Arguments GFargs {E} a.
Arguments GColor {E} c.
Arguments GIntensity {E} i.
Arguments GTuple {E} l.
Arguments GField {E} e i.
Arguments GRef {E} e.
Arguments GMatch {E} e x b.
Arguments GMatch3 {E} e x y z b.
Arguments GFn {E} x b.
Arguments GStdFn {E} x b.
Arguments GCall {E} p args.
Arguments GCallIdent {E} f e.
Arguments GTryThen {E} e b.
Arguments GLetMut {E} x e b.
Arguments GAssign {E} x fld e b.

(** The identifiers the macro introduces. *)
Definition id_positional : str := lit "__stylish_positional_args".
Definition id_named : str := lit "__stylish_named_args".
Definition id_implicit : str := lit "__stylish_implicit_named_args".
Definition id_formatter : str := lit "__stylish_formatter".
Definition id_arg : str := lit "__stylish_arg".
Definition id_diff : str := lit "diff".
(** The identifier it uses without defining it or naming its crate, to_tokens.rs:104, :108, :112. *)
Definition id_some : str := lit "Some".

(** lib.rs:156, :164, :170, :183. *)
Definition quote_place {E} (p : place) : gexpr E :=
  match p with
  | PosArg i => GField (GIdent id_positional) i
  | NamedArg i => GField (GIdent id_named) i
  | ImplicitArg i => GField (GIdent id_implicit) i
  end.

(** to_tokens.rs:91-117. *)
Definition quote_style {E} (d : style_diff) : gexpr E :=
  let e := GIdent id_diff in
  let e := match d_intensity d with
           | Some i => GAssign id_diff FldIntensity (GCallIdent id_some (GIntensity i)) e
           | None => e end in
  let e := match d_background d with
           | Some c => GAssign id_diff FldBackground (GCallIdent id_some (GColor c)) e
           | None => e end in
  let e := match d_foreground d with
           | Some c => GAssign id_diff FldForeground (GCallIdent id_some (GColor c)) e
           | None => e end in
  GLetMut id_diff (GCall IDiffDefault []) e.

(** to_tokens.rs:218-229. *)
Definition quote_std {E} (t : std_trait) (arg : gexpr E) : gexpr E :=
  GCall IStdFmt [GRef (GMatch arg id_arg
    (GStdFn id_formatter (GCall (ITraitFmt t) [GIdent id_arg; GIdent id_formatter])))].
(** to_tokens.rs:212-239. *)
Definition quote_wrapped {E} (w : wrap) (arg : gexpr E) : gexpr E :=
  match w with
  | WStylish => arg
  | WStdDebug t => GCall IStdFmtDebug [quote_std t arg]
  | WStdOther t => GCall IStdFmtOther [quote_std t arg]
  end.

(** lib.rs:138 and :189-198, without the question mark. *)
Definition quote_stmt {E} (s : stmt) : gexpr E :=
  match s with
  | SLit s => GCall IWriteStr [GIdent id_formatter; GStr s]
  | SFmt w p fargs st =>
      GCall IDisplayFmt
        [GRef (quote_wrapped w (quote_place p));
         GRef (GCall IWithArgs [GIdent id_formatter; GFargs fargs; quote_style st])]
  end.
(** lib.rs:218-219. *)
Fixpoint quote_stmts {E} (l : list stmt) : gexpr E :=
  match l with
  | [] => GCall IOk []
  | s :: r => GTryThen (quote_stmt s) (quote_stmts r)
  end.

(** lib.rs:209-224 with :116 and :125-127: the whole expression.  The implicit arguments are paths
    consisting of the captured name (lib.rs:172-180). *)
Definition quote_code {E} (c : code E) : gexpr E :=
  GCall IArguments
    [GRef (GMatch3
      (GTuple [GTuple (map (fun e => GRef (GUser e)) (c_positional c));
               GTuple (map (fun e => GRef (GUser e)) (c_named c));
               GTuple (map (fun x => GRef (GIdent x)) (c_implicit c))])
      id_positional id_named id_implicit
      (GFn id_formatter (quote_stmts (c_stmts c))))].

(** * Evaluation *)
Section Eval.
Variable H : Type.

(** Values; references are transparent.  [prog] is a computation: it may run expressions of the
    user, write to the formatter, leave the enclosing closure with an error, fail to compile
    ([PReject]: an unknown name, a wrong type, a pattern that is not a binding), or not
    complete. *)
Inductive dval :=
  | DVal (v : value_t)
  | DTuple (l : list dval)
  | DFmt (f : formatter)
  | DStdFlags (fl : std_flags)
  | DRes (r : fresult)
  | DStr (s : str)
  | DColor (c : color)
  | DIntensity (i : intensity)
  | DOptColor (o : option color)
  | DOptIntensity (o : option intensity)
  | DDiff (d : style_diff)
  | DFargs (a : formatter_args)
  | DFn (g : formatter -> prog)
  | DStdFn (g : std_flags -> prog)
  | DStdRun (p : sprog)                      (* what a call of a std fmt method does *)
  | DStdFmt (d : std_display)
  | DDisplay (d : display)
  | DArguments (g : formatter -> prog)
  (* a function of one argument: what it gives for a color and for an intensity, if it takes one *)
  | DFun (fc : option (color -> option color)) (fi : option (intensity -> option intensity))
with prog :=
  | PVal (v : dval)
  | PError                                   (* the question mark returns an error *)
  | PReject
  | PAbort (c : crash)
  | PEmit (s : str) (st : style) (k : fresult -> prog)
  | PUser (e : H -> H * option value_t) (k : value_t -> prog).

(** What a name means at the place of the call: nothing, a local variable or function (which a
    binding of the same name hides), or a constant, static, unit or tuple struct or enum variant
    (a pattern that is this name is not a binding: rustc error E0530 or a refutable pattern). *)
Inductive meaning := Unbound | Hideable (v : dval) | Fixed (v : dval).
Definition scope_t := str -> meaning.
Definition denotes (m : meaning) : option dval :=
  match m with Unbound => None | Hideable v | Fixed v => Some v end.

(** Binding a name. *)
Definition bind_name (sc : scope_t) (x : str) (v : dval) : option scope_t :=
  match sc x with
  | Fixed _ => None
  | _ => Some (fun y => if str_eqb x y then Hideable v else sc y)
  end.

Fixpoint pbind (p : prog) (k : dval -> prog) : prog :=
  match p with
  | PVal v => k v
  | PError => PError
  | PReject => PReject
  | PAbort c => PAbort c
  | PEmit s st k' => PEmit s st (fun r => pbind (k' r) k)
  | PUser e k' => PUser e (fun v => pbind (k' v) k)
  end.
(** The end of a closure body: an error of the question mark becomes its result. *)
Fixpoint pcatch (p : prog) : prog :=
  match p with
  | PError => PVal (DRes Err)
  | PEmit s st k => PEmit s st (fun r => pcatch (k r))
  | PUser e k => PUser e (fun v => pcatch (k v))
  | p => p
  end.
(** Running stylish code. *)
Fixpoint plift (p : wprog) : prog :=
  match p with
  | Ret r => PVal (DRes r)
  | Abort c => PAbort c
  | Emit s st k => PEmit s st (fun r => plift (k r))
  end.

(** core/src/arguments.rs:5-60, core/src/formatter.rs, core/src/display.rs: the items. *)
Definition call_item (p : item) (args : list dval) : prog :=
  match p, args with
  | IArguments, [DFn g] => PVal (DArguments g)
  | IWriteStr, [DFmt f; DStr s] => plift (formatter_write_str f s)
  | IDisplayFmt, [DDisplay d; DFmt f] => plift (d f)
  | IDisplayFmt, [DVal v; DFmt f] => plift (Display_ref (v_stylish v) f)
  | IWithArgs, [DFmt f; DFargs a; DDiff d] =>
      PVal (DFmt (formatter_with_args Restyle_StyleDiff f a d))
  | IOk, [] => PVal (DRes Ok)
  | IDiffDefault, [] => PVal (DDiff diff_default)
  | IStdFmt, [DStdFn g] =>
      PVal (DStdFmt (fun fl => match g fl with PVal (DStdRun p) => p | _ => SAbort Panic end))
  | IStdFmtDebug, [DStdFmt d] => PVal (DDisplay (Display_StdFmtDebug d))
  | IStdFmtOther, [DStdFmt d] => PVal (DDisplay (Display_StdFmtOther d))
  | ITraitFmt t, [DVal v; DStdFlags fl] => PVal (DStdRun (v_std v t fl))
  | _, _ => PReject
  end.

Definition call_fun (f : option dval) (v : dval) : prog :=
  match f, v with
  | Some (DFun (Some fc) _), DColor c => PVal (DOptColor (fc c))
  | Some (DFun _ (Some fi)), DIntensity i => PVal (DOptIntensity (fi i))
  | _, _ => PReject
  end.

Definition set_field (d : style_diff) (fld : diff_field_name) (v : dval) : option style_diff :=
  match fld, v with
  | FldForeground, DOptColor o => Some (mk_diff o (d_background d) (d_intensity d))
  | FldBackground, DOptColor o => Some (mk_diff (d_foreground d) o (d_intensity d))
  | FldIntensity, DOptIntensity o => Some (mk_diff (d_foreground d) (d_background d) o)
  | _, _ => None
  end.

(** Evaluation of a generated expression in a scope.  An expression of the user is evaluated in the
    scope in which it stands. *)
Definition uexpr := scope_t -> H -> H * option value_t.
Fixpoint geval (sc : scope_t) (e : gexpr uexpr) {struct e} : prog :=
  let fix gevals (l : list (gexpr uexpr)) (k : list dval -> prog) {struct l} : prog :=
    match l with
    | [] => k []
    | e :: r => pbind (geval sc e) (fun v => gevals r (fun vs => k (v :: vs)))
    end in
  match e with
  | GUser e => PUser (e sc) (fun v => PVal (DVal v))
  | GIdent x => match denotes (sc x) with Some v => PVal v | None => PReject end
  | GStr s => PVal (DStr s)
  | GFargs a => PVal (DFargs a)
  | GColor c => PVal (DColor c)
  | GIntensity i => PVal (DIntensity i)
  | GTuple l => gevals l (fun vs => PVal (DTuple vs))
  | GField e i =>
      pbind (geval sc e) (fun v =>
        match v with
        | DTuple l => match nth_error l i with Some v => PVal v | None => PReject end
        | _ => PReject
        end)
  | GRef e => geval sc e
  | GMatch e x b =>
      pbind (geval sc e) (fun v =>
        match bind_name sc x v with Some sc' => geval sc' b | None => PReject end)
  | GMatch3 e x y z b =>
      pbind (geval sc e) (fun v =>
        match v with
        | DTuple [v1; v2; v3] =>
            match bind_name sc x v1 with
            | Some sc1 =>
                match bind_name sc1 y v2 with
                | Some sc2 => match bind_name sc2 z v3 with Some sc3 => geval sc3 b | None => PReject end
                | None => PReject
                end
            | None => PReject
            end
        | _ => PReject
        end)
  | GFn x b =>
      PVal (DFn (fun f => match bind_name sc x (DFmt f) with
                          | Some sc' => pcatch (geval sc' b) | None => PReject end))
  | GStdFn x b =>
      PVal (DStdFn (fun fl => match bind_name sc x (DStdFlags fl) with
                              | Some sc' => pcatch (geval sc' b) | None => PReject end))
  | GCall p args => gevals args (fun vs => call_item p vs)
  | GCallIdent f e => pbind (geval sc e) (fun v => call_fun (denotes (sc f)) v)
  | GTryThen e b =>
      pbind (geval sc e) (fun v =>
        match v with DRes Ok => geval sc b | DRes Err => PError | _ => PReject end)
  | GLetMut x e b =>
      pbind (geval sc e) (fun v =>
        match bind_name sc x v with Some sc' => geval sc' b | None => PReject end)
  | GAssign x fld e b =>
      pbind (geval sc e) (fun v =>
        match denotes (sc x) with
        | Some (DDiff d) =>
            match set_field d fld v with
            | Some d' =>
                match bind_name sc x (DDiff d') with Some sc' => geval sc' b | None => PReject end
            | None => PReject
            end
        | _ => PReject
        end)
  end.

(** The expression as an expression statement: argument expressions run on the state; [None] in
    the result: one of them did not complete. *)
Inductive evaluation := Completed (v : dval) | Cut | Rejected | Aborted (c : crash).
Fixpoint run_expr (p : prog) (h : H) : H * evaluation :=
  match p with
  | PVal v => (h, Completed v)
  | PError | PReject | PEmit _ _ _ => (h, Rejected)      (* there is no closure to return from, no formatter *)
  | PAbort c => (h, Aborted c)
  | PUser e k => match e h with
                 | (h', Some v) => run_expr (k v) h'
                 | (h', None) => (h', Cut)
                 end
  end.
End Eval.
Arguments Unbound {H}.
Arguments Hideable {H} v.
Arguments Fixed {H} v.
Arguments denotes {H} m.
Arguments geval {H} sc e.
Arguments run_expr {H} p h.
Arguments PVal {H} v.
Arguments PEmit {H} s st k.
Arguments PAbort {H} c.
Arguments PReject {H}.
Arguments PError {H}.
Arguments PUser {H} e k.
Arguments DVal {H} v.
Arguments DFun {H} fc fi.
Arguments DRes {H} r.
Arguments DArguments {H} g.
Arguments Completed {H} v.
Arguments Cut {H}.
Arguments Rejected {H}.
Arguments Aborted {H} c.
