(** Model of core/src/std_compat.rs and of the std part of core/src/arguments.rs. *)
From Verif Require Import Base Style Fmt SpecStd.

(** One arm under construction in the token recursion of [std_write!]
    (core/src/std_compat.rs:2): the field patterns, the string literals for [concat!] and
    the extra named arguments.  A pattern is the predicate it matches; a named argument is
    the name and the binding the pattern makes. *)
Record arm := mk_arm {
  a_pat : formatter_args -> bool;
  a_strs : list str;
  a_named : list (str * (formatter_args -> option N))
}.

(** Add a field pattern in front of an arm, with literals and named arguments in front. *)
Definition arm_with (p : formatter_args -> bool) (ss : list str)
  (named : list (str * (formatter_args -> option N))) (a : arm) : arm :=
  mk_arm (fun f => p f && a_pat a f) (ss ++ a_strs a) (named ++ a_named a).

(** core/src/std_compat.rs:13-18, step [precision]. *)
Definition step_precision (arms : list arm) : list arm :=
  map (arm_with (fun f => match fa_precision f with None => true | _ => false end) [] []) arms
  ++ map (arm_with (fun f => match fa_precision f with Some _ => true | _ => false end)
            [lit ".precision$"] [(lit "precision", fa_precision)]) arms.

(** core/src/std_compat.rs:20-25, step [width]. *)
Definition step_width (arms : list arm) : list arm :=
  map (arm_with (fun f => match fa_width f with None => true | _ => false end) [] []) arms
  ++ map (arm_with (fun f => match fa_width f with Some _ => true | _ => false end)
            [lit "width$"] [(lit "width", fa_width)]) arms.

(** core/src/std_compat.rs:27-32, step [zero]. *)
Definition step_zero (arms : list arm) : list arm :=
  map (arm_with (fun f => negb (fa_zero f)) [] []) arms
  ++ map (arm_with (fun f => fa_zero f) [lit "0"] []) arms.

(** core/src/std_compat.rs:34-39, step [alternate]. *)
Definition step_alternate (arms : list arm) : list arm :=
  map (arm_with (fun f => negb (fa_alternate f)) [] []) arms
  ++ map (arm_with (fun f => fa_alternate f) [lit "#"] []) arms.

(** core/src/std_compat.rs:41-47, step [sign]. *)
Definition step_sign (arms : list arm) : list arm :=
  map (arm_with (fun f => match fa_sign f with None => true | _ => false end) [] []) arms
  ++ map (arm_with (fun f => match fa_sign f with Some SPlus => true | _ => false end)
            [lit "+"] []) arms
  ++ map (arm_with (fun f => match fa_sign f with Some SMinus => true | _ => false end)
            [lit "-"] []) arms.

(** core/src/std_compat.rs:49-56, step [align]. *)
Definition step_align (arms : list arm) : list arm :=
  map (arm_with (fun f => match fa_align f with None => true | _ => false end) [] []) arms
  ++ map (arm_with (fun f => match fa_align f with Some ALeft => true | _ => false end)
            [lit "<"] []) arms
  ++ map (arm_with (fun f => match fa_align f with Some ACenter => true | _ => false end)
            [lit "^"] []) arms
  ++ map (arm_with (fun f => match fa_align f with Some ARight => true | _ => false end)
            [lit ">"] []) arms.

(** core/src/std_compat.rs:60-62, the initial arm for every trait but Debug. *)
Definition arms_other : list arm :=
  [mk_arm (fun _ => true) [lit ""] []].

(** core/src/std_compat.rs:65-71, the initial arms for Debug. *)
Definition arms_debug : list arm :=
  [ mk_arm (fun f => match fa_debug_hex f with None => true | _ => false end) [lit "?"] [];
    mk_arm (fun f => match fa_debug_hex f with Some HexLower => true | _ => false end)
      [lit "x?"] [];
    mk_arm (fun f => match fa_debug_hex f with Some HexUpper => true | _ => false end)
      [lit "X?"] [] ].

(** core/src/std_compat.rs:73-75: the flag list [precision width zero alternate sign align],
    processed left to right. *)
Definition expand (init : list arm) : list arm :=
  step_align (step_sign (step_alternate (step_zero (step_width (step_precision init))))).

(** core/src/std_compat.rs:2-11: the final [match]: the first arm whose patterns match, its
    literal [concat!("{:", .., "}")] and its named arguments.  [None]: no arm matches. *)
Fixpoint select (arms : list arm) (f : formatter_args) : option (str * list (str * N)) :=
  match arms with
  | [] => None
  | a :: r =>
      if a_pat a f then
        Some (lit "{:" ++ concat (a_strs a) ++ lit "}",
              flat_map (fun nb => match snd nb f with Some v => [(fst nb, v)] | None => [] end)
                (a_named a))
      else select r f
  end.

(** core/src/std_compat.rs:78-84 [StdProxy]: every [write_str] of the std implementation goes
    to [Formatter::write_str]. *)
Fixpoint through_proxy (f : formatter) (p : sprog) : wprog :=
  match p with
  | SRet r => Ret r
  | SAbort c => Abort c
  | SEmit s k => bind (formatter_write_str f s) (fun r => through_proxy f (k r))
  end.

(** core/src/std_compat.rs:7 [core::write!(StdProxy(f), literal, *val, named..)].  The value
    is a [StdFmt], whose [Display] and [Debug] impls both call the stored closure
    (core/src/arguments.rs:11-23), so the kind selected by the literal does not matter.
    [Abort Panic] stands for a call rustc would reject or a non-exhaustive match: proved
    unreachable. *)
Definition std_write (arms : list arm) (f : formatter) (val : std_display) : wprog :=
  match select arms (fm_format f) with
  | None => Abort Panic
  | Some (literal, env) =>
      match std_write_call literal env with
      | None => Abort Panic
      | Some (_, flags) => through_proxy f (val flags)
      end
  end.

(** core/src/arguments.rs:62-68 [Display for StdFmtOther]. *)
Definition Display_StdFmtOther (val : std_display) : display :=
  fun f => std_write (expand arms_other) f val.

(** core/src/arguments.rs:70-76 [Display for StdFmtDebug]. *)
Definition Display_StdFmtDebug (val : std_display) : display :=
  fun f => std_write (expand arms_debug) f val.
