(** Specification for the generated expression evaluated at the place of the call (C74). *)
From Verif Require Import Base Style Fmt SpecStd Codegen Parse SpecMeaning Quote.

(** [performs p w]: the computation does exactly what [w] does: the same writes, in order, whatever
    their results, and the same result; no expression of the user is run, nothing is rejected. *)
Inductive performs {H} : prog H -> wprog -> Prop :=
  | pf_ret r : performs (PVal (DRes r)) (Ret r)
  | pf_abort c : performs (PAbort c) (Abort c)
  | pf_emit s st k k' : (forall r, performs (k r) (k' r)) -> performs (PEmit s st k) (Emit s st k').

(** The standard library's [Some]. *)
Definition std_some {H} : dval H := DFun (Some Some) (Some Some).

(** Some placeholder sets an attribute. *)
Definition sets_attribute (p : piece) : Prop :=
  match p with Lit _ => False | Arg a => fs_style (fa_spec a) <> diff_default end.

(** Names that a constant, static, unit or tuple struct or enum variant at the place of the call must
    not have. *)
Definition reserved : list str :=
  [lit "__stylish_positional_args"; lit "__stylish_named_args"; lit "__stylish_implicit_named_args";
   lit "__stylish_formatter"; lit "__stylish_arg"; lit "diff"].
