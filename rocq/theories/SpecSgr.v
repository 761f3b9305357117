(** Specification vocabulary for the size of ANSI output. *)
From Coq Require Import DecimalN DecimalString.
From Verif Require Import Base Style SpecText SpecTerminal.

(** Decimal text of a number. *)
Definition dec (n : N) : str := lit (NilZero.string_of_uint (N.to_uint n)).

(** An SGR control sequence with the given parameters. *)
Fixpoint sgr_params (ps : list N) : str :=
  match ps with
  | [] => []
  | [p] => dec p
  | p :: r => dec p ++ 59%N :: sgr_params r
  end.
Definition sgr_sequence (ps : list N) : str := 27%N :: 91%N :: sgr_params ps ++ [109%N].

(** In how many attributes two styles differ. *)
Definition differs {A} (eq_dec : forall x y : A, {x = y} + {x <> y}) (x y : A) : nat :=
  if eq_dec x y then 0 else 1.
Definition color_eq_dec (x y : color) : {x = y} + {x <> y}.
Proof. decide equality. Defined.
Definition intensity_eq_dec (x y : intensity) : {x = y} + {x <> y}.
Proof. decide equality. Defined.
Definition attributes_changed (a b : style) : nat :=
  differs color_eq_dec (foreground a) (foreground b)
  + differs color_eq_dec (background a) (background b)
  + differs intensity_eq_dec (intens a) (intens b).

(** How often the style changes along a styled text, starting in [cur]. *)
Fixpoint style_changes (cur : style) (t : stext) : nat :=
  match t with
  | [] => 0
  | (_, st) :: r =>
      (if Nat.eqb (attributes_changed cur st) 0 then 0 else 1) + style_changes st r
  end.

(** Occurrences of a character. *)
Definition occurrences (c : char) (s : str) : nat := count_occ N.eq_dec s c.
