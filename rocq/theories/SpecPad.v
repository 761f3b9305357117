(** Specification: width, precision, alignment, sign, '#' and '0' for strings and integers, after
    the std::fmt documentation (Formatting Parameters). *)
From Verif Require Import Base Fmt.

(** How padding is split around the text. *)
Definition split_by (align : align_t) (before after : nat) : Prop :=
  match align with
  | ALeft => before = 0
  | ARight => after = 0
  | ACenter => after = before \/ after = before + 1
  end.

(** [padded fill align width s out]: [out] is [s], filled up to [width] characters if it is
    shorter. *)
Inductive padded (fill : char) (align : align_t) : option N -> str -> str -> Prop :=
  | pd_free s : padded fill align None s s
  | pd_fits w s : N.to_nat w <= length s -> padded fill align (Some w) s s
  | pd_filled w s before after :
      before + length s + after = N.to_nat w -> split_by align before after ->
      padded fill align (Some w) s (repeat fill before ++ s ++ repeat fill after).

(** At most [p] characters. *)
Definition truncated (p : option N) (s : str) : str :=
  match p with Some p => firstn (N.to_nat p) s | None => s end.

Definition align_or (d : align_t) (a : option align_t) : align_t :=
  match a with Some a => a | None => d end.

(** A string: truncated to the precision, then padded with spaces, to the left by default. *)
Definition string_text (fl : formatter_args) (s out : str) : Prop :=
  padded 32%N (align_or ALeft (fa_align fl)) (fa_width fl) (truncated (fa_precision fl) s) out.

(** An integer: sign, prefix (only with '#') and digits; with '0' zeros go between prefix and
    digits up to the width and the alignment is ignored, otherwise padded with spaces, to the
    right by default. *)
Definition integer_text (fl : formatter_args) (negative : bool) (prefix digits out : str) : Prop :=
  let sign := if negative then lit "-"
              else match fa_sign fl with Some SPlus => lit "+" | _ => [] end in
  let prefix : str := if fa_alternate fl then prefix else [] in
  let head := sign ++ prefix in
  if fa_zero fl
  then exists zeros, out = head ++ repeat 48%N zeros ++ digits /\
       match fa_width fl with
       | None => zeros = 0
       | Some w => length out = Nat.max (N.to_nat w) (length (head ++ digits))
       end
  else padded 32%N (align_or ARight (fa_align fl)) (fa_width fl) (head ++ digits) out.

(** The digits of a number in some base, most significant first, no superfluous zeros. *)
Definition digit_value (c : char) : N :=
  if (c <=? 57)%N then (c - 48)%N else if (c <=? 70)%N then (c - 55)%N else (c - 87)%N.
Definition read_number (base : N) (s : str) : N :=
  fold_left (fun acc c => base * acc + digit_value c)%N s 0%N.
(** A digit, letters in the given case. *)
Definition digit_char (upper : bool) (c : char) : Prop :=
  (48 <= c <= 57 \/ if upper then 65 <= c <= 70 else 97 <= c <= 102)%N.
Definition numeral (upper : bool) (base n : N) (s : str) : Prop :=
  read_number base s = n /\ s <> [] /\
  Forall (fun c => digit_char upper c /\ (digit_value c < base)%N) s /\
  (hd_error s = Some 48%N -> s = [48%N]).

(** The texts of a list, separated by a comma and a space, in brackets. *)
Definition bracketed (texts : list str) (out : str) : Prop :=
  match texts with
  | [] => out = lit "[]"
  | t :: r => out = lit "[" ++ t ++ flat_map (fun t => lit ", " ++ t) r ++ lit "]"
  end.

(** The same, each text on an indented line of its own. *)
Definition bracketed_lines (texts : list str) (out : str) : Prop :=
  match texts with
  | [] => out = lit "[]"
  | _ => out = lit "[" ++ [10%N] ++ flat_map (fun t => lit "    " ++ t ++ lit "," ++ [10%N]) texts ++ lit "]"
  end.
