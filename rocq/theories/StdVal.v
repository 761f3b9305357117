(** Model of some std values, written after library/core/src/fmt of the Rust standard library
    (third-party for this repository; used to say what a user sees for strings and integers, and
    to replay /repo/tests/std). *)
From Coq Require Import ZArith.
From Verif Require Import Base Style Fmt SpecStd StdCompat Codegen.

(** [Formatter::write_char] in a loop. *)
Fixpoint emit_repeat (c : char) (n : nat) (k : sprog) : sprog :=
  match n with
  | O => k
  | S n' => SEmit [c] (fun r => match r with Ok => emit_repeat c n' k | Err => SRet Err end)
  end.
(** Write and return on error. *)
Definition emit_try (s : str) (k : sprog) : sprog :=
  SEmit s (fun r => match r with Ok => k | Err => SRet Err end).

(** [Formatter::padding]: how many fill characters go in front. *)
Definition pre_padding (align : align_t) (padding : nat) : nat :=
  match align with
  | ALeft => 0
  | ARight => padding
  | ACenter => Nat.div2 padding
  end.
(** [Formatter::padding] and [PostPadding::write] around [body]. *)
Definition with_padding (fill : char) (align : align_t) (padding : nat) (body : sprog -> sprog) : sprog :=
  let pre := pre_padding align padding in
  emit_repeat fill pre (body (emit_repeat fill (padding - pre) (SRet Ok))).

Definition or_align (a : option align_t) (d : align_t) : align_t :=
  match a with Some x => x | None => d end.

(** [Formatter::pad], which is [Display for str]. *)
Definition std_pad (s : str) : std_display := fun fl =>
  let s := match sf_precision fl with Some p => firstn (N.to_nat p) s | None => s end in
  match sf_width fl with
  | None => SEmit s SRet
  | Some w =>
      if N.to_nat w <=? length s then SEmit s SRet
      else with_padding (sf_fill fl) (or_align (sf_align fl) ALeft) (N.to_nat w - length s) (emit_try s)
  end.

(** [Formatter::pad_integral]: sign and prefix, then digits. *)
Definition write_prefix (sign prefix : str) (k : sprog) : sprog :=
  let k := match prefix with [] => k | _ => emit_try prefix k end in
  match sign with [] => k | _ => emit_try sign k end.
Definition std_pad_integral (nonneg : bool) (prefix digits : str) : std_display := fun fl =>
  let sign := if nonneg then match sf_sign fl with Some SPlus => lit "+" | _ => [] end else lit "-" in
  let prefix := if sf_alternate fl then prefix else [] in
  let width := length digits + length sign + length prefix in
  match sf_width fl with
  | None => write_prefix sign prefix (SEmit digits SRet)
  | Some min =>
      if N.to_nat min <=? width then write_prefix sign prefix (SEmit digits SRet)
      else if sf_zero fl then
        write_prefix sign prefix
          (with_padding 48%N ARight (N.to_nat min - width) (emit_try digits))
      else
        with_padding (sf_fill fl) (or_align (sf_align fl) ARight) (N.to_nat min - width)
          (fun k => write_prefix sign prefix (emit_try digits k))
  end.

(** Digits in a base (at most 16). *)
Definition digit (upper : bool) (d : N) : char :=
  if (d <? 10)%N then (48 + d)%N else ((if upper then 55 else 87) + d)%N.
Fixpoint digits_from (fuel : nat) (upper : bool) (base n : N) (acc : str) : str :=
  match fuel with
  | O => acc
  | S fuel' =>
      let acc := digit upper (n mod base)%N :: acc in
      if (n / base =? 0)%N then acc else digits_from fuel' upper base (n / base)%N acc
  end.
Definition digits (upper : bool) (base n : N) : str :=
  digits_from (S (N.to_nat (N.size n))) upper base n [].

(** The integer [z] of a type with [bits] bits: the std traits.  Simplification: LowerExp and
    UpperExp of integers are not modelled (they fail here). *)
Definition twos (bits : N) (z : Z) : N := Z.to_N (z mod 2 ^ Z.of_N bits)%Z.
Definition int_decimal (z : Z) : std_display :=
  std_pad_integral (0 <=? z)%Z [] (digits false 10 (Z.abs_N z)).
Definition int_radix (upper : bool) (base : N) (prefix : str) (bits : N) (z : Z) : std_display :=
  std_pad_integral true prefix (digits upper base (twos bits z)).
Definition int_std (bits : N) (z : Z) (t : std_trait) : std_display := fun fl =>
  match t with
  | TDisplay => int_decimal z fl
  | TDebug => match sf_debug_hex fl with
              | Some HexLower => int_radix false 16 (lit "0x") bits z fl
              | Some HexUpper => int_radix true 16 (lit "0x") bits z fl
              | None => int_decimal z fl
              end
  | TOctal => int_radix false 8 (lit "0o") bits z fl
  | TLowerHex => int_radix false 16 (lit "0x") bits z fl
  | TUpperHex => int_radix true 16 (lit "0x") bits z fl
  | TBinary => int_radix false 2 (lit "0b") bits z fl
  | TPointer | TLowerExp | TUpperExp => SRet Err
  end.
(** stylish::Display is not implemented for integers and str; here it fails. *)
Definition int_value (bits : N) (z : Z) : value_t := mk_value (int_std bits z) (fun _ => Ret Err).
Definition str_value (s : str) : value_t :=
  mk_value (fun t => match t with TDisplay => std_pad s | _ => fun _ => SRet Err end) (fun _ => Ret Err).

(** [Display for char]: written as it is without width and precision, else padded as a string. *)
Definition char_display (c : char) : std_display := fun fl =>
  match sf_width fl, sf_precision fl with
  | None, None => SEmit [c] SRet
  | _, _ => std_pad [c] fl
  end.
Definition char_value (c : char) : value_t :=
  mk_value (fun t => match t with TDisplay => char_display c | _ => fun _ => SRet Err end) (fun _ => Ret Err).

(** [Display for bool] and [Debug for bool]. *)
Definition bool_display (b : bool) : std_display := std_pad (if b then lit "true" else lit "false").
Definition bool_value (b : bool) : value_t :=
  mk_value (fun t => match t with TDisplay | TDebug => bool_display b | _ => fun _ => SRet Err end) (fun _ => Ret Err).

(** [p?; q]. *)
Fixpoint sprog_then (p q : sprog) : sprog :=
  match p with
  | SRet Ok => q
  | SRet Err => SRet Err
  | SAbort c => SAbort c
  | SEmit s k => SEmit s (fun r => sprog_then (k r) q)
  end.

(** [str::split_inclusive('\n')]; [cur] is the piece read so far, reversed. *)
Fixpoint split_lines (s cur : str) : list str :=
  match s with
  | [] => match cur with [] => [] | _ => [rev cur] end
  | c :: r => if (c =? 10)%N then rev (c :: cur) :: split_lines r [] else split_lines r (c :: cur)
  end.
(** [PadAdapter::write_str]: indents at the start of every line. *)
Definition ends_line (s : str) : bool :=
  match rev s with c :: _ => (c =? 10)%N | [] => false end.
Fixpoint pad_lines (on_newline : bool) (lines : list str) (k : bool -> fresult -> sprog) : sprog :=
  match lines with
  | [] => k on_newline Ok
  | s :: r =>
      let write := SEmit s (fun x => match x with
        | Ok => pad_lines (ends_line s) r k | Err => k (ends_line s) Err end) in
      if on_newline
      then SEmit (lit "    ") (fun x => match x with Ok => write | Err => k on_newline Err end)
      else write
  end.
(** A value formatted into a PadAdapter; [k] goes on with it, if there is no error. *)
Fixpoint pad_adapter (on_newline : bool) (p : sprog) (k : bool -> sprog) : sprog :=
  match p with
  | SRet Ok => k on_newline
  | SRet Err => SRet Err
  | SAbort c => SAbort c
  | SEmit s kk => pad_lines on_newline (split_lines s []) (fun on r => pad_adapter on (kk r) k)
  end.

(** [Debug for [u8]], that is DebugList: every element with the same flags, with the alternate
    flag each on its own line ([DebugInner::entry], [DebugList::finish]). *)
Fixpoint debug_items (first : bool) (l : list Z) (fl : std_flags) (k : sprog) : sprog :=
  match l with
  | [] => k
  | z :: r =>
      let item := sprog_then (int_std 8 z TDebug fl) (debug_items false r fl k) in
      if first then item else emit_try (lit ", ") item
  end.
Fixpoint debug_lines (first : bool) (l : list Z) (fl : std_flags) (k : sprog) : sprog :=
  match l with
  | [] => k
  | z :: r =>
      let item := pad_adapter true (int_std 8 z TDebug fl) (fun on =>
                    pad_adapter on (SEmit (lit "," ++ [10%N]) SRet) (fun _ => debug_lines false r fl k)) in
      if first then emit_try [10%N] item else item
  end.
Definition bytes_value (l : list Z) : value_t :=
  mk_value (fun t fl => match t with
    | TDebug => emit_try (lit "[")
        ((if sf_alternate fl then debug_lines else debug_items) true l fl (SEmit (lit "]") SRet))
    | _ => SRet Err end) (fun _ => Ret Err).
