(** Model of std's Debug builders (library/core/src/fmt/builders.rs; third-party for this
    repository: core/src/formatter.rs:50-58 and every [derive(Debug)] of the repository use
    them, and so do the values users show with Debug placeholders; /repo/tests/std/builders.rs has
    their tests, which the repository does not compile).  Everything is written through
    [Formatter::write_str]; the fields get the same flags. *)
From Coq Require Import ZArith.
From Verif Require Import Base Style Fmt SpecStd StdCompat Codegen StdVal.

(** [PadAdapter] around some writes, with its state at the start of a line, then [k]. *)
Definition indented (p k : sprog) : sprog := pad_adapter true p (fun _ => k).
Definition comma_line : sprog := SEmit (lit "," ++ [10%N]) SRet.

(** [DebugStruct::field]; [has]: there was a field before. *)
Definition struct_field (pretty has : bool) (name : str) (v k : sprog) : sprog :=
  if pretty then
    let line := indented (emit_try name (emit_try (lit ": ") (sprog_then v comma_line))) k in
    if has then line else emit_try (lit " {" ++ [10%N]) line
  else emit_try (if has then lit ", " else lit " { ")
         (emit_try name (emit_try (lit ": ") (sprog_then v k))).
Fixpoint struct_fields (pretty has : bool) (l : list (str * sprog)) (k : bool -> sprog) : sprog :=
  match l with
  | [] => k has
  | (n, v) :: r => struct_field pretty has n v (struct_fields pretty true r k)
  end.
(** [DebugStruct::finish] and [finish_non_exhaustive] (the version the repository's tests describe). *)
Definition struct_finish (pretty has : bool) : sprog :=
  if has then SEmit (if pretty then lit "}" else lit " }") SRet else SRet Ok.
Definition struct_finish_dots (pretty has : bool) : sprog :=
  if pretty then
    let dots := indented (SEmit (lit ".." ++ [10%N]) SRet) (SEmit (lit "}") SRet) in
    if has then dots else emit_try (lit " {" ++ [10%N]) dots
  else SEmit (if has then lit ", .. }" else lit " { .. }") SRet.
(** [Formatter::debug_struct(name)], the fields, then one of the two ends. *)
Definition debug_struct (pretty : bool) (name : str) (l : list (str * sprog)) (exhaustive : bool) : sprog :=
  emit_try name (struct_fields pretty false l
    (if exhaustive then struct_finish pretty else struct_finish_dots pretty)).

(** [DebugTuple::field]; [n] is the number of fields before. *)
Definition tuple_field (pretty : bool) (n : nat) (v k : sprog) : sprog :=
  if pretty then
    let line := indented (sprog_then v comma_line) k in
    match n with O => emit_try (lit "(" ++ [10%N]) line | S _ => line end
  else emit_try (match n with O => lit "(" | S _ => lit ", " end) (sprog_then v k).
Fixpoint tuple_fields (pretty : bool) (n : nat) (l : list sprog) (k : nat -> sprog) : sprog :=
  match l with
  | [] => k n
  | v :: r => tuple_field pretty n v (tuple_fields pretty (S n) r k)
  end.
(** [DebugTuple::finish]: a nameless tuple of one field gets a comma. *)
Definition tuple_finish (pretty nameless : bool) (n : nat) : sprog :=
  match n with
  | O => SRet Ok
  | S m =>
      let close := SEmit (lit ")") SRet in
      if (match m with O => true | S _ => false end) && nameless && negb pretty
      then emit_try (lit ",") close else close
  end.
Definition debug_tuple (pretty : bool) (name : str) (l : list sprog) : sprog :=
  emit_try name (tuple_fields pretty 0 l
    (tuple_finish pretty (match name with [] => true | _ => false end))).

(** [DebugInner::entry], used by [DebugList] and [DebugSet]. *)
Definition inner_entry (pretty has : bool) (v k : sprog) : sprog :=
  if pretty then
    let line := indented (sprog_then v comma_line) k in
    if has then line else emit_try [10%N] line
  else
    let item := sprog_then v k in
    if has then emit_try (lit ", ") item else item.
Fixpoint inner_entries (pretty has : bool) (l : list sprog) (k : sprog) : sprog :=
  match l with
  | [] => k
  | v :: r => inner_entry pretty has v (inner_entries pretty true r k)
  end.
Definition debug_list (pretty : bool) (l : list sprog) : sprog :=
  emit_try (lit "[") (inner_entries pretty false l (SEmit (lit "]") SRet)).
Definition debug_set (pretty : bool) (l : list sprog) : sprog :=
  emit_try (lit "{") (inner_entries pretty false l (SEmit (lit "}") SRet)).

(** [DebugMap]: calls of [key] and [value] ([entry] is one of each); the three assertions panic.
    [has_key] and [on_newline] are the builder's state between the calls. *)
Inductive map_call := MKey (v : sprog) | MValue (v : sprog).
Fixpoint map_calls (pretty has has_key on_newline : bool) (l : list map_call) : sprog :=
  match l with
  | [] => if has_key then SAbort Panic else SEmit (lit "}") SRet
  | MKey v :: r =>
      if has_key then SAbort Panic
      else if pretty then
        let line := pad_adapter true (sprog_then v (SEmit (lit ": ") SRet))
                      (fun on => map_calls pretty has true on r) in
        if has then line else emit_try [10%N] line
      else
        let item := sprog_then v (emit_try (lit ": ") (map_calls pretty has true on_newline r)) in
        if has then emit_try (lit ", ") item else item
  | MValue v :: r =>
      if negb has_key then SAbort Panic
      else if pretty then
        pad_adapter on_newline (sprog_then v comma_line) (fun on => map_calls pretty true false on r)
      else sprog_then v (map_calls pretty true false on_newline r)
  end.
Definition debug_map (pretty : bool) (l : list map_call) : sprog :=
  emit_try (lit "{") (map_calls pretty false false true l).

(** A Debug implementation written with the builders (every derived one is): a value of its own
    at the leaves. *)
Inductive dbg :=
  | DLeaf (v : std_display)
  | DStruct (name : str) (fields : list (str * dbg)) (exhaustive : bool)
  | DTuple (name : str) (fields : list dbg)
  | DList (entries : list dbg)
  | DSet (entries : list dbg)
  | DMap (entries : list (dbg * dbg)).

Fixpoint debug_std (d : dbg) (fl : std_flags) {struct d} : sprog :=
  let pretty := sf_alternate fl in
  match d with
  | DLeaf v => v fl
  | DStruct name fields exhaustive =>
      debug_struct pretty name (map (fun f => (fst f, debug_std (snd f) fl)) fields) exhaustive
  | DTuple name fields => debug_tuple pretty name (map (fun x => debug_std x fl) fields)
  | DList entries => debug_list pretty (map (fun x => debug_std x fl) entries)
  | DSet entries => debug_set pretty (map (fun x => debug_std x fl) entries)
  | DMap entries =>
      debug_map pretty
        (flat_map (fun e => [MKey (debug_std (fst e) fl); MValue (debug_std (snd e) fl)]) entries)
  end.

(** A value with such a Debug implementation, and no other trait. *)
Definition dbg_value (d : dbg) : value_t :=
  mk_value (fun t => match t with TDebug => debug_std d | _ => fun _ => SRet Err end) (fun _ => Ret Err).
(** Text written with [write_str] whatever the flags: what [derive(Debug)] does for a variant
    without fields. *)
Definition DUnit (name : str) : dbg := DLeaf (fun _ => SEmit name SRet).
(** Derived Debug of [Option]. *)
Definition dbg_option {A} (f : A -> dbg) (o : option A) : dbg :=
  match o with Some x => DTuple (lit "Some") [f x] | None => DUnit (lit "None") end.
Definition dbg_bool (b : bool) : dbg := DLeaf (bool_display b).
(** [usize] on a 64-bit target, and a reference to one. *)
Definition dbg_usize (n : N) : dbg := DLeaf (int_std 64 (Z.of_N n) TDebug).

(** * The Debug implementations of the repository *)

(** style/src/lib.rs:16-53, derived. *)
Definition color_variant (c : color) : str :=
  match c with
  | Black => lit "Black" | Red => lit "Red" | Green => lit "Green" | Yellow => lit "Yellow"
  | Blue => lit "Blue" | Magenta => lit "Magenta" | Cyan => lit "Cyan" | White => lit "White"
  | BrightBlack => lit "BrightBlack" | BrightRed => lit "BrightRed" | BrightGreen => lit "BrightGreen"
  | BrightYellow => lit "BrightYellow" | BrightBlue => lit "BrightBlue"
  | BrightMagenta => lit "BrightMagenta" | BrightCyan => lit "BrightCyan"
  | BrightWhite => lit "BrightWhite" | ColorDefault => lit "Default"
  end.
Definition dbg_color (c : color) : dbg := DUnit (color_variant c).
(** style/src/lib.rs:56-65, derived. *)
Definition intensity_variant (i : intensity) : str :=
  match i with Normal => lit "Normal" | Bold => lit "Bold" | Faint => lit "Faint" end.
Definition dbg_intensity (i : intensity) : dbg := DUnit (intensity_variant i).
(** style/src/lib.rs:69-78, derived. *)
Definition dbg_style (s : style) : dbg :=
  DStruct (lit "Style") [(lit "foreground", dbg_color (foreground s));
    (lit "background", dbg_color (background s)); (lit "intensity", dbg_intensity (intens s))] true.
(** style/src/lib.rs:84-93, derived. *)
Definition dbg_diff (d : style_diff) : dbg :=
  DStruct (lit "StyleDiff") [(lit "foreground", dbg_option dbg_color (d_foreground d));
    (lit "background", dbg_option dbg_color (d_background d));
    (lit "intensity", dbg_option dbg_intensity (d_intensity d))] true.
(** style/src/lib.rs:105-106 and 118-119, derived. *)
Definition dbg_foreground (c : color) : dbg := DTuple (lit "Foreground") [dbg_color c].
Definition dbg_background (c : color) : dbg := DTuple (lit "Background") [dbg_color c].
(** core/src/formatter.rs:4-9, 12-16, 19-23, derived. *)
Definition dbg_align (a : align_t) : dbg :=
  DUnit match a with ALeft => lit "Left" | ACenter => lit "Center" | ARight => lit "Right" end.
Definition dbg_sign (s : sign_t) : dbg :=
  DUnit match s with SPlus => lit "Plus" | SMinus => lit "Minus" end.
Definition dbg_hex (h : debug_hex_t) : dbg :=
  DUnit match h with HexLower => lit "Lower" | HexUpper => lit "Upper" end.
(** core/src/formatter.rs:26-35, derived. *)
Definition dbg_args (a : formatter_args) : dbg :=
  DStruct (lit "FormatterArgs") [(lit "align", dbg_option dbg_align (fa_align a));
    (lit "sign", dbg_option dbg_sign (fa_sign a));
    (lit "alternate", dbg_bool (fa_alternate a)); (lit "zero", dbg_bool (fa_zero a));
    (lit "width", dbg_option dbg_usize (fa_width a));
    (lit "precision", dbg_option dbg_usize (fa_precision a));
    (lit "debug_hex", dbg_option dbg_hex (fa_debug_hex a))] true.
(** core/src/formatter.rs:50-58 [Debug for Formatter]: the writer is not shown. *)
Definition dbg_formatter (f : formatter) : dbg :=
  DStruct (lit "Formatter") [(lit "style", dbg_style (fm_style f)); (lit "format", dbg_args (fm_format f))] true.
