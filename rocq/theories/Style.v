(** Model of style/src/lib.rs. *)
From Verif Require Import Base.

(** style/src/lib.rs:13-53 [enum Color]; derives [PartialEq] (line 16) as [color_beq]. *)
Inductive color :=
  | Black | Red | Green | Yellow | Blue | Magenta | Cyan | White
  | BrightBlack | BrightRed | BrightGreen | BrightYellow | BrightBlue | BrightMagenta
  | BrightCyan | BrightWhite
  | ColorDefault.

(** style/src/lib.rs:55-65 [enum Intensity]. *)
Inductive intensity := Normal | Bold | Faint.

(** Derived [PartialEq], style/src/lib.rs:16. *)
Definition color_code (c : color) : N :=
  match c with
  | Black => 0 | Red => 1 | Green => 2 | Yellow => 3 | Blue => 4 | Magenta => 5
  | Cyan => 6 | White => 7 | BrightBlack => 8 | BrightRed => 9 | BrightGreen => 10
  | BrightYellow => 11 | BrightBlue => 12 | BrightMagenta => 13 | BrightCyan => 14
  | BrightWhite => 15 | ColorDefault => 16
  end%N.
Definition color_eqb (a b : color) : bool := N.eqb (color_code a) (color_code b).

(** Derived [PartialEq], style/src/lib.rs:56. *)
Definition intensity_eqb (a b : intensity) : bool :=
  match a, b with
  | Normal, Normal | Bold, Bold | Faint, Faint => true
  | _, _ => false
  end.

(** style/src/lib.rs:147-159 [Default for Color], [Default for Intensity]. *)
Definition color_default : color := ColorDefault.
Definition intensity_default : intensity := Normal.

(** style/src/lib.rs:67-78 [struct Style]. *)
Record style := mk_style {
  foreground : color;
  background : color;
  intens : intensity
}.

(** Derived [Default], style/src/lib.rs:69. *)
Definition style_default : style :=
  mk_style color_default color_default intensity_default.

(** Derived [PartialEq], style/src/lib.rs:69. *)
Definition style_eqb (a b : style) : bool :=
  color_eqb (foreground a) (foreground b)
  && color_eqb (background a) (background b)
  && intensity_eqb (intens a) (intens b).

(** style/src/lib.rs:80-93 [struct StyleDiff]. *)
Record style_diff := mk_diff {
  d_foreground : option color;
  d_background : option color;
  d_intensity : option intensity
}.

(** Derived [Default], style/src/lib.rs:84. *)
Definition diff_default : style_diff := mk_diff None None None.

(** style/src/lib.rs:105-119 [struct Foreground], [struct Background]. *)
Inductive foreground_t := Foreground (c : color).
Inductive background_t := Background (c : color).

(** style/src/lib.rs:141-145 [trait Restyle]: the dictionary is the method
    [apply(&self, style: Style) -> Style].  Simplification: user implementations are pure
    functions of [self] and [style]. *)
Definition Restyle (T : Type) := T -> style -> style.

(** style/src/lib.rs:172-174 [Style::with]. *)
Definition style_with {T} (d : Restyle T) (self : style) (adj : T) : style := d adj self.

(** style/src/lib.rs:201-207, the local [fn diff] in [diff_from]. *)
Definition diff_field {T} (eqb : T -> T -> bool) (original new : T) : option T :=
  if eqb original new then None else Some new.

(** style/src/lib.rs:200-214 [Style::diff_from]. *)
Definition diff_from (self original : style) : style_diff :=
  mk_diff (diff_field color_eqb (foreground original) (foreground self))
          (diff_field color_eqb (background original) (background self))
          (diff_field intensity_eqb (intens original) (intens self)).

(** style/src/lib.rs:217-221 [Restyle for &T]. *)
Definition Restyle_ref {T} (d : Restyle T) : Restyle T := fun self st => d self st.

(** style/src/lib.rs:224-228 [Restyle for Box<T>]. *)
Definition Restyle_box {T} (d : Restyle T) : Restyle T := fun self st => d self st.

(** style/src/lib.rs:230-237 [Restyle for [T]]: the loop. *)
Definition Restyle_slice {T} (d : Restyle T) : Restyle (list T) :=
  fun self st => fold_left (fun st restyle => d restyle st) self st.

(** style/src/lib.rs:239-243 [Restyle for Option<T>]. *)
Definition Restyle_option {T} (d : Restyle T) : Restyle (option T) :=
  fun self st => match self with Some s => d s st | None => st end.

(** style/src/lib.rs:257-262 [Restyle for Style]. *)
Definition Restyle_Style : Restyle style := fun self _ => self.

(** style/src/lib.rs:264-273 [Restyle for Foreground]. *)
Definition Restyle_Foreground : Restyle foreground_t :=
  fun self st => match self with Foreground c => mk_style c (background st) (intens st) end.

(** style/src/lib.rs:275-284 [Restyle for Background]. *)
Definition Restyle_Background : Restyle background_t :=
  fun self st => match self with Background c => mk_style (foreground st) c (intens st) end.

(** style/src/lib.rs:286-294 [Restyle for Intensity]. *)
Definition Restyle_Intensity : Restyle intensity :=
  fun self st => mk_style (foreground st) (background st) self.

(** style/src/lib.rs:296-301 [Restyle for ()]. *)
Definition Restyle_unit : Restyle unit := fun _ st => st.

(** style/src/lib.rs:303-307 [Restyle for (T, U)]. *)
Definition Restyle_pair {T U} (dt : Restyle T) (du : Restyle U) : Restyle (T * U) :=
  fun self st =>
    style_with (Restyle_ref du) (style_with (Restyle_ref dt) st (fst self)) (snd self).

(** style/src/lib.rs:309-313 [Restyle for (T, U, V)]. *)
Definition Restyle_triple {T U V} (dt : Restyle T) (du : Restyle U) (dv : Restyle V)
  : Restyle (T * U * V) :=
  fun self st =>
    match self with
    | (a, b, c) =>
        style_with (Restyle_ref dv)
          (style_with (Restyle_ref du) (style_with (Restyle_ref dt) st a) b) c
    end.

(** style/src/lib.rs:245-255 [Restyle for StyleDiff]. *)
Definition Restyle_StyleDiff : Restyle style_diff :=
  fun self st =>
    Restyle_triple (Restyle_option Restyle_Foreground) (Restyle_option Restyle_Background)
      (Restyle_option Restyle_Intensity)
      (option_map Foreground (d_foreground self), option_map Background (d_background self),
       d_intensity self) st.
