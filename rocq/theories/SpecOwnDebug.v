(** Specification for C86: what the types of the repository show with a Debug placeholder. *)
From Verif Require Import Base Style Fmt SpecStd Codegen Builders SpecPad.

(** The names of the variants, as in the documentation of the crate. *)
Inductive color_called : color -> str -> Prop :=
  | called_black : color_called Black (lit "Black")
  | called_red : color_called Red (lit "Red")
  | called_green : color_called Green (lit "Green")
  | called_yellow : color_called Yellow (lit "Yellow")
  | called_blue : color_called Blue (lit "Blue")
  | called_magenta : color_called Magenta (lit "Magenta")
  | called_cyan : color_called Cyan (lit "Cyan")
  | called_white : color_called White (lit "White")
  | called_bright c n : color_called c n -> In c [Black; Red; Green; Yellow; Blue; Magenta; Cyan; White] ->
      forall b, In (c, b) [(Black, BrightBlack); (Red, BrightRed); (Green, BrightGreen); (Yellow, BrightYellow);
        (Blue, BrightBlue); (Magenta, BrightMagenta); (Cyan, BrightCyan); (White, BrightWhite)] ->
      color_called b (lit "Bright" ++ n)
  | called_default : color_called ColorDefault (lit "Default").
Inductive intensity_called : intensity -> str -> Prop :=
  | called_normal : intensity_called Normal (lit "Normal")
  | called_bold : intensity_called Bold (lit "Bold")
  | called_faint : intensity_called Faint (lit "Faint").

(** A style, on one line and with '#'. *)
Inductive style_shown : bool -> style -> str -> Prop :=
  | shown_line fg bg i f b n : color_called fg f -> color_called bg b -> intensity_called i n ->
      style_shown false (mk_style fg bg i)
        (lit "Style { foreground: " ++ f ++ lit ", background: " ++ b ++ lit ", intensity: " ++ n ++ lit " }")
  | shown_lines fg bg i f b n : color_called fg f -> color_called bg b -> intensity_called i n ->
      style_shown true (mk_style fg bg i)
        (lit "Style {" ++ [10%N] ++
         lit "    foreground: " ++ f ++ lit "," ++ [10%N] ++
         lit "    background: " ++ b ++ lit "," ++ [10%N] ++
         lit "    intensity: " ++ n ++ lit "," ++ [10%N] ++ lit "}").

(** A color used as a foreground or background. *)
Inductive attribute_shown : bool -> str -> color -> str -> Prop :=
  | attribute_line kind c n : color_called c n -> attribute_shown false kind c (kind ++ lit "(" ++ n ++ lit ")")
  | attribute_lines kind c n : color_called c n ->
      attribute_shown true kind c (kind ++ lit "(" ++ [10%N] ++ lit "    " ++ n ++ lit "," ++ [10%N] ++ lit ")").

(** A [usize] on a 64-bit target. *)
Definition usize_fits (o : option N) : Prop := match o with Some n => (n < 2 ^ 64)%N | None => True end.

(** An attribute of a change of style, on one line and with '#' (as a field, so indented). *)
Inductive option_shown {A} (called : A -> str -> Prop) : bool -> option A -> str -> Prop :=
  | shown_none b : option_shown called b None (lit "None")
  | some_line x n : called x n -> option_shown called false (Some x) (lit "Some(" ++ n ++ lit ")")
  | some_lines x n : called x n ->
      option_shown called true (Some x) (lit "Some(" ++ [10%N] ++ lit "        " ++ n ++ lit "," ++ [10%N] ++ lit "    )").
Inductive diff_shown : bool -> style_diff -> str -> Prop :=
  | diff_line fg bg i f b n :
      option_shown color_called false fg f -> option_shown color_called false bg b -> option_shown intensity_called false i n ->
      diff_shown false (mk_diff fg bg i)
        (lit "StyleDiff { foreground: " ++ f ++ lit ", background: " ++ b ++ lit ", intensity: " ++ n ++ lit " }")
  | diff_lines fg bg i f b n :
      option_shown color_called true fg f -> option_shown color_called true bg b -> option_shown intensity_called true i n ->
      diff_shown true (mk_diff fg bg i)
        (lit "StyleDiff {" ++ [10%N] ++
         lit "    foreground: " ++ f ++ lit "," ++ [10%N] ++
         lit "    background: " ++ b ++ lit "," ++ [10%N] ++
         lit "    intensity: " ++ n ++ lit "," ++ [10%N] ++ lit "}").

(** A formatter with its flags, on one line. *)
Inductive align_called : align_t -> str -> Prop :=
  | called_left : align_called ALeft (lit "Left")
  | called_center : align_called ACenter (lit "Center")
  | called_right : align_called ARight (lit "Right").
Inductive sign_called : sign_t -> str -> Prop :=
  | called_plus : sign_called SPlus (lit "Plus")
  | called_minus : sign_called SMinus (lit "Minus").
Inductive hex_called : debug_hex_t -> str -> Prop :=
  | called_lower : hex_called HexLower (lit "Lower")
  | called_upper : hex_called HexUpper (lit "Upper").
Inductive bool_called : bool -> str -> Prop :=
  | called_true : bool_called true (lit "true")
  | called_false : bool_called false (lit "false").
Inductive formatter_shown : formatter -> str -> Prop :=
  | formatter_line st s al sg alt z w pr hx a g b y m p x :
      style_shown false st s -> option_shown align_called false al a -> option_shown sign_called false sg g ->
      bool_called alt b -> bool_called z y -> option_shown (numeral false 10) false w m ->
      option_shown (numeral false 10) false pr p -> option_shown hex_called false hx x ->
      formatter_shown (mk_formatter st (mk_fargs al sg alt z w pr hx))
        (lit "Formatter { style: " ++ s ++ lit ", format: FormatterArgs { align: " ++ a ++ lit ", sign: " ++ g ++
         lit ", alternate: " ++ b ++ lit ", zero: " ++ y ++ lit ", width: " ++ m ++ lit ", precision: " ++ p ++
         lit ", debug_hex: " ++ x ++ lit " } }").
