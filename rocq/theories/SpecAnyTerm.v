(** Specification vocabulary: terminals of any kind.  A terminal's renditions are values of some type
    [R]; [sgr] is what one SGR parameter does to them. *)
From Verif Require Import Base Style SpecText SpecTerminal.

(** The parameters that stand for the attributes of a style: reset, bold, faint, neither, and the
    foreground and background colors. *)
Definition known (n : N) : Prop :=
  In n [0; 1; 2; 22]%N \/ sgr_fg n <> None \/ sgr_bg n <> None.

(** [look] is how a style should look on the terminal.  The terminal understands the styles with
    the [allowed] intensities if, as long as these are not left, every known parameter takes the look
    of a style to the look of the style that ECMA-48 says (one attribute changed, or all reset).
    Nothing is said about other parameters or about renditions that are not the look of a style. *)
Definition understands {R} (sgr : N -> R -> R) (look : style -> R) (allowed : intensity -> Prop) : Prop :=
  allowed Normal /\
  forall n s, known n -> allowed (intens s) -> allowed (intens (sgr_style n s)) ->
    sgr n (look s) = look (sgr_style n s).

(** A styled text as it should be seen there. *)
Definition seen {R} (look : style -> R) (t : stext) : list (char * R) :=
  map (fun cs => (fst cs, look (snd cs))) t.

(** What a terminal shows, as it should be seen there. *)
Definition shown_as {R} (look : style -> R) (t : term style) : term R :=
  mk_term (tm_state t) (look (tm_rend t)) (seen look (tm_screen t)).

(** A terminal that shows nothing yet, in the look of the default style. *)
Definition fresh_term {R} (look : style -> R) : term R := mk_term Ground (look style_default) [].

(** Text in styles with the allowed intensities only. *)
Definition within (allowed : intensity -> Prop) (h : history) : Prop :=
  Forall (fun e => allowed (intens (snd e))) h.

(** More terminals.  One without colors, with bold only: *)
Definition sgr_mono (n : N) (bold : bool) : bool :=
  if N.eqb n 1 then true else if existsb (N.eqb n) [0; 2; 22]%N then false else bold.
Definition mono_look (s : style) : bool := match intens s with Bold => true | _ => false end.
(** One that also has underlining and blinking (4, 5, 24, 25), which [0] switches off, and shows bright
    colors as the normal ones: *)
Definition dim_color (c : color) : color :=
  match c with
  | BrightBlack => Black | BrightRed => Red | BrightGreen => Green | BrightYellow => Yellow
  | BrightBlue => Blue | BrightMagenta => Magenta | BrightCyan => Cyan | BrightWhite => White
  | _ => c
  end.
Definition dim_style (s : style) : style :=
  mk_style (dim_color (foreground s)) (dim_color (background s)) (intens s).
Definition sgr_rich (n : N) (r : style * (bool * bool)) : style * (bool * bool) :=
  if N.eqb n 0 then (style_default, (false, false))
  else if N.eqb n 4 then (fst r, (true, snd (snd r)))
  else if N.eqb n 24 then (fst r, (false, snd (snd r)))
  else if N.eqb n 5 then (fst r, (fst (snd r), true))
  else if N.eqb n 25 then (fst r, (fst (snd r), false))
  else (dim_style (sgr_style n (fst r)), snd r).
Definition rich_look (s : style) : style * (bool * bool) := (dim_style s, (false, false)).
