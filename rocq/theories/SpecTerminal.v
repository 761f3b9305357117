(** Specification of a terminal: what a reader sees when a stream of characters is sent to it.
    Written from ECMA-48 (control sequences, SELECT GRAPHIC RENDITION) and the usual aixterm
    bright colors; no reference to the Ansi adaptor. *)
From Verif Require Import Base Style SpecText.

(** Parsing state.  A control sequence is CSI (ESC followed by an open bracket, or U+009B),
    parameters separated by semicolons, and a final character. *)
Inductive pstate :=
  | Ground
  | Escape                            (* after ESC *)
  | Csi (done : list N) (cur : N)     (* finished parameters, the one being read *)
  | CsiIgnore                         (* a control sequence with other parameter bytes *)
  | StringCtl.                        (* a DCS/SOS/OSC/PM/APC control string *)

(** The terminal, for renditions of type [R]: parse state, current rendition, and everything
    shown so far with the rendition it is shown in. *)
Record term (R : Type) := mk_term {
  tm_state : pstate;
  tm_rend : R;
  tm_screen : list (char * R)
}.
Arguments mk_term {R} _ _ _.
Arguments tm_state {R} _.
Arguments tm_rend {R} _.
Arguments tm_screen {R} _.

(** C1 controls and ESC-sequences that open a control string: DCS, SOS, OSC, PM, APC. *)
Definition opens_string (c : char) : bool :=
  existsb (N.eqb c) [0x90; 0x98; 0x9D; 0x9E; 0x9F]%N.
Definition esc_opens_string (c : char) : bool :=
  existsb (N.eqb c) [80; 88; 93; 94; 95]%N.           (* P X ] ^ _ *)

(** Characters that start a control function rather than being shown: ESC, CSI and the string
    openers. *)
Definition starts_control (c : char) : bool :=
  (N.eqb c 27 || N.eqb c 0x9B || opens_string c)%bool.

Section Terminal.
Variable R : Type.
(** The effect of one SGR parameter on the rendition. *)
Variable sgr : N -> R -> R.

Definition term_step (t : term R) (c : char) : term R :=
  match tm_state t with
  | Ground =>
      if N.eqb c 27 then mk_term Escape (tm_rend t) (tm_screen t)
      else if N.eqb c 0x9B then mk_term (Csi [] 0) (tm_rend t) (tm_screen t)
      else if opens_string c then mk_term StringCtl (tm_rend t) (tm_screen t)
      else mk_term Ground (tm_rend t) (tm_screen t ++ [(c, tm_rend t)])
  | Escape =>
      if N.eqb c 91 then mk_term (Csi [] 0) (tm_rend t) (tm_screen t)
      else if N.eqb c 27 then t
      else if esc_opens_string c then mk_term StringCtl (tm_rend t) (tm_screen t)
      else mk_term Ground (tm_rend t) (tm_screen t)
  | Csi done cur =>
      if N.eqb c 27 then mk_term Escape (tm_rend t) (tm_screen t)
      else if ((48 <=? c) && (c <=? 57))%N
      then mk_term (Csi done (cur * 10 + (c - 48))) (tm_rend t) (tm_screen t)
      else if N.eqb c 59 then mk_term (Csi (done ++ [cur]) 0) (tm_rend t) (tm_screen t)
      else if N.eqb c 109 then         (* m: SELECT GRAPHIC RENDITION *)
        mk_term Ground (fold_left (fun r n => sgr n r) (done ++ [cur]) (tm_rend t))
          (tm_screen t)
      else if ((64 <=? c) && (c <=? 126))%N then mk_term Ground (tm_rend t) (tm_screen t)
      else mk_term CsiIgnore (tm_rend t) (tm_screen t)
  | CsiIgnore =>
      if N.eqb c 27 then mk_term Escape (tm_rend t) (tm_screen t)
      else if ((64 <=? c) && (c <=? 126))%N then mk_term Ground (tm_rend t) (tm_screen t)
      else t
  | StringCtl =>
      if N.eqb c 27 then mk_term Escape (tm_rend t) (tm_screen t)
      else if (N.eqb c 0x9C || N.eqb c 7)%bool then mk_term Ground (tm_rend t) (tm_screen t)
      else t
  end.

Definition term_feed (t : term R) (s : str) : term R := fold_left term_step s t.
End Terminal.
Arguments term_step {R} sgr t c.
Arguments term_feed {R} sgr t s.

(** The eight colors in ECMA-48 order, and the aixterm bright ones. *)
Definition ansi_color (n : N) : color :=
  nth (N.to_nat n) [Black; Red; Green; Yellow; Blue; Magenta; Cyan; White] ColorDefault.
Definition aix_color (n : N) : color :=
  nth (N.to_nat n)
    [BrightBlack; BrightRed; BrightGreen; BrightYellow; BrightBlue; BrightMagenta; BrightCyan;
     BrightWhite] ColorDefault.

Definition in_range (lo hi n : N) : bool := ((lo <=? n) && (n <=? hi))%N.

(** A color parameter: what it sets. *)
Definition sgr_fg (n : N) : option color :=
  if in_range 30 37 n then Some (ansi_color (n - 30))
  else if N.eqb n 39 then Some ColorDefault
  else if in_range 90 97 n then Some (aix_color (n - 90))
  else None.
Definition sgr_bg (n : N) : option color :=
  if in_range 40 47 n then Some (ansi_color (n - 40))
  else if N.eqb n 49 then Some ColorDefault
  else if in_range 100 107 n then Some (aix_color (n - 100))
  else None.

(** Terminal 1: intensity is one attribute (ECMA-48: bold or faint or normal).  Its rendition
    is a [style]. *)
Definition sgr_style (n : N) (r : style) : style :=
  if N.eqb n 0 then mk_style ColorDefault ColorDefault Normal
  else if N.eqb n 1 then mk_style (foreground r) (background r) Bold
  else if N.eqb n 2 then mk_style (foreground r) (background r) Faint
  else if N.eqb n 22 then mk_style (foreground r) (background r) Normal
  else match sgr_fg n with
       | Some c => mk_style c (background r) (intens r)
       | None =>
           match sgr_bg n with
           | Some c => mk_style (foreground r) c (intens r)
           | None => r
           end
       end.

(** Terminal 2 (xterm, VTE, ...): bold and faint are independent bits, both cleared by 22. *)
Record xrend := mk_xrend { x_fg : color; x_bg : color; x_bold : bool; x_faint : bool }.
Definition sgr_xterm (n : N) (r : xrend) : xrend :=
  if N.eqb n 0 then mk_xrend ColorDefault ColorDefault false false
  else if N.eqb n 1 then mk_xrend (x_fg r) (x_bg r) true (x_faint r)
  else if N.eqb n 2 then mk_xrend (x_fg r) (x_bg r) (x_bold r) true
  else if N.eqb n 22 then mk_xrend (x_fg r) (x_bg r) false false
  else match sgr_fg n with
       | Some c => mk_xrend c (x_bg r) (x_bold r) (x_faint r)
       | None =>
           match sgr_bg n with
           | Some c => mk_xrend (x_fg r) c (x_bold r) (x_faint r)
           | None => r
           end
       end.

(** How a style should look on terminal 2. *)
Definition xterm_look (st : style) : xrend :=
  mk_xrend (foreground st) (background st)
    (match intens st with Bold => true | _ => false end)
    (match intens st with Faint => true | _ => false end).

(** Fresh terminals. *)
Definition term_new : term style := mk_term Ground (mk_style ColorDefault ColorDefault Normal) [].
Definition xterm_new : term xrend := mk_term Ground (mk_xrend ColorDefault ColorDefault false false) [].

(** Text without control functions. *)
Definition no_controls (s : str) : Prop := Forall (fun c => starts_control c = false) s.

(** Going from [a] to [b] is not a switch between bold and faint. *)
Definition compatible (a b : style) : Prop :=
  intens a = intens b \/ intens a = Normal \/ intens b = Normal.

(** No character in bold directly after one in faint or the reverse. *)
Fixpoint no_direct_switch (cur : style) (t : stext) : Prop :=
  match t with
  | [] => True
  | (_, st) :: r => compatible cur st /\ no_direct_switch st r
  end.

(** Terminal 2 shown a styled text when bold and faint, once on, stay on until a character of
    normal intensity: [b] and [f] are the bits before the text. *)
Fixpoint sticky (b f : bool) (t : stext) : list (char * xrend) :=
  match t with
  | [] => []
  | (c, st) :: r =>
      let b' := match intens st with Normal => false | Bold => true | Faint => b end in
      let f' := match intens st with Normal => false | Bold => f | Faint => true end in
      (c, mk_xrend (foreground st) (background st) b' f') :: sticky b' f' r
  end.
