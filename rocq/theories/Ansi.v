(** Model of ansi/src/ansi.rs and ansi/src/util.rs. *)
From Verif Require Import Base Style Fmt.

(** ansi/src/util.rs:3-26 [foreground].  The catch-all arm (line 24) is for colors added by
    later versions of the non-exhaustive enum and is unreachable today. *)
Definition ansi_foreground (c : color) : str :=
  match c with
  | Black => lit "30"
  | Red => lit "31"
  | Green => lit "32"
  | Yellow => lit "33"
  | Blue => lit "34"
  | Magenta => lit "35"
  | Cyan => lit "36"
  | White => lit "37"
  | ColorDefault => lit "39"
  | BrightBlack => lit "90"
  | BrightRed => lit "91"
  | BrightGreen => lit "92"
  | BrightYellow => lit "93"
  | BrightBlue => lit "94"
  | BrightMagenta => lit "95"
  | BrightCyan => lit "96"
  | BrightWhite => lit "97"
  end.

(** ansi/src/util.rs:28-51 [background]. *)
Definition ansi_background (c : color) : str :=
  match c with
  | Black => lit "40"
  | Red => lit "41"
  | Green => lit "42"
  | Yellow => lit "43"
  | Blue => lit "44"
  | Magenta => lit "45"
  | Cyan => lit "46"
  | White => lit "47"
  | ColorDefault => lit "49"
  | BrightBlack => lit "100"
  | BrightRed => lit "101"
  | BrightGreen => lit "102"
  | BrightYellow => lit "103"
  | BrightBlue => lit "104"
  | BrightMagenta => lit "105"
  | BrightCyan => lit "106"
  | BrightWhite => lit "107"
  end.

(** ansi/src/util.rs:53-60 [intensity]. *)
Definition ansi_intensity (i : intensity) : str :=
  match i with
  | Bold => lit "1"
  | Faint => lit "2"
  | Normal => lit "22"
  end.

(** The literal for the SGR reset, ansi/src/ansi.rs:43 and :56, ansi/src/io.rs:47 and :58. *)
Definition ansi_reset : str := ESC :: lit "[0m".

(** The literal that opens a sequence, ansi/src/ansi.rs:66, ansi/src/io.rs:68. *)
Definition ansi_open : str := ESC :: lit "[".

(** [filter_map(|&s| s)] over an array of options (ansi/src/ansi.rs:64, html.rs:70). *)
Definition somes {A} (l : list (option A)) : list A :=
  flat_map (fun o => match o with Some x => [x] | None => [] end) l.

(** ansi/src/ansi.rs:55-74 (and, identically, ansi/src/io.rs:57-76): the strings written, in
    order, to change from [current] to [st]. *)
Definition ansi_change (current st : style) : list str :=
  if negb (style_eqb current st) && style_eqb st style_default then [ansi_reset]
  else
    let diff := diff_from st current in
    let segments := somes
      [ option_map ansi_foreground (d_foreground diff);
        option_map ansi_background (d_background diff);
        option_map ansi_intensity (d_intensity diff) ] in
    match segments with
    | [] => []
    | segment :: rest =>
        ansi_open :: segment :: flat_map (fun segment => [lit ";"; segment]) rest ++ [lit "m"]
    end.

(** ansi/src/ansi.rs:17-20 [struct Ansi]. *)
Record ansi (S : Type) := mk_ansi { an_inner : S; an_current : style }.
Arguments mk_ansi {S} _ _.
Arguments an_inner {S} _.
Arguments an_current {S} _.

(** ansi/src/ansi.rs:24-29 [Ansi::new]. *)
Definition ansi_new {S} (inner : S) : ansi S := mk_ansi inner style_default.

(** ansi/src/ansi.rs:49-80 [Write for Ansi].  Line 77 [write!(self.inner, "{s}")] is one
    [write_str(s)] on the sink. *)
Definition ansi_write_str {S} (sink : fmt_sink S) : write_fn (ansi S) :=
  fun w s st =>
    if is_empty s then (w, Returned Ok)
    else
      match write_parts sink (ansi_change (an_current w) st) (an_inner w) with
      | (i, Returned Ok) =>
          match sink i s with
          | (i', r) => (mk_ansi i' st, r)
          end
      | (i, r) => (mk_ansi i (an_current w), r)
      end.

(** ansi/src/ansi.rs:41-46 [Ansi::finish]: the sink's state ([self] is consumed; on success it
    is what is returned) and the outcome. *)
Definition ansi_finish {S} (sink : fmt_sink S) (w : ansi S) : S * outcome :=
  if negb (style_eqb (an_current w) style_default)
  then write_parts sink [ansi_reset] (an_inner w)
  else (an_inner w, Returned Ok).

Definition Write_ansi {S} (sink : fmt_sink S) : Write (ansi S) :=
  Write_default (ansi_write_str sink).
