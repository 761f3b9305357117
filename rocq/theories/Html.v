(** Model of html/src/html.rs and html/src/util.rs. *)
From Verif Require Import Base Style Fmt Ansi.

(** html/src/util.rs:3-26 [foreground]; the catch-all arm is unreachable today. *)
Definition html_foreground (c : color) : str :=
  match c with
  | Black => lit "color:black"
  | Red => lit "color:red"
  | Green => lit "color:green"
  | Yellow => lit "color:yellow"
  | Blue => lit "color:blue"
  | Magenta => lit "color:magenta"
  | Cyan => lit "color:cyan"
  | White => lit "color:white"
  | ColorDefault => lit "color:inherit"
  | BrightBlack => lit "color:gray"
  | BrightRed => lit "color:#af0000"
  | BrightGreen => lit "color:#00ff00"
  | BrightYellow => lit "color:#ffff00"
  | BrightBlue => lit "color:#0000ff"
  | BrightMagenta => lit "color:#ff00ff"
  | BrightCyan => lit "color:#00ffff"
  | BrightWhite => lit "color:#ffffff"
  end.

(** html/src/util.rs:28-51 [background]. *)
Definition html_background (c : color) : str :=
  match c with
  | Black => lit "background-color:black"
  | Red => lit "background-color:red"
  | Green => lit "background-color:green"
  | Yellow => lit "background-color:yellow"
  | Blue => lit "background-color:blue"
  | Magenta => lit "background-color:magenta"
  | Cyan => lit "background-color:cyan"
  | White => lit "background-color:white"
  | ColorDefault => lit "background-color:inherit"
  | BrightBlack => lit "background-color:gray"
  | BrightRed => lit "background-color:#af0000"
  | BrightGreen => lit "background-color:#00ff00"
  | BrightYellow => lit "background-color:#ffff00"
  | BrightBlue => lit "background-color:#0000ff"
  | BrightMagenta => lit "background-color:#ff00ff"
  | BrightCyan => lit "background-color:#00ffff"
  | BrightWhite => lit "background-color:#ffffff"
  end.

(** html/src/util.rs:53-60 [intensity]. *)
Definition html_intensity (i : intensity) : str :=
  match i with
  | Bold => lit "font-weight:bolder"
  | Faint => lit "font-weight:lighter"
  | Normal => lit "font-weight:inherit"
  end.

(** askama_escape 0.10.3, Html escaper: the five replaced characters.  Third-party code, not
    in the repository; the numbers are double quote, ampersand, single quote, less-than,
    greater-than. *)
Definition html_entity (c : char) : option str :=
  if N.eqb c 34 then Some (lit "&quot;")
  else if N.eqb c 38 then Some (lit "&amp;")
  else if N.eqb c 39 then Some (lit "&#x27;")
  else if N.eqb c 60 then Some (lit "&lt;")
  else if N.eqb c 62 then Some (lit "&gt;")
  else None.

(** askama_escape 0.10.3 [write_escaped]: the strings written, in order: the text since the
    last replaced character, the replacement, and so on, then the remaining text.  [acc] is
    the text since the last replacement. *)
Fixpoint escape_parts_from (acc : str) (s : str) : list str :=
  match s with
  | [] => [acc]
  | c :: r =>
      match html_entity c with
      | Some e => acc :: e :: escape_parts_from [] r
      | None => escape_parts_from (acc ++ [c]) r
      end
  end.

(** html/src/html.rs:86 [write!(self.inner, "{}", escape(s, AskamaHtml))]. *)
Definition escape_parts (s : str) : list str := escape_parts_from [] s.

(** html/src/html.rs:59-83: the strings written, in order, to change from [current] to
    [st]. *)
Definition html_change (current st : style) : list str :=
  if style_eqb st style_default then
    if negb (style_eqb current style_default) then [lit "</span>"] else []
  else if negb (style_eqb st current) then
    let diff := diff_from st style_default in
    let segments := somes
      [ option_map html_foreground (d_foreground diff);
        option_map html_background (d_background diff);
        option_map html_intensity (d_intensity diff) ] in
    match segments with
    | [] => []
    | segment :: rest =>
        (if negb (style_eqb current style_default) then [lit "</span>"] else [])
        ++ [lit "<span style="; segment]
        ++ flat_map (fun segment => [lit ";"; segment]) rest
        ++ [lit ">"]
    end
  else [].

(** html/src/html.rs:21-24 [struct Html]. *)
Record html (S : Type) := mk_html { ht_inner : S; ht_current : style }.
Arguments mk_html {S} _ _.
Arguments ht_inner {S} _.
Arguments ht_current {S} _.

(** html/src/html.rs:28-33 [Html::new]. *)
Definition html_new {S} (inner : S) : html S := mk_html inner style_default.

(** html/src/html.rs:53-90 [Write for Html]. *)
Definition html_write_str {S} (sink : fmt_sink S) : write_fn (html S) :=
  fun w s st =>
    if is_empty s then (w, Returned Ok)
    else
      match write_parts sink (html_change (ht_current w) st) (ht_inner w) with
      | (i, Returned Ok) =>
          match write_parts sink (escape_parts s) i with
          | (i', r) => (mk_html i' st, r)
          end
      | (i, r) => (mk_html i (ht_current w), r)
      end.

(** html/src/html.rs:45-50 [Html::finish]. *)
Definition html_finish {S} (sink : fmt_sink S) (w : html S) : S * outcome :=
  if negb (style_eqb (ht_current w) style_default)
  then write_parts sink [lit "</span>"] (ht_inner w)
  else (ht_inner w, Returned Ok).

Definition Write_html {S} (sink : fmt_sink S) : Write (html S) :=
  Write_default (html_write_str sink).
