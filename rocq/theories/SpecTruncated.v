(** Specification: what is shown of an output that stops in the middle (the process was killed, the
    connection was cut, the disk is full).  A terminal needs nothing new: it shows what has arrived.
    A browser, at the end of the file, also shows what is left of an unfinished tag or character
    reference. *)
From Verif Require Import Base Style SpecText SpecHtml.

(** HTML, 13.2.5.6 (tag open state), 13.2.5.7 (end tag open state), 13.2.5.8 and following (any later
    point of a tag), 13.2.5.72-80 (character references) when the end of the file comes next: a lone
    less-than sign, also with a slash, is text; any longer piece of a tag is dropped; the five references of
    [char_reference] are also recognised without their semicolon; ["&#x2"] is the numeric reference for
    U+0002; any other piece of a reference is text. *)
Definition at_eof (s : hstate) : str :=
  match s with
  | Data | Broken => []
  | InTag [] => lit "<"
  | InTag [47%N] => lit "</"
  | InTag _ => []
  | InRef name =>
      match char_reference name with
      | Some c => [c]
      | None => if str_eqb name (lit "#x2") then [2%N] else 38%N :: name
      end
  end.

(** Everything a browser shows of a document that ends where it does. *)
Definition shown_at_eof (document : str) : list (char * css) :=
  let p := page_feed page_new document in
  pg_cells p ++ map (fun c => (c, pg_style p)) (at_eof (pg_state p)).
