(** Model of [Clone] for the adaptors.  All of them derive it (ansi/src/ansi.rs:16, ansi/src/io.rs:20,
    html/src/html.rs:20, plain/src/plain.rs:12, plain/src/io.rs:18): a clone has a clone of the inner
    writer and a copy of the current style.  Two kinds of inner writers: a String, whose clone is
    another String with the same content, and a handle (an Rc, an Arc, a reference to a file), whose
    clone writes to the same place. *)
From Verif Require Import Base Style Fmt Ansi Html Plain Io Shared.

(** The derived [clone], given the one of the inner writer. *)
Definition ansi_clone {S} (clone : S -> S) (w : ansi S) : ansi S := mk_ansi (clone (an_inner w)) (an_current w).
Definition html_clone {S} (clone : S -> S) (w : html S) : html S := mk_html (clone (ht_inner w)) (ht_current w).
Definition plain_clone {S} (clone : S -> S) (w : plain S) : plain S := mk_plain (clone (pl_inner w)).
(** The derived [default]. *)
Definition ansi_default {S} (default : S) : ansi S := mk_ansi default style_default.
Definition html_default {S} (default : S) : html S := mk_html default style_default.
Definition plain_default {S} (default : S) : plain S := mk_plain default.

(** Adaptor number [k] is told to write, is finished, or is cloned; the clone gets the number [j]. *)
Inductive cevent :=
  | Does (e : event)
  | Clones (k j : nat).

(** * A String each: [clone] copies it. *)
Definition set_adaptor {W} (k : nat) (w : W) (ws : nat -> W) : nat -> W :=
  fun j => if Nat.eqb j k then w else ws j.
Definition owned_step {W} (write : write_fn W) (clone : W -> W) (new : W) (ws : nat -> W) (e : cevent) : nat -> W :=
  match e with
  | Does (Puts k s st) => set_adaptor k (fst (write (ws k) s st)) ws
  | Does (Finishes k) => set_adaptor k new ws
  | Clones k j => set_adaptor j (clone (ws k)) ws
  end.
Definition owned {W} (write : write_fn W) (clone : W -> W) (new : W) (es : list cevent) : nat -> W :=
  fold_left (owned_step write clone new) es (fun _ => new).
(** alloc: cloning a String copies the text. *)
Definition string_clone (s : str) : str := s.
Definition owned_ansi : list cevent -> nat -> ansi str :=
  owned (ansi_write_str string_sink) (ansi_clone string_clone) (ansi_new []).
Definition owned_html : list cevent -> nat -> html str :=
  owned (html_write_str string_sink) (html_clone string_clone) (html_new []).
Definition owned_plain : list cevent -> nat -> plain str :=
  owned (plain_write_str string_sink) (plain_clone string_clone) (plain_new []).

(** * Handles to one place: [clone] leaves the place as it is. *)
Definition handle_clone (place : str) : str := place.
Definition ansi_clones_step (g : str * currents) (e : cevent) : str * currents :=
  match e with
  | Does e => ansi_group_step g e
  | Clones k j =>
      let w := ansi_clone handle_clone (mk_ansi (fst g) (snd g k)) in
      (an_inner w, set_current j (an_current w) (snd g))
  end.
Definition ansi_clones (es : list cevent) : str := fst (fold_left ansi_clones_step es group_start).
Definition html_clones_step (g : str * currents) (e : cevent) : str * currents :=
  match e with
  | Does e => html_group_step g e
  | Clones k j =>
      let w := html_clone handle_clone (mk_html (fst g) (snd g k)) in
      (ht_inner w, set_current j (ht_current w) (snd g))
  end.
Definition html_clones (es : list cevent) : str := fst (fold_left html_clones_step es html_group_start).

(** * The same for io::Ansi over handles to one std writer, a run in which every call succeeds. *)
Definition io_ansi_clone {S} (clone : S -> S) (w : io_ansi S) : io_ansi S := mk_io_ansi (clone (ia_inner w)) (ia_current w).
Inductive io_clones_run {S} (sink : std_io S) (fuel : nat) : S * currents -> list cevent -> S -> Prop :=
  | cl_end s cur : io_clones_run sink fuel (s, cur) [] s
  | cl_puts s cur k text st w' es s' :
      io_write_all (IoWrite_ansi fuel sink) (mk_io_ansi s (cur k)) (utf8 text) st = (w', IoOk tt) ->
      io_clones_run sink fuel (ia_inner w', set_current k (ia_current w') cur) es s' ->
      io_clones_run sink fuel (s, cur) (Does (Puts k text st) :: es) s'
  | cl_finishes s cur k s1 es s' :
      io_ansi_finish sink (mk_io_ansi s (cur k)) = (s1, IoOk tt) ->
      io_clones_run sink fuel (s1, set_current k (ia_current (io_ansi_new s1)) cur) es s' ->
      io_clones_run sink fuel (s, cur) (Does (Finishes k) :: es) s'
  | cl_clones s cur k j es s' :
      let w := io_ansi_clone (fun handle => handle) (mk_io_ansi s (cur k)) in
      io_clones_run sink fuel (ia_inner w, set_current j (ia_current w) cur) es s' ->
      io_clones_run sink fuel (s, cur) (Clones k j :: es) s'.
