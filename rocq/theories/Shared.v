(** Model of several adaptors that write to one and the same place: a terminal that is both
    standard output and standard error, clones of one handle, a String behind a RefCell.  Each
    adaptor has its own [current] style (ansi/src/ansi.rs:17-20, html/src/html.rs:21-24), the place
    they write to is shared. *)
From Verif Require Import Base Style Fmt Ansi Html Io.

(** What happens: adaptor number [k] is told to write [s] in style [st], or it is finished (it is
    consumed then; a later use of the same number is a new adaptor on the shared place). *)
Inductive event :=
  | Puts (k : nat) (s : str) (st : style)
  | Finishes (k : nat).
Definition who (e : event) : nat := match e with Puts k _ _ | Finishes k => k end.

(** The current styles of all adaptors, and changing one of them. *)
Definition currents := nat -> style.
Definition set_current (k : nat) (st : style) (cur : currents) : currents :=
  fun j => if Nat.eqb j k then st else cur j.

(** One event, with ansi/src/ansi.rs:49-80 [write_str], :41-46 [finish] and :24-29 [new].  The
    shared place is a String here: no write fails. *)
Definition ansi_group_step (g : str * currents) (e : event) : str * currents :=
  match e with
  | Puts k s st =>
      let w := fst (ansi_write_str string_sink (mk_ansi (fst g) (snd g k)) s st) in
      (an_inner w, set_current k (an_current w) (snd g))
  | Finishes k =>
      (fst (ansi_finish string_sink (mk_ansi (fst g) (snd g k))),
       set_current k (an_current (ansi_new (fst g))) (snd g))
  end.
(** All adaptors start out new. *)
Definition group_start : str * currents := ([], fun _ => an_current (ansi_new ([] : str))).
Definition ansi_group (es : list event) : str := fst (fold_left ansi_group_step es group_start).

(** The same for Html: html/src/html.rs:53-90, :45-50, :28-33. *)
Definition html_group_step (g : str * currents) (e : event) : str * currents :=
  match e with
  | Puts k s st =>
      let w := fst (html_write_str string_sink (mk_html (fst g) (snd g k)) s st) in
      (ht_inner w, set_current k (ht_current w) (snd g))
  | Finishes k =>
      (fst (html_finish string_sink (mk_html (fst g) (snd g k))),
       set_current k (ht_current (html_new (fst g))) (snd g))
  end.
Definition html_group_start : str * currents := ([], fun _ => ht_current (html_new ([] : str))).
Definition html_group (es : list event) : str := fst (fold_left html_group_step es html_group_start).

(** The same for io::Ansi over any std writer: write_all of the UTF-8 bytes (ansi/src/io.rs:50-85 and
    core/src/io.rs [write_all]) and [finish] (ansi/src/io.rs:41-49); a run in which every call
    succeeds. *)
Inductive io_group_run {S} (sink : std_io S) (fuel : nat) : S * currents -> list event -> S -> Prop :=
  | run_end s cur : io_group_run sink fuel (s, cur) [] s
  | run_puts s cur k text st w' es s' :
      io_write_all (IoWrite_ansi fuel sink) (mk_io_ansi s (cur k)) (utf8 text) st = (w', IoOk tt) ->
      io_group_run sink fuel (ia_inner w', set_current k (ia_current w') cur) es s' ->
      io_group_run sink fuel (s, cur) (Puts k text st :: es) s'
  | run_finishes s cur k s1 es s' :
      io_ansi_finish sink (mk_io_ansi s (cur k)) = (s1, IoOk tt) ->
      io_group_run sink fuel (s1, set_current k (ia_current (io_ansi_new s1)) cur) es s' ->
      io_group_run sink fuel (s, cur) (Finishes k :: es) s'.
