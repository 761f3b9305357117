(** Specification: threads that share a document or a terminal and have adaptors of their own. *)
From Verif Require Import Base Style SpecText SpecTerminal SpecHtml Threads SpecThreads.

(** What a browser of its own shows if it gets only what thread [k] sent. *)
Definition own_page (k : nat) (tr : schedule) : page := page_feed page_new (concat (by_thread k tr)).
(** What the shared document shows. *)
Definition document (tr : schedule) : page := page_feed page_new (received tr).
Definition page_text (p : page) : str := map fst (pg_cells p).

(** No other thread gets in while a thread is in the middle of a tag or a character reference. *)
Definition html_uninterrupted (tr : schedule) : Prop :=
  forall before k s j s' after, tr = before ++ (k, s) :: (j, s') :: after ->
  pg_state (own_page k (before ++ [(k, s)])) <> Data -> j = k.

(** Threads take turns: another thread gets in only when the thread that wrote last has closed what it
    opened (for example, because each thread holds a lock from [new] to [finish]). *)
Definition html_turns (tr : schedule) : Prop :=
  forall before k s j s' after, tr = before ++ (k, s) :: (j, s') :: after ->
  pg_state (own_page k (before ++ [(k, s)])) <> Data \/ pg_open (own_page k (before ++ [(k, s)])) <> [] -> j = k.
Definition ansi_turns (tr : schedule) : Prop :=
  forall before k s j s' after, tr = before ++ (k, s) :: (j, s') :: after ->
  tm_state (own_screen k (before ++ [(k, s)])) <> Ground \/ tm_rend (own_screen k (before ++ [(k, s)])) <> style_default ->
  j = k.

(** The writes of a thread. *)
Definition said (ops : list op) : history :=
  flat_map (fun o => match o with Put s st => [(s, st)] | Done => [] end) ops.

(** The number of elements the first [n] threads have open, each on a page of its own. *)
Definition opened (n : nat) (tr : schedule) : nat :=
  list_sum (map (fun k => length (pg_open (own_page k tr))) (seq 0 n)).

(** Threads that hold a lock: one after the other (in any order, each as often as it likes) makes its
    calls; [items] says who and what. *)
Definition locked (calls : list op -> list str) (items : list (nat * list op)) : schedule :=
  flat_map (fun e => map (fun s => (fst e, s)) (calls (snd e))) items.
