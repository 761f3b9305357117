(** Specification: threads that share a terminal. *)
From Verif Require Import Base Style SpecText SpecTerminal Threads.

(** The texts a thread writes. *)
Definition says (ops : list op) : str :=
  concat (map (fun o => match o with Put s _ => s | Done => [] end) ops).
(** The style a thread leaves its adaptor in: that of its last character, unless it finished it since. *)
Definition left_in (ops : list op) : style :=
  fold_left (fun st o => match o with Put [] _ => st | Put (_ :: _) st' => st' | Done => style_default end)
    ops style_default.

(** What a terminal of its own shows if it gets only what thread [k] sent. *)
Definition own_screen (k : nat) (tr : schedule) : term style :=
  term_feed sgr_style term_new (concat (by_thread k tr)).
(** No other thread gets in while a thread is in the middle of a control sequence. *)
Definition uninterrupted (tr : schedule) : Prop :=
  forall before k s j s' after, tr = before ++ (k, s) :: (j, s') :: after ->
  tm_state (own_screen k (before ++ [(k, s)])) <> Ground -> j = k.

(** [s] is made of the texts of the threads: every character of each once, in order. *)
Definition merges {A} (texts : nat -> list A) (s : list A) : Prop :=
  exists labels : list (nat * A),
    map snd labels = s /\ forall k, map snd (filter (fun e => Nat.eqb (fst e) k) labels) = texts k.
(** What thread [k] wrote, of the writes of all threads. *)
Definition writes_of (k : nat) (l : list (nat * (str * style))) : history :=
  map snd (filter (fun e => Nat.eqb (fst e) k) l).
