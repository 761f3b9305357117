(** The nom 7.1.1 combinators used by macros/src/format.rs (imports at lines 3-11), modelled
    from nom's documentation and source.  Third-party code, part of the trusted base. *)
From Verif Require Import Base.

(** [IResult<&str, A>]: success with the remaining input, a recoverable [Err::Error], an
    unrecoverable [Err::Failure], or a panic of the macro. *)
Inductive pres (A : Type) :=
  | POk (rest : str) (a : A)
  | PErr
  | PFail
  | PPanic.
Arguments POk {A} rest a.
Arguments PErr {A}.
Arguments PFail {A}.
Arguments PPanic {A}.

Definition parser (A : Type) := str -> pres A.

(** Sequencing with the question mark. *)
Definition pbind {A B} (p : parser A) (k : A -> parser B) : parser B :=
  fun i =>
    match p i with
    | POk rest a => k a rest
    | PErr => PErr
    | PFail => PFail
    | PPanic => PPanic
    end.

Definition pret {A} (a : A) : parser A := fun i => POk i a.

(** [bytes::complete::tag] *)
Fixpoint tag (t : str) (i : str) : pres unit :=
  match t, i with
  | [], _ => POk i tt
  | x :: t', y :: i' => if N.eqb x y then tag t' i' else PErr
  | _ :: _, [] => PErr
  end.

(** [character::complete::satisfy] *)
Definition satisfy (f : char -> bool) : parser char :=
  fun i => match i with
           | c :: r => if f c then POk r c else PErr
           | [] => PErr
           end.

(** [character::complete::char] *)
Definition pchar (c : char) : parser char := satisfy (N.eqb c).

(** [character::complete::anychar] *)
Definition anychar : parser char := satisfy (fun _ => true).

(** [character::complete::none_of] *)
Definition none_of (l : str) : parser char :=
  satisfy (fun c => negb (existsb (N.eqb c) l)).

(** [combinator::map] *)
Definition pmap {A B} (p : parser A) (f : A -> B) : parser B :=
  pbind p (fun a => pret (f a)).

(** [combinator::value] *)
Definition value {A B} (v : B) (p : parser A) : parser B := pmap p (fun _ => v).

(** [combinator::map_res]: [None] models the [Err] of the mapped function. *)
Definition map_res {A B} (p : parser A) (f : A -> option B) : parser B :=
  pbind p (fun a => match f a with Some b => pret b | None => fun _ => PErr end).

(** [combinator::opt] *)
Definition opt {A} (p : parser A) : parser (option A) :=
  fun i =>
    match p i with
    | POk rest a => POk rest (Some a)
    | PErr => POk i None
    | PFail => PFail
    | PPanic => PPanic
    end.

(** [combinator::cut] *)
Definition cut {A} (p : parser A) : parser A :=
  fun i => match p i with PErr => PFail | r => r end.

(** [branch::alt] on a tuple, as a list. *)
Fixpoint alt {A} (ps : list (parser A)) : parser A :=
  fun i =>
    match ps with
    | [] => PErr
    | p :: ps' => match p i with PErr => alt ps' i | r => r end
    end.

(** [sequence::pair], [preceded], [terminated], [delimited] *)
Definition ppair {A B} (p : parser A) (q : parser B) : parser (A * B) :=
  pbind p (fun a => pbind q (fun b => pret (a, b))).
Definition preceded {A B} (p : parser A) (q : parser B) : parser B :=
  pbind p (fun _ => q).
Definition terminated {A B} (p : parser A) (q : parser B) : parser A :=
  pbind p (fun a => pbind q (fun _ => pret a)).
Definition delimited {A B C} (p : parser A) (q : parser B) (r : parser C) : parser B :=
  pbind p (fun _ => pbind q (fun b => pbind r (fun _ => pret b))).

(** [combinator::recognize]: the consumed prefix. *)
Definition recognize {A} (p : parser A) : parser str :=
  fun i =>
    match p i with
    | POk rest _ => POk rest (firstn (length i - length rest) i)
    | PErr => PErr
    | PFail => PFail
    | PPanic => PPanic
    end.

(** The loop of [multi::many0] and [multi::many1].  nom stops with an error when the parser
    succeeds without consuming; otherwise every round consumes, so [length i + 1] rounds
    suffice.  The out-of-fuel value is [PPanic]; [ParseFacts] proves it is never reached. *)
Fixpoint many_loop {A} (fuel : nat) (p : parser A) (i : str) (acc : list A) : pres (list A) :=
  match fuel with
  | O => PPanic
  | S fuel' =>
      match p i with
      | PErr => POk i (rev acc)
      | PFail => PFail
      | PPanic => PPanic
      | POk rest a =>
          if length rest =? length i then PErr
          else many_loop fuel' p rest (a :: acc)
      end
  end.

(** [multi::many0] *)
Definition many0 {A} (p : parser A) : parser (list A) :=
  fun i => many_loop (S (length i)) p i [].

(** [multi::many1] *)
Definition many1 {A} (p : parser A) : parser (list A) :=
  fun i =>
    match p i with
    | POk rest a => many_loop (S (length rest)) p rest [a]
    | PErr => PErr
    | PFail => PFail
    | PPanic => PPanic
    end.

(** The loop of [multi::separated_list0]. *)
Fixpoint sep_loop {A B} (fuel : nat) (sep : parser B) (p : parser A) (i : str)
  (acc : list A) : pres (list A) :=
  match fuel with
  | O => PPanic
  | S fuel' =>
      match sep i with
      | PErr => POk i (rev acc)
      | PFail => PFail
      | PPanic => PPanic
      | POk i1 _ =>
          if length i1 =? length i then PErr
          else
            match p i1 with
            | PErr => POk i (rev acc)
            | PFail => PFail
            | PPanic => PPanic
            | POk i2 a => sep_loop fuel' sep p i2 (a :: acc)
            end
      end
  end.

(** [multi::separated_list0] *)
Definition separated_list0 {A B} (sep : parser B) (p : parser A) : parser (list A) :=
  fun i =>
    match p i with
    | PErr => POk i []
    | PFail => PFail
    | PPanic => PPanic
    | POk i1 a => sep_loop (S (length i1)) sep p i1 [a]
    end.

(** [character::complete::digit1]: one or more ASCII digits. *)
Definition is_digit (c : char) : bool := ((48 <=? c) && (c <=? 57))%N.
Fixpoint take_while (f : char -> bool) (i : str) : str * str :=
  match i with
  | c :: r => if f c then let (a, b) := take_while f r in (c :: a, b) else ([], i)
  | [] => ([], [])
  end.
Definition digit1 : parser str :=
  fun i => match take_while is_digit i with
           | ([], _) => PErr
           | (ds, rest) => POk rest ds
           end.

(** [combinator::all_consuming] *)
Definition all_consuming {A} (p : parser A) : parser A :=
  fun i =>
    match p i with
    | POk [] a => POk [] a
    | POk (_ :: _) _ => PErr
    | r => r
    end.
