(** Base types shared by the whole model: characters, strings, UTF-8, results. *)
From Coq Require Export String Ascii.
From Coq Require Export List NArith Arith Bool Lia.
Export ListNotations.
Open Scope list_scope.

(** A Rust [char]: a Unicode scalar value, as a number.
    Simplification: the type itself does not exclude surrogates or values above
    0x10FFFF; theorems that need validity say so with [is_scalar]. *)
Definition char := N.

(** A Rust [str] / [String]: the sequence of its characters.  Byte offsets are
    recovered through [len_utf8]. *)
Definition str := list char.

(** A byte buffer, [&[u8]]. *)
Definition bytes := list N.

(** String literals of the Rust source (ASCII only). *)
Fixpoint lit (s : string) : str :=
  match s with
  | EmptyString => []
  | String a r => N_of_ascii a :: lit r
  end.
Arguments lit s%string.

(** The character escaped as x1b in Rust source. *)
Definition ESC : char := 27%N.

(** Equality of strings ([PartialEq for str]). *)
Fixpoint str_eqb (a b : str) : bool :=
  match a, b with
  | [], [] => true
  | x :: a', y :: b' => N.eqb x y && str_eqb a' b'
  | _, _ => false
  end.

(** [str::is_empty] *)
Definition is_empty {A} (s : list A) : bool :=
  match s with [] => true | _ :: _ => false end.

(** Unicode scalar values. *)
Definition is_scalar (c : char) : bool :=
  ((c <? 0xD800) || ((0xDFFF <? c) && (c <=? 0x10FFFF)))%N.

(** [char::len_utf8] (core library). *)
Definition len_utf8 (c : char) : nat :=
  if (c <? 0x80)%N then 1
  else if (c <? 0x800)%N then 2
  else if (c <? 0x10000)%N then 3
  else 4.

(** [char::encode_utf8] (core library), used at core/src/write.rs:69 and implicitly by
    [str::as_bytes] at core/src/io.rs:27. *)
Definition utf8_char (c : char) : bytes :=
  if (c <? 0x80)%N then [c]
  else if (c <? 0x800)%N then [0xC0 + c / 0x40; 0x80 + c mod 0x40]%N
  else if (c <? 0x10000)%N then
    [0xE0 + c / 0x1000; 0x80 + (c / 0x40) mod 0x40; 0x80 + c mod 0x40]%N
  else
    [0xF0 + c / 0x40000; 0x80 + (c / 0x1000) mod 0x40; 0x80 + (c / 0x40) mod 0x40;
     0x80 + c mod 0x40]%N.

(** [str::as_bytes]. *)
Definition utf8 (s : str) : bytes := flat_map utf8_char s.

(** [str::len]: length in bytes. *)
Fixpoint str_len (s : str) : nat :=
  match s with
  | [] => 0
  | c :: r => len_utf8 c + str_len r
  end.

(** [str::split_at]-like helper: split at byte offset [n]; [None] when [n] is past the end
    or not on a character boundary. *)
Fixpoint split_at_byte (n : nat) (s : str) : option (str * str) :=
  match n, s with
  | O, _ => Some ([], s)
  | S _, [] => None
  | S _, c :: r =>
      if len_utf8 c <=? n then
        match split_at_byte (n - len_utf8 c) r with
        | Some (a, b) => Some (c :: a, b)
        | None => None
        end
      else None
  end.

(** Slicing [&s[start..end]] (core library [Index<Range<usize>> for str]); [None] is the
    panic: start > end, out of bounds, or not on a character boundary. *)
Definition str_slice (s : str) (start end_ : nat) : option str :=
  if start <=? end_ then
    match split_at_byte start s with
    | Some (_, r) =>
        match split_at_byte (end_ - start) r with
        | Some (x, _) => Some x
        | None => None
        end
    | None => None
    end
  else None.

(** [core::fmt::Result]: the error carries no information. *)
Inductive fresult := Ok | Err.

(** Ways an execution can end without returning: a panic, or (fuel exhausted) a loop that
    has not returned. *)
Inductive crash := Panic | Diverge.

(** What a call that returns [core::fmt::Result] does. *)
Inductive outcome := Returned (r : fresult) | Crashed (c : crash).

(** What a call that returns a value directly does. *)
Inductive comp (A : Type) := Value (a : A) | Crash (c : crash).
Arguments Value {A} a.
Arguments Crash {A} c.
