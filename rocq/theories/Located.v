(** The parser of macros/src/format.rs once more, this time with the payload of its errors:
    [nom::error::Error { input, code }], which is what the panic of the [unwrap] at
    macros/src/lib.rs:113 shows to the user.  [Parse] and [Nom] model the same code without the
    payload; [LocatedFacts] proves that forgetting the payload gives [Parse] back.

    The nom 7.1.1 combinators are third-party code, part of the trusted base. *)
From Verif Require Import Base Style Nom Parse.

(** [nom::error::ErrorKind], the variants the combinators used here can produce. *)
Inductive error_kind :=
  | KTag | KSatisfy | KChar | KEof | KNoneOf | KDigit | KMapRes | KMany0 | KMany1
  | KSeparatedList.

(** [IResult<&str, A>] with [nom::error::Error<&str>]: [LErr] is [Err::Error], [LFail] is
    [Err::Failure], each with the [input] and the [code]; [LPanic] is a panic of the parser. *)
Inductive lres (A : Type) :=
  | LOk (rest : str) (a : A)
  | LErr (at_ : str) (k : error_kind)
  | LFail (at_ : str) (k : error_kind)
  | LPanic.
Arguments LOk {A} rest a.
Arguments LErr {A} at_ k.
Arguments LFail {A} at_ k.
Arguments LPanic {A}.

Definition lparser (A : Type) := str -> lres A.

(** Sequencing with the question mark: errors pass through. *)
Definition lbind {A B} (p : lparser A) (k : A -> lparser B) : lparser B :=
  fun i =>
    match p i with
    | LOk rest a => k a rest
    | LErr at_ c => LErr at_ c
    | LFail at_ c => LFail at_ c
    | LPanic => LPanic
    end.
Definition lret {A} (a : A) : lparser A := fun i => LOk i a.

(** [bytes::complete::tag]: the error names the input the tag was expected in. *)
Definition ltag (t : str) : lparser unit :=
  fun i =>
    match tag t i with
    | POk rest a => LOk rest a
    | _ => LErr i KTag
    end.

(** [character::complete::satisfy], [char], [none_of], [anychar]: they differ in the code. *)
Definition lsatisfy_with (k : error_kind) (f : char -> bool) : lparser char :=
  fun i => match i with
           | c :: r => if f c then LOk r c else LErr i k
           | [] => LErr i k
           end.
Definition lsatisfy (f : char -> bool) : lparser char := lsatisfy_with KSatisfy f.
Definition lchar (c : char) : lparser char := lsatisfy_with KChar (N.eqb c).
Definition lanychar : lparser char := lsatisfy_with KEof (fun _ => true).
Definition lnone_of (l : str) : lparser char :=
  lsatisfy_with KNoneOf (fun c => negb (existsb (N.eqb c) l)).

(** [character::complete::digit1] *)
Definition ldigit1 : lparser str :=
  fun i => match take_while is_digit i with
           | ([], _) => LErr i KDigit
           | (ds, rest) => LOk rest ds
           end.

(** [combinator::map], [value] *)
Definition lmap {A B} (p : lparser A) (f : A -> B) : lparser B :=
  lbind p (fun a => lret (f a)).
Definition lvalue {A B} (v : B) (p : lparser A) : lparser B := lmap p (fun _ => v).

(** [combinator::map_res]: when the function fails the error names the input of the whole. *)
Definition lmap_res {A B} (p : lparser A) (f : A -> option B) : lparser B :=
  fun i =>
    match p i with
    | LOk rest a => match f a with Some b => LOk rest b | None => LErr i KMapRes end
    | LErr at_ c => LErr at_ c
    | LFail at_ c => LFail at_ c
    | LPanic => LPanic
    end.

(** [combinator::opt], [cut] *)
Definition lopt {A} (p : lparser A) : lparser (option A) :=
  fun i =>
    match p i with
    | LOk rest a => LOk rest (Some a)
    | LErr _ _ => LOk i None
    | LFail at_ c => LFail at_ c
    | LPanic => LPanic
    end.
Definition lcut {A} (p : lparser A) : lparser A :=
  fun i => match p i with LErr at_ c => LFail at_ c | r => r end.

(** [branch::alt] on a non-empty tuple: [ParseError::or] and [ParseError::append] of
    [nom::error::Error] keep the error of the last alternative. *)
Fixpoint lalt {A} (p : lparser A) (ps : list (lparser A)) : lparser A :=
  fun i =>
    match ps with
    | [] => p i
    | q :: ps' => match p i with LErr _ _ => lalt q ps' i | r => r end
    end.

(** [sequence::pair], [preceded], [terminated], [delimited] *)
Definition lpair {A B} (p : lparser A) (q : lparser B) : lparser (A * B) :=
  lbind p (fun a => lbind q (fun b => lret (a, b))).
Definition lpreceded {A B} (p : lparser A) (q : lparser B) : lparser B :=
  lbind p (fun _ => q).
Definition lterminated {A B} (p : lparser A) (q : lparser B) : lparser A :=
  lbind p (fun a => lbind q (fun _ => lret a)).
Definition ldelimited {A B C} (p : lparser A) (q : lparser B) (r : lparser C) : lparser B :=
  lbind p (fun _ => lbind q (fun b => lbind r (fun _ => lret b))).

(** [combinator::recognize] *)
Definition lrecognize {A} (p : lparser A) : lparser str :=
  fun i =>
    match p i with
    | LOk rest _ => LOk rest (firstn (length i - length rest) i)
    | LErr at_ c => LErr at_ c
    | LFail at_ c => LFail at_ c
    | LPanic => LPanic
    end.

(** The loop of [multi::many0] and [multi::many1] ([k] is the code of the error for a parser
    that does not consume). *)
Fixpoint lmany_loop {A} (k : error_kind) (fuel : nat) (p : lparser A) (i : str) (acc : list A)
  : lres (list A) :=
  match fuel with
  | O => LPanic
  | S fuel' =>
      match p i with
      | LErr _ _ => LOk i (rev acc)
      | LFail at_ c => LFail at_ c
      | LPanic => LPanic
      | LOk rest a =>
          if length rest =? length i then LErr i k
          else lmany_loop k fuel' p rest (a :: acc)
      end
  end.
Definition lmany0 {A} (p : lparser A) : lparser (list A) :=
  fun i => lmany_loop KMany0 (S (length i)) p i [].
(** [multi::many1]: the first error passes through ([append] keeps it). *)
Definition lmany1 {A} (p : lparser A) : lparser (list A) :=
  fun i =>
    match p i with
    | LOk rest a => lmany_loop KMany1 (S (length rest)) p rest [a]
    | LErr at_ c => LErr at_ c
    | LFail at_ c => LFail at_ c
    | LPanic => LPanic
    end.

(** [multi::separated_list0] *)
Fixpoint lsep_loop {A B} (fuel : nat) (sep : lparser B) (p : lparser A) (i : str)
  (acc : list A) : lres (list A) :=
  match fuel with
  | O => LPanic
  | S fuel' =>
      match sep i with
      | LErr _ _ => LOk i (rev acc)
      | LFail at_ c => LFail at_ c
      | LPanic => LPanic
      | LOk i1 _ =>
          if length i1 =? length i then LErr i1 KSeparatedList
          else
            match p i1 with
            | LErr _ _ => LOk i (rev acc)
            | LFail at_ c => LFail at_ c
            | LPanic => LPanic
            | LOk i2 a => lsep_loop fuel' sep p i2 (a :: acc)
            end
      end
  end.
Definition lseparated_list0 {A B} (sep : lparser B) (p : lparser A) : lparser (list A) :=
  fun i =>
    match p i with
    | LErr _ _ => LOk i []
    | LFail at_ c => LFail at_ c
    | LPanic => LPanic
    | LOk i1 a => lsep_loop (S (length i1)) sep p i1 [a]
    end.

(** [combinator::all_consuming]: the error names what is left over. *)
Definition lall_consuming {A} (p : lparser A) : lparser A :=
  fun i =>
    match p i with
    | LOk [] a => LOk [] a
    | LOk ((_ :: _) as rest) _ => LErr rest KEof
    | r => r
    end.

(** macros/src/format.rs:25-39 [Parse for Color]. *)
Definition lparse_color : lparser color :=
  lalt (lvalue Black (ltag (lit "black")))
       [ lvalue Red (ltag (lit "red"));
         lvalue Green (ltag (lit "green"));
         lvalue Yellow (ltag (lit "yellow"));
         lvalue Blue (ltag (lit "blue"));
         lvalue Magenta (ltag (lit "magenta"));
         lvalue Cyan (ltag (lit "cyan"));
         lvalue White (ltag (lit "white"));
         lvalue ColorDefault (ltag (lit "default")) ].

(** macros/src/format.rs:41-49 [Parse for Intensity]. *)
Definition lparse_intensity : lparser intensity :=
  lalt (lvalue Normal (ltag (lit "normal")))
       [ lvalue Bold (ltag (lit "bold")); lvalue Faint (ltag (lit "faint")) ].

(** macros/src/format.rs:51-66 [Parse for Box<dyn Restyle>]. *)
Definition lparse_restyle : lparser restyle_box :=
  lalt (lmap (lpreceded (ltag (lit "fg")) (lcut (lpreceded (ltag (lit "=")) lparse_color)))
          (fun c => RForeground (Foreground c)))
       [ lmap (lpreceded (ltag (lit "bg")) (lcut (lpreceded (ltag (lit "=")) lparse_color)))
           (fun c => RBackground (Background c));
         lmap lparse_intensity RIntensity ].

(** macros/src/format.rs:68-81 [Parse for StyleDiff]. *)
Definition lparse_style_diff : lparser style_diff :=
  lmap (lseparated_list0 (ltag (lit ",")) (lcut lparse_restyle)) diff_of_restyles.

(** macros/src/format.rs:90-98 [Parse for Align], 106-110 [Parse for Sign]. *)
Definition lparse_align : lparser p_align :=
  lalt (lvalue PLeft (ltag (lit "<")))
       [ lvalue PCenter (ltag (lit "^")); lvalue PRight (ltag (lit ">")) ].
Definition lparse_sign : lparser p_sign :=
  lalt (lvalue PPlus (ltag (lit "+"))) [ lvalue PMinus (ltag (lit "-")) ].

(** macros/src/format.rs:189-201, the trait selector. *)
Definition lparse_trait : lparser (option p_debug_hex * format_trait) :=
  lalt (lvalue (None, FDebug) (ltag (lit "?")))
       [ lvalue (Some PLower, FDebug) (ltag (lit "x?"));
         lvalue (Some PUpper, FDebug) (ltag (lit "X?"));
         lvalue (None, FOctal) (ltag (lit "o"));
         lvalue (None, FLowerHex) (ltag (lit "x"));
         lvalue (None, FUpperHex) (ltag (lit "X"));
         lvalue (None, FPointer) (ltag (lit "p"));
         lvalue (None, FBinary) (ltag (lit "b"));
         lvalue (None, FLowerExp) (ltag (lit "e"));
         lvalue (None, FUpperExp) (ltag (lit "E"));
         lvalue (None, FStylish) (ltag (lit "s")) ].

Section Xid.
Variable xid_start xid_continue : char -> bool.

(** macros/src/format.rs:14-19 [identifier]. *)
Definition lidentifier : lparser str :=
  lrecognize (lpair (lalt (lsatisfy xid_start) [lchar 95%N]) (lmany0 (lsatisfy xid_continue))).

(** macros/src/format.rs:229-236 [Parse for FormatArgRef]. *)
Definition lparse_arg_ref : lparser arg_ref :=
  lalt (lmap (lmap_res ldigit1 usize_from_str) Positional) [ lmap lidentifier Named ].

(** macros/src/format.rs:155-162 [Parse for Count]. *)
Definition lparse_count : lparser count :=
  lalt (lmap (lterminated lparse_arg_ref (ltag (lit "$"))) CParam)
       [ lmap (lmap_res ldigit1 usize_from_str) CInt ].

(** macros/src/format.rs:173-182, fill and alignment. *)
Definition lparse_fill_align : lparser (option p_align) :=
  fun i =>
    match lopt (lalt (lpair lanychar lparse_align)
                     [ lmap lparse_align (fun a => (32%N, a)) ]) i with
    | LOk rest (Some (fill, a)) => if N.eqb fill 32 then LOk rest (Some a) else LPanic
    | LOk rest None => LOk rest None
    | LErr at_ c => LErr at_ c
    | LFail at_ c => LFail at_ c
    | LPanic => LPanic
    end.

(** macros/src/format.rs:171-221 [Parse for FormatSpec]. *)
Definition lparse_format_spec : lparser format_spec :=
  lbind lparse_fill_align (fun al =>
  lbind (lopt lparse_sign) (fun sg =>
  lbind (lopt (lvalue true (ltag (lit "#")))) (fun alternate =>
  lbind (lopt (lvalue true (ltag (lit "0")))) (fun zero =>
  lbind (lopt lparse_count) (fun width =>
  lbind (lopt (lpreceded (ltag (lit ".")) lparse_count)) (fun precision =>
  lbind (lopt (ldelimited (ltag (lit "(")) (lcut lparse_style_diff) (ltag (lit ")")))) (fun st =>
  lbind (lopt lparse_trait) (fun ht =>
  lret (mk_spec
          (mk_pfargs al sg (or_false alternate) (or_false zero) width precision
             (match ht with Some (h, _) => h | None => None end))
          (match st with Some d => d | None => diff_default end)
          (match ht with Some (_, t) => t | None => FDisplay end)))))))))).

(** macros/src/format.rs:244-256 [Parse for FormatArg]. *)
Definition lparse_format_arg : lparser format_arg :=
  lbind (lopt lparse_arg_ref) (fun arg =>
  lbind (lopt (lpreceded (ltag (lit ":")) lparse_format_spec)) (fun spec =>
  lret (mk_farg arg (match spec with Some s => s | None => spec_default end)))).

(** macros/src/format.rs:266-272 [Piece::parse_lit]. *)
Definition lparse_lit : lparser piece :=
  lalt (lmap (lrecognize (lmany1 (lnone_of (lit "{}")))) Lit)
       [ lvalue (Lit (lit "{")) (ltag (lit "{{"));
         lvalue (Lit (lit "}")) (ltag (lit "}}")) ].

(** macros/src/format.rs:274-279 [Piece::parse_arg]. *)
Definition lparse_arg : lparser piece :=
  lmap (ldelimited (ltag (lit "{")) (lcut lparse_format_arg) (ltag (lit "}"))) Arg.

(** macros/src/format.rs:282-286 [Parse for Piece]. *)
Definition lparse_piece : lparser piece := lalt lparse_lit [lparse_arg].

(** macros/src/format.rs:293-297 [Parse for Format]. *)
Definition lparse_format : lparser (list piece) := lall_consuming (lmany0 lparse_piece).
End Xid.
