(** Specification for C90: where a format string goes wrong. *)
From Verif Require Import Base Style Parse SpecGrammar.

Section Xid.
Variable xid_start xid_continue : char -> bool.

(** No piece of a format string starts here: no beginning of this text is a format string of
    exactly one piece. *)
Definition no_piece (at_ : str) : Prop :=
  forall p q r, at_ = q ++ r -> ~ format_string xid_start xid_continue [p] q.

(** The beginning of a placeholder up to and including the parenthesis that opens its
    attributes.  The flag says that the parenthesis directly follows the colon. *)
Inductive attributes_open : bool -> str -> Prop :=
  | ao_intro arg al sg alt zero w p s1 s2 s3 s4 s5 s6 :
      (arg = [] \/ exists a, arg_spelled xid_start xid_continue a arg) ->
      align_spelled al s1 -> sign_spelled sg s2 -> flag_spelled "#" alt s3 ->
      flag_spelled "0" zero s4 -> width_spelled xid_start xid_continue w s5 ->
      precision_spelled xid_start xid_continue p s6 ->
      (zero = false -> hd_error s5 <> Some 48%N) ->
      attributes_open (is_empty (s1 ++ s2 ++ s3 ++ s4 ++ s5 ++ s6))
        (lit "{" ++ arg ++ lit ":" ++ (s1 ++ s2 ++ s3 ++ s4 ++ s5 ++ s6) ++ lit "(").

(** Attributes, each followed by a comma. *)
Inductive complete_attributes : str -> Prop :=
  | ca_nil : complete_attributes []
  | ca_more a s c : attr_spelled a s -> complete_attributes c ->
      complete_attributes (s ++ lit "," ++ c).

(** After the given beginning of an attribute comes something else than what has to come: the
    name of an attribute, an equals sign, or the name of a color. *)
Inductive expected : str -> str -> Prop :=
  | ex_attribute at_ :
      (forall k r, In k (map lit ["fg"; "bg"; "normal"; "bold"; "faint"]%string) ->
                   at_ <> k ++ r) ->
      expected [] at_
  | ex_equals k at_ : In k (map lit ["fg"; "bg"]%string) ->
      (forall r, at_ <> lit "=" ++ r) -> expected k at_
  | ex_color k at_ : In k (map lit ["fg="; "bg="]%string) ->
      (forall c n r, color_name c n -> at_ <> n ++ r) -> expected k at_.

(** A placeholder whose attribute list goes wrong at [at_].  (When the parenthesis directly
    follows the colon and an alignment character comes next, the parenthesis is a fill
    character instead.) *)
Definition bad_attribute (i at_ : str) : Prop :=
  exists first o c w,
    i = o ++ c ++ w ++ at_ /\ attributes_open first o /\ complete_attributes c /\
    expected w at_ /\ (first = true -> starts_with_align (c ++ w ++ at_) = false).

(** A placeholder with a fill character other than a space. *)
Definition filled_placeholder (i : str) : Prop :=
  exists arg fill al rest,
    i = lit "{" ++ arg ++ lit ":" ++ fill :: al :: rest /\ fill <> 32%N /\
    is_align_char al = true /\
    (arg = [] \/ exists a, arg_spelled xid_start xid_continue a arg).
End Xid.
