(** Model of core/src/string.rs. *)
From Verif Require Import Base Style Fmt.

(** core/src/string.rs:42-46 [struct String]. *)
Record sstring := mk_sstring {
  ss_string : str;
  ss_styles : list (nat * style)
}.

(** core/src/string.rs:55-57 [String::new]. *)
Definition sstring_new : sstring := mk_sstring [] [].

(** [slice::last]. *)
Fixpoint last_opt {A} (l : list A) : option A :=
  match l with
  | [] => None
  | [x] => Some x
  | _ :: r => last_opt r
  end.

(** core/src/string.rs:63, the comparison [Some(style) != last.map(..)], negated. *)
Definition last_style_is (styles : list (nat * style)) (st : style) : bool :=
  match last_opt styles with
  | Some (_, st') => style_eqb st st'
  | None => false
  end.

(** core/src/string.rs:60-69 [Write for String]. *)
Definition sstring_write_str (w : sstring) (s : str) (st : style) : sstring * outcome :=
  let styles :=
    if negb (last_style_is (ss_styles w) st)
    then ss_styles w ++ [(str_len (ss_string w), st)]
    else ss_styles w in
  (mk_sstring (ss_string w ++ s) styles, Returned Ok).

(** core/src/string.rs:71-84 [Display for String]: the loop over the peekable iterator. *)
Fixpoint sstring_display_loop (string : str) (styles : list (nat * style)) (f : formatter)
  : wprog :=
  match styles with
  | [] => Ret Ok
  | (start, st) :: rest =>
      let end_ := match rest with (e, _) :: _ => e | [] => str_len string end in
      match str_slice string start end_ with
      | None => Abort Panic
      | Some piece =>
          try_ (formatter_write_str (formatter_with Restyle_Style f st) piece)
            (sstring_display_loop string rest f)
      end
  end.

Definition Display_sstring (w : sstring) : display :=
  fun f => sstring_display_loop (ss_string w) (ss_styles w) f.

(** [impl Write for String] only gives the required method. *)
Definition Write_sstring : Write sstring := Write_default sstring_write_str.
