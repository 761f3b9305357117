(** Specification: output shown in surroundings that are not in the default style. *)
From Verif Require Import Base Style SpecText SpecTerminal SpecSgr SpecHtml.

(** * HTML

    How text of style [st] should look inside an element with computed style [p]: the attributes
    that are not default override, weights are relative. *)
Definition or_surrounding {A} (x y : option A) : option A := match x with Some _ => x | None => y end.
Definition look_within (p : css) (st : style) : css :=
  mk_css (or_surrounding (css_name (foreground st)) (v_color p))
         (or_surrounding (css_name (background st)) (v_background p))
         (match intens st with
          | Normal => v_weight p
          | Bold => bolder (v_weight p)
          | Faint => lighter (v_weight p)
          end).

(** * Terminals

    Every character so far was written in the default style, or in the default style up to some
    point and in other styles since: the style never went back to the default one. *)
Definition never_back (t : stext) : Prop :=
  exists before after, t = before ++ after /\
    Forall (fun cs => snd cs = style_default) before /\
    Forall (fun cs => snd cs <> style_default) after.

(** Text of which some attribute was never set: it always had the default value [d], and the
    style never went back to the default one. *)
Definition untouched {A} (get : style -> A) (d : A) (t : stext) : Prop :=
  never_back t /\ Forall (fun cs => get (snd cs) = d) t.

(** [t] ends in a character of style [st]; it is shown in rendition [r] on a terminal that had
    rendition [ambient] before [t]: an attribute never set is that of the terminal before, any
    other one is as written. *)
Definition attribute_shown {A} (get : style -> A) (d : A) (ambient : style) (t : stext) (st r : style) : Prop :=
  (untouched get d t -> get r = get ambient) /\
  (~ untouched get d t -> get r = get st).
Definition shown_on (ambient : style) (t : stext) (st r : style) : Prop :=
  attribute_shown foreground ColorDefault ambient t st r /\
  attribute_shown background ColorDefault ambient t st r /\
  attribute_shown intens Normal ambient t st r.
