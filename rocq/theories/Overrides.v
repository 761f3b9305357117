(** Model of ansi/src/ansi.rs and html/src/html.rs over a sink that has its own [write_fmt].  [core::fmt::Write]
    lets an implementor override that provided method, and the adaptors use both methods: the markup goes
    to [inner.write_str], the text through [write!(self.inner, ..)], which is [inner.write_fmt]. *)
From Verif Require Import Base Style Fmt Ansi Html.

(** An implementation of [core::fmt::Write] (used by ansi/src/ansi.rs:49 and html/src/html.rs:53).  The
    [fmt::Arguments] given to [write_fmt] is what it writes, string by string, when it is formatted: that is
    all an implementation can learn from it.  [write_char] is not called by the adaptors. *)
Record fmt_impl (S : Type) := mk_impl {
  fi_write_str : S -> str -> S * outcome;
  fi_write_fmt : S -> list str -> S * outcome
}.
Arguments mk_impl {S} _ _.
Arguments fi_write_str {S} _.
Arguments fi_write_fmt {S} _.

(** The provided [write_fmt]: each string to [write_str], until one does not succeed (core::fmt::write, called
    from ansi/src/ansi.rs:77 and html/src/html.rs:86). *)
Definition provided {S} (sink : fmt_sink S) : fmt_impl S :=
  mk_impl sink (fun i parts => write_parts sink parts i).

(** ansi/src/ansi.rs:49-80 [Write for Ansi]; line 77 is [write!(self.inner, "{s}")]. *)
Definition ansi_write_via {S} (d : fmt_impl S) : write_fn (ansi S) :=
  fun w s st =>
    if is_empty s then (w, Returned Ok)
    else
      match write_parts (fi_write_str d) (ansi_change (an_current w) st) (an_inner w) with
      | (i, Returned Ok) =>
          match fi_write_fmt d i [s] with
          | (i', r) => (mk_ansi i' st, r)
          end
      | (i, r) => (mk_ansi i (an_current w), r)
      end.

(** ansi/src/ansi.rs:41-46 [Ansi::finish]. *)
Definition ansi_finish_via {S} (d : fmt_impl S) (w : ansi S) : S * outcome :=
  if negb (style_eqb (an_current w) style_default)
  then fi_write_str d (an_inner w) ansi_reset
  else (an_inner w, Returned Ok).

(** html/src/html.rs:53-90 [Write for Html]; line 86 is [write!(self.inner, "{}", escape(s, AskamaHtml))]. *)
Definition html_write_via {S} (d : fmt_impl S) : write_fn (html S) :=
  fun w s st =>
    if is_empty s then (w, Returned Ok)
    else
      match write_parts (fi_write_str d) (html_change (ht_current w) st) (ht_inner w) with
      | (i, Returned Ok) =>
          match fi_write_fmt d i (escape_parts s) with
          | (i', r) => (mk_html i' st, r)
          end
      | (i, r) => (mk_html i (ht_current w), r)
      end.

(** html/src/html.rs:45-50 [Html::finish]. *)
Definition html_finish_via {S} (d : fmt_impl S) (w : html S) : S * outcome :=
  if negb (style_eqb (ht_current w) style_default)
  then fi_write_str d (ht_inner w) (lit "</span>")
  else (ht_inner w, Returned Ok).
