(** Model of plain/src/plain.rs. *)
From Verif Require Import Base Style Fmt.

(** plain/src/plain.rs:13-15 [struct Plain]. *)
Record plain (S : Type) := mk_plain { pl_inner : S }.
Arguments mk_plain {S} _.
Arguments pl_inner {S} _.

(** plain/src/plain.rs:19-21 [Plain::new]. *)
Definition plain_new {S} (inner : S) : plain S := mk_plain inner.

(** plain/src/plain.rs:31-33 [Plain::into_inner]. *)
Definition plain_into_inner {S} (p : plain S) : S := pl_inner p.

(** plain/src/plain.rs:36-40 [Write for Plain]. *)
Definition plain_write_str {S} (sink : fmt_sink S) : write_fn (plain S) :=
  fun w s _style =>
    match sink (pl_inner w) s with
    | (i, r) => (mk_plain i, r)
    end.

Definition Write_plain {S} (sink : fmt_sink S) : Write (plain S) :=
  Write_default (plain_write_str sink).
