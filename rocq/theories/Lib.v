(** Model of src/lib.rs: the constructor functions of the facade crate. *)
From Verif Require Import Base Style Fmt Plain Ansi Html Io.

(** src/lib.rs:79-81 [stylish::ansi]. *)
Definition lib_ansi {S} (inner : S) : ansi S := ansi_new inner.
(** src/lib.rs:95-97 [stylish::html]. *)
Definition lib_html {S} (inner : S) : html S := html_new inner.
(** src/lib.rs:108-110 [stylish::plain]. *)
Definition lib_plain {S} (inner : S) : plain S := plain_new inner.
(** src/lib.rs:49-51 [stylish::io::ansi]. *)
Definition lib_io_ansi {S} (inner : S) : io_ansi S := io_ansi_new inner.
(** src/lib.rs:65-67 [stylish::io::plain]. *)
Definition lib_io_plain {S} (inner : S) : io_plain S := io_plain_new inner.
