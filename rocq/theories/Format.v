(** Model of the [format] functions: core/src/format.rs, plain/src/format.rs,
    ansi/src/format.rs, html/src/format.rs. *)
From Verif Require Import Base Style Fmt SString Plain Ansi Html.

(** core/src/format.rs:58-64 [stylish::format]; [expect] panics on [Err]. *)
Definition stylish_format (args : arguments) : comp sstring :=
  match w_write_fmt Write_sstring sstring_new args with
  | (w, Returned Ok) => Value w
  | (_, Returned Err) => Crash Panic
  | (_, Crashed c) => Crash c
  end.

(** plain/src/format.rs:37-43 [plain::format] (through the inherent [write_fmt],
    plain/src/plain.rs:26-28). *)
Definition plain_format (args : arguments) : comp str :=
  match w_write_fmt (Write_plain string_sink) (plain_new []) args with
  | (w, Returned Ok) => Value (plain_into_inner w)
  | (_, Returned Err) => Crash Panic
  | (_, Crashed c) => Crash c
  end.

(** ansi/src/format.rs:37-42 [ansi::format]. *)
Definition ansi_format (args : arguments) : comp str :=
  match w_write_fmt (Write_ansi string_sink) (ansi_new []) args with
  | (w, Returned Ok) =>
      match ansi_finish string_sink w with
      | (s, Returned Ok) => Value s
      | (_, Returned Err) => Crash Panic
      | (_, Crashed c) => Crash c
      end
  | (_, Returned Err) => Crash Panic
  | (_, Crashed c) => Crash c
  end.

(** html/src/format.rs:37-42 [html::format]. *)
Definition html_format (args : arguments) : comp str :=
  match w_write_fmt (Write_html string_sink) (html_new []) args with
  | (w, Returned Ok) =>
      match html_finish string_sink w with
      | (s, Returned Ok) => Value s
      | (_, Returned Err) => Crash Panic
      | (_, Crashed c) => Crash c
      end
  | (_, Returned Err) => Crash Panic
  | (_, Crashed c) => Crash c
  end.
