(** Model of the [to_*_string] conversions: core/src/to_string.rs:34-41,
    plain/src/to_string.rs:37-44, ansi/src/to_string.rs:37-44, html/src/to_string.rs:40-47.
    All four bodies are [format!("{:s}", self)] with their crate's own [format!]
    (core/src/lib.rs, plain/src/lib.rs, ..: [format!(..)] is [format(format_args!(..))]). *)
From Verif Require Import Base Style Fmt SpecStd StdCompat SString Plain Ansi Html Format Nom
  Parse Codegen.

Section Xid.
Variable xid_start xid_continue : char -> bool.

(** [format_args!("{:s}", self)]; [None] would be a compile error.  The value is evaluated
    without side effects. *)
Definition s_args (v : value_t) : option arguments :=
  match format_args_impl xid_start xid_continue (lit "{:s}")
          [fun h : unit => (h, Some v)] [] with
  | Expanded c => snd (eval_code (fun _ => v) c tt)
  | CompileError => None
  end.

Definition to_stylish_string (v : value_t) : option (comp sstring) :=
  option_map stylish_format (s_args v).
Definition to_plain_string (v : value_t) : option (comp str) :=
  option_map plain_format (s_args v).
Definition to_ansi_string (v : value_t) : option (comp str) :=
  option_map ansi_format (s_args v).
Definition to_html_string (v : value_t) : option (comp str) :=
  option_map html_format (s_args v).
End Xid.
