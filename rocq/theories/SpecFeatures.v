(** What the README (section "Features") and the documentation say about the features of [stylish]. *)
From Verif Require Import Base.
From Coq Require Import List String.
From Verif Require Import Features.
Import ListNotations.
Open Scope string_scope.

(** The features a user has turned on by naming [fs]: [default] is [std] and [macros], [alloc] is implied
    by [std] (README, column "Activation"). *)
Inductive enabled (fs : list feature) : feature -> Prop :=
  | en_named f : In f fs -> enabled fs f
  | en_default_std : In Fdefault fs -> enabled fs Fstd
  | en_default_macros : In Fdefault fs -> enabled fs Fmacros
  | en_std_alloc : enabled fs Fstd -> enabled fs Falloc.

(** The public names of [stylish] and the features each is documented to need (README, column "Effect",
    and the [cfg] badges of the API documentation). *)
Definition documented : list (string * list feature) :=
  [ ("Arguments", []); ("Background", []); ("Color", []); ("Display", []); ("Error", []); ("Foreground", []);
    ("Formatter", []); ("Intensity", []); ("Restyle", []); ("Result", []); ("Style", []); ("StyleDiff", []);
    ("Write", []);
    ("String", [Falloc]); ("format", [Falloc]); ("ToStylishString", [Falloc; Fmacros]);
    ("format_args!", [Fmacros]); ("write!", [Fmacros]); ("writeln!", [Fmacros]); ("format!", [Falloc; Fmacros]);
    ("mod io", [Fstd]); ("io::Write", [Fstd]); ("io::Error", [Fstd]); ("io::ErrorKind", [Fstd]); ("io::Result", [Fstd]);
    ("io::Ansi", [Fstd; Fansi]); ("io::ansi", [Fstd; Fansi]);
    ("io::Plain", [Fstd; Fplain]); ("io::plain", [Fstd; Fplain]);
    ("mod ansi", [Fansi]); ("Ansi", [Fansi]); ("fn ansi", [Fansi]); ("ToAnsiString", [Fansi; Falloc; Fmacros]);
    ("ansi::format", [Fansi; Falloc]); ("ansi::format!", [Fansi; Falloc; Fmacros]);
    ("mod html", [Fhtml]); ("Html", [Fhtml]); ("fn html", [Fhtml]); ("ToHtmlString", [Fhtml; Falloc; Fmacros]);
    ("html::format", [Fhtml; Falloc]); ("html::format!", [Fhtml; Falloc; Fmacros]);
    ("mod plain", [Fplain]); ("Plain", [Fplain]); ("fn plain", [Fplain]); ("ToPlainString", [Fplain; Falloc; Fmacros]);
    ("plain::format", [Fplain; Falloc]); ("plain::format!", [Fplain; Falloc; Fmacros]) ].

(** A user of [stylish]: a crate in the build that names some of its features. *)
Definition uses_stylish (p : place) (fs : list feature) : request := mk_request p Stylish fs.
(** A public path of a crate exists, for whoever depends on that crate. *)
Definition available (R : resolver) (reqs : list request) (p : place) (k : krate) (path : string) : Prop :=
  exists it, i_krate it = k /\ i_path it = path /\ i_public it = true /\ present R reqs p it.
