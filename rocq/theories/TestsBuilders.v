(** Replay of /repo/tests/std/builders.rs on the model of std's Debug builders.  Tests of the model, not theorems
    about it.  The string literals shown by [Debug for str] are leaves with their quotes. *)
From Coq Require Import ZArith.
From Verif Require Import Base Style Fmt SpecStd StdCompat Codegen StdVal Builders Tests.

Definition nl : str := [10%N].
Fixpoint rows (l : list string) : str :=
  match l with [] => [] | [s] => lit s | s :: r => lit s ++ nl ++ rows r end.
Definition debug (f : string) (d : dbg) (l : list string) : Prop :=
  plain f [e_ (val (dbg_value d))] = Some (Value (rows l)).
Definition true_ := dbg_bool true.
Definition frac := DUnit (lit "10/20").
Definition q (s : string) : dbg := DUnit ([34%N] ++ lit s ++ [34%N]).
Definition quoted (s : string) : string := String (Ascii.ascii_of_nat 34) (s ++ String (Ascii.ascii_of_nat 34) "").
Definition i32 (z : Z) : dbg := DLeaf (int_std 32 z TDebug).
Open Scope string_scope.
Definition cat := String.append.

Example struct_empty : debug "{:?}" (DStruct (lit "Foo") [] true) ["Foo"] /\ debug "{:#?}" (DStruct (lit "Foo") [] true) ["Foo"].
Proof. t. Qed.
Example struct_single : let d := DStruct (lit "Foo") [(lit "bar", true_)] true in
  debug "{:?}" d ["Foo { bar: true }"] /\ debug "{:#?}" d ["Foo {"; "    bar: true,"; "}"].
Proof. t. Qed.
Definition foo_struct (e : bool) := DStruct (lit "Foo") [(lit "bar", true_); (lit "baz", frac)] e.
Definition bar_struct (e : bool) := DStruct (lit "Bar") [(lit "foo", foo_struct e); (lit "hello", q "world")] e.
Example struct_multiple :
  debug "{:?}" (foo_struct true) ["Foo { bar: true, baz: 10/20 }"] /\
  debug "{:#?}" (foo_struct true) ["Foo {"; "    bar: true,"; "    baz: 10/20,"; "}"].
Proof. t. Qed.
Example struct_nested :
  debug "{:?}" (bar_struct true) [cat "Bar { foo: Foo { bar: true, baz: 10/20 }, hello: " (cat (quoted "world") " }")] /\
  debug "{:#?}" (bar_struct true) ["Bar {"; "    foo: Foo {"; "        bar: true,"; "        baz: 10/20,"; "    },";
    cat "    hello: " (cat (quoted "world") ","); "}"].
Proof. t. Qed.
Example struct_non_exhaustive :
  debug "{:?}" (DStruct (lit "Foo") [] false) ["Foo { .. }"] /\
  debug "{:#?}" (DStruct (lit "Foo") [] false) ["Foo {"; "    .."; "}"] /\
  debug "{:?}" (foo_struct false) ["Foo { bar: true, baz: 10/20, .. }"] /\
  debug "{:#?}" (foo_struct false) ["Foo {"; "    bar: true,"; "    baz: 10/20,"; "    .."; "}"] /\
  debug "{:?}" (bar_struct false) [cat "Bar { foo: Foo { bar: true, baz: 10/20, .. }, hello: " (cat (quoted "world") ", .. }")] /\
  debug "{:#?}" (bar_struct false) ["Bar {"; "    foo: Foo {"; "        bar: true,"; "        baz: 10/20,"; "        .."; "    },";
    cat "    hello: " (cat (quoted "world") ","); "    .."; "}"].
Proof. t. Qed.
Definition foo_tuple := DTuple (lit "Foo") [true_; frac].
Example tuples :
  debug "{:?}" (DTuple (lit "Foo") []) ["Foo"] /\ debug "{:#?}" (DTuple (lit "Foo") []) ["Foo"] /\
  debug "{:?}" (DTuple (lit "Foo") [true_]) ["Foo(true)"] /\
  debug "{:#?}" (DTuple (lit "Foo") [true_]) ["Foo("; "    true,"; ")"] /\
  debug "{:?}" foo_tuple ["Foo(true, 10/20)"] /\
  debug "{:#?}" foo_tuple ["Foo("; "    true,"; "    10/20,"; ")"] /\
  debug "{:?}" (DTuple (lit "Bar") [foo_tuple; q "world"]) [cat "Bar(Foo(true, 10/20), " (cat (quoted "world") ")")] /\
  debug "{:#?}" (DTuple (lit "Bar") [foo_tuple; q "world"]) ["Bar("; "    Foo("; "        true,"; "        10/20,"; "    ),";
    cat "    " (cat (quoted "world") ","); ")"].
Proof. t. Qed.
Definition foo_map := DMap [(q "bar", true_); (i32 10, frac)].
Definition bar_map := DMap [(q "foo", foo_map); (foo_map, q "world")].
Example maps :
  debug "{:?}" (DMap []) ["{}"] /\ debug "{:#?}" (DMap []) ["{}"] /\
  debug "{:?}" (DMap [(q "bar", true_)]) [cat "{" (cat (quoted "bar") ": true}")] /\
  debug "{:#?}" (DMap [(q "bar", true_)]) ["{"; cat "    " (cat (quoted "bar") ": true,"); "}"] /\
  debug "{:?}" foo_map [cat "{" (cat (quoted "bar") ": true, 10: 10/20}")] /\
  debug "{:#?}" foo_map ["{"; cat "    " (cat (quoted "bar") ": true,"); "    10: 10/20,"; "}"] /\
  debug "{:?}" bar_map [cat "{" (cat (quoted "foo") (cat ": {" (cat (quoted "bar") (cat ": true, 10: 10/20}, {"
     (cat (quoted "bar") (cat ": true, 10: 10/20}: " (cat (quoted "world") "}")))))))] /\
  debug "{:#?}" bar_map ["{"; cat "    " (cat (quoted "foo") ": {"); cat "        " (cat (quoted "bar") ": true,"); "        10: 10/20,"; "    },";
    "    {"; cat "        " (cat (quoted "bar") ": true,"); "        10: 10/20,"; cat "    }: " (cat (quoted "world") ","); "}"].
Proof. t. Qed.
(** [test_entry_err] and the three [should_panic] tests. *)
Definition error_fmt : dbg := DLeaf (fun _ => SRet Err).
Definition fails (d : dbg) : Prop :=
  std_outcome (debug_std d (std_flags_of fargs_default None)) = Returned Err.
Example map_errors :
  fails (DMap [(error_fmt, q "bar")]) /\ fails (DMap [(q "foo", error_fmt)]) /\
  fails (DMap [(error_fmt, q "bar"); (error_fmt, q "bar")]) /\ fails (DMap [(q "foo", error_fmt); (q "foo", error_fmt)]) /\
  std_outcome (debug_map false [MKey (SRet Ok); MKey (SRet Ok)]) = Crashed Panic /\
  std_outcome (debug_map false [MKey (SRet Ok)]) = Crashed Panic /\
  std_outcome (debug_map false [MValue (SRet Ok); MKey (SRet Ok)]) = Crashed Panic.
Proof. t. Qed.
Definition foo_set := DSet [true_; frac].
Definition foo_list := DList [true_; frac].
Example sets_and_lists :
  debug "{:?}" (DSet []) ["{}"] /\ debug "{:#?}" (DSet []) ["{}"] /\
  debug "{:?}" (DSet [true_]) ["{true}"] /\ debug "{:#?}" (DSet [true_]) ["{"; "    true,"; "}"] /\
  debug "{:?}" foo_set ["{true, 10/20}"] /\ debug "{:#?}" foo_set ["{"; "    true,"; "    10/20,"; "}"] /\
  debug "{:?}" (DSet [foo_set; q "world"]) [cat "{{true, 10/20}, " (cat (quoted "world") "}")] /\
  debug "{:#?}" (DSet [foo_set; q "world"]) ["{"; "    {"; "        true,"; "        10/20,"; "    },"; cat "    " (cat (quoted "world") ","); "}"] /\
  debug "{:?}" (DList []) ["[]"] /\ debug "{:#?}" (DList []) ["[]"] /\
  debug "{:?}" (DList [true_]) ["[true]"] /\ debug "{:#?}" (DList [true_]) ["["; "    true,"; "]"] /\
  debug "{:?}" foo_list ["[true, 10/20]"] /\ debug "{:#?}" foo_list ["["; "    true,"; "    10/20,"; "]"] /\
  debug "{:?}" (DList [foo_list; q "world"]) [cat "[[true, 10/20], " (cat (quoted "world") "]")] /\
  debug "{:#?}" (DList [foo_list; q "world"]) ["["; "    ["; "        true,"; "        10/20,"; "    ],"; cat "    " (cat (quoted "world") ","); "]"].
Proof. t. Qed.
Example test_formatting_parameters_are_forwarded :
  debug "{:03?}" (DStruct (lit "Foo") [(lit "bar", i32 1024); (lit "baz", i32 7)] true) ["Foo { bar: 1024, baz: 007 }"] /\
  debug "{:03?}" (DTuple [] [i32 1024; i32 7]) ["(1024, 007)"] /\
  debug "{:03?}" (DList [i32 1024; i32 7]) ["[1024, 007]"] /\
  debug "{:03?}" (DMap [(q "bar", i32 1024); (q "baz", i32 7)]) [cat "{" (cat (quoted "bar") (cat ": 1024, " (cat (quoted "baz") ": 007}")))] /\
  debug "{:03?}" (DSet [i32 7; i32 1024]) ["{007, 1024}"] /\
  debug "{:#03?}" (DStruct (lit "Foo") [(lit "bar", i32 1024); (lit "baz", i32 7)] true) ["Foo {"; "    bar: 1024,"; "    baz: 007,"; "}"] /\
  debug "{:#03?}" (DTuple [] [i32 1024; i32 7]) ["("; "    1024,"; "    007,"; ")"] /\
  debug "{:#03?}" (DList [i32 1024; i32 7]) ["["; "    1024,"; "    007,"; "]"] /\
  debug "{:#03?}" (DMap [(q "bar", i32 1024); (q "baz", i32 7)])
    ["{"; cat "    " (cat (quoted "bar") ": 1024,"); cat "    " (cat (quoted "baz") ": 007,"); "}"] /\
  debug "{:#03?}" (DSet [i32 7; i32 1024]) ["{"; "    007,"; "    1024,"; "}"].
Proof. t. Qed.
