(** Replay of the repository's own tests and documentation examples on the model: /repo/tests/tests.rs,
    /repo/tests/std, /repo/plain/tests/tests.rs and the doc comments.  These are tests of the
    model, not theorems about it. *)
From Coq Require Import ZArith.
From Verif Require Import Base Style Fmt SpecStd StdCompat SString Plain Ansi Html Io Format Nom Parse
  Codegen StdVal ToString Macros SpecText SpecIo SpecGrammar PropsParse PropsMacro SpecCall.

(** Evaluation state: a counter variable; identifier tables with one non-ASCII letter. *)
Definition st_t := Z.
Definition t_start (c : char) : bool := ascii_start c || (c =? 0x13004)%N.
Definition t_continue (c : char) : bool := ascii_continue c || (c =? 0x13004)%N.
Definition int (z : Z) : expr st_t := fun h => (h, Some (int_value 32 z)).
Definition text (s : string) : expr st_t := fun h => (h, Some (str_value (lit s))).
Definition val (v : value_t) : expr st_t := fun h => (h, Some v).
(** The variables in scope. *)
Definition vars : str -> value_t := fun n =>
  if str_eqb n (lit "x") then int_value 32 1
  else if str_eqb n [0x13004%N] then int_value 32 5
  else if str_eqb n (lit "type") then str_value (lit "apple")
  else str_value (lit "?").
Definition named (n : string) (e : expr st_t) : mexpr (expr st_t) := MAssign (LPath PlainPath [(lit n, false)]) e e.
Fixpoint commas (l : list (mexpr (expr st_t))) : list (tok (expr st_t)) :=
  match l with [] => [] | m :: r => TComma :: TExpr m :: commas r end.
Definition args_of (fmt : mexpr (expr st_t)) (l : list (mexpr (expr st_t))) : option arguments :=
  match format_args_macro t_start t_continue (TExpr fmt :: commas l) with
  | Expanded c => snd (eval_code vars c 5%Z) | CompileError => None end.
Definition S (s : string) : mexpr (expr st_t) := MStr (lit s) (text s).
Definition fmt_with (g : arguments -> comp str) (s : string) (l : list (mexpr (expr st_t))) : option (comp str) :=
  option_map g (args_of (S s) l).
Definition plain := fmt_with plain_format.
Definition ansi := fmt_with ansi_format.
Definition html := fmt_with html_format.
Definition gives (s : string) : option (comp str) := Some (Value (lit s)).
Definition e_ (e : expr st_t) : mexpr (expr st_t) := MOther e.
Definition esc (n : string) : str := 27%N :: lit "[" ++ lit n ++ lit "m".

(** * tests/tests.rs *)
Example one : plain "{}" [e_ (int 1)] = gives "1". Proof. vm_compute. reflexivity. Qed.
Example let_ : match args_of (S "{}") [e_ (int 1)] with
  | Some a => plain "{:s}" [e_ (val (mk_value (fun _ _ => SRet Err) (Display_Arguments a)))] | None => None end
  = gives "1". Proof. vm_compute. reflexivity. Qed.
Example two : plain "{0}" [e_ (int 1)] = gives "1". Proof. vm_compute. reflexivity. Qed.
Example three : plain "{}{0}" [e_ (fun x => (x + 1, Some (int_value 32 (x + 1)))%Z)] = gives "66".
Proof. vm_compute. reflexivity. Qed.
Example four : plain "{x}" [named "x" (int 1)] = gives "1". Proof. vm_compute. reflexivity. Qed.
Example five : plain "{x}" [] = gives "1". Proof. vm_compute. reflexivity. Qed.
Example six : plain "{x}" [named "x" (int 2)] = gives "2". Proof. vm_compute. reflexivity. Qed.
(** [error]: writeln! of a failing value to an io::Plain over a vector. *)
Example error :
  match writeln_macro t_start t_continue (text "") (TComma :: TExpr (S "{:s}") ::
          commas [e_ (val (mk_value (fun _ _ => SRet Err) (fun _ => Ret Err)))]) with
  | Expanded c => match snd (eval_code vars c 5%Z) with
                  | Some args => snd (io_write_fmt (IoWrite_plain (scripted 10)) (io_plain_new ([], [])) args)
                  | None => IoOk tt end
  | CompileError => IoOk tt
  end = IoErr formatter_error.
Proof. vm_compute. reflexivity. Qed.
Example large : plain "{:s}" [e_ (val (mk_value (fun _ _ => SRet Err) (fun f => formatter_write_str f (lit "foo"))))]
  = gives "foo". Proof. vm_compute. reflexivity. Qed.
Example blue : ansi "{:(fg=blue)}" [e_ (int 2)] = Some (Value (esc "34" ++ lit "2" ++ esc "0")) /\
  html "{:(fg=blue)}" [e_ (int 2)] = gives "<span style=color:blue>2</span>" /\
  plain "{:(fg=blue)}" [e_ (int 2)] = gives "2".
Proof. vm_compute. auto. Qed.
Example bold : ansi "{:(bold)}" [e_ (int 2)] = Some (Value (esc "1" ++ lit "2" ++ esc "0")) /\
  html "{:(bold)}" [e_ (int 2)] = gives "<span style=font-weight:bolder>2</span>" /\
  plain "{:(bold)}" [e_ (int 2)] = gives "2".
Proof. vm_compute. auto. Qed.
Example blue_bold : ansi "{:(fg=blue,bold)}" [e_ (int 2)] = Some (Value (esc "34;1" ++ lit "2" ++ esc "0")) /\
  html "{:(fg=blue,bold)}" [e_ (int 2)] = gives "<span style=color:blue;font-weight:bolder>2</span>" /\
  plain "{:(fg=blue,bold)}" [e_ (int 2)] = gives "2".
Proof. vm_compute. auto. Qed.
Example bold_blue : ansi "{:(bold,fg=blue)}" [e_ (int 2)] = Some (Value (esc "34;1" ++ lit "2" ++ esc "0")) /\
  html "{:(bold,fg=blue)}" [e_ (int 2)] = gives "<span style=color:blue;font-weight:bolder>2</span>" /\
  plain "{:(bold,fg=blue)}" [e_ (int 2)] = gives "2".
Proof. vm_compute. auto. Qed.
Example bold_then_blue :
  let l := [e_ (text "bold"); e_ (text "blue")] in
  let f := "plain {:(bold)} {:(fg=blue)}"%string in
  ansi f l = Some (Value (lit "plain " ++ esc "1" ++ lit "bold" ++ esc "0" ++ lit " " ++ esc "34" ++ lit "blue" ++ esc "0")) /\
  html f l = gives "plain <span style=font-weight:bolder>bold</span> <span style=color:blue>blue</span>" /\
  plain f l = gives "plain bold blue".
Proof. vm_compute. auto. Qed.
Example bold_then_bold_blue_then_blue :
  let l := [e_ (text "bold"); e_ (text "bold-blue"); e_ (text "blue")] in
  let f := "{:(bold)}{:(bold,fg=blue)}{:(fg=blue)}"%string in
  ansi f l = Some (Value (esc "1" ++ lit "bold" ++ esc "34" ++ lit "bold-blue" ++ esc "22" ++ lit "blue" ++ esc "0")) /\
  html f l = gives "<span style=font-weight:bolder>bold</span><span style=color:blue;font-weight:bolder>bold-blue</span><span style=color:blue>blue</span>" /\
  plain f l = gives "boldbold-blueblue".
Proof. vm_compute. auto. Qed.
(** [builtin_macros]: concat! evaluated by with_builtin!. *)
Example builtin_macros :
  option_map plain_format (args_of (MBuiltin (lit "ab") (text "")) []) = gives "ab".
Proof. vm_compute. reflexivity. Qed.
Example non_ascii_idents :
  let id := [0x13004%N] in
  option_map plain_format (args_of (MStr (lit "{" ++ id ++ lit "}") (text "")) []) = gives "5" /\
  plain "{}" [e_ (int 5)] = gives "5" /\
  option_map plain_format (args_of (MStr (lit "{" ++ id ++ lit "}") (text ""))
     [MAssign (LPath PlainPath [(id, false)]) (int 5) (int 5)]) = gives "5".
Proof. vm_compute. auto. Qed.
Example empty_string :
  let l := [e_ (text "foo"); e_ (text ""); e_ (text "bar")] in
  let f := "{:(fg=blue)}{:(fg=red)}{:(fg=blue)}"%string in
  ansi f l = Some (Value (esc "34" ++ lit "foobar" ++ esc "0")) /\
  html f l = gives "<span style=color:blue>foobar</span>".
Proof. vm_compute. auto. Qed.
Example capture_raw_strings_and_idents : plain "The fruit is an {type}" [] = gives "The fruit is an apple".
Proof. vm_compute. reflexivity. Qed.

(** * tests/std (integers, without exponent formats) *)
Definition num (f : string) (z : Z) (s : string) : Prop := plain f [e_ (int z)] = gives s.
Definition byte (f : string) (z : Z) (s : string) : Prop := plain f [e_ (val (int_value 8 z))] = gives s.
Ltac t := vm_compute; repeat split.
Example test_format_int :
  num "{}" 1 "1" /\ num "{}" (-1) "-1" /\ num "{:?}" 1 "1" /\ num "{:b}" 1 "1" /\ num "{:x}" 1 "1" /\
  num "{:X}" 1 "1" /\ num "{:o}" 1 "1" /\ num "{:b}" 55 "110111" /\ num "{:o}" 55 "67" /\ num "{}" 55 "55" /\
  num "{:x}" 55 "37" /\ num "{:X}" 55 "37".
Proof. t. Qed.
Example test_format_int_zero :
  num "{}" 0 "0" /\ num "{:?}" 0 "0" /\ num "{:b}" 0 "0" /\ num "{:o}" 0 "0" /\ num "{:x}" 0 "0" /\ num "{:X}" 0 "0".
Proof. t. Qed.
Example test_format_int_flags :
  num "{:3}" 1 "  1" /\ num "{:>3}" 1 "  1" /\ num "{:>+3}" 1 " +1" /\ num "{:<3}" 1 "1  " /\ num "{:#}" 1 "1" /\
  num "{:#x}" 10 "0xa" /\ num "{:#X}" 10 "0xA" /\ num "{:#5x}" 10 "  0xa" /\ num "{:#o}" 10 "0o12" /\
  num "{:08x}" 10 "0000000a" /\ num "{:8x}" 10 "       a" /\ num "{:<8x}" 10 "a       " /\ num "{:>8x}" 10 "       a" /\
  num "{:#08x}" 10 "0x00000a" /\ num "{:08}" (-10) "-0000010" /\
  byte "{:x}" (-1) "ff" /\ byte "{:X}" (-1) "FF" /\ byte "{:b}" (-1) "11111111" /\ byte "{:o}" (-1) "377" /\
  byte "{:#x}" (-1) "0xff" /\ byte "{:#X}" (-1) "0xFF" /\ byte "{:#b}" (-1) "0b11111111" /\ byte "{:#o}" (-1) "0o377".
Proof. t. Qed.
Example test_format_int_sign_padding :
  num "{:+5}" 1 "   +1" /\ num "{:+5}" (-1) "   -1" /\ num "{:05}" 1 "00001" /\ num "{:05}" (-1) "-0001" /\
  num "{:+05}" 1 "+0001" /\ num "{:+05}" (-1) "-0001".
Proof. t. Qed.
Example test_format_int_twos_complement :
  num "{}" (-128) "-128" /\ num "{}" (-32768) "-32768" /\ num "{}" (-2147483648) "-2147483648" /\
  num "{}" (-9223372036854775808) "-9223372036854775808".
Proof. t. Qed.
Example test_format_debug_hex :
  let foo := [e_ (val (bytes_value [70; 111; 111; 0]%Z))] in
  plain "{:02x?}" foo = gives "[46, 6f, 6f, 00]" /\ plain "{:02X?}" foo = gives "[46, 6F, 6F, 00]".
Proof. vm_compute. auto. Qed.
Example test_format_flags : plain "{: >3}" [e_ (text "a")] = gives "  a".
Proof. vm_compute. reflexivity. Qed.
(** [pad_integral_resets]: "1".fmt, pad_integral, "1".fmt with the same flags. *)
Example pad_integral_resets :
  plain "{:<03}" [e_ (val (mk_value (fun _ fl => sprog_then (std_pad (lit "1") fl)
     (sprog_then (std_pad_integral true [] (lit "5") fl) (std_pad (lit "1") fl))) (fun _ => Ret Err)))]
  = gives "1  0051  ".
Proof. vm_compute. reflexivity. Qed.

(** * Documentation examples *)
(** README.md:66-71, html/src/format.rs, ansi/src/format.rs, plain/src/format.rs. *)
Example doc_ferris :
  let l := [e_ (text "Ferris")] in let f := "Hello {:(fg=red)}"%string in
  html f l = gives "Hello <span style=color:red>Ferris</span>" /\
  ansi f l = Some (Value (lit "Hello " ++ esc "31" ++ lit "Ferris" ++ esc "0")) /\
  plain f l = gives "Hello Ferris".
Proof. vm_compute. auto. Qed.
(** README.md:114-133 [Name], and the variant with write_fmt in core/src/formatter.rs. *)
Definition name (s : string) : value_t := mk_value (fun _ _ => SRet Err) (fun f =>
  let color := if str_eqb (lit s) (lit "Ferris") then Red
               else if str_eqb (lit s) (lit "Gorris") then Cyan else ColorDefault in
  formatter_write_str (formatter_with Restyle_Foreground f (Foreground color)) (lit s)).
Definition name_fmt (s : string) : value_t := mk_value (fun _ _ => SRet Err) (fun f =>
  match (if str_eqb (lit s) (lit "Ferris") then args_of (S "{:(fg=red)}") [e_ (text s)]
         else if str_eqb (lit s) (lit "Gorris") then args_of (S "{:(fg=cyan)}") [e_ (text s)]
         else args_of (S "{}") [e_ (text s)]) with
  | Some a => formatter_write_fmt f a | None => Abort Panic end).
Example doc_name :
  let out := gives "Hello <span style=color:red>Ferris</span> and <span style=color:cyan>Gorris</span>" in
  html "Hello {:s} and {:s}" [e_ (val (name "Ferris")); e_ (val (name "Gorris"))] = out /\
  html "Hello {:s} and {:s}" [e_ (val (name_fmt "Ferris")); e_ (val (name_fmt "Gorris"))] = out.
Proof. vm_compute. auto. Qed.
(** core/src/arguments.rs: Arguments formatted with s. *)
Example doc_arguments :
  match args_of (S "{:(bg=red)} Will Robinson") [e_ (text "Danger")] with
  | Some a => html "{:s}" [e_ (val (mk_value (fun _ _ => SRet Err) (Display_Arguments a)))] | None => None end
  = gives "<span style=background-color:red>Danger</span> Will Robinson".
Proof. vm_compute. reflexivity. Qed.
(** core/src/write.rs: write_str, write_char and write_fmt on Html. *)
Definition html_run (l : list (Html.html str -> Html.html str * outcome)) : str * outcome :=
  html_finish string_sink (fold_left (fun w g => fst (g w)) l (html_new [])).
Example doc_write_str :
  html_run [(fun w => w_write_str (Write_html string_sink) w (lit "water is ") style_default);
            (fun w => w_write_str (Write_html string_sink) w (lit "blue") (mk_style Blue ColorDefault Normal))]
  = (lit "water is <span style=color:blue>blue</span>", Returned Ok).
Proof. vm_compute. reflexivity. Qed.
Example doc_write_char :
  html_run [(fun w => w_write_char (Write_html string_sink) w 0x26A0%N (mk_style Yellow ColorDefault Normal));
            (fun w => w_write_char (Write_html string_sink) w 32%N style_default);
            (fun w => w_write_char (Write_html string_sink) w 0x26D4%N (mk_style Red ColorDefault Normal))]
  = (lit "<span style=color:yellow>" ++ [0x26A0%N] ++ lit "</span> <span style=color:red>" ++ [0x26D4%N] ++ lit "</span>", Returned Ok).
Proof. vm_compute. reflexivity. Qed.
Definition wr (m : list (tok (expr st_t)) -> expansion (expr st_t)) (toks : list (tok (expr st_t))) (w : Html.html str)
  : Html.html str * outcome :=
  match m toks with
  | Expanded c => match snd (eval_code vars c 5%Z) with
                  | Some args => w_write_fmt (Write_html string_sink) w args
                  | None => (w, Crashed Panic) end
  | CompileError => (w, Crashed Panic) end.
Notation write_ := (write_macro t_start t_continue).
Notation writeln_ := (writeln_macro t_start t_continue (text "")).
Example doc_write :
  html_run [wr write_ [TComma; TExpr (S "test")];
            wr write_ [TComma; TExpr (S "formatted {:(fg=yellow)}"); TComma; TExpr (e_ (text "arguments"))]]
  = (lit "testformatted <span style=color:yellow>arguments</span>", Returned Ok).
Proof. vm_compute. reflexivity. Qed.
Example doc_writeln :
  html_run [wr writeln_ []; wr writeln_ [TComma; TExpr (S "test")];
            wr writeln_ [TComma; TExpr (S "formatted {:(fg=yellow)}"); TComma; TExpr (e_ (text "arguments"))]]
  = ([10%N] ++ lit "test" ++ [10%N] ++ lit "formatted <span style=color:yellow>arguments</span>" ++ [10%N], Returned Ok).
Proof. vm_compute. reflexivity. Qed.
(** core/src/string.rs. *)
Example doc_string :
  match args_of (S "Hello {:(fg=green)}!") [e_ (text "World")],
        args_of (S " Is it {:(fg=magenta)} or?") [e_ (text "fuchsia")] with
  | Some a, Some b =>
      match stylish_format a with
      | Value s => html "{:s}" [e_ (val (mk_value (fun _ _ => SRet Err)
                      (Display_sstring (fst (w_write_fmt Write_sstring s b)))))]
      | Crash _ => None
      end
  | _, _ => None
  end = gives "Hello <span style=color:green>World</span>! Is it <span style=color:magenta>fuchsia</span> or?".
Proof. vm_compute. reflexivity. Qed.
(** ansi/src/to_string.rs, html/src/to_string.rs, plain/src/to_string.rs. *)
Definition warning : value_t := mk_value (fun _ _ => SRet Err) (fun f =>
  formatter_write_str (formatter_with Restyle_Foreground f (Foreground Red)) (lit "FIRE")).
Example doc_to_string :
  to_html_string t_start t_continue warning = gives "<span style=color:red>FIRE</span>" /\
  to_ansi_string t_start t_continue warning = Some (Value (esc "31" ++ lit "FIRE" ++ esc "0")) /\
  to_plain_string t_start t_continue warning = gives "FIRE".
Proof. vm_compute. auto. Qed.
(** ansi/src/io.rs and plain/src/io.rs. *)
Example doc_io :
  match args_of (S "Hello {:(fg=red)}") [e_ (text "Ferris")] with
  | Some a =>
      let (w, r) := io_write_fmt (IoWrite_ansi 10 (scripted 10)) (io_ansi_new ([], [])) a in
      let (p, r') := io_write_fmt (IoWrite_plain (scripted 10)) (io_plain_new ([], [])) a in
      (r, fst (fst (io_ansi_finish (scripted 10) w)), r', fst (io_plain_into_inner p))
  | None => (IoCrash Panic, [], IoCrash Panic, [])
  end = (IoOk tt, lit "Hello " ++ esc "31" ++ lit "Ferris" ++ esc "0", IoOk tt, lit "Hello Ferris").
Proof. vm_compute. reflexivity. Qed.
(** style/src/lib.rs. *)
Example doc_diff :
  let original := style_default in
  diff_from (mk_style Cyan (background original) (intens original)) original = mk_diff (Some Cyan) None None.
Proof. reflexivity. Qed.
