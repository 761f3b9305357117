(** C64: the colors a format string can name.  C65: the macros in the configuration
    [stylish_proc_macro_expand]. *)
From Verif Require Import Base Style Fmt SpecStd StdCompat SString Plain Ansi Html Format Nom Parse
  Codegen ToString Macros SpecText TextFacts SpecSink StyleFacts StdFacts StringFacts FormatFacts SpecGrammar
  ParseFacts SpecFacts GrammarFacts SpecMeaning CodegenFacts MacroFacts AttrFacts PropsParse PropsMacro
  SpecCall PropsCall PropsPad.

(** The name of a [Color] value in lowercase (style/src/color.rs), as README.md:79-83 documents it. *)
Definition lowercase_name (c : color) : str :=
  match c with
  | Black => lit "black" | Red => lit "red" | Green => lit "green" | Yellow => lit "yellow"
  | Blue => lit "blue" | Magenta => lit "magenta" | Cyan => lit "cyan" | White => lit "white"
  | ColorDefault => lit "default"
  | BrightBlack => lit "brightblack" | BrightRed => lit "brightred"
  | BrightGreen => lit "brightgreen" | BrightYellow => lit "brightyellow"
  | BrightBlue => lit "brightblue" | BrightMagenta => lit "brightmagenta"
  | BrightCyan => lit "brightcyan" | BrightWhite => lit "brightwhite"
  end.
Definition bright (c : color) : Prop :=
  In c [BrightBlack; BrightRed; BrightGreen; BrightYellow; BrightBlue; BrightMagenta; BrightCyan; BrightWhite].

Lemma named_not_bright c s : color_name c s -> ~ bright c.
Proof. intros [] [E|[E|[E|[E|[E|[E|[E|[E|[]]]]]]]]]; discriminate E. Qed.
Lemma attrs_not_bright l s : attrs_spelled l s ->
  forall c, In (AFg c) l \/ In (ABg c) l -> ~ bright c.
Proof.
  intros H. assert (A : forall a s, attr_spelled a s -> forall c, a = AFg c \/ a = ABg c -> ~ bright c).
  { intros a0 s0 [c0 s1 Hc|c0 s1 Hc| | |] c [E|E]; try discriminate E; injection E as <-; eauto using named_not_bright. }
  induction H as [a s Ha|a s l t Ha Hl IH]; intros c Hc.
  - destruct Hc as [[->|[]]|[->|[]]]; eauto.
  - destruct Hc as [[->|Hc]|[->|Hc]]; eauto.
Qed.
Lemma last_fg_in l : forall acc c,
  fold_left (fun acc a => match a with AFg c => Some c | _ => acc end) l acc = Some c -> acc = Some c \/ In (AFg c) l.
Proof.
  induction l as [|a l IH]; intros acc c H; [now left|]. cbn in H. apply IH in H as [H|H]; [|right; now right].
  destruct a; auto. injection H as ->. right. now left.
Qed.
Lemma last_bg_in l : forall acc c,
  fold_left (fun acc a => match a with ABg c => Some c | _ => acc end) l acc = Some c -> acc = Some c \/ In (ABg c) l.
Proof.
  induction l as [|a l IH]; intros acc c H; [now left|]. cbn in H. apply IH in H as [H|H]; [|right; now right].
  destruct a; auto. injection H as ->. right. now left.
Qed.
Lemma style_not_bright d s : style_spelled d s ->
  forall c, d_foreground d = Some c \/ d_background d = Some c -> ~ bright c.
Proof.
  intros [|l t Hl] c H; [destruct H; discriminate|]. cbn in H. apply (attrs_not_bright l t Hl).
  destruct H as [H|H]; [left; assert (E : last_fg l = Some c)|right; assert (E : last_bg l = Some c)].
  - destruct (last_fg l) as [[]|]; try exact H; discriminate.
  - apply last_fg_in in E as [|]; [discriminate|assumption].
  - destruct (last_bg l) as [[]|]; try exact H; discriminate.
  - apply last_bg_in in E as [|]; [discriminate|assumption].
Qed.

Lemma attrs_bg l name : attrs_spelled l (lit "bg=" ++ name) -> ~ In 44%N name ->
  exists c, l = [ABg c] /\ color_name c name.
Proof.
  intros H Hn. remember (lit "bg=" ++ name) as s eqn:E. destruct H as [a s H|a s l t H H'].
  - destruct H as [c t Hc|c t Hc| | |]; try discriminate.
    apply app_inv_head in E. subst t. eauto.
  - exfalso. assert (I : In 44%N (lit "bg=" ++ name)).
    { rewrite <- E. rewrite !in_app_iff. right. left. now left. }
    apply in_app_or in I as [I|I]; [|tauto]. cbn in I. intuition discriminate.
Qed.

Section Xid.
Variables xid_start xid_continue : char -> bool.
Hypothesis Hx : xid_ok xid_start xid_continue.
Notation macro := (format_args_impl xid_start xid_continue).

Lemma spells_not_bright b ps s : spells xid_start xid_continue b ps s ->
  forall a c, In (Arg a) ps ->
    d_foreground (fs_style (fa_spec a)) = Some c \/ d_background (fs_style (fa_spec a)) = Some c -> ~ bright c.
Proof.
  induction 1 as [b|t ps s Ht Hb Hs IH|b ps s Hs IH|b ps s Hs IH|b a0 e p ps s Ha He Hs IH]; intros a c Hin H.
  - destruct Hin.
  - destruct Hin as [E|Hin]; [discriminate|eauto].
  - destruct Hin as [E|Hin]; [discriminate|eauto].
  - destruct Hin as [E|Hin]; [discriminate|eauto].
  - destruct Hin as [E|Hin]; [injection E as ->|eauto].
    destruct Ha as [arg s1 spec e s2 _ Hsp]. cbn [fa_spec] in H.
    destruct Hsp as [(-> & _)|(s0 & Hsp & _)]; [destruct H; discriminate|].
    destruct Hsp as [al sg alt zero w pr hex st tr s1' s2' s3 s4 s5 s6 s7 s8 _ _ _ _ _ _ Hst _ _].
    cbn [fs_style] in H. exact (style_not_bright _ _ Hst c H).
Qed.

(** C64 as documented is false: no accepted call has a placeholder setting a bright color, and
    in particular the lowercase names of the bright colors are compile errors, for [fg] and
    [bg], whatever the arguments. *)
Theorem C64_bright_refuted {E} :
  (forall s (pos : list E) named c, macro s pos named = Expanded c ->
     exists ps, format_string xid_start xid_continue ps s /\
       forall a col, In (Arg a) ps ->
         d_foreground (fs_style (fa_spec a)) = Some col \/ d_background (fs_style (fa_spec a)) = Some col ->
         ~ bright col) /\
  (forall col (pos : list E) named, bright col ->
     macro (lit "{:(fg=" ++ lowercase_name col ++ lit ")}") pos named = CompileError /\
     macro (lit "{:(bg=" ++ lowercase_name col ++ lit ")}") pos named = CompileError).
Proof.
  split.
  - intros s pos named c H. destruct (proj1 (C47_accepted _ _ Hx s pos named) (ex_intro _ c H)) as (ps & Hp & _).
    exists ps. split; [exact Hp|]. exact (spells_not_bright _ _ _ Hp).
  - intros col pos named H.
    assert (Hno : forall name s : str, (forall c, ~ color_name c name) -> ~ In (41%N : char) name -> ~ In 44%N name ->
      s = lit "fg=" ++ name \/ s = lit "bg=" ++ name -> macro (attribute_string s) pos named = CompileError).
    { intros name s Hc H41 H44 Hs. destruct (macro (attribute_string s) pos named) as [c|] eqn:E1; [|reflexivity].
      exfalso. apply (macro_inv _ _ Hx) in E1 as (ps & Hp & _).
      apply (attribute_string_inv _ _ Hx) in Hp as (l & Hl & _);
        [|destruct Hs as [-> | ->]; rewrite in_app_iff; cbn; intuition discriminate].
      destruct Hs as [-> | ->]; [apply attrs_fg in Hl as (c' & _ & Hn)|apply attrs_bg in Hl as (c' & _ & Hn)];
        auto; exact (Hc c' Hn). }
    assert (Hn : (forall c, ~ color_name c (lowercase_name col)) /\ ~ In (41%N : char) (lowercase_name col)
              /\ ~ In 44%N (lowercase_name col)).
    { repeat (destruct H as [<-|H]; [split; [intros c Hc; inversion Hc|split; cbn; intuition discriminate]|]). destruct H. }
    destruct Hn as (Hn1 & Hn2 & Hn3). split.
    + change (lit "{:(fg=" ++ lowercase_name col ++ lit ")}") with (attribute_string (lit "fg=" ++ lowercase_name col)).
      eauto.
    + change (lit "{:(bg=" ++ lowercase_name col ++ lit ")}") with (attribute_string (lit "bg=" ++ lowercase_name col)).
      eauto.
Qed.

(** C64: the other nine names do what is documented: the argument is shown with that foreground
    (background), whatever the formatter's style (C45: [default] leaves the color in force).
    Missing: the bright colors. *)
Theorem C64_names_partial {H} (col : color) (v : value_t) (scope : str -> value_t) (h : H) :
  ~ bright col -> col <> ColorDefault ->
  (exists c args, macro (lit "{:(fg=" ++ lowercase_name col ++ lit ")}") [fun x : H => (x, Some v)] [] = Expanded c /\
    eval_code scope c h = (h, Some args) /\
    forall f, let st := mk_style col (background (fm_style f)) (intens (fm_style f)) in
      ok_outcome (trait_code FDisplay v (mk_formatter st fargs_default)) = Returned Ok ->
      ok_outcome (args f) = Returned Ok /\ produces (args f) = shown FDisplay v st fargs_default) /\
  (exists c args, macro (lit "{:(bg=" ++ lowercase_name col ++ lit ")}") [fun x : H => (x, Some v)] [] = Expanded c /\
    eval_code scope c h = (h, Some args) /\
    forall f, let st := mk_style (foreground (fm_style f)) col (intens (fm_style f)) in
      ok_outcome (trait_code FDisplay v (mk_formatter st fargs_default)) = Returned Ok ->
      ok_outcome (args f) = Returned Ok /\ produces (args f) = shown FDisplay v st fargs_default).
Proof.
  intros Hb Hd. assert (Hn : color_name col (lowercase_name col)).
  { destruct col; try constructor; exfalso; apply Hb; cbn; tauto. }
  assert (Ho : unless_default_color (Some col) = Some col) by (destruct col; (reflexivity || congruence)).
  split.
  - destruct (one_placeholder xid_start xid_continue Hx
      (mk_spec (mk_pfargs None None false false None None None) (mk_diff (Some col) None None) FDisplay)
      (lit "(fg=" ++ lowercase_name col ++ lit ")") v scope h) as (c & args & Hc & He & Hf); [|discriminate|exact I|exact I|].
    + replace (mk_diff (Some col) None None) with (kept_settings [AFg col]) by (unfold kept_settings; destruct col; (reflexivity || congruence)).
      change (lit "(fg=" ++ lowercase_name col ++ lit ")")
        with ([] ++ [] ++ [] ++ [] ++ [] ++ [] ++ (lit "(fg=" ++ lowercase_name col ++ lit ")")).
      rewrite <- (app_nil_r (lit "(fg=" ++ lowercase_name col ++ lit ")")).
      apply spec_intro; try constructor; try reflexivity; try discriminate.
      change (lit "(fg=" ++ lowercase_name col ++ lit ")") with (lit "(" ++ (lit "fg=" ++ lowercase_name col) ++ lit ")").
      constructor. constructor. now constructor.
    + exists c, args. split; [rewrite <- Hc; destruct col; reflexivity|]. split; [exact He|]. exact Hf.
  - destruct (one_placeholder xid_start xid_continue Hx
      (mk_spec (mk_pfargs None None false false None None None) (mk_diff None (Some col) None) FDisplay)
      (lit "(bg=" ++ lowercase_name col ++ lit ")") v scope h) as (c & args & Hc & He & Hf); [|discriminate|exact I|exact I|].
    + replace (mk_diff None (Some col) None) with (kept_settings [ABg col]) by (unfold kept_settings; destruct col; (reflexivity || congruence)).
      change (lit "(bg=" ++ lowercase_name col ++ lit ")")
        with ([] ++ [] ++ [] ++ [] ++ [] ++ [] ++ (lit "(bg=" ++ lowercase_name col ++ lit ")")).
      rewrite <- (app_nil_r (lit "(bg=" ++ lowercase_name col ++ lit ")")).
      apply spec_intro; try constructor; try reflexivity; try discriminate.
      change (lit "(bg=" ++ lowercase_name col ++ lit ")") with (lit "(" ++ (lit "bg=" ++ lowercase_name col) ++ lit ")").
      constructor. constructor. now constructor.
    + exists c, args. split; [rewrite <- Hc; destruct col; reflexivity|]. split; [exact He|]. exact Hf.
Qed.

(** * C65 *)
Notation format_args' := (format_args_macro xid_start xid_continue).
Notation write' := (write_macro xid_start xid_continue).
Notation writeln' := (writeln_macro xid_start xid_continue).
Notation format_args_x := (format_args_macro_expand xid_start xid_continue).
Notation write_x := (write_macro_expand xid_start xid_continue).
Notation writeln_x := (writeln_macro_expand xid_start xid_continue).

Lemma parse_expand_lit {E} um s (e : E) rest :
  parse_args_input_expand um (crate_prefix ++ TExpr (MStr s e) :: rest)
  = parse_args_input (crate_prefix ++ TExpr (MStr s e) :: rest).
Proof. reflexivity. Qed.
Lemma parse_expand_relit {E} um m s (e : E) rest : expand_format um m = Some s ->
  parse_args_input_expand um (crate_prefix ++ TExpr m :: rest)
  = parse_args_input (crate_prefix ++ TExpr (MStr s e) :: rest).
Proof. intros H. unfold parse_args_input_expand, parse_args_input, crate_prefix. cbn [app]. now rewrite H. Qed.

(** C65: switching the configuration on never changes the meaning of a program that compiles
    without it. *)
Theorem C65_conservative {E} (user_macro : E -> option str) (u : E) (toks : list (tok E)) c :
  (format_args' toks = Expanded c -> format_args_x user_macro toks = Expanded c) /\
  (write' toks = Expanded c -> write_x user_macro toks = Expanded c) /\
  (writeln' u toks = Expanded c -> writeln_x user_macro u toks = Expanded c).
Proof.
  assert (G : forall toks, format_args' toks = Expanded c -> format_args_x user_macro toks = Expanded c).
  { clear toks. intros toks. destruct toks as [|[| | | |m] rest]; try discriminate.
    unfold format_args_macro, format_args_macro_expand. destruct m as [s e|s e|l v e|e]; try discriminate;
      (destruct (optional_tail rest); [|discriminate]); unfold proc_format_args, proc_format_args_expand.
    - now rewrite parse_expand_lit.
    - now rewrite (parse_expand_relit user_macro (MBuiltin s e) s e rest eq_refl). }
  split; [apply G|]. split.
  - destruct toks as [|[| | | |m] rest]; try discriminate. apply G.
  - destruct toks as [|[| | | |m] rest]; try discriminate; [exact (fun H => H)|].
    destruct rest as [|t rest]; [exact (fun H => H)|]. cbn [writeln_macro writeln_macro_expand].
    unfold proc_format_args_nl, proc_format_args_nl_expand.
    destruct t as [| | | |[s e|s e|l v e|e]]; try discriminate. now rewrite parse_expand_lit.
Qed.

(** The format string an expression stands for: a literal, a builtin macro, or a user macro that expands
    to a string literal; nothing else does. *)
Inductive gives_string {E} (user_macro : E -> option str) : mexpr E -> str -> Prop :=
  | gives_literal s e : gives_string user_macro (MStr s e) s
  | gives_builtin s e : gives_string user_macro (MBuiltin s e) s
  | gives_user s e : user_macro e = Some s -> gives_string user_macro (MOther e) s.
Lemma expand_gives {E} (user_macro : E -> option str) m s :
  expand_format user_macro m = Some s <-> gives_string user_macro m s.
Proof.
  split.
  - destruct m; cbn [expand_format]; intros H; try discriminate; try (injection H as <-; constructor).
    now constructor.
  - now intros [].
Qed.

(** C65: in this configuration [write!] and [writeln!] accept the same calls, also with builtin
    and user macros as format strings (contrast C56), and expand them for the same arguments. *)
Theorem C65_write_writeln {E} (user_macro : E -> option str) (u : E) (m : mexpr E) (rest : list (tok E)) :
  ((exists c, writeln_x user_macro u (TComma :: TExpr m :: rest) = Expanded c) <->
   (exists c, write_x user_macro (TComma :: TExpr m :: rest) = Expanded c)) /\
  (forall s, gives_string user_macro m s ->
     write_x user_macro (TComma :: TExpr m :: rest) = write' (TComma :: TExpr (MStr s u) :: rest) /\
     writeln_x user_macro u (TComma :: TExpr m :: rest) = writeln' u (TComma :: TExpr (MStr s u) :: rest)) /\
  ((forall s, ~ gives_string user_macro m s) ->
     write_x user_macro (TComma :: TExpr m :: rest) = CompileError /\
     writeln_x user_macro u (TComma :: TExpr m :: rest) = CompileError).
Proof.
  assert (A : forall s, expand_format user_macro m = Some s ->
     write_x user_macro (TComma :: TExpr m :: rest) = write' (TComma :: TExpr (MStr s u) :: rest) /\
     writeln_x user_macro u (TComma :: TExpr m :: rest) = writeln' u (TComma :: TExpr (MStr s u) :: rest)).
  { intros s H. cbn [write_macro write_macro_expand writeln_macro writeln_macro_expand].
    unfold format_args_macro, format_args_macro_expand, proc_format_args, proc_format_args_expand,
      proc_format_args_nl, proc_format_args_nl_expand.
    rewrite (parse_expand_relit user_macro m s u rest H). auto. }
  assert (B : expand_format user_macro m = None ->
     write_x user_macro (TComma :: TExpr m :: rest) = CompileError /\
     writeln_x user_macro u (TComma :: TExpr m :: rest) = CompileError).
  { intros H. cbn [write_macro_expand writeln_macro_expand].
    unfold format_args_macro_expand, proc_format_args_expand, proc_format_args_nl_expand,
      parse_args_input_expand, crate_prefix. cbn [app]. rewrite H. split; [|reflexivity].
    now destruct (optional_tail rest). }
  split; [|split; [intros s H; apply A, expand_gives, H|]].
  2:{ intros H. apply B. destruct (expand_format user_macro m) as [s|] eqn:Es; [|reflexivity].
      exfalso. apply (H s), expand_gives, Es. }
  destruct (expand_format user_macro m) as [s|].
  - destruct (A s eq_refl) as [-> ->]. exact (C56_literal_partial _ _ u s u rest Hx).
  - destruct (B eq_refl) as [-> ->]. split; intros [c E']; discriminate.
Qed.

(** C54: the proc macros called directly, without the [crate = path,] the exported macros put in front,
    never compile, in either configuration. *)
Theorem C54_direct {E} (user_macro : E -> option str) (toks : list (tok E)) :
  (forall rest, toks <> [TCrate; TEq; TPath; TComma] ++ rest) ->
  proc_format_args xid_start xid_continue toks = CompileError /\
  proc_format_args_nl xid_start xid_continue toks = CompileError /\
  proc_format_args_expand xid_start xid_continue user_macro toks = CompileError /\
  proc_format_args_nl_expand xid_start xid_continue user_macro toks = CompileError.
Proof.
  intros Hn.
  assert (A : forall i, parse_args_input toks = Some i -> in_krate i = false).
  { intros i. unfold parse_args_input.
    destruct toks as [|[| | | |m] t1]; try discriminate.
    - destruct t1 as [|[| | | |] [|[| | | |] [|[| | | |] r]]]; try discriminate. now destruct (Hn r).
    - destruct m; try discriminate. destruct (parse_items _ _ _ _) as [[]|]; [|discriminate]. now intros [= <-]. }
  assert (B : forall i, parse_args_input_expand user_macro toks = Some i -> in_krate i = false).
  { intros i. unfold parse_args_input_expand.
    destruct toks as [|[| | | |m] t1]; try discriminate.
    - destruct t1 as [|[| | | |] [|[| | | |] [|[| | | |] r]]]; try discriminate. now destruct (Hn r).
    - destruct (expand_format user_macro m); [|discriminate].
      destruct (parse_items _ _ _ _) as [[]|]; [|discriminate]. now intros [= <-]. }
  unfold proc_format_args, proc_format_args_nl, proc_format_args_expand, proc_format_args_nl_expand.
  destruct (parse_args_input toks) as [i|]; [rewrite (A i eq_refl)|];
    (destruct (parse_args_input_expand user_macro toks) as [j|]; [rewrite (B j eq_refl)|]); auto.
Qed.
End Xid.
Print Assumptions C54_direct.
Print Assumptions C64_bright_refuted.
Print Assumptions C64_names_partial.
Print Assumptions C65_conservative.
Print Assumptions C65_write_writeln.

Example C64_nonvacuous :
  match call false (lit "{:(fg=cyan)}|{:(bg=white)}") [logging 0 (text_value (lit "A")); logging 1 (text_value (lit "B"))] [] with
  | Some (_, args) => html_format args | None => Crash Panic end
  = Value (lit "<span style=color:cyan>A</span>|<span style=background-color:white>B</span>") /\
  call false (lit "{:(fg=brightred)}") [logging 0 (text_value (lit "A"))] [] = None.
Proof. split; vm_compute; reflexivity. Qed.
Example C65_nonvacuous :
  let toks := [TComma; TExpr (MBuiltin (lit "a{}") (logging 9 (text_value []))); TComma; TExpr arg0] in
  (exists c, write_macro ascii_start ascii_continue toks = Expanded c) /\
  (exists c, writeln_macro_expand ascii_start ascii_continue (fun _ => None) (logging 9 (text_value [])) toks = Expanded c) /\
  writeln_macro ascii_start ascii_continue (logging 9 (text_value [])) toks = CompileError.
Proof. split; [|split]; [eexists; vm_compute; reflexivity..|]. vm_compute. reflexivity. Qed.
(** Directly with a format string: an error; with the crate in front: accepted. *)
Example C54_direct_nonvacuous :
  let call := [fmt "{}"; TComma; TExpr arg0] in
  (forall rest, call <> [TCrate; TEq; TPath; TComma] ++ rest) /\
  exists c, proc_format_args ascii_start ascii_continue (crate_prefix ++ call) = Expanded c.
Proof. split; [intros rest; discriminate|]. eexists. vm_compute. reflexivity. Qed.
