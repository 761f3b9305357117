(** Property theorems about macro calls as written by the user (C49, C54, C55). *)
From Verif Require Import Base Style Fmt SpecStd StdCompat SString Plain Ansi Html Format Nom Parse
  Codegen ToString Macros SpecText TextFacts SpecSink StyleFacts StdFacts StringFacts FormatFacts SpecGrammar
  ParseFacts SpecFacts GrammarFacts SpecMeaning CodegenFacts MacroFacts AttrFacts PropsParse PropsMacro SpecCall.

(** * The argument list *)
Lemma named_arg_spec {E} (m : mexpr E) n : named_arg m = Some n <-> names_arg m n.
Proof.
  split.
  - destruct m as [s e|s e|l v e|e]; try discriminate. destruct l as [pre segs|]; [|discriminate].
    destruct segs as [|[id [|]] [|]]; try discriminate. intros [= <-]. constructor.
  - now intros [].
Qed.
Lemma named_arg_none {E} (m : mexpr E) : named_arg m = None <-> positional_arg m.
Proof.
  split.
  - intros H n Hn. apply named_arg_spec in Hn. congruence.
  - intros H. destruct (named_arg m) as [n|] eqn:En; [|reflexivity]. apply named_arg_spec in En.
    now destruct (H n).
Qed.

Lemma parse_items_complete {E} (ps ns : list (mexpr E)) named trailing p0 n0 b :
  Forall positional_arg ps -> Forall2 names_arg ns named ->
  trailing = [] \/ trailing = [TComma] -> (ps <> [] -> b = false) ->
  parse_items b p0 n0 (separated (ps ++ ns) ++ trailing)
  = Some (p0 ++ map expr_value ps, n0 ++ named).
Proof.
  intros Hp Hn Ht. revert p0 n0 b. induction Hp as [|m ps Hm Hp IH]; intros p0 n0 b Hb.
  - clear Hb. cbn [app]. revert n0 b. induction Hn as [|m n ns named Hmn Hn IH]; intros n0 b; cbn [map].
    + rewrite !app_nil_r. destruct Ht as [->| ->]; reflexivity.
    + cbn [separated flat_map app parse_items]. apply named_arg_spec in Hmn. rewrite Hmn.
      change (flat_map _ ns) with (separated ns). rewrite IH. cbn [map]. now rewrite <- app_assoc.
  - cbn [separated flat_map app parse_items]. apply named_arg_none in Hm. rewrite Hm.
    rewrite (Hb ltac:(discriminate)). change (flat_map _ (ps ++ ns)) with (separated (ps ++ ns)).
    rewrite IH by auto. cbn [map]. now rewrite <- app_assoc.
Qed.

Lemma parse_items_sound {E} n : forall (toks : list (tok E)) b p0 n0 p1 n1, length toks <= n ->
  parse_items b p0 n0 toks = Some (p1, n1) ->
  exists ps ns named trailing, toks = separated (ps ++ ns) ++ trailing /\
    Forall positional_arg ps /\ Forall2 names_arg ns named /\
    (trailing = [] \/ trailing = [TComma]) /\ (b = true -> ps = []) /\
    p1 = p0 ++ map expr_value ps /\ n1 = n0 ++ named.
Proof.
  induction n as [|n IH]; intros toks b p0 n0 p1 n1 Hl H.
  - destruct toks; [|cbn in Hl; lia]. injection H as <- <-. exists [], [], [], [].
    rewrite !app_nil_r. repeat split; auto.
  - destruct toks as [|t toks].
    { injection H as <- <-. exists [], [], [], []. rewrite !app_nil_r. repeat split; auto. }
    destruct t; try discriminate H. destruct toks as [|t toks].
    { injection H as <- <-. exists [], [], [], [TComma]. rewrite !app_nil_r. repeat split; auto. }
    destruct t as [| | | |m]; try discriminate H. cbn [parse_items] in H. cbn [length] in Hl.
    destruct (named_arg m) as [nm|] eqn:En.
    + apply IH in H as (ps & ns & named & tr & -> & Hp & Hn & Ht & Hb & -> & ->); [|lia].
      rewrite (Hb eq_refl) in *. exists [], (m :: ns), (nm :: named), tr.
      repeat split; auto; [now constructor; [apply named_arg_spec|] | now rewrite <- app_assoc].
    + destruct b; [discriminate|].
      apply IH in H as (ps & ns & named & tr & -> & Hp & Hn & Ht & Hb & -> & ->); [|lia].
      exists (m :: ps), ns, named, tr.
      repeat split; auto; [constructor; [now apply named_arg_none|auto] | discriminate |].
      cbn [map]. now rewrite <- app_assoc.
Qed.

(** C54: the argument list of a macro call is accepted exactly when it is a format literal,
    positional arguments, then named arguments, optionally with a trailing comma; what the rest
    of the macro sees is exactly those, in source order. *)
Theorem C54_argument_list {E} (toks : list (tok E)) (format : str) (pos : list E)
  (named : list (str * E)) :
  parse_args_input (crate_prefix ++ toks) = Some (mk_input true format pos named)
  <-> spelled_call toks format pos named.
Proof.
  unfold parse_args_input, crate_prefix. cbn [app]. split.
  - destruct toks as [|[| | | |[s e|s e|l v e|e]] rest]; try discriminate.
    destruct (parse_items false [] [] rest) as [[p n]|] eqn:Ep; [|discriminate].
    intros [= <- <- <-].
    apply (parse_items_sound (length rest)) in Ep as (ps & ns & nm & tr & -> & Hp & Hn & Ht & _ & -> & ->); [|lia].
    cbn [app]. now constructor.
  - intros [f e ps ns nm tr Hp Hn Ht]. rewrite (parse_items_complete ps ns nm tr) by auto. reflexivity.
Qed.

(** C54: the reading is unique. *)
Theorem C54_deterministic {E} (toks : list (tok E)) f f' (pos pos' : list E) (named named' : list (str * E)) :
  spelled_call toks f pos named -> spelled_call toks f' pos' named' ->
  f = f' /\ pos = pos' /\ named = named'.
Proof.
  intros H H'. apply C54_argument_list in H. apply C54_argument_list in H'.
  rewrite H in H'. injection H' as <- <- <-. auto.
Qed.

Lemma parse_crate_true {E} (toks : list (tok E)) i :
  parse_args_input (crate_prefix ++ toks) = Some i -> in_krate i = true.
Proof.
  unfold parse_args_input, crate_prefix. cbn [app].
  destruct toks as [|[| | | |[s e|s e|l v e|e]] rest]; try discriminate.
  destruct (parse_items false [] [] rest) as [[p n]|]; [|discriminate]. now intros [= <-].
Qed.
Lemma spelled_tail {E} s (e : E) rest f pos named :
  spelled_call (TExpr (MStr s e) :: rest) f pos named -> optional_tail rest = true /\ f = s.
Proof.
  intros H. inversion H as [f0 e0 ps ns nm tr Hp Hn Ht]. subst. split; [|reflexivity].
  destruct (ps ++ ns); [|reflexivity]. cbn. destruct Ht as [->| ->]; reflexivity.
Qed.
Lemma spelled_relit {E} s (e e' : E) rest f pos named :
  spelled_call (TExpr (MStr s e) :: rest) f pos named ->
  spelled_call (TExpr (MStr s e') :: rest) f pos named.
Proof.
  intros H. inversion H as [f0 e0 ps ns nm tr Hp Hn Ht]. subst. now constructor.
Qed.
Lemma parse_not_spelled {E} (toks : list (tok E)) :
  (forall f pos named, ~ spelled_call toks f pos named) ->
  parse_args_input (crate_prefix ++ toks) = None.
Proof.
  intros Hn. destruct (parse_args_input (crate_prefix ++ toks)) as [[k f p n]|] eqn:Ep; [|reflexivity].
  pose proof (parse_crate_true _ _ Ep) as Hk. cbn in Hk. subst k. apply C54_argument_list in Ep.
  now destruct (Hn f p n).
Qed.

Section Xid.
Variables xid_start xid_continue : char -> bool.
Notation macro := (format_args_impl xid_start xid_continue).
Notation macro_nl := (format_args_nl xid_start xid_continue).
Notation format_args' := (format_args_macro xid_start xid_continue).
Notation write' := (write_macro xid_start xid_continue).
Notation writeln' := (writeln_macro xid_start xid_continue).

(** C54: [format_args!] (and through it [format!] and [write!]) on a call of that shape, with a
    literal or a builtin macro as format string, is the expansion for these arguments; any
    other call is a compile error. *)
Theorem C54_format_args {E} (toks : list (tok E)) :
  (forall f pos named, spelled_call toks f pos named \/ builtin_call toks f pos named ->
     format_args' toks = macro f pos named) /\
  ((forall f pos named, ~ spelled_call toks f pos named /\ ~ builtin_call toks f pos named) ->
   format_args' toks = CompileError).
Proof.
  split.
  - intros f pos named [H|H].
    + pose proof H as H0. destruct H as [f e ps ns nm tr Hp Hn Ht]. unfold format_args_macro.
      destruct (spelled_tail _ _ _ _ _ _ H0) as [-> _]. unfold proc_format_args.
      apply C54_argument_list in H0. rewrite H0. reflexivity.
    + destruct H as [f e e' rest pos named H]. unfold format_args_macro.
      destruct (spelled_tail _ _ _ _ _ _ H) as [-> _]. unfold proc_format_args.
      apply (spelled_relit _ e e') in H. apply C54_argument_list in H. rewrite H. reflexivity.
  - intros Hn. unfold format_args_macro.
    destruct toks as [|[| | | |[s e|s e|l v e|e]] rest]; try reflexivity;
      destruct (optional_tail rest) eqn:Ho; try reflexivity; unfold proc_format_args;
      rewrite parse_not_spelled; try reflexivity.
    + intros f pos named. apply Hn.
    + intros f pos named H. destruct (Hn f pos named) as [_ Hb]. apply Hb.
      destruct (spelled_tail _ _ _ _ _ _ H) as [_ ->]. econstructor. exact H.
Qed.

(** C54: a positional argument after a named one is rejected. *)
Theorem C54_positional_after_named {E} (f : str) (e : E) (before after : list (mexpr E))
  (m m' : mexpr E) (n : str * E) (trailing : list (tok E)) :
  names_arg m n -> positional_arg m' ->
  format_args' (TExpr (MStr f e) :: separated (before ++ m :: m' :: after) ++ trailing) = CompileError.
Proof.
  intros Hm Hm'. unfold format_args_macro, proc_format_args.
  destruct (optional_tail _); [|reflexivity].
  assert (G : forall b p0 n0, parse_items b p0 n0 (separated (before ++ m :: m' :: after) ++ trailing) = None).
  { apply named_arg_spec in Hm. apply named_arg_none in Hm'.
    induction before as [|x before IH]; intros b p0 n0; cbn [app separated flat_map parse_items].
    - rewrite Hm. now rewrite Hm'.
    - change (flat_map _ (before ++ m :: m' :: after)) with (separated (before ++ m :: m' :: after)).
      destruct (named_arg x); [apply IH|]. destruct b; [reflexivity|apply IH]. }
  unfold parse_args_input, crate_prefix. cbn [app]. now rewrite G.
Qed.

(** * writeln! *)

(** C49: for calls with a literal format string [writeln!] is the newline variant of exactly
    what [write!] is. *)
Theorem C49_calls {E} (u : E) (toks : list (tok E)) (f : str) (pos : list E) (named : list (str * E)) :
  spelled_call toks f pos named ->
  write' (TComma :: toks) = macro f pos named /\
  writeln' u (TComma :: toks) = macro_nl f pos named.
Proof.
  intros H. split.
  - cbn [write_macro]. apply C54_format_args. now left.
  - pose proof H as H0. destruct H as [f e ps ns nm tr Hp Hn Ht]. unfold writeln_macro.
    unfold proc_format_args_nl. apply C54_argument_list in H0. now rewrite H0.
Qed.

(** C49: [writeln!(dst)] and [writeln!(dst,)] write one newline in the style of the formatter. *)
Theorem C49_bare {H} (u : expr H) (toks : list (tok (expr H))) :
  xid_ok xid_start xid_continue -> toks = [] \/ toks = [TComma] ->
  exists c, writeln' u toks = Expanded c /\
    forall scope h, exists args, eval_code scope c h = (h, Some args) /\
      forall f, ok_outcome (args f) = Returned Ok /\ produces (args f) = paint (fm_style f) [10%N].
Proof.
  intros Hx Ht.
  assert (Hs : spelled_call [TExpr (MStr [10%N] u)] [10%N] [] []).
  { exact (sc_intro [10%N] u [] [] [] [] (Forall_nil _) (Forall2_nil _) (or_introl eq_refl)). }
  assert (Hp : format_string xid_start xid_continue [Lit [10%N]] [10%N]).
  { apply (sp_text _ _ [10%N] [] []); [discriminate|repeat constructor|constructor]. }
  assert (E : writeln' u toks = macro [10%N] (@nil (expr H)) []).
  { transitivity (write' [TComma; TExpr (MStr [10%N] u)]).
    - destruct Ht as [->| ->]; reflexivity.
    - cbn [write_macro]. apply C54_format_args. now left. }
  rewrite E, (macro_of _ _ Hx _ _ _ _ Hp). eexists. split; [reflexivity|]. intros scope h.
  eexists. split; [reflexivity|]. intros f. split; reflexivity.
Qed.

(** C56 as stated is false: for a builtin macro such as
    [concat!] as the format string, [write!] accepts the call, [writeln!] never
    does. *)
Theorem C56_builtin_refuted {E} (u : E) (f : str) (e : E) (rest : list (tok E)) :
  writeln' u (TComma :: TExpr (MBuiltin f e) :: rest) = CompileError /\
  write' (TComma :: TExpr (MBuiltin f e) :: rest) = write' (TComma :: TExpr (MStr f e) :: rest).
Proof. split; reflexivity. Qed.

(** C56: with a string literal as the format string the two macros accept the same calls.
    Missing: builtin macros as format strings. *)
Theorem C56_literal_partial {E} (u : E) (f : str) (e : E) (rest : list (tok E)) :
  xid_ok xid_start xid_continue ->
  ((exists c, writeln' u (TComma :: TExpr (MStr f e) :: rest) = Expanded c) <->
   (exists c, write' (TComma :: TExpr (MStr f e) :: rest) = Expanded c)).
Proof.
  intros Hx. destruct (parse_args_input (crate_prefix ++ TExpr (MStr f e) :: rest)) as [[k f' p n]|] eqn:Ep.
  - pose proof (parse_crate_true _ _ Ep) as Hk. cbn in Hk. subst k. apply C54_argument_list in Ep.
    destruct (C49_calls u _ _ _ _ Ep) as [-> ->]. exact (C49_same_accepted _ _ Hx f' p n).
  - split; intros [c Hc]; exfalso.
    + unfold writeln_macro, proc_format_args_nl in Hc. rewrite Ep in Hc. discriminate.
    + unfold write_macro, format_args_macro, proc_format_args in Hc. rewrite Ep in Hc.
      destruct (optional_tail rest); discriminate.
Qed.

(** * Raw identifiers *)
Lemma asked_ident b ps s n :
  spells xid_start xid_continue b ps s -> In (Some (Named n)) (asked ps) -> ident xid_start xid_continue n.
Proof.
  induction 1 as [b|t ps s Ht Hf Hs IH|b ps s Hs IH|b ps s Hs IH|b a e p ps s Hp He Hs IH]; cbn; auto.
  - tauto.
  - intros [Ha|Hi]; [|auto]. inversion Hp as [arg s1 spec e2 s2 Harg Hspec]; subst. cbn in Ha. subst arg.
    destruct Harg as [[[=] _]|(r & [= <-] & Hr)]. now inversion Hr.
Qed.

(** C55 as stated is false: a call with a named argument written as a raw identifier is a
    compile error, whatever the format string and the other arguments. *)
Theorem C55_raw_refuted {E} (f : str) (pos : list E) (named : list (str * E)) (name : str) (e : E) :
  xid_ok xid_start xid_continue -> In (raw_ident name, e) named -> macro f pos named = CompileError.
Proof.
  intros Hx Hin. destruct (macro f pos named) as [c|] eqn:Em; [|reflexivity]. exfalso.
  destruct (proj1 (C47_accepted _ _ Hx f pos named) (ex_intro _ c Em)) as (ps & Hp & Ha).
  pose proof (acc_used_named _ _ _ Ha (raw_ident name)) as Hu.
  assert (Hi : In (raw_ident name) (map fst named)) by exact (in_map fst _ _ Hin).
  specialize (Hu Hi). apply (asked_ident false ps f _ Hp) in Hu. unfold raw_ident in Hu. cbn [lit app] in Hu.
  inversion Hu as [c0 r Hc Hr Eq]. subst. inversion Hr as [|c1 r1 Hh _ Eq]; subst.
  rewrite (proj2 Hx) in Hh by reflexivity. discriminate.
Qed.

(** C55: what does work is capturing a variable: a placeholder may name any identifier (also a
    keyword other than self, Self, super, crate and underscore), and uses that variable. *)
Theorem C55_captured_partial {H} (name : str) (scope : str -> value_t) (h : H) :
  xid_ok xid_start xid_continue -> ident xid_start xid_continue name -> ~ keyword_name name ->
  exists c args, macro (lit "{" ++ name ++ lit "}") (@nil (expr H)) [] = Expanded c /\
    eval_code scope c h = (h, Some args) /\
    forall f, ok_outcome (trait_code FDisplay (scope name) (mk_formatter (fm_style f) fargs_default)) = Returned Ok ->
      produces (args f) = shown FDisplay (scope name) (fm_style f) fargs_default.
Proof.
  intros Hx Hid Hk.
  set (a := mk_farg (Some (Named name)) (mk_spec (mk_pfargs None None false false None None None) (mk_diff None None None) FDisplay)).
  assert (Hp : format_string xid_start xid_continue [Arg a] (lit "{" ++ name ++ lit "}")).
  { replace (lit "{" ++ name ++ lit "}") with (lit "{" ++ (name ++ []) ++ lit "}" ++ [])
      by now rewrite !app_nil_r.
    eapply sp_arg with (empty := false); [|discriminate|constructor].
    constructor; [right; eexists; split; [reflexivity|now constructor]|left; auto]. }
  destruct (proj2 (C47_accepted _ _ Hx (lit "{" ++ name ++ lit "}") (@nil (expr H)) [])) as [c Hc].
  { exists [Arg a]. split; [exact Hp|]. constructor; cbn; try tauto.
    - auto.
    - intros i [[=]|[]].
    - intros n [[= <-]|[]]. auto.
    - repeat constructor. }
  destruct (eval_pure _ _ Hx _ _ _ c scope h Hc) as [args Ee]; [intros e []|].
  destruct (C46_resolution _ _ Hx _ _ _ _ _ scope h h args Hp Hc Ee) as (pv & nv & Hev & L1 & L2 & Hf).
  destruct pv; [|discriminate]. destruct nv; [|discriminate]. inversion Hev; subst.
  exists c, args. split; [exact Hc|]. split; [exact Ee|]. intros f Hok.
  destruct (Hf f) as (parts & Hm & ->).
  inversion Hm as [|n2 t2 ps2 parts2 Hm2 |n2 a2 v2 ps2 parts2 Hu2 Hme2]; subst.
  inversion Hme2; subst. cbn [fa_arg a] in Hu2. inversion Hu2; subst.
  - destruct before; discriminate.
  - cbn [in_sequence]. unfold produces. rewrite (same_events _ _ (try_ok _)).
    destruct f as [[x y z] fl].
    exact (trait_code_shown FDisplay (scope name) (mk_style x y z) fargs_default).
Qed.

(** C78 as stated is false: a call in which nothing is written as [name = value] is accepted, and
    the assigned values are used for the placeholders of these names. *)
Theorem C78_prefix_refuted {E} (prefix : path_prefix) (name : str) (v e e0 : E) :
  xid_ok xid_start xid_continue -> ident xid_start xid_continue name -> prefix <> PlainPath ->
  let m := MAssign (LPath prefix [(name, false)]) v e in
  (forall n, ~ identifier_assigned m n) /\
  let f := lit "{" ++ name ++ lit "}" in
  format_args' [TExpr (MStr f e0); TComma; TExpr m] = macro f [] [(name, v)] /\
  exists c, macro f [] [(name, v)] = Expanded c.
Proof.
  intros Hx Hid Hp m. split; [intros n (e' & He); injection He as -> _ _ _; congruence|]. intros f. split.
  - apply C54_format_args. left.
    exact (sc_intro f e0 [] [m] [(name, v)] [] (Forall_nil _) (Forall2_cons _ _ (na_intro _ _ _ _) (Forall2_nil _)) (or_introl eq_refl)).
  - apply (C47_accepted _ _ Hx). 
    set (a := mk_farg (Some (Named name)) (mk_spec (mk_pfargs None None false false None None None) (mk_diff None None None) FDisplay)).
    exists [Arg a]. split.
    + subst f. replace (lit "{" ++ name ++ lit "}") with (lit "{" ++ (name ++ []) ++ lit "}" ++ [])
        by now rewrite !app_nil_r.
      eapply sp_arg with (empty := false); [|discriminate|constructor].
      constructor; [right; eexists; split; [reflexivity|now constructor]|left; auto].
    + constructor; cbn; try tauto; auto.
      * intros i [[=]|[]].
      * intros n [[= <-]|[]]. auto.
      * intros n [<-|[]]. auto.
      * repeat constructor.
Qed.

(** C78, the exact behaviour: such prefixes are ignored everywhere. *)
Definition unprefixed_expr {E} (m : mexpr E) : mexpr E :=
  match m with MAssign (LPath _ [x]) v e => MAssign (LPath PlainPath [x]) v e | m => m end.
Lemma unprefixed_texpr {E} (m : mexpr E) : unprefixed (TExpr m) = TExpr (unprefixed_expr m).
Proof. destruct m as [s e|s e|[pre [|x [|y r]]|] v e|e]; reflexivity. Qed.
Lemma unprefixed_named {E} (m : mexpr E) : named_arg (unprefixed_expr m) = named_arg m.
Proof. destruct m as [s e|s e|[pre [|[x b] [|y r]]|] v e|e]; reflexivity. Qed.
Lemma unprefixed_value {E} (m : mexpr E) : expr_value (unprefixed_expr m) = expr_value m.
Proof. destruct m as [s e|s e|[pre [|[x b] [|y r]]|] v e|e]; reflexivity. Qed.
Lemma unprefixed_items {E} n : forall (toks : list (tok E)) b p nm, length toks <= n ->
  parse_items b p nm (map unprefixed toks) = parse_items b p nm toks.
Proof.
  induction n as [|n IH]; intros toks b p nm Hl; destruct toks as [|t toks]; try reflexivity; [cbn in Hl; lia|].
  destruct t as [| | | |m]; try reflexivity; [|cbn [map]; rewrite unprefixed_texpr; reflexivity].
  destruct toks as [|t toks]; [reflexivity|]. destruct t as [| | | |m]; try reflexivity.
  cbn [map]. change (unprefixed TComma) with (@TComma E). rewrite unprefixed_texpr. cbn [parse_items].
  rewrite unprefixed_named, unprefixed_value. cbn [length] in Hl. destruct (named_arg m); [apply IH; lia|].
  destruct b; [reflexivity|apply IH; lia].
Qed.
Lemma unprefixed_tail {E} (toks : list (tok E)) : optional_tail (map unprefixed toks) = optional_tail toks.
Proof. destruct toks as [|[| | | |m] r]; try reflexivity. cbn [map]. now rewrite unprefixed_texpr. Qed.
Lemma unprefixed_args {E} (toks : list (tok E)) :
  parse_args_input (crate_prefix ++ map unprefixed toks) = parse_args_input (crate_prefix ++ toks).
Proof.
  unfold parse_args_input, crate_prefix. cbn [app]. destruct toks as [|[| | | |m] r]; try reflexivity.
  cbn [map]. rewrite unprefixed_texpr. destruct m as [s e|s e|[pre [|[x b] [|y r2]]|] v e|e]; try reflexivity.
  cbn [unprefixed_expr]. now rewrite (unprefixed_items (length r)) by lia.
Qed.
Theorem C78_prefix_ignored {E} (toks : list (tok E)) (u : E) :
  format_args' (map unprefixed toks) = format_args' toks /\
  write' (map unprefixed toks) = write' toks /\
  writeln' u (map unprefixed toks) = writeln' u toks.
Proof.
  assert (A : forall t : list (tok E), format_args' (map unprefixed t) = format_args' t).
  { intros t. destruct t as [|[| | | |m] r]; try reflexivity. cbn [map]. rewrite unprefixed_texpr.
    assert (B : forall s (e : E), proc_format_args xid_start xid_continue (crate_prefix ++ TExpr (MStr s e) :: map unprefixed r)
              = proc_format_args xid_start xid_continue (crate_prefix ++ TExpr (MStr s e) :: r)).
    { intros s e. unfold proc_format_args. pose proof (unprefixed_args (TExpr (MStr s e) :: r)) as H.
      cbn [map] in H. change (unprefixed (TExpr (MStr s e))) with (TExpr (MStr s e)) in H. now rewrite H. }
    destruct m as [s e|s e|[pre [|[x b] [|y r2]]|] v e|e]; cbn [unprefixed_expr format_args_macro]; try reflexivity;
      rewrite unprefixed_tail, B; reflexivity. }
  split; [apply A|]. split.
  - destruct toks as [|[| | | |m] r]; try reflexivity; [apply A|]. cbn [map]. now rewrite unprefixed_texpr.
  - destruct toks as [|[| | | |m] r]; try reflexivity; [|cbn [map]; now rewrite unprefixed_texpr].
    destruct r as [|t r]; [reflexivity|].
    change (map unprefixed (TComma :: t :: r)) with (@TComma E :: unprefixed t :: map unprefixed r). cbn [writeln_macro].
    unfold proc_format_args_nl. now rewrite <- (unprefixed_args (t :: r)).
Qed.

(** C78: without them, an argument is named exactly if it is written as [name = value].
    Missing: calls with an assignment to [:: x] or [<T>::x] among the arguments. *)
Theorem C78_names_partial {E} (m : mexpr E) (n : str * E) :
  ~ prefixed_assigned m -> (names_arg m n <-> identifier_assigned m n).
Proof.
  intros Hn. split.
  - intros H. destruct H as [prefix name v e]. destruct prefix; [exists e; reflexivity| |]; exfalso; apply Hn;
      do 4 eexists; (split; [|reflexivity]); discriminate.
  - intros (e & ->). destruct n as [name v]. apply na_intro.
Qed.
End Xid.
Print Assumptions C54_argument_list.
Print Assumptions C54_deterministic.
Print Assumptions C54_format_args.
Print Assumptions C54_positional_after_named.
Print Assumptions C49_calls.
Print Assumptions C49_bare.
Print Assumptions C56_builtin_refuted.
Print Assumptions C56_literal_partial.
Print Assumptions C55_raw_refuted.
Print Assumptions C55_captured_partial.
Print Assumptions C78_prefix_refuted.
Print Assumptions C78_prefix_ignored.
Print Assumptions C78_names_partial.

(** * Concrete cases *)
Definition arg0 : mexpr (expr (list nat)) := MOther (logging 0 (text_value (lit "A"))).
Definition arg1 : mexpr (expr (list nat)) :=
  MAssign (LPath PlainPath [(lit "x", false)]) (logging 1 (text_value (lit "B"))) (logging 9 (text_value [])).
Definition arg2 : mexpr (expr (list nat)) :=
  MAssign (LPath PlainPath [(lit "a", false); (lit "b", false)]) (logging 2 (text_value (lit "C")))
    (logging 2 (text_value (lit "()"))).
Definition fmt (s : string) : tok (expr (list nat)) := TExpr (MStr (lit s) (logging 9 (text_value []))).

(** An assignment to a path such as a::b is a positional argument. *)
Example C54_nonvacuous :
  names_arg arg1 (lit "x", logging 1 (text_value (lit "B"))) /\ positional_arg arg2 /\
  (exists c, format_args_macro ascii_start ascii_continue
     [fmt "{}{}{x}"; TComma; TExpr arg0; TComma; TExpr arg2; TComma; TExpr arg1; TComma] = Expanded c) /\
  format_args_macro ascii_start ascii_continue
    [fmt "{}{x}"; TComma; TExpr arg1; TComma; TExpr arg0] = CompileError /\
  format_args_macro ascii_start ascii_continue [fmt "{}"; TComma; TComma; TExpr arg0] = CompileError /\
  format_args_macro ascii_start ascii_continue [fmt "{}"; TExpr arg0] = CompileError.
Proof.
  split; [constructor|]. split; [intros n Hn; inversion Hn|].
  split; [eexists; vm_compute; reflexivity|]. repeat split; vm_compute; reflexivity.
Qed.
Example C49_bare_nonvacuous :
  match writeln_macro ascii_start ascii_continue (logging 9 (text_value [])) [] with
  | Expanded c => option_map plain_format (snd (eval_code no_scope c [])) | CompileError => None end
  = Some (Value [10%N]).
Proof. vm_compute. reflexivity. Qed.
(** [write!(w, concat!("a", "{}"), 1)] is fine, [writeln!] with it is not. *)
Example C56_nonvacuous :
  let toks := [TComma; TExpr (MBuiltin (lit "a{}") (logging 9 (text_value []))); TComma; TExpr arg0] in
  (exists c, write_macro ascii_start ascii_continue toks = Expanded c) /\
  writeln_macro ascii_start ascii_continue (logging 9 (text_value [])) toks = CompileError.
Proof. split; [eexists|]; vm_compute; reflexivity. Qed.
Example C55_nonvacuous :
  call false (lit "{type}") [] [(lit "r#type", logging 0 (text_value (lit "A")))] = None /\
  call false (lit "{r#type}") [] [(lit "r#type", logging 0 (text_value (lit "A")))] = None /\
  match call false (lit "{type}") [] [] with
  | Some (_, args) => plain_format args | None => Crash Panic end = Value (lit "var type").
Proof. repeat split; vm_compute; reflexivity. Qed.

(** format!("{x}", ::x = 5) and format!("{x}", <T>::x = 5). *)
Example C78_nonvacuous :
  let v := logging 0 (text_value (lit "A")) in
  let shown prefix :=
    match format_args_macro ascii_start ascii_continue
            [fmt "{x}"; TComma; TExpr (MAssign (LPath prefix [(lit "x", false)]) v v)] with
    | Expanded c => option_map plain_format (snd (eval_code no_scope c [])) | CompileError => None end in
  shown PlainPath = Some (Value (lit "A")) /\ shown GlobalPath = Some (Value (lit "A")) /\
  shown TypePath = Some (Value (lit "A")).
Proof. repeat split; vm_compute; reflexivity. Qed.
