(** Property C97: which argument expressions the macros take whole. *)
From Verif Require Import Base Style Fmt SpecStd StdCompat SString Plain Ansi Html Format Nom Parse
  Codegen ToString Macros SpecText TextFacts SpecSink StyleFacts StdFacts StringFacts FormatFacts SpecGrammar
  ParseFacts SpecFacts GrammarFacts SpecMeaning CodegenFacts MacroFacts AttrFacts PropsParse PropsMacro Quote
  SpecHygiene PropsHygiene SpecCall PropsCall Exprs ExprFacts SpecExprs.

(** * An ampersand in front *)
Lemma leftmost_whole e : whole e <-> leftmost_ref e = XRef e.
Proof. destruct e; cbn; split; auto; intros; try discriminate; tauto. Qed.
Lemma post_whole a ts e r : reads_post a ts e r -> whole a -> whole e.
Proof. induction 1; intros W; [exact W|]. apply IHreads_post. exact I. Qed.
Lemma pre_whole ts e r : reads_pre ts e r -> whole e.
Proof.
  destruct 1; cbn; auto.
  - eapply post_whole; [eassumption|exact I].
  - eapply post_whole; [eassumption|exact I].
Qed.
Lemma ops_leftmost n l ts e r : reads_ops n l ts e r -> reads_ops n (leftmost_ref l) ts (leftmost_ref e) r.
Proof.
  induction 1 as [n l ts S|n l o ts a ts' e r L N C Q1 Q2 IH|n l o ts a ts' L N Q|n l ts L N|n l ty ts e r L Q IH].
  - now constructor.
  - econstructor; eauto. intros K. specialize (C K). destruct l; cbn in *; auto.
  - cbn [leftmost_ref]. now constructor.
  - cbn [leftmost_ref]. now constructor.
  - constructor; auto.
Qed.
Lemma reads_amp n ts e r : reads n ts e r -> ender r -> reads n (KAmp :: ts) (leftmost_ref e) r.
Proof.
  intros R K. inversion R as [n1 ts1 a ts' e1 r1 Q1 Q2|n1 ts1 e1 r1 Q1]; subst.
  - econstructor.
    + apply rp_ref. exact Q1.
    + apply ops_leftmost in Q2. rewrite (proj1 (leftmost_whole a) (pre_whole _ _ _ Q1)) in Q2. exact Q2.
  - replace (leftmost_ref e) with (XRef e) by (destruct Q1; reflexivity). econstructor.
    + apply rp_ref_range. exact Q1.
    + apply ro_end. now apply ender_stops.
Qed.

Lemma ops_right n l ts e r : reads_ops n l ts e r -> forall o a b, e = XBin o a b ->
  l = XBin o a b \/ exists k ts' r', reads k ts' b r'.
Proof.
  induction 1 as [n l ts S|n l o ts x ts' e r L N C Q1 Q2 IH|n l o ts x ts' L N Q|n l ts L N|n l ty ts e r L Q IH]; intros o' a b E.
  - auto.
  - destruct (IH _ _ _ E) as [E'|X]; [|auto]. injection E' as -> -> ->. right. eauto.
  - injection E as -> -> ->. right. eauto.
  - discriminate.
  - destruct (IH _ _ _ E) as [E'|X]; [discriminate|auto].
Qed.
Lemma reads_right n ts o a b r : reads n ts (XBin o a b) r -> readable b.
Proof.
  intros R. inversion R as [n1 ts1 x ts' e1 r1 Q1 Q2|n1 ts1 e1 r1 Q1]; subst; [|inversion Q1].
  destruct (ops_right _ _ _ _ _ Q2 _ _ _ eq_refl) as [->|(k & t & q & X)].
  - now apply pre_whole in Q1.
  - eapply reads_readable; exact X.
Qed.

Lemma tuple_of es : Forall readable es -> reads_tuple (tuple_tokens es) (map leftmost_ref es).
Proof.
  induction 1 as [|e es R _ IH]; cbn [tuple_tokens flat_map map]; [constructor|].
  cbn. rewrite <- app_assoc. econstructor; [|exact IH]. apply reads_amp; [|exact I]. apply R. exact I.
Qed.

(** * The arguments of a call are readable *)
Definition good_tok (t : tok sexpr) : Prop :=
  match t with TExpr m => exists e k ts r, m = classify e /\ reads k ts e r | _ => True end.
Lemma call_good ts l : reads_call ts l -> Forall good_tok l.
Proof. induction 1; constructor; cbn; eauto 8. Qed.
Lemma classify_value e : expr_value (classify e) = e.
Proof. destruct e as [[]| | | | | | |[]| | | |]; reflexivity. Qed.
Lemma good_value m : good_tok (TExpr m) -> readable (expr_value m).
Proof. intros (e & k & ts & r & -> & R). rewrite classify_value. eapply reads_readable; exact R. Qed.
Lemma good_named m n : good_tok (TExpr m) -> names_arg m n -> readable (snd n).
Proof.
  intros (e & k & ts & r & Em & R) N. destruct N as [prefix name v x]. cbn [snd].
  assert (X : exists l, e = XBin Assign l v).
  { destruct e as [[]| | | | | | |[]| | | |]; try discriminate. cbn in Em. injection Em as _ -> _. eauto. }
  destruct X as [l ->]. eapply reads_right; exact R.
Qed.
Lemma call_readable ts toks f pos named : reads_call ts toks -> spelled_call toks f pos named ->
  Forall readable pos /\ Forall readable (map snd named).
Proof.
  intros R S. apply call_good in R. destruct S as [format e ps ns named trailing P N T].
  inversion R as [|t l _ R']; subst. apply Forall_app in R' as [R' _].
  assert (G : forall m, In m (ps ++ ns) -> good_tok (TExpr m)).
  { intros m M. rewrite Forall_forall in R'. apply R'. unfold separated. apply in_flat_map. exists m. cbn. auto. }
  split.
  - apply Forall_map, Forall_forall. intros m M. apply good_value, G. apply in_or_app; auto.
  - clear - N G. apply Forall_forall. intros x X. apply in_map_iff in X as (n & <- & X).
    assert (Q : exists m, In m ns /\ names_arg m n).
    { clear G. induction N as [|m n' ns named K N IH]; [destruct X|]. destruct X as [->|X]; [exists m; cbn; auto|].
      destruct (IH X) as (m' & A & B). exists m'. cbn. auto. }
    destruct Q as (m & A & B). eapply good_named; [|exact B]. apply G, in_or_app; auto.
Qed.

(** C97: the tuples that the macro generates for a call, as rustc reads them: each element is the
    argument with a reference taken of its leftmost operand. *)
Theorem C97_tuples (ts : list otok) (toks : list (tok sexpr)) (f : str) (pos : list sexpr)
  (named : list (str * sexpr)) :
  reads_call ts toks -> spelled_call toks f pos named ->
  (forall es, reads_tuple (tuple_tokens pos) es <-> es = map leftmost_ref pos) /\
  (forall es, reads_tuple (tuple_tokens (map snd named)) es <-> es = map leftmost_ref (map snd named)).
Proof.
  intros R S. destruct (call_readable _ _ _ _ _ R S) as [P N].
  split; intros es; (split; [intros X; eapply tuple_det; [exact X|]|intros ->]; now apply tuple_of).
Qed.
Print Assumptions C97_tuples.

(** C97: that is a reference to the argument exactly when the argument is [whole]. *)
Theorem C97_whole (e : sexpr) : leftmost_ref e = XRef e <-> whole e.
Proof. symmetry. apply leftmost_whole. Qed.
Print Assumptions C97_whole.

(** C97: an argument in parentheses is whole, and means the same. *)
Theorem C97_parentheses {H} (ts r : list otok) (e : sexpr) (T : typing) (M : meanings H) :
  reads 0 (ts ++ r) e r -> (r = [] \/ exists r', r = KComma :: r') ->
  reads 0 (KOpen :: ts ++ KClose :: r) (XParen e) r /\ whole (XParen e) /\
  type_of T (XParen e) = type_of T e /\ argument M (XParen e) = argument M e.
Proof.
  intros R K. split; [|repeat split].
  assert (E : ender r) by (destruct K as [->|(r' & ->)]; exact I).
  assert (N : no_post r) by (destruct K as [->|(r' & ->)]; exact I).
  pose proof (proj1 (proj2 (proj2 print_reads_all)) _ _ _ _ R) as P. apply app_inv_tail in P as ->.
  econstructor.
  - eapply rp_paren; [|constructor; exact N]. apply (reads_readable _ _ _ _ R). exact I.
  - constructor. now apply ender_stops.
Qed.
Print Assumptions C97_parentheses.

(** ** Whole arguments *)
Lemma element_whole {H} (M : meanings H) e h : whole e -> element M (leftmost_ref e) h = argument M e h.
Proof.
  intros W. apply leftmost_whole in W as ->. unfold element, argument. cbn [run_of].
  destruct (run_of M e h) as [h' [t|]]; reflexivity.
Qed.
Lemma eval_tuple_ext {H} (A B : sexpr -> expr H) es : Forall (fun e => forall h, A e h = B e h) es ->
  forall h, eval_tuple (map A es) h = eval_tuple (map B es) h.
Proof.
  induction 1 as [|e es E _ IH]; intros h; cbn [map eval_tuple]; [reflexivity|].
  rewrite E. destruct (B e h) as [h1 [v|]]; [|reflexivity]. now rewrite IH.
Qed.

Section Xid.
Variables xid_start xid_continue : char -> bool.
Hypothesis Hx : xid_ok xid_start xid_continue.
Notation macro := (format_args_impl xid_start xid_continue).

Lemma macro_tuples {E} f (pos : list E) named c : macro f pos named = Expanded c ->
  c_positional c = pos /\ c_named c = map snd named.
Proof. intros M. exact (proj2 (C47_in_range _ _ Hx f pos named c M)). Qed.

(** C97: when the arguments are whole, the generated code as rustc reads it evaluates and formats
    the arguments as the user means them; it is well typed if the arguments are. *)
Theorem C97_meant {H} (f : str) (pos : list sexpr) (named : list (str * sexpr)) (c : code sexpr)
  (M : meanings H) (T : typing) (scope : str -> value_t) (h : H) :
  macro f pos named = Expanded c -> Forall whole pos -> Forall whole (map snd named) ->
  macro f (map (argument M) pos) (map (fun '(n, e) => (n, argument M e)) named) =
    Expanded (map_code (argument M) c) /\
  eval_code scope (map_code (fun e => element M (leftmost_ref e)) c) h =
    eval_code scope (map_code (argument M) c) h /\
  (Forall (fun e => type_of T e <> None) (pos ++ map snd named) ->
   well_typed T (map leftmost_ref pos) (map leftmost_ref (map snd named)) (c_stmts c)).
Proof.
  intros E W1 W2. split; [now apply macro_map|]. split.
  - destruct (macro_tuples _ _ _ _ E) as [P N]. unfold eval_code, map_code. cbn [c_positional c_named c_implicit c_stmts].
    rewrite P, N. rewrite (eval_tuple_ext (fun e => element M (leftmost_ref e)) (argument M)).
    2: { eapply Forall_impl; [|exact W1]. intros e W h0. now apply element_whole. }
    destruct (eval_tuple (map (argument M) pos) h) as [h1 [ps|]]; [|reflexivity].
    rewrite (eval_tuple_ext (fun e => element M (leftmost_ref e)) (argument M)); [reflexivity|].
    eapply Forall_impl; [|exact W2]. intros e W h0. now apply element_whole.
  - intros Ty w p fargs st Hin. apply Forall_app in Ty as [Ty1 Ty2].
    destruct (C47_in_range _ _ Hx f pos named c E) as (R & P & N).
    rewrite Forall_forall in R. specialize (R _ Hin). cbn in R.
    assert (Q : forall i es, Forall whole es -> Forall (fun e => type_of T e <> None) es -> i < length es ->
      exists e t, nth_error (map leftmost_ref es) i = Some e /\ type_of T e = Some t /\ fits w t).
    { intros i es W K L. destruct (nth_error es i) as [e|] eqn:X; [|apply nth_error_None in X; lia].
      rewrite Forall_forall in W, K. pose proof (nth_error_In _ _ X) as I1.
      specialize (W e I1). specialize (K e I1). destruct (type_of T e) as [t|] eqn:Et; [|tauto].
      exists (XRef e), (TyRef t). split; [|split].
      - rewrite nth_error_map, X. cbn. f_equal. now apply leftmost_whole.
      - cbn. now rewrite Et.
      - destruct w; cbn; eauto. }
    destruct p as [i|i|i]; [|..]; rewrite ?P, ?N in R; auto.
Qed.
Print Assumptions C97_meant.

(** ** Other arguments *)
Lemma not_whole_type T e t : ~ whole e ->
  (forall o a b t', bin_ty T o a b <> Some (TyRef t')) -> (forall c a t', cast_ty T c a <> Some (TyRef t')) ->
  (forall a t', from_ty T a <> Some (TyRef t')) ->
  type_of T (leftmost_ref e) = Some t -> forall t', t <> TyRef t'.
Proof.
  intros W B C D E t' ->. destruct e; cbn in W; try tauto; cbn [leftmost_ref type_of] in E.
  - destruct (type_of T (leftmost_ref e1)), (type_of T e2); try discriminate. now apply B in E.
  - destruct (type_of T (leftmost_ref e)); try discriminate. now apply C in E.
  - destruct (type_of T (leftmost_ref e)); try discriminate. now apply D in E.
Qed.

(** C97: an argument that is not whole, used with one of the std traits, is rejected by rustc, if
    no operator gives a reference. *)
Theorem C97_rejected (f : str) (pos : list sexpr) (named : list (str * sexpr)) (c : code sexpr) (T : typing)
  (w : wrap) (p : place) (fargs : formatter_args) (st : style_diff) (e : sexpr) :
  macro f pos named = Expanded c -> In (SFmt w p fargs st) (c_stmts c) -> w <> WStylish ->
  (exists i, (p = PosArg i /\ nth_error pos i = Some e) \/ (p = NamedArg i /\ nth_error (map snd named) i = Some e)) ->
  ~ whole e ->
  (forall o a b t', bin_ty T o a b <> Some (TyRef t')) -> (forall c a t', cast_ty T c a <> Some (TyRef t')) ->
  (forall a t', from_ty T a <> Some (TyRef t')) ->
  ~ well_typed T (map leftmost_ref pos) (map leftmost_ref (map snd named)) (c_stmts c).
Proof.
  intros E Hin Hw (i & K) W B C D Y. specialize (Y _ _ _ _ Hin).
  assert (Q : exists t, type_of T (leftmost_ref e) = Some t /\ fits w t).
  { destruct K as [[-> K]|[-> K]]; destruct Y as (e' & t & X1 & X2 & X3);
      rewrite nth_error_map, K in X1; injection X1 as <-; eauto. }
  destruct Q as (t & Et & F). destruct w; [tauto|..]; destruct F as [t' ->]; eapply not_whole_type; eauto.
Qed.
Print Assumptions C97_rejected.
End Xid.

(** * Concrete cases *)
Ltac no_op := cbn; split; [intros [] Heq; discriminate Heq|intros ? Heq; discriminate Heq].
Ltac read :=
  repeat first
   [ apply po_end; exact I
   | apply ro_end; first [exact I|split; [intros [] Heq; cbn in *; first [discriminate Heq|lia]|intros ? Heq; cbn in *; first [discriminate Heq|unfold cast_prec; lia]]]
   | eapply re_intro
   | apply rp_prim | apply rp_ref | apply rp_low | eapply rp_paren | apply (rp_un Neg)
   | eapply po_more
   | eapply (ro_bin _ _ Add); [cbn; lia|reflexivity|discriminate| | ]
   | eapply (ro_bin _ _ Mul); [cbn; lia|reflexivity|discriminate| | ]
   | eapply (ro_bin _ _ Assign); [cbn; lia|reflexivity|discriminate| | ]
   | eapply (ro_range _ _ DotDot); [cbn; lia|reflexivity| ]
   | apply ro_as; [unfold cast_prec; cbn; lia|] ].

Definition num (s : String.string) : otok := KPrim (POther (lit s)).
Definition var (s : String.string) : otok := KPrim (PPath PlainPath [(lit s, false)]).

(** ["{} {n}", 1 + 2, n = a as u8]: the tokens, the call, and what rustc reads. *)
Definition eg_ts : list otok :=
  [KPrim (PStr (lit "{} {n}")); KComma; num "1"; KOp Add; num "2"; KComma; var "n"; KOp Assign; var "a"; KAs (lit "u8")].
Definition eg_pos : list sexpr := [XBin Add (XPrim (POther (lit "1"))) (XPrim (POther (lit "2")))].
Definition eg_named : list (str * sexpr) := [(lit "n", XCast (XPrim (PPath PlainPath [(lit "a", false)])) (lit "u8"))].
Example C97_tuples_nonvacuous :
  exists toks, reads_call eg_ts toks /\ spelled_call toks (lit "{} {n}") eg_pos eg_named /\
  map leftmost_ref eg_pos = [XBin Add (XRef (XPrim (POther (lit "1")))) (XPrim (POther (lit "2")))] /\
  map leftmost_ref (map snd eg_named) = [XCast (XRef (XPrim (PPath PlainPath [(lit "a", false)]))) (lit "u8")].
Proof.
  eexists. split; [|split; [|split; reflexivity]].
  - unfold eg_ts. eapply rc_expr; [read|right; eauto|]. apply rc_comma. eapply rc_expr; [read|right; eauto|].
    apply rc_comma. eapply rc_expr; [read|left; reflexivity|]. constructor.
  - cbn [classify lhs_of].
    eapply (sc_intro (lit "{} {n}") _ [MOther _] [MAssign (LPath PlainPath [(lit "n", false)]) _ _] eg_named []); [..|left; reflexivity].
    + constructor; [|constructor]. intros n N. inversion N.
    + constructor; [|constructor]. apply na_intro.
Qed.

(** Integers: operators take numbers and references to numbers and give numbers. *)
Definition int_typing : typing :=
  let int := TyVal (lit "i32") in
  let num t := match t with TyVal _ | TyRef (TyVal _) => Some int | _ => None end in
  mk_typing (fun _ => Some int) (fun _ t => Some t) (fun _ t => num t) (fun _ t => t)
    (fun _ a b => match num a, num b with Some _, Some _ => Some int | _, _ => None end)
    (fun _ a => match a with TyVal _ => Some int | _ => None end)
    (fun _ => Some (TyVal (lit "RangeFrom"))) (fun _ _ => Some (TyVal (lit "RangeTo"))) (TyVal (lit "RangeFull")).
(** [format!("{}", 1 + 2)] is rejected, [format!("{}", (1 + 2))] is not. *)
Example C97_rejected_nonvacuous :
  let e := XBin Add (XPrim (POther (lit "1"))) (XPrim (POther (lit "2"))) in
  exists c c',
  format_args_impl ascii_start ascii_continue (lit "{}") [e] [] = Expanded c /\
  ~ well_typed int_typing (map leftmost_ref [e]) [] (c_stmts c) /\
  format_args_impl ascii_start ascii_continue (lit "{}") [XParen e] [] = Expanded c' /\
  well_typed int_typing (map leftmost_ref [XParen e]) [] (c_stmts c').
Proof.
  cbn zeta. eexists _, _. split; [vm_compute; reflexivity|]. split.
  - eapply (C97_rejected ascii_start ascii_continue (lit "{}")
      [XBin Add (XPrim (POther (lit "1"))) (XPrim (POther (lit "2")))] []).
    + vm_compute; reflexivity.
    + left; reflexivity.
    + discriminate.
    + exists 0. left. split; reflexivity.
    + exact (fun x => x).
    + cbn. intros _ [|[]] [|[]] t'; discriminate.
    + cbn. intros _ [] t'; discriminate.
    + cbn. intros _ t'; discriminate.
  - split; [vm_compute; reflexivity|]. intros w p fargs st [E|[]]. injection E as <- <- _ _.
    eexists _, _. split; [reflexivity|]. split; [reflexivity|]. cbn. eauto.
Qed.

(** With the stylish trait an operator may be called with other operands than the user wrote: an
    operator that takes the left operand by value or by reference and tells which. *)
Definition tell : meanings unit :=
  mk_meanings (fun _ h => (h, Some (Val (text_value (lit "x"))))) (fun _ r => r) (fun _ r => r) (fun _ r => r)
    (fun _ a _ h => match a h with
       | (h', Some (RefTo _)) => (h', Some (Val (text_value (lit "by reference"))))
       | (h', _) => (h', Some (Val (text_value (lit "by value")))) end)
    (fun _ r => r) (fun r => r) (fun _ r => r) (fun h => (h, Some (Val (text_value (lit ".."))))) (fun v => v).
Example C97_other_operator :
  let e := XBin Add (XPrim (POther (lit "a"))) (XPrim (POther (lit "b"))) in
  let shows (arg : expr unit) :=
    match format_args_impl ascii_start ascii_continue (lit "{:s}") [arg] [] with
    | Expanded c => match eval_code no_scope c tt with (_, Some a) => plain_format a | _ => Crash Panic end
    | CompileError => Crash Panic
    end in
  shows (argument tell e) = Value (lit "by value") /\
  shows (element tell (leftmost_ref e)) = Value (lit "by reference") /\
  shows (element tell (leftmost_ref (XParen e))) = Value (lit "by value").
Proof. cbn zeta. repeat split; vm_compute; reflexivity. Qed.

(** Whole arguments: a call with postfixes, a negation, a closure whose body has operators. *)
Example C97_meant_nonvacuous :
  exists toks pos, reads_call
    [KPrim (PStr (lit "{} {} {}")); KComma; var "x"; KPost (lit ".len()"); KComma; KMinus; var "y"; KComma;
     KLow (lit "|z|"); var "z"; KOp Add; num "1"; KComma] toks /\
  spelled_call toks (lit "{} {} {}") pos [] /\ Forall whole pos /\ length pos = 3 /\
  exists c, format_args_impl ascii_start ascii_continue (lit "{} {} {}") pos [] = Expanded c.
Proof.
  eexists _, _. split; [|split; [|split; [|split]]].
  - eapply rc_expr; [read|right; eauto|]. apply rc_comma. eapply rc_expr; [read|right; eauto|].
    apply rc_comma. eapply rc_expr; [read|right; eauto|]. apply rc_comma. eapply rc_expr; [read|right; eauto|].
    apply rc_comma. constructor.
  - cbn [classify lhs_of]. eapply (sc_intro _ _ [MOther _; MOther _; MOther _] [] [] [TComma]); [|constructor|right; reflexivity].
    repeat (constructor; [intros n N; inversion N|]). constructor.
  - repeat constructor.
  - reflexivity.
  - eexists. vm_compute. reflexivity.
Qed.

(** Parentheses: [(0..5)]. *)
Example C97_parentheses_nonvacuous :
  reads 0 [num "0"; KOp DotDot; num "5"; KComma] (XBin DotDot (XPrim (POther (lit "0"))) (XPrim (POther (lit "5")))) [KComma] /\
  reads 0 [KAmp; num "0"; KOp DotDot; num "5"; KComma]
    (XBin DotDot (XRef (XPrim (POther (lit "0")))) (XPrim (POther (lit "5")))) [KComma] /\
  reads 0 [KAmp; KOpen; num "0"; KOp DotDot; num "5"; KClose; KComma]
    (XRef (XParen (XBin DotDot (XPrim (POther (lit "0"))) (XPrim (POther (lit "5")))))) [KComma].
Proof. split; [|split]; read. Qed.

(** Ranges without one end: [&..5] is a reference to the range, [&5..] is not, [&..] is. *)
Example C97_half_open :
  reads 0 [KOp DotDot; num "5"; KComma] (XTo DotDot (XPrim (POther (lit "5")))) [KComma] /\
  reads 0 [KAmp; KOp DotDot; num "5"; KComma] (XRef (XTo DotDot (XPrim (POther (lit "5"))))) [KComma] /\
  reads 0 [num "5"; KOp DotDot; KComma] (XFrom (XPrim (POther (lit "5")))) [KComma] /\
  reads 0 [KAmp; num "5"; KOp DotDot; KComma] (XFrom (XRef (XPrim (POther (lit "5"))))) [KComma] /\
  reads 0 [KAmp; KOp DotDot; KComma] (XRef XFull) [KComma].
Proof.
  split; [apply re_range, (rg_to DotDot); [reflexivity|read]|].
  split; [eapply re_intro; [apply rp_ref_range, (rg_to DotDot); [reflexivity|]|]; read|].
  split; [eapply re_intro; [read|apply ro_from; [cbn; lia|exact I]]|].
  split; [eapply re_intro; [read|apply ro_from; [cbn; lia|exact I]]|].
  eapply re_intro; [apply rp_ref_range, rg_full; exact I|read].
Qed.
