(** Property theorems about the macros: resolving, evaluating and formatting arguments
    (C05, C06, C25, C26, C42, C45-C49, C52). *)
From Verif Require Import Base Style Fmt SpecStd StdCompat SString Plain Ansi Html Format Nom Parse
  Codegen ToString SpecText TextFacts SpecSink StyleFacts StdFacts StringFacts FormatFacts SpecGrammar ParseFacts
  SpecFacts GrammarFacts SpecMeaning CodegenFacts MacroFacts AttrFacts PropsParse.

(** * Helpers *)
Lemma uses_det pos named scope n a v v' :
  uses pos named scope n a v -> uses pos named scope n a v' -> v = v'.
Proof.
  intros H H'. destruct H as [v H|i v H|nm v b a E Ha|nm Hn];
    inversion H' as [v2 H2|i2 v2 H2|nm2 v2 b2 a2 E2 Ha2|nm2 Hn2]; subst; try congruence.
  - clear - E2 Ha Ha2. revert b2 E2.
    induction b as [|[x y] b IH]; intros [|[x2 y2] b2]; cbn; intros E2.
    + congruence.
    + exfalso. injection E2 as -> -> ->. apply Ha. rewrite map_app. apply in_or_app. right. now left.
    + exfalso. injection E2 as -> -> <-. apply Ha2. rewrite map_app. apply in_or_app. right. now left.
    + injection E2 as -> -> E2. eauto.
  - exfalso. apply Hn2. rewrite map_app. apply in_or_app. right. now left.
  - exfalso. apply Hn. rewrite map_app. apply in_or_app. right. now left.
Qed.

Lemma means_det pos named scope f n ps parts parts' :
  means pos named scope f n ps parts -> means pos named scope f n ps parts' -> parts = parts'.
Proof.
  intros H. revert parts'. induction H as [n|n s ps parts Hm IH|n a v ps parts Hu Hm IH];
    intros parts' H'; inversion H' as [|n2 s2 ps2 parts2 Hm2|n2 a2 v2 ps2 parts2 Hu2 Hm2]; subst.
  - reflexivity.
  - f_equal. now apply IH.
  - pose proof (uses_det _ _ _ _ _ _ _ Hu Hu2) as <-. f_equal. now apply IH.
Qed.

Lemma in_sequence_ok_inv parts :
  ok_outcome (in_sequence parts) = Returned Ok ->
  Forall (fun p => ok_outcome p = Returned Ok) parts.
Proof.
  induction parts as [|p r IH]; cbn [in_sequence]; [constructor|].
  unfold try_. rewrite ok_outcome_bind.
  destruct (ok_outcome p) as [[|]|c] eqn:E; try discriminate. constructor; auto.
Qed.

Lemma trait_code_shown t v st fl :
  produces (trait_code t v (mk_formatter st fl)) = shown t v st fl.
Proof. destruct t; cbn [trait_code shown]; try reflexivity; apply through_proxy_produces. Qed.

Lemma means_shows pos named scope f n ps parts :
  means pos named scope f n ps parts ->
  Forall (fun p => ok_outcome p = Returned Ok) parts ->
  shows pos named scope (fm_style f) n ps (concat (map produces parts)).
Proof.
  induction 1 as [n|n s ps parts Hm IH|n a v ps parts Hu Hm IH]; intros HF;
    inversion HF; subst; cbn [map concat].
  - constructor.
  - rewrite produces_write_str. constructor. auto.
  - rewrite trait_code_shown. econstructor; eauto.
Qed.

Section Xid.
Variables xid_start xid_continue : char -> bool.
Hypothesis Hx : xid_ok xid_start xid_continue.
Notation format_string := (format_string xid_start xid_continue).
Notation macro := (format_args_impl xid_start xid_continue).
Notation macro_nl := (format_args_nl xid_start xid_continue).

(** * C46, C48: resolution and evaluation *)

(** C46 and C48: running the code generated for a format string [s] that spells [ps]: the
    positional and then the named argument expressions are evaluated, each exactly once and in
    source order; formatting then runs the parts that [means] prescribes for [ps] with the
    resulting values (n-th bare placeholder: n-th positional value; explicit index: that one,
    without advancing; name: the named argument, else the variable in scope). *)
Theorem C46_resolution {H} (s : str) (ps : list piece) (pos : list (expr H))
  (named : list (str * expr H)) (c : code (expr H)) (scope : str -> value_t) (h h' : H)
  (args : arguments) :
  format_string ps s -> macro s pos named = Expanded c -> eval_code scope c h = (h', Some args) ->
  exists pv nv,
    evaluated (pos ++ map snd named) h h' (pv ++ nv) /\
    length pv = length pos /\ length nv = length named /\
    forall f, exists parts,
      means pv (combine (map fst named) nv) scope f 0 ps parts /\ args f = in_sequence parts.
Proof.
  intros Hp Hm He. apply (macro_inv _ _ Hx) in Hm as (ps' & Hp' & Hg & Hm).
  assert (ps' = ps) as -> by (eapply format_string_unique; eassumption).
  destruct (generate_eval ps pos named c scope h h' args Hg Hm He) as (pv & nv & Ht & H1 & H2 & H3).
  exists pv, nv. apply evaluated_tuple in Ht. auto.
Qed.

(** C46: the meaning is unique: a placeholder has one value and a list of pieces one meaning. *)
Theorem C46_deterministic (pos : list value_t) (named : list (str * value_t))
  (scope : str -> value_t) (f : formatter) (n : nat) (ps : list piece) (a : option arg_ref) :
  (forall v v', uses pos named scope n a v -> uses pos named scope n a v' -> v = v') /\
  (forall p p', means pos named scope f n ps p -> means pos named scope f n ps p' -> p = p').
Proof. split; intros; [eapply uses_det|eapply means_det]; eassumption. Qed.

(** C48: building the Arguments evaluates every argument expression exactly once, in source
    order, and nothing is evaluated when it is later formatted ([args] does not touch the
    state).  If an expression does not complete (it panics or returns early), those before it
    have been evaluated once each, those after it never, and there are no Arguments to format. *)
Theorem C48_evaluated_once {H} (s : str) (pos : list (expr H)) (named : list (str * expr H))
  (c : code (expr H)) (scope : str -> value_t) (h h' : H) (result : option arguments) :
  macro s pos named = Expanded c -> eval_code scope c h = (h', result) ->
  match result with
  | Some args => exists vs, evaluated (pos ++ map snd named) h h' vs
  | None => cut_short (pos ++ map snd named) h h'
  end.
Proof.
  intros Hm He. pose proof Hm as Hm'. apply (macro_inv _ _ Hx) in Hm' as (ps & Hp & _ & Hg).
  destruct result as [args|].
  - destruct (C46_resolution s ps pos named c scope h h' args Hp Hm He) as (pv & nv & Hv & _). eauto.
  - unfold generate in Hg.
    destruct (gen_pieces (length pos) (map fst named) ps gen_init) as [[g ss]|]; [|discriminate].
    destruct (all_used (length pos) (map fst named) g); [|discriminate]. injection Hg as <-.
    unfold eval_code in He. cbn [c_positional c_named c_implicit c_stmts] in He.
    destruct (eval_tuple pos h) as [h1 [pv|]] eqn:E1.
    + destruct (eval_tuple (map snd named) h1) as [h2 [nv|]] eqn:E2; [discriminate|].
      injection He as <-. apply (cut_short_after _ _ _ _ _ _ (evaluated_tuple _ _ _ _ E1)).
      rewrite <- (app_nil_r (map snd named)). now apply cut_short_tuple.
    + injection He as <-. now apply cut_short_tuple.
Qed.

Lemma eval_pure {H} (s : str) (pos : list (expr H)) (named : list (str * expr H))
  (c : code (expr H)) (scope : str -> value_t) (h : H) :
  macro s pos named = Expanded c ->
  (forall e, In e (pos ++ map snd named) -> forall x, exists v, e x = (x, Some v)) ->
  exists args, eval_code scope c h = (h, Some args).
Proof.
  intros Hm Hp. destruct (eval_code scope c h) as [h' [args|]] eqn:He;
    pose proof (C48_evaluated_once _ _ _ _ _ _ _ _ Hm He) as X.
  - exists args. f_equal. destruct X as [vs X]. clear - X Hp. revert Hp.
    induction X as [x|e es x x1 x2 v vs E X IH]; intros Hp; [reflexivity|].
    rewrite IH by (intros e' I; apply Hp; now right).
    destruct (Hp e (or_introl eq_refl) x) as [w Hw]. congruence.
  - inversion X as [before e after x x1 x' vs Hb E Eq E3 E4].
    destruct (Hp e) with (x := x1) as [w Hw]; [|congruence].
    rewrite <- Eq. apply in_or_app. right. now left.
Qed.

(** * C47: when expansion succeeds *)

(** C47: a call compiles exactly when the format string is well formed and [accepted] holds:
    an argument for every placeholder, every argument used, literal counts. *)
Theorem C47_accepted {E} (s : str) (pos : list E) (named : list (str * E)) :
  (exists c, macro s pos named = Expanded c) <->
  exists ps, format_string ps s /\ accepted ps (length pos) (map fst named).
Proof. exact (macro_iff _ _ Hx s pos named). Qed.

(** C47: generated code never indexes outside a tuple of arguments, and the tuples hold exactly
    the given expressions. *)
Definition in_range {E} (c : code E) (st : stmt) : Prop :=
  match st with
  | SLit _ => True
  | SFmt _ (PosArg i) _ _ => i < length (c_positional c)
  | SFmt _ (NamedArg i) _ _ => i < length (c_named c)
  | SFmt _ (ImplicitArg i) _ _ => i < length (c_implicit c)
  end.
Lemma gen_in_range np names nn ps g g' ss imps :
  length names = nn ->
  gen_pieces np names ps g = Some (g', ss) -> (exists l, imps = g_implicit g' ++ l) ->
  Forall (fun st => match st with
    | SLit _ => True
    | SFmt _ (PosArg i) _ _ => i < np
    | SFmt _ (NamedArg i) _ _ => i < nn
    | SFmt _ (ImplicitArg i) _ _ => i < length imps end) ss /\
  exists l, imps = g_implicit g ++ l.
Proof.
  intros Hn. revert g ss. induction ps as [|[s|[arg [fa st tr]]] ps IH]; intros g ss; cbn [gen_pieces].
  - intros [= <- <-] Hi. split; [constructor|exact Hi].
  - cbn [gen_piece]. destruct (gen_pieces np names ps g) as [[g2 ss2]|] eqn:E; [|discriminate].
    intros [= <- <-] Hi. destruct (IH _ _ E Hi) as [H1 H2]. split; [constructor; auto|exact H2].
  - cbn [gen_piece]. destruct (gen_place np names arg g) as [[g1 pl]|] eqn:Ep; [|discriminate].
    destruct (fargs_tokens fa); [|discriminate]. destruct (style_diff_tokens st); [|discriminate].
    destruct (gen_pieces np names ps g1) as [[g2 ss2]|] eqn:E; [|discriminate].
    intros [= <- <-] Hi. destruct (IH _ _ E Hi) as [H1 [l H2]].
    assert (X : match pl with PosArg i => i < np | NamedArg i => i < nn
                | ImplicitArg i => i < length imps end /\ exists l, imps = g_implicit g ++ l).
    { revert Ep. unfold gen_place. destruct arg as [[i|nm]|].
      - destruct (N.leb_spec (N.of_nat np) i); [discriminate|]. intros [= <- <-]. cbn in H2.
        split; [lia|eauto].
      - destruct (named_index names nm) as [j|] eqn:En.
        + intros [= <- <-]. cbn in H2. split; [|eauto].
          apply named_index_some in En as (b & a & -> & _ & ->). rewrite <- Hn, app_length. cbn. lia.
        + destruct (cannot_be_raw nm); [discriminate|]. intros [= <- <-]. cbn in H2. subst imps.
          rewrite !app_length. cbn. split; [lia|]. rewrite <- app_assoc. eauto.
      - destruct (Nat.ltb_spec (g_next g) np); [|discriminate]. intros [= <- <-]. cbn in H2.
        split; [lia|eauto]. }
    destruct X as [X1 X2]. split; [|exact X2]. constructor; [|exact H1]. destruct pl; exact X1.
Qed.

Theorem C47_in_range {E} (s : str) (pos : list E) (named : list (str * E)) (c : code E) :
  macro s pos named = Expanded c ->
  Forall (in_range c) (c_stmts c) /\ c_positional c = pos /\ c_named c = map snd named.
Proof.
  intros Hm. apply (macro_inv _ _ Hx) in Hm as (ps & _ & _ & Hm). unfold generate in Hm.
  destruct (gen_pieces (length pos) (map fst named) ps gen_init) as [[g ss]|] eqn:E1; [|discriminate].
  destruct (all_used (length pos) (map fst named) g); [|discriminate]. injection Hm as <-.
  cbn [c_stmts c_positional c_named]. split; [|auto].
  assert (L : length (map fst named) = length (map snd named)) by now rewrite !map_length.
  assert (I0 : exists l, g_implicit g = g_implicit g ++ l) by (exists []; now rewrite app_nil_r).
  destruct (gen_in_range _ _ _ _ _ _ _ (g_implicit g) L E1 I0) as [H1 _].
  revert H1. apply Forall_impl. intros [t|w [i|i|i] fa st]; cbn; auto.
Qed.

(** C47: so formatting panics only if one of the values does. *)
Theorem C47_never_panics {H} (s : str) (pos : list (expr H)) (named : list (str * expr H))
  (c : code (expr H)) (scope : str -> value_t) (h h' : H) (args : arguments) :
  macro s pos named = Expanded c -> eval_code scope c h = (h', Some args) ->
  (forall e, In e (pos ++ map snd named) -> gives e value_never_aborts) ->
  (forall x, value_never_aborts (scope x)) ->
  forall f, never_aborts (args f).
Proof.
  intros Hm He Hv Hs f. pose proof Hm as Hm'. apply (macro_inv _ _ Hx) in Hm' as (ps & Hp & _ & _).
  destruct (C46_resolution s ps pos named c scope h h' args Hp Hm He) as (pv & nv & Hev & L1 & L2 & Hf).
  destruct (Hf f) as (parts & Hme & ->). apply never_aborts_sequence.
  assert (HA : Forall value_never_aborts (pv ++ nv)) by now apply (evaluated_gives _ _ _ _ _ Hev).
  rewrite Forall_forall in HA.
  eapply (means_all _ _ _ never_aborts); [| |exact Hme].
  - intros t. cbn. intros [|]; exact I.
  - intros v Hin t g. rewrite combine_snd in Hin by now rewrite map_length.
    assert (value_never_aborts v) as Hn.
    { destruct Hin as [I|[I|[x ->]]]; [apply HA, in_or_app; auto|apply HA, in_or_app; auto|apply Hs]. }
    apply Hn.
Qed.

(** * C05: styles are scoped to placeholders *)

(** C05: on a sink that accepts every write, Arguments that return Ok show exactly what [shows]
    says: literals in the formatter's style [S], the argument of each placeholder in [S] with
    that placeholder's attributes replaced, in order. *)
Theorem C05_scoped {H} (s : str) (ps : list piece) (pos : list (expr H))
  (named : list (str * expr H)) (c : code (expr H)) (scope : str -> value_t) (h h' : H)
  (args : arguments) :
  format_string ps s -> macro s pos named = Expanded c -> eval_code scope c h = (h', Some args) ->
  exists pv nv, evaluated (pos ++ map snd named) h h' (pv ++ nv) /\ length pv = length pos /\
    forall f, ok_outcome (args f) = Returned Ok ->
      shows pv (combine (map fst named) nv) scope (fm_style f) 0 ps (produces (args f)).
Proof.
  intros Hp Hm He.
  destruct (C46_resolution s ps pos named c scope h h' args Hp Hm He) as (pv & nv & Hev & L1 & L2 & Hf).
  exists pv, nv. split; [exact Hev|]. split; [exact L1|]. intros f Hok.
  destruct (Hf f) as (parts & Hme & E). rewrite E in *. pose proof (in_sequence_ok_inv parts Hok) as HF.
  destruct (in_sequence_ok parts HF) as [_ ->]. now apply means_shows.
Qed.

(** C05: it returns Ok when the values do. *)
Theorem C05_returns_ok {H} (s : str) (pos : list (expr H)) (named : list (str * expr H))
  (c : code (expr H)) (scope : str -> value_t) (h h' : H) (args : arguments) :
  macro s pos named = Expanded c -> eval_code scope c h = (h', Some args) ->
  (forall e, In e (pos ++ map snd named) -> gives e returns_ok) ->
  (forall x, returns_ok (scope x)) ->
  forall f, ok_outcome (args f) = Returned Ok.
Proof.
  intros Hm He Hv Hs f. pose proof Hm as Hm'. apply (macro_inv _ _ Hx) in Hm' as (ps & Hp & _ & _).
  destruct (C46_resolution s ps pos named c scope h h' args Hp Hm He) as (pv & nv & Hev & L1 & L2 & Hf).
  destruct (Hf f) as (parts & Hme & ->). apply in_sequence_ok.
  assert (HA : Forall returns_ok (pv ++ nv)) by now apply (evaluated_gives _ _ _ _ _ Hev).
  rewrite Forall_forall in HA.
  eapply (means_all _ _ _ (fun p => ok_outcome p = Returned Ok)); [| |exact Hme].
  - intros t. reflexivity.
  - intros v Hin t g. rewrite combine_snd in Hin by now rewrite map_length.
    assert (returns_ok v) as Hn.
    { destruct Hin as [I|[I|[x ->]]]; [apply HA, in_or_app; auto|apply HA, in_or_app; auto|apply Hs]. }
    apply Hn.
Qed.

(** C05: nested Arguments compose, outer first and inner last.  [v] is a value whose stylish
    trait is the inner Arguments; the outer format string is one placeholder of type [s] with
    attributes [d]; a literal of the inner one is then shown in [override d S], and an argument
    of the inner one with attributes [d'] in [override d' (override d S)]. *)
Theorem C05_nested {H1 H2} (s1 s2 : str) (a : format_arg) (ps : list piece)
  (pos2 : list (expr H2)) (named2 : list (str * expr H2)) (c1 : code (expr H1))
  (c2 : code (expr H2)) (scope1 scope2 : str -> value_t) (h1 h1' : H1) (h2 h2' : H2)
  (inner outer : arguments) (v : value_t) (f : formatter) :
  format_string ps s2 -> macro s2 pos2 named2 = Expanded c2 ->
  eval_code scope2 c2 h2 = (h2', Some inner) ->
  format_string [Arg a] s1 -> fa_arg a = None -> fs_trait (fa_spec a) = FStylish ->
  macro s1 [fun h => (h, Some v)] [] = Expanded c1 -> eval_code scope1 c1 h1 = (h1', Some outer) ->
  v_stylish v = Display_Arguments inner -> ok_outcome (outer f) = Returned Ok ->
  exists pv nv, evaluated (pos2 ++ map snd named2) h2 h2' (pv ++ nv) /\
    shows pv (combine (map fst named2) nv) scope2
      (override (fs_style (fa_spec a)) (fm_style f)) 0 ps (produces (outer f)).
Proof.
  intros Hp2 Hm2 He2 Hp1 Ha Ht Hm1 He1 Hv Hok.
  destruct (C05_scoped s2 ps pos2 named2 c2 scope2 h2 h2' inner Hp2 Hm2 He2) as (pv & nv & Hev & L & Hs).
  exists pv, nv. split; [exact Hev|].
  destruct (C46_resolution s1 [Arg a] _ [] c1 scope1 h1 h1' outer Hp1 Hm1 He1)
    as (pv1 & nv1 & Hev1 & L1 & L2 & Hf).
  destruct nv1; [|discriminate]. inversion Hev1 as [|e es h0 h3 h4 v0 vs E1 Hev1' Ee Eh Eh' Evs].
  inversion Hev1'; subst. rewrite app_nil_r in Evs. subst pv1. injection E1 as <- <-.
  destruct (Hf f) as (parts & Hme & E).
  inversion Hme as [|n2 t2 ps2 parts2 Hm2' |n2 a2 v2 ps2 parts2 Hu2 Hme2]; subst.
  inversion Hme2; subst. rewrite Ha in Hu2. inversion Hu2 as [v2' Hn | | | ]; subst.
  cbn in Hn. injection Hn as <-. rewrite Ht in E. cbn [trait_code] in E. rewrite Hv in E.
  unfold Display_Arguments in E. rewrite E in *. cbn [in_sequence] in *.
  pose proof Hok as Hok'. rewrite (same_outcome _ _ (try_ok _)) in Hok'.
  unfold produces at 1. rewrite (same_events _ _ (try_ok _)). apply (Hs _ Hok').
Qed.

(** * C06: flags are scoped to placeholders *)

(** C06: generated code ignores the flags of the formatter it is given ... *)
Theorem C06_outer_flags {H} (s : str) (pos : list (expr H)) (named : list (str * expr H))
  (c : code (expr H)) (scope : str -> value_t) (h h' : H) (args : arguments) (st : style)
  (flags1 flags2 : formatter_args) :
  macro s pos named = Expanded c -> eval_code scope c h = (h', Some args) ->
  args (mk_formatter st flags1) = args (mk_formatter st flags2).
Proof.
  intros _ He. unfold eval_code in He. destruct (eval_tuple (c_positional c) h) as [h1 [p|]]; [|discriminate].
  destruct (eval_tuple (c_named c) h1) as [h2 [n|]]; [|discriminate]. injection He as _ <-. apply exec_flags.
Qed.

(** C06: ... and every argument is formatted with exactly the flags its placeholder spells (the
    parts are calls of the selected trait with a formatter carrying [spelled_flags]). *)
Theorem C06_spelled_flags {H} (s : str) (ps : list piece) (pos : list (expr H))
  (named : list (str * expr H)) (c : code (expr H)) (scope : str -> value_t) (h h' : H)
  (args : arguments) (f : formatter) :
  format_string ps s -> macro s pos named = Expanded c -> eval_code scope c h = (h', Some args) ->
  exists parts, args f = in_sequence parts /\
    Forall2 (fun p part => match p with
      | Lit t => part = formatter_write_str f t
      | Arg a => exists v st, part = trait_code (fs_trait (fa_spec a)) v
                   (mk_formatter st (spelled_flags (fs_args (fa_spec a))))
      end) ps parts.
Proof.
  intros Hp Hm He.
  destruct (C46_resolution s ps pos named c scope h h' args Hp Hm He) as (pv & nv & _ & _ & _ & Hf).
  destruct (Hf f) as (parts & Hme & E). exists parts. split; [exact E|]. clear - Hme.
  induction Hme; constructor; eauto.
Qed.

(** C06: [Formatter::with] keeps the flags. *)
Theorem C06_with_keeps {T} (d : Restyle T) (f : formatter) (r : T) :
  fm_format (formatter_with d f r) = fm_format f.
Proof. reflexivity. Qed.

(** * C26: generated code propagates errors *)
Theorem C26_generated_propagates {H} (s : str) (pos : list (expr H)) (named : list (str * expr H))
  (c : code (expr H)) (scope : str -> value_t) (h h' : H) (args : arguments) :
  macro s pos named = Expanded c -> eval_code scope c h = (h', Some args) ->
  (forall e, In e (pos ++ map snd named) -> gives e value_propagates) ->
  (forall x, value_propagates (scope x)) ->
  forall f, propagates (args f).
Proof.
  intros Hm He Hv Hs f. pose proof Hm as Hm'. apply (macro_inv _ _ Hx) in Hm' as (ps & Hp & _ & _).
  destruct (C46_resolution s ps pos named c scope h h' args Hp Hm He) as (pv & nv & Hev & L1 & L2 & Hf).
  destruct (Hf f) as (parts & Hme & ->). apply propagates_sequence.
  assert (HA : Forall value_propagates (pv ++ nv)) by now apply (evaluated_gives _ _ _ _ _ Hev).
  rewrite Forall_forall in HA.
  eapply (means_all _ _ _ propagates); [| |exact Hme].
  - intros t. apply propagates_write_str.
  - intros v Hin t g. rewrite combine_snd in Hin by now rewrite map_length.
    assert (value_propagates v) as Hn.
    { destruct Hin as [I|[I|[x ->]]]; [apply HA, in_or_app; auto|apply HA, in_or_app; auto|apply Hs]. }
    apply Hn.
Qed.

(** * C42: escaped text prints itself *)
Theorem C42_escaped_text {H} (text : str) :
  exists c : code (expr H), macro (double_braces text) [] [] = Expanded c /\
    forall scope h, exists args, eval_code scope c h = (h, Some args) /\
      forall f, ok_outcome (args f) = Returned Ok /\
                produces (args f) = paint (fm_style f) text.
Proof.
  destruct (double_braces_spelled xid_start xid_continue text) as (ps & Hs & Hl & Ht).
  destruct (proj2 (macro_iff _ _ Hx (double_braces text) (@nil (expr H)) [])) as [c Hc].
  { exists ps. split; [exact Hs|]. now apply lits_accepted. }
  exists c. split; [exact Hc|]. intros scope h.
  destruct (eval_pure _ _ _ c scope h Hc) as [args He]; [intros e []|].
  destruct (C46_resolution _ ps [] [] c scope h h args Hs Hc He) as (pv & nv & Hev & L1 & L2 & Hf).
  cbn in Hev. inversion Hev; subst. exists args. split; [exact He|]. intros f.
  destruct (Hf f) as (parts & Hme & ->). eapply lits_mean; eassumption.
Qed.

(** * C49: writeln! *)
Theorem C49_same_accepted {E} (s : str) (pos : list E) (named : list (str * E)) :
  (exists c, macro_nl s pos named = Expanded c) <-> (exists c, macro s pos named = Expanded c).
Proof.
  unfold format_args_nl. split; intros [c Hc]; apply (macro_inv _ _ Hx) in Hc as (ps & Hp & Hg & Hc).
  - destruct (newline_inv _ _ false ps _ Hp s eq_refl) as (ps0 & Hp0 & Hext).
    rewrite (macro_of _ _ Hx s ps0 pos named Hp0). unfold generate in *.
    pose proof (gen_ext (length pos) (map fst named) _ _ Hext gen_init) as G. revert G Hc.
    destruct (gen_pieces (length pos) (map fst named) ps gen_init) as [[g1 ss1]|]; [|discriminate].
    destruct (gen_pieces (length pos) (map fst named) ps0 gen_init) as [[g2 ss2]|]; [|tauto].
    intros [-> _]. destruct (all_used (length pos) (map fst named) g1); [eauto|discriminate].
  - destruct (newline_fwd _ _ false ps s Hp ltac:(discriminate)) as (ps1 & Hp1 & Hext).
    rewrite (macro_of _ _ Hx _ ps1 pos named Hp1). unfold generate in *.
    pose proof (gen_ext (length pos) (map fst named) _ _ Hext gen_init) as G. revert G Hc.
    destruct (gen_pieces (length pos) (map fst named) ps gen_init) as [[g1 ss1]|]; [|discriminate].
    destruct (gen_pieces (length pos) (map fst named) ps1 gen_init) as [[g2 ss2]|]; [|tauto].
    intros [-> _]. destruct (all_used (length pos) (map fst named) g2); [eauto|discriminate].
Qed.

Theorem C49_newline {H} (s : str) (pos : list (expr H)) (named : list (str * expr H))
  (c c_nl : code (expr H)) (scope : str -> value_t) (h : H) :
  macro s pos named = Expanded c -> macro_nl s pos named = Expanded c_nl ->
  match eval_code scope c h, eval_code scope c_nl h with
  | (h1, Some args), (h2, Some args_nl) => h1 = h2 /\
      forall f, ok_outcome (args_nl f) = ok_outcome (args f) /\
        produces (args_nl f) =
        produces (args f) ++
        match ok_outcome (args f) with Returned Ok => paint (fm_style f) [10%N] | _ => [] end
  | (h1, None), (h2, None) => h1 = h2
  | _, _ => False
  end.
Proof.
  unfold format_args_nl. intros Hc Hn.
  apply (macro_inv _ _ Hx) in Hc as (ps & Hp & Hg & Hc).
  destruct (newline_fwd _ _ false ps s Hp ltac:(discriminate)) as (ps1 & Hp1 & Hext).
  rewrite (macro_of _ _ Hx _ ps1 pos named Hp1) in Hn. unfold generate in *.
  pose proof (gen_ext (length pos) (map fst named) _ _ Hext gen_init) as G. revert G Hc Hn.
  destruct (gen_pieces (length pos) (map fst named) ps gen_init) as [[g1 ss1]|]; [|discriminate].
  destruct (gen_pieces (length pos) (map fst named) ps1 gen_init) as [[g2 ss2]|]; [|tauto].
  intros [-> Hs]. destruct (all_used (length pos) (map fst named) g2); [|discriminate].
  intros [= <-] [= <-]. unfold eval_code. cbn [c_positional c_named c_implicit c_stmts].
  destruct (eval_tuple pos h) as [h3 [p|]]; [|reflexivity].
  destruct (eval_tuple (map snd named) h3) as [h4 [n|]]; [|reflexivity].
  split; [reflexivity|]. intros f. now apply exec_ext.
Qed.

(** * C45: attributes *)

(** C45 (partial): a placeholder with the attribute list [l] formats its argument in the style
    [override (kept_settings l) S]; this is the documented result of setting the attributes in
    order exactly when [l] does not end up setting an attribute to its default value while the
    outer style has another. *)
Theorem C45_attributes_partial {H} (l : list attribute) (inside : str) (v : value_t)
  (c : code (expr H)) (scope : str -> value_t) (h h' : H) (args : arguments) (f : formatter) :
  attrs_spelled l inside ->
  macro (lit "{:(" ++ inside ++ lit ")}") [fun h => (h, Some v)] [] = Expanded c ->
  eval_code scope c h = (h', Some args) ->
  exists st, args f = try_ (trait_code FDisplay v (mk_formatter st fargs_default)) (Ret Ok) /\
    (st = set_attributes l (fm_style f) <->
     (last_fg l = Some ColorDefault -> foreground (fm_style f) = ColorDefault) /\
     (last_bg l = Some ColorDefault -> background (fm_style f) = ColorDefault) /\
     (last_intensity l = Some Normal -> intens (fm_style f) = Normal)).
Proof.
  intros Hl Hm He. pose proof (attribute_string_spelled xid_start xid_continue l inside Hl) as Hp.
  destruct (C46_resolution _ _ _ _ c scope h h' args Hp Hm He) as (pv & nv & Hev & L1 & L2 & Hf).
  destruct nv; [|discriminate]. inversion Hev as [|e es h0 h3 h4 v0 vs E1 Hev' Ee Eh Eh' Evs].
  inversion Hev'; subst. rewrite app_nil_r in Evs. subst pv. injection E1 as <- <-.
  destruct (Hf f) as (parts & Hme & E).
  inversion Hme as [|n2 t2 ps2 parts2 Hm2' |n2 a2 v2 ps2 parts2 Hu2 Hme2]; subst.
  inversion Hme2; subst. inversion Hu2 as [v2' Hn | | | ]; subst. cbn in Hn. injection Hn as <-.
  exists (override (kept_settings l) (fm_style f)). split; [exact E|]. apply override_kept.
Qed.

(** C45 (refuted in full): [fg=default], [bg=default] and [normal] have no effect: the argument
    keeps the outer style. *)
Theorem C45_default_refuted {H} (inside : str) (v : value_t)
  (c : code (expr H)) (scope : str -> value_t) (h h' : H) (args : arguments) (f : formatter) :
  In inside [lit "fg=default"; lit "bg=default"; lit "normal"] ->
  macro (lit "{:(" ++ inside ++ lit ")}") [fun h => (h, Some v)] [] = Expanded c ->
  eval_code scope c h = (h', Some args) ->
  args f = try_ (trait_code FDisplay v (mk_formatter (fm_style f) fargs_default)) (Ret Ok).
Proof.
  intros Hin Hm He.
  assert (Hl : exists l, attrs_spelled l inside /\ kept_settings l = mk_diff None None None).
  { cbn in Hin. destruct Hin as [<-|[<-|[<-|[]]]].
    - exists [AFg ColorDefault]. split; [|reflexivity]. constructor. apply (at_fg ColorDefault (lit "default")). constructor.
    - exists [ABg ColorDefault]. split; [|reflexivity]. constructor. apply (at_bg ColorDefault (lit "default")). constructor.
    - exists [AIntensity Normal]. split; [|reflexivity]. constructor. constructor. }
  destruct Hl as (l & Hl & K).
  pose proof (attribute_string_spelled xid_start xid_continue l inside Hl) as Hp.
  destruct (C46_resolution _ _ _ _ c scope h h' args Hp Hm He) as (pv & nv & Hev & L1 & L2 & Hf).
  destruct nv; [|discriminate]. inversion Hev as [|e es h0 h3 h4 v0 vs E1 Hev' Ee Eh Eh' Evs].
  inversion Hev'; subst. rewrite app_nil_r in Evs. subst pv. injection E1 as <- <-.
  destruct (Hf f) as (parts & Hme & E).
  inversion Hme as [|n2 t2 ps2 parts2 Hm2' |n2 a2 v2 ps2 parts2 Hu2 Hme2]; subst.
  inversion Hme2; subst. inversion Hu2 as [v2' Hn | | | ]; subst. cbn in Hn. injection Hn as <-.
  rewrite E. cbn [in_sequence attribute_piece fa_spec fs_style fs_trait fs_args]. rewrite K.
  destruct (fm_style f); reflexivity.
Qed.

(** * C52: duplicate names *)

(** C52 (refuted): giving a name twice is accepted whenever giving it once is (anywhere after
    the first mention), and the later argument is the one used. *)
Theorem C52_duplicates_refuted {H} (s : str) (pos : list (expr H))
  (before middle after : list (str * expr H)) (name : str) (e1 e2 : expr H) (c : code (expr H)) :
  macro s pos (before ++ (name, e1) :: middle ++ after) = Expanded c ->
  exists c', macro s pos (before ++ (name, e1) :: middle ++ (name, e2) :: after) = Expanded c'.
Proof.
  intros Hm. assert (X : exists c, macro s pos (before ++ (name, e1) :: middle ++ after) = Expanded c) by eauto.
  apply (macro_iff _ _ Hx) in X as (ps & Hp & [A1 A2 A3 A4 A5 A6]). apply (macro_iff _ _ Hx).
  exists ps. split; [exact Hp|]. constructor; auto.
  - intros n I. apply A3 in I as [I|I]; [left|right; exact I].
    revert I. rewrite !map_app. cbn. rewrite !map_app, !in_app_iff. cbn. rewrite !in_app_iff. cbn. tauto.
  - intros n I. apply A5. revert I. rewrite !map_app. cbn. rewrite !map_app, !in_app_iff. cbn.
    rewrite !in_app_iff. cbn. intuition.
Qed.

Lemma evaluated_det {H} (es : list (expr H)) h h1 h2 vs ws :
  evaluated es h h1 vs -> evaluated es h h2 ws -> h1 = h2 /\ vs = ws.
Proof.
  intros X. revert h2 ws. induction X as [h|e es h h1 h1' v vs E X IH]; intros h2 ws Y;
    inversion Y as [|e' es' x x1 x2 w ws' E' Y' Q1 Q2 Q3 Q4]; subst; [auto|].
  rewrite E in E'. injection E' as <- <-. destruct (IH _ _ Y') as [-> ->]. auto.
Qed.

Lemma evaluated_drop {H} (a b : list (expr H)) k h h' vs :
  (forall x, exists v, k x = (x, Some v)) -> evaluated (a ++ k :: b) h h' vs ->
  exists va v vb, vs = va ++ v :: vb /\ length va = length a /\ evaluated (a ++ b) h h' (va ++ vb).
Proof.
  intros Hk. revert h vs. induction a as [|e a IH]; intros h vs X; cbn [app] in X;
    inversion X as [|e' es' x x1 x2 w ws' E' Y' Q1 Q2 Q3 Q4]; subst.
  - destruct (Hk h) as [v Hv]. rewrite E' in Hv. injection Hv as -> ->.
    exists [], v, ws'. repeat split. exact Y'.
  - destruct (IH _ _ Y') as (va & v & vb & -> & L & Y). exists (w :: va), v, vb.
    split; [reflexivity|]. split; [cbn; now rewrite L|]. cbn. econstructor; eauto.
Qed.

Lemma combine_split {A B} (l1 l2 : list A) (m1 m2 : list B) :
  length l1 = length m1 -> combine (l1 ++ l2) (m1 ++ m2) = combine l1 m1 ++ combine l2 m2.
Proof.
  revert m1; induction l1 as [|x l1 IH]; intros [|y m1] L; try discriminate; cbn; auto.
  now rewrite IH by (cbn in L; congruence).
Qed.

Lemma uses_drop pos L R name v1 scope n a v :
  In name (map fst R) -> uses pos (L ++ (name, v1) :: R) scope n a v -> uses pos (L ++ R) scope n a v.
Proof.
  intros Hin [w E|i w E|nm w before after E Ha|nm Hn].
  - now constructor.
  - now constructor.
  - assert (D : (exists A, L = before ++ (nm, w) :: A /\ after = A ++ (name, v1) :: R) \/
                (before = L /\ (nm, w) = (name, v1) /\ after = R) \/
                (exists B, R = B ++ (nm, w) :: after)).
    { clear - E. revert before E. induction L as [|y L IH]; intros [|z before] E; cbn in E.
      - injection E as -> -> ->. auto.
      - injection E as <- ->. right. right. eauto.
      - injection E as -> <-. left. exists L. auto.
      - injection E as <- E. destruct (IH _ E) as [(A & -> & ->)|[(-> & -> & ->)|(B & ->)]].
        + left. exists A. auto.
        + right. left. auto.
        + right. right. eauto. }
    destruct D as [(A & -> & ->)|[(-> & [= -> ->] & ->)|(B & ->)]].
    + apply (use_named _ _ _ _ _ _ before (A ++ R)); [now rewrite <- app_assoc|].
      rewrite map_app, in_app_iff in *. cbn in Ha. tauto.
    + contradiction.
    + apply (use_named _ _ _ _ _ _ (L ++ B) after); [now rewrite <- app_assoc|exact Ha].
  - constructor. rewrite map_app, in_app_iff in *. cbn in Hn. tauto.
Qed.

Lemma means_drop pos L R name v1 scope f n ps parts :
  In name (map fst R) -> means pos (L ++ (name, v1) :: R) scope f n ps parts ->
  means pos (L ++ R) scope f n ps parts.
Proof.
  intros Hin. induction 1 as [n|n s ps parts Hm IH|n a v ps parts Hu Hm IH].
  - constructor.
  - now constructor.
  - apply me_arg; [|exact IH]. now apply (uses_drop _ _ _ _ _ _ _ _ _ Hin) in Hu.
Qed.

(** C52: what happens instead: of arguments with one name the last counts.  A call with an
    argument whose name is given again later is accepted exactly when the call without it is;
    if evaluating it has no effect, nothing at all is different. *)
Theorem C52_last_counts {H} (s : str) (pos : list (expr H))
  (before after : list (str * expr H)) (name : str) (e1 : expr H) :
  In name (map fst after) ->
  ((exists c, macro s pos (before ++ (name, e1) :: after) = Expanded c) <->
   (exists c, macro s pos (before ++ after) = Expanded c)) /\
  forall c c' scope h h1 h2 args args',
    (forall x, exists v, e1 x = (x, Some v)) ->
    macro s pos (before ++ (name, e1) :: after) = Expanded c ->
    macro s pos (before ++ after) = Expanded c' ->
    eval_code scope c h = (h1, Some args) -> eval_code scope c' h = (h2, Some args') ->
    h1 = h2 /\ forall f, args f = args' f.
Proof.
  intros Hin. split.
  - rewrite !(macro_iff _ _ Hx).
    assert (N : forall n, In n (map fst (before ++ (name, e1) :: after)) <-> In n (map fst (before ++ after))).
    { intros n. rewrite !map_app, !in_app_iff. cbn. split; [intros [I|[<-|I]]|intros [I|I]]; auto. }
    split; intros (ps & Hp & [A1 A2 A3 A4 A5 A6]); exists ps; (split; [exact Hp|]); constructor; auto.
    + intros n I. apply A3 in I as [I|I]; [left; now apply N|now right].
    + intros n I. apply A5. now apply N.
    + intros n I. apply A3 in I as [I|I]; [left; now apply N|now right].
    + intros n I. apply A5. now apply N.
  - intros c c' scope h h1 h2 args args' Hk Hm Hm' He He'.
    pose proof Hm as Q. apply (macro_inv _ _ Hx) in Q as (ps & Hp & _ & _).
    destruct (C46_resolution _ _ _ _ _ _ _ _ _ Hp Hm He) as (pv & nv & Hev & L1 & L2 & Hf).
    destruct (C46_resolution _ _ _ _ _ _ _ _ _ Hp Hm' He') as (pv' & nv' & Hev' & L1' & L2' & Hf').
    rewrite map_app in Hev, Hev'. cbn [map snd] in Hev. rewrite app_assoc in Hev, Hev'.
    destruct (evaluated_drop _ _ _ _ _ _ Hk Hev) as (va & v & vb & Evs & Lva & Hd).
    destruct (evaluated_det _ _ _ _ _ _ Hd Hev') as [-> Evs']. split; [reflexivity|].
    rewrite app_length, map_length in Lva. rewrite app_length in L2, L2'. cbn [length] in L2.
    assert (Sv : exists nb, va = pv ++ nb /\ nv = nb ++ v :: vb /\ length nb = length before).
    { exists (skipn (length pv) va).
      assert (F : firstn (length pv) va = pv).
      { apply (f_equal (firstn (length pv))) in Evs. rewrite !firstn_app in Evs.
        rewrite firstn_all, Nat.sub_diag, firstn_O, app_nil_r in Evs.
        replace (length pv - length va) with 0 in Evs by lia. now rewrite firstn_O, app_nil_r in Evs. }
      split; [rewrite <- F at 1; now rewrite firstn_skipn|].
      split; [|rewrite skipn_length; lia].
      apply (f_equal (skipn (length pv))) in Evs. rewrite !skipn_app in Evs.
      rewrite skipn_all, Nat.sub_diag, skipn_O in Evs.
      replace (length pv - length va) with 0 in Evs by lia. exact Evs. }
    destruct Sv as (nb & -> & -> & Lnb).
    rewrite <- app_assoc in Evs'.
    assert (pv' = pv /\ nv' = nb ++ vb) as [-> ->].
    { clear - Evs' L1 L1'. assert (L : length pv = length pv') by congruence. clear L1 L1'.
      revert pv' L Evs'. induction pv as [|x pv IH]; intros [|y pv'] L E; try discriminate; auto.
      cbn in E. injection E as <- E. destruct (IH pv') as [-> ->]; auto. }
    intros f. destruct (Hf f) as (parts & Hme & ->). destruct (Hf' f) as (parts' & Hme' & ->). f_equal.
    rewrite map_app in Hme, Hme'. cbn [map fst] in Hme.
    rewrite combine_split in Hme, Hme' by now rewrite map_length.
    cbn [combine] in Hme. rewrite app_length in L2. cbn [length] in L2.
    assert (HR : In name (map fst (combine (map fst after) vb))).
    { rewrite combine_fst; [exact Hin|]. rewrite map_length. lia. }
    exact (means_det _ _ _ _ _ _ _ _ (means_drop _ _ _ _ _ _ _ _ _ _ HR Hme) Hme').
Qed.

(** * C25: conversions *)
Lemma s_string_spelled :
  format_string [Arg (mk_farg None (mk_spec (mk_pfargs None None false false None None None)
                   (mk_diff None None None) FStylish))] (lit "{:s}").
Proof.
  change (lit "{:s}") with (lit "{" ++ ([] ++ (lit ":" ++ lit "s")) ++ lit "}" ++ []).
  eapply sp_arg with (empty := false); [|discriminate|constructor].
  apply ph_intro; [left; split; reflexivity|]. right. exists (lit "s").
  split; [|split; reflexivity].
  apply (spec_intro xid_start xid_continue None None false false None None None
    (mk_diff None None None) FStylish [] [] [] [] [] [] [] (lit "s")); try constructor; discriminate.
Qed.

Lemma s_args_spec v :
  exists args, s_args xid_start xid_continue v = Some args /\
    forall f, args f = try_ (v_stylish v (mk_formatter (fm_style f) fargs_default)) (Ret Ok).
Proof.
  unfold s_args. rewrite (macro_of _ _ Hx _ _ _ _ s_string_spelled). cbn.
  eexists. split; [reflexivity|]. intros f. unfold exec_stmts, place_value. cbn [nth_error t_positional].
  destruct f as [[a b i] fl]. reflexivity.
Qed.
Lemma formats_same args args' :
  same_prog (args formatter_new) (args' formatter_new) ->
  stylish_format args = stylish_format args' /\ plain_format args = plain_format args' /\
  ansi_format args = ansi_format args' /\ html_format args = html_format args'.
Proof.
  intros Hs. rewrite !stylish_format_spec, !plain_format_spec, !ansi_format_spec, !html_format_spec.
  unfold produces. rewrite (same_outcome _ _ Hs), (same_events _ _ Hs). auto.
Qed.

(** C25: converting a value is formatting it directly with a fresh formatter. *)
Theorem C25_to_string (v : value_t) :
  to_stylish_string xid_start xid_continue v = Some (stylish_format (v_stylish v)) /\
  to_plain_string xid_start xid_continue v = Some (plain_format (v_stylish v)) /\
  to_ansi_string xid_start xid_continue v = Some (ansi_format (v_stylish v)) /\
  to_html_string xid_start xid_continue v = Some (html_format (v_stylish v)).
Proof.
  unfold to_stylish_string, to_plain_string, to_ansi_string, to_html_string.
  destruct (s_args_spec v) as (args & -> & E). cbn [option_map].
  destruct (formats_same args (v_stylish v)) as (-> & -> & -> & ->); auto.
  rewrite E. apply try_ok.
Qed.

(** C25: going through a stylish::String changes nothing: rendering the string in any backend
    gives what rendering the value gives. *)
Theorem C25_through_string (v : value_t) (w : sstring) :
  to_stylish_string xid_start xid_continue v = Some (Value w) ->
  plain_format (Display_sstring w) = plain_format (v_stylish v) /\
  ansi_format (Display_sstring w) = ansi_format (v_stylish v) /\
  html_format (Display_sstring w) = html_format (v_stylish v) /\
  stylish_format (Display_sstring w) = Value w.
Proof.
  rewrite (proj1 (C25_to_string v)). intros [= Ew]. revert Ew. rewrite stylish_format_spec.
  destruct (ok_outcome (v_stylish v formatter_new)) as [[|]|c] eqn:Eo; try discriminate.
  intros [= <-]. set (rs := push_all [] (ok_events (v_stylish v formatter_new))).
  pose proof (display_runs rs formatter_new) as Hd.
  assert (Ho : ok_outcome (Display_sstring (ss_of_runs rs) formatter_new) = Returned Ok).
  { rewrite (same_outcome _ _ Hd). apply emit_runs_outcome. }
  assert (Hp : produces (Display_sstring (ss_of_runs rs) formatter_new) = produces (v_stylish v formatter_new)).
  { unfold produces. rewrite (same_events _ _ Hd), emit_runs_events. apply push_all_denote. }
  rewrite !plain_format_spec, !ansi_format_spec, !html_format_spec, stylish_format_spec, Ho, Hp, Eo.
  repeat split. rewrite (same_events _ _ Hd), emit_runs_events.
  rewrite (push_all_runs [] rs); [reflexivity|]. apply alternating_push_all. exact I.
Qed.
End Xid.
Print Assumptions C46_resolution.
Print Assumptions C46_deterministic.
Print Assumptions C48_evaluated_once.
Print Assumptions C47_accepted.
Print Assumptions C47_in_range.
Print Assumptions C47_never_panics.
Print Assumptions C05_scoped.
Print Assumptions C05_returns_ok.
Print Assumptions C05_nested.
Print Assumptions C06_outer_flags.
Print Assumptions C06_spelled_flags.
Print Assumptions C06_with_keeps.
Print Assumptions C26_generated_propagates.
Print Assumptions C42_escaped_text.
Print Assumptions C49_same_accepted.
Print Assumptions C49_newline.
Print Assumptions C45_attributes_partial.
Print Assumptions C45_default_refuted.
Print Assumptions C52_duplicates_refuted.
Print Assumptions C52_last_counts.
Print Assumptions C25_to_string.
Print Assumptions C25_through_string.

(** * Concrete cases *)

(** A value that prints the same text under every trait; an argument expression that logs its
    number when evaluated. *)
Definition text_value (s : str) : value_t :=
  mk_value (fun _ _ => SEmit s SRet) (fun f => formatter_write_str f s).
Definition logging (n : nat) (v : value_t) : expr (list nat) := fun h => (h ++ [n], Some v).
Definition no_scope : str -> value_t := fun n => text_value (lit "var " ++ n).
(** Expand, evaluate, and return the Arguments with the evaluation log. *)
Definition call (nl : bool) (s : str) (pos : list (expr (list nat)))
  (named : list (str * expr (list nat))) : option (list nat * arguments) :=
  match (if nl then format_args_nl else format_args_impl) ascii_start ascii_continue
          (list nat -> list nat * option value_t)%type s pos named with
  | Expanded c => match eval_code no_scope c [] with (h, Some args) => Some (h, args) | _ => None end
  | CompileError => None
  end.

Example text_value_ok s : returns_ok (text_value s) /\ value_propagates (text_value s) /\
  value_never_aborts (text_value s).
Proof.
  split; [|split]; intros t f; destruct t; cbn; auto; intros []; cbn; auto.
Qed.

(** C46, C48, C05: bare, indexed, named and captured arguments; attributes end with their
    placeholder. *)
Example C46_nonvacuous :
  exists args,
  call false (lit "{}-{0:(fg=red)}-{}-{x:(bold)}-{y}")
    [logging 0 (text_value (lit "A")); logging 1 (text_value (lit "B"))]
    [(lit "x", logging 2 (text_value (lit "C")))] = Some ([0; 1; 2], args) /\
  plain_format args = Value (lit "A-A-B-C-var y") /\
  html_format args = Value (lit "A-<span style=color:red>A</span>-B-<span style=font-weight:bolder>C</span>-var y").
Proof. eexists. split; [vm_compute; reflexivity|]. split; vm_compute; reflexivity. Qed.

(** C47: a missing argument, an unused argument, an out of range index, a keyword. *)
Example C47_nonvacuous :
  let v := logging 0 (text_value []) in
  call false (lit "{}{}") [v] [] = None /\ call false (lit "a") [v] [] = None /\
  call false (lit "{1}") [v] [] = None /\ call false (lit "{self}") [] [] = None /\
  call false (lit "{x}") [] [(lit "x", v); (lit "y", v)] = None /\
  call false (lit "{0}{}") [v] [] <> None.
Proof. cbn zeta. repeat split; vm_compute; try reflexivity. discriminate. Qed.

(** C05: nesting. *)
Example C05_nested_nonvacuous :
  match call false (lit "a{:(bg=blue)}c") [logging 0 (text_value (lit "b"))] [] with
  | Some (_, inner) =>
      match call false (lit "<{:(fg=red)s}>")
              [logging 1 (mk_value (fun _ _ => SRet Ok) (Display_Arguments inner))] [] with
      | Some (_, outer) => produces (outer formatter_new)
      | None => []
      end
  | None => []
  end
  = paint style_default (lit "<") ++ paint (mk_style Red ColorDefault Normal) (lit "a")
    ++ paint (mk_style Red Blue Normal) (lit "b")
    ++ paint (mk_style Red ColorDefault Normal) (lit "c") ++ paint style_default (lit ">").
Proof. vm_compute. reflexivity. Qed.

(** C06: a value that prints the width it sees; the inner placeholder does not see the outer
    width. *)
Example C06_nonvacuous :
  let v := mk_value (fun _ fl => SEmit (match sf_width fl with Some n => [(48 + n)%N] | None => lit "-" end) SRet)
             (fun f => Ret Ok) in
  match call false (lit "{}{:3}") [logging 0 v; logging 1 v] [] with
  | Some (_, inner) =>
      match call false (lit "{:7s}")
              [logging 1 (mk_value (fun _ _ => SRet Ok) (Display_Arguments inner))] [] with
      | Some (_, outer) => plain_format outer
      | None => Crash Panic
      end
  | None => Crash Panic
  end = Value (lit "-3").
Proof. vm_compute. reflexivity. Qed.

Example C42_nonvacuous : double_braces (lit "a{0}b") = lit "a{{0}}b" /\
  match call false (double_braces (lit "a{0}b")) [] [] with
  | Some (_, args) => plain_format args | None => Crash Panic end = Value (lit "a{0}b").
Proof. split; vm_compute; reflexivity. Qed.

Example C49_nonvacuous :
  match call true (lit "a{:(fg=red)}") [logging 0 (text_value (lit "b"))] [] with
  | Some (_, args) => html_format args | None => Crash Panic end
  = Value (lit "a<span style=color:red>b</span>" ++ [10%N]).
Proof. vm_compute. reflexivity. Qed.

(** C45: under a red outer style, [fg=default] stays red and [fg=blue] is blue. *)
Example C45_nonvacuous :
  let red := mk_formatter (mk_style Red ColorDefault Bold) fargs_default in
  let show s := match call false s [logging 0 (text_value (lit "x"))] [] with
                | Some (_, args) => produces (args red) | None => [] end in
  show (lit "{:(fg=default,normal)}") = paint (mk_style Red ColorDefault Bold) (lit "x") /\
  set_attributes [AFg ColorDefault; AIntensity Normal] (mk_style Red ColorDefault Bold) = style_default /\
  show (lit "{:(fg=green,fg=blue)}") = paint (mk_style Blue ColorDefault Bold) (lit "x").
Proof. cbn zeta. repeat split; vm_compute; reflexivity. Qed.

(** C48: the second argument panics: the third is not evaluated. *)
Example C48_nonvacuous :
  match format_args_impl ascii_start ascii_continue (lit "{2}{x}{}{}")
          [logging 0 (text_value (lit "a")); (fun h => (h ++ [1], None)); logging 2 (text_value (lit "b"))]
          [(lit "x", logging 3 (text_value (lit "c")))] with
  | Expanded c => match eval_code no_scope c [] with (h, r) => (h, match r with None => true | _ => false end) end
  | CompileError => ([], false) end = ([0; 1], true).
Proof. vm_compute. reflexivity. Qed.

(** C52: the second [x] wins; the first is evaluated and ignored. *)
Example C52_nonvacuous :
  match call false (lit "{x}") [] [(lit "x", logging 0 (text_value (lit "one")));
                                   (lit "x", logging 1 (text_value (lit "two")))] with
  | Some (h, args) => (h, plain_format args) | None => ([], Crash Panic) end
  = ([0; 1], Value (lit "two")).
Proof. vm_compute. reflexivity. Qed.

Example C25_nonvacuous :
  to_html_string ascii_start ascii_continue
    (mk_value (fun _ _ => SRet Ok)
       (fun f => formatter_write_str (formatter_with Restyle_Foreground f (Foreground Red)) (lit "<")))
  = Some (Value (lit "<span style=color:red>&lt;</span>")).
Proof. vm_compute. reflexivity. Qed.
