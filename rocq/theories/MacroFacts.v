(** Proofs about whole macro calls. *)
From Verif Require Import Base Style Fmt SpecStd StdCompat Nom Parse Codegen SpecText TextFacts
  StyleFacts StdFacts SpecGrammar ParseFacts SpecFacts GrammarFacts SpecMeaning CodegenFacts.

Section Xid.
Variable xid_start xid_continue : char -> bool.
Hypothesis Hx : xid_ok xid_start xid_continue.
Notation format_string := (format_string xid_start xid_continue).
Notation spells := (spells xid_start xid_continue).
Notation macro := (format_args_impl xid_start xid_continue).

Lemma macro_inv {E} fmt (pos : list E) named c :
  macro fmt pos named = Expanded c ->
  exists ps, format_string ps fmt /\ Forall good_piece ps /\ generate ps pos named = Expanded c.
Proof.
  unfold format_args_impl.
  destruct (parse_format xid_start xid_continue fmt) as [[|x r] ps| | |] eqn:E1; try discriminate.
  intros H. apply (parse_format_iff _ _ Hx) in E1. exists ps. split; [exact E1|].
  split; [|exact H]. now apply spells_good in E1.
Qed.

Lemma macro_of {E} fmt ps (pos : list E) named :
  format_string ps fmt -> macro fmt pos named = generate ps pos named.
Proof.
  intros H. unfold format_args_impl. apply (parse_format_iff _ _ Hx) in H. now rewrite H.
Qed.

Lemma format_string_unique ps ps' s : format_string ps s -> format_string ps' s -> ps = ps'.
Proof.
  intros H H'. apply (parse_format_iff _ _ Hx) in H. apply (parse_format_iff _ _ Hx) in H'.
  rewrite H in H'. congruence.
Qed.

Lemma macro_iff {E} fmt (pos : list E) named :
  (exists c, macro fmt pos named = Expanded c) <->
  exists ps, format_string ps fmt /\ accepted ps (length pos) (map fst named).
Proof.
  split.
  - intros [c H]. apply macro_inv in H as (ps & Hps & Hg & H). exists ps. split; [exact Hps|].
    apply generate_iff; eauto.
  - intros (ps & Hps & Ha). rewrite (macro_of _ _ _ _ Hps). apply generate_iff; [|exact Ha].
    now apply spells_good in Hps.
Qed.

Lemma evaluated_tuple {H} (es : list (expr H)) h h' vs :
  eval_tuple es h = (h', Some vs) -> evaluated es h h' vs.
Proof.
  revert h h' vs; induction es as [|e es IH]; intros h h' vs; cbn [eval_tuple].
  - intros [= <- <-]. constructor.
  - destruct (e h) as [h1 [v|]] eqn:E1; [|discriminate].
    destruct (eval_tuple es h1) as [h2 [vs'|]] eqn:E2; [|discriminate].
    intros [= <- <-]. econstructor; eauto.
Qed.

Lemma cut_short_tuple {H} (es more : list (expr H)) h h' :
  eval_tuple es h = (h', None) -> cut_short (es ++ more) h h'.
Proof.
  revert h h'; induction es as [|e es IH]; intros h h'; cbn [eval_tuple]; [discriminate|].
  destruct (e h) as [h1 [v|]] eqn:E1.
  - destruct (eval_tuple es h1) as [h2 [vs'|]] eqn:E2; [discriminate|]. intros [= <-].
    specialize (IH _ _ E2). inversion IH as [before e0 after x x1 x' vs Hb He Eq E3 E4]; subst.
    cbn [app]. rewrite <- Eq. rewrite app_comm_cons. econstructor; [econstructor; eauto|exact He].
  - intros [= <-]. cbn [app]. change (e :: es ++ more) with ([] ++ e :: (es ++ more)).
    econstructor; [constructor|exact E1].
Qed.

Lemma cut_short_after {H} (es more : list (expr H)) h h1 h' vs :
  evaluated es h h1 vs -> cut_short more h1 h' -> cut_short (es ++ more) h h'.
Proof.
  intros He. revert h'. induction He as [h|e es h h1 h2 v vs E1 He IH]; intros h' Hc; [exact Hc|].
  specialize (IH _ Hc). inversion IH as [before e0 after x x1 x' vs0 Hb He0 Eq E3 E4]; subst.
  cbn [app]. rewrite <- Eq. rewrite app_comm_cons. econstructor; [econstructor; eauto|exact He0].
Qed.

(** * Behaviour of the values of evaluated expressions *)
Lemma evaluated_gives {H} (es : list (expr H)) h h' vs P :
  evaluated es h h' vs -> (forall e, In e es -> gives e P) -> Forall P vs.
Proof.
  induction 1 as [h|e es h h1 h2 v vs E1 He IH]; intros HP; constructor.
  - apply (HP e (or_introl eq_refl) h). now rewrite E1.
  - apply IH. intros e' Hi. apply HP. now right.
Qed.

(** * Trailing newline *)
Inductive ext : list piece -> list piece -> Prop :=
  | ext_new : ext [] [Lit [10%N]]
  | ext_text t : Forall (fun c => is_brace c = false) t -> ext [Lit t] [Lit (t ++ [10%N])]
  | ext_cons p ps ps' : ext ps ps' -> ext (p :: ps) (p :: ps').

Lemma snoc_cases {A} (s : list A) : s = [] \/ exists s' x, s = s' ++ [x].
Proof. destruct s as [|x s] using rev_ind; eauto. Qed.

Lemma newline_inv b ps' s' : spells b ps' s' -> forall s, s' = s ++ [10%N] ->
  exists ps, spells b ps s /\ ext ps ps'.
Proof.
  induction 1 as [b|t ps s Ht HF Hs IH|b ps s Hs IH|b ps s Hs IH|b a e p ps s Hp He Hs IH];
    intros s0 E.
  - destruct s0; discriminate.
  - destruct (snoc_cases s) as [->|(s1 & x & ->)].
    + rewrite app_nil_r in E. subst t. inversion Hs; subst.
      * destruct s0 as [|c s0].
        -- exists []. split; constructor.
        -- exists [Lit (c :: s0)]. apply Forall_app in HF as [HF _]. split.
           ++ pose proof (sp_text xid_start xid_continue (c :: s0) [] [] ltac:(discriminate) HF (sp_nil _ _ true)) as X.
              rewrite app_nil_r in X. exact X.
           ++ constructor. exact HF.
    + rewrite app_assoc in E. apply app_inj_tail in E as [<- ->].
      destruct (IH _ eq_refl) as (ps0 & H0 & He). exists (Lit t :: ps0). split; now constructor.
  - destruct (snoc_cases s) as [->|(s1 & x & ->)].
    + apply (app_inj_tail [123%N] s0) in E as [_ E]. discriminate.
    + rewrite app_assoc in E. apply app_inj_tail in E as [<- ->].
      destruct (IH _ eq_refl) as (ps0 & H0 & He). eexists. split; [apply sp_open; exact H0|now constructor].
  - destruct (snoc_cases s) as [->|(s1 & x & ->)].
    + apply (app_inj_tail [125%N] s0) in E as [_ E]. discriminate.
    + rewrite app_assoc in E. apply app_inj_tail in E as [<- ->].
      destruct (IH _ eq_refl) as (ps0 & H0 & He). eexists. split; [apply sp_close; exact H0|now constructor].
  - destruct (snoc_cases s) as [->|(s1 & x & ->)].
    + rewrite app_nil_r in E. rewrite app_assoc in E.
      apply (app_inj_tail (lit "{" ++ p) s0) in E as [_ E]. discriminate.
    + rewrite !app_assoc in E. apply app_inj_tail in E as [<- ->].
      destruct (IH _ eq_refl) as (ps0 & H0 & He').
      exists (Arg a :: ps0). split; [|now constructor].
      rewrite <- !app_assoc. econstructor; eauto. intros Hem. specialize (He Hem).
      destruct s1; [reflexivity|exact He].
Qed.

Lemma newline_fwd b ps s : spells b ps s -> (b = true -> ps <> []) ->
  exists ps', spells b ps' (s ++ [10%N]) /\ ext ps ps'.
Proof.
  induction 1 as [b|t ps s Ht HF Hs IH|b ps s Hs IH|b ps s Hs IH|b a e p ps s Hp He Hs IH];
    intros Hb.
  - destruct b; [now specialize (Hb eq_refl)|]. exists [Lit [10%N]]. split; [|constructor].
    cbn. apply (sp_text xid_start xid_continue [10%N] [] []); [discriminate| |constructor].
    repeat constructor.
  - destruct ps as [|p ps].
    + inversion Hs; subst. rewrite app_nil_r. exists [Lit (t ++ [10%N])]. split; [|now constructor].
      assert (HF' : Forall (fun c => is_brace c = false) (t ++ [10%N])).
      { apply Forall_app. split; [exact HF|repeat constructor]. }
      pose proof (sp_text xid_start xid_continue (t ++ [10%N]) [] [] ltac:(destruct t; discriminate) HF' (sp_nil _ _ true)) as X.
      rewrite app_nil_r in X. exact X.
    + destruct IH as (ps' & H' & He); [discriminate|]. exists (Lit t :: ps'). rewrite <- app_assoc.
      split; now constructor.
  - destruct IH as (ps' & H' & He); [discriminate|]. rewrite <- app_assoc.
    eexists. split; [apply sp_open; exact H'|now constructor].
  - destruct IH as (ps' & H' & He); [discriminate|]. rewrite <- app_assoc.
    eexists. split; [apply sp_close; exact H'|now constructor].
  - destruct IH as (ps' & H' & He'); [discriminate|]. rewrite <- !app_assoc.
    exists (Arg a :: ps'). split; [|now constructor]. econstructor; eauto.
    intros Hem. specialize (He Hem). destruct s; [reflexivity|exact He].
Qed.

Inductive sext : list stmt -> list stmt -> Prop :=
  | sext_new : sext [] [SLit [10%N]]
  | sext_text t : sext [SLit t] [SLit (t ++ [10%N])]
  | sext_cons p ps ps' : sext ps ps' -> sext (p :: ps) (p :: ps').

Lemma gen_ext np names ps ps' : ext ps ps' -> forall g,
  match gen_pieces np names ps g, gen_pieces np names ps' g with
  | Some (g1, ss), Some (g2, ss') => g1 = g2 /\ sext ss ss'
  | None, None => True
  | _, _ => False
  end.
Proof.
  induction 1 as [|t Ht|p ps ps' H IH]; intros g; cbn [gen_pieces gen_piece].
  - split; [reflexivity|constructor].
  - rewrite !replace2_plain; [split; [reflexivity|constructor]| |now left].
    left. apply Forall_app. split; [exact Ht|repeat constructor].
  - destruct (gen_piece np names p g) as [[g1 s1]|]; [|exact I].
    specialize (IH g1).
    destruct (gen_pieces np names ps g1) as [[g2 ss]|], (gen_pieces np names ps' g1) as [[g3 ss']|];
      try tauto.
    destruct IH as [-> IH]. split; [reflexivity|now constructor].
Qed.

Lemma exec_ext t ss ss' f : sext ss ss' ->
  ok_outcome (exec_stmts t ss' f) = ok_outcome (exec_stmts t ss f) /\
  produces (exec_stmts t ss' f) =
  produces (exec_stmts t ss f)
  ++ match ok_outcome (exec_stmts t ss f) with Returned Ok => paint (fm_style f) [10%N] | _ => [] end.
Proof.
  induction 1 as [|x|p ss ss' H [IH1 IH2]].
  - split; reflexivity.
  - cbn [exec_stmts]. rewrite !ok_outcome_try by reflexivity. split; [reflexivity|].
    rewrite !produces_try by reflexivity. rewrite !produces_write_str.
    cbn [ok_outcome]. unfold produces. cbn [ok_events denote]. now rewrite paint_app, !app_nil_r.
  - assert (G : forall p q q', ok_outcome q' = ok_outcome q ->
      produces q' = produces q ++ match ok_outcome q with Returned Ok => paint (fm_style f) [10%N] | _ => [] end ->
      ok_outcome (try_ p q') = ok_outcome (try_ p q) /\
      produces (try_ p q') = produces (try_ p q)
        ++ match ok_outcome (try_ p q) with Returned Ok => paint (fm_style f) [10%N] | _ => [] end).
    { clear. intros p q q' H1 H2. unfold produces, try_ in *.
      rewrite !ok_events_bind, !ok_outcome_bind.
      destruct (ok_outcome p) as [[|]|c]; cbn [ok_outcome ok_events]; rewrite ?app_nil_r;
        [|now split..].
      split; [exact H1|]. now rewrite !denote_app, H2, app_assoc. }
    destruct p as [s|w pl fa st]; cbn [exec_stmts].
    + now apply G.
    + destruct (place_value t pl) as [v|]; [now apply G|split; reflexivity].
Qed.

(** * The outer flags do not matter *)
Lemma exec_flags t ss st a1 a2 :
  exec_stmts t ss (mk_formatter st a1) = exec_stmts t ss (mk_formatter st a2).
Proof.
  induction ss as [|[s|w pl fa d] ss IH]; cbn [exec_stmts]; [reflexivity|now rewrite IH|].
  destruct (place_value t pl); [now rewrite IH|reflexivity].
Qed.

(** * Uses *)
Lemma uses_from pos named scope n arg v :
  uses pos named scope n arg v -> In v pos \/ In v (map snd named) \/ exists x, v = scope x.
Proof.
  intros [v' H|i v' H|nm v' b a -> _|nm _].
  - left. eapply nth_error_In, H.
  - left. eapply nth_error_In, H.
  - right. left. rewrite map_app. apply in_or_app. right. now left.
  - right. right. eauto.
Qed.

Lemma means_all pos named scope (P : wprog -> Prop) f n ps parts :
  (forall s, P (formatter_write_str f s)) ->
  (forall v, In v pos \/ In v (map snd named) \/ (exists x, v = scope x) ->
             forall t g, P (trait_code t v g)) ->
  means pos named scope f n ps parts -> Forall P parts.
Proof.
  intros H1 H2. induction 1 as [n|n s ps parts Hm IH|n a v ps parts Hu Hm IH]; constructor; auto.
  apply H2. now apply uses_from in Hu.
Qed.

Lemma never_aborts_try p q : never_aborts p -> never_aborts q -> never_aborts (try_ p q).
Proof.
  intros Hp Hq. unfold try_. induction p as [[|]|c|s st k IH]; cbn in *; auto.
Qed.
Lemma never_aborts_sequence parts : Forall never_aborts parts -> never_aborts (in_sequence parts).
Proof. induction 1; cbn [in_sequence]; [exact I|]. now apply never_aborts_try. Qed.

(** * Doubled braces *)
Lemma spells_weaken ps s : spells false ps s -> match s with c :: _ => is_brace c = true | [] => True end ->
  spells true ps s.
Proof.
  intros H. inversion H as [|t ps' s' Ht HF Hs| | |]; subst; intros Hc; try (constructor; assumption).
  - destruct t as [|c t]; [congruence|]. cbn in Hc. inversion HF; congruence.
  - econstructor; eassumption.
Qed.

Definition lit_text (p : piece) : str := match p with Lit s => s | Arg _ => [] end.
Definition is_lit (p : piece) : Prop := match p with Lit _ => True | Arg _ => False end.

Lemma spells_text_first b ps ds : spells b ps ds -> forall d s, ds = d :: s -> is_brace d = false ->
  exists t ps' s', ps = Lit t :: ps' /\ d :: s = t ++ s' /\
    Forall (fun c => is_brace c = false) t /\ spells true ps' s'.
Proof.
  intros [b0|t ps' s' Hne HF Hs'|b0 ps' s' _|b0 ps' s' _|b0 a e p ps' s' _ _ _] d s Eds Ed;
    try discriminate; try (cbn in Eds; injection Eds as Ed' _; subst d; cbn in Ed; discriminate).
  exists t, ps', s'. auto.
Qed.

Lemma double_braces_spelled text :
  exists ps, spells false ps (double_braces text) /\ Forall is_lit ps /\
             concat (map lit_text ps) = text.
Proof.
  induction text as [|c text (ps & Hs & Hl & Ht)].
  - exists []. repeat split; constructor.
  - cbn [double_braces flat_map]. fold (double_braces text).
    destruct (N.eqb_spec c 123) as [->|H1]; [|destruct (N.eqb_spec c 125) as [->|H2]]; cbn [orb].
    + exists (Lit (lit "{") :: ps). split; [apply (sp_open _ _ false ps _ Hs)|].
      split; [constructor; [exact I|exact Hl]|]. cbn. now rewrite Ht.
    + exists (Lit (lit "}") :: ps). split; [apply (sp_close _ _ false ps _ Hs)|].
      split; [constructor; [exact I|exact Hl]|]. cbn. now rewrite Ht.
    + assert (Hc : is_brace c = false).
      { unfold is_brace. apply N.eqb_neq in H1, H2. now rewrite H1, H2. }
      destruct (double_braces text) as [|d s] eqn:E.
      * inversion Hs as [|t ps' s' Hne HF Hs' Eb Ep Es| | |].
        -- subst ps. cbn in Ht. subst text. exists [Lit [c]]. split; [|split; [repeat constructor|reflexivity]].
           apply (sp_text xid_start xid_continue [c] [] []); [discriminate|repeat constructor; exact Hc|constructor].
        -- exfalso. apply app_eq_nil in Es as [-> ->]. now apply Hne.
      * destruct (is_brace d) eqn:Ed.
        -- exists (Lit [c] :: ps). split.
           ++ apply (sp_text xid_start xid_continue [c] ps (d :: s)); [discriminate|repeat constructor; exact Hc|].
              apply spells_weaken; [exact Hs|exact Ed].
           ++ split; [constructor; [exact I|exact Hl]|]. cbn. now rewrite Ht.
        -- assert (X : exists t ps' s', ps = Lit t :: ps' /\ d :: s = t ++ s' /\
             Forall (fun c => is_brace c = false) t /\ spells true ps' s').
           { exact (spells_text_first _ _ _ Hs _ _ eq_refl Ed). }
           destruct X as (t & ps' & s' & -> & Es & HF & Hs').
           exists (Lit (c :: t) :: ps'). inversion Hl; subst. split.
           ++ rewrite Es.
              apply (sp_text xid_start xid_continue (c :: t) ps' s'); [discriminate|constructor; assumption|assumption].
           ++ split; [constructor; [exact I|assumption]|reflexivity].
Qed.

Lemma lits_accepted ps : Forall is_lit ps -> accepted ps 0 [].
Proof.
  intros H. assert (A : asked ps = []).
  { induction H as [|[s|a] ps Hp Hps IH]; cbn; auto. destruct Hp. }
  constructor; rewrite ?A; cbn; try tauto; try lia.
  clear A. revert H. apply Forall_impl. intros [s|a] Hp; [exact I|destruct Hp].
Qed.

Lemma lits_mean pos named scope f n ps parts :
  Forall is_lit ps -> means pos named scope f n ps parts ->
  ok_outcome (in_sequence parts) = Returned Ok /\
  produces (in_sequence parts) = paint (fm_style f) (concat (map lit_text ps)).
Proof.
  intros Hl. induction 1 as [n|n s ps parts Hm IH|n a v ps parts Hu Hm IH]; cbn [in_sequence].
  - split; reflexivity.
  - inversion Hl; subst. destruct (IH ltac:(assumption)) as [I1 I2].
    rewrite ok_outcome_try, produces_try by reflexivity. split; [exact I1|].
    rewrite I2, produces_write_str. cbn. now rewrite <- paint_app.
  - inversion Hl; subst. now cbn in *.
Qed.

(** * Fill characters *)
Lemma fill_piece arg r :
  has_fill r -> (arg = [] \/ exists a, arg_spelled xid_start xid_continue a arg) ->
  parse_piece xid_start xid_continue (lit "{" ++ arg ++ lit ":" ++ r) = PPanic.
Proof.
  intros Hf Ha. rewrite parse_piece_eq.
  assert (E1 : tag (lit "{{") (lit "{" ++ arg ++ lit ":" ++ r) = PErr).
  { destruct Ha as [->|(a & Ha)]; [reflexivity|].
    assert (Hc : match arg with c :: _ => c <> 123%N | [] => True end).
    { destruct Ha as [n s [Hd _]|s Hi].
      - apply decimal_value in Hd as (_ & _ & HF). destruct HF as [|c s Hc _]; [exact I|].
        intros ->. discriminate.
      - destruct Hi as [c r0 [Hc|Hc] Hr]; intros ->; [|discriminate].
        rewrite (proj1 Hx) in Hc by reflexivity. discriminate. }
    destruct arg as [|c arg]; [reflexivity|].
    apply N.eqb_neq in Hc. rewrite N.eqb_sym in Hc.
    change (tag (lit "{{") (lit "{" ++ (c :: arg) ++ lit ":" ++ r))
      with (if N.eqb 123 c then @POk unit (arg ++ lit ":" ++ r) tt else PErr).
    now rewrite Hc. }
  rewrite E1. clear E1.
  change (lit "{" ++ arg ++ lit ":" ++ r) with (123%N :: arg ++ lit ":" ++ r). cbv match beta.
  change (not_brace 123%N) with false. cbv match.
  change (tag (lit "}}") (123%N :: arg ++ lit ":" ++ r)) with (@PErr unit). cbv match.
  unfold Parse.parse_arg, pmap, delimited, pbind.
  change (tag (lit "{") (123%N :: arg ++ lit ":" ++ r)) with (POk (arg ++ lit ":" ++ r) tt).
  cbv match. unfold cut.
  assert (E : parse_format_arg xid_start xid_continue (arg ++ lit ":" ++ r) = PPanic); [|now rewrite E].
  unfold Parse.parse_format_arg, pbind.
  assert (E2 : exists o, opt (parse_arg_ref xid_start xid_continue) (arg ++ lit ":" ++ r)
                         = POk (lit ":" ++ r) o).
  { unfold opt. destruct Ha as [->|(a & Ha)].
    - change ([] ++ lit ":" ++ r) with (58%N :: r). rewrite (colon_ref_err _ _ Hx). eauto.
    - rewrite (parse_arg_ref_app _ _ Hx a arg _ Ha); [eauto|]. apply (colon_ends _ _ Hx). }
  destruct E2 as (o & ->). unfold opt, preceded, pbind.
  change (tag (lit ":") (lit ":" ++ r)) with (POk r tt). cbv match.
  now rewrite (proj2 (spec_panic _ _ r) Hf).
Qed.

Lemma many_prefix b ps s : spells b ps s -> forall x fuel acc,
  (b = true -> ps = [] -> stops not_brace x) ->
  (match x with c :: _ => is_brace c = true | [] => False end) ->
  length (s ++ x) < fuel ->
  parse_piece xid_start xid_continue x = PPanic ->
  many_loop fuel (parse_piece xid_start xid_continue) (s ++ x) acc = PPanic.
Proof.
  intros H x fuel acc _ Hb Hf Hp. revert fuel acc Hf.
  assert (Hx0 : stops not_brace x).
  { destruct x as [|c x]; [destruct Hb|]. cbn. now rewrite not_brace_spec, Hb. }
  assert (Ha : forall s', starts_with_align s' = false -> starts_with_align (s' ++ x) = false).
  { intros [|c s'] Hs; [|exact Hs]. cbn. destruct x as [|c x]; [destruct Hb|]. cbn.
    unfold is_brace in Hb. unfold is_align_char.
    destruct (N.eqb_spec c 123) as [->|]; [reflexivity|].
    destruct (N.eqb_spec c 125) as [->|]; [reflexivity|discriminate]. }
  induction H as [b|t ps s Ht HF Hs IH|b ps s Hs IH|b ps s Hs IH|b a e p ps s Hp' He Hs IH];
    intros fuel acc Hf; (destruct fuel as [|fuel]; [lia|]); cbn [many_loop].
  - cbn [app]. now rewrite Hp.
  - rewrite <- app_assoc in *. rewrite piece_text; auto.
    + rewrite length_app_neq by auto. apply IH. rewrite app_length in Hf.
      destruct t; [congruence|cbn in *; lia].
    + destruct s as [|c s]; [exact Hx0|]. apply spells_true_stops in Hs. exact Hs.
  - rewrite <- app_assoc in *. rewrite piece_open, length_app_neq by discriminate.
    apply IH. cbn in *; lia.
  - rewrite <- app_assoc in *. rewrite piece_close, length_app_neq by discriminate.
    apply IH. cbn in *; lia.
  - rewrite <- !app_assoc in *. rewrite (piece_arg _ _ Hx a e p (s ++ x)) by auto.
    replace (lit "{" ++ p ++ lit "}" ++ s ++ x) with ((lit "{" ++ p ++ lit "}") ++ s ++ x) in *
      by now rewrite <- !app_assoc.
    rewrite length_app_neq by discriminate. rewrite app_length in Hf.
    apply IH. cbn in Hf; lia.
Qed.

Lemma fill_panics ps pre arg r :
  format_string ps pre -> has_fill r ->
  (arg = [] \/ exists a, arg_spelled xid_start xid_continue a arg) ->
  parse_format xid_start xid_continue (pre ++ lit "{" ++ arg ++ lit ":" ++ r) = PPanic.
Proof.
  intros Hs Hf Ha. unfold parse_format, all_consuming, many0.
  rewrite (many_prefix false ps pre Hs); auto; try discriminate.
  - reflexivity.
  - now apply fill_piece.
Qed.
End Xid.
