(** Property C84: values whose formatting code has side effects. *)
From Verif Require Import Base Style Fmt SpecStd StdCompat Nom Parse Codegen SpecText TextFacts StyleFacts
  StdFacts SpecGrammar ParseFacts SpecFacts GrammarFacts SpecMeaning CodegenFacts MacroFacts
  Ansi Effects SpecEffects PropsParse.

(** * Running *)
Lemma erun_bind {H W} (ws : write_fn W) (p : eprog H) k w h :
  erun ws (ebind p k) w h
  = match erun ws p w h with
    | (w1, h1, Returned r) => erun ws (k r) w1 h1
    | (w1, h1, Crashed c) => (w1, h1, Crashed c)
    end.
Proof.
  revert w h. induction p as [r|c|k' IH|h' p IH|s st k' IH]; intros w h; cbn [ebind erun]; auto.
  destruct (ws w s st) as [w1 [r|[|]]]; auto.
Qed.

Lemma one_after {H W} (ws : write_fn W) (p q : eprog H) parts w h :
  (forall w h, one_after_another ws parts w h (erun ws q w h)) ->
  forall p', (forall w h, erun ws p' w h = erun ws p w h) ->
  one_after_another ws (p' :: parts) w h (erun ws (etry p q) w h).
Proof.
  intros Hq p' Hp. unfold etry. rewrite erun_bind. destruct (erun ws p w h) as [[w1 h1] [[|]|c]] eqn:E.
  - apply (oa_next ws p' parts w h w1 h1); [now rewrite Hp|apply Hq].
  - apply oa_stop; [now rewrite Hp|discriminate].
  - apply oa_stop; [now rewrite Hp|discriminate].
Qed.

Lemma write_text_run {H W} (ws : write_fn W) f s w (h : H) :
  erun ws (write_text (fm_style f) s) w h = erun ws (eformatter_write_str f s) w h.
Proof.
  cbn. destruct (ws w s (fm_style f)) as [w1 [[|]|[|]]]; reflexivity.
Qed.

(** * Dispatch *)
Lemma estd_write_dispatch {H} arms f (val : estd_display H) k fl :
  dispatch arms (fm_format f) = Some (k, fl) -> estd_write arms f val = ethrough_proxy f (val fl).
Proof.
  unfold dispatch, estd_write. destruct (select arms (fm_format f)) as [[l env]|]; [|discriminate].
  intros ->. reflexivity.
Qed.
Lemma edisplay_other {H} (val : estd_display H) f :
  EDisplay_StdFmtOther val f = ethrough_proxy f (val (std_flags_of (fm_format f) None)).
Proof. eapply estd_write_dispatch, dispatch_other. Qed.
Lemma edisplay_debug {H} (val : estd_display H) f :
  EDisplay_StdFmtDebug val f
  = ethrough_proxy f (val (std_flags_of (fm_format f) (fa_debug_hex (fm_format f)))).
Proof. eapply estd_write_dispatch, dispatch_debug. Qed.

Lemma std_code_run {H W} (ws : write_fn W) f (p : esprog H) w h :
  erun ws (std_code (fm_style f) p) w h = erun ws (ethrough_proxy f p) w h.
Proof.
  revert w h. induction p as [r|c|k IH|h' p IH|s k IH]; intros w h; cbn [std_code ethrough_proxy erun]; auto.
  destruct (ws w s (fm_style f)) as [w1 [r|[|]]]; auto.
Qed.

Lemma eother {H W} (ws : write_fn W) (val : estd_display H) st fa w h :
  erun ws (std_code st (val (std_flags_of fa None))) w h = erun ws (EDisplay_StdFmtOther val (mk_formatter st fa)) w h.
Proof. rewrite edisplay_other. exact (std_code_run ws (mk_formatter st fa) _ w h). Qed.
Lemma edebug {H W} (ws : write_fn W) (val : estd_display H) st fa w h :
  erun ws (std_code st (val (std_flags_of fa (fa_debug_hex fa)))) w h = erun ws (EDisplay_StdFmtDebug val (mk_formatter st fa)) w h.
Proof. rewrite edisplay_debug. exact (std_code_run ws (mk_formatter st fa) _ w h). Qed.

Lemma ewrapped_trait {H W} (ws : write_fn W) tr (v : evalue H) st fa w h :
  erun ws (code_of tr v st fa) w h = erun ws (ewrapped_display (wrap_tokens tr) v (mk_formatter st fa)) w h.
Proof.
  destruct tr; cbn [wrap_tokens ewrapped_display code_of];
    [exact (eother ws (ev_std v TDisplay) st fa w h) | exact (edebug ws (ev_std v TDebug) st fa w h)
    | exact (eother ws (ev_std v TOctal) st fa w h) | exact (eother ws (ev_std v TLowerHex) st fa w h)
    | exact (eother ws (ev_std v TUpperHex) st fa w h) | exact (eother ws (ev_std v TPointer) st fa w h)
    | exact (eother ws (ev_std v TBinary) st fa w h) | exact (eother ws (ev_std v TLowerExp) st fa w h)
    | exact (eother ws (ev_std v TUpperExp) st fa w h) | exact eq_refl].
Qed.

(** * Statements *)
Section Run.
Context {H : Type}.
Variables (pos : list (evalue H)) (named : list (str * evalue H)) (scope : str -> evalue H).

Lemma egen_place_uses arg g g' pl imps :
  gen_place (length pos) (map fst named) arg g = Some (g', pl) ->
  (exists l, imps = g_implicit g' ++ l) ->
  exists v, eplace_value (mk_etuples pos (map snd named) (map scope imps)) pl = Some v /\
            euses pos named scope (g_next g) arg v.
Proof.
  intros E [l Hl]. unfold gen_place in E. destruct arg as [[i|n]|].
  - destruct (N.leb_spec (N.of_nat (length pos)) i) as [|Hlt]; [discriminate|]. injection E as <- <-.
    cbn. destruct (nth_error pos (N.to_nat i)) as [v|] eqn:E.
    + exists v. split; [reflexivity|now constructor].
    + apply nth_error_None in E. lia.
  - destruct (named_index (map fst named) n) as [j|] eqn:En.
    + injection E as <- <-. apply named_index_some in En as (b & a & E & Hn & ->).
      assert (X : exists b' v a', named = b' ++ (n, v) :: a' /\ length b' = length b /\ map fst a' = a).
      { clear Hn Hl. revert b E. induction named as [|[m v] nm IH]; intros [|x b]; cbn; try discriminate.
        - intros [= -> <-]. exists [], v, nm. auto.
        - intros [= -> E]. apply IH in E as (b' & v' & a' & -> & Hb & Ha).
          exists ((x, v) :: b'), v', a'. cbn. auto. }
      destruct X as (b' & v & a' & -> & Hb & <-). exists v. split.
      * cbn. rewrite <- Hb, map_app. cbn. rewrite nth_error_app2, map_length, Nat.sub_diag; [reflexivity|].
        now rewrite map_length.
      * now apply eu_named with b' a'.
    + destruct (cannot_be_raw n); [discriminate|]. injection E as <- <-.
      apply named_index_none in En. exists (scope n). split; [|now constructor].
      subst imps. cbn. rewrite !map_app. cbn.
      rewrite nth_error_app1 by (rewrite app_length, map_length; cbn; lia).
      rewrite nth_error_app2, map_length, Nat.sub_diag; [reflexivity|]. now rewrite map_length.
  - destruct (Nat.ltb_spec (g_next g) (length pos)) as [Hlt|]; [|discriminate]. injection E as <- <-.
    cbn. destruct (nth_error pos (g_next g)) as [v|] eqn:E.
    + exists v. split; [reflexivity|now constructor].
    + apply nth_error_None in E. lia.
Qed.

Lemma gen_pieces_calls ps g g' ss imps f :
  Forall good_piece ps ->
  gen_pieces (length pos) (map fst named) ps g = Some (g', ss) ->
  (exists l, imps = g_implicit g' ++ l) ->
  exists parts, calls pos named scope (fm_style f) (g_next g) ps parts /\
    forall W (ws : write_fn W) w h,
    one_after_another ws parts w h (erun ws (eexec_stmts (mk_etuples pos (map snd named) (map scope imps)) ss f) w h).
Proof.
  intros Hg. revert g ss. induction Hg as [|p ps Hp Hps IH]; intros g ss; cbn [gen_pieces].
  - intros [= <- <-] _. exists []. split; constructor.
  - destruct (gen_piece (length pos) (map fst named) p g) as [[g1 s1]|] eqn:E1; [|discriminate].
    destruct (gen_pieces (length pos) (map fst named) ps g1) as [[g2 ss']|] eqn:E2; [|discriminate].
    intros [= <- <-] Himp.
    destruct (IH _ _ E2 Himp) as (parts & Hm & Hex).
    destruct p as [s|[arg [fargs st tr]]]; cbn [gen_piece] in E1.
    + injection E1 as <- <-. exists (write_text (fm_style f) s :: parts). split; [now constructor|].
      intros W ws w h. cbn [eexec_stmts]. rewrite replace2_plain by exact Hp.
      apply one_after; [intros; apply Hex|]. intros. apply write_text_run.
    + destruct (gen_place (length pos) (map fst named) arg g) as [[gx pl]|] eqn:Epl; [|discriminate].
      destruct (fargs_tokens fargs) as [fa|] eqn:Ef; [|discriminate].
      cbn in Hp. unfold known_style in Hp. rewrite Hp in E1. injection E1 as -> <-.
      apply fargs_tokens_some in Ef as (-> & _ & _).
      assert (Himp1 : exists l, imps = g_implicit g1 ++ l).
      { apply gen_pieces_used in E2 as [_ _ _ [l2 Hl2]]. destruct Himp as [l ->].
        exists (l2 ++ l). now rewrite Hl2, app_assoc. }
      destruct (egen_place_uses _ _ _ _ _ Epl Himp1) as (v & Hv & Hu).
      apply gen_place_used with (spec := mk_spec fargs st tr) in Epl as [Hn _ _ _].
      exists (code_of tr v (override st (fm_style f)) (spelled_flags fargs) :: parts).
      split.
      * apply (ca_arg pos named scope (fm_style f) (g_next g) (mk_farg arg (mk_spec fargs st tr)) v ps parts Hu).
        cbn [fa_arg]. rewrite Hn in Hm. cbn in Hm.
        destruct arg; cbn in Hm; [now rewrite Nat.add_0_r in Hm|now rewrite Nat.add_1_r in Hm].
      * intros W ws w h. cbn [eexec_stmts]. rewrite Hv, with_args_override.
        apply one_after; [intros; apply Hex|]. intros. apply ewrapped_trait.
Qed.
End Run.

Lemma eeval_tuple_app {H} (a b : list (eexpr H)) h h1 h2 vs ws :
  eeval_tuple a h = (h1, Some vs) -> eeval_tuple b h1 = (h2, Some ws) ->
  eevaluated (a ++ b) h h2 (vs ++ ws) /\ length vs = length a.
Proof.
  revert h vs; induction a as [|e a IH]; intros h vs; cbn [eeval_tuple app].
  - intros [= <- <-] Hb. split; [|reflexivity]. revert h ws Hb. induction b as [|e b IHb]; intros h ws; cbn [eeval_tuple].
    + intros [= <- <-]. constructor.
    + destruct (e h) as [h3 [v|]] eqn:E1; [|discriminate].
      destruct (eeval_tuple b h3) as [h4 [vs'|]] eqn:E; [|discriminate]. intros [= -> <-].
      econstructor; [exact E1|now apply IHb].
  - destruct (e h) as [h3 [v|]] eqn:E1; [|discriminate].
    destruct (eeval_tuple a h3) as [h4 [vs'|]] eqn:E; [|discriminate]. intros [= -> <-] Hb.
    destruct (IH h3 vs' E Hb) as [I1 I2]. split; [econstructor; eauto|]. cbn. now rewrite I2.
Qed.
Lemma eevaluated_length {H} (es : list (eexpr H)) h h' vs : eevaluated es h h' vs -> length vs = length es.
Proof. induction 1; cbn; congruence. Qed.

Section Xid.
Variable xid_start xid_continue : char -> bool.
Hypothesis Hx : xid_ok xid_start xid_continue.
Notation format_string := (format_string xid_start xid_continue).
Notation macro := (format_args_impl xid_start xid_continue).

(** C84: the argument expressions are evaluated once each, in order, when the Arguments are
    built; formatting them, then or later and as often as one likes, calls the formatting code of
    each placeholder's value exactly once, from left to right, each call in the state the one
    before left, until one does not return [Ok]. *)
Theorem C84_calls {H} (s : str) (ps : list piece) (pos : list (eexpr H)) (named : list (str * eexpr H))
  (c : code (eexpr H)) (scope : str -> evalue H) (h h' : H) (args : earguments H) :
  format_string ps s -> macro s pos named = Expanded c -> eeval_code scope c h = (h', Some args) ->
  exists pv nv,
    eevaluated (pos ++ map snd named) h h' (pv ++ nv) /\
    length pv = length pos /\ length nv = length named /\
    forall f, exists parts,
      calls pv (combine (map fst named) nv) scope (fm_style f) 0 ps parts /\
      forall W (ws : write_fn W) w h0, one_after_another ws parts w h0 (erun ws (args f) w h0).
Proof.
  intros Hp Hm He. apply (macro_inv _ _ Hx) in Hm as (ps' & Hp' & Hg & Hgen).
  assert (ps' = ps) as -> by (eapply format_string_unique; eassumption).
  unfold generate in Hgen.
  destruct (gen_pieces (length pos) (map fst named) ps gen_init) as [[g ss]|] eqn:E; [|discriminate].
  destruct (all_used (length pos) (map fst named) g); [|discriminate]. injection Hgen as <-.
  unfold eeval_code in He. cbn [c_positional c_named c_implicit c_stmts] in He.
  destruct (eeval_tuple pos h) as [h1 [pv|]] eqn:E1; [|discriminate].
  destruct (eeval_tuple (map snd named) h1) as [h2 [nv|]] eqn:E2; [|discriminate].
  injection He as <- <-. destruct (eeval_tuple_app _ _ _ _ _ _ _ E1 E2) as [Hev L1].
  pose proof (eevaluated_length _ _ _ _ Hev) as L. rewrite !app_length, map_length in L.
  assert (L2 : length nv = length named) by lia. clear L.
  exists pv, nv. split; [exact Hev|]. split; [exact L1|]. split; [exact L2|].
  intros f. assert (L3 : length (map fst named) = length nv) by now rewrite map_length.
  pose proof (gen_pieces_calls pv (combine (map fst named) nv) scope ps gen_init g ss (g_implicit g) f Hg) as M.
  rewrite L1, (combine_fst _ _ L3), (combine_snd _ _ L3) in M.
  destruct (M E) as (parts & Hc & Hex); [exists []; now rewrite app_nil_r|].
  exists parts. split; [exact Hc|exact Hex].
Qed.
Print Assumptions C84_calls.

(** C84: [write!] to any writer does this, in the default style. *)
Theorem C84_write {H} (s : str) (ps : list piece) (pos : list (eexpr H)) (named : list (str * eexpr H))
  (c : code (eexpr H)) (scope : str -> evalue H) (h h' : H) (args : earguments H) :
  format_string ps s -> macro s pos named = Expanded c -> eeval_code scope c h = (h', Some args) ->
  exists pv nv parts,
    eevaluated (pos ++ map snd named) h h' (pv ++ nv) /\
    length pv = length pos /\ length nv = length named /\
    calls pv (combine (map fst named) nv) scope style_default 0 ps parts /\
    forall W (ws : write_fn W) w, one_after_another ws parts w h' (edefault_write_fmt ws w h' args).
Proof.
  intros Hp Hm He. destruct (C84_calls s ps pos named c scope h h' args Hp Hm He) as (pv & nv & H1 & H2 & H3 & H4).
  destruct (H4 formatter_new) as (parts & Hc & Hex). exists pv, nv, parts.
  split; [exact H1|]. split; [exact H2|]. split; [exact H3|]. split; [exact Hc|].
  intros W ws w. unfold edefault_write_fmt, eformatter_write_fmt, etry. rewrite erun_bind.
  specialize (Hex W ws w h'). destruct (erun ws (args formatter_new) w h') as [[w1 h1] [[|]|x]]; exact Hex.
Qed.
Print Assumptions C84_write.
End Xid.

(** * What is run is determined *)
Lemma oa_det {H W} (ws : write_fn W) (parts : list (eprog H)) w h r r' :
  one_after_another ws parts w h r -> one_after_another ws parts w h r' -> r = r'.
Proof.
  intros A. revert r'. induction A as [w h|p ps w h w1 h1 r E A IH|p ps w h w1 h1 o E N]; intros r' B; inversion B; subst.
  - reflexivity.
  - assert (X : (w1, h1) = (w2, h2)) by congruence. injection X as -> ->. now apply IH.
  - congruence.
  - congruence.
  - congruence.
Qed.

Lemma euses_det {H} (pos : list (evalue H)) named scope n a v v' :
  euses pos named scope n a v -> euses pos named scope n a v' -> v = v'.
Proof.
  intros A B. destruct A as [v A|i v A|name v b a E N|name N]; inversion B; subst; try congruence.
  - assert (G : forall b a b0 a0, b ++ (name, v) :: a = b0 ++ (name, v') :: a0 ->
       ~ In name (map fst a) -> ~ In name (map fst a0) -> v = v').
    { clear. induction b as [|x b IH]; intros a [|y b0] a0 E N N0; cbn in E; injection E.
      - intros _ E'. exact E'.
      - intros -> _. exfalso. apply N. rewrite map_app. apply in_or_app. right. now left.
      - intros <- _. exfalso. apply N0. rewrite map_app. apply in_or_app. right. now left.
      - intros E' _. now apply (IH a b0 a0). }
    eapply G; eauto.
  - exfalso. match goal with X : ~ In name (map fst (b ++ _)) |- _ => apply X end.
    rewrite map_app. apply in_or_app. right. now left.
  - exfalso. apply N. rewrite map_app. apply in_or_app. right. now left.
Qed.

Theorem C84_determined {H} (pos : list (evalue H)) named scope S n ps parts parts' :
  calls pos named scope S n ps parts -> calls pos named scope S n ps parts' ->
  parts = parts' /\
  forall W (ws : write_fn W) w h r r',
    one_after_another ws parts w h r -> one_after_another ws parts' w h r' -> r = r'.
Proof.
  intros A B. assert (E : parts = parts').
  { revert parts' B. induction A as [n|n s ps parts A IH|n a v ps parts U A IH]; intros parts' B; inversion B; subst.
    - reflexivity.
    - f_equal. now apply IH.
    - match goal with X : euses _ _ _ n (fa_arg a) ?y |- _ =>
        lazymatch y with v => fail | _ => assert (v = y) by (eapply euses_det; eassumption); subst y end end.
      f_equal. now apply IH. }
  split; [exact E|]. subst parts'. intros W ws w h r r'. apply oa_det.
Qed.
Print Assumptions C84_determined.

(** * Relation to code without side effects *)
Fixpoint resolve {H} (p : eprog H) (h : H) : wprog :=
  match p with
  | ERet r => Ret r
  | EAbort c => Abort c
  | EGet k => resolve (k h) h
  | EPut h' p' => resolve p' h'
  | EEmit s st k => Emit s st (fun r => resolve (k (Returned r)) h)
  end.

(** C84: run from a given state, code that does not catch panics behaves towards every writer as
    some code without side effects, so everything proved about the latter applies.  Code that
    does catch them behaves so towards writers that do not panic. *)
Theorem C84_as_pure {H} (p : eprog H) (h : H) :
  exists q : wprog, forall W (ws : write_fn W),
    uncaught p \/ returns ws ->
    forall w, exists h', erun ws p w h = (fst (run ws q w), h', snd (run ws q w)).
Proof.
  exists (resolve p h). intros W ws [Hu|Hr].
  - revert h. induction Hu as [r|c|k _ IH|h' p _ IH|s st k _ IH Hc]; intros h w; cbn [erun resolve run fst snd];
      eauto.
    destruct (ws w s st) as [w1 [r|[|]]]; [apply IH| |eexists; reflexivity].
    rewrite Hc. cbn. eauto.
  - revert h. induction p as [r|c|k IH|h' p IH|s st k IH]; intros h w; cbn [erun resolve run fst snd]; eauto.
    destruct (Hr w s st) as [r E]. destruct (ws w s st) as [w1 o]. cbn in E. subst o. apply IH.
Qed.
Print Assumptions C84_as_pure.

(** C84: the side effects and the writes made do not depend on the output backend. *)
Theorem C84_backend {H} (p : eprog H) (h : H) :
  exists (writes : history) (h' : H) (o : outcome), forall W (ws : write_fn W),
    infallible ws -> forall w, erun ws p w h = (fst (play ws writes w), h', o).
Proof.
  revert h. induction p as [r|c|k IH|h' p IH|s st k IH]; intros h.
  - exists [], h, (Returned r). reflexivity.
  - exists [], h, (Crashed c). reflexivity.
  - apply IH.
  - apply IH.
  - destruct (IH (Returned Ok) h) as (e & h' & o & E). exists ((s, st) :: e), h', o. intros W ws Hi w.
    cbn [erun play]. specialize (Hi w s st) as Hw. destruct (ws w s st) as [w1 o1]. cbn in Hw. subst o1. now apply E.
Qed.
Print Assumptions C84_backend.

(** * The two models agree *)
Lemma pure_run {H W} (ws : write_fn W) (p : wprog) w (h : H) :
  erun ws (pure_code p) w h = (fst (run ws p w), h, snd (run ws p w)).
Proof.
  revert w. induction p as [r|c|s st k IH]; intros w; cbn [pure_code erun run fst snd]; [reflexivity..|].
  destruct (ws w s st) as [w1 [r|[|]]]; [apply IH|reflexivity..].
Qed.
Lemma pure_proxy {H W} (ws : write_fn W) f (p : sprog) w (h : H) :
  erun ws (ethrough_proxy f (pure_std p)) w h
  = (fst (run ws (through_proxy f p) w), h, snd (run ws (through_proxy f p) w)).
Proof.
  revert w. induction p as [r|c|s k IH]; intros w; cbn [pure_std ethrough_proxy erun through_proxy run fst snd]; [reflexivity..|].
  cbn. destruct (ws w s (fm_style f)) as [w1 [[|]|[|]]]; [apply IH|apply IH|reflexivity..].
Qed.
Lemma run_bind' {W} (ws : write_fn W) p k w :
  run ws (bind p k) w = match run ws p w with (w1, Returned r) => run ws (k r) w1 | (w1, Crashed c) => (w1, Crashed c) end.
Proof.
  revert w. induction p as [r|c|s st k' IH]; intros w; cbn [bind run]; [reflexivity..|].
  destruct (ws w s st) as [w1 [r|c]]; [apply IH|reflexivity].
Qed.
Lemma pure_wrapped {H W} (ws : write_fn W) x v f w (h : H) :
  erun ws (ewrapped_display x (pure_value v) f) w h
  = (fst (run ws (wrapped_display x v f) w), h, snd (run ws (wrapped_display x v f) w)).
Proof.
  destruct x; [exact (pure_run ws (v_stylish v f) w h)| |].
  - change (ewrapped_display (WStdDebug t) (pure_value v) f) with (EDisplay_StdFmtDebug (fun fl => pure_std (H := H) (v_std v t fl)) f).
    change (wrapped_display (WStdDebug t) v f) with (Display_StdFmtDebug (v_std v t) f).
    rewrite edisplay_debug, display_debug. apply pure_proxy.
  - change (ewrapped_display (WStdOther t) (pure_value v) f) with (EDisplay_StdFmtOther (fun fl => pure_std (H := H) (v_std v t fl)) f).
    change (wrapped_display (WStdOther t) v f) with (Display_StdFmtOther (v_std v t) f).
    rewrite edisplay_other, display_other. apply pure_proxy.
Qed.
Lemma pure_exec {H W} (ws : write_fn W) (pv nv iv : list value_t) ss f : forall w (h : H),
  erun ws (eexec_stmts (mk_etuples (map pure_value pv) (map pure_value nv) (map pure_value iv)) ss f) w h
  = (fst (run ws (exec_stmts (mk_tuples pv nv iv) ss f) w), h, snd (run ws (exec_stmts (mk_tuples pv nv iv) ss f) w)).
Proof.
  assert (G : forall (p : eprog H) (p' : wprog) q q',
    (forall w h, erun ws p w h = (fst (run ws p' w), h, snd (run ws p' w))) ->
    (forall w h, erun ws q w h = (fst (run ws q' w), h, snd (run ws q' w))) ->
    forall w h, erun ws (etry p q) w h = (fst (run ws (try_ p' q') w), h, snd (run ws (try_ p' q') w))).
  { intros p p' q q' Hp Hq w h. unfold etry, try_. rewrite erun_bind, run_bind', Hp.
    destruct (run ws p' w) as [w1 [[|]|c]]; cbn [fst snd]; [apply Hq|reflexivity..]. }
  induction ss as [|[s|x pl fa st] ss IH]; intros w h; cbn [eexec_stmts exec_stmts].
  - reflexivity.
  - apply G; [|exact IH]. clear. intros w h. cbn. destruct (ws w s (fm_style f)) as [w1 [[|]|[|]]]; reflexivity.
  - assert (E : eplace_value (mk_etuples (map pure_value pv) (map pure_value nv) (map pure_value iv)) pl
             = option_map (pure_value (H := H)) (place_value (mk_tuples pv nv iv) pl))
      by (destruct pl; cbn; apply nth_error_map).
    rewrite E. destruct (place_value (mk_tuples pv nv iv) pl) as [v|]; cbn [option_map]; [|reflexivity].
    apply G; [|exact IH]. intros. apply pure_wrapped.
Qed.

Definition pure_expr {H} (e : expr H) : eexpr H := fun h => pure_result (e h).
Lemma pure_tuple {H} (es : list (expr H)) h :
  eeval_tuple (map pure_expr es) h
  = (fst (eval_tuple es h), option_map (map (pure_value (H := H))) (snd (eval_tuple es h))).
Proof.
  revert h. induction es as [|e es IH]; intros h; cbn [map eeval_tuple eval_tuple]; [reflexivity|].
  unfold pure_expr at 1, pure_result. destruct (e h) as [h1 [v|]]; cbn [fst snd option_map]; [|reflexivity].
  rewrite IH. destruct (eval_tuple es h1) as [h2 [vs|]]; reflexivity.
Qed.

Lemma conservative {H} (c : code (expr H)) (scope : str -> value_t) (h : H) :
  let c' := mk_code (map pure_expr (c_positional c)) (map pure_expr (c_named c)) (c_implicit c) (c_stmts c) in
  let '(h1, r) := eval_code scope c h in
  let '(h2, r') := eeval_code (fun n => pure_value (scope n)) c' h in
  h2 = h1 /\
  match r, r' with
  | Some args, Some args' =>
      forall W (ws : write_fn W) f w h0,
        erun ws (args' f) w h0 = (fst (run ws (args f) w), h0, snd (run ws (args f) w))
  | None, None => True
  | _, _ => False
  end.
Proof.
  cbv zeta. unfold eval_code, eeval_code. cbn [c_positional c_named c_implicit c_stmts]. rewrite pure_tuple.
  destruct (eval_tuple (c_positional c) h) as [h1 [pv|]]; cbn [fst snd option_map]; [|auto].
  rewrite pure_tuple. destruct (eval_tuple (c_named c) h1) as [h2 [nv|]]; cbn [fst snd option_map]; [|auto].
  split; [reflexivity|]. intros W ws f w h0. rewrite <- (map_map scope pure_value). apply pure_exec.
Qed.

(** C84: for values without side effects this is the model of the other properties: the same
    calls are accepted, with the same results. *)
Theorem C84_conservative {H} (xid_start xid_continue : char -> bool) (s : str) (pos : list (expr H))
  (named : list (str * expr H)) (scope : str -> value_t) :
  match format_args_impl xid_start xid_continue s pos named,
        format_args_impl xid_start xid_continue s (map pure_expr pos)
          (map (fun ne => (fst ne, pure_expr (snd ne))) named) with
  | Expanded c, Expanded c' =>
      forall h, 
      let '(h1, r) := eval_code scope c h in
      let '(h2, r') := eeval_code (fun n => pure_value (scope n)) c' h in
      h2 = h1 /\
      match r, r' with
      | Some args, Some args' =>
          forall W (ws : write_fn W) f w h0,
            erun ws (args' f) w h0 = (fst (run ws (args f) w), h0, snd (run ws (args f) w))
      | None, None => True
      | _, _ => False
      end
  | CompileError, CompileError => True
  | _, _ => False
  end.
Proof.
  unfold format_args_impl. destruct (parse_format xid_start xid_continue s) as [[|x r] ps| | |]; auto.
  unfold generate. rewrite map_length, map_map. cbn [fst].
  change (map (fun x : str * expr H => fst x) named) with (map fst named).
  destruct (gen_pieces (length pos) (map fst named) ps gen_init) as [[g ss]|]; [|exact I].
  destruct (all_used (length pos) (map fst named) g); [|exact I].
  rewrite map_map. cbn [snd]. rewrite <- (map_map snd pure_expr).
  intros h. exact (conservative (mk_code pos (map snd named) (g_implicit g) ss) scope h).
Qed.
Print Assumptions C84_conservative.

(** A counter that shows its value and counts up, used twice by its index; the second argument
    expression sets it; a value that catches a panic. *)
Definition counter : evalue N :=
  mk_evalue (fun _ _ => ESGet (fun n => ESPut (n + 1)%N (ESEmit [48 + n]%N (fun o => match o with Returned r => ESRet r | Crashed c => ESAbort c end))))
            (fun f => ERet Err).
Example C84_nonvacuous :
  match format_args_impl ascii_start ascii_continue (lit "{0} {1:(fg=red)} {0}")
          [(fun n => (n, Some counter)); (fun n => (n + 5, Some counter))%N] [] with
  | Expanded c =>
      match eeval_code (fun _ => counter) c 0%N with
      | (h, Some args) =>
          (h, edefault_write_fmt (ansi_write_str string_sink) (ansi_new []) h args)
      | (h, None) => (h, (ansi_new [], h, Returned Err))
      end
  | CompileError => (0%N, (ansi_new [], 0%N, Returned Err))
  end
  = (5%N, (mk_ansi (lit "5 " ++ [27%N] ++ lit "[31m6" ++ [27%N] ++ lit "[0m 7") style_default, 8%N, Returned Ok)).
Proof. vm_compute. reflexivity. Qed.

Example C84_as_pure_nonvacuous :
  uncaught (std_code style_default (ev_std counter TDisplay (std_flags_of fargs_default None))) /\
  returns (ansi_write_str string_sink).
Proof.
  split.
  - constructor. intros n. constructor. constructor; [intros r; constructor|reflexivity].
  - intros w s st. unfold ansi_write_str. destruct (is_empty s); [now exists Ok|].
    destruct (write_parts string_sink (ansi_change (an_current w) st) (an_inner w)) as [i o] eqn:E.
    assert (G : forall l x, exists y, write_parts string_sink l x = (y, Returned Ok)).
    { induction l as [|a l IH]; intros x; cbn; eauto. }
    destruct (G (ansi_change (an_current w) st) (an_inner w)) as [y Ey]. rewrite Ey in E. injection E as <- <-.
    cbn. now exists Ok.
Qed.
