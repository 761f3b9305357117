(** Facts about [Endless]. *)
From Verif Require Import Base Style Fmt SpecStd StdCompat Nom Parse Codegen SpecText TextFacts StyleFacts
  StdFacts SpecGrammar ParseFacts SpecFacts GrammarFacts SpecMeaning CodegenFacts MacroFacts
  Endless SpecEndless.

(** * Unfolding *)
Definition lid {H} (p : lprog H) : lprog H :=
  match p with
  | LRet r => LRet r | LAbort c => LAbort c | LGet k => LGet k | LPut h p => LPut h p
  | LEmit s st k => LEmit s st k
  end.
Lemma lid_eq {H} (p : lprog H) : p = lid p.
Proof. destruct p; reflexivity. Qed.

Section Bind.
Context {H : Type}.
Implicit Types p q : lprog H.
Lemma lbind_ret r k : lbind (LRet r : lprog H) k = k r.
Proof.
  rewrite (lid_eq (lbind _ _)). transitivity (lid (k r)); [|symmetry; apply lid_eq].
  unfold lid. cbn. destruct (k r); reflexivity.
Qed.
Lemma lbind_abort c k : lbind (LAbort c : lprog H) k = LAbort c.
Proof. rewrite (lid_eq (lbind _ _)). reflexivity. Qed.
Lemma lbind_get k' k : lbind (LGet k' : lprog H) k = LGet (fun h => lbind (k' h) k).
Proof. rewrite (lid_eq (lbind _ _)). reflexivity. Qed.
Lemma lbind_put h p k : lbind (LPut h p) k = LPut h (lbind p k).
Proof. rewrite (lid_eq (lbind _ _)). reflexivity. Qed.
Lemma lbind_emit s st k' k : lbind (LEmit s st k' : lprog H) k = LEmit s st (fun o => lbind (k' o) k).
Proof. rewrite (lid_eq (lbind _ _)). reflexivity. Qed.

Context {W : Type} (ws : write_fn W).
Lemma leads_trans p w h q w1 h1 r w2 h2 :
  leads ws p w h q w1 h1 -> leads ws q w1 h1 r w2 h2 -> leads ws p w h r w2 h2.
Proof. induction 1; [auto|intros; eapply le_step; eauto]. Qed.
Lemma leads_ended p w h q w' h' : leads ws p w h q w' h' -> ended p <> None -> q = p /\ w' = w /\ h' = h.
Proof.
  intros L E. destruct L as [|p w h p1 w1 h1 q w' h' S L]; [auto|]. exfalso. destruct S; cbn in E; congruence.
Qed.

Lemma leads_bind p w h q w' h' k : leads ws p w h q w' h' -> leads ws (lbind p k) w h (lbind q k) w' h'.
Proof.
  induction 1 as [|p w h p1 w1 h1 q w' h' S L IH]; [constructor|].
  eapply le_step; [|exact IH]. destruct S as [k' w h|h1 p w h|s st k' w h w1 o E N].
  - rewrite lbind_get. apply (ls_get _ ws (fun h => lbind (k' h) k)).
  - rewrite lbind_put. constructor.
  - rewrite lbind_emit. exact (ls_emit _ ws s st (fun o => lbind (k' o) k) w h w1 o E N).
Qed.
Lemma bind_leads p w h q w' h' k : leads ws (lbind p k) w h q w' h' ->
  (exists p', leads ws p w h p' w' h' /\ q = lbind p' k) \/
  (exists r w1 h1, leads ws p w h (LRet r) w1 h1 /\ leads ws (k r) w1 h1 q w' h').
Proof.
  intros L. remember (lbind p k) as b eqn:Eb. revert p Eb.
  induction L as [b w h|b w h p1 w1 h1 q w' h' S L IH]; intros p ->.
  - left. exists p. split; [constructor|reflexivity].
  - destruct p as [r|c|k'|h2 p|s st k'].
    + rewrite lbind_ret in S. right. exists r, w, h. split; [constructor|]. eapply le_step; eassumption.
    + rewrite lbind_abort in S. inversion S.
    + rewrite lbind_get in S. inversion S; subst.
      destruct (IH (k' h1) eq_refl) as [(p' & A & B)|(r & w2 & h2 & A & B)].
      * left. exists p'. split; [eapply le_step; [constructor|exact A]|exact B].
      * right. exists r, w2, h2. split; [eapply le_step; [constructor|exact A]|exact B].
    + rewrite lbind_put in S. inversion S; subst.
      destruct (IH p eq_refl) as [(p' & A & B)|(r & w2 & h3 & A & B)].
      * left. exists p'. split; [eapply le_step; [constructor|exact A]|exact B].
      * right. exists r, w2, h3. split; [eapply le_step; [constructor|exact A]|exact B].
    + rewrite lbind_emit in S. inversion S as [| |s' st' k2 w2 h2 w3 o E N]; subst.
      destruct (IH (k' o) eq_refl) as [(p' & A & B)|(r & w2 & h2 & A & B)].
      * left. exists p'. split; [eapply le_step; [constructor; eassumption|exact A]|exact B].
      * right. exists r, w2, h2. split; [eapply le_step; [constructor; eassumption|exact A]|exact B].
Qed.
Lemma ended_bind p k : (forall r, p <> LRet r) -> ended (lbind p k) = ended p.
Proof.
  intros N. destruct p as [r|c|k'|h p|s st k']; [now destruct (N r)| | | |].
  - now rewrite lbind_abort.
  - now rewrite lbind_get.
  - now rewrite lbind_put.
  - now rewrite lbind_emit.
Qed.
Lemma ended_ok p : ended p = Some (Returned Ok) -> p = LRet Ok.
Proof. destruct p; cbn; congruence. Qed.

(** Code that cannot be told apart. *)
Definition alike p p' : Prop :=
  (forall w h q w' h', leads ws p w h q w' h' -> exists q', leads ws p' w h q' w' h' /\ ended q' = ended q) /\
  (forall w h q w' h', leads ws p' w h q w' h' -> exists q', leads ws p w h q' w' h' /\ ended q' = ended q).

(** Code that runs parts one after the other. *)
Definition runs_parts (parts : list (lprog H)) p : Prop :=
  (forall w h q w' h', leads ws p w h q w' h' -> progress ws parts w h (ended q) w' h') /\
  (forall w h o w' h', progress ws parts w h o w' h' -> exists q, leads ws p w h q w' h' /\ ended q = o).

Lemma runs_nil : runs_parts [] (LRet Ok).
Proof.
  split.
  - intros w h q w' h' L. apply leads_ended in L as (-> & -> & ->); [constructor|discriminate].
  - intros w h o w' h' P. inversion P; subst. eexists. split; [constructor|reflexivity].
Qed.

Lemma runs_cons p p' parts q : alike p' p -> runs_parts parts q -> runs_parts (p' :: parts) (ltry p q).
Proof.
  intros [A1 A2] [R1 R2]. unfold ltry. split.
  - intros w h x w' h' L. apply bind_leads in L as [(y & L & ->)|(r & w1 & h1 & L & L2)].
    + destruct (A2 _ _ _ _ _ L) as (y' & L' & E).
      destruct y as [[|]|c|k|h2 y|s st k].
      * rewrite lbind_ret. apply ended_ok in E. subst y'. eapply pr_next; [exact L'|]. apply R1. constructor.
      * rewrite lbind_ret. cbn [ended] in *. rewrite <- E. apply pr_within; [exact L'|congruence].
      * rewrite lbind_abort. cbn [ended] in *. rewrite <- E. apply pr_within; [exact L'|congruence].
      * rewrite lbind_get. cbn [ended] in *. rewrite <- E. apply pr_within; [exact L'|congruence].
      * rewrite lbind_put. cbn [ended] in *. rewrite <- E. apply pr_within; [exact L'|congruence].
      * rewrite lbind_emit. cbn [ended] in *. rewrite <- E. apply pr_within; [exact L'|congruence].
    + destruct (A2 _ _ _ _ _ L) as (y' & L' & E). destruct r.
      * apply ended_ok in E. subst y'. eapply pr_next; [exact L'|]. now apply R1.
      * apply leads_ended in L2 as (-> & -> & ->); [|discriminate]. cbn [ended] in *. rewrite <- E.
        apply pr_within; [exact L'|congruence].
  - intros w h o w' h' P. inversion P as [|p0 parts0 w0 h0 y w0' h0' L N|p0 parts0 w0 h0 w1 h1 o0 w0' h0' L P']; subst.
    + destruct (A1 _ _ _ _ _ L) as (y' & L' & E).
      eexists. split; [apply leads_bind; exact L'|]. rewrite <- E. rewrite <- E in N.
      destruct y' as [[|]|c|k|h2 y'|s st k]; [now destruct N| | | | |].
      * now rewrite lbind_ret.
      * now rewrite lbind_abort.
      * now rewrite lbind_get.
      * now rewrite lbind_put.
      * now rewrite lbind_emit.
    + destruct (A1 _ _ _ _ _ L) as (y' & L' & E). apply ended_ok in E. subst y'.
      destruct (R2 _ _ _ _ _ P') as (z & Lz & Ez). exists z. split; [|exact Ez].
      eapply leads_trans; [apply leads_bind; exact L'|]. rewrite lbind_ret. exact Lz.
Qed.

Lemma alike_refl p : alike p p.
Proof. split; intros w h q w' h' L; exists q; auto. Qed.
Lemma alike_write f s : alike (lwrite_text (fm_style f) s) (lformatter_write_str f s).
Proof.
  unfold lwrite_text, lformatter_write_str, ltry. rewrite lbind_emit. split; intros w h q w' h' L;
    inversion L as [|a1 a2 a3 p1 w1 h1 a4 a5 a6 S L']; subst.
  - eexists. split; [apply le_here|reflexivity].
  - inversion S as [| |b1 b2 b3 b4 b5 b6 o E N]; subst.
    assert (X : ended q = Some o /\ w' = w1 /\ h' = h1).
    { destruct o as [[|]|c]; apply leads_ended in L' as (-> & -> & ->); try discriminate; auto. }
    destruct X as (X & -> & ->). rewrite X. eexists. split.
    + eapply le_step; [eapply ls_emit; eassumption|]. apply le_here.
    + destruct o as [[|]|c]; cbn [lunwind]; [rewrite lbind_ret|rewrite lbind_ret|rewrite lbind_abort]; reflexivity.
  - eexists. split; [apply le_here|reflexivity].
  - inversion S as [| |b1 b2 b3 b4 b5 b6 o E N]; subst. 
    assert (X : ended q = Some o /\ w' = w1 /\ h' = h1).
    { destruct o as [[|]|c]; cbn [lunwind] in L'; [rewrite lbind_ret in L'|rewrite lbind_ret in L'|rewrite lbind_abort in L'];
        apply leads_ended in L' as (-> & -> & ->); try discriminate; auto. }
    destruct X as (X & -> & ->). rewrite X. eexists. split.
    + eapply le_step; [eapply ls_emit; eassumption|]. apply le_here.
    + destruct o as [[|]|c]; reflexivity.
Qed.
End Bind.

(** * std code *)
Section Proxy.
Context {H : Type}.
Implicit Types p : lsprog H.
Lemma lstd_code_eq st p : lstd_code st p =
  match p with
  | LSRet r => LRet r
  | LSAbort c => LAbort c
  | LSGet k => LGet (fun h => lstd_code st (k h))
  | LSPut h p' => LPut h (lstd_code st p')
  | LSEmit s k => LEmit s st (fun o => lstd_code st (k o))
  end.
Proof. rewrite (lid_eq (lstd_code st p)) at 1. destruct p; reflexivity. Qed.
Lemma lthrough_proxy_eq f p : lthrough_proxy f p =
  match p with
  | LSRet r => LRet r
  | LSAbort c => LAbort c
  | LSGet k => LGet (fun h => lthrough_proxy f (k h))
  | LSPut h p' => LPut h (lthrough_proxy f p')
  | LSEmit s k => LEmit s (fm_style f) (fun o => lthrough_proxy f (k o))
  end.
Proof. rewrite (lid_eq (lthrough_proxy f p)) at 1. destruct p; reflexivity. Qed.

Lemma alike_proxy {W} (ws : write_fn W) f p : alike ws (lstd_code (fm_style f) p) (lthrough_proxy f p).
Proof.
  split.
  - intros w h q w' h' L.
    cut (exists p', q = lstd_code (fm_style f) p' /\ leads ws (lthrough_proxy f p) w h (lthrough_proxy f p') w' h').
    { intros (p' & -> & L'). exists (lthrough_proxy f p'). split; [exact L'|].
      rewrite lthrough_proxy_eq, lstd_code_eq. now destruct p'. }
    remember (lstd_code (fm_style f) p) as x eqn:Ex. revert p Ex.
    induction L as [x w h|x w h p1 w1 h1 q w' h' S L IH]; intros p ->.
    + exists p. split; [reflexivity|constructor].
    + rewrite lstd_code_eq in S. rewrite lthrough_proxy_eq.
      destruct p as [r|c|k|h2 p|s k]; inversion S; subst.
      * destruct (IH (k h1) eq_refl) as (p' & -> & L'). exists p'. split; [reflexivity|].
        eapply le_step; [apply ls_get|exact L'].
      * destruct (IH p eq_refl) as (p' & -> & L'). exists p'. split; [reflexivity|].
        eapply le_step; [apply ls_put|exact L'].
      * destruct (IH (k o) eq_refl) as (p' & -> & L'). exists p'. split; [reflexivity|].
        eapply le_step; [eapply ls_emit; eassumption|exact L'].
  - intros w h q w' h' L.
    cut (exists p', q = lthrough_proxy f p' /\ leads ws (lstd_code (fm_style f) p) w h (lstd_code (fm_style f) p') w' h').
    { intros (p' & -> & L'). exists (lstd_code (fm_style f) p'). split; [exact L'|].
      rewrite lthrough_proxy_eq, lstd_code_eq. now destruct p'. }
    remember (lthrough_proxy f p) as x eqn:Ex. revert p Ex.
    induction L as [x w h|x w h p1 w1 h1 q w' h' S L IH]; intros p ->.
    + exists p. split; [reflexivity|constructor].
    + rewrite lthrough_proxy_eq in S. rewrite lstd_code_eq.
      destruct p as [r|c|k|h2 p|s k]; inversion S; subst.
      * destruct (IH (k h1) eq_refl) as (p' & -> & L'). exists p'. split; [reflexivity|].
        eapply le_step; [apply ls_get|exact L'].
      * destruct (IH p eq_refl) as (p' & -> & L'). exists p'. split; [reflexivity|].
        eapply le_step; [apply ls_put|exact L'].
      * destruct (IH (k o) eq_refl) as (p' & -> & L'). exists p'. split; [reflexivity|].
        eapply le_step; [eapply ls_emit; eassumption|exact L'].
Qed.

Lemma lstd_write_dispatch arms f (val : lstd_display H) k fl :
  dispatch arms (fm_format f) = Some (k, fl) -> lstd_write arms f val = lthrough_proxy f (val fl).
Proof.
  unfold dispatch, lstd_write. destruct (select arms (fm_format f)) as [[l env]|]; [|discriminate].
  intros ->. reflexivity.
Qed.
Lemma ldisplay_other (val : lstd_display H) f :
  LDisplay_StdFmtOther val f = lthrough_proxy f (val (std_flags_of (fm_format f) None)).
Proof. eapply lstd_write_dispatch, dispatch_other. Qed.
Lemma ldisplay_debug (val : lstd_display H) f :
  LDisplay_StdFmtDebug val f
  = lthrough_proxy f (val (std_flags_of (fm_format f) (fa_debug_hex (fm_format f)))).
Proof. eapply lstd_write_dispatch, dispatch_debug. Qed.

Lemma lother {W} (ws : write_fn W) (val : lstd_display H) st fa :
  alike ws (lstd_code st (val (std_flags_of fa None))) (LDisplay_StdFmtOther val (mk_formatter st fa)).
Proof. rewrite ldisplay_other. exact (alike_proxy ws (mk_formatter st fa) _). Qed.
Lemma ldebug {W} (ws : write_fn W) (val : lstd_display H) st fa :
  alike ws (lstd_code st (val (std_flags_of fa (fa_debug_hex fa)))) (LDisplay_StdFmtDebug val (mk_formatter st fa)).
Proof. rewrite ldisplay_debug. exact (alike_proxy ws (mk_formatter st fa) _). Qed.

Lemma lwrapped_trait {W} (ws : write_fn W) tr (v : lvalue H) st fa :
  alike ws (lcode_of tr v st fa) (lwrapped_display (wrap_tokens tr) v (mk_formatter st fa)).
Proof.
  destruct tr; cbn [wrap_tokens lwrapped_display lcode_of];
    [exact (lother ws (lv_std v TDisplay) st fa) | exact (ldebug ws (lv_std v TDebug) st fa)
    | exact (lother ws (lv_std v TOctal) st fa) | exact (lother ws (lv_std v TLowerHex) st fa)
    | exact (lother ws (lv_std v TUpperHex) st fa) | exact (lother ws (lv_std v TPointer) st fa)
    | exact (lother ws (lv_std v TBinary) st fa) | exact (lother ws (lv_std v TLowerExp) st fa)
    | exact (lother ws (lv_std v TUpperExp) st fa) | apply alike_refl].
Qed.
End Proxy.

(** * Statements *)
Section Run.
Context {H : Type}.
Variables (pos : list (lvalue H)) (named : list (str * lvalue H)) (scope : str -> lvalue H).

Lemma lgen_place_uses arg g g' pl imps :
  gen_place (length pos) (map fst named) arg g = Some (g', pl) ->
  (exists l, imps = g_implicit g' ++ l) ->
  exists v, lplace_value (mk_ltuples pos (map snd named) (map scope imps)) pl = Some v /\
            luses pos named scope (g_next g) arg v.
Proof.
  intros E [l Hl]. unfold gen_place in E. destruct arg as [[i|n]|].
  - destruct (N.leb_spec (N.of_nat (length pos)) i) as [|Hlt]; [discriminate|]. injection E as <- <-.
    cbn. destruct (nth_error pos (N.to_nat i)) as [v|] eqn:E.
    + exists v. split; [reflexivity|now constructor].
    + apply nth_error_None in E. lia.
  - destruct (named_index (map fst named) n) as [j|] eqn:En.
    + injection E as <- <-. apply named_index_some in En as (b & a & E & Hn & ->).
      assert (X : exists b' v a', named = b' ++ (n, v) :: a' /\ length b' = length b /\ map fst a' = a).
      { clear Hn Hl. revert b E. induction named as [|[m v] nm IH]; intros [|x b]; cbn; try discriminate.
        - intros [= -> <-]. exists [], v, nm. auto.
        - intros [= -> E]. apply IH in E as (b' & v' & a' & -> & Hb & Ha).
          exists ((x, v) :: b'), v', a'. cbn. auto. }
      destruct X as (b' & v & a' & -> & Hb & <-). exists v. split.
      * cbn. rewrite <- Hb, map_app. cbn. rewrite nth_error_app2, map_length, Nat.sub_diag; [reflexivity|].
        now rewrite map_length.
      * now apply lu_named with b' a'.
    + destruct (cannot_be_raw n); [discriminate|]. injection E as <- <-.
      apply named_index_none in En. exists (scope n). split; [|now constructor].
      subst imps. cbn. rewrite !map_app. cbn.
      rewrite nth_error_app1 by (rewrite app_length, map_length; cbn; lia).
      rewrite nth_error_app2, map_length, Nat.sub_diag; [reflexivity|]. now rewrite map_length.
  - destruct (Nat.ltb_spec (g_next g) (length pos)) as [Hlt|]; [|discriminate]. injection E as <- <-.
    cbn. destruct (nth_error pos (g_next g)) as [v|] eqn:E.
    + exists v. split; [reflexivity|now constructor].
    + apply nth_error_None in E. lia.
Qed.

Lemma gen_pieces_lcalls ps g g' ss imps f :
  Forall good_piece ps ->
  gen_pieces (length pos) (map fst named) ps g = Some (g', ss) ->
  (exists l, imps = g_implicit g' ++ l) ->
  exists parts, lcalls pos named scope (fm_style f) (g_next g) ps parts /\
    forall W (ws : write_fn W),
      runs_parts ws parts (lexec_stmts (mk_ltuples pos (map snd named) (map scope imps)) ss f).
Proof.
  intros Hg. revert g ss. induction Hg as [|p ps Hp Hps IH]; intros g ss; cbn [gen_pieces].
  - intros [= <- <-] _. exists []. split; [constructor|]. intros W ws. apply runs_nil.
  - destruct (gen_piece (length pos) (map fst named) p g) as [[g1 s1]|] eqn:E1; [|discriminate].
    destruct (gen_pieces (length pos) (map fst named) ps g1) as [[g2 ss']|] eqn:E2; [|discriminate].
    intros [= <- <-] Himp.
    destruct (IH _ _ E2 Himp) as (parts & Hm & Hex).
    destruct p as [s|[arg [fargs st tr]]]; cbn [gen_piece] in E1.
    + injection E1 as <- <-. exists (lwrite_text (fm_style f) s :: parts). split; [now constructor|].
      intros W ws. cbn [lexec_stmts]. rewrite replace2_plain by exact Hp.
      apply runs_cons; [apply alike_write|apply Hex].
    + destruct (gen_place (length pos) (map fst named) arg g) as [[gx pl]|] eqn:Epl; [|discriminate].
      destruct (fargs_tokens fargs) as [fa|] eqn:Ef; [|discriminate].
      cbn in Hp. unfold known_style in Hp. rewrite Hp in E1. injection E1 as -> <-.
      apply fargs_tokens_some in Ef as (-> & _ & _).
      assert (Himp1 : exists l, imps = g_implicit g1 ++ l).
      { apply gen_pieces_used in E2 as [_ _ _ [l2 Hl2]]. destruct Himp as [l ->].
        exists (l2 ++ l). now rewrite Hl2, app_assoc. }
      destruct (lgen_place_uses _ _ _ _ _ Epl Himp1) as (v & Hv & Hu).
      apply gen_place_used with (spec := mk_spec fargs st tr) in Epl as [Hn _ _ _].
      exists (lcode_of tr v (override st (fm_style f)) (spelled_flags fargs) :: parts).
      split.
      * apply (lc_arg pos named scope (fm_style f) (g_next g) (mk_farg arg (mk_spec fargs st tr)) v ps parts Hu).
        cbn [fa_arg]. rewrite Hn in Hm. cbn in Hm.
        destruct arg; cbn in Hm; [now rewrite Nat.add_0_r in Hm|now rewrite Nat.add_1_r in Hm].
      * intros W ws. cbn [lexec_stmts]. rewrite Hv, with_args_override.
        apply runs_cons; [apply lwrapped_trait|apply Hex].
Qed.
End Run.

Lemma leval_tuple_app {H} (a b : list (lexpr H)) h h1 h2 vs ws :
  leval_tuple a h = (h1, Some vs) -> leval_tuple b h1 = (h2, Some ws) ->
  levaluated (a ++ b) h h2 (vs ++ ws) /\ length vs = length a.
Proof.
  revert h vs; induction a as [|e a IH]; intros h vs; cbn [leval_tuple app].
  - intros [= <- <-] Hb. split; [|reflexivity]. revert h ws Hb. induction b as [|e b IHb]; intros h ws; cbn [leval_tuple].
    + intros [= <- <-]. constructor.
    + destruct (e h) as [h3 [v|]] eqn:E1; [|discriminate].
      destruct (leval_tuple b h3) as [h4 [vs'|]] eqn:E; [|discriminate]. intros [= -> <-].
      econstructor; [exact E1|now apply IHb].
  - destruct (e h) as [h3 [v|]] eqn:E1; [|discriminate].
    destruct (leval_tuple a h3) as [h4 [vs'|]] eqn:E; [|discriminate]. intros [= -> <-] Hb.
    destruct (IH h3 vs' E Hb) as [I1 I2]. split; [econstructor; eauto|]. cbn. now rewrite I2.
Qed.
Lemma levaluated_length {H} (es : list (lexpr H)) h h' vs : levaluated es h h' vs -> length vs = length es.
Proof. induction 1; cbn; congruence. Qed.
