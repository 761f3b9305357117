(** Facts about reading and printing argument expressions (C97). *)
From Verif Require Import Base Parse Codegen Macros Exprs.

Scheme pre_ind := Induction for reads_pre Sort Prop
  with post_ind := Induction for reads_post Sort Prop
  with re_ind := Induction for reads Sort Prop
  with range_ind := Induction for reads_range Sort Prop
  with ops_ind := Induction for reads_ops Sort Prop.
Combined Scheme reads_mutind from pre_ind, post_ind, re_ind, range_ind, ops_ind.

(** ** Printing is faithful *)
Lemma print_reads_all :
  (forall ts e r, reads_pre ts e r -> ts = print e ++ r) /\
  (forall a ts e r, reads_post a ts e r -> print a ++ ts = print e ++ r) /\
  (forall n ts e r, reads n ts e r -> ts = print e ++ r) /\
  (forall ts e r, reads_range ts e r -> ts = print e ++ r) /\
  (forall n l ts e r, reads_ops n l ts e r -> print l ++ ts = print e ++ r).
Proof.
  apply reads_mutind; cbn [print]; intros; subst; cbn [app]; rewrite <- ?app_assoc; cbn [app]; auto.
  - rewrite <- H0. cbn. rewrite <- app_assoc. reflexivity.
  - rewrite <- H. rewrite <- app_assoc. reflexivity.
  - rewrite <- H0. cbn. rewrite <- app_assoc. reflexivity.
  - rewrite <- H. rewrite <- app_assoc. reflexivity.
Qed.

(** ** What follows *)
Definition follow (r r' : list otok) : Prop :=
  ender r' \/ exists t q q', r = t :: q /\ r' = t :: q'.
Lemma ender_stops n ts : ender ts -> stops n ts.
Proof.
  destruct ts as [|[] ts]; cbn; try tauto; intros _; split; intros x E; try discriminate; destruct x; discriminate.
Qed.
Lemma follow_stops n r r' : follow r r' -> stops n r -> stops n r'.
Proof. intros [E|(t & q & q' & -> & ->)]; [intros _; now apply ender_stops|exact (fun h => h)]. Qed.
Lemma follow_post r r' : follow r r' -> no_post r -> no_post r'.
Proof.
  intros [E|(t & q & q' & -> & ->)]; [|exact (fun h => h)]. destruct r' as [|[] ?]; cbn in *; tauto.
Qed.
Lemma follow_ender r r' : follow r r' -> ender r -> ender r'.
Proof. intros [E|(t & q & q' & -> & ->)]; [auto|exact (fun h => h)]. Qed.
Lemma follow_app m r r' : follow r r' -> follow (m ++ r) (m ++ r').
Proof. destruct m as [|t m]; [auto|]. intros _. right. exists t, (m ++ r), (m ++ r'). auto. Qed.

(** Reading does not depend on what follows. *)
Lemma reads_local_all :
  (forall ts e r, reads_pre ts e r -> forall r', follow r r' ->
     exists m, ts = m ++ r /\ reads_pre (m ++ r') e r') /\
  (forall a ts e r, reads_post a ts e r -> forall r', follow r r' ->
     exists m, ts = m ++ r /\ reads_post a (m ++ r') e r') /\
  (forall n ts e r, reads n ts e r -> forall r', follow r r' ->
     exists m, ts = m ++ r /\ reads n (m ++ r') e r') /\
  (forall ts e r, reads_range ts e r -> forall r', follow r r' ->
     exists m, ts = m ++ r /\ reads_range (m ++ r') e r') /\
  (forall n l ts e r, reads_ops n l ts e r -> forall r', follow r r' ->
     exists m, ts = m ++ r /\ reads_ops n l (m ++ r') e r').
Proof.
  apply reads_mutind.
  - intros ts e r _ IH r' F. destruct (IH r' F) as (m & -> & R). exists (KAmp :: m). split; [reflexivity|now constructor].
  - intros ts e r _ IH r' F. destruct (IH r' F) as (m & -> & R). exists (KAmp :: m). split; [reflexivity|now apply rp_ref_range].
  - intros ts e r _ IH r' F. destruct (IH r' F) as (m & -> & R). exists (KAmpMut :: m). split; [reflexivity|now apply rp_refmut_range].
  - intros ts e r _ IH r' F. destruct (IH r' F) as (m & -> & R). exists (KAmpMut :: m). split; [reflexivity|now constructor].
  - intros u ts e r _ IH r' F. destruct (IH r' F) as (m & -> & R). exists (un_tok u :: m). split; [reflexivity|now constructor].
  - intros h ts e r _ IH r' F. destruct (IH r' F) as (m & -> & R). exists (KLow h :: m). split; [reflexivity|now constructor].
  - intros p ts e r _ IH r' F. destruct (IH r' F) as (m & -> & R). exists (KPrim p :: m). split; [reflexivity|now constructor].
  - intros ts e r e' r1 _ IH1 _ IH2 r' F. destruct (IH2 r' F) as (m2 & -> & R2).
    destruct (IH1 (KClose :: m2 ++ r')) as (m1 & -> & R1); [left; exact I|].
    exists (KOpen :: m1 ++ KClose :: m2). split.
    + cbn. rewrite <- app_assoc. reflexivity.
    + cbn. rewrite <- app_assoc. econstructor; eassumption.
  - intros a ts N r' F. exists []. split; [reflexivity|]. constructor. eapply follow_post; eassumption.
  - intros a p ts e r _ IH r' F. destruct (IH r' F) as (m & -> & R). exists (KPost p :: m). split; [reflexivity|now constructor].
  - intros n ts a ts' e r _ IH1 _ IH2 r' F. destruct (IH2 r' F) as (m2 & -> & R2).
    destruct (IH1 (m2 ++ r') (follow_app _ _ _ F)) as (m1 & -> & R1).
    exists (m1 ++ m2). rewrite <- !app_assoc. split; [reflexivity|]. econstructor; eassumption.
  - intros n ts e r _ IH r' F. destruct (IH r' F) as (m & -> & R). exists m. split; [reflexivity|now apply re_range].
  - intros o ts e r N _ IH r' F. destruct (IH r' F) as (m & -> & R). exists (op_tok o :: m). split; [reflexivity|now constructor].
  - intros ts N r' F. exists [op_tok DotDot]. split; [reflexivity|]. constructor. eapply follow_ender; eassumption.
  - intros n l ts S r' F. exists []. split; [reflexivity|]. constructor. eapply follow_stops; eassumption.
  - intros n l o ts a ts' e r L N C _ IH1 _ IH2 r' F. destruct (IH2 r' F) as (m2 & -> & R2).
    destruct (IH1 (m2 ++ r') (follow_app _ _ _ F)) as (m1 & -> & R1).
    exists (op_tok o :: m1 ++ m2). cbn. rewrite <- !app_assoc. split; [reflexivity|]. econstructor; eassumption.
  - intros n l o ts a ts' L N _ IH r' F. destruct (IH r' F) as (m & -> & R).
    exists (op_tok o :: m). split; [reflexivity|]. now constructor.
  - intros n l ts L N r' F. exists [op_tok DotDot]. split; [reflexivity|]. constructor; [exact L|]. eapply follow_ender; eassumption.
  - intros n l ty ts e r L _ IH r' F. destruct (IH r' F) as (m & -> & R). exists (KAs ty :: m). split; [reflexivity|]. now constructor.
Qed.

Definition readable (e : sexpr) : Prop := forall r, ender r -> reads 0 (print e ++ r) e r.
Lemma reads_level n l ts e r : reads_ops n l ts e r -> forall n', n' <= n -> ender r -> reads_ops n' l ts e r.
Proof.
  induction 1; intros n' L' E.
  - constructor. now apply ender_stops.
  - econstructor; eauto. lia.
  - constructor; auto. lia.
  - constructor; [lia|assumption].
  - constructor; [lia|auto].
Qed.
Lemma reads_readable n ts e r : reads n ts e r -> readable e.
Proof.
  intros R r' E. pose proof (proj1 (proj2 (proj2 print_reads_all)) _ _ _ _ R) as P.
  destruct (proj1 (proj2 (proj2 reads_local_all)) _ _ _ _ R r' (or_introl E)) as (m & Q & R').
  rewrite P in Q. apply app_inv_tail in Q as ->. inversion R'; subst; [|now apply re_range].
  econstructor; [eassumption|]. eapply reads_level; [eassumption|lia|exact E].
Qed.

(** ** Reading is a function *)
Lemma op_tok_inj o o' : op_tok o = op_tok o' -> o = o'.
Proof. destruct o, o'; cbn; congruence. Qed.
Lemma op_not_as o ty : op_tok o <> KAs ty.
Proof. destruct o; discriminate. Qed.
Lemma un_tok_inj u u' : un_tok u = un_tok u' -> u = u'.
Proof. destruct u, u'; cbn; congruence. Qed.
Ltac no_un := match goal with H : un_tok ?u = _ |- _ => destruct u; discriminate H | H : _ = un_tok ?u |- _ => destruct u; discriminate H end.
Ltac same_op := match goal with H : op_tok _ = op_tok _ |- _ => apply op_tok_inj in H; subst end.
Ltac not_as := exfalso; match goal with H : op_tok _ = KAs _ |- _ => now apply op_not_as in H | H : KAs _ = op_tok _ |- _ => symmetry in H; now apply op_not_as in H end.
(** Where an argument ends none starts. *)
Ltac no_start := match goal with
  | H : ender (op_tok ?o :: _) |- _ => destruct o; destruct H
  | H : ender (un_tok ?u :: _) |- _ => destruct u; destruct H
  | H : ender _ |- _ => solve [destruct H] end.
Lemma pre_starts ts e r : reads_pre ts e r -> ~ ender ts.
Proof. intros R K. destruct R; no_start. Qed.
Lemma range_starts ts e r : reads_range ts e r -> ~ ender ts.
Proof. intros R K. destruct R; no_start. Qed.
Lemma reads_starts n ts e r : reads n ts e r -> ~ ender ts.
Proof. intros R. destruct R; [eapply pre_starts|eapply range_starts]; eassumption. Qed.
Lemma pre_no_range o ts e r : is_range o = true -> ~ reads_pre (op_tok o :: ts) e r.
Proof. intros N R. inversion R; destruct o; try discriminate; no_un. Qed.
Lemma range_inv ts e r : reads_range ts e r -> exists o ts', ts = op_tok o :: ts' /\ is_range o = true.
Proof. destruct 1; eauto. Qed.
Lemma range_not_pre ts e r e' r' : reads_range ts e r -> ~ reads_pre ts e' r'.
Proof. intros R. destruct (range_inv _ _ _ R) as (o & ts' & -> & N). now apply pre_no_range. Qed.
Ltac clash := exfalso; match goal with
  | H : reads_range ?ts _ _, H' : reads_pre ?ts _ _ |- _ => exact (range_not_pre _ _ _ _ _ H H')
  | H : reads _ ?ts _ _, H' : ender ?ts |- _ => exact (reads_starts _ _ _ _ H H') end.

Lemma reads_det_all :
  (forall ts e r, reads_pre ts e r -> forall e' r', reads_pre ts e' r' -> e = e' /\ r = r') /\
  (forall a ts e r, reads_post a ts e r -> forall e' r', reads_post a ts e' r' -> e = e' /\ r = r') /\
  (forall n ts e r, reads n ts e r -> forall e' r', reads n ts e' r' -> e = e' /\ r = r') /\
  (forall ts e r, reads_range ts e r -> forall e' r', reads_range ts e' r' -> e = e' /\ r = r') /\
  (forall n l ts e r, reads_ops n l ts e r -> forall e' r', reads_ops n l ts e' r' -> e = e' /\ r = r').
Proof.
  apply reads_mutind.
  - intros ts e r Q IH e' r' R. inversion R; subst; try no_un; [|clash]. edestruct IH; [eassumption|]. subst; auto.
  - intros ts e r Q IH e' r' R. inversion R; subst; try no_un; [clash|]. edestruct IH; [eassumption|]. subst; auto.
  - intros ts e r Q IH e' r' R. inversion R; subst; try no_un; [|clash]. edestruct IH; [eassumption|]. subst; auto.
  - intros ts e r Q IH e' r' R. inversion R; subst; try no_un; [clash|]. edestruct IH; [eassumption|]. subst; auto.
  - intros u ts e r _ IH e' r' R.
    inversion R as [ts1 e1 r1 Q E|ts1 e1 r1 Q E|ts1 e1 r1 Q E|ts1 e1 r1 Q E|u1 ts1 e1 r1 Q E|h ts1 e1 r1 Q E|p ts1 e1 r1 Q E|ts1 e1 r1 e2 r2 Q Q2 E]; subst;
      try no_un.
    apply un_tok_inj in E as ->. destruct (IH _ _ Q). subst. auto.
  - intros h ts e r _ IH e' r' R. inversion R; subst; try no_un. edestruct IH; [eassumption|]. subst; auto.
  - intros p ts e r _ IH e' r' R. inversion R; subst; try no_un. edestruct IH; [eassumption|]. subst; auto.
  - intros ts e r e' r1 _ IH1 _ IH2 e2 r2 R. inversion R; subst; try no_un.
    edestruct IH1 as [E1 E2]; [eassumption|]. injection E2 as E2. subst. eapply IH2. eassumption.
  - intros a ts N e' r' R. inversion R; subst; [auto|]. destruct N.
  - intros a p ts e r _ IH e' r' R. inversion R as [? ? N|]; subst; [destruct N|]. now apply IH.
  - intros n ts a ts' e r Q IH1 _ IH2 e' r' R. inversion R; subst; [|clash].
    edestruct IH1 as [E1 E2]; [eassumption|]. subst. eapply IH2. eassumption.
  - intros n ts e r Q IH e' r' R. inversion R; subst; [clash|]. now apply IH.
  - intros o ts e r N Q IH e' r' R. inversion R as [o1 ts1 e1 r1 N1 Q1 E|ts1 N1 E]; subst.
    + same_op. destruct (IH _ _ Q1) as [-> ->]. auto.
    + clash.
  - intros ts N e' r' R. inversion R as [o1 ts1 e1 r1 N1 Q1 E|ts1 N1 E]; subst; [clash|auto].
  - intros n l ts S e' r' R. inversion R; subst; auto; destruct S as [S1 S2].
    + specialize (S1 _ eq_refl). lia.
    + specialize (S1 _ eq_refl). lia.
    + specialize (S1 DotDot eq_refl). cbn in *. lia.
    + specialize (S2 _ eq_refl). lia.
  - intros n l o ts a ts' e r L N C Q IH1 _ IH2 e' r' R.
    inversion R as [n1 l1 ts1 S|n1 l1 o1 ts1 a1 ts1' e1 r1 L1 N1 C1 Q1 Q2 E|n1 l1 o1 ts1 a1 ts1' L1 N1 Q1 E|n1 l1 ts1 L1 N1 E|n1 l1 ty ts1 e1 r1 L1 Q1 E]; subst.
    + destruct S as [S1 S2]. specialize (S1 _ eq_refl). lia.
    + same_op. destruct (IH1 _ _ Q1) as [-> ->]. now apply IH2.
    + same_op. congruence.
    + clash.
    + not_as.
  - intros n l o ts a ts' L N Q IH e' r' R.
    inversion R as [n1 l1 ts1 S|n1 l1 o1 ts1 a1 ts1' e1 r1 L1 N1 C1 Q1 Q2 E|n1 l1 o1 ts1 a1 ts1' L1 N1 Q1 E|n1 l1 ts1 L1 N1 E|n1 l1 ty ts1 e1 r1 L1 Q1 E]; subst.
    + destruct S as [S1 S2]. specialize (S1 _ eq_refl). lia.
    + same_op. congruence.
    + same_op. destruct (IH _ _ Q1) as [-> ->]. auto.
    + clash.
    + not_as.
  - intros n l ts L N e' r' R.
    inversion R as [n1 l1 ts1 S|n1 l1 o1 ts1 a1 ts1' e1 r1 L1 N1 C1 Q1 Q2 E|n1 l1 o1 ts1 a1 ts1' L1 N1 Q1 E|n1 l1 ts1 L1 N1 E|n1 l1 ty ts1 e1 r1 L1 Q1 E]; subst; try clash; auto.
    destruct S as [S1 S2]. specialize (S1 DotDot eq_refl). cbn in *. lia.
  - intros n l ty ts e r L _ IH e' r' R.
    inversion R as [n1 l1 ts1 S|n1 l1 o1 ts1 a1 ts1' e1 r1 L1 N1 C1 Q1 Q2 E|n1 l1 o1 ts1 a1 ts1' L1 N1 Q1 E|n1 l1 ts1 L1 N1 E|n1 l1 ty1 ts1 e1 r1 L1 Q1 E]; subst.
    + destruct S as [S1 S2]. specialize (S2 _ eq_refl). unfold cast_prec in *. lia.
    + not_as.
    + not_as.
    + now apply IH.
Qed.
Lemma reads_det n ts e r e' r' : reads n ts e r -> reads n ts e' r' -> e = e' /\ r = r'.
Proof. intros R R'. exact (proj1 (proj2 (proj2 reads_det_all)) _ _ _ _ R _ _ R'). Qed.
Lemma tuple_det ts es es' : reads_tuple ts es -> reads_tuple ts es' -> es = es'.
Proof.
  intros R. revert es'. induction R as [|ts e r es R1 R2 IH]; intros es' R'.
  - inversion R' as [|ts e r es R1 R2]; [reflexivity|]. subst. exfalso. exact (reads_starts _ _ _ _ R1 I).
  - inversion R' as [|ts1 e1 r1 es1 Q1 Q2]; subst.
    + exfalso. exact (reads_starts _ _ _ _ R1 I).
    + destruct (reads_det _ _ _ _ _ _ R1 Q1) as [-> E]. injection E as ->. f_equal. now apply IH.
Qed.
