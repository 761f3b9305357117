(** Properties C98, C99: Cargo features. *)
From Verif Require Import Base.
From Coq Require Import List String Bool.
From Verif Require Import Features SpecFeatures FeatureFacts FeatureTable.
Import ListNotations.
Open Scope string_scope.
#[local] Opaque rules items.

(** * C98: every combination of features compiles and gives what is documented *)

(** Whatever the crates of a build ask for, each item that is there mentions only items that are there. *)
Definition all_refs_ok : bool := forallb (fun R => forallb (refs_ok R i_refs) items) [V1; V2].
Lemma all_refs : all_refs_ok = true.
Proof. vm_compute. reflexivity. Qed.
Theorem C98_definitions R reqs p it d path :
  present R reqs p it -> In (d, path) (i_refs it) -> nameable R reqs p (i_krate it) d path.
Proof.
  intros H. apply refs_sound; auto. assert (I : In it items) by (now destruct H).
  pose proof all_refs as C. unfold all_refs_ok in C. rewrite forallb_forall in C.
  assert (J : In R [V1; V2]) by (destruct R; cbn; auto). specialize (C _ J). rewrite forallb_forall in C. auto.
Qed.

(** ... and each macro that is there expands to items that are there, except that [stylish_core::write!] and
    [writeln!] are there without the feature [macros]. *)
Definition bare_write (it : item) : Prop := i_krate it = Core /\ (i_path it = "write!" \/ i_path it = "writeln!").
Definition bare_writeb (it : item) : bool := at_path Core "write!" it || at_path Core "writeln!" it.
Lemma bare_writeb_iff it : bare_writeb it = true <-> bare_write it.
Proof. unfold bare_writeb, bare_write. rewrite orb_true_iff, !at_path_iff. tauto. Qed.
Definition all_expand_ok : bool :=
  forallb (fun R => forallb (fun it => bare_writeb it || refs_ok R i_expands it) items) [V1; V2].
Lemma all_expand : all_expand_ok = true.
Proof. vm_compute. reflexivity. Qed.
Theorem C98_expansions R reqs p it d path :
  present R reqs p it -> ~ bare_write it -> In (d, path) (i_expands it) -> nameable R reqs p (i_krate it) d path.
Proof.
  intros H N. apply refs_sound; auto. assert (I : In it items) by (now destruct H).
  pose proof all_expand as C. unfold all_expand_ok in C. rewrite forallb_forall in C.
  assert (J : In R [V1; V2]) by (destruct R; cbn; auto). specialize (C _ J). rewrite forallb_forall in C.
  specialize (C _ I). apply orb_true_iff in C as [C|C]; auto. apply bare_writeb_iff in C. contradiction.
Qed.

(** Asking for more never takes an item away. *)
Definition covers (reqs reqs' : list request) : Prop :=
  forall r, In r reqs -> exists r', In r' reqs' /\ r_place r' = r_place r /\ r_krate r' = r_krate r
                                 /\ incl (r_features r) (r_features r').
Lemma resolved_more R reqs reqs' a : covers reqs reqs' -> resolved R reqs a -> resolved R reqs' a.
Proof.
  intros C H. induction H as [r Hr|r f Hr Hf|ps c Hr _ IH].
  - destruct (C _ Hr) as [r' [I [E1 [E2 _]]]]. rewrite <- E1, <- E2. now constructor.
  - destruct (C _ Hr) as [r' [I [E1 [E2 E3]]]]. rewrite <- E1, <- E2. constructor; auto.
  - econstructor; eauto.
Qed.
Scheme present_mind := Induction for present Sort Prop
  with nameable_mind := Induction for nameable Sort Prop.
Theorem C98_additive R reqs reqs' p it :
  covers reqs reqs' -> present R reqs p it -> present R reqs' p it.
Proof.
  intros C H. revert p it H.
  apply (present_mind R reqs (fun p it _ => present R reqs' p it) (fun p k d path _ => nameable R reqs' p k d path)).
  - intros p it I H1 H2 _ IH. constructor; auto.
    + eapply resolved_more; eauto.
    + intros f Hf. eapply resolved_more; eauto.
  - intros p k path it E1 E2 _ IH. eapply name_own; eauto.
  - intros p k d path it L E1 E2 Pu _ IH. eapply name_dep; eauto. eapply resolved_more; eauto.
Qed.

(** With [stylish] asked for with any list of features, its public names are exactly the documented ones. *)
Lemma for_all_sets (P : resolver -> place -> list feature -> bool) :
  forallb (fun R => forallb (fun p => forallb (P R p) (sublists all_features)) both_places) [V1; V2] = true ->
  forall R p fs, P R p (normal fs) = true.
Proof.
  intros C R p fs. rewrite forallb_forall in C. assert (J : In R [V1; V2]) by (destruct R; cbn; auto).
  specialize (C _ J). rewrite forallb_forall in C. assert (K : In p both_places) by (destruct p; cbn; auto).
  specialize (C _ K). rewrite forallb_forall in C. apply C. apply filter_sublists.
Qed.
Lemma facts_sound R p fs a : In a (facts R p (normal fs)) -> resolved R [uses_stylish p fs] a.
Proof. apply sat_sound. apply init_holds. Qed.
Lemma facts_complete R p fs a : resolved R [uses_stylish p fs] a -> In a (facts R p (normal fs)).
Proof.
  pose proof (for_all_sets good all_good_ok R p fs) as G. unfold good in G. cbn zeta in G.
  apply andb_true_iff in G as [G _]. apply andb_true_iff in G as [G1 G2]. apply closed_complete; auto.
  unfold incl_b in G2. rewrite forallb_forall in G2.
  intros r [<-|[]]. cbn [uses_stylish r_place r_krate r_features]. split.
  - apply mem_In, G2. now left.
  - intros f Hf. apply mem_In, G2. right. apply in_map. now apply (proj2 (normal_In _ _)).
Qed.
Lemma present_iff R p fs q it : In it items ->
  (present R [uses_stylish p fs] q it <-> presentb R (facts R p (normal fs)) q it = true).
Proof.
  intros I. split.
  - apply present_complete. apply facts_complete.
  - apply presentb_sound; auto. apply facts_sound.
Qed.
Lemma enabled_normal fs f : enabledb (normal fs) f = enabledb fs f.
Proof.
  apply eq_true_iff_eq. unfold enabledb.
  destruct f; rewrite ?orb_true_iff, ?fmem_In, ?normal_In; reflexivity.
Qed.
Lemma docb_iff fs path : docb (normal fs) path = true <->
  exists needs, In (path, needs) documented /\ forall f, In f needs -> enabled fs f.
Proof.
  unfold docb. rewrite existsb_exists. split.
  - intros [[q needs] [I E]]. apply andb_true_iff in E as [E1 E2]. apply String.eqb_eq in E1. cbn [fst snd] in *.
    subst q. exists needs. split; auto. rewrite forallb_forall in E2. intros f Hf. apply enabledb_iff.
    rewrite <- enabled_normal. auto.
  - intros [needs [I E]]. exists (path, needs). split; auto. cbn [fst snd]. rewrite String.eqb_refl. cbn [andb].
    apply forallb_forall. intros f Hf. rewrite enabled_normal. apply enabledb_iff. auto.
Qed.
Lemma documented_exist : forallb (fun e => existsb (fun it => public_stylish it && (i_path it =? fst e)%string) items) documented = true.
Proof. vm_compute. reflexivity. Qed.
Theorem C98_documented R p fs path :
  available R [uses_stylish p fs] (place_of R p Stylish) Stylish path
  <-> exists needs, In (path, needs) documented /\ forall f, In f needs -> enabled fs f.
Proof.
  rewrite <- docb_iff. pose proof (for_all_sets good all_good_ok R p fs) as D. unfold good in D. cbn zeta in D.
  apply andb_true_iff in D as [_ D]. apply andb_true_iff in D as [D _].
  unfold on_own in D. rewrite forallb_forall in D.
  assert (K : forall it, In it items -> i_krate it = Stylish -> i_public it = true ->
    (present R [uses_stylish p fs] (place_of R p Stylish) it <-> docb (normal fs) (i_path it) = true)).
  { intros it I E1 E2. rewrite present_iff by exact I. specialize (D _ I). unfold public_stylish in D.
    rewrite E1, E2 in D. destruct (krate_eq_dec Stylish Stylish); [|congruence]. cbn [andb implb] in D.
    apply Bool.eqb_prop in D. rewrite D. reflexivity. }
  split.
  - intros [it [E1 [E2 [E3 H]]]]. assert (I : In it items) by (now destruct H). rewrite <- E2. now apply K.
  - intros H. assert (X : exists e, In e documented /\ fst e = path).
    { unfold docb in H. apply existsb_exists in H as [e [I E]]. apply andb_true_iff in E as [E _].
      apply String.eqb_eq in E. eauto. }
    destruct X as [e [Ie Ee]]. pose proof documented_exist as Q. rewrite forallb_forall in Q. specialize (Q _ Ie).
    apply existsb_exists in Q as [it [I E]]. unfold public_stylish in E.
    apply andb_true_iff in E as [E E3]. apply andb_true_iff in E as [E1 E2]. apply String.eqb_eq in E3.
    destruct (krate_eq_dec (i_krate it) Stylish) as [E|]; [|discriminate].
    exists it. rewrite Ee in E3. split; [exact E|]. split; [exact E3|]. split; [exact E2|].
    apply K; auto. now rewrite E3.
Qed.

(** With any other requests in the build, the public names of [stylish] still depend only on the features
    asked of [stylish] itself - except the [format!] macros. *)
Definition asked (R : resolver) (reqs : list request) (p : place) : list feature :=
  flat_map (fun r => if krate_eq_dec (r_krate r) Stylish
                     then if place_eq_dec (place_of R (r_place r) Stylish) p then r_features r else []
                     else []) reqs.
Lemma asked_iff R reqs p f : In f (asked R reqs p) <->
  exists r, In r reqs /\ r_krate r = Stylish /\ place_of R (r_place r) Stylish = p /\ In f (r_features r).
Proof.
  unfold asked. rewrite in_flat_map. split.
  - intros [r [I H]]. exists r. destruct (krate_eq_dec (r_krate r) Stylish); [|easy].
    destruct (place_eq_dec (place_of R (r_place r) Stylish) p); [|easy]. auto.
  - intros [r [I [E1 [E2 H]]]]. exists r. split; auto. destruct (krate_eq_dec (r_krate r) Stylish); [|easy].
    destruct (place_eq_dec (place_of R (r_place r) Stylish) p); easy.
Qed.
Definition stylish_rule (r : rule) : bool :=
  match snd r with
  | Built _ Stylish => false
  | On p Stylish g =>
      match fst r with
      | [On q Stylish f] =>
          (if place_eq_dec p q then true else false)
          && match f, g with Fdefault, Fstd | Fdefault, Fmacros | Fstd, Falloc => true | _, _ => false end
      | _ => false
      end
  | _ => true
  end.
Lemma stylish_rules_ok : forallb (fun R => forallb stylish_rule (rules R)) [V1; V2] = true.
Proof. vm_compute. reflexivity. Qed.
Lemma stylish_invariant R reqs a : resolved R reqs a ->
  match a with
  | Built p Stylish => exists r, In r reqs /\ r_krate r = Stylish /\ place_of R (r_place r) Stylish = p
  | On p Stylish f => enabled (asked R reqs p) f
  | _ => True
  end.
Proof.
  induction 1 as [r Hr|r f Hr Hf|ps c Hr _ IH].
  - destruct (r_krate r) eqn:E; auto. exists r. auto.
  - destruct (r_krate r) eqn:E; auto. constructor. apply asked_iff. exists r. auto.
  - pose proof stylish_rules_ok as Q. rewrite forallb_forall in Q.
    assert (J : In R [V1; V2]) by (destruct R; cbn; auto). specialize (Q _ J). rewrite forallb_forall in Q.
    specialize (Q _ Hr). unfold stylish_rule in Q. cbn [fst snd] in Q.
    destruct c as [p k|p k d|p k g]; auto; destruct k; auto; try discriminate.
    destruct ps as [|[q k|q k d|q k f] [|? ?]]; try discriminate; destruct k; try discriminate.
    apply andb_true_iff in Q as [Q1 Q2]. destruct (place_eq_dec p q) as [<-|]; [|discriminate].
    specialize (IH _ (or_introl eq_refl)). cbn in IH.
    destruct f, g; try discriminate.
    + inversion IH; subst; try discriminate. now constructor 2.
    + inversion IH; subst; try discriminate. now constructor 3.
    + now apply en_std_alloc.
Qed.
#[local] Transparent rules.
Lemma rule_in R p f g :
  match f, g with Fdefault, Fstd | Fdefault, Fmacros | Fstd, Falloc => True | _, _ => False end ->
  In ([On p Stylish f], On p Stylish g) (rules R).
Proof.
  intros H. unfold rules. apply in_flat_map. exists p. split; [destruct p; cbn; auto|].
  apply in_flat_map. exists Stylish. split; [now left|].
  apply in_app_iff. right. apply in_flat_map.
  destruct f, g; try contradiction.
  - exists (Fdefault, [VFeature Fstd; VFeature Fmacros]). split; [now left|]. cbn. auto.
  - exists (Fdefault, [VFeature Fstd; VFeature Fmacros]). split; [now left|]. cbn. auto.
  - eexists. split; [right; left; reflexivity|]. cbn. auto.
Qed.
#[local] Opaque rules.
Lemma stylish_on R reqs p f : enabled (asked R reqs p) f -> resolved R reqs (On p Stylish f).
Proof.
  assert (A : forall g, In g (asked R reqs p) -> resolved R reqs (On p Stylish g)).
  { intros g H. apply asked_iff in H as [r [I [E1 [E2 H]]]]. rewrite <- E2, <- E1. now constructor. }
  induction 1 as [f H|H|H|H IH]; auto.
  - apply (res_rule R reqs [On p Stylish Fdefault]); [now apply rule_in|]. intros a [<-|[]]. auto.
  - apply (res_rule R reqs [On p Stylish Fdefault]); [now apply rule_in|]. intros a [<-|[]]. auto.
  - apply (res_rule R reqs [On p Stylish Fstd]); [now apply rule_in|]. intros a [<-|[]]. auto.
Qed.
Definition format_macros : list string := ["format!"; "ansi::format!"; "html::format!"; "plain::format!"].
Definition entry (e : string * list feature) (it : item) : bool :=
  (fst e =? i_path it)%string && forallb (fmem (i_cfg it)) (snd e) && forallb (fmem (snd e)) (i_cfg it).
Definition format_macro (path : string) : bool := existsb (String.eqb path) format_macros.
Lemma items_entries : forallb (fun it => implb (public_stylish it && negb (format_macro (i_path it)))
  (is_none (i_follows it) && existsb (fun e => entry e it) documented)) items = true.
Proof. vm_compute. reflexivity. Qed.
Lemma entries_items : forallb (fun e => implb (negb (format_macro (fst e)))
  (existsb (fun it => public_stylish it && is_none (i_follows it) && entry e it) items)) documented = true.
Proof. vm_compute. reflexivity. Qed.
Lemma format_macro_iff path : format_macro path = false <-> ~ In path format_macros.
Proof.
  unfold format_macro. split.
  - intros E H. assert (T : existsb (String.eqb path) format_macros = true).
    { apply existsb_exists. exists path. split; auto. apply String.eqb_refl. }
    congruence.
  - intros H. apply not_true_iff_false. intros E. apply H. apply existsb_exists in E as [q [I E]].
    apply String.eqb_eq in E. now subst.
Qed.
Lemma public_stylish_iff it : public_stylish it = true <-> i_krate it = Stylish /\ i_public it = true.
Proof.
  unfold public_stylish. rewrite andb_true_iff.
  destruct (krate_eq_dec (i_krate it) Stylish); intuition discriminate.
Qed.
Theorem C98_unified R reqs p path :
  ~ In path format_macros ->
  (available R reqs p Stylish path
   <-> (exists r, In r reqs /\ r_krate r = Stylish /\ place_of R (r_place r) Stylish = p)
       /\ exists needs, In (path, needs) documented /\ forall f, In f needs -> enabled (asked R reqs p) f).
Proof.
  intros N. apply format_macro_iff in N. split.
  - intros [it [E1 [E2 [E3 H]]]]. assert (I : In it items) by (now destruct H).
    pose proof items_entries as Q. rewrite forallb_forall in Q. specialize (Q _ I).
    rewrite (proj2 (public_stylish_iff it) (conj E1 E3)), E2, N in Q. cbn [andb negb implb] in Q.
    apply andb_true_iff in Q as [_ Q]. apply existsb_exists in Q as [[q needs] [Id E]].
    unfold entry in E. cbn [fst snd] in E. apply andb_true_iff in E as [E _]. apply andb_true_iff in E as [E4 E5].
    apply String.eqb_eq in E4. rewrite forallb_forall in E5.
    destruct H as [p it _ H1 H2 _]. rewrite E1 in *. split.
    + apply (stylish_invariant R reqs _ H1).
    + exists needs. rewrite E4, E2 in Id. split; auto. intros f Hf.
      apply (stylish_invariant R reqs (On p Stylish f)). apply H2. apply fmem_In. auto.
  - intros [[r [Ir [E1 E2]]] [needs [Id H]]]. pose proof entries_items as Q. rewrite forallb_forall in Q.
    specialize (Q _ Id). cbn [fst] in Q. rewrite N in Q. cbn [negb implb] in Q.
    apply existsb_exists in Q as [it [I E]]. apply andb_true_iff in E as [E E3]. apply andb_true_iff in E as [E4 E5].
    apply public_stylish_iff in E4 as [E4 E6]. unfold entry in E3. cbn [fst snd] in E3.
    apply andb_true_iff in E3 as [E3 E7]. apply andb_true_iff in E3 as [E3 _]. apply String.eqb_eq in E3.
    exists it. split; [exact E4|]. split; [now symmetry|]. split; [exact E6|]. constructor; auto; rewrite E4.
    + rewrite <- E2, <- E1. now constructor.
    + intros f Hf. apply stylish_on. apply H. rewrite forallb_forall in E7. apply fmem_In. auto.
    + intros d q F. rewrite F in E5. discriminate.
Qed.
(** The exception: another crate that turns on [macros] of [stylish-core] makes [stylish::format!] appear
    for a user who did not. *)
Lemma named_sound R reqs S (HS : forall a, In a S -> resolved R reqs a) k p path :
  existsb (fun it => at_path k path it && i_public it && presentb R S p it) items = true ->
  available R reqs p k path.
Proof.
  intros H. apply existsb_exists in H as [it [I H]]. apply andb_true_iff in H as [H1 H2].
  apply andb_true_iff in H1 as [H1 H3]. apply at_path_iff in H1 as [E1 E2]. exists it.
  split; [exact E1|]. split; [exact E2|]. split; [exact H3|]. eapply presentb_sound; eauto.
Qed.
Theorem C98_leak R :
  available R [uses_stylish Target [Falloc]; mk_request Target Core [Fmacros]] Target Stylish "format!"
  /\ ~ available R [uses_stylish Target [Falloc]] Target Stylish "format!".
Proof.
  split.
  - apply (named_sound R _ (sat rounds (rules R) [Built Target Stylish; On Target Stylish Falloc; On Target Core Fmacros])).
    + apply sat_sound. intros a [<-|[<-|[<-|[]]]].
      * replace (Built Target Stylish) with (Built (place_of R Target Stylish) Stylish) by (now destruct R).
        apply (res_built R _ (uses_stylish Target [Falloc])). now left.
      * replace (On Target Stylish Falloc) with (On (place_of R Target Stylish) Stylish Falloc) by (now destruct R).
        apply (res_on R _ (uses_stylish Target [Falloc])); now left.
      * replace (On Target Core Fmacros) with (On (place_of R Target Core) Core Fmacros) by (now destruct R).
        apply (res_on R _ (mk_request Target Core [Fmacros])); [right; now left|now left].
    + destruct R; vm_compute; reflexivity.
  - intros H. assert (A : available R [uses_stylish Target [Falloc]] (place_of R Target Stylish) Stylish "format!") by (now destruct R).
    apply C98_documented in A as [needs [I E]].
    assert (J : needs = [Falloc; Fmacros]).
    { cbn in I. repeat (destruct I as [I|I]; [try discriminate I; injection I as <-; reflexivity|]). contradiction. }
    subst needs. assert (M : enabled [Falloc] Fmacros) by (apply E; cbn; auto).
    apply enabledb_iff in M. discriminate.
Qed.

(** [stylish_core::write!] is always there; what it expands to is there exactly with [macros]. *)
Theorem C98_bare_write R reqs p :
  resolved R reqs (Built p Core) ->
  available R reqs p Core "write!" /\
  (nameable R reqs p Core Core "format_args!" <-> resolved R reqs (On p Core Fmacros)).
Proof.
  intros B. split.
  - apply (named_sound R reqs [Built p Core]); [intros a [<-|[]]; auto|].
    destruct R, p; vm_compute; reflexivity.
  - split.
    + intros H.
      assert (U : forall it, In it items -> i_krate it = Core -> i_path it = "format_args!" -> In Fmacros (i_cfg it)).
      { assert (C : forallb (fun it => implb (at_path Core "format_args!" it) (fmem (i_cfg it) Fmacros)) items = true) by (vm_compute; reflexivity).
        rewrite forallb_forall in C. intros it I E1 E2. specialize (C _ I).
        rewrite (proj2 (at_path_iff Core "format_args!" it) (conj E1 E2)) in C. now apply fmem_In. }
      assert (L : forall q, ~ resolved R reqs (Links q Core Core)).
      { assert (C : forallb (fun R => forallb (fun r => match snd r with Links _ Core Core => false | _ => true end) (rules R)) [V1; V2] = true) by (vm_compute; reflexivity).
        rewrite forallb_forall in C. intros q Q. remember (Links q Core Core) as a eqn:Ea.
        destruct Q as [r Hr|r f Hr Hf|ps c Hr _]; try discriminate. subst c.
        assert (J : In R [V1; V2]) by (destruct R; cbn; auto). specialize (C _ J). rewrite forallb_forall in C.
        specialize (C _ Hr). discriminate. }
      inversion H as [p0 k0 path0 it E1 E2 Hi|p0 k0 d0 path0 it Ln E1 E2 Pu Hi].
      * destruct Hi as [p1 it1 I Hb Hc _]. rewrite <- E1. apply Hc. now apply U.
      * exfalso. now apply (L p).
    + intros M. assert (HS : forall a, In a [Built p Core; On p Core Fmacros] -> resolved R reqs a) by (intros a [<-|[<-|[]]]; auto).
      apply (name_sound R reqs _ HS (presentb R [Built p Core; On p Core Fmacros])).
      * intros q it I H. eapply presentb_sound; eauto.
      * destruct R, p; vm_compute; reflexivity.
Qed.

(** Resolution only ever turns on features that the crate declares and links dependencies that it declares
    (Cargo rejects the manifests otherwise). *)
Definition declares (k : krate) (f : feature) : Prop := f = Fdefault \/ exists vs, In (f, vs) (m_features (manifest_of k)).
Definition declaresb (k : krate) (f : feature) : bool :=
  fmem [Fdefault] f || existsb (fun e => if feature_eq_dec f (fst e) then true else false) (m_features (manifest_of k)).
Lemma declaresb_iff k f : declaresb k f = true <-> declares k f.
Proof.
  unfold declaresb, declares. rewrite orb_true_iff, fmem_In, existsb_exists. split.
  - intros [[<-|[]]|[[g vs] [I E]]]; auto. cbn [fst] in E. destruct (feature_eq_dec f g) as [<-|]; [|discriminate]. eauto.
  - intros [->|[vs I]]; [left; now left|]. right. exists (f, vs). split; auto. cbn [fst].
    now destruct (feature_eq_dec f f).
Qed.
Definition declared_rule (r : rule) : bool :=
  match snd r with
  | On _ k g => declaresb k g
  | Links _ k d => existsb (fun e => if krate_eq_dec d (d_name e) then true else false) (m_deps (manifest_of k))
  | Built _ _ => true
  end.
Lemma declared_rules_ok : forallb (fun R => forallb declared_rule (rules R)) [V1; V2] = true.
Proof. vm_compute. reflexivity. Qed.
Theorem C98_declared R reqs :
  (forall r f, In r reqs -> In f (r_features r) -> declares (r_krate r) f) ->
  (forall p k f, resolved R reqs (On p k f) -> declares k f)
  /\ (forall p k d, resolved R reqs (Links p k d) -> exists e, In e (m_deps (manifest_of k)) /\ d_name e = d).
Proof.
  intros Q. pose proof declared_rules_ok as C. rewrite forallb_forall in C.
  assert (J : In R [V1; V2]) by (destruct R; cbn; auto). specialize (C _ J). rewrite forallb_forall in C. split.
  - intros p k f H. inversion H as [r Hr|r g Hr Hg|ps c Hr Hp]; subst.
    + eapply Q; eauto.
    + specialize (C _ Hr). unfold declared_rule in C. cbn [snd] in C. now apply declaresb_iff.
  - intros p k d H. inversion H as [r Hr|r g Hr Hg|ps c Hr Hp]; subst.
    specialize (C _ Hr). unfold declared_rule in C. cbn [snd] in C. apply existsb_exists in C as [e [I E]].
    destruct (krate_eq_dec d (d_name e)) as [Ed|]; [|discriminate]. exists e. auto.
Qed.

(** In every crate that has it, [std] implies [alloc], and [default] implies [std]. *)
Definition implies_rule (f g : feature) (e : resolver * place * krate) : bool :=
  let '(R, p, k) := e in
  implb (existsb (fun x => if feature_eq_dec f (fst x) then true else false) (m_features (manifest_of k)))
    (existsb (fun r => match r with
                       | ([a], c) => (if atom_eq_dec a (On p k f) then true else false)
                                     && (if atom_eq_dec c (On p k g) then true else false)
                       | _ => false
                       end) (rules R)).
Lemma implies_ok : forallb (fun e => implies_rule Fstd Falloc e && implies_rule Fdefault Fstd e)
  (list_prod (list_prod [V1; V2] both_places) all_krates) = true.
Proof. vm_compute. reflexivity. Qed.
Theorem C98_std_implies_alloc R reqs p k vs :
  (In (Fstd, vs) (m_features (manifest_of k)) -> resolved R reqs (On p k Fstd) -> resolved R reqs (On p k Falloc))
  /\ (In (Fdefault, vs) (m_features (manifest_of k)) -> resolved R reqs (On p k Fdefault) -> resolved R reqs (On p k Fstd)).
Proof.
  pose proof implies_ok as C. rewrite forallb_forall in C.
  assert (J : In (R, p, k) (list_prod (list_prod [V1; V2] both_places) all_krates)).
  { apply in_prod; [apply in_prod|]; [destruct R|destruct p|destruct k]; cbn; tauto. }
  specialize (C _ J). apply andb_true_iff in C as [C1 C2].
  assert (G : forall f g, implies_rule f g (R, p, k) = true -> In (f, vs) (m_features (manifest_of k)) ->
            resolved R reqs (On p k f) -> resolved R reqs (On p k g)).
  { intros f g C I H. unfold implies_rule in C.
    rewrite (proj2 (existsb_exists _ _)) in C; [|exists (f, vs); split; auto; cbn; now destruct (feature_eq_dec f f)].
    cbn [implb] in C. apply existsb_exists in C as [[ps c] [Hr E]]. destruct ps as [|a [|? ?]]; try discriminate.
    apply andb_true_iff in E as [E1 E2].
    destruct (atom_eq_dec a (On p k f)) as [->|]; [|discriminate].
    destruct (atom_eq_dec c (On p k g)) as [->|]; [|discriminate].
    apply (res_rule R reqs _ _ Hr). intros x [<-|[]]. exact H. }
  split; apply G; assumption.
Qed.

(** Non-vacuity: a user with [std], [ansi] and [macros], next to a crate that uses [stylish-html] directly. *)
Example C98_example :
  let reqs := [uses_stylish Target [Fdefault; Fansi]; mk_request Target HtmlK [Falloc]] in
  available V2 reqs Target Stylish "io::ansi" /\ available V2 reqs Target Stylish "ToAnsiString"
  /\ ~ available V2 reqs Target Stylish "Html".
Proof.
  cbn zeta. assert (A : asked V2 [uses_stylish Target [Fdefault; Fansi]; mk_request Target HtmlK [Falloc]] Target = [Fdefault; Fansi]) by reflexivity.
  split; [|split].
  - apply C98_unified; [cbn; intuition discriminate|]. rewrite A. split; [eexists; split; [now left|easy]|].
    exists [Fstd; Fansi]. split; [cbn; tauto|]. intros f [<-|[<-|[]]]; apply enabledb_iff; reflexivity.
  - apply C98_unified; [cbn; intuition discriminate|]. rewrite A. split; [eexists; split; [now left|easy]|].
    exists [Fansi; Falloc; Fmacros]. split; [cbn; tauto|]. intros f [<-|[<-|[<-|[]]]]; apply enabledb_iff; reflexivity.
  - intros H. apply C98_unified in H as [_ [needs [I E]]]; [|cbn; intuition discriminate]. rewrite A in E.
    assert (J : needs = [Fhtml]).
    { cbn in I. repeat (destruct I as [I|I]; [try discriminate I; injection I as <-; reflexivity|]). contradiction. }
    subst needs. assert (M : enabled [Fdefault; Fansi] Fhtml) by (apply E; cbn; auto).
    apply enabledb_iff in M. discriminate.
Qed.
Print Assumptions C98_definitions.
Print Assumptions C98_expansions.
Print Assumptions C98_additive.
Print Assumptions C98_documented.
Print Assumptions C98_unified.
Print Assumptions C98_leak.
Print Assumptions C98_bare_write.
Print Assumptions C98_declared.
Print Assumptions C98_std_implies_alloc.

(** * C99: builds without std or without an allocator *)

(** The features that bring in [alloc] or [std]. *)
Definition heap (f : feature) : Prop := f = Fdefault \/ f = Fstd \/ f = Falloc.
Definition heapb (f : feature) : bool := match f with Fdefault | Fstd | Falloc => true | _ => false end.
Lemma heapb_iff f : heapb f = true <-> heap f.
Proof. unfold heap. destruct f; cbn; intuition discriminate. Qed.
(** An item that links [alloc] or [std] into its crate. *)
Definition links_heap (it : item) : Prop := i_path it = "extern crate alloc" \/ i_path it = "extern crate std".
Definition links_heapb (it : item) : bool := (i_path it =? "extern crate alloc")%string || (i_path it =? "extern crate std")%string.
Lemma links_heapb_iff it : links_heapb it = true <-> links_heap it.
Proof. unfold links_heapb, links_heap. rewrite orb_true_iff, !String.eqb_eq. tauto. Qed.
Lemma links_heap_cfg it : In it items -> links_heap it -> exists f, heap f /\ In f (i_cfg it).
Proof.
  intros I H. apply links_heapb_iff in H.
  assert (C : forallb (fun it => implb (links_heapb it) (existsb heapb (i_cfg it))) items = true) by (vm_compute; reflexivity).
  rewrite forallb_forall in C. specialize (C _ I). rewrite H in C. cbn in C.
  apply existsb_exists in C as [f [F1 F2]]. exists f. split; auto. now apply heapb_iff.
Qed.

(** With resolver 2: if nothing that is built for the target asks for them, no crate links them. *)
Definition heap_atom (a : atom) : bool :=
  match a with
  | On Target _ f => heapb f
  | Built Target MacrosK | Links Target MacrosK _ => true
  | _ => false
  end.
Definition heap_rule (r : rule) : bool := implb (heap_atom (snd r)) (existsb heap_atom (fst r)).
Lemma heap_rules_ok : forallb heap_rule (rules V2) = true.
Proof. vm_compute. reflexivity. Qed.
Theorem C99_no_heap reqs it :
  (forall r f, In r reqs -> place_of V2 (r_place r) (r_krate r) = Target -> In f (r_features r) -> ~ heap f) ->
  present V2 reqs Target it -> ~ links_heap it.
Proof.
  intros Q P L. assert (I : In it items) by (now destruct P).
  destruct (links_heap_cfg it I L) as [f [Hf If]].
  assert (X : forall a, resolved V2 reqs a -> heap_atom a = false).
  { induction 1 as [r Hr|r g Hr Hg|ps c Hr _ IH]; auto.
    - destruct (r_krate r), (r_place r); reflexivity.
    - destruct (place_of V2 (r_place r) (r_krate r)) eqn:E; cbn; auto. apply not_true_iff_false. rewrite heapb_iff.
      eapply Q; eauto.
    - pose proof heap_rules_ok as C. rewrite forallb_forall in C. specialize (C _ Hr).
      unfold heap_rule in C. cbn [fst snd] in C. destruct (heap_atom c) eqn:E; auto. cbn [implb] in C.
      apply existsb_exists in C as [a [Ia Ha]]. rewrite (IH _ Ia) in Ha. discriminate. }
  remember Target as t eqn:Et. destruct P as [p it _ _ H2 _]. specialize (X _ (H2 _ If)). rewrite Et in X. cbn in X.
  apply heapb_iff in Hf. congruence.
Qed.

(** With [stylish] alone, exactly which crates get [alloc] and [std]: each of the crates with its features,
    except [stylish-style], which never does with resolver 2, and which gets [alloc] together with [macros]
    with resolver 1 (from the procedural macros, which are built for the host). *)
Lemma links_facts R p fs k : k <> MacrosK ->
  resolved R [uses_stylish p fs] (Built (place_of R p Stylish) k) ->
  (resolved R [uses_stylish p fs] (On (place_of R p Stylish) k Falloc) <->
     match k with
     | StyleK => match place_of R p Stylish, R with Target, V2 => False | _, _ => enabled fs Fmacros end
     | WithBuiltin | Askama => False
     | _ => enabled fs Falloc
     end)
  /\ (resolved R [uses_stylish p fs] (On (place_of R p Stylish) k Fstd) <->
     match k with StyleK | WithBuiltin | Askama => False | _ => enabled fs Fstd end).
Proof.
  intros N B. pose proof (for_all_sets good all_good_ok R p fs) as D. unfold good in D. cbn zeta in D.
  apply andb_true_iff in D as [_ D]. apply andb_true_iff in D as [_ D].
  unfold links_alloc in D. rewrite forallb_forall in D. assert (Ik : In k all_krates) by (destruct k; cbn; tauto).
  specialize (D _ Ik). destruct (krate_eq_dec k MacrosK); [contradiction|].
  apply facts_complete in B. apply mem_In in B. rewrite B in D. cbn [implb] in D.
  apply andb_true_iff in D as [D1 D2]. apply Bool.eqb_prop in D1, D2.
  assert (W : forall a, resolved R [uses_stylish p fs] a <-> mem (facts R p (normal fs)) a = true).
  { intros a. rewrite mem_In. split; [apply facts_complete|apply facts_sound]. }
  rewrite !W, D1, D2. rewrite !enabled_normal.
  split; destruct k; rewrite ?enabledb_iff; try (split; [discriminate|contradiction]); try reflexivity.
  destruct (place_of R p Stylish), R; rewrite ?enabledb_iff; try reflexivity; split; [discriminate|contradiction].
Qed.
Theorem C99_exactly R p fs it :
  i_krate it <> MacrosK -> In it items ->
  resolved R [uses_stylish p fs] (Built (place_of R p Stylish) (i_krate it)) ->
  (i_path it = "extern crate alloc" ->
     (present R [uses_stylish p fs] (place_of R p Stylish) it <->
        match i_krate it with
        | StyleK => match place_of R p Stylish, R with Target, V2 => False | _, _ => enabled fs Fmacros end
        | _ => enabled fs Falloc
        end))
  /\ (i_path it = "extern crate std" ->
     (present R [uses_stylish p fs] (place_of R p Stylish) it <-> enabled fs Fstd)).
Proof.
  intros N I B. destruct (links_facts R p fs _ N B) as [H1 H2].
  assert (C : forallb (fun it =>
      implb (i_path it =? "extern crate alloc")%string
        (is_none (i_follows it) && forallb (fun f => match f with Falloc => true | _ => false end) (i_cfg it)
         && fmem (i_cfg it) Falloc && match i_krate it with WithBuiltin | Askama => false | _ => true end)
      && implb (i_path it =? "extern crate std")%string
        (is_none (i_follows it) && forallb (fun f => match f with Fstd => true | _ => false end) (i_cfg it)
         && fmem (i_cfg it) Fstd && match i_krate it with StyleK | WithBuiltin | Askama => false | _ => true end))
     items = true) by (vm_compute; reflexivity).
  rewrite forallb_forall in C. specialize (C _ I). apply andb_true_iff in C as [C1 C2].
  assert (G : forall f0, is_none (i_follows it) = true ->
     (forall f, In f (i_cfg it) -> f = f0) -> In f0 (i_cfg it) ->
     (present R [uses_stylish p fs] (place_of R p Stylish) it <->
      resolved R [uses_stylish p fs] (On (place_of R p Stylish) (i_krate it) f0))).
  { intros f0 F Only In0. split.
    - intros P. remember (place_of R p Stylish) as q eqn:Eq. destruct P as [q it _ _ P _]. auto.
    - intros P. constructor; auto.
      + intros f Hf. rewrite (Only _ Hf). exact P.
      + intros d q E. rewrite E in F. discriminate. }
  split; intros E.
  - rewrite E in C1. cbn [String.eqb implb] in C1. change (("extern crate alloc" =? "extern crate alloc")%string) with true in C1.
    cbn [implb] in C1. apply andb_true_iff in C1 as [C1 K]. apply andb_true_iff in C1 as [C1 C3].
    apply andb_true_iff in C1 as [C1 C4]. rewrite (G Falloc); auto.
    + rewrite H1. destruct (i_krate it); try discriminate; reflexivity.
    + rewrite forallb_forall in C4. intros f Hf. specialize (C4 _ Hf). now destruct f.
    + now apply fmem_In.
  - rewrite E in C2. change (("extern crate std" =? "extern crate std")%string) with true in C2.
    cbn [implb] in C2. apply andb_true_iff in C2 as [C2 K]. apply andb_true_iff in C2 as [C2 C3].
    apply andb_true_iff in C2 as [C2 C4]. rewrite (G Fstd); auto.
    + rewrite H2. destruct (i_krate it); try discriminate; reflexivity.
    + rewrite forallb_forall in C4. intros f Hf. specialize (C4 _ Hf). now destruct f.
    + now apply fmem_In.
Qed.

(** [impl Restyle for Box<T>] (style/src/lib.rs:223): with resolver 2 no features of [stylish] or of the
    crates above [stylish-style] make it available in the target; only asking [stylish-style] itself does. *)
Definition box_impl : string := "impl Restyle for Box".
Definition style_atom (a : atom) : bool :=
  match a with On Target StyleK _ | Built Target MacrosK | Links Target MacrosK _ => true | _ => false end.
Definition style_rule (r : rule) : bool := implb (style_atom (snd r)) (existsb style_atom (fst r)).
Lemma style_rules_ok : forallb style_rule (rules V2) = true.
Proof. vm_compute. reflexivity. Qed.
Theorem C99_box_unavailable reqs :
  (forall r, In r reqs -> r_krate r = StyleK -> r_place r = Host) ->
  ~ available V2 reqs Target StyleK box_impl.
Proof.
  intros Q [it [E1 [E2 [_ P]]]]. assert (I : In it items) by (now destruct P).
  assert (F : In Falloc (i_cfg it)).
  { assert (C : forallb (fun it => implb (at_path StyleK box_impl it) (fmem (i_cfg it) Falloc)) items = true) by (vm_compute; reflexivity).
    rewrite forallb_forall in C. specialize (C _ I). rewrite (proj2 (at_path_iff _ _ it) (conj E1 E2)) in C.
    now apply fmem_In. }
  assert (X : forall a, resolved V2 reqs a -> style_atom a = false).
  { induction 1 as [r Hr|r g Hr Hg|ps c Hr _ IH]; auto.
    - destruct (r_krate r), (r_place r); reflexivity.
    - destruct (r_krate r) eqn:E; cbn; try (destruct (r_place r); reflexivity). now rewrite (Q r Hr E).
    - pose proof style_rules_ok as C. rewrite forallb_forall in C. specialize (C _ Hr).
      unfold style_rule in C. cbn [fst snd] in C. destruct (style_atom c) eqn:E; auto. cbn [implb] in C.
      apply existsb_exists in C as [a [Ia Ha]]. rewrite (IH _ Ia) in Ha. discriminate. }
  remember Target as t eqn:Et. destruct P as [p it _ _ H2 _]. specialize (X _ (H2 _ F)). rewrite E1, Et in X.
  discriminate.
Qed.
(** With resolver 1 it comes with [macros] (and otherwise not). *)
Theorem C99_box_resolver1 p fs :
  available V1 [uses_stylish p fs] Target StyleK box_impl <-> enabled fs Fmacros.
Proof.
  assert (B : resolved V1 [uses_stylish p fs] (Built Target StyleK)).
  { apply (sat_sound V1 _ rounds [Built Target Stylish]).
    - intros a [<-|[]]. apply (res_built V1 _ (uses_stylish p fs)). now left.
    - apply (proj1 (mem_In _ _)). vm_compute. reflexivity. }
  assert (N : StyleK <> MacrosK) by discriminate.
  destruct (links_facts V1 p fs StyleK N B) as [H _]. cbn in H. rewrite <- H. split.
  - intros [it [E1 [E2 [_ P]]]]. assert (I : In it items) by (now destruct P).
    assert (F : In Falloc (i_cfg it)).
    { assert (C : forallb (fun it => implb (at_path StyleK box_impl it) (fmem (i_cfg it) Falloc)) items = true) by (vm_compute; reflexivity).
      rewrite forallb_forall in C. specialize (C _ I). rewrite (proj2 (at_path_iff _ _ it) (conj E1 E2)) in C.
      now apply fmem_In. }
    remember Target as t eqn:Et. destruct P as [q it _ _ H2 _]. rewrite <- E1. auto.
  - intros O. apply (named_sound V1 _ [Built Target StyleK; On Target StyleK Falloc]).
    + intros a [<-|[<-|[]]]; auto.
    + vm_compute. reflexivity.
Qed.

(** Non-vacuity: [stylish] with [ansi] and [macros] only, and its procedural macros for the host. *)
Example C99_example :
  let reqs := [uses_stylish Target [Fansi; Fmacros]; mk_request Host Stylish [Fdefault]] in
  (forall r f, In r reqs -> place_of V2 (r_place r) (r_krate r) = Target -> In f (r_features r) -> ~ heap f)
  /\ available V2 reqs Target Stylish "write!" /\ available V2 reqs Host StyleK box_impl.
Proof.
  cbn zeta.
  assert (HS : forall a, In a [Built Target Stylish; On Target Stylish Fmacros] ->
    resolved V2 [uses_stylish Target [Fansi; Fmacros]; mk_request Host Stylish [Fdefault]] a).
  { intros a [<-|[<-|[]]].
    - apply (res_built V2 _ (uses_stylish Target [Fansi; Fmacros])). now left.
    - apply (res_on V2 _ (uses_stylish Target [Fansi; Fmacros]) Fmacros); cbn; auto. }
  split; [|split].
  - intros r f [<-|[<-|[]]]; cbn; [|discriminate]. intros _ [<-|[<-|[]]]; unfold heap; intuition discriminate.
  - apply (named_sound V2 _ (sat rounds (rules V2) [Built Target Stylish; On Target Stylish Fmacros])).
    + apply sat_sound. exact HS.
    + vm_compute. reflexivity.
  - apply (named_sound V2 _ (sat rounds (rules V2) [Built Target Stylish; On Target Stylish Fmacros])).
    + apply sat_sound. exact HS.
    + vm_compute. reflexivity.
Qed.
Print Assumptions C99_no_heap.
Print Assumptions C99_exactly.
Print Assumptions C99_box_unavailable.
Print Assumptions C99_box_resolver1.
