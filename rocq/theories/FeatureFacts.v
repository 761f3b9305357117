(** Deciding what follows from a set of facts, and what does not, under Cargo's rules. *)
From Verif Require Import Base.
From Coq Require Import List String Bool.
From Verif Require Import Features SpecFeatures.
Import ListNotations.
Open Scope string_scope.

Definition krate_eq_dec (a b : krate) : {a = b} + {a <> b}.
Proof. decide equality. Defined.
Definition feature_eq_dec (a b : feature) : {a = b} + {a <> b}.
Proof. decide equality. Defined.
Definition place_eq_dec (a b : place) : {a = b} + {a <> b}.
Proof. decide equality. Defined.
Definition atom_eq_dec (a b : atom) : {a = b} + {a <> b}.
Proof. decide equality; auto using krate_eq_dec, feature_eq_dec, place_eq_dec. Defined.
Definition mem (S : list atom) (a : atom) : bool := existsb (fun b => if atom_eq_dec a b then true else false) S.
Lemma mem_In S a : mem S a = true <-> In a S.
Proof.
  unfold mem. rewrite existsb_exists. split.
  - intros [b [H1 H2]]. destruct (atom_eq_dec a b); [now subst|discriminate].
  - intros H. exists a. split; auto. now destruct (atom_eq_dec a a).
Qed.
Definition fmem (fs : list feature) (f : feature) : bool :=
  existsb (fun b => if feature_eq_dec f b then true else false) fs.
Lemma fmem_In fs f : fmem fs f = true <-> In f fs.
Proof.
  unfold fmem. rewrite existsb_exists. split.
  - intros [b [H1 H2]]. destruct (feature_eq_dec f b); [now subst|discriminate].
  - intros H. exists f. split; auto. now destruct (feature_eq_dec f f).
Qed.

#[local] Opaque rules items.

(** * Saturation *)
Definition fire (S : list atom) (r : rule) : list atom :=
  if forallb (mem S) (fst r) then if mem S (snd r) then S else snd r :: S else S.
Fixpoint sat (n : nat) (rs : list rule) (S : list atom) : list atom :=
  match n with
  | 0 => S
  | Datatypes.S m => let S' := fold_left fire rs S in
                     if Nat.eqb (List.length S') (List.length S) then S else sat m rs S'
  end.
Definition closedb (rs : list rule) (S : list atom) : bool :=
  forallb (fun r => implb (forallb (mem S) (fst r)) (mem S (snd r))) rs.

Lemma fire_sound R reqs S r : In r (rules R) -> (forall a, In a S -> resolved R reqs a) ->
  forall a, In a (fire S r) -> resolved R reqs a.
Proof.
  intros I H a. unfold fire. destruct (forallb (mem S) (fst r)) eqn:E; auto.
  destruct (mem S (snd r)); auto. intros [<-|Ha]; auto.
  destruct r as [ps c]. cbn [fst snd] in *. apply (res_rule R reqs ps c I). intros b Hb. apply H. apply mem_In.
  rewrite forallb_forall in E. auto.
Qed.
Lemma fires_sound R reqs rs : incl rs (rules R) -> forall S, (forall a, In a S -> resolved R reqs a) ->
  forall a, In a (fold_left fire rs S) -> resolved R reqs a.
Proof.
  induction rs as [|r rs IH]; cbn; auto. intros I S H. apply IH.
  - intros x Hx. apply I. now right.
  - apply fire_sound; auto. apply I. now left.
Qed.
Lemma sats_sound R reqs rs (I : incl rs (rules R)) n : forall S, (forall a, In a S -> resolved R reqs a) ->
  forall a, In a (sat n rs S) -> resolved R reqs a.
Proof.
  induction n as [|n IH]; [auto|]. intros S H a.
  change (sat (Datatypes.S n) rs S) with
    (if Nat.eqb (List.length (fold_left fire rs S)) (List.length S) then S else sat n rs (fold_left fire rs S)).
  destruct (Nat.eqb _ _); [auto|]. apply IH. apply fires_sound; auto.
Qed.
Lemma sat_sound R reqs n S : (forall a, In a S -> resolved R reqs a) ->
  forall a, In a (sat n (rules R) S) -> resolved R reqs a.
Proof. exact (sats_sound R reqs (rules R) (incl_refl _) n S). Qed.
Lemma closed_complete R reqs S :
  closedb (rules R) S = true ->
  (forall r, In r reqs -> In (Built (place_of R (r_place r) (r_krate r)) (r_krate r)) S
     /\ forall f, In f (r_features r) -> In (On (place_of R (r_place r) (r_krate r)) (r_krate r) f) S) ->
  forall a, resolved R reqs a -> In a S.
Proof.
  intros C I a H. induction H as [r Hr|r f Hr Hf|ps c Hr _ IH].
  - apply (proj1 (I r Hr)).
  - apply (proj2 (I r Hr)). exact Hf.
  - unfold closedb in C. rewrite forallb_forall in C. specialize (C _ Hr). cbn [fst snd] in C.
    assert (E : forallb (mem S) ps = true) by (apply forallb_forall; intros x Hx; apply mem_In; auto).
    rewrite E in C. cbn in C. now apply mem_In.
Qed.

(** * Presence *)
Definition own_atoms (p : place) (it : item) : list atom :=
  Built p (i_krate it) :: map (On p (i_krate it)) (i_cfg it).
Definition own_ok (S : list atom) (p : place) (it : item) : bool := forallb (mem S) (own_atoms p it).
Definition at_path (d : krate) (path : string) (it : item) : bool :=
  (if krate_eq_dec (i_krate it) d then true else false) && (i_path it =? path)%string.
Lemma at_path_iff d path it : at_path d path it = true <-> i_krate it = d /\ i_path it = path.
Proof.
  unfold at_path. rewrite andb_true_iff, String.eqb_eq.
  destruct (krate_eq_dec (i_krate it) d); intuition discriminate.
Qed.
Definition name_b (pb : place -> item -> bool) (R : resolver) (S : list atom) (p : place) (k d : krate) (path : string) : bool :=
  ((if krate_eq_dec k d then true else false) && existsb (fun it => at_path d path it && pb p it) items)
  || (mem S (Links p k d)
      && existsb (fun it => at_path d path it && i_public it && pb (place_of R p d) it) items).
Definition is_none {A} (o : option A) : bool := match o with None => true | _ => false end.
Definition present0 (S : list atom) (p : place) (it : item) : bool := is_none (i_follows it) && own_ok S p it.
Definition presentb (R : resolver) (S : list atom) (p : place) (it : item) : bool :=
  own_ok S p it
  && match i_follows it with None => true | Some (d, path) => name_b (present0 S) R S p (i_krate it) d path end.

Section Facts.
  Variables (R : resolver) (reqs : list request) (S : list atom).
  Section Sound.
    Hypothesis HS : forall a, In a S -> resolved R reqs a.
    Lemma own_sound p it : own_ok S p it = true ->
      resolved R reqs (Built p (i_krate it)) /\ forall f, In f (i_cfg it) -> resolved R reqs (On p (i_krate it) f).
    Proof.
      unfold own_ok, own_atoms. cbn [forallb]. rewrite andb_true_iff, mem_In, forallb_forall. intros [H1 H2].
      split; auto. intros f Hf. apply HS, mem_In, H2. now apply in_map.
    Qed.
    Lemma name_sound pb p k d path :
      (forall q it, In it items -> pb q it = true -> present R reqs q it) ->
      name_b pb R S p k d path = true -> nameable R reqs p k d path.
    Proof.
      intros Hp. unfold name_b. rewrite orb_true_iff, !andb_true_iff, !existsb_exists.
      intros [[H1 [it [I1 I2]]]|[H1 [it [I1 I2]]]].
      - destruct (krate_eq_dec k d) as [<-|]; [|discriminate].
        apply andb_true_iff in I2 as [I2 I3]. apply at_path_iff in I2 as [E1 E2]. eapply name_own; eauto.
      - apply andb_true_iff in I2 as [I2 I3]. apply andb_true_iff in I2 as [I2 I4].
        apply at_path_iff in I2 as [E1 E2]. eapply name_dep; eauto. apply HS. now apply mem_In.
    Qed.
    Lemma present0_sound p it : In it items -> present0 S p it = true -> present R reqs p it.
    Proof.
      intros I. unfold present0. rewrite andb_true_iff. intros [H1 H2]. apply own_sound in H2 as [H2 H3].
      constructor; auto. intros d path E. rewrite E in H1. discriminate.
    Qed.
    Lemma presentb_sound p it : In it items -> presentb R S p it = true -> present R reqs p it.
    Proof.
      intros I. unfold presentb. rewrite andb_true_iff. intros [H1 H2]. apply own_sound in H1 as [H1 H3].
      constructor; auto. intros d path E. rewrite E in H2.
      eapply name_sound; [|exact H2]. intros; now apply present0_sound.
    Qed.
  End Sound.
  Section Complete.
    Hypothesis HS : forall a, resolved R reqs a -> In a S.
    Lemma present_own p it : present R reqs p it -> In it items /\ own_ok S p it = true.
    Proof.
      destruct 1 as [p it I H1 H2 _]. split; auto. unfold own_ok, own_atoms. cbn [forallb].
      rewrite andb_true_iff, mem_In, forallb_forall. split; auto. intros x Hx. apply in_map_iff in Hx as [f [<- Hf]].
      apply mem_In. auto.
    Qed.
    Lemma name_complete pb p k d path :
      (forall q it, i_krate it = d -> i_path it = path -> present R reqs q it -> pb q it = true) ->
      nameable R reqs p k d path -> name_b pb R S p k d path = true.
    Proof.
      intros Hp H. unfold name_b. rewrite orb_true_iff, !andb_true_iff, !existsb_exists.
      destruct H as [p k path it E1 E2 Hi|p k d path it L E1 E2 Pu Hi].
      - left. destruct (krate_eq_dec k k); [|congruence]. split; auto. exists it.
        split; [now apply (present_own p)|]. rewrite andb_true_iff. split; [now apply at_path_iff|]. auto.
      - right. split; [now apply mem_In, HS|]. exists it. split; [now apply (present_own (place_of R p d))|].
        rewrite !andb_true_iff. repeat split; auto. now apply at_path_iff.
    Qed.
  End Complete.
End Facts.

(** What a re-exported macro stands for is itself defined where it is. *)
Definition follows_ok : bool :=
  forallb (fun it => match i_follows it with
                     | None => true
                     | Some (d, path) => forallb (fun t => implb (at_path d path t) (is_none (i_follows t))) items
                     end) items.
Lemma follows_defined it d path t :
  In it items -> i_follows it = Some (d, path) -> In t items -> i_krate t = d -> i_path t = path ->
  i_follows t = None.
Proof.
  intros I E It E1 E2. assert (C : follows_ok = true) by (vm_compute; reflexivity).
  unfold follows_ok in C. rewrite forallb_forall in C. specialize (C _ I). rewrite E in C.
  rewrite forallb_forall in C. specialize (C _ It).
  rewrite (proj2 (at_path_iff d path t) (conj E1 E2)) in C. cbn in C. now destruct (i_follows t).
Qed.
Lemma present_complete R reqs S p it :
  (forall a, resolved R reqs a -> In a S) -> present R reqs p it -> presentb R S p it = true.
Proof.
  intros HS H. destruct (present_own R reqs S HS p it H) as [I O]. unfold presentb. rewrite O. cbn [andb].
  destruct (i_follows it) as [[d path]|] eqn:E; auto. destruct H as [p it _ _ _ H]. specialize (H _ _ E).
  eapply name_complete; eauto. intros q t E1 E2 Ht. destruct (present_own R reqs S HS q t Ht) as [It Ot].
  unfold present0. rewrite Ot, (follows_defined it d path t I E It E1 E2). reflexivity.
Qed.

(** * Every mention is there *)

(** What is known when an item is there. *)
Definition facts_of (R : resolver) (p : place) (it : item) : list atom :=
  own_atoms p it ++
  match i_follows it with
  | None => []
  | Some (d, path) =>
      match filter (at_path d path) items with
      | [t] => if krate_eq_dec (i_krate it) d then own_atoms p t
               else Links p (i_krate it) d :: own_atoms (place_of R p d) t
      | _ => []
      end
  end.
Lemma own_atoms_hold R reqs p it : present R reqs p it -> forall a, In a (own_atoms p it) -> resolved R reqs a.
Proof.
  destruct 1 as [p it I H1 H2 _]. intros a [<-|Ha]; auto. apply in_map_iff in Ha as [f [<- Hf]]. auto.
Qed.
Lemma facts_hold R reqs p it : present R reqs p it -> forall a, In a (facts_of R p it) -> resolved R reqs a.
Proof.
  intros H a. unfold facts_of. rewrite in_app_iff. intros [Ha|Ha]; [eapply own_atoms_hold; eauto|].
  destruct (i_follows it) as [[d path]|] eqn:E; [|easy]. destruct H as [p it I _ _ H]. specialize (H _ _ E).
  destruct (filter (at_path d path) items) as [|t [|? ?]] eqn:F; try easy.
  assert (U : forall x, In x items -> i_krate x = d -> i_path x = path -> x = t).
  { intros x Ix E1 E2. assert (J : In x (filter (at_path d path) items)).
    { apply filter_In. split; auto. now apply at_path_iff. }
    rewrite F in J. destruct J as [J|[]]. now symmetry. }
  remember (i_krate it) as k eqn:Ek.
  destruct H as [p k path x E1 E2 Hx|p k d path x L E1 E2 Pu Hx].
  - destruct (krate_eq_dec k k); [|congruence].
    assert (x = t) as -> by (apply U; auto; now destruct Hx). eapply own_atoms_hold; eauto.
  - assert (x = t) as -> by (apply U; auto; now destruct Hx).
    destruct (krate_eq_dec k d) as [K|K].
    + exfalso. revert I E Ek K. clear. intros I E Ek K. subst.
      assert (C : forallb (fun it => match i_follows it with Some (d, _) => if krate_eq_dec (i_krate it) d then false else true | None => true end) items = true) by (vm_compute; reflexivity).
      rewrite forallb_forall in C. specialize (C _ I). rewrite E in C.
      match type of C with context [krate_eq_dec ?x ?y] => destruct (krate_eq_dec x y) end; congruence.
    + destruct Ha as [<-|Ha]; auto. eapply own_atoms_hold; eauto.
Qed.

Definition both_places := [Target; Host].
Definition rounds := 12.
Definition refs_ok (R : resolver) (of : item -> list (krate * string)) (it : item) : bool :=
  forallb (fun p => let S := sat rounds (rules R) (facts_of R p it) in
    forallb (fun r => name_b (presentb R S) R S p (i_krate it) (fst r) (snd r)) (of it)) both_places.
Lemma refs_sound R reqs of p it d path :
  refs_ok R of it = true -> present R reqs p it -> In (d, path) (of it) -> nameable R reqs p (i_krate it) d path.
Proof.
  intros C H I. unfold refs_ok in C. rewrite forallb_forall in C.
  assert (P : In p both_places) by (destruct p; cbn; auto). specialize (C _ P). cbn zeta in C.
  rewrite forallb_forall in C. specialize (C _ I). cbn [fst snd] in C.
  eapply name_sound; [| |exact C].
  - apply sat_sound. apply facts_hold. exact H.
  - intros q t It Ht. eapply presentb_sound; eauto. apply sat_sound. apply facts_hold. exact H.
Qed.

(** * Sets of features *)
Fixpoint sublists {A} (l : list A) : list (list A) :=
  match l with [] => [[]] | x :: r => sublists r ++ map (cons x) (sublists r) end.
Lemma filter_sublists {A} (g : A -> bool) l : In (filter g l) (sublists l).
Proof.
  induction l as [|x l IH]; cbn; auto. apply in_app_iff. destruct (g x); auto. right. now apply in_map.
Qed.
Lemma all_features_all f : In f all_features.
Proof. destruct f; cbn; tauto. Qed.
Definition normal (fs : list feature) : list feature := filter (fmem fs) all_features.
Lemma normal_In fs f : In f (normal fs) <-> In f fs.
Proof. unfold normal. rewrite filter_In, fmem_In. split; [tauto|]. split; auto. apply all_features_all. Qed.
Definition enabledb (fs : list feature) (f : feature) : bool :=
  fmem fs f
  || match f with
     | Fstd | Fmacros => fmem fs Fdefault
     | Falloc => fmem fs Fstd || fmem fs Fdefault
     | _ => false
     end.
Lemma enabledb_iff fs f : enabledb fs f = true <-> enabled fs f.
Proof.
  unfold enabledb. rewrite orb_true_iff, fmem_In. split.
  - intros [H|H]; [now constructor|].
    destruct f; try discriminate; rewrite ?orb_true_iff, ?fmem_In in H.
    + now constructor 2.
    + destruct H as [H|H]; apply en_std_alloc; [now constructor|now constructor 2].
    + now constructor 3.
  - induction 1 as [f H|H|H|H IH]; auto.
    + right. now apply fmem_In.
    + right. now apply fmem_In.
    + right. rewrite orb_true_iff, !fmem_In. cbn in IH. rewrite fmem_In in IH. exact IH.
Qed.
