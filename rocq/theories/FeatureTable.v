(** What Cargo resolves when only [stylish] is asked for, for every set of its features. *)
From Verif Require Import Base.
From Coq Require Import List String Bool.
From Verif Require Import Features SpecFeatures FeatureFacts.
Import ListNotations.
Open Scope string_scope.
#[local] Opaque rules items.

Definition init (R : resolver) (p : place) (fs : list feature) : list atom :=
  Built (place_of R p Stylish) Stylish :: map (On (place_of R p Stylish) Stylish) fs.
Definition facts (R : resolver) (p : place) (fs : list feature) : list atom := sat rounds (rules R) (init R p fs).
Lemma init_holds R p fs a : In a (init R p (normal fs)) -> resolved R [uses_stylish p fs] a.
Proof.
  intros [<-|H].
  - apply (res_built R [uses_stylish p fs] (uses_stylish p fs)). now left.
  - apply in_map_iff in H as [f [<- Hf]]. apply (proj1 (normal_In _ _)) in Hf.
    apply (res_on R [uses_stylish p fs] (uses_stylish p fs) f); [now left|exact Hf].
Qed.
Definition incl_b (A B : list atom) : bool := forallb (mem B) A.
Definition docb (fs : list feature) (path : string) : bool :=
  existsb (fun e => (fst e =? path)%string && forallb (enabledb fs) (snd e)) documented.
Definition public_stylish (it : item) : bool :=
  (if krate_eq_dec (i_krate it) Stylish then true else false) && i_public it.
Definition on_own (R : resolver) (S : list atom) (p : place) (fs : list feature) : bool :=
  forallb (fun it => implb (public_stylish it)
                       (Bool.eqb (presentb R S (place_of R p Stylish) it) (docb fs (i_path it)))) items.
(** Which crates link [alloc] and [std] in the target. *)
Definition links_alloc (R : resolver) (S : list atom) (p : place) (fs : list feature) : bool :=
  forallb (fun k => implb (if krate_eq_dec k MacrosK then false else mem S (Built (place_of R p Stylish) k))
    (Bool.eqb (mem S (On (place_of R p Stylish) k Falloc))
       (match k with
        | StyleK => match place_of R p Stylish, R with Target, V2 => false | _, _ => enabledb fs Fmacros end
        | WithBuiltin | Askama => false
        | _ => enabledb fs Falloc
        end)
     && Bool.eqb (mem S (On (place_of R p Stylish) k Fstd))
       (match k with StyleK | WithBuiltin | Askama => false | _ => enabledb fs Fstd end))) all_krates.
Definition good (R : resolver) (p : place) (fs : list feature) : bool :=
  let S := facts R p fs in
  closedb (rules R) S && incl_b (init R p fs) S && (on_own R S p fs && links_alloc R S p fs).
Definition all_good : bool :=
  forallb (fun R => forallb (fun p => forallb (good R p) (sublists all_features)) both_places) [V1; V2].
Lemma all_good_ok : all_good = true.
Proof. vm_compute. reflexivity. Qed.
