(** Property theorems C01-C03: the style algebra of style/src/lib.rs. *)
From Verif Require Import Base Style SpecText TextFacts StyleFacts.

(** C01: [a.with(b.diff_from(a)) == b]. *)
Theorem C01_diff_round_trip (a b : style) :
  style_with Restyle_StyleDiff a (diff_from b a) = b.
Proof. exact (diff_round_trip a b). Qed.
Print Assumptions C01_diff_round_trip.

(** C01: the diff is empty exactly when the styles are equal. *)
Theorem C01_diff_empty_iff (a b : style) : diff_from b a = diff_default <-> a = b.
Proof. exact (diff_empty_iff a b). Qed.
Print Assumptions C01_diff_empty_iff.

(** The derived comparison [==] on styles, which all backends branch on, is equality. *)
Theorem C01_style_eq (a b : style) : style_eqb a b = true <-> a = b.
Proof. exact (match style_eqb_spec a b with
              | ReflectT _ H => conj (fun _ => H) (fun _ => eq_refl)
              | ReflectF _ H => conj (fun E => match Bool.diff_false_true E with end)
                                     (fun E => match H E with end) end). Qed.
Print Assumptions C01_style_eq.

Example C01_nonvacuous :
  let a := mk_style Red ColorDefault Bold in let b := mk_style Red Blue Normal in
  diff_from b a <> diff_default /\ style_with Restyle_StyleDiff a (diff_from b a) = b /\ style_eqb a b = false.
Proof. split; [discriminate|split; reflexivity]. Qed.

(** C02: the diff mentions exactly the attributes that differ, with the new value. *)
Theorem C02_diff_mentions (a b : style) :
  (foreground a = foreground b -> d_foreground (diff_from b a) = None) /\
  (foreground a <> foreground b -> d_foreground (diff_from b a) = Some (foreground b)) /\
  (background a = background b -> d_background (diff_from b a) = None) /\
  (background a <> background b -> d_background (diff_from b a) = Some (background b)) /\
  (intens a = intens b -> d_intensity (diff_from b a) = None) /\
  (intens a <> intens b -> d_intensity (diff_from b a) = Some (intens b)).
Proof. exact (diff_mentions a b). Qed.
Print Assumptions C02_diff_mentions.

(** C02: any other diff that turns [a] into [b] mentions at least as much. *)
Theorem C02_diff_minimal (a b : style) (d : style_diff) :
  style_with Restyle_StyleDiff a d = b ->
  (forall c, d_foreground (diff_from b a) = Some c -> d_foreground d = Some c) /\
  (forall c, d_background (diff_from b a) = Some c -> d_background d = Some c) /\
  (forall i, d_intensity (diff_from b a) = Some i -> d_intensity d = Some i).
Proof. exact (diff_minimal a b d). Qed.
Print Assumptions C02_diff_minimal.

(** C02: applying a diff to any style sets what it mentions and nothing else. *)
Theorem C02_apply_diff (d : style_diff) (st : style) :
  foreground (style_with Restyle_StyleDiff st d) =
    match d_foreground d with Some c => c | None => foreground st end /\
  background (style_with Restyle_StyleDiff st d) =
    match d_background d with Some c => c | None => background st end /\
  intens (style_with Restyle_StyleDiff st d) =
    match d_intensity d with Some i => i | None => intens st end.
Proof. exact (apply_diff_fields d st). Qed.
Print Assumptions C02_apply_diff.

Example C02_nonvacuous :
  let a := mk_style Red ColorDefault Bold in
  let b := mk_style Red Blue Normal in
  let d := mk_diff (Some Red) (Some Blue) (Some Normal) in
  style_with Restyle_StyleDiff a d = b /\
  diff_from b a = mk_diff None (Some Blue) (Some Normal).
Proof. split; reflexivity. Qed.

(** C03: a slice applies its elements from left to right (any element type). *)
Theorem C03_slice_left_to_right {T} (d : Restyle T) (x : T) (l1 l2 : list T) (st : style) :
  style_with (Restyle_slice d) st [] = st /\
  style_with (Restyle_slice d) st [x] = style_with d st x /\
  style_with (Restyle_slice d) st (l1 ++ l2) =
  style_with (Restyle_slice d) (style_with (Restyle_slice d) st l1) l2.
Proof. exact (conj eq_refl (conj eq_refl (slice_app d l1 l2 st))). Qed.
Print Assumptions C03_slice_left_to_right.

(** C03: tuples, options, unit, references, boxes. *)
Theorem C03_wrappers {T U V} (dt : Restyle T) (du : Restyle U) (dv : Restyle V)
  (t : T) (u : U) (v : V) (st : style) :
  style_with (Restyle_pair dt du) st (t, u) = style_with du (style_with dt st t) u /\
  style_with (Restyle_triple dt du dv) st (t, u, v) =
    style_with dv (style_with du (style_with dt st t) u) v /\
  style_with (Restyle_option dt) st (Some t) = style_with dt st t /\
  style_with (Restyle_option dt) st None = st /\
  style_with Restyle_unit st tt = st /\
  style_with (Restyle_ref dt) st t = style_with dt st t /\
  style_with (Restyle_box dt) st t = style_with dt st t.
Proof. repeat split. Qed.
Print Assumptions C03_wrappers.

(** C03: a setting changes its own attribute only; a [Style] replaces everything. *)
Theorem C03_settings (st s : style) (c : color) (i : intensity) :
  style_with Restyle_Foreground st (Foreground c) = mk_style c (background st) (intens st) /\
  style_with Restyle_Background st (Background c) = mk_style (foreground st) c (intens st) /\
  style_with Restyle_Intensity st i = mk_style (foreground st) (background st) i /\
  style_with Restyle_Style st s = s.
Proof. repeat split. Qed.
Print Assumptions C03_settings.

(** C03: last writer wins.  [get] is any view of a style (foreground, background, intensity);
    if [x] sets it to [v] and nothing after [x] changes it, the result has [v]; if nothing
    changes it, it is the original. *)
Theorem C03_last_wins {T A} (get : style -> A) (d : Restyle T) (l1 l2 : list T) (x : T) (v : A)
  (st : style) :
  (forall s, get (style_with d s x) = v) ->
  (forall y, In y l2 -> forall s, get (style_with d s y) = get s) ->
  get (style_with (Restyle_slice d) st (l1 ++ x :: l2)) = v.
Proof. exact (slice_last_wins get d l1 x l2 v st). Qed.
Print Assumptions C03_last_wins.

Theorem C03_untouched {T A} (get : style -> A) (d : Restyle T) (l : list T) (st : style) :
  (forall x, In x l -> forall s, get (style_with d s x) = get s) ->
  get (style_with (Restyle_slice d) st l) = get st.
Proof. exact (slice_keeps get d l st). Qed.
Print Assumptions C03_untouched.

(** Non-vacuity: trait objects ([Box<dyn Restyle>]) are arbitrary functions. *)
Example C03_nonvacuous :
  let dyn : Restyle (style -> style) := fun f st => f st in
  let fg c := fun st => style_with Restyle_Foreground st (Foreground c) in
  let bold := fun st => style_with Restyle_Intensity st Bold in
  (forall s, foreground (style_with dyn s (fg Green)) = Green) /\
  (forall y, In y [bold] -> forall s, foreground (style_with dyn s y) = foreground s) /\
  style_with (Restyle_slice dyn) style_default ([fg Red] ++ fg Green :: [bold])
  = mk_style Green ColorDefault Bold.
Proof.
  split; [reflexivity|split; [|reflexivity]].
  intros y [<-|[]]; reflexivity.
Qed.
