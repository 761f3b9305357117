(** Proofs about placeholders with attribute lists. *)
From Verif Require Import Base Style Fmt SpecStd StdCompat Nom Parse Codegen SpecText TextFacts
  StyleFacts SpecGrammar ParseFacts SpecFacts GrammarFacts SpecMeaning CodegenFacts MacroFacts.

(** A format string that is one placeholder with an attribute list, and the piece it spells. *)
Definition attribute_string (inside : str) : str := lit "{:(" ++ inside ++ lit ")}".
Definition attribute_piece (d : style_diff) : piece :=
  Arg (mk_farg None (mk_spec (mk_pfargs None None false false None None None) d FDisplay)).

Section Attributes.
Variables xid_start xid_continue : char -> bool.
Hypothesis Hx : xid_ok xid_start xid_continue.

Lemma attribute_string_spelled l s :
  attrs_spelled l s ->
  format_string xid_start xid_continue [attribute_piece (kept_settings l)] (attribute_string s).
Proof.
  intros H. unfold attribute_string, format_string.
  change (lit "{:(" ++ s ++ lit ")}")
    with (lit "{" ++ ((lit ":" ++ lit "(") ++ s ++ lit ")}")).
  replace ((lit ":" ++ lit "(") ++ s ++ lit ")}")
    with (([] ++ lit ":" ++ lit "(" ++ s ++ lit ")") ++ lit "}" ++ []).
  2:{ cbn [app]. rewrite <- !app_assoc. reflexivity. }
  eapply sp_arg with (empty := false); [|discriminate|constructor].
  apply ph_intro; [left; split; reflexivity|]. right. exists (lit "(" ++ s ++ lit ")").
  split; [|split; [reflexivity|reflexivity]].
  pose proof (spec_intro xid_start xid_continue None None false false None None None
    (kept_settings l) FDisplay [] [] [] [] [] [] (lit "(" ++ s ++ lit ")") []) as X.
  cbn [app] in X. rewrite app_nil_r in X. apply X; try constructor; [exact H|discriminate].
Qed.

Lemma attribute_accepted d : accepted [attribute_piece d] 1 [].
Proof.
  constructor; cbn; try tauto; try lia.
  - intros i [[=]|[]].
  - intros i [[=]|[]].
  - repeat constructor.
Qed.

Lemma attribute_spec x :
  starts_with_align x = false ->
  parse_format_spec xid_start xid_continue (40%N :: x) =
  match parse_style_diff x with
  | POk (41%N :: r) d =>
      pbind (opt parse_trait) (fun ht =>
        pret (mk_spec (mk_pfargs None None false false None None
                (match ht with Some (h, _) => h | None => None end)) d
                (match ht with Some (_, t) => t | None => FDisplay end))) r
  | POk _ _ => POk (40%N :: x) (mk_spec (mk_pfargs None None false false None None None)
                                 diff_default FDisplay)
  | PErr | PFail => PFail
  | PPanic => PPanic
  end.
Proof.
  intros Ha.
  assert (R : parse_count xid_start xid_continue (40%N :: x) = PErr).
  { apply (parse_count_err _ _); [|reflexivity].
    unfold ident_start. now rewrite (proj1 Hx). }
  assert (FA : parse_fill_align (40%N :: x) = POk (40%N :: x) None).
  { rewrite fill_align_eq. destruct x as [|c r]; [reflexivity|]. cbn in Ha.
    apply align_of_none in Ha. now rewrite Ha. }
  unfold parse_format_spec. unfold pbind at 1. rewrite FA.
  unfold pbind at 1. change (opt parse_sign (40%N :: x)) with (POk (40%N :: x) (@None p_sign)). cbv match.
  unfold pbind at 1. change (opt (value true (tag (lit "#"))) (40%N :: x)) with (POk (40%N :: x) (@None bool)). cbv match.
  unfold pbind at 1. change (opt (value true (tag (lit "0"))) (40%N :: x)) with (POk (40%N :: x) (@None bool)). cbv match.
  unfold pbind at 1. unfold opt at 1. rewrite R.
  unfold pbind at 1.
  change (opt (preceded (tag (lit ".")) (parse_count xid_start xid_continue)) (40%N :: x))
    with (POk (40%N :: x) (@None count)). cbv match.
  unfold pbind at 1. unfold opt at 1. unfold delimited. unfold pbind at 1.
  change (tag (lit "(") (40%N :: x)) with (POk x tt). cbv match.
  unfold pbind at 1. unfold cut at 1.
  destruct (parse_style_diff x) as [rest d| | |]; try reflexivity.
  unfold pbind at 1.
  destruct rest as [|c rest]; [reflexivity|].
  destruct (N.eqb_spec c 41) as [->|Hc].
  - change (tag (lit ")") (41%N :: rest)) with (POk rest tt). reflexivity.
  - assert (T : tag (lit ")") (c :: rest) = PErr) by (apply (tag1_neq 41%N); exact Hc).
    unfold pbind at 1. rewrite T. cbv match.
    assert (forall A (a b : A), match c with 41%N => a | _ => b end = b) as ->.
    { intros A a b. destruct c as [|p]; [reflexivity|]. do 6 (destruct p; try reflexivity). congruence. }
    reflexivity.
Qed.

Lemma attribute_string_inv (s : str) ps :
  ~ In (41%N : char) s ->
  format_string xid_start xid_continue ps (attribute_string s) ->
  exists l, attrs_spelled l s /\ ps = [attribute_piece (kept_settings l)].
Proof.
  intros Hin H. pose proof H as H0. apply (parse_format_iff _ _ Hx) in H.
  assert (X : exists l, attrs_spelled l s).
  2:{ destruct X as [l Hl]. exists l. split; [exact Hl|].
      eapply format_string_unique; [exact Hx|exact H0|now apply attribute_string_spelled]. }
  clear H0. unfold attribute_string in H. remember (@app char s (lit ")}")) as x eqn:Ex.
  unfold parse_format, all_consuming, many0 in H.
  change (lit "{:(" ++ x) with (123%N :: 58%N :: 40%N :: x) in H.
  cbn [many_loop] in H.
  rewrite parse_piece_eq in H.
  change (not_brace 123%N) with false in H. cbv match in H.
  change (tag (lit "{{") (123%N :: 58%N :: 40%N :: x)) with (@PErr unit) in H.
  change (tag (lit "}}") (123%N :: 58%N :: 40%N :: x)) with (@PErr unit) in H. cbv match in H.
  assert (P : exists rest d, parse_style_diff x = POk (41%N :: rest) d).
  { destruct (parse_arg xid_start xid_continue (123%N :: 58%N :: 40%N :: x)) as [rest pc| | |] eqn:E;
      try discriminate.
    clear H.
    unfold parse_arg in E. apply pmap_inv in E as (a & E & ->).
    apply delimited_inv in E as (i1 & y & i2 & z & E1 & E2 & E3).
    apply tag_inv in E1. injection E1 as <-. apply cut_inv in E2.
    unfold parse_format_arg in E2. apply pbind_inv in E2 as (i3 & arg & E4 & E2).
    unfold opt in E4 at 1. rewrite (colon_ref_err _ _ Hx) in E4. injection E4 as <- <-.
    apply pbind_inv in E2 as (i4 & sp & E5 & E2). injection E2 as -> _.
    unfold opt, preceded, pbind in E5.
    change (tag (lit ":") (58%N :: 40%N :: x)) with (POk (40%N :: x) tt) in E5. cbv match in E5.
    destruct (starts_with_align x) eqn:Ea.
    - exfalso. assert (Hf : has_fill (40%N :: x)).
      { destruct x as [|c r]; [discriminate|]. exists 40%N, c, r. repeat split; [discriminate|exact Ea]. }
      apply (spec_panic xid_start xid_continue) in Hf. rewrite Hf in E5. discriminate.
    - rewrite attribute_spec in E5 by exact Ea.
      apply tag_inv in E3.
      destruct (parse_style_diff x) as [[|c r] d| | |] eqn:Ed; try discriminate.
      + injection E5 as <- _. discriminate.
      + destruct (N.eqb_spec c 41) as [->|Hc]; [eauto|].
        assert (Hm : forall A (a b : A), match c with 41%N => a | _ => b end = b).
        { intros A a0 b0. destruct c as [|p]; [reflexivity|]. do 6 (destruct p; try reflexivity). congruence. }
        rewrite Hm in E5. injection E5 as <- _. discriminate. }
  destruct P as (rest & d & P). apply parse_style_diff_inv in P as (l & s' & _ & E & Hl).
  exists l. assert (s = s'); [|now subst].
  assert (N' : ~ In 41%N s').
  { clear - Hl. assert (A : forall a s, attr_spelled a s -> ~ In 41%N s).
    { intros a s [c t Hc|c t Hc| | |]; try destruct Hc; cbn; intuition discriminate. }
    induction Hl as [a s H|a s l t H _ IH]; [eauto|]. rewrite !in_app_iff. cbn.
    apply A in H. intuition discriminate. }
  rewrite Ex in E. clear - E Hin N'. revert s' E N'. induction s as [|c s IH]; intros [|c' s'] E N'; auto.
  - exfalso. injection E as <- E. apply N'. now left.
  - exfalso. injection E as -> E. apply Hin. now left.
  - injection E as <- E. f_equal. apply IH; auto.
    + intros H. apply Hin. now right.
    + intros H. apply N'. now right.
Qed.
End Attributes.

(** An attribute list never ends in a comma. *)
Lemma attr_no_comma a s : attr_spelled a s -> ~ In 44%N s.
Proof.
  intros [c t Hc|c t Hc| | |]; try destruct Hc; cbn; intuition discriminate.
Qed.

Lemma attrs_last l (s : str) : attrs_spelled l s -> exists s' c, s = s' ++ [c] /\ c <> 44%N.
Proof.
  assert (A : forall a s, attr_spelled a s -> exists s' c, s = s' ++ [c] /\ c <> 44%N).
  { clear l s. intros a s H. pose proof (attr_no_comma a s H) as Hn.
    destruct (snoc_cases s) as [->|(s' & c & ->)].
    - exfalso. apply attr_spelled_ne in H as (c & r & [=]).
    - exists s', c. split; [reflexivity|]. intros ->. apply Hn. apply in_or_app; right; now left. }
  induction 1 as [a s H|a s l t H _ IH]; [eauto|].
  destruct IH as (s' & c & -> & Hc). exists (s ++ lit "," ++ s'), c. split; [|exact Hc].
  now rewrite <- !app_assoc.
Qed.

Lemma attrs_nonempty l : ~ attrs_spelled l [].
Proof. intros H. apply attrs_last in H as (s & c & E & _). destruct s; discriminate. Qed.

Lemma attrs_no_trailing l s : ~ attrs_spelled l (s ++ lit ",").
Proof.
  intros H. apply attrs_last in H as (s' & c & E & Hc). apply app_inj_tail in E as [_ <-]. now apply Hc.
Qed.

Lemma attrs_fg l name : attrs_spelled l (lit "fg=" ++ name) -> ~ In 44%N name ->
  exists c, l = [AFg c] /\ color_name c name.
Proof.
  intros H Hn. remember (lit "fg=" ++ name) as s eqn:E. destruct H as [a s H|a s l t H H'].
  - destruct H as [c t Hc|c t Hc| | |]; try discriminate.
    apply app_inv_head in E. subst t. eauto.
  - exfalso. assert (I : In 44%N (lit "fg=" ++ name)).
    { rewrite <- E. rewrite !in_app_iff. right. left. now left. }
    apply in_app_or in I as [I|I]; [|tauto]. cbn in I. intuition discriminate.
Qed.

(** * What the attributes do *)
Lemma set_attributes_spec l st :
  set_attributes l st =
  mk_style (match last_fg l with Some c => c | None => foreground st end)
    (match last_bg l with Some c => c | None => background st end)
    (match last_intensity l with Some i => i | None => intens st end).
Proof.
  unfold last_fg, last_bg, last_intensity.
  assert (G : forall l st f b i st0,
    st = mk_style (match f with Some c => c | None => foreground st0 end)
           (match b with Some c => c | None => background st0 end)
           (match i with Some c => c | None => intens st0 end) ->
    set_attributes l st =
    mk_style
      (match fold_left (fun acc a => match a with AFg c => Some c | _ => acc end) l f with
       | Some c => c | None => foreground st0 end)
      (match fold_left (fun acc a => match a with ABg c => Some c | _ => acc end) l b with
       | Some c => c | None => background st0 end)
      (match fold_left (fun acc a => match a with AIntensity c => Some c | _ => acc end) l i with
       | Some c => c | None => intens st0 end)).
  { clear. induction l as [|a l IH]; intros st f b i st0 E; cbn [fold_left set_attributes]; [exact E|].
    unfold set_attributes in IH. apply IH. subst st. destruct a; reflexivity. }
  apply (G l st None None None st). destruct st; reflexivity.
Qed.

Lemma override_kept l st :
  override (kept_settings l) st = set_attributes l st <->
  (last_fg l = Some ColorDefault -> foreground st = ColorDefault) /\
  (last_bg l = Some ColorDefault -> background st = ColorDefault) /\
  (last_intensity l = Some Normal -> intens st = Normal).
Proof.
  rewrite set_attributes_spec. unfold override, kept_settings.
  cbn [d_foreground d_background d_intensity].
  assert (C : forall o (c0 : color),
    match unless_default_color o with Some c => c | None => c0 end
    = match o with Some c => c | None => c0 end <-> (o = Some ColorDefault -> c0 = ColorDefault)).
  { intros [[]|] c0; cbn; split; auto; try discriminate. }
  assert (I : forall o (c0 : intensity),
    match unless_normal o with Some c => c | None => c0 end
    = match o with Some c => c | None => c0 end <-> (o = Some Normal -> c0 = Normal)).
  { intros [[]|] c0; cbn; split; auto; try discriminate. }
  rewrite <- !C, <- I. split.
  - intros H. injection H as -> -> ->. auto.
  - intros (-> & -> & ->). reflexivity.
Qed.
