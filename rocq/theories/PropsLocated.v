(** C90: the place in the format string that the compile error shows. *)
From Verif Require Import Base Style Nom Parse Located SpecGrammar ParseFacts SpecFacts
  GrammarFacts MacroFacts SpecLocated LocatedFacts PropsParse.

(** * Transfer *)
Lemma lok {A} (lp : lparser A) p i r a : agree lp p -> p i = POk r a -> lp i = LOk r a.
Proof. intros H E. pose proof (H i) as Hi. rewrite E in Hi. destruct (lp i); cbn in Hi; congruence. Qed.
Lemma lok_inv {A} (lp : lparser A) p i r a : agree lp p -> lp i = LOk r a -> p i = POk r a.
Proof. intros H E. rewrite <- (H i), E. reflexivity. Qed.
Lemma lerr {A} (lp : lparser A) p i : agree lp p -> p i = PErr -> exists at_ k, lp i = LErr at_ k.
Proof. intros H E. pose proof (H i) as Hi. rewrite E in Hi. destruct (lp i); cbn in Hi; try congruence. eauto. Qed.
Lemma lerr_inv {A} (lp : lparser A) p i at_ k : agree lp p -> lp i = LErr at_ k -> p i = PErr.
Proof. intros H E. rewrite <- (H i), E. reflexivity. Qed.
Lemma lpanic {A} (lp : lparser A) p i : agree lp p -> p i = PPanic -> lp i = LPanic.
Proof. intros H E. pose proof (H i) as Hi. rewrite E in Hi. destruct (lp i); cbn in Hi; congruence. Qed.
Lemma lpanic_inv {A} (lp : lparser A) p i : agree lp p -> lp i = LPanic -> p i = PPanic.
Proof. intros H E. rewrite <- (H i), E. reflexivity. Qed.

Lemma ltag_cases t i :
  (exists rest, ltag t i = LOk rest tt /\ i = t ++ rest) \/
  ltag t i = LErr i KTag /\ (forall rest, i <> t ++ rest).
Proof.
  unfold ltag. destruct (tag_cases t i) as [(rest & -> & E)|E].
  - left. eauto.
  - right. rewrite E. split; [reflexivity|]. intros rest ->. rewrite tag_app in E. discriminate.
Qed.
Lemma ltag_app t r : ltag t (t ++ r) = LOk r tt.
Proof. unfold ltag. now rewrite tag_app. Qed.

Lemma lvalue_tag_cases {A} (v : A) t i :
  (exists rest, lvalue v (ltag t) i = LOk rest v) \/
  lvalue v (ltag t) i = LErr i KTag /\ (forall rest, i <> t ++ rest).
Proof.
  unfold lvalue, lmap, lbind, lret.
  destruct (ltag_cases t i) as [(rest & -> & _)|(-> & H)]; [left; eauto|right; auto].
Qed.

(** Alternatives of tags: the error is at the input, with the code [KTag]. *)
Lemma tags_err {A} (l : list (A * str)) (v : A) (t : str) i :
  (exists rest a, lalt (lvalue v (ltag t)) (map (fun x => lvalue (fst x) (ltag (snd x))) l) i
             = LOk rest a) \/
  (lalt (lvalue v (ltag t)) (map (fun x => lvalue (fst x) (ltag (snd x))) l) i = LErr i KTag /\
   forall k rest, In k (t :: map snd l) -> i <> k ++ rest).
Proof.
  revert v t; induction l as [|[a u] l IH]; intros v t.
  - cbn [map lalt].
    destruct (lvalue_tag_cases v t i) as [(rest & ->)|(-> & H)]; [left; eauto|]. right.
    split; [reflexivity|]. intros k rest [<-|[]]. apply H.
  - change (lalt (lvalue v (ltag t)) (map (fun x => lvalue (fst x) (ltag (snd x))) ((a, u) :: l)) i)
      with (match lvalue v (ltag t) i with
            | LErr _ _ => lalt (lvalue a (ltag u)) (map (fun x => lvalue (fst x) (ltag (snd x))) l) i
            | r => r end).
    destruct (lvalue_tag_cases v t i) as [(rest & ->)|(-> & H)]; [left; eauto|].
    destruct (IH a u) as [Hok|[He Hn]]; [left; exact Hok|]. right. split; [exact He|].
    intros k rest [<-|Hk]; [apply H|]. apply (Hn k rest Hk).
Qed.
Lemma color_err i :
  (exists rest c, lparse_color i = LOk rest c) \/
  (lparse_color i = LErr i KTag /\ forall c n r, color_name c n -> i <> n ++ r).
Proof.
  destruct (tags_err [(Red, lit "red"); (Green, lit "green"); (Yellow, lit "yellow");
    (Blue, lit "blue"); (Magenta, lit "magenta"); (Cyan, lit "cyan"); (White, lit "white");
    (ColorDefault, lit "default")] Black (lit "black") i) as [H|[H Hn]]; [left; exact H|].
  right. split; [exact H|]. intros c n r Hc. apply Hn. cbn [map snd In]. destruct Hc; tauto.
Qed.
Lemma intensity_err i :
  (exists rest c, lparse_intensity i = LOk rest c) \/
  (lparse_intensity i = LErr i KTag /\
   forall k r, In k (map lit ["normal"; "bold"; "faint"]%string) -> i <> k ++ r).
Proof.
  destruct (tags_err [(Bold, lit "bold"); (Faint, lit "faint")] Normal (lit "normal") i)
    as [H|[H Hn]]; [left; exact H|]. right. split; [exact H|exact Hn].
Qed.

(** * One attribute *)
Lemma restyle_fail i :
  (exists rest a, lcut lparse_restyle i = LOk rest a) \/
  exists w at_, i = w ++ at_ /\ lcut lparse_restyle i = LFail at_ KTag /\ expected w at_.
Proof.
  unfold lcut, lparse_restyle. cbn [lalt].
  unfold lpreceded, lcut, lmap, lbind, lret.
  destruct (ltag_cases (lit "fg") i) as [(i1 & -> & ->)|(-> & Hf)].
  { destruct (ltag_cases (lit "=") i1) as [(i2 & -> & ->)|(-> & He)].
    - destruct (color_err i2) as [(rest & c & ->)|[-> Hc]]; [left; eauto|].
      right. exists (lit "fg="), i2. split; [reflexivity|]. split; [reflexivity|].
      apply ex_color; [cbn; tauto|exact Hc].
    - right. exists (lit "fg"), i1. split; [reflexivity|]. split; [reflexivity|].
      apply ex_equals; [cbn; tauto|exact He]. }
  destruct (ltag_cases (lit "bg") i) as [(i1 & -> & ->)|(-> & Hb)].
  { destruct (ltag_cases (lit "=") i1) as [(i2 & -> & ->)|(-> & He)].
    - destruct (color_err i2) as [(rest & c & ->)|[-> Hc]]; [left; eauto|].
      right. exists (lit "bg="), i2. split; [reflexivity|]. split; [reflexivity|].
      apply ex_color; [cbn; tauto|exact Hc].
    - right. exists (lit "bg"), i1. split; [reflexivity|]. split; [reflexivity|].
      apply ex_equals; [cbn; tauto|exact He]. }
  destruct (intensity_err i) as [(rest & c & ->)|[-> Hc]]; [left; eauto|].
  right. exists [], i. split; [reflexivity|]. split; [reflexivity|]. apply ex_attribute.
  intros k r [<-|[<-|Hk]]; [apply Hf|apply Hb|]. now apply Hc.
Qed.

(** A text with a given wrong place has no other. *)
Lemma attr_not_expected a s r w at_ : attr_spelled a s -> s ++ r = w ++ at_ -> ~ expected w at_.
Proof.
  intros Ha E Hw. destruct Hw as [at_ Hn|k at_ Hk Hn|k at_ Hk Hn].
  - cbn [app] in E. subst at_. destruct Ha as [c n Hc|c n Hc| | |].
    + rewrite <- app_assoc in Hn. apply (Hn (lit "fg") (lit "=" ++ n ++ r)); [cbn; tauto|reflexivity].
    + rewrite <- app_assoc in Hn. apply (Hn (lit "bg") (lit "=" ++ n ++ r)); [cbn; tauto|reflexivity].
    + apply (Hn (lit "normal") r); [cbn; tauto|reflexivity].
    + apply (Hn (lit "bold") r); [cbn; tauto|reflexivity].
    + apply (Hn (lit "faint") r); [cbn; tauto|reflexivity].
  - destruct Hk as [<-|[<-|[]]]; destruct Ha as [c n Hc|c n Hc| | |]; try discriminate;
      cbn [lit app] in E; injection E as E; apply (Hn (n ++ r)); symmetry; exact E.
  - destruct Hk as [<-|[<-|[]]]; destruct Ha as [c n Hc|c n Hc| | |]; try discriminate;
      cbn [lit app] in E; injection E as E; apply (Hn c n r Hc); symmetry; exact E.
Qed.
Lemma expected_unique w at_ w' at' :
  expected w at_ -> expected w' at' -> w ++ at_ = w' ++ at' -> at_ = at'.
Proof.
  intros H H' E.
  destruct H as [at_ Hn|k at_ Hk Hn|k at_ Hk Hn]; destruct H' as [at' Hn'|k' at' Hk' Hn'|k' at' Hk' Hn'].
  - exact E.
  - exfalso. apply (Hn k' at'); [|exact E]. cbn in Hk' |- *. tauto.
  - exfalso. destruct Hk' as [<-|[<-|[]]].
    + apply (Hn (lit "fg") (lit "=" ++ at')); [cbn; tauto|exact E].
    + apply (Hn (lit "bg") (lit "=" ++ at')); [cbn; tauto|exact E].
  - exfalso. apply (Hn' k at_); [|symmetry; exact E]. cbn in Hk |- *. tauto.
  - destruct Hk as [<-|[<-|[]]]; destruct Hk' as [<-|[<-|[]]]; try discriminate;
      cbn [lit app] in E; injection E as E; exact E.
  - exfalso. destruct Hk as [<-|[<-|[]]]; destruct Hk' as [<-|[<-|[]]]; try discriminate;
      cbn [lit app] in E; injection E as E; apply (Hn at'); exact E.
  - exfalso. destruct Hk as [<-|[<-|[]]].
    + apply (Hn' (lit "fg") (lit "=" ++ at_)); [cbn; tauto|symmetry; exact E].
    + apply (Hn' (lit "bg") (lit "=" ++ at_)); [cbn; tauto|symmetry; exact E].
  - exfalso. destruct Hk as [<-|[<-|[]]]; destruct Hk' as [<-|[<-|[]]]; try discriminate;
      cbn [lit app] in E; injection E as E; apply (Hn' at_); symmetry; exact E.
  - destruct Hk as [<-|[<-|[]]]; destruct Hk' as [<-|[<-|[]]]; try discriminate;
      cbn [lit app] in E; injection E as E; exact E.
Qed.
Lemma restyle_expected w at_ : expected w at_ -> lcut lparse_restyle (w ++ at_) = LFail at_ KTag.
Proof.
  intros Hw. destruct (restyle_fail (w ++ at_)) as [(rest & a & H)|(w' & at' & E & H & Hw')].
  - exfalso. apply (lok_inv _ _ _ _ _ (agree_lcut _ _ agree_restyle)) in H. apply cut_inv in H.
    apply parse_restyle_inv in H as (b & s & _ & E & Hs).
    exact (attr_not_expected b s rest w at_ Hs (eq_sym E) Hw).
  - rewrite H. rewrite (expected_unique w at_ w' at' Hw Hw' E). reflexivity.
Qed.

(** * Attribute lists *)
Lemma sep_fail fuel : forall i acc at_ k,
  length i < fuel ->
  lsep_loop fuel (ltag (lit ",")) (lcut lparse_restyle) i acc = LFail at_ k ->
  k = KTag /\ exists c w, i = lit "," ++ c ++ w ++ at_ /\ complete_attributes c /\ expected w at_.
Proof.
  induction fuel as [|fuel IH]; intros i acc at_ k Hf; [lia|]. cbn [lsep_loop].
  destruct (ltag_cases (lit ",") i) as [(i1 & -> & ->)|(-> & _)]; [|discriminate].
  destruct (length i1 =? length (lit "," ++ i1)); [discriminate|].
  destruct (restyle_fail i1) as [(rest & b & E)|(w & at' & -> & E & Hw)]; rewrite E.
  - intros H. pose proof E as E0.
    apply (lok_inv _ _ _ _ _ (agree_lcut _ _ agree_restyle)) in E. apply cut_inv in E.
    apply parse_restyle_inv in E as (a & s & _ & -> & Hs).
    apply IH in H as (-> & c & w & -> & Hc & Hw).
    2: { rewrite !app_length in Hf. cbn in Hf. lia. }
    split; [reflexivity|]. exists (s ++ lit "," ++ c), w. split; [now rewrite <- !app_assoc|].
    split; [now apply (ca_more a)|exact Hw].
  - intros H. injection H as <- <-. split; [reflexivity|]. exists [], w.
    split; [reflexivity|]. split; [constructor|exact Hw].
Qed.
Lemma attrs_fail i at_ k :
  lparse_style_diff i = LFail at_ k ->
  k = KTag /\ exists c w, i = c ++ w ++ at_ /\ complete_attributes c /\ expected w at_.
Proof.
  unfold lparse_style_diff, lmap, lbind, lret, lseparated_list0.
  destruct (restyle_fail i) as [(rest & b & E)|(w & at' & -> & E & Hw)]; rewrite E.
  - apply (lok_inv _ _ _ _ _ (agree_lcut _ _ agree_restyle)) in E. apply cut_inv in E.
    apply parse_restyle_inv in E as (a & s & _ & -> & Hs).
    destruct (lsep_loop _ _ _ _ _) as [| |at'' k''|] eqn:H; intros He; try discriminate.
    injection He as -> ->. apply sep_fail in H as (-> & c & w & -> & Hc & Hw); [|lia].
    split; [reflexivity|]. exists (s ++ lit "," ++ c), w. split; [now rewrite <- !app_assoc|].
    split; [now apply (ca_more a)|exact Hw].
  - intros H. injection H as <- <-. split; [reflexivity|]. exists [], w.
    split; [reflexivity|]. split; [constructor|exact Hw].
Qed.
Lemma restyle_ok a s r : attr_spelled a s -> lcut lparse_restyle (s ++ r) = LOk r (attr_box a).
Proof.
  intros H. apply (lok _ _ _ _ _ (agree_lcut _ _ agree_restyle)). unfold cut.
  now rewrite (parse_restyle_app a s r H).
Qed.
Lemma sep_complete c : complete_attributes c -> forall fuel w at_ acc,
  length (lit "," ++ c ++ w ++ at_) < fuel -> expected w at_ ->
  lsep_loop fuel (ltag (lit ",")) (lcut lparse_restyle) (lit "," ++ c ++ w ++ at_) acc
  = LFail at_ KTag.
Proof.
  induction 1 as [|a s c Ha Hc IH]; intros fuel w at_ acc Hf Hw;
    (destruct fuel as [|fuel]; [lia|]); cbn [lsep_loop]; rewrite ltag_app, length_app_neq by discriminate.
  - cbn [app]. now rewrite restyle_expected.
  - rewrite <- app_assoc, (restyle_ok a s _ Ha). rewrite <- app_assoc. apply IH; [|exact Hw].
    rewrite !app_length in *. cbn in *. lia.
Qed.
Lemma attrs_complete c w at_ :
  complete_attributes c -> expected w at_ -> lparse_style_diff (c ++ w ++ at_) = LFail at_ KTag.
Proof.
  intros Hc Hw. unfold lparse_style_diff, lmap, lbind, lret, lseparated_list0.
  destruct Hc as [|a s c Ha Hc].
  - cbn [app]. now rewrite restyle_expected.
  - rewrite <- app_assoc, (restyle_ok a s _ Ha). rewrite <- app_assoc.
    rewrite (sep_complete c Hc); [reflexivity|lia|exact Hw].
Qed.

(** * No failures elsewhere *)
Definition mild {A} (p : lparser A) : Prop := forall i at_ k, p i <> LFail at_ k.
Lemma mild_lbind {A B} (p : lparser A) (k : A -> lparser B) :
  mild p -> (forall a, mild (k a)) -> mild (lbind p k).
Proof. intros H Hk i at_ c. unfold lbind. specialize (H i). destruct (p i); try discriminate; [apply Hk|]. intros _. eapply H; reflexivity. Qed.
Lemma mild_lret {A} (a : A) : mild (lret a).
Proof. intros i at_ k. discriminate. Qed.
Lemma mild_lmap {A B} (p : lparser A) (f : A -> B) : mild p -> mild (lmap p f).
Proof. intros H. apply mild_lbind; auto using @mild_lret. Qed.
Lemma mild_lvalue {A B} (p : lparser A) (v : B) : mild p -> mild (lvalue v p).
Proof. apply mild_lmap. Qed.
Lemma mild_ltag t : mild (ltag t).
Proof. intros i at_ k. unfold ltag. destruct (tag t i); discriminate. Qed.
Lemma mild_lsat k f : mild (lsatisfy_with k f).
Proof. intros [|c i] at_ k'; cbn; [discriminate|]. destruct (f c); discriminate. Qed.
Lemma mild_lopt {A} (p : lparser A) : mild p -> mild (lopt p).
Proof. intros H i at_ k. unfold lopt. specialize (H i). destruct (p i); try discriminate. intros _. eapply H; reflexivity. Qed.
Lemma mild_lalt {A} (p : lparser A) ps : mild p -> Forall mild ps -> mild (lalt p ps).
Proof.
  intros H Hp. revert p H; induction Hp as [|q ps Hq Hp IH]; intros p H i at_ k; [apply H|].
  change (lalt p (q :: ps) i) with (match p i with LErr _ _ => lalt q ps i | r => r end).
  specialize (H i). destruct (p i); try discriminate; [apply IH; exact Hq|apply H].
Qed.
Ltac mild := repeat first
  [ apply mild_lret | apply mild_lmap | apply mild_lvalue | apply mild_ltag | apply mild_lsat
  | apply mild_lopt | apply mild_lalt; [|repeat (apply Forall_cons; [|]); try apply Forall_nil]
  | apply mild_lbind; [|intros ?] ].
Lemma mild_align : mild lparse_align.
Proof. unfold lparse_align. mild. Qed.
Lemma mild_fill_align : mild lparse_fill_align.
Proof.
  intros i at_ k. unfold lparse_fill_align.
  assert (H : mild (lopt (lalt (lpair lanychar lparse_align)
                               [lmap lparse_align (fun a => (32%N, a))]))).
  { unfold lpair, lanychar. mild; apply mild_align. }
  specialize (H i). destruct (lopt _ i) as [r [[f a]|]| | |]; try discriminate.
  - destruct (N.eqb f 32); discriminate.
  - intros _. eapply H; reflexivity.
Qed.

Section Xid.
Variable xid_start xid_continue : char -> bool.
Hypothesis Hx : xid_ok xid_start xid_continue.
Local Notation lparse_arg_ref := (lparse_arg_ref xid_start xid_continue).
Local Notation lparse_count := (lparse_count xid_start xid_continue).
Local Notation lparse_format_spec := (lparse_format_spec xid_start xid_continue).
Local Notation lparse_format_arg := (lparse_format_arg xid_start xid_continue).
Local Notation lparse_piece := (lparse_piece xid_start xid_continue).
Local Notation lparse_format := (lparse_format xid_start xid_continue).
Local Notation spells := (spells xid_start xid_continue).
Local Notation format_string := (format_string xid_start xid_continue).
Local Notation arg_spelled := (arg_spelled xid_start xid_continue).
Local Notation bad_attribute := (bad_attribute xid_start xid_continue).
Local Notation no_piece := (no_piece xid_start xid_continue).
Local Notation filled_placeholder := (filled_placeholder xid_start xid_continue).

Lemma mild_arg_ref : mild lparse_arg_ref.
Proof.
  intros i at_ k H. pose proof (agree_arg_ref xid_start xid_continue i) as E. rewrite H in E.
  destruct (parse_arg_ref_cases xid_start xid_continue i) as [(r & x & E')|E']; rewrite E' in E;
    discriminate.
Qed.
Lemma mild_count : mild lparse_count.
Proof.
  intros i at_ k H. pose proof (agree_count xid_start xid_continue i) as E. rewrite H in E.
  destruct (parse_count_cases xid_start xid_continue i) as [(r & x & E')|E']; rewrite E' in E;
    discriminate.
Qed.
Lemma mild_sign : mild lparse_sign.
Proof. unfold lparse_sign. mild. Qed.
Lemma mild_trait : mild lparse_trait.
Proof. unfold lparse_trait. mild. Qed.

(** A failure of a sequence of a mild parser and a rest comes from the rest. *)
Lemma lbind_fail {A B} (lp : lparser A) p (k : A -> lparser B) i at_ c :
  agree lp p -> mild lp -> lbind lp k i = LFail at_ c ->
  exists a rest, p i = POk rest a /\ k a rest = LFail at_ c.
Proof.
  intros Ha Hm H. unfold lbind in H. pose proof (Hm i) as Hm'. rewrite <- (Ha i).
  destruct (lp i) as [rest a| | |]; try discriminate.
  - exists a, rest. auto.
  - exfalso. eapply Hm'. reflexivity.
Qed.

(** * Placeholder specs *)
Lemma spec_fail i at_ k :
  lparse_format_spec i = LFail at_ k ->
  k = KTag /\ exists al sg alt zero w p s1 s2 s3 s4 s5 s6 c wd,
    align_spelled al s1 /\ sign_spelled sg s2 /\ flag_spelled "#" alt s3 /\
    flag_spelled "0" zero s4 /\ width_spelled xid_start xid_continue w s5 /\
    precision_spelled xid_start xid_continue p s6 /\
    (zero = false -> hd_error s5 <> Some 48%N) /\
    i = (s1 ++ s2 ++ s3 ++ s4 ++ s5 ++ s6) ++ lit "(" ++ c ++ wd ++ at_ /\
    complete_attributes c /\ expected wd at_ /\
    (s1 ++ s2 ++ s3 ++ s4 ++ s5 ++ s6 = [] -> starts_with_align (c ++ wd ++ at_) = false).
Proof.
  unfold Located.lparse_format_spec. intros H.
  apply (lbind_fail _ parse_fill_align) in H as (al & i1 & H1 & H);
    [|apply agree_fill_align|apply mild_fill_align].
  apply (lbind_fail _ (opt parse_sign)) in H as (sg & i2 & H2 & H);
    [|unfold lparse_sign, parse_sign; agree|apply mild_lopt, mild_sign].
  apply (lbind_fail _ (opt (value true (tag (lit "#"))))) in H as (alt & i3 & H3 & H);
    [|agree|mild].
  apply (lbind_fail _ (opt (value true (tag (lit "0"))))) in H as (zero & i4 & H4 & H);
    [|agree|mild].
  apply (lbind_fail _ (opt (parse_count xid_start xid_continue))) in H as (w & i5 & H5 & H);
    [|apply agree_lopt, agree_count|apply mild_lopt, mild_count].
  apply (lbind_fail _ (opt (preceded (tag (lit ".")) (parse_count xid_start xid_continue))))
    in H as (p & i6 & H6 & H);
    [|apply agree_lopt, agree_lbind; [apply agree_ltag|intros _; apply agree_count]
     |apply mild_lopt, mild_lbind; [apply mild_ltag|intros _; apply mild_count]].
  unfold lbind at 1 in H.
  destruct (lopt (ldelimited (ltag (lit "(")) (lcut lparse_style_diff) (ltag (lit ")"))) i6)
    as [i7 st| |at' k'|] eqn:E; try discriminate.
  { exfalso. revert H. assert (Hm : mild (lbind (lopt lparse_trait) (fun ht =>
      lret (mk_spec
          (mk_pfargs al sg (or_false alt) (or_false zero) w p
             (match ht with Some (h, _) => h | None => None end))
          (match st with Some d => d | None => diff_default end)
          (match ht with Some (_, t) => t | None => FDisplay end))))).
    { apply mild_lbind; [apply mild_lopt, mild_trait|intros ?; apply mild_lret]. }
    apply Hm. }
  injection H as -> ->.
  unfold lopt, ldelimited, lbind in E.
  destruct (ltag_cases (lit "(") i6) as [(i7 & E7 & ->)|(E7 & _)]; rewrite E7 in E; [|discriminate].
  unfold lcut in E.
  destruct (lparse_style_diff i7) as [i8 d|at' k'|at' k'|] eqn:E8; try discriminate.
  - destruct (ltag_cases (lit ")") i8) as [(i9 & E9 & _)|(E9 & _)]; rewrite E9 in E; discriminate.
  - injection E as -> ->. exfalso.
    apply (lerr_inv _ _ _ _ _ agree_style_diff) in E8.
    unfold parse_style_diff, pmap, pbind, separated_list0 in E8.
    destruct (restyle_fail i7) as [(r & a & H)|(w' & a' & _ & H & _)];
      pose proof (agree_lcut _ _ agree_restyle i7) as Ha; rewrite H in Ha; cbn [forget] in Ha;
      rewrite <- Ha in E8; [|discriminate].
    revert E8. generalize (S (length r)), [a]. intros fuel acc. clear. revert r acc.
    induction fuel as [|fuel IH]; intros r acc; [discriminate|]. cbn [sep_loop].
    destruct (tag_cases (lit ",") r) as [(i1 & -> & ->)| ->]; [|discriminate].
    rewrite length_app_neq by discriminate.
    destruct (restyle_fail i1) as [(r & a & H)|(w' & a' & _ & H & _)];
      pose proof (agree_lcut _ _ agree_restyle i1) as Ha; rewrite H in Ha; cbn [forget] in Ha;
      rewrite <- Ha; [|discriminate]. apply IH.
  - injection E as -> ->. apply attrs_fail in E8 as (-> & c & wd & -> & Hc & Hw).
    split; [reflexivity|].
    apply parse_fill_align_inv in H1 as (s1 & -> & A1 & L1).
    apply parse_sign_inv in H2 as (s2 & -> & A2).
    apply parse_flag_inv in H3 as (s3 & -> & A3 & _).
    pose proof H4 as H4'. apply parse_flag_inv in H4 as (s4 & -> & A4 & Z4).
    assert (A5 : exists s5, i4 = s5 ++ i5 /\ width_spelled xid_start xid_continue w s5).
    { apply opt_inv in H5 as [(x & -> & H)|(-> & -> & _)].
      - apply parse_count_inv in H as (s & -> & Hs). exists s. split; [reflexivity|now constructor].
      - exists []. split; [reflexivity|constructor]. }
    destruct A5 as (s5 & -> & A5).
    assert (A6 : exists s6, i5 = s6 ++ lit "(" ++ c ++ wd ++ at_ /\
                            precision_spelled xid_start xid_continue p s6).
    { apply opt_inv in H6 as [(x & -> & H)|(-> & Hi & _)].
      - apply preceded_inv in H as (j & u & Ht & H). apply tag_inv in Ht as ->.
        apply parse_count_inv in H as (s & -> & Hs). exists (lit "." ++ s).
        split; [now rewrite <- app_assoc|now constructor].
      - exists []. split; [symmetry; exact Hi|constructor]. }
    destruct A6 as (s6 & -> & A6).
    exists al, sg, (or_false alt), (or_false zero), w, p, s1, s2, s3, s4, s5, s6, c, wd.
    split; [exact A1|]. split; [exact A2|]. split; [exact A3|]. split; [exact A4|].
    split; [exact A5|]. split; [exact A6|]. split.
    { intros Hz Hd. destruct zero as [[]|]; [discriminate| |].
      - apply opt_inv in H4' as [(b & Eb & Hv)|(Eb & _)]; [|discriminate].
        apply value_inv in Hv as (u & _ & Hb). congruence.
      - specialize (Z4 eq_refl). unfold flag_spelled in A4. cbn in A4. subst s4.
        destruct s5 as [|d s5]; [discriminate|]. injection Hd as ->. cbn in Z4. discriminate. }
    split; [now rewrite <- !app_assoc|]. split; [exact Hc|]. split; [exact Hw|].
    intros E0. apply app_eq_nil in E0 as (-> & E0). apply app_eq_nil in E0 as (-> & E0).
    apply app_eq_nil in E0 as (-> & E0). apply app_eq_nil in E0 as (-> & E0).
    apply app_eq_nil in E0 as (-> & ->). cbn [app lit] in L1. specialize (L1 eq_refl).
    destruct (c ++ wd ++ at_); [reflexivity|exact L1].
Qed.

Lemma lbind_ok {A B} (lp : lparser A) p (k : A -> lparser B) i rest a :
  agree lp p -> p i = POk rest a -> lbind lp k i = k a rest.
Proof. intros Ha H. unfold lbind. now rewrite (lok lp p i rest a Ha H). Qed.

Lemma width_before_paren w s5 r :
  width_spelled xid_start xid_continue w s5 -> starts (lit ".(") r ->
  opt (parse_count xid_start xid_continue) (s5 ++ r) = POk r w.
Proof.
  intros H (d & r' & -> & Hd). destruct H as [|c s H]; unfold opt.
  - cbn [app]. rewrite parse_count_err; [reflexivity| |].
    + unfold ident_start. destruct Hd as [<-|[<-|[]]]; rewrite (xs _ _ Hx) by reflexivity; reflexivity.
    + destruct Hd as [<-|[<-|[]]]; reflexivity.
  - rewrite (parse_count_app _ _ Hx c s); [reflexivity|exact H|].
    apply (after_width_ends). exists d, r'. split; [reflexivity|].
    destruct Hd as [<-|[<-|[]]]; cbn; tauto.
Qed.

Lemma spec_complete al sg alt zero w p s1 s2 s3 s4 s5 s6 c wd at_ :
  align_spelled al s1 -> sign_spelled sg s2 -> flag_spelled "#" alt s3 ->
  flag_spelled "0" zero s4 -> width_spelled xid_start xid_continue w s5 ->
  precision_spelled xid_start xid_continue p s6 ->
  (zero = false -> hd_error s5 <> Some 48%N) ->
  complete_attributes c -> expected wd at_ ->
  (s1 ++ s2 ++ s3 ++ s4 ++ s5 ++ s6 = [] -> starts_with_align (c ++ wd ++ at_) = false) ->
  lparse_format_spec ((s1 ++ s2 ++ s3 ++ s4 ++ s5 ++ s6) ++ lit "(" ++ c ++ wd ++ at_)
  = LFail at_ KTag.
Proof.
  intros H1 H2 H3 H4 H5 H6 Hz Hc Hw Hempty.
  remember (lit "(" ++ c ++ wd ++ at_) as x eqn:Ex.
  rewrite <- !app_assoc. unfold Located.lparse_format_spec.
  assert (S7 : starts after_precision x).
  { exists 40%N, (c ++ wd ++ at_). split; [exact Ex|cbn; tauto]. }
  assert (S6' : starts (lit ".(") (s6 ++ x)).
  { destruct H6 as [|y s Hs].
    - exists 40%N, (c ++ wd ++ at_). split; [exact Ex|cbn; tauto].
    - exists 46%N. eexists. split; [reflexivity|cbn; tauto]. }
  assert (S6 : starts after_width (s6 ++ x)).
  { revert S6'. apply starts_weaken. intros d; cbn; tauto. }
  destruct (width_first _ _ Hx w s5 _ H5 S6) as (c5 & r5 & E5 & P5).
  assert (S4 : exists c r, s4 ++ s5 ++ s6 ++ x = c :: r /\ plain_first xid_start c).
  { rewrite H4. destruct zero.
    - exists 48%N. eexists. split; [reflexivity|]. right; left; reflexivity.
    - cbn [app]. eauto. }
  destruct S4 as (c4 & r4 & E4 & P4).
  assert (S3 : exists c r, s3 ++ s4 ++ s5 ++ s6 ++ x = c :: r /\ c <> 43%N /\ c <> 45%N).
  { rewrite H3. destruct alt.
    - exists 35%N. eexists. split; [reflexivity|]. split; discriminate.
    - cbn [app]. exists c4, r4. split; [exact E4|].
      split; (eapply (plain_first_not _ _ Hx); [exact P4|..]; try reflexivity; cbn; intuition discriminate). }
  destruct S3 as (c3 & r3 & E3 & N43 & N45).
  rewrite (lbind_ok _ parse_fill_align _ _ (s2 ++ s3 ++ s4 ++ s5 ++ s6 ++ x) al);
    [|apply agree_fill_align|].
  2: { apply align_app; [exact H1|].
       assert (Hn : no_align (s2 ++ s3 ++ s4 ++ s5 ++ s6 ++ [] ++ [])).
       { eapply (parts_no_align _ _ Hx); eauto using st_none, ty_display. }
       rewrite !app_nil_r in Hn.
       replace (s2 ++ s3 ++ s4 ++ s5 ++ s6 ++ x) with ((s2 ++ s3 ++ s4 ++ s5 ++ s6) ++ x)
         by now rewrite <- !app_assoc.
       revert Hn Hempty. generalize (s2 ++ s3 ++ s4 ++ s5 ++ s6). intros comp Hn Hempty.
       subst x. destruct comp as [|y comp]; [|destruct comp as [|d comp]]; cbn [app lit].
       - exists 40%N, (c ++ wd ++ at_). split; [reflexivity|]. split; [reflexivity|]. intros ->.
         specialize (Hempty eq_refl). destruct (c ++ wd ++ at_); [exact I|exact Hempty].
       - inversion Hn as [|? ? Hy _]; subst. exists y. eexists. split; [reflexivity|].
         split; [exact Hy|]. intros _. reflexivity.
       - inversion Hn as [|? ? Hy Hn']; subst. inversion Hn' as [|? ? Hd _]; subst.
         exists y. eexists. split; [reflexivity|]. auto. }
  rewrite (lbind_ok _ (opt parse_sign) _ _ (s3 ++ s4 ++ s5 ++ s6 ++ x) sg);
    [|unfold lparse_sign, parse_sign; agree|now apply (sign_app sg s2 _ c3 r3)].
  rewrite (lbind_ok _ (opt (value true (tag (lit "#")))) _ _ (s4 ++ s5 ++ s6 ++ x)
             (if alt then Some true else None)); [|agree|].
  2: { apply (hash_app alt s3 _ c4 r4); auto.
       eapply (plain_first_not _ _ Hx); [exact P4|..]; try reflexivity; cbn; intuition discriminate. }
  rewrite (lbind_ok _ (opt (value true (tag (lit "0")))) _ _ (s5 ++ s6 ++ x)
             (if zero then Some true else None)); [|agree|].
  2: { apply (zero_app zero s4 _ c5 r5); auto.
       intros Hz0. specialize (Hz Hz0). intros ->.
       destruct s5 as [|d s5]; cbn [app] in E5.
       - destruct S6 as (c6 & r6 & E6 & I6). rewrite E6 in E5. injection E5 as -> ->.
         cbn in I6. intuition discriminate.
       - injection E5 as -> _. now apply Hz. }
  rewrite (lbind_ok _ (opt (parse_count xid_start xid_continue)) _ _ (s6 ++ x) w);
    [|apply agree_lopt, agree_count|now apply width_before_paren].
  rewrite (lbind_ok _ (opt (preceded (tag (lit ".")) (parse_count xid_start xid_continue)))
             _ _ x p);
    [|apply agree_lopt, agree_lbind; [apply agree_ltag|intros _; apply agree_count]
     |now apply (precision_app _ _ Hx)].
  unfold lbind at 1. unfold lopt at 1. unfold ldelimited at 1. unfold lbind at 1.
  subst x. rewrite ltag_app. unfold lbind at 1. unfold lcut.
  rewrite (attrs_complete c wd at_ Hc Hw). reflexivity.
Qed.

(** * Placeholders and pieces *)
Lemma colon_ref s1 r :
  (s1 = [] \/ exists a, arg_spelled a s1) ->
  exists o, opt (parse_arg_ref xid_start xid_continue) (s1 ++ lit ":" ++ r) = POk (lit ":" ++ r) o.
Proof.
  intros Ha. unfold opt. destruct Ha as [->|(a & Ha)].
  - change ([] ++ lit ":" ++ r) with (58%N :: r). rewrite (colon_ref_err _ _ Hx). eauto.
  - rewrite (parse_arg_ref_app _ _ Hx a s1 _ Ha); [eauto|]. apply (colon_ends _ _ Hx).
Qed.

Lemma arg_fail i at_ k :
  lparse_format_arg i = LFail at_ k <->
  exists s1 r, i = s1 ++ lit ":" ++ r /\ (s1 = [] \/ exists a, arg_spelled a s1) /\
    lparse_format_spec r = LFail at_ k.
Proof.
  unfold Located.lparse_format_arg. split.
  - intros H.
    apply (lbind_fail _ (opt (parse_arg_ref xid_start xid_continue))) in H as (arg & i1 & H1 & H);
      [|apply agree_lopt, agree_arg_ref|apply mild_lopt, mild_arg_ref].
    assert (B1 : exists s1, i = s1 ++ i1 /\ (s1 = [] \/ exists a, arg_spelled a s1)).
    { apply opt_inv in H1 as [(x & -> & H1)|(-> & -> & _)].
      - apply parse_arg_ref_inv in H1 as (s & -> & Hs). exists s. eauto.
      - exists []. auto. }
    destruct B1 as (s1 & -> & Hs1). unfold lbind at 1 in H.
    unfold lopt, lpreceded, lbind, lret in H.
    destruct (ltag_cases (lit ":") i1) as [(i2 & E2 & ->)|(E2 & _)]; rewrite E2 in H; [|discriminate].
    destruct (lparse_format_spec i2) as [| |at' k'|] eqn:E; try discriminate.
    injection H as -> ->. exists s1, i2. auto.
  - intros (s1 & r & -> & Hs1 & H). destruct (colon_ref s1 r Hs1) as (o & Ho).
    rewrite (lbind_ok _ (opt (parse_arg_ref xid_start xid_continue)) _ _ (lit ":" ++ r) o);
      [|apply agree_lopt, agree_arg_ref|exact Ho].
    unfold lbind at 1, lopt at 1, lpreceded, lbind. rewrite ltag_app, H. reflexivity.
Qed.

Lemma piece_is_arg i :
  match i with c :: _ => is_brace c = true | [] => True end ->
  (forall r, i <> lit "{{" ++ r) -> (forall r, i <> lit "}}" ++ r) ->
  lparse_piece i = lparse_arg xid_start xid_continue i.
Proof.
  intros Hb H1 H2. unfold Located.lparse_piece, lparse_lit. cbn [lalt].
  assert (E : exists a k, lmap (lrecognize (lmany1 (lnone_of (lit "{}")))) Lit i = LErr a k).
  { apply (lerr _ (pmap (recognize (many1 (none_of (lit "{}")))) Lit)).
    - unfold lnone_of, none_of. agree.
    - unfold pmap, pbind. rewrite text_eq. destruct i as [|c r]; [reflexivity|].
      rewrite not_brace_spec, Hb. reflexivity. }
  destruct E as (a & k & ->).
  unfold lvalue, lmap at 1 2, lbind, lret.
  destruct (ltag_cases (lit "{{") i) as [(r & _ & E)|(-> & _)]; [destruct (H1 r E)|].
  destruct (ltag_cases (lit "}}") i) as [(r & _ & E)|(-> & _)]; [destruct (H2 r E)|].
  reflexivity.
Qed.

Lemma piece_fail i at_ k :
  lparse_piece i = LFail at_ k <-> k = KTag /\ bad_attribute i at_.
Proof.
  assert (Hshape : lparse_piece i = LFail at_ k <->
    exists j, i = lit "{" ++ j /\ (forall r, j <> lit "{" ++ r) /\ lparse_format_arg j = LFail at_ k).
  { assert (Hcut : forall j, ((forall r, j <> lit "{" ++ r) ->
        lparse_piece (lit "{" ++ j) = lparse_arg xid_start xid_continue (lit "{" ++ j)) /\
        (lparse_arg xid_start xid_continue (lit "{" ++ j) = LFail at_ k <->
         lparse_format_arg j = LFail at_ k)).
    { intros j. split.
      - intros Hj. apply piece_is_arg; [reflexivity| |discriminate].
        intros r E. cbn [lit app] in E. injection E as E. apply (Hj r). exact E.
      - unfold lparse_arg, lmap, ldelimited, lbind, lret, lcut. rewrite ltag_app.
        destruct (lparse_format_arg j) as [r a|at' k'|at' k'|] eqn:E.
        + destruct (ltag_cases (lit "}") r) as [(r' & -> & _)|(-> & _)]; split; discriminate.
        + exfalso. apply (lerr_inv _ _ _ _ _ (agree_format_arg xid_start xid_continue)) in E.
          unfold parse_format_arg, pbind, opt, pret in E.
          destruct (parse_arg_ref xid_start xid_continue j); try discriminate.
          * destruct (preceded _ _ rest); discriminate.
          * destruct (preceded _ _ j); discriminate.
        + split; auto. intros H; injection H as -> ->; reflexivity. intros H; injection H as -> ->; reflexivity.
        + split; discriminate. }
    split.
    - intros H. assert (Hb : match i with c :: _ => is_brace c = true | [] => True end).
      { destruct i as [|c r]; [exact I|]. destruct (is_brace c) eqn:Eb; [reflexivity|].
        exfalso. pose proof (agree_piece xid_start xid_continue (c :: r)) as Ha.
        rewrite H in Ha. rewrite parse_piece_eq, not_brace_spec, Eb in Ha. discriminate. }
      assert (H1 : forall r, i <> lit "{{" ++ r).
      { intros r ->. pose proof (agree_piece xid_start xid_continue (lit "{{" ++ r)) as Ha.
        rewrite H, piece_open in Ha. discriminate. }
      assert (H2 : forall r, i <> lit "}}" ++ r).
      { intros r ->. pose proof (agree_piece xid_start xid_continue (lit "}}" ++ r)) as Ha.
        rewrite H, piece_close in Ha. discriminate. }
      rewrite (piece_is_arg i Hb H1 H2) in H.
      destruct (ltag_cases (lit "{") i) as [(j & Ej & ->)|(Ej & _)].
      + exists j. split; [reflexivity|]. split; [|now apply Hcut].
        intros r ->. apply (H1 r). reflexivity.
      + unfold lparse_arg, lmap, ldelimited, lbind in H. rewrite Ej in H. discriminate.
    - intros (j & -> & Hj & H). destruct (Hcut j) as [H1 H2]. rewrite (H1 Hj). now apply H2. }
  rewrite Hshape. clear Hshape. split.
  - intros (j & -> & Hj & H). apply arg_fail in H as (s1 & r & -> & Hs1 & H).
    apply spec_fail in H as (-> & al & sg & alt & zero & w & p & t1 & t2 & t3 & t4 & t5 & t6 & c & wd
      & A1 & A2 & A3 & A4 & A5 & A6 & Hz & -> & Hc & Hw & He).
    split; [reflexivity|].
    exists (is_empty (t1 ++ t2 ++ t3 ++ t4 ++ t5 ++ t6)),
      (lit "{" ++ s1 ++ lit ":" ++ (t1 ++ t2 ++ t3 ++ t4 ++ t5 ++ t6) ++ lit "("), c, wd.
    split; [now rewrite <- !app_assoc|].
    split; [apply (ao_intro _ _ s1 al sg alt zero w p t1 t2 t3 t4 t5 t6); auto|].
    split; [exact Hc|]. split; [exact Hw|]. intros Ht. apply He.
    destruct (t1 ++ t2 ++ t3 ++ t4 ++ t5 ++ t6); [reflexivity|discriminate].
  - intros (-> & first & o & c & wd & -> & Ho & Hc & Hw & He).
    destruct Ho as [arg al sg alt zero w p s1 s2 s3 s4 s5 s6 Ha A1 A2 A3 A4 A5 A6 Hz].
    exists (arg ++ lit ":" ++ (s1 ++ s2 ++ s3 ++ s4 ++ s5 ++ s6) ++ lit "(" ++ c ++ wd ++ at_).
    split; [now rewrite <- !app_assoc|]. split.
    { intros r E. destruct Ha as [->|(a & Ha)]; [discriminate|].
      destruct arg as [|d arg].
      - discriminate.
      - cbn [app lit] in E. injection E as -> _. inversion Ha as [n s' [H _] E1 E2|s' H E1 E2]; subst.
        + apply decimal_value in H as (_ & _ & HF). inversion HF; discriminate.
        + inversion H as [d r' Hd _ E3]; subst.
          rewrite (xs _ _ Hx) in Hd by reflexivity. destruct Hd; discriminate. }
    apply arg_fail. exists arg. eexists. split; [reflexivity|]. split; [exact Ha|].
    apply (spec_complete al sg alt zero w p); auto.
    intros E. apply He. now rewrite E.
Qed.

(** * Whole strings *)
Definition at_brace (x : str) : Prop := match x with c :: _ => is_brace c = true | [] => True end.

Lemma at_brace_stops x : at_brace x -> stops not_brace x.
Proof. destruct x as [|c x]; [auto|]. cbn. intros H. now rewrite not_brace_spec, H. Qed.
Lemma at_brace_align x s : at_brace x -> starts_with_align s = false -> starts_with_align (s ++ x) = false.
Proof.
  intros Hb. destruct s as [|d s]; [|intros H; exact H]. intros _. cbn [app].
  destruct x as [|c x]; [reflexivity|]. cbn in *. unfold is_brace in Hb. unfold is_align_char.
  destruct (N.eqb_spec c 123) as [->|]; [reflexivity|].
  destruct (N.eqb_spec c 125) as [->|]; [reflexivity|discriminate].
Qed.
Lemma lpiece_ok i r p : parse_piece xid_start xid_continue i = POk r p -> lparse_piece i = LOk r p.
Proof. apply lok, agree_piece. Qed.

Lemma loop_prefix b ps s : spells b ps s -> forall x, at_brace x -> forall fuel acc,
  length (s ++ x) < fuel ->
  exists fuel', length x < fuel' /\
    lmany_loop KMany0 fuel lparse_piece (s ++ x) acc
    = lmany_loop KMany0 fuel' lparse_piece x (rev ps ++ acc).
Proof.
  intros H x Hb.
  induction H as [b|t ps s Ht HF Hs IH|b ps s Hs IH|b ps s Hs IH|b a e p ps s Hp' He Hs IH];
    intros fuel acc Hf.
  - exists fuel. auto.
  - destruct fuel as [|fuel]; [lia|]. rewrite <- app_assoc in *. cbn [lmany_loop].
    rewrite (lpiece_ok _ (s ++ x) (Lit t)).
    + rewrite length_app_neq by auto.
      destruct (IH fuel (Lit t :: acc)) as (f' & Hf' & ->).
      { rewrite app_length in Hf. destruct t; [congruence|cbn in *; lia]. }
      exists f'. split; [exact Hf'|]. cbn [rev]. now rewrite <- app_assoc.
    + apply piece_text; auto. destruct s as [|c s]; [now apply at_brace_stops|].
      apply spells_true_stops in Hs. exact Hs.
  - destruct fuel as [|fuel]; [lia|]. rewrite <- app_assoc in *. cbn [lmany_loop].
    rewrite (lpiece_ok _ (s ++ x) (Lit (lit "{"))) by apply piece_open.
    rewrite length_app_neq by discriminate.
    destruct (IH fuel (Lit (lit "{") :: acc)) as (f' & Hf' & ->); [cbn in *; lia|].
    exists f'. split; [exact Hf'|]. cbn [rev]. now rewrite <- app_assoc.
  - destruct fuel as [|fuel]; [lia|]. rewrite <- app_assoc in *. cbn [lmany_loop].
    rewrite (lpiece_ok _ (s ++ x) (Lit (lit "}"))) by apply piece_close.
    rewrite length_app_neq by discriminate.
    destruct (IH fuel (Lit (lit "}") :: acc)) as (f' & Hf' & ->); [cbn in *; lia|].
    exists f'. split; [exact Hf'|]. cbn [rev]. now rewrite <- app_assoc.
  - destruct fuel as [|fuel]; [lia|]. rewrite <- !app_assoc in *. cbn [lmany_loop].
    rewrite (lpiece_ok _ (s ++ x) (Arg a)).
    2: { apply (piece_arg _ _ Hx a e p (s ++ x)); [exact Hp'|]. intros E.
         apply at_brace_align; auto. }
    replace (lit "{" ++ p ++ lit "}" ++ s ++ x) with ((lit "{" ++ p ++ lit "}") ++ s ++ x) in *
      by now rewrite <- !app_assoc.
    rewrite length_app_neq by discriminate.
    destruct (IH fuel (Arg a :: acc)) as (f' & Hf' & ->).
    { rewrite app_length in Hf. cbn in Hf; lia. }
    exists f'. split; [exact Hf'|]. cbn [rev]. now rewrite <- app_assoc.
Qed.

Lemma loop_stops b fuel : forall i acc,
  (b = true -> stops not_brace i) -> length i < fuel ->
  exists ps pre x, i = pre ++ x /\ spells b ps pre /\ at_brace x /\
    (forall r p, lparse_piece x <> LOk r p) /\
    lmany_loop KMany0 fuel lparse_piece i acc
    = match lparse_piece x with
      | LErr _ _ => LOk x (rev acc ++ ps)
      | LFail a k => LFail a k
      | _ => LPanic
      end.
Proof.
  revert b; induction fuel as [|fuel IH]; intros b i acc Hb Hf; [lia|].
  cbn [lmany_loop]. destruct (lparse_piece i) as [rest pc| | |] eqn:E.
  2-4: (exists [], [], i; rewrite E; split; [reflexivity|]; split; [constructor|];
    split; [|split; [discriminate|now rewrite ?app_nil_r]];
    destruct i as [|c r]; [exact I|]; cbn; destruct (is_brace c) eqn:Ec; [reflexivity|];
    exfalso; pose proof (agree_piece xid_start xid_continue (c :: r)) as Ha; rewrite E in Ha;
    rewrite parse_piece_eq, not_brace_spec, Ec in Ha; discriminate).
  apply (lok_inv _ _ _ _ _ (agree_piece xid_start xid_continue)) in E.
  assert (Hlen : (length rest =? length i) = false).
  { apply parse_piece_consumes in E as (q & Hq & ->). now apply length_app_neq. }
  rewrite Hlen. apply Nat.eqb_neq in Hlen.
  assert (Hf' : length rest < fuel).
  { apply parse_piece_consumes in E as (q & Hq & ->). rewrite app_length in *.
    destruct q; [congruence|]. cbn in *. lia. }
  apply parse_piece_inv in E as [(t & -> & -> & Ht & HF & Hs)|[(-> & ->)|[(-> & ->)|
      (a & e & p & -> & -> & Hp & He)]]].
  - assert (b = false) as ->.
    { destruct b; [exfalso|reflexivity]. specialize (Hb eq_refl). destruct t as [|c t]; [congruence|].
      cbn in Hb. rewrite not_brace_spec in Hb. inversion HF as [|? ? Hc _]; subst.
      rewrite Hc in Hb. discriminate. }
    destruct (IH true rest (Lit t :: acc)) as (ps & pre & x & -> & H1 & H2 & H3 & ->); auto.
    exists (Lit t :: ps), (t ++ pre), x. split; [now rewrite app_assoc|].
    split; [now constructor|]. split; [exact H2|]. split; [exact H3|].
    destruct (lparse_piece x); try reflexivity. cbn [rev]. now rewrite <- app_assoc.
  - destruct (IH false rest (Lit (lit "{") :: acc)) as (ps & pre & x & -> & H1 & H2 & H3 & ->);
      [discriminate|exact Hf'|].
    exists (Lit (lit "{") :: ps), (lit "{{" ++ pre), x. split; [now rewrite app_assoc|].
    split; [now constructor|]. split; [exact H2|]. split; [exact H3|].
    destruct (lparse_piece x); try reflexivity. cbn [rev]. now rewrite <- app_assoc.
  - destruct (IH false rest (Lit (lit "}") :: acc)) as (ps & pre & x & -> & H1 & H2 & H3 & ->);
      [discriminate|exact Hf'|].
    exists (Lit (lit "}") :: ps), (lit "}}" ++ pre), x. split; [now rewrite app_assoc|].
    split; [now constructor|]. split; [exact H2|]. split; [exact H3|].
    destruct (lparse_piece x); try reflexivity. cbn [rev]. now rewrite <- app_assoc.
  - destruct (IH false rest (Arg a :: acc)) as (ps & pre & x & -> & H1 & H2 & H3 & ->);
      [discriminate|exact Hf'|].
    exists (Arg a :: ps), (lit "{" ++ p ++ lit "}" ++ pre), x. split; [now rewrite <- !app_assoc|].
    split.
    { econstructor; [exact Hp| |exact H1]. intros Ee. specialize (He Ee).
      destruct pre; [reflexivity|exact He]. }
    split; [exact H2|]. split; [exact H3|].
    destruct (lparse_piece x); try reflexivity. cbn [rev]. now rewrite <- app_assoc.
Qed.

Lemma format_at ps pre x :
  format_string ps pre -> at_brace x ->
  (forall r p, lparse_piece x <> LOk r p) ->
  lparse_format (pre ++ x)
  = match lparse_piece x with
    | LErr _ _ => match x with [] => LOk [] ps | _ => LErr x KEof end
    | LFail a k => LFail a k
    | _ => LPanic
    end.
Proof.
  intros Hs Hb Hn. unfold Located.lparse_format, lall_consuming, lmany0.
  destruct (loop_prefix false ps pre Hs x Hb (S (length (pre ++ x))) []) as (f & Hf & ->); [lia|].
  destruct f as [|f]; [lia|]. cbn [lmany_loop].
  destruct (lparse_piece x) as [r p| | |] eqn:E; try reflexivity.
  - destruct (Hn r p eq_refl).
  - rewrite app_nil_r, rev_involutive. destruct x; reflexivity.
Qed.

Lemma format_split s :
  exists ps pre x, s = pre ++ x /\ format_string ps pre /\ at_brace x /\
    (forall r p, lparse_piece x <> LOk r p).
Proof.
  destruct (loop_stops false (S (length s)) s []) as (ps & pre & x & H1 & H2 & H3 & H4 & _);
    [discriminate|lia|]. exists ps, pre, x. auto.
Qed.

(** A place where a piece could start is accepted, panics or fails. *)
Lemma one_piece p q r :
  format_string [p] q -> (exists r' p', lparse_piece (q ++ r) = LOk r' p') \/ filled_placeholder (q ++ r).
Proof.
  intros H. inversion H as [|t ps s Ht HF Hs E1 E2|b ps s Hs E1 E2|b ps s Hs E1 E2|b a e p' ps s Hp He Hs E1 E2];
    subst; inversion Hs; subst.
  - left. rewrite app_nil_r.
    destruct (take_while not_brace (t ++ r)) as [u v] eqn:E.
    exists v, (Lit u). apply lpiece_ok. rewrite parse_piece_eq.
    destruct t as [|c t]; [congruence|]. inversion HF as [|? ? Hc _]; subst.
    cbn [app] in *. rewrite not_brace_spec, Hc. cbn [negb]. rewrite E. reflexivity.
  - left. rewrite <- app_assoc. eexists _, _. apply lpiece_ok, piece_open.
  - left. rewrite <- app_assoc. eexists _, _. apply lpiece_ok, piece_close.
  - rewrite app_nil_r. rewrite <- !app_assoc. destruct (e && starts_with_align r)%bool eqn:Ee.
    + right. apply andb_true_iff in Ee as [-> Er].
      destruct r as [|al r]; [discriminate|]. cbn in Er.
      inversion Hp as [arg s1 spec emp s2 Harg Hspec E1 E2 E3]. subst.
      destruct Hspec as [(_ & _ & E4)|(s & Hs' & -> & E4)]; [discriminate|].
      destruct s; [|discriminate].
      exists s1, 125%N, al, r. split; [now rewrite <- !app_assoc|]. split; [discriminate|].
      split; [exact Er|]. destruct Harg as [[_ ->]|(rr & _ & Hr)]; [auto|right; eauto].
    + left. eexists _, _. apply lpiece_ok. apply (piece_arg _ _ Hx a e p' r Hp).
      intros ->. exact Ee.
Qed.

Lemma no_piece_brace x : no_piece x -> at_brace x.
Proof.
  intros H. destruct x as [|c x]; [exact I|]. cbn. destruct (is_brace c) eqn:E; [reflexivity|].
  exfalso. apply (H (Lit [c]) [c] x eq_refl).
  change [c] with ([c] ++ [] : str) at 2. apply sp_text; [discriminate| |constructor].
  apply Forall_cons; [exact E|constructor].
Qed.

Lemma no_piece_ok x r p : no_piece x -> lparse_piece x <> LOk r p.
Proof.
  intros H E. apply (lok_inv _ _ _ _ _ (agree_piece xid_start xid_continue)) in E.
  apply parse_piece_inv in E as [(t & -> & -> & Ht & HF & Hs)|[(-> & ->)|[(-> & ->)|
      (a & e & q & -> & -> & Hp & He)]]].
  - apply (H (Lit t) t r eq_refl). rewrite <- (app_nil_r t) at 2.
    apply sp_text; [exact Ht|exact HF|constructor].
  - apply (H (Lit (lit "{")) (lit "{{") r eq_refl).
    apply (sp_open _ _ false [] []). constructor.
  - apply (H (Lit (lit "}")) (lit "}}") r eq_refl).
    apply (sp_close _ _ false [] []). constructor.
  - apply (H (Arg a) (lit "{" ++ q ++ lit "}" ++ []) r); [now rewrite <- !app_assoc|].
    apply (sp_arg _ _ false a e q [] []); [exact Hp|reflexivity|constructor].
Qed.

Lemma piece_panics x : lparse_piece x = LPanic <-> filled_placeholder x.
Proof.
  split.
  - intros H. apply (lpanic_inv _ _ _ (agree_piece xid_start xid_continue)) in H.
    apply piece_panic in H as (s1 & r & -> & (f & c & r' & -> & Hf & Hc) & Hs1).
    exists s1, f, c, r'. auto.
  - intros (arg & f & c & r & -> & Hf & Hc & Ha).
    apply (lpanic _ _ _ (agree_piece xid_start xid_continue)).
    apply (fill_piece _ _ Hx); [|exact Ha]. exists f, c, r. auto.
Qed.

Lemma bad_attribute_brace i at_ : bad_attribute i at_ -> at_brace i.
Proof.
  intros (first & o & c & w & -> & Ho & _). destruct Ho. reflexivity.
Qed.

(** C90: the parser that keeps track of its errors is the parser of the other properties. *)
Theorem C90_same_verdict s :
  match lparse_format s with
  | LOk rest ps => POk rest ps
  | LErr _ _ => PErr
  | LFail _ _ => PFail
  | LPanic => PPanic
  end = parse_format xid_start xid_continue s.
Proof. exact (agree_format xid_start xid_continue s). Qed.

(** C90: success leaves nothing and yields the syntax tree. *)
Theorem C90_accepted s rest ps :
  lparse_format s = LOk rest ps <-> rest = [] /\ format_string ps s.
Proof.
  split.
  - intros H. pose proof (lok_inv _ _ _ _ _ (agree_format xid_start xid_continue) H) as E.
    destruct rest as [|c rest].
    + split; [reflexivity|]. now apply (parse_format_iff xid_start xid_continue Hx).
    + exfalso. revert E. unfold parse_format, all_consuming.
      destruct (many0 _ s) as [[|] ?| | |]; discriminate.
  - intros [-> H]. apply (lok _ _ _ _ _ (agree_format xid_start xid_continue)).
    now apply (parse_format_iff xid_start xid_continue Hx).
Qed.

(** C90: a [Failure] is about a bad attribute, and names exactly the text from the place on
    where something else had to come. *)
Theorem C90_failure s at_ k :
  lparse_format s = LFail at_ k <->
  k = KTag /\ exists ps pre i, s = pre ++ i /\ format_string ps pre /\ bad_attribute i at_.
Proof.
  split.
  - destruct (format_split s) as (ps & pre & x & -> & Hs & Hb & Hn).
    rewrite (format_at ps pre x Hs Hb Hn).
    destruct (lparse_piece x) as [| |a' k'|] eqn:E; try discriminate.
    + destruct x; discriminate.
    + intros H; injection H as -> ->. apply piece_fail in E as [-> E]. split; [reflexivity|].
      exists ps, pre, x. auto.
  - intros (-> & ps & pre & x & -> & Hs & Hbad).
    assert (E : lparse_piece x = LFail at_ KTag) by (apply piece_fail; auto).
    rewrite (format_at ps pre x Hs (bad_attribute_brace x at_ Hbad)); rewrite E;
      [reflexivity|discriminate].
Qed.

(** C90: an [Error] names the text from the first place on where no piece can start, however far
    into the placeholder the mistake is. *)
Theorem C90_error s at_ k :
  lparse_format s = LErr at_ k <->
  k = KEof /\ at_ <> [] /\ no_piece at_ /\ (forall at', ~ bad_attribute at_ at') /\
  ~ filled_placeholder at_ /\ exists ps pre, s = pre ++ at_ /\ format_string ps pre.
Proof.
  split.
  - destruct (format_split s) as (ps & pre & x & -> & Hs & Hb & Hn).
    rewrite (format_at ps pre x Hs Hb Hn).
    destruct (lparse_piece x) as [|a' k'| |] eqn:E; try discriminate.
    destruct x as [|c x]; [discriminate|]. intros H; injection H as <- <-.
    split; [reflexivity|]. split; [discriminate|]. split.
    { intros p q r Eq Hq. destruct (one_piece p q r Hq) as [(r' & p' & H)|H]; rewrite <- Eq in H.
      - rewrite H in E. discriminate.
      - apply piece_panics in H. rewrite H in E. discriminate. }
    split.
    { intros at' H. assert (E' : lparse_piece (c :: x) = LFail at' KTag) by (apply piece_fail; auto).
      rewrite E' in E. discriminate. }
    split; [|eauto]. intros H. apply piece_panics in H. rewrite H in E. discriminate.
  - intros (-> & Hne & Hnp & Hnb & Hnf & ps & pre & -> & Hs).
    rewrite (format_at ps pre at_ Hs (no_piece_brace _ Hnp) (fun r p => no_piece_ok at_ r p Hnp)).
    destruct (lparse_piece at_) as [r p|a' k'|a' k'|] eqn:E.
    + destruct (no_piece_ok at_ r p Hnp E).
    + destruct at_; [congruence|reflexivity].
    + apply piece_fail in E as [_ E]. destruct (Hnb a' E).
    + apply piece_panics in E. destruct (Hnf E).
Qed.

(** C90: the parser itself panics exactly when a placeholder asks for a fill character other
    than a space. *)
Theorem C90_panic s :
  lparse_format s = LPanic <->
  exists ps pre i, s = pre ++ i /\ format_string ps pre /\ filled_placeholder i.
Proof.
  split.
  - destruct (format_split s) as (ps & pre & x & -> & Hs & Hb & Hn).
    rewrite (format_at ps pre x Hs Hb Hn).
    destruct (lparse_piece x) as [r p| | |] eqn:E; try discriminate.
    + destruct (Hn r p eq_refl).
    + destruct x; discriminate.
    + intros _. exists ps, pre, x. split; [reflexivity|]. split; [exact Hs|]. now apply piece_panics.
  - intros (ps & pre & x & -> & Hs & Hf).
    assert (E : lparse_piece x = LPanic) by (now apply piece_panics).
    assert (Hb : at_brace x) by (destruct Hf as (arg & f & c & r & -> & _); reflexivity).
    rewrite (format_at ps pre x Hs Hb); rewrite E; [reflexivity|discriminate].
Qed.

(** C90: what the error shows is always an end of the format string, and begins with a brace
    unless the mistake is in an attribute. *)
Theorem C90_suffix s at_ k :
  lparse_format s = LErr at_ k \/ lparse_format s = LFail at_ k ->
  exists before, s = before ++ at_ /\
    (lparse_format s = LErr at_ k -> exists c r, at_ = c :: r /\ (c = 123 \/ c = 125)%N).
Proof.
  intros [H|H].
  - pose proof H as H0. apply C90_error in H as (_ & Hne & Hnp & _ & _ & ps & pre & -> & _).
    exists pre. split; [reflexivity|]. intros _. apply no_piece_brace in Hnp.
    destruct at_ as [|c r]; [congruence|]. exists c, r. split; [reflexivity|]. cbn in Hnp.
    unfold is_brace in Hnp. apply orb_true_iff in Hnp as [E|E]; apply N.eqb_eq in E; auto.
  - pose proof H as H0. apply C90_failure in H as (_ & ps & pre & i & -> & _ & Hb).
    destruct Hb as (first & o & c & w & -> & _). exists (pre ++ o ++ c ++ w).
    split; [now rewrite <- !app_assoc|]. intros E. rewrite H0 in E. discriminate.
Qed.

(** C90: what comes before the place shown is not wrong yet: it is the beginning of an accepted
    format string. *)
Lemma complete_list c a s : complete_attributes c -> attr_spelled a s ->
  exists l, attrs_spelled l (c ++ s).
Proof.
  intros H Ha. induction H as [|b t c Hb Hc [l IH]]; [exists [a]; now constructor|].
  exists (b :: l). rewrite <- !app_assoc. now constructor.
Qed.
Lemma expected_viable w at_ : expected w at_ -> exists a e, attr_spelled a (w ++ e).
Proof.
  intros [at' _|k at' Hk _|k at' Hk _].
  - exists (AIntensity Bold), (lit "bold"). constructor.
  - destruct Hk as [<-|[<-|[]]].
    + exists (AFg Red), (lit "=red"). apply (at_fg Red (lit "red")). constructor.
    + exists (ABg Red), (lit "=red"). apply (at_bg Red (lit "red")). constructor.
  - destruct Hk as [<-|[<-|[]]].
    + exists (AFg Red), (lit "red"). apply (at_fg Red (lit "red")). constructor.
    + exists (ABg Red), (lit "red"). apply (at_bg Red (lit "red")). constructor.
Qed.
Lemma spells_app b ps s : spells b ps s -> forall qs t, at_brace t -> spells false qs t ->
  exists ps', spells b ps' (s ++ t).
Proof.
  intros H qs t Hb Ht.
  assert (Ht' : forall b, spells b qs t).
  { intros b'. destruct Ht; try (now constructor); [|econstructor; eauto].
    exfalso. destruct t as [|c t]; [congruence|]. cbn in Hb.
    match goal with HF : Forall _ _ |- _ => inversion HF; subst end. congruence. }
  induction H as [b|u ps s Hu HF Hs IH|b ps s Hs IH|b ps s Hs IH|b a e p ps s Hp He Hs IH].
  - exists qs. apply Ht'.
  - destruct IH as (ps' & IH). exists (Lit u :: ps'). rewrite <- app_assoc. now constructor.
  - destruct IH as (ps' & IH). eexists. rewrite <- app_assoc. constructor. exact IH.
  - destruct IH as (ps' & IH). eexists. rewrite <- app_assoc. constructor. exact IH.
  - destruct IH as (ps' & IH). eexists. rewrite <- !app_assoc. econstructor; [exact Hp| |exact IH].
    intros E. apply at_brace_align; auto.
Qed.
Theorem C90_viable s at_ k :
  lparse_format s = LErr at_ k \/ lparse_format s = LFail at_ k ->
  exists before rest ps, s = before ++ at_ /\ format_string ps (before ++ rest).
Proof.
  intros [H|H].
  - apply C90_error in H as (_ & _ & _ & _ & _ & ps & pre & -> & Hs).
    exists pre, [], ps. split; [reflexivity|]. now rewrite app_nil_r.
  - apply C90_failure in H as (_ & ps & pre & i & -> & Hs & Hb).
    destruct Hb as (first & o & c & w & -> & Ho & Hc & Hw & _).
    destruct (expected_viable w at_ Hw) as (a & e & Ha).
    destruct (complete_list c a (w ++ e) Hc Ha) as (l & Hl).
    destruct Ho as [arg al sg alt zero wd p s1 s2 s3 s4 s5 s6 Hr A1 A2 A3 A4 A5 A6 Hz].
    assert (Har : exists ar, ar = None /\ arg = [] \/ exists r, ar = Some r /\ arg_spelled r arg).
    { destruct Hr as [->|(r & Hr)]; [exists None; auto|exists (Some r); right; eauto]. }
    destruct Har as (ar & Har).
    set (sp := s1 ++ s2 ++ s3 ++ s4 ++ s5 ++ s6) in *.
    set (spec := mk_spec (mk_pfargs al sg alt zero wd p None) (kept_settings l) FDisplay).
    set (full := s1 ++ s2 ++ s3 ++ s4 ++ s5 ++ s6 ++ (lit "(" ++ (c ++ w ++ e) ++ lit ")") ++ []).
    assert (Hsp : spec_spelled xid_start xid_continue spec full).
    { constructor; auto using ty_display. now apply st_some. }
    assert (Hph : placeholder_spelled xid_start xid_continue (mk_farg ar spec) (is_empty full)
                    (arg ++ lit ":" ++ full)).
    { constructor; [exact Har|]. right. exists full. auto. }
    assert (H1 : spells false [Arg (mk_farg ar spec)]
                   (lit "{" ++ (arg ++ lit ":" ++ full) ++ lit "}" ++ [])).
    { econstructor; [exact Hph|reflexivity|constructor]. }
    destruct (spells_app false ps pre Hs _ _ (eq_refl : at_brace (lit "{" ++ _)) H1) as (ps' & H).
    exists (pre ++ (lit "{" ++ arg ++ lit ":" ++ sp ++ lit "(") ++ c ++ w), (e ++ lit ")}"), ps'.
    split; [now rewrite <- !app_assoc|].
    replace ((pre ++ (lit "{" ++ arg ++ lit ":" ++ sp ++ lit "(") ++ c ++ w) ++ e ++ lit ")}")
      with (pre ++ lit "{" ++ (arg ++ lit ":" ++ full) ++ lit "}" ++ []); [exact H|].
    unfold full, sp. rewrite <- !app_assoc. reflexivity.
Qed.
End Xid.

Print Assumptions C90_same_verdict.
Print Assumptions C90_accepted.
Print Assumptions C90_failure.
Print Assumptions C90_error.
Print Assumptions C90_panic.
Print Assumptions C90_suffix.
Print Assumptions C90_viable.

(** What the errors of some strings show. *)
Example C90_nonvacuous :
  let parse := lparse_format ascii_start ascii_continue in
  parse (lit "a{x:8.3(bold,fg=purple)}b") = LFail (lit "purple)}b") KTag /\
  parse (lit "a{:(fg:red)}") = LFail (lit ":red)}") KTag /\
  parse (lit "a{:(bold,)}") = LFail (lit ")}") KTag /\
  parse (lit "a{:()}") = LFail (lit ")}") KTag /\
  parse (lit "{}{x:8q}{:(pink)}") = LErr (lit "{x:8q}{:(pink)}") KEof /\
  parse (lit "{}{:(bold}") = LErr (lit "{:(bold}") KEof /\
  parse (lit "{{}") = LErr (lit "}") KEof /\
  parse (lit "{:(<5}") = LPanic /\
  parse (lit "{99999999999999999999}") = LErr (lit "{99999999999999999999}") KEof.
Proof. vm_compute. repeat split. Qed.

(** The hypotheses of the spec are met by these. *)
Example C90_nonvacuous_bad :
  bad_attribute ascii_start ascii_continue (lit "{x:8.3(bold,fg=purple)}b") (lit "purple)}b").
Proof.
  apply (piece_fail _ _ ascii_xid_ok _ _ KTag). vm_compute. reflexivity.
Qed.
Example C90_nonvacuous_none :
  no_piece ascii_start ascii_continue (lit "{x:8q}{:(pink)}") /\
  format_string ascii_start ascii_continue [Arg (mk_farg None spec_default)] (lit "{}").
Proof.
  split.
  - assert (H : lparse_format ascii_start ascii_continue (lit "{x:8q}{:(pink)}")
                = LErr (lit "{x:8q}{:(pink)}") KEof) by (vm_compute; reflexivity).
    apply (C90_error _ _ ascii_xid_ok) in H. tauto.
  - apply (C90_accepted _ _ ascii_xid_ok _ []). vm_compute. reflexivity.
Qed.
