(** C86: the Debug implementations of the repository's own types. *)
From Coq Require Import ZArith Lia.
From Verif Require Import Base Style Fmt SpecStd StdCompat SString Plain Ansi Html Format Nom Parse
  Codegen StdVal SpecText TextFacts SpecSink StyleFacts StdFacts StringFacts FormatFacts SpecGrammar
  ParseFacts SpecFacts GrammarFacts SpecMeaning CodegenFacts MacroFacts AttrFacts PropsParse PropsMacro SpecPad
  PropsPad Builders SpecBuilders PropsBuilders SpecOwnDebug.

(** * Texts that tell their values apart, whatever follows *)
Definition readable {A} (P : A -> Prop) (f : A -> str) : Prop :=
  forall a b x y, P a -> P b -> f a ++ x = f b ++ y -> a = b /\ x = y.
Fixpoint unshift (s : str) : str :=
  match s with
  | [] => []
  | c :: r => c :: (if (c =? 10)%N then match r with 32%N :: 32%N :: 32%N :: 32%N :: r' => unshift r' | _ => unshift r end else unshift r)
  end.
Lemma unshift_shift s x : unshift (shift s ++ x) = s ++ unshift x.
Proof.
  induction s as [|c s IH]; [reflexivity|].
  change (shift (c :: s)) with ((if N.eqb c 10 then c :: lit "    " else [c]) ++ shift s).
  destruct (N.eqb_spec c 10) as [->|Hn].
  - cbn. f_equal. exact IH.
  - apply N.eqb_neq in Hn. cbn. rewrite Hn. f_equal. exact IH.
Qed.
Lemma readable_shift {A} P (f : A -> str) : readable P f -> readable P (fun a => shift (f a)).
Proof.
  intros R a b x y Ha Hb E. pose proof (f_equal unshift E) as E'. rewrite !unshift_shift in E'.
  destruct (R a b _ _ Ha Hb E') as [<- _]. split; [reflexivity|]. now apply app_inv_head in E.
Qed.
Lemma readable_eq {A} P (f g : A -> str) : (forall a, f a = g a) -> readable P f -> readable P g.
Proof. intros H R a b x y Ha Hb E. rewrite <- !H in E. eauto. Qed.
Lemma readable_surround {A} P (f : A -> str) pre post : readable P f -> readable P (fun a => pre ++ f a ++ post).
Proof.
  intros R a b x y Ha Hb E. rewrite <- !app_assoc in E. apply app_inv_head in E.
  destruct (R _ _ _ _ Ha Hb E) as [<- E']. now apply app_inv_head in E'.
Qed.
(** Texts without some character, followed by it. *)
Lemma readable_until {A} (P : A -> Prop) (f : A -> str) c post :
  (forall a b, P a -> P b -> f a = f b -> a = b) -> (forall a, P a -> ~ In c (f a)) -> readable P (fun a => f a ++ c :: post).
Proof.
  intros Hinj Hno a b x y Ha Hb E.
  assert (G : forall s t u v : str, ~ In c s -> ~ In c t -> s ++ c :: u = t ++ c :: v -> s = t /\ u = v).
  { induction s as [|d s IH]; intros [|e t] u v Hs Ht Est; cbn in *.
    - now inversion Est.
    - inversion Est; subst. exfalso. apply Ht. now left.
    - inversion Est; subst. exfalso. apply Hs. now left.
    - inversion Est; subst. destruct (IH t u v) as [-> ->]; auto. }
  rewrite <- !app_assoc in E. destruct (G _ _ _ _ (Hno a Ha) (Hno b Hb) E) as [E1 E2].
  split; [now apply Hinj|]. cbn in E2. now apply app_inv_head in E2.
Qed.

Definition any {A} : A -> Prop := fun _ => True.
Lemma color_readable : readable any color_variant.
Proof.
  intros a b x y _ _ E.
  destruct a, b; first [split; [reflexivity|now apply app_inv_head in E]|discriminate E].
Qed.
Lemma intensity_readable : readable any intensity_variant.
Proof.
  intros a b x y _ _ E.
  destruct a, b; first [split; [reflexivity|now apply app_inv_head in E]|discriminate E].
Qed.

Section Layout.
Variables (alt : bool) (fl : std_flags).
Notation leaf := (fun v : std_display => concat (std_events (v fl))).
Definition lay (d : dbg) : str := (if alt then many_lines else one_line) leaf d.

Lemma lay_unit s : lay (DUnit s) = s.
Proof. unfold lay. destruct alt; cbn; apply app_nil_r. Qed.
Lemma lay_color : readable any (fun c => lay (dbg_color c)).
Proof. apply (readable_eq _ color_variant); [intros; symmetry; apply lay_unit|apply color_readable]. Qed.
Lemma lay_intensity : readable any (fun c => lay (dbg_intensity c)).
Proof. apply (readable_eq _ intensity_variant); [intros; symmetry; apply lay_unit|apply intensity_readable]. Qed.
Lemma lay_align : readable any (fun c => lay (dbg_align c)).
Proof.
  intros a b x y _ _ E. unfold dbg_align in E. rewrite !lay_unit in E.
  destruct a, b; first [split; [reflexivity|now apply app_inv_head in E]|discriminate E].
Qed.
Lemma lay_sign : readable any (fun c => lay (dbg_sign c)).
Proof.
  intros a b x y _ _ E. unfold dbg_sign in E. rewrite !lay_unit in E.
  destruct a, b; first [split; [reflexivity|now apply app_inv_head in E]|discriminate E].
Qed.
Lemma lay_hex : readable any (fun c => lay (dbg_hex c)).
Proof.
  intros a b x y _ _ E. unfold dbg_hex in E. rewrite !lay_unit in E.
  destruct a, b; first [split; [reflexivity|now apply app_inv_head in E]|discriminate E].
Qed.
Definition holds {A} (P : A -> Prop) (o : option A) : Prop := match o with Some x => P x | None => True end.
Lemma lay_some d : lay (DTuple (lit "Some") [d])
  = if alt then (lit "Some(" ++ [10%N] ++ lit "    ") ++ (shift (lay d) ++ [44%N]) ++ [10%N] ++ lit ")"
    else lit "Some(" ++ (lay d ++ [41%N]) ++ [].
Proof.
  unfold lay. destruct alt; cbn [many_lines one_line map block lines flat_map]; rewrite ?app_nil_r, <- ?app_assoc; reflexivity.
Qed.
(** An option, when its value is followed by a closing parenthesis or, with '#', a comma. *)
Lemma lay_option {A} P (f : A -> dbg) :
  (if alt then readable P (fun a => shift (lay (f a)) ++ [44%N]) else readable P (fun a => lay (f a) ++ [41%N])) ->
  readable (holds P) (fun o => lay (dbg_option f o)).
Proof.
  intros R a b x y Ha Hb E. destruct a as [a|], b as [b|]; cbn [dbg_option] in E; rewrite ?lay_some, ?lay_unit in E.
  - assert (G : a = b /\ x = y); [|destruct G as [-> ->]; auto].
    destruct alt; exact (readable_surround _ _ _ _ R a b x y Ha Hb E).
  - exfalso. destruct alt; discriminate E.
  - exfalso. destruct alt; discriminate E.
  - split; [reflexivity|]. now apply app_inv_head in E.
Qed.
Lemma lay_option' {A} P (f : A -> dbg) :
  readable P (fun a => lay (f a)) -> readable (holds P) (fun o => lay (dbg_option f o)).
Proof.
  intros R. apply lay_option. destruct alt.
  - exact (readable_surround P _ [] [44%N] (readable_shift _ _ R)).
  - exact (readable_surround P _ [] [41%N] R).
Qed.

(** A struct with the same field names. *)
Lemma lay_struct {A} (P : A -> Prop) name (F : list (str * (A -> dbg))) :
  Forall (fun f => forall a b x y, P a -> P b -> lay (snd f a) ++ x = lay (snd f b) ++ y -> lay (snd f a) = lay (snd f b) /\ x = y) F ->
  forall a b x y, P a -> P b ->
  lay (DStruct name (map (fun f => (fst f, snd f a)) F) true) ++ x = lay (DStruct name (map (fun f => (fst f, snd f b)) F) true) ++ y ->
  Forall (fun f => lay (snd f a) = lay (snd f b)) F /\ x = y.
Proof.
  intros HF a b x y Ha Hb E.
  assert (G1 : forall x y, lines (map (fun f : str * (A -> dbg) => fst f ++ lit ": " ++ lay (snd f a)) F) ++ x
      = lines (map (fun f => fst f ++ lit ": " ++ lay (snd f b)) F) ++ y -> Forall (fun f => lay (snd f a) = lay (snd f b)) F /\ x = y).
  { clear E x y. induction HF as [|[n g] F Hg HF IH]; intros x y E; [now split|]. cbn [fst snd] in Hg.
    cbn [map lines flat_map fst snd] in E. rewrite !shift_app, <- !app_assoc in E.
    apply app_inv_head in E. apply app_inv_head in E. apply app_inv_head in E.
    pose proof (f_equal unshift E) as E'. rewrite !unshift_shift in E'. destruct (Hg a b _ _ Ha Hb E') as [E1 _].
    rewrite E1 in E. apply app_inv_head in E. apply app_inv_head in E. apply app_inv_head in E.
    destruct (IH x y E) as [H1 ->]. split; [|reflexivity]. constructor; assumption. }
  assert (G2 : forall pre x y, flat_map (fun t => pre ++ t) (map (fun f : str * (A -> dbg) => fst f ++ lit ": " ++ lay (snd f a)) F) ++ x
      = flat_map (fun t => pre ++ t) (map (fun f => fst f ++ lit ": " ++ lay (snd f b)) F) ++ y -> Forall (fun f => lay (snd f a) = lay (snd f b)) F /\ x = y).
  { clear E x y G1. intros pre. induction HF as [|[n g] F Hg HF IH]; intros x y E; [now split|]. cbn [fst snd] in Hg.
    cbn [map flat_map fst snd] in E. rewrite <- !app_assoc in E.
    apply app_inv_head in E. apply app_inv_head in E. apply app_inv_head in E.
    destruct (Hg a b _ _ Ha Hb E) as [E1 E2].
    destruct (IH x y E2) as [H1 ->]. split; [|reflexivity]. constructor; assumption. }
  revert E G1 G2. unfold lay. intros E G1 G2. destruct alt.
  - cbn [many_lines] in E. rewrite !map_map in E. cbn [fst snd] in E.
    destruct F as [|[n g] F]; [cbn [map] in E; now apply app_inv_head in E|].
    cbn [map block] in E. rewrite <- !app_assoc in E.
    apply app_inv_head in E. apply app_inv_head in E. apply app_inv_head in E. apply G1 in E as [H1 E].
    split; [exact H1|]. now apply app_inv_head in E.
  - cbn [one_line] in E. rewrite !map_map, !app_nil_r in E. cbn [fst snd] in E.
    destruct F as [|[n g] F]; [cbn [map] in E; now apply app_inv_head in E|].
    assert (J : forall c, join (map (fun f : str * (A -> dbg) => fst f ++ lit ": " ++ one_line leaf (snd f c)) ((n, g) :: F))
      = skipn 2 (flat_map (fun t => lit ", " ++ t) (map (fun f : str * (A -> dbg) => fst f ++ lit ": " ++ one_line leaf (snd f c)) ((n, g) :: F)))) by reflexivity.
    cbn [map] in E. rewrite <- !app_assoc in E.
    apply app_inv_head in E. apply app_inv_head in E.
    assert (E' : lit ", " ++ (n ++ lit ": " ++ one_line leaf (g a)) ++ flat_map (fun t => lit ", " ++ t) (map (fun f : str * (A -> dbg) => fst f ++ lit ": " ++ one_line leaf (snd f a)) F) ++ lit " }" ++ x
      = lit ", " ++ (n ++ lit ": " ++ one_line leaf (g b)) ++ flat_map (fun t => lit ", " ++ t) (map (fun f : str * (A -> dbg) => fst f ++ lit ": " ++ one_line leaf (snd f b)) F) ++ lit " }" ++ y).
    { f_equal. cbn [join] in E. rewrite <- !app_assoc in E. rewrite <- !app_assoc. exact E. }
    destruct (G2 (lit ", ") (lit " }" ++ x) (lit " }" ++ y)) as [H1 E2].
    { cbn [map flat_map fst snd]. rewrite <- !app_assoc. rewrite <- !app_assoc in E'. exact E'. }
    split; [exact H1|]. now apply app_inv_head in E2.
Qed.
Lemma field_of {A B} (P : A -> Prop) (Q : B -> Prop) (get : A -> B) (f : B -> dbg) :
  readable Q (fun x => lay (f x)) -> (forall a, P a -> Q (get a)) ->
  forall a b x y, P a -> P b -> lay (f (get a)) ++ x = lay (f (get b)) ++ y -> lay (f (get a)) = lay (f (get b)) /\ x = y.
Proof. intros R H a b x y Ha Hb E. destruct (R _ _ _ _ (H a Ha) (H b Hb) E) as [-> ->]. auto. Qed.
Lemma readable_inj {A} P (f : A -> str) : readable P f -> forall a b, P a -> P b -> f a = f b -> a = b.
Proof. intros R a b Ha Hb E. apply (R a b [] [] Ha Hb). now rewrite E. Qed.

Lemma lay_style : readable any (fun s => lay (dbg_style s)).
Proof.
  intros a b x y _ _ E.
  destruct (lay_struct (any (A:=style)) (lit "Style") [(lit "foreground", fun s => dbg_color (foreground s));
    (lit "background", fun s => dbg_color (background s)); (lit "intensity", fun s => dbg_intensity (intens s))]) with (a := a) (b := b) (x := x) (y := y)
    as [HF Hxy]; try exact I; [|exact E|].
  - apply Forall_cons; [|apply Forall_cons; [|apply Forall_cons; [|constructor]]]; cbn [snd].
    + apply (field_of any any foreground dbg_color lay_color); intros; exact I.
    + apply (field_of any any background dbg_color lay_color); intros; exact I.
    + apply (field_of any any intens dbg_intensity lay_intensity); intros; exact I.
  - split; [|exact Hxy]. inversion HF as [|? ? H1 HF1]; subst. inversion HF1 as [|? ? H2 HF2]; subst. inversion HF2 as [|? ? H3 _]; subst. cbn [snd] in *.
    pose proof (readable_inj _ _ lay_color _ _ I I H1). pose proof (readable_inj _ _ lay_color _ _ I I H2).
    pose proof (readable_inj _ _ lay_intensity _ _ I I H3). destruct a, b; cbn in *; congruence.
Qed.
Lemma lay_diff : readable any (fun s => lay (dbg_diff s)).
Proof.
  intros a b x y _ _ E.
  assert (HC : readable any (fun o => lay (dbg_option dbg_color o))).
  { intros o o' u v _ _. apply (lay_option' any dbg_color lay_color); destruct o, o'; exact I. }
  assert (HI : readable any (fun o => lay (dbg_option dbg_intensity o))).
  { intros o o' u v _ _. apply (lay_option' any dbg_intensity lay_intensity); destruct o, o'; exact I. }
  destruct (lay_struct (any (A:=style_diff)) (lit "StyleDiff") [(lit "foreground", fun s => dbg_option dbg_color (d_foreground s));
    (lit "background", fun s => dbg_option dbg_color (d_background s)); (lit "intensity", fun s => dbg_option dbg_intensity (d_intensity s))]) with (a := a) (b := b) (x := x) (y := y)
    as [HF Hxy]; try exact I; [|exact E|].
  - apply Forall_cons; [|apply Forall_cons; [|apply Forall_cons; [|constructor]]]; cbn [snd].
    + apply (field_of any any d_foreground _ HC); intros; exact I.
    + apply (field_of any any d_background _ HC); intros; exact I.
    + apply (field_of any any d_intensity _ HI); intros; exact I.
  - split; [|exact Hxy]. inversion HF as [|? ? H1 HF1]; subst. inversion HF1 as [|? ? H2 HF2]; subst. inversion HF2 as [|? ? H3 _]; subst. cbn [snd] in *.
    pose proof (readable_inj _ _ HC _ _ I I H1). pose proof (readable_inj _ _ HC _ _ I I H2).
    pose proof (readable_inj _ _ HI _ _ I I H3). destruct a, b; cbn in *; congruence.
Qed.

(** Numbers and booleans, for placeholders without width and precision. *)
Hypothesis no_width : sf_width fl = None.
Hypothesis no_precision : sf_precision fl = None.
Lemma lay_leaf v : lay (DLeaf v) = concat (std_events (v fl)).
Proof. unfold lay. now destruct alt. Qed.
Lemma prefix_text a b d : concat (std_events (write_prefix a b (SEmit d SRet))) = a ++ b ++ d.
Proof. unfold write_prefix. destruct a, b; cbn; rewrite ?app_nil_r, <- ?app_assoc; reflexivity. Qed.
Lemma lay_bool : readable any (fun b => lay (dbg_bool b)).
Proof.
  intros a b x y _ _ E. unfold dbg_bool in E. rewrite !lay_leaf in E. unfold bool_display, std_pad in E.
  rewrite no_width, no_precision in E. cbn [std_events concat] in E. rewrite !app_nil_r in E.
  destruct a, b; first [split; [reflexivity|now apply app_inv_head in E]|discriminate E].
Qed.
Lemma lay_usize : exists pre upper base, Forall (fun c => c <> 44%N /\ c <> 41%N /\ c <> 10%N) pre /\ (2 <= base <= 16)%N /\
  forall n, (n < 2 ^ 64)%N -> lay (dbg_usize n) = pre ++ digits upper base n.
Proof.
  assert (HS : Forall (fun c => c <> 44%N /\ c <> 41%N /\ c <> 10%N) (match sf_sign fl with Some SPlus => lit "+" | _ => [] end)).
  { destruct (sf_sign fl) as [[]|]; repeat constructor; discriminate. }
  assert (HX : Forall (fun c => c <> 44%N /\ c <> 41%N /\ c <> 10%N) (if sf_alternate fl then lit "0x" else [])).
  { destruct (sf_alternate fl); repeat constructor; discriminate. }
  assert (HT : forall n, (n < 2 ^ 64)%N -> twos 64 (Z.of_N n) = n).
  { intros n Hn. unfold twos. rewrite Z.mod_small; [apply N2Z.id|]. split; [lia|].
    change (2 ^ Z.of_N 64)%Z with (Z.of_N (2 ^ 64)). now apply N2Z.inj_lt. }
  assert (HD : forall n, lay (dbg_usize n) = concat (std_events (int_std 64 (Z.of_N n) TDebug fl))) by (intros; apply lay_leaf).
  unfold int_std in HD. destruct (sf_debug_hex fl) as [[|]|].
  - exists (match sf_sign fl with Some SPlus => lit "+" | _ => [] end ++ if sf_alternate fl then lit "0x" else []), false, 16%N.
    split; [now apply Forall_app|]. split; [lia|]. intros n Hn. rewrite HD. unfold int_radix, std_pad_integral. rewrite no_width, (HT n Hn), prefix_text.
    now rewrite <- app_assoc.
  - exists (match sf_sign fl with Some SPlus => lit "+" | _ => [] end ++ if sf_alternate fl then lit "0x" else []), true, 16%N.
    split; [now apply Forall_app|]. split; [lia|]. intros n Hn. rewrite HD. unfold int_radix, std_pad_integral. rewrite no_width, (HT n Hn), prefix_text.
    now rewrite <- app_assoc.
  - exists (match sf_sign fl with Some SPlus => lit "+" | _ => [] end), false, 10%N.
    split; [assumption|]. split; [lia|]. intros n Hn. rewrite HD. unfold int_decimal, std_pad_integral. rewrite no_width, prefix_text.
    assert (Hz : (0 <=? Z.of_N n)%Z = true) by (apply Z.leb_le; lia). rewrite Hz.
    assert (Ha : Z.abs_N (Z.of_N n) = n) by lia. rewrite Ha. destruct (sf_alternate fl); reflexivity.
Qed.
Lemma shift_plain s : Forall (fun c => c <> 10%N) s -> shift s = s.
Proof. induction 1 as [|c s Hc Hs IH]; [reflexivity|]. cbn. apply N.eqb_neq in Hc. rewrite Hc. cbn. now f_equal. Qed.
Lemma lay_width : readable usize_fits (fun o => lay (dbg_option dbg_usize o)).
Proof.
  assert (G : readable (holds (fun n => (n < 2 ^ 64)%N)) (fun o => lay (dbg_option dbg_usize o))).
  2: { intros a b x y Ha Hb. apply G; [now destruct a|now destruct b]. }
  destruct lay_usize as (pre & upper & base & Hpre & Hb & HT).
  assert (HD : forall n, Forall (fun c => c <> 44%N /\ c <> 41%N /\ c <> 10%N) (pre ++ digits upper base n)).
  { intros n. apply Forall_app. split; [exact Hpre|]. destruct (digits_numeral upper base n Hb) as (_ & _ & HF & _).
    eapply Forall_impl; [|exact HF]. intros c [Hc _]. unfold digit_char in Hc. destruct upper; lia. }
  assert (Hinj : forall m n, pre ++ digits upper base m = pre ++ digits upper base n -> m = n).
  { intros m n E. apply app_inv_head in E. destruct (digits_numeral upper base m Hb) as [<- _].
    destruct (digits_numeral upper base n Hb) as [<- _]. now rewrite E. }
  apply lay_option. destruct alt.
  - apply (readable_until (fun n => (n < 2 ^ 64)%N) (fun n => shift (lay (dbg_usize n))) 44%N []).
    + intros m n Hm Hn. rewrite (HT m Hm), (HT n Hn), !shift_plain; [apply Hinj| |].
      all: eapply Forall_impl; [|apply HD]; cbn; tauto.
    + intros n Hn. rewrite (HT n Hn), shift_plain; [|eapply Forall_impl; [|apply HD]; cbn; tauto].
      intros Hi. pose proof (proj1 (Forall_forall _ _) (HD n) _ Hi) as Hc. cbn in Hc. tauto.
  - apply (readable_until (fun n => (n < 2 ^ 64)%N) (fun n => lay (dbg_usize n)) 41%N []).
    + intros m n Hm Hn. rewrite (HT m Hm), (HT n Hn). apply Hinj.
    + intros n Hn. rewrite (HT n Hn).
      intros Hi. pose proof (proj1 (Forall_forall _ _) (HD n) _ Hi) as Hc. cbn in Hc. tauto.
Qed.
Lemma any_option {A} (f : A -> dbg) : readable any (fun a => lay (f a)) -> readable any (fun o => lay (dbg_option f o)).
Proof. intros R o o' u v _ _. apply (lay_option' any f R); destruct o, o'; exact I. Qed.
Definition args_fit (a : formatter_args) : Prop := usize_fits (fa_width a) /\ usize_fits (fa_precision a).
Lemma lay_args : readable args_fit (fun a => lay (dbg_args a)).
Proof.
  intros a b x y Ha Hb E.
  pose proof (any_option _ lay_align) as RA. pose proof (any_option _ lay_sign) as RS. pose proof (any_option _ lay_hex) as RH.
  destruct (lay_struct args_fit (lit "FormatterArgs") [(lit "align", fun a => dbg_option dbg_align (fa_align a));
    (lit "sign", fun a => dbg_option dbg_sign (fa_sign a));
    (lit "alternate", fun a => dbg_bool (fa_alternate a)); (lit "zero", fun a => dbg_bool (fa_zero a));
    (lit "width", fun a => dbg_option dbg_usize (fa_width a));
    (lit "precision", fun a => dbg_option dbg_usize (fa_precision a));
    (lit "debug_hex", fun a => dbg_option dbg_hex (fa_debug_hex a))]) with (a := a) (b := b) (x := x) (y := y)
    as [HF Hxy]; [|assumption|assumption|exact E|].
  - apply Forall_cons; [|apply Forall_cons; [|apply Forall_cons; [|apply Forall_cons; [|apply Forall_cons; [|apply Forall_cons; [|apply Forall_cons; [|constructor]]]]]]]; cbn [snd].
    + apply (field_of args_fit any fa_align _ RA); intros; exact I.
    + apply (field_of args_fit any fa_sign _ RS); intros; exact I.
    + apply (field_of args_fit any fa_alternate _ lay_bool); intros; exact I.
    + apply (field_of args_fit any fa_zero _ lay_bool); intros; exact I.
    + apply (field_of args_fit usize_fits fa_width _ lay_width). intros c Hc. apply Hc.
    + apply (field_of args_fit usize_fits fa_precision _ lay_width). intros c Hc. apply Hc.
    + apply (field_of args_fit any fa_debug_hex _ RH); intros; exact I.
  - split; [|exact Hxy].
    inversion HF as [|? ? H1 HF1]; subst. inversion HF1 as [|? ? H2 HF2]; subst. inversion HF2 as [|? ? H3 HF3]; subst.
    inversion HF3 as [|? ? H4 HF4]; subst. inversion HF4 as [|? ? H5 HF5]; subst. inversion HF5 as [|? ? H6 HF6]; subst.
    inversion HF6 as [|? ? H7 _]; subst. cbn [snd] in *.
    pose proof (readable_inj _ _ RA _ _ I I H1). pose proof (readable_inj _ _ RS _ _ I I H2).
    pose proof (readable_inj _ _ lay_bool _ _ I I H3). pose proof (readable_inj _ _ lay_bool _ _ I I H4).
    pose proof (readable_inj _ _ lay_width _ _ (proj1 Ha) (proj1 Hb) H5). pose proof (readable_inj _ _ lay_width _ _ (proj2 Ha) (proj2 Hb) H6).
    pose proof (readable_inj _ _ RH _ _ I I H7). destruct a, b; cbn in *; congruence.
Qed.
Definition formatter_fits (f : formatter) : Prop := args_fit (fm_format f).
Lemma lay_formatter : readable formatter_fits (fun f => lay (dbg_formatter f)).
Proof.
  intros a b x y Ha Hb E.
  destruct (lay_struct formatter_fits (lit "Formatter") [(lit "style", fun f => dbg_style (fm_style f));
    (lit "format", fun f => dbg_args (fm_format f))]) with (a := a) (b := b) (x := x) (y := y)
    as [HF Hxy]; [|assumption|assumption|exact E|].
  - apply Forall_cons; [|apply Forall_cons; [|constructor]]; cbn [snd].
    + apply (field_of formatter_fits any fm_style _ lay_style); intros; exact I.
    + apply (field_of formatter_fits args_fit fm_format _ lay_args). auto.
  - split; [|exact Hxy].
    inversion HF as [|? ? H1 HF1]; subst. inversion HF1 as [|? ? H2 _]; subst. cbn [snd] in *.
    pose proof (readable_inj _ _ lay_style _ _ I I H1). pose proof (readable_inj _ _ lay_args _ _ Ha Hb H2).
    destruct a, b; cbn in *; congruence.
Qed.
End Layout.

Lemma color_named c : color_called c (color_variant c).
Proof.
  destruct c; try constructor.
  - apply (called_bright Black (lit "Black")); [constructor|cbn; tauto|cbn; tauto].
  - apply (called_bright Red (lit "Red")); [constructor|cbn; tauto|cbn; tauto].
  - apply (called_bright Green (lit "Green")); [constructor|cbn; tauto|cbn; tauto].
  - apply (called_bright Yellow (lit "Yellow")); [constructor|cbn; tauto|cbn; tauto].
  - apply (called_bright Blue (lit "Blue")); [constructor|cbn; tauto|cbn; tauto].
  - apply (called_bright Magenta (lit "Magenta")); [constructor|cbn; tauto|cbn; tauto].
  - apply (called_bright Cyan (lit "Cyan")); [constructor|cbn; tauto|cbn; tauto].
  - apply (called_bright White (lit "White")); [constructor|cbn; tauto|cbn; tauto].
Qed.
Lemma intensity_named i : intensity_called i (intensity_variant i).
Proof. destruct i; constructor. Qed.
Lemma unit_leaf fl n : (fun v : std_display => concat (std_events (v fl))) (fun _ => SEmit n SRet) = n.
Proof. cbn. apply app_nil_r. Qed.
Lemma style_layout alt fl s : style_shown alt s (lay alt fl (dbg_style s)).
Proof.
  destruct s as [fg bg i]. pose proof (color_named fg) as H1. pose proof (color_named bg) as H2. pose proof (intensity_named i) as H3.
  unfold lay. destruct alt.
  - assert (E : many_lines (fun v : std_display => concat (std_events (v fl))) (dbg_style (mk_style fg bg i))
      = lit "Style {" ++ [10%N] ++ lit "    foreground: " ++ color_variant fg ++ lit "," ++ [10%N] ++
         lit "    background: " ++ color_variant bg ++ lit "," ++ [10%N] ++
         lit "    intensity: " ++ intensity_variant i ++ lit "," ++ [10%N] ++ lit "}").
    { cbn [dbg_style many_lines map block lines flat_map fst snd foreground background intens dbg_color dbg_intensity DUnit std_events concat].
      rewrite !shift_app, !app_nil_r.
      assert (HC : forall c, shift (color_variant c) = color_variant c) by (intros []; reflexivity).
      assert (HI : shift (intensity_variant i) = intensity_variant i) by (destruct i; reflexivity).
      rewrite !HC, HI, <- !app_assoc. reflexivity. }
    rewrite E. now constructor.
  - assert (E : one_line (fun v : std_display => concat (std_events (v fl))) (dbg_style (mk_style fg bg i))
      = lit "Style { foreground: " ++ color_variant fg ++ lit ", background: " ++ color_variant bg ++ lit ", intensity: " ++ intensity_variant i ++ lit " }").
    { cbn [dbg_style one_line map join flat_map fst snd foreground background intens dbg_color dbg_intensity DUnit std_events concat app].
      rewrite !app_nil_r, <- !app_assoc. reflexivity. }
    rewrite E. now constructor.
Qed.

Lemma attribute_layout alt fl (kind : str) c : kind = lit "Foreground" \/ kind = lit "Background" ->
  attribute_shown alt kind c (lay alt fl (DTuple kind [dbg_color c])).
Proof.
  intros Hk. pose proof (color_named c) as H1.
  assert (HC : shift (color_variant c) = color_variant c) by (destruct c; reflexivity).
  unfold lay. destruct alt.
  - assert (E : many_lines (fun v : std_display => concat (std_events (v fl))) (DTuple kind [dbg_color c])
      = kind ++ lit "(" ++ [10%N] ++ lit "    " ++ color_variant c ++ lit "," ++ [10%N] ++ lit ")").
    { cbn [many_lines map block lines flat_map fst snd dbg_color DUnit std_events concat app].
      rewrite ?shift_app, ?app_nil_r, ?HC, <- ?app_assoc.
      destruct Hk as [->| ->]; destruct c; vm_compute; reflexivity. }
    rewrite E. now constructor.
  - assert (E : one_line (fun v : std_display => concat (std_events (v fl))) (DTuple kind [dbg_color c])
      = kind ++ lit "(" ++ color_variant c ++ lit ")").
    { destruct Hk as [->| ->]; destruct c; vm_compute; reflexivity. }
    rewrite E. now constructor.
Qed.

Lemma option_line {A} (called : A -> str -> Prop) (f : A -> dbg) fl o :
  (forall x, o = Some x -> called x (lay false fl (f x))) -> option_shown called false o (lay false fl (dbg_option f o)).
Proof.
  intros C. destruct o as [x|]; cbn [dbg_option].
  - rewrite lay_some. rewrite app_nil_r. constructor. now apply C.
  - rewrite lay_unit. constructor.
Qed.
Lemma option_lines {A} (called : A -> str -> Prop) (f : A -> str) fl (o : option A) :
  (forall x, called x (f x)) -> (forall x, shift (f x) = f x) ->
  option_shown called true o (shift (lay true fl (dbg_option (fun x => DUnit (f x)) o))).
Proof.
  intros C S. destruct o as [x|]; cbn [dbg_option].
  - rewrite lay_some, lay_unit, S.
    replace (shift _) with (lit "Some(" ++ [10%N] ++ lit "        " ++ f x ++ lit "," ++ [10%N] ++ lit "    )"); [now constructor|].
    rewrite !shift_app, S. rewrite <- !app_assoc. reflexivity.
  - rewrite lay_unit. constructor.
Qed.
Lemma each_cons {A B} (f : A -> list B) x l : flat_map f (x :: l) = f x ++ flat_map f l.
Proof. reflexivity. Qed.
Lemma each_nil {A B} (f : A -> list B) : flat_map f [] = [].
Proof. reflexivity. Qed.
Lemma diff_layout alt fl d : diff_shown alt d (lay alt fl (dbg_diff d)).
Proof.
  destruct d as [fg bg i].
  assert (HC : forall c, shift (color_variant c) = color_variant c) by (intros []; reflexivity).
  assert (HI : forall i, shift (intensity_variant i) = intensity_variant i) by (intros []; reflexivity).
  destruct alt.
  - pose proof (option_lines color_called color_variant fl fg color_named HC) as H1.
    pose proof (option_lines color_called color_variant fl bg color_named HC) as H2.
    pose proof (option_lines intensity_called intensity_variant fl i intensity_named HI) as H3.
    change (fun x => DUnit (color_variant x)) with dbg_color in *. change (fun x => DUnit (intensity_variant x)) with dbg_intensity in *.
    pose proof (diff_lines _ _ _ _ _ _ H1 H2 H3) as G.
    replace (lay true fl (dbg_diff (mk_diff fg bg i))) with
      (lit "StyleDiff {" ++ [10%N] ++
         lit "    foreground: " ++ shift (lay true fl (dbg_option dbg_color fg)) ++ lit "," ++ [10%N] ++
         lit "    background: " ++ shift (lay true fl (dbg_option dbg_color bg)) ++ lit "," ++ [10%N] ++
         lit "    intensity: " ++ shift (lay true fl (dbg_option dbg_intensity i)) ++ lit "," ++ [10%N] ++ lit "}"); [exact G|].
    unfold lay. cbn [dbg_diff many_lines map block lines flat_map fst snd d_foreground d_background d_intensity].
    rewrite !shift_app, !app_nil_r, <- !app_assoc. reflexivity.
  - pose proof (option_line color_called dbg_color fl fg (fun x _ => eq_ind_r (color_called x) (color_named x) (lay_unit false fl _))) as H1.
    pose proof (option_line color_called dbg_color fl bg (fun x _ => eq_ind_r (color_called x) (color_named x) (lay_unit false fl _))) as H2.
    pose proof (option_line intensity_called dbg_intensity fl i (fun x _ => eq_ind_r (intensity_called x) (intensity_named x) (lay_unit false fl _))) as H3.
    pose proof (diff_line _ _ _ _ _ _ H1 H2 H3) as G.
    replace (lay false fl (dbg_diff (mk_diff fg bg i))) with
      (lit "StyleDiff { foreground: " ++ lay false fl (dbg_option dbg_color fg) ++ lit ", background: " ++
         lay false fl (dbg_option dbg_color bg) ++ lit ", intensity: " ++ lay false fl (dbg_option dbg_intensity i) ++ lit " }"); [exact G|].
    unfold lay. cbn [dbg_diff one_line map d_foreground d_background d_intensity fst snd].
    rewrite !app_nil_r. cbn iota. unfold join. rewrite !each_cons, !each_nil, ?app_nil_r, <- !app_assoc. reflexivity.
Qed.

Lemma formatter_layout fl f :
  sf_sign fl = None -> sf_alternate fl = false -> sf_width fl = None -> sf_precision fl = None -> sf_debug_hex fl = None ->
  formatter_shown f (lay false fl (dbg_formatter f)).
Proof.
  intros F1 F2 F3 F4 F5. destruct f as [st [al sg alt z w pr hx]].
  pose proof (style_layout false fl st) as H1.
  pose proof (option_line align_called dbg_align fl al) as H2.
  pose proof (option_line sign_called dbg_sign fl sg) as H3.
  pose proof (option_line hex_called dbg_hex fl hx) as H8.
  assert (HN : forall o, option_shown (numeral false 10) false o (lay false fl (dbg_option dbg_usize o))).
  { intros o. apply option_line. intros n _. unfold dbg_usize. rewrite lay_leaf. unfold int_std. rewrite F5.
    unfold int_decimal, std_pad_integral. rewrite F3, F2, F1, prefix_text.
    assert (Hz : (0 <=? Z.of_N n)%Z = true) by (apply Z.leb_le; lia). rewrite Hz.
    assert (Ha : Z.abs_N (Z.of_N n) = n) by lia. rewrite Ha. cbn [app].
    apply digits_numeral. lia. }
  assert (HB : forall b, bool_called b (lay false fl (dbg_bool b))).
  { intros b. unfold dbg_bool. rewrite lay_leaf. unfold bool_display, std_pad. rewrite F3, F4. destruct b; constructor. }
  pose proof (formatter_line st _ al sg alt z w pr hx _ _ _ _ _ _ _ H1
    (H2 (fun x _ => match x as x return align_called x (lay false fl (dbg_align x)) with ALeft => called_left | ACenter => called_center | ARight => called_right end))
    (H3 (fun x _ => match x as x return sign_called x (lay false fl (dbg_sign x)) with SPlus => called_plus | SMinus => called_minus end))
    (HB alt) (HB z) (HN w) (HN pr)
    (H8 (fun x _ => match x as x return hex_called x (lay false fl (dbg_hex x)) with HexLower => called_lower | HexUpper => called_upper end))) as G.
  match type of G with formatter_shown ?f ?t => replace (lay false fl (dbg_formatter f)) with t; [exact G|] end.
  unfold lay, dbg_formatter, dbg_args. cbn [one_line map fst snd fm_style fm_format fa_align fa_sign fa_alternate fa_zero
    fa_width fa_precision fa_debug_hex]. rewrite !app_nil_r. cbn iota. unfold join. rewrite !each_cons, !each_nil, ?app_nil_r, <- !app_assoc. reflexivity.
Qed.

(** * The theorems *)
Section Xid.
Variables xid_start xid_continue : char -> bool.
Hypothesis xid : xid_ok xid_start xid_continue.
Notation macro := (format_args_impl xid_start xid_continue).

(** [format!("{:text}", v)] of the plain crate gives [out]. *)
Definition shows {H} (scope : str -> value_t) (h : H) (text : str) (v : value_t) (out : str) : Prop :=
  exists c args, macro (lit "{:" ++ text ++ lit "}") [fun h : H => (h, Some v)] [] = Expanded c /\
    eval_code scope c h = (h, Some args) /\ plain_format args = Value out.

Lemma shows_lay {H} (sp : format_spec) (text : str) (d : dbg) (scope : str -> value_t) (h : H) :
  spec_spelled xid_start xid_continue sp text -> text <> [] -> fs_trait sp = FDebug ->
  literal_count (pa_width (fs_args sp)) -> literal_count (pa_precision (fs_args sp)) ->
  let flags := std_flags_of (spelled_flags (fs_args sp)) (fa_debug_hex (spelled_flags (fs_args sp))) in
  Forall (fun v => std_outcome (v flags) = Returned Ok) (leaves d) ->
  forall out, shows scope h text (dbg_value d) out -> out = lay (pa_alternate (fs_args sp)) flags d.
Proof.
  intros Hsp Hne Ht Hw Hpr flags HL out (c & args & Hc & He & Hp).
  destruct (C85_layout xid_start xid_continue xid sp text d scope h Hsp Hne Ht Hw Hpr HL) as (c' & args' & Hc' & He' & Hp' & _).
  rewrite Hc' in Hc. injection Hc as <-. rewrite He' in He. injection He as <-. rewrite Hp' in Hp. injection Hp as <-.
  unfold lay. now destruct (pa_alternate (fs_args sp)).
Qed.
Lemma units_ok fl (l : list str) : Forall (fun v : std_display => std_outcome (v fl) = Returned Ok) (map (fun n _ => SEmit n SRet) l).
Proof. induction l; constructor; auto. Qed.

(** C86: a style shown with a Debug placeholder, with any flags and attributes: the names of its
    colors and its intensity, in the placeholder's style. *)
Theorem C86_style {H} (sp : format_spec) (text : str) (s : style) (scope : str -> value_t) (h : H) :
  spec_spelled xid_start xid_continue sp text -> text <> [] -> fs_trait sp = FDebug ->
  literal_count (pa_width (fs_args sp)) -> literal_count (pa_precision (fs_args sp)) ->
  exists c args out, macro (lit "{:" ++ text ++ lit "}") [fun h : H => (h, Some (dbg_value (dbg_style s)))] [] = Expanded c /\
    eval_code scope c h = (h, Some args) /\
    style_shown (pa_alternate (fs_args sp)) s out /\
    plain_format args = Value out /\
    produces (args formatter_new) = paint (override (fs_style sp) style_default) out.
Proof.
  intros Hsp Hne Ht Hw Hpr.
  set (flags := std_flags_of (spelled_flags (fs_args sp)) (fa_debug_hex (spelled_flags (fs_args sp)))).
  destruct (C85_layout xid_start xid_continue xid sp text (dbg_style s) scope h Hsp Hne Ht Hw Hpr) as (c & args & Hc & He & Hp & Hq).
  - exact (units_ok flags [color_variant (foreground s); color_variant (background s); intensity_variant (intens s)]).
  - exists c, args, (lay (pa_alternate (fs_args sp)) flags (dbg_style s)).
    pose proof (style_layout (pa_alternate (fs_args sp)) flags s) as HS. unfold lay in *.
    destruct (pa_alternate (fs_args sp)); repeat split; auto.
Qed.

(** C86: likewise Foreground and Background. *)
Theorem C86_attributes {H} (sp : format_spec) (text : str) (col : color) (scope : str -> value_t) (h : H) :
  spec_spelled xid_start xid_continue sp text -> text <> [] -> fs_trait sp = FDebug ->
  literal_count (pa_width (fs_args sp)) -> literal_count (pa_precision (fs_args sp)) ->
  forall d kind, In (d, kind) [(dbg_foreground col, lit "Foreground"); (dbg_background col, lit "Background")] ->
  exists c args out, macro (lit "{:" ++ text ++ lit "}") [fun h : H => (h, Some (dbg_value d))] [] = Expanded c /\
    eval_code scope c h = (h, Some args) /\
    attribute_shown (pa_alternate (fs_args sp)) kind col out /\
    plain_format args = Value out /\
    produces (args formatter_new) = paint (override (fs_style sp) style_default) out.
Proof.
  intros Hsp Hne Ht Hw Hpr d kind Hin.
  assert (Hd : d = DTuple kind [dbg_color col] /\ (kind = lit "Foreground" \/ kind = lit "Background")).
  { destruct Hin as [E|[E|[]]]; injection E as <- <-; split; auto; reflexivity. }
  destruct Hd as [-> Hk]. clear Hin.
  set (flags := std_flags_of (spelled_flags (fs_args sp)) (fa_debug_hex (spelled_flags (fs_args sp)))).
  destruct (C85_layout xid_start xid_continue xid sp text (DTuple kind [dbg_color col]) scope h Hsp Hne Ht Hw Hpr) as (c & args & Hc & He & Hp & Hq).
  - exact (units_ok flags [color_variant col]).
  - exists c, args, (lay (pa_alternate (fs_args sp)) flags (DTuple kind [dbg_color col])).
    pose proof (attribute_layout (pa_alternate (fs_args sp)) flags kind col Hk) as HS. unfold lay in *.
    destruct (pa_alternate (fs_args sp)); repeat split; auto.
Qed.

(** C86: the text tells styles, and changes of styles, apart. *)
Theorem C86_distinct {H} (sp : format_spec) (text : str) (scope : str -> value_t) (h : H) (out : str) :
  spec_spelled xid_start xid_continue sp text -> text <> [] -> fs_trait sp = FDebug ->
  literal_count (pa_width (fs_args sp)) -> literal_count (pa_precision (fs_args sp)) ->
  (forall a b : style, shows scope h text (dbg_value (dbg_style a)) out -> shows scope h text (dbg_value (dbg_style b)) out -> a = b) /\
  (forall a b : style_diff, shows scope h text (dbg_value (dbg_diff a)) out -> shows scope h text (dbg_value (dbg_diff b)) out -> a = b).
Proof.
  intros Hsp Hne Ht Hw Hpr.
  set (flags := std_flags_of (spelled_flags (fs_args sp)) (fa_debug_hex (spelled_flags (fs_args sp)))).
  split; intros a b Ha Hb.
  - assert (HL : forall s, Forall (fun v => std_outcome (v flags) = Returned Ok) (leaves (dbg_style s))).
    { intros s. exact (units_ok flags [color_variant (foreground s); color_variant (background s); intensity_variant (intens s)]). }
    pose proof (shows_lay sp text _ scope h Hsp Hne Ht Hw Hpr (HL a) out Ha) as Ea.
    pose proof (shows_lay sp text _ scope h Hsp Hne Ht Hw Hpr (HL b) out Hb) as Eb.
    apply (readable_inj _ _ (lay_style (pa_alternate (fs_args sp)) flags) a b I I). rewrite Ea in Eb. exact Eb.
  - assert (HO : forall {A} (f : A -> str) (o : option A), Forall (fun v : std_display => std_outcome (v flags) = Returned Ok) (leaves (dbg_option (fun x => DUnit (f x)) o))).
    { intros A f [x|]; repeat constructor. }
    assert (HL : forall s, Forall (fun v => std_outcome (v flags) = Returned Ok) (leaves (dbg_diff s))).
    { intros s. cbn [dbg_diff leaves flat_map snd]. rewrite app_nil_r.
      repeat (apply Forall_app; split); [apply (HO color color_variant)|apply (HO color color_variant)|apply (HO intensity intensity_variant)]. }
    pose proof (shows_lay sp text _ scope h Hsp Hne Ht Hw Hpr (HL a) out Ha) as Ea.
    pose proof (shows_lay sp text _ scope h Hsp Hne Ht Hw Hpr (HL b) out Hb) as Eb.
    apply (readable_inj _ _ (lay_diff (pa_alternate (fs_args sp)) flags) a b I I). rewrite Ea in Eb. exact Eb.
Qed.

Lemma formatter_leaves (sp : format_spec) :
  let flags := std_flags_of (spelled_flags (fs_args sp)) (fa_debug_hex (spelled_flags (fs_args sp))) in
  forall s, Forall (fun v => std_outcome (v flags) = Returned Ok) (leaves (dbg_formatter s)).
Proof.
  intros flags.
  assert (HO : forall {A} (f : A -> str) (o : option A), Forall (fun v : std_display => std_outcome (v flags) = Returned Ok) (leaves (dbg_option (fun x => DUnit (f x)) o))).
  { intros A k [x|]; repeat constructor. }
  assert (HB : forall b, Forall (fun v : std_display => std_outcome (v flags) = Returned Ok) (leaves (dbg_bool b))).
  { intros b. constructor; [|constructor]. apply (std_pad_text (if b then lit "true" else lit "false")). }
  assert (HU : forall o, Forall (fun v : std_display => std_outcome (v flags) = Returned Ok) (leaves (dbg_option dbg_usize o))).
  { intros [n|]; [|repeat constructor]. cbn [dbg_option leaves flat_map app]. constructor; [|constructor].
    unfold flags, int_std. cbn [sf_debug_hex std_flags_of]. destruct (fa_debug_hex (spelled_flags (fs_args sp))) as [[|]|].
    - exact (proj1 (std_integral_text _ _ _ _ _)).
    - exact (proj1 (std_integral_text _ _ _ _ _)).
    - exact (proj1 (std_integral_text _ _ _ _ _)). }
  intros s. cbn [dbg_formatter leaves flat_map snd]. rewrite app_nil_r. apply Forall_app. split.
  - exact (units_ok flags [color_variant (foreground (fm_style s)); color_variant (background (fm_style s)); intensity_variant (intens (fm_style s))]).
  - cbn [dbg_args leaves flat_map snd]. rewrite app_nil_r.
    apply Forall_app; split; [apply (HO align_t (fun a => match a with ALeft => lit "Left" | ACenter => lit "Center" | ARight => lit "Right" end))|].
    apply Forall_app; split; [apply (HO sign_t (fun a => match a with SPlus => lit "Plus" | SMinus => lit "Minus" end))|].
    apply Forall_app; split; [apply HB|]. apply Forall_app; split; [apply HB|].
    apply Forall_app; split; [apply HU|]. apply Forall_app; split; [apply HU|].
    apply (HO debug_hex_t (fun a => match a with HexLower => lit "Lower" | HexUpper => lit "Upper" end)).
Qed.

(** C86: a formatter shown inside an implementation with a placeholder without width and precision:
    two formatters give the same text if and only if they have the same style and flags. *)
Theorem C86_formatter {H} (sp : format_spec) (text : str) (scope : str -> value_t) (h : H) (f g : formatter) :
  spec_spelled xid_start xid_continue sp text -> text <> [] -> fs_trait sp = FDebug ->
  pa_width (fs_args sp) = None -> pa_precision (fs_args sp) = None ->
  Forall usize_fits [fa_width (fm_format f); fa_precision (fm_format f); fa_width (fm_format g); fa_precision (fm_format g)] ->
  (exists out, shows scope h text (dbg_value (dbg_formatter f)) out /\ shows scope h text (dbg_value (dbg_formatter g)) out) <-> f = g.
Proof.
  intros Hsp Hne Ht Hw Hpr Hfit.
  assert (Hw' : literal_count (pa_width (fs_args sp))) by (rewrite Hw; exact I).
  assert (Hpr' : literal_count (pa_precision (fs_args sp))) by (rewrite Hpr; exact I).
  set (flags := std_flags_of (spelled_flags (fs_args sp)) (fa_debug_hex (spelled_flags (fs_args sp)))).
  pose proof (formatter_leaves sp) as HL. cbn zeta in HL. fold flags in HL.
  inversion Hfit as [|? ? F1 Hfit1]; subst. inversion Hfit1 as [|? ? F2 Hfit2]; subst.
  inversion Hfit2 as [|? ? F3 Hfit3]; subst. inversion Hfit3 as [|? ? F4 _]; subst.
  split.
  - intros (out & Ha & Hb).
    pose proof (shows_lay sp text _ scope h Hsp Hne Ht Hw' Hpr' (HL f) out Ha) as Ea.
    pose proof (shows_lay sp text _ scope h Hsp Hne Ht Hw' Hpr' (HL g) out Hb) as Eb.
    assert (N1 : sf_width flags = None) by (unfold flags; cbn; rewrite Hw; reflexivity).
    assert (N2 : sf_precision flags = None) by (unfold flags; cbn; rewrite Hpr; reflexivity).
    apply (readable_inj _ _ (lay_formatter (pa_alternate (fs_args sp)) flags N1 N2) f g (conj F1 F2) (conj F3 F4)).
    rewrite Ea in Eb. exact Eb.
  - intros <-. destruct (C85_layout xid_start xid_continue xid sp text (dbg_formatter f) scope h Hsp Hne Ht Hw' Hpr' (HL f))
      as (c & args & Hc & He & Hp & _).
    eexists. split; exists c, args; repeat split; eassumption.
Qed.

(** C86: a change of style shown with a Debug placeholder, with any flags and attributes. *)
Theorem C86_diff {H} (sp : format_spec) (text : str) (d : style_diff) (scope : str -> value_t) (h : H) :
  spec_spelled xid_start xid_continue sp text -> text <> [] -> fs_trait sp = FDebug ->
  literal_count (pa_width (fs_args sp)) -> literal_count (pa_precision (fs_args sp)) ->
  exists c args out, macro (lit "{:" ++ text ++ lit "}") [fun h : H => (h, Some (dbg_value (dbg_diff d)))] [] = Expanded c /\
    eval_code scope c h = (h, Some args) /\
    diff_shown (pa_alternate (fs_args sp)) d out /\
    plain_format args = Value out /\
    produces (args formatter_new) = paint (override (fs_style sp) style_default) out.
Proof.
  intros Hsp Hne Ht Hw Hpr.
  set (flags := std_flags_of (spelled_flags (fs_args sp)) (fa_debug_hex (spelled_flags (fs_args sp)))).
  assert (HO : forall {A} (f : A -> str) (o : option A), Forall (fun v : std_display => std_outcome (v flags) = Returned Ok) (leaves (dbg_option (fun x => DUnit (f x)) o))).
  { intros A f [x|]; repeat constructor. }
  destruct (C85_layout xid_start xid_continue xid sp text (dbg_diff d) scope h Hsp Hne Ht Hw Hpr) as (c & args & Hc & He & Hp & Hq).
  - cbn [dbg_diff leaves flat_map snd]. rewrite app_nil_r.
    repeat (apply Forall_app; split); [apply (HO color color_variant)|apply (HO color color_variant)|apply (HO intensity intensity_variant)].
  - exists c, args, (lay (pa_alternate (fs_args sp)) flags (dbg_diff d)).
    pose proof (diff_layout (pa_alternate (fs_args sp)) flags d) as HS. unfold lay in *.
    destruct (pa_alternate (fs_args sp)); repeat split; auto.
Qed.

(** C86: a formatter shown with a Debug placeholder without flags (attributes are possible). *)
Theorem C86_formatter_text {H} (sp : format_spec) (text : str) (f : formatter) (scope : str -> value_t) (h : H) :
  spec_spelled xid_start xid_continue sp text -> text <> [] -> fs_trait sp = FDebug ->
  pa_sign (fs_args sp) = None -> pa_alternate (fs_args sp) = false -> pa_width (fs_args sp) = None ->
  pa_precision (fs_args sp) = None -> pa_debug_hex (fs_args sp) = None ->
  exists c args out, macro (lit "{:" ++ text ++ lit "}") [fun h : H => (h, Some (dbg_value (dbg_formatter f)))] [] = Expanded c /\
    eval_code scope c h = (h, Some args) /\
    formatter_shown f out /\
    plain_format args = Value out /\
    produces (args formatter_new) = paint (override (fs_style sp) style_default) out.
Proof.
  intros Hsp Hne Ht F1 F2 F3 F4 F5.
  assert (Hw : literal_count (pa_width (fs_args sp))) by (rewrite F3; exact I).
  assert (Hpr : literal_count (pa_precision (fs_args sp))) by (rewrite F4; exact I).
  set (flags := std_flags_of (spelled_flags (fs_args sp)) (fa_debug_hex (spelled_flags (fs_args sp)))).
  destruct (C85_layout xid_start xid_continue xid sp text (dbg_formatter f) scope h Hsp Hne Ht Hw Hpr (formatter_leaves sp f)) as (c & args & Hc & He & Hp & Hq).
  exists c, args, (lay false flags (dbg_formatter f)).
  assert (HS : formatter_shown f (lay false flags (dbg_formatter f))).
  { apply formatter_layout; unfold flags; cbn; rewrite ?F1, ?F2, ?F3, ?F4, ?F5; reflexivity. }
  rewrite F2 in *. unfold lay in *. repeat split; auto.
Qed.
End Xid.
Print Assumptions C86_style.
Print Assumptions C86_attributes.
Print Assumptions C86_distinct.
Print Assumptions C86_formatter.
Print Assumptions C86_diff.
Print Assumptions C86_formatter_text.

Example C86_nonvacuous :
  match call false (lit "{:?}|{:9?}|{:#?}|{:?}")
    [logging 0 (dbg_value (dbg_style (mk_style Red ColorDefault Bold))); logging 1 (dbg_value (dbg_diff (mk_diff (Some BrightBlue) None None)));
     logging 2 (dbg_value (dbg_foreground Cyan));
     logging 3 (dbg_value (dbg_formatter (mk_formatter style_default (mk_fargs (Some ALeft) None true false (Some 12%N) None None))))] [] with
  | Some (_, args) => plain_format args | None => Crash Panic end
  = Value (lit "Style { foreground: Red, background: Default, intensity: Bold }|StyleDiff { foreground: Some(BrightBlue), background: None, intensity: None }|Foreground(" ++ [10%N] ++
      lit "    Cyan," ++ [10%N] ++ lit ")|Formatter { style: Style { foreground: Default, background: Default, intensity: Normal }, format: FormatterArgs { align: Some(Left), sign: None, alternate: true, zero: false, width: Some(12), precision: None, debug_hex: None } }").
Proof. vm_compute. reflexivity. Qed.
(** With a width, the text of a formatter depends on more than [C86_formatter] says it needs to; with a
    precision it does not tell formatters apart: {:.0?} shows both booleans as nothing. *)
Example C86_precision :
  match call false (lit "{:.0?}|{:.0?}") [logging 0 (dbg_value (dbg_bool true)); logging 1 (dbg_value (dbg_bool false))] [] with
  | Some (_, args) => plain_format args | None => Crash Panic end = Value (lit "|").
Proof. vm_compute. reflexivity. Qed.

(** {:#?} of a change of style. *)
Example C86_diff_nonvacuous :
  match call false (lit "{:#?}") [logging 0 (dbg_value (dbg_diff (mk_diff (Some BrightBlue) None (Some Bold))))] [] with
  | Some (_, args) => plain_format args | None => Crash Panic end
  = Value (lit "StyleDiff {" ++ [10%N] ++ lit "    foreground: Some(" ++ [10%N] ++ lit "        BrightBlue," ++ [10%N] ++ lit "    )," ++ [10%N] ++
      lit "    background: None," ++ [10%N] ++ lit "    intensity: Some(" ++ [10%N] ++ lit "        Bold," ++ [10%N] ++ lit "    )," ++ [10%N] ++ lit "}").
Proof. vm_compute. reflexivity. Qed.
