(** Lemmas about std format strings (for C79). *)
From Verif Require Import Base Style Fmt SpecStd StdCompat Nom Parse Codegen SpecText TextFacts
  StyleFacts SpecGrammar ParseFacts SpecFacts GrammarFacts SpecMeaning CodegenFacts MacroFacts SpecDropIn.

(** * Std pieces as stylish pieces *)
Definition as_align (a : align_t) : p_align :=
  match a with ALeft => PLeft | ACenter => PCenter | ARight => PRight end.
Definition as_sign (a : sign_t) : p_sign := match a with SPlus => PPlus | SMinus => PMinus end.
Definition as_hex (a : debug_hex_t) : p_debug_hex :=
  match a with HexLower => PLower | HexUpper => PUpper end.
Definition as_trait (t : std_trait) : format_trait :=
  match t with
  | TDisplay => FDisplay | TDebug => FDebug | TOctal => FOctal | TLowerHex => FLowerHex
  | TUpperHex => FUpperHex | TPointer => FPointer | TBinary => FBinary | TLowerExp => FLowerExp
  | TUpperExp => FUpperExp
  end.
Definition as_count (c : std_count) : option count :=
  match c with Literal n => Some (CInt n) | FromArg r => Some (CParam r) | NextArg => None end.
Definition as_counts (c : option std_count) : option count :=
  match c with Some c => as_count c | None => None end.
Definition as_arg (p : std_placeholder) : format_arg :=
  mk_farg (sph_arg p)
    (mk_spec (mk_pfargs (option_map as_align (sph_align p)) (option_map as_sign (sph_sign p))
                (sph_alternate p) (sph_zero p) (as_counts (sph_width p))
                (as_counts (sph_precision p)) (option_map as_hex (sph_hex p)))
       (mk_diff None None None) (as_trait (sph_trait p))).
Definition as_piece (p : std_piece) : piece :=
  match p with SText s => Lit s | SPlace p => Arg (as_arg p) end.

(** What the parser can read (it reads counts from arguments; they are rejected later). *)
Definition readable (p : std_placeholder) : Prop :=
  (sph_fill p = None \/ sph_fill p = Some 32%N) /\ sph_precision p <> Some NextArg /\
  ~ (sph_zero p = false /\ sph_width p = Some (FromArg (Positional 0))) /\ sph_space p = false.

Section Xid.
Variables xid_start xid_continue : char -> bool.
Hypothesis Hx : xid_ok xid_start xid_continue.
Notation spells := (spells xid_start xid_continue).
Notation std_spells := (std_spells xid_start xid_continue).
Notation std_content := (std_content xid_start xid_continue).
Notation placeholder_spelled := (placeholder_spelled xid_start xid_continue).
Notation parse_piece := (parse_piece xid_start xid_continue).

Lemma app_nil_parts (a b : str) : a ++ b = [] -> a = [] /\ b = [].
Proof. destruct a; [auto|discriminate]. Qed.

Lemma std_align_spelled fill al s :
  std_fill_align fill al s -> fill = None \/ fill = Some 32%N ->
  align_spelled (option_map as_align al) s.
Proof.
  intros [al' s' H|c a s' H] Hf.
  - destruct H; constructor.
  - destruct Hf as [Hf|Hf]; [discriminate|]. injection Hf as ->.
    change (32%N :: s') with (lit " " ++ s'). inversion H; subst; cbn [option_map as_align];
      apply al_fill; try constructor.
Qed.
Lemma std_sign_spelled sg s : std_sign sg s -> sign_spelled (option_map as_sign sg) s.
Proof. intros []; constructor. Qed.
Lemma std_type_spelled hex tr s : std_type hex tr s -> type_spelled (option_map as_hex hex) (as_trait tr) s.
Proof. intros []; constructor. Qed.
Lemma std_width_spelled w s : std_width xid_start xid_continue w s ->
  width_spelled xid_start xid_continue (as_counts w) s.
Proof.
  intros [|c s' [n s'' H|r s'' H]]; cbn; [constructor| |].
  - apply wd_some. now constructor.
  - apply wd_some. now constructor.
Qed.
Lemma std_precision_spelled p s : std_precision xid_start xid_continue p s -> p <> Some NextArg ->
  precision_spelled xid_start xid_continue (as_counts p) s.
Proof.
  intros [|c s' [n s'' H|r s'' H]|] Hn; cbn; [constructor| | |congruence].
  - apply pr_some. now constructor.
  - apply pr_some. now constructor.
Qed.

(** A readable placeholder is one of stylish's grammar. *)
Lemma readable_content p c rest :
  std_content p c rest -> readable p ->
  exists e, placeholder_spelled (as_arg p) e c /\ (e = true -> starts_with_align rest = false).
Proof.
  intros [arg fill al sg alt zero w pr hex tr s0 s1 s2 s3 s4 s5 s6 s7 colon ws r
    Ha H1 H2 H3 H4 H5 H6 H7 Hc Hw Hal Hz] (Rf & Rp & Rz & Rs).
  cbn [sph_fill sph_precision sph_zero sph_width sph_space] in *.
  destruct ws as [|w0 ws]; [|discriminate]. rewrite app_nil_r.
  unfold as_arg; cbn [sph_arg sph_align sph_sign sph_alternate sph_zero sph_width sph_precision sph_hex sph_trait].
  pose proof (std_align_spelled _ _ _ H1 Rf) as G1.
  pose proof (std_sign_spelled _ _ H2) as G2. pose proof (std_type_spelled _ _ _ H7) as G7.
  pose proof (std_width_spelled _ _ H5) as G5. pose proof (std_precision_spelled _ _ H6 Rp) as G6.
  destruct Hc as [->|[-> E]].
  - exists (is_empty (s1 ++ s2 ++ s3 ++ s4 ++ s5 ++ s6 ++ s7)). split.
    + apply ph_intro; [exact Ha|]. right. eexists. split; [|split; reflexivity].
      pose proof (spec_intro xid_start xid_continue _ _ _ _ _ _ _ _ _ _ _ _ _ _ _ _ _
                    G1 G2 H3 H4 G5 G6 st_none G7) as G.
      cbn [app] in G. apply G. intros Ez Eh. specialize (Hz Ez Eh). subst s5.
      inversion H5 as [|c5 s5 H5' E1 E2]; subst. inversion H5' as [n s' Hi|q s' Hq E1 E2]; subst.
      * destruct Hi as [Hi _]. apply decimal_value in Hi as (_ & _ & HF).
        inversion HF as [|? ? _ HF']; subst. inversion HF' as [|? ? X _]; subst. discriminate.
      * assert (s' = [48%N]) as -> by (apply (app_inj_tail s' [48%N] 36%N 36%N); exact E2).
        apply Rz. split; [reflexivity|]. do 2 f_equal.
        inversion Hq as [n s' Hi|s' Hi]; subst.
        -- destruct Hi as [Hi _]. apply decimal_value in Hi as (Hi & _ & _). cbn in Hi. now rewrite <- Hi.
        -- inversion Hi as [c6 r0 Hc6 Hr]; subst. rewrite (xs _ _ Hx) in Hc6 by reflexivity.
           destruct Hc6; discriminate.
    + intros He. destruct (s1 ++ s2 ++ s3 ++ s4 ++ s5 ++ s6 ++ s7) eqn:E; [|discriminate].
      apply app_nil_parts in E as [-> E]. apply app_nil_parts in E as [-> E].
      apply app_nil_parts in E as [-> E]. apply app_nil_parts in E as [-> E].
      apply app_nil_parts in E as [-> E]. apply app_nil_parts in E as [-> ->].
      assert (fill = None) by (inversion H1; reflexivity).
      specialize (Hal eq_refl H). cbn in Hal. destruct r; [reflexivity|exact Hal].
  - exists false. split; [|discriminate].
    apply app_nil_parts in E as [-> E]. apply app_nil_parts in E as [-> E].
    apply app_nil_parts in E as [-> E]. apply app_nil_parts in E as [-> E].
    apply app_nil_parts in E as [-> E]. apply app_nil_parts in E as [-> ->].
    cbn [app]. rewrite app_nil_r.
    replace s0 with (s0 ++ []) by apply app_nil_r. apply ph_intro; [exact Ha|]. left.
    split; [|split; reflexivity].
    inversion H1 as [al' s' Hs|]; subst. inversion Hs; inversion H2; inversion H7.
    inversion H5 as [|? ? X]; subst; [|inversion X as [? ? [Y _]|? q ?]; [apply decimal_value in Y as (_ & Y & _); congruence|destruct q; discriminate]].
    inversion H6; subst. unfold flag_spelled in *. destruct alt; [discriminate|]. destruct zero; [discriminate|].
    reflexivity.
Qed.

Lemma supported_readable p : supported (SPlace p) -> readable p.
Proof.
  intros (F & W & P & S). repeat split; auto.
  - intros E. rewrite E in P. exact P.
  - intros [_ E]. rewrite E in W. exact W.
Qed.

(** * A supported std format string is a stylish one *)
Lemma supported_spells b sps s :
  std_spells b sps s -> Forall supported sps -> spells b (map as_piece sps) s.
Proof.
  induction 1 as [b|t ps s Ht HF H IH|b ps s H IH|b ps s H IH|b p c ps s Hc H IH]; intros HS;
    cbn [map as_piece]; [constructor|..]; inversion HS as [|? ? S1 S2]; subst.
  - now apply sp_text; auto.
  - now apply sp_open; auto.
  - now apply sp_close; auto.
  - destruct (readable_content p c s Hc (supported_readable p S1)) as (e & Hp & He).
    eapply sp_arg; eauto.
Qed.

(** * Characters of stylish placeholders *)
Definition ends_solid (s : str) : Prop := s = [] \/ exists t c, s = t ++ [c] /\ white_space c = false.
Lemma ends_solid_app a b : ends_solid a -> ends_solid b -> ends_solid (a ++ b).
Proof.
  intros Ha [->|(t & c & -> & Hc)]; [now rewrite app_nil_r|].
  right. exists (a ++ t), c. split; [now rewrite app_assoc|exact Hc].
Qed.
Lemma all_solid s : Forall (fun c => white_space c = false) s -> ends_solid s.
Proof.
  intros H. destruct (snoc_cases s) as [->|(t & x & ->)]; [now left|].
  right. exists t, x. split; [reflexivity|]. apply Forall_app in H as [_ H]. now inversion H.
Qed.

Definition inner (c : char) : Prop := c <> 125%N /\ c <> 42%N.

Hypothesis Hw : xid_no_space xid_start xid_continue.

Lemma digit_solid c : is_digit c = true -> white_space c = false /\ inner c.
Proof.
  intros H. unfold is_digit in H. unfold white_space, inner.
  apply andb_prop in H as [H1 H2]. apply N.leb_le in H1, H2.
  split; [|split; intros ->; lia].
  repeat match goal with
  | |- context [(?a <=? ?b)%N] => destruct (N.leb_spec a b); try lia
  | |- context [(?a =? ?b)%N] => destruct (N.eqb_spec a b); try lia
  end; reflexivity.
Qed.
Lemma integer_solid n s : integer n s -> Forall (fun c => white_space c = false /\ inner c) s.
Proof.
  intros [H _]. apply decimal_value in H as (_ & _ & H). revert H. apply Forall_impl.
  intros c Hc. now apply digit_solid.
Qed.
Lemma ref_solid r s : arg_spelled xid_start xid_continue r s ->
  Forall (fun c => white_space c = false /\ inner c) s.
Proof.
  intros [n s' H|s' H]; [now apply integer_solid in H|].
  destruct H as [c q Hc Hq].
  assert (Hi : forall d, xid_continue d = true -> inner d).
  { intros d Hd. split; intros ->; rewrite (xc _ _ Hx) in Hd by reflexivity; discriminate. }
  assert (His : forall d, xid_start d = true -> inner d).
  { intros d Hd. split; intros ->; rewrite (xs _ _ Hx) in Hd by reflexivity; discriminate. }
  constructor.
  - destruct Hc as [Hc| ->]; [|split; [reflexivity|split; discriminate]].
    split; [|auto]. destruct (white_space c) eqn:E; [|reflexivity]. destruct (Hw c E). congruence.
  - revert Hq. apply Forall_impl. intros d Hd. split; [|auto].
    destruct (white_space d) eqn:E; [|reflexivity]. destruct (Hw d E). congruence.
Qed.
Ltac solid := repeat constructor; try discriminate.
Lemma count_solid c s : count_spelled xid_start xid_continue c s ->
  Forall (fun c => white_space c = false /\ inner c) s.
Proof.
  intros [r s' H|n s' H]; [|now apply integer_solid in H].
  apply Forall_app. split; [now apply ref_solid in H|solid].
Qed.
Lemma attr_solid a s : attr_spelled a s -> Forall (fun c => white_space c = false /\ inner c) s.
Proof. intros [c s' H|c s' H| | |]; try destruct H; solid. Qed.
Lemma attrs_solid l s : attrs_spelled l s -> Forall (fun c => white_space c = false /\ inner c) s.
Proof.
  induction 1 as [a s H|a s l t H _ IH].
  - now apply attr_solid in H.
  - apply Forall_app. split; [now apply attr_solid in H|].
    apply Forall_app. split; [solid|exact IH].
Qed.
Lemma parts_solid sg s2 alt s3 zero s4 w s5 p s6 st s7 hex tr s8 :
  sign_spelled sg s2 -> flag_spelled "#" alt s3 -> flag_spelled "0" zero s4 ->
  width_spelled xid_start xid_continue w s5 -> precision_spelled xid_start xid_continue p s6 ->
  style_spelled st s7 -> type_spelled hex tr s8 ->
  Forall (fun c => white_space c = false /\ inner c) (s2 ++ s3 ++ s4 ++ s5 ++ s6 ++ s7 ++ s8).
Proof.
  intros H2 -> -> H5 H6 H7 H8. rewrite !Forall_app. repeat apply conj.
  - destruct H2; solid.
  - destruct alt; solid.
  - destruct zero; solid.
  - destruct H5 as [|c s H]; [constructor|now apply count_solid in H].
  - destruct H6 as [|c s H]; [constructor|].
    apply Forall_app. split; [solid|now apply count_solid in H].
  - destruct H7 as [|l s H]; [constructor|]. rewrite !Forall_app.
    repeat apply conj; [solid| |solid]. now apply attrs_solid in H.
  - destruct H8; solid.
Qed.
Lemma align_solid al s : align_spelled al s -> ends_solid s /\ Forall inner s.
Proof.
  intros H. destruct al as [a|].
  - apply align_spelled_cases in H as (c & Hc & Hs).
    assert (Hi : white_space c = false /\ inner c).
    { clear Hs. unfold align_of in Hc. destruct (N.eqb_spec c 60) as [E|]; [subst; repeat split; discriminate|].
      destruct (N.eqb_spec c 94) as [E|]; [subst; repeat split; discriminate|].
      destruct (N.eqb_spec c 62) as [E|]; [subst; repeat split; discriminate|discriminate]. }
    destruct Hi as [Hi1 Hi2].
    destruct Hs as [->| ->]; split.
    + right. exists [], c. auto.
    + repeat constructor; apply Hi2.
    + right. exists [32%N], c. auto.
    + repeat constructor; try discriminate; apply Hi2.
  - inversion H; subst. split; [now left|constructor].
Qed.
Lemma both {P Q : char -> Prop} s : Forall (fun c => P c /\ Q c) s -> Forall P s /\ Forall Q s.
Proof. intros H; split; revert H; apply Forall_impl; tauto. Qed.
Lemma placeholder_solid a e p : placeholder_spelled a e p -> ends_solid p /\ Forall inner p.
Proof.
  intros [arg s1 spec emp s2 Harg Hspec].
  assert (A : ends_solid s1 /\ Forall inner s1).
  { destruct Harg as [[_ ->]|(r & _ & Hr)]; [split; [now left|constructor]|].
    apply ref_solid, both in Hr as [R1 R2]. split; [now apply all_solid|exact R2]. }
  assert (B : ends_solid s2 /\ Forall inner s2).
  { destruct Hspec as [(_ & -> & _)|(s & Hs & -> & _)]; [split; [now left|constructor]|].
    destruct Hs as [al sg alt zero w pr hex st tr t1 t2 t3 t4 t5 t6 t7 t8 H1 H2 H3 H4 H5 H6 H7 H8 _].
    destruct (both _ (parts_solid _ _ _ _ _ _ _ _ _ _ _ _ _ _ _ H2 H3 H4 H5 H6 H7 H8)) as [P1 P2].
    destruct (align_solid _ _ H1) as [A1 A2].
    split.
    - apply ends_solid_app; [right; exists [], 58%N; auto|].
      apply ends_solid_app; [exact A1|now apply all_solid].
    - apply Forall_app. split; [solid|]. apply Forall_app. split; assumption. }
  split; [apply ends_solid_app; tauto|apply Forall_app; tauto].
Qed.

(** * Characters of std placeholders *)
Lemma std_fill_inner fill al s : std_fill_align fill al s -> fill = None \/ fill = Some 32%N ->
  Forall inner s.
Proof. intros H Hf. apply (align_solid _ _ (std_align_spelled _ _ _ H Hf)). Qed.
Lemma no_close_split (a b x y : str) :
  Forall (fun c => c <> 125%N) a -> Forall (fun c => c <> 125%N) b ->
  a ++ lit "}" ++ x = b ++ lit "}" ++ y -> a = b /\ x = y.
Proof.
  revert b. induction a as [|c a IH]; intros [|d b] Ha Hb E; cbn in E.
  - injection E as ->. auto.
  - injection E as <- _. inversion Hb; congruence.
  - injection E as -> _. inversion Ha; congruence.
  - injection E as -> E. inversion Ha; inversion Hb; subst.
    destruct (IH b) as [-> ->]; auto.
Qed.

Lemma std_content_inner p c rest :
  std_content p c rest -> sph_fill p = None \/ sph_fill p = Some 32%N ->
  Forall (fun c => c <> 125%N) c.
Proof.
  intros [arg fill al sg alt zero w pr hex tr s0 s1 s2 s3 s4 s5 s6 s7 colon ws r
    Ha H1 H2 H3 H4 H5 H6 H7 Hc Hws _ _] Hf. cbn [sph_fill] in Hf.
  rewrite !Forall_app. repeat apply conj.
  - destruct Ha as [[_ ->]|(q & _ & Hq)]; [constructor|]. apply ref_solid in Hq.
    revert Hq. apply Forall_impl. intros d [_ [Hd _]]. exact Hd.
  - destruct Hc as [->|[-> _]]; solid.
  - pose proof (std_fill_inner _ _ _ H1 Hf) as Hi. revert Hi. apply Forall_impl. intros d [Hd _]. exact Hd.
  - destruct H2; solid.
  - rewrite H3. destruct alt; solid.
  - rewrite H4. destruct zero; solid.
  - apply std_width_spelled in H5. destruct H5 as [|? ? H5]; [constructor|]. apply count_solid in H5.
    revert H5. apply Forall_impl. intros d [_ [Hd _]]. exact Hd.
  - destruct H6 as [|? ? H6|]; [constructor| |solid]. apply Forall_app. split; [solid|].
    assert (G : width_spelled xid_start xid_continue (as_counts (Some c0)) s) by (apply std_width_spelled; now constructor).
    inversion G as [E1 E2|? ? G']; subst; [constructor|]. apply count_solid in G'.
    revert G'. apply Forall_impl. intros d [_ [Hd _]]. exact Hd.
  - destruct H7; solid.
  - revert Hws. apply Forall_impl. intros d Hd ->. discriminate.
Qed.

(** [0$] as a width is not read by stylish: the zero is taken as a flag. *)
Lemma zero_dollar_unread arg s0 al s1 sg s2 alt s3 rest y a :
  (arg = None /\ s0 = [] \/ exists r : arg_ref, arg = Some r /\ arg_spelled xid_start xid_continue r s0) ->
  align_spelled al s1 -> sign_spelled sg s2 -> flag_spelled "#" alt s3 ->
  parse_format_arg xid_start xid_continue (s0 ++ lit ":" ++ s1 ++ s2 ++ s3 ++ lit "0$" ++ rest)
  <> POk (lit "}" ++ y) a.
Proof.
  intros Ha H1 H2 H3 E. unfold Parse.parse_format_arg in E.
  assert (E1 : opt (parse_arg_ref xid_start xid_continue) (s0 ++ lit ":" ++ s1 ++ s2 ++ s3 ++ lit "0$" ++ rest)
     = POk (lit ":" ++ s1 ++ s2 ++ s3 ++ lit "0$" ++ rest) arg).
  { unfold opt. destruct Ha as [[-> ->]|(r & -> & Hr)].
    - change ([] ++ lit ":" ++ s1 ++ s2 ++ s3 ++ lit "0$" ++ rest)
        with (58%N :: s1 ++ s2 ++ s3 ++ lit "0$" ++ rest). now rewrite (colon_ref_err _ _ Hx).
    - rewrite (parse_arg_ref_app _ _ Hx r s0 _ Hr); [reflexivity|]. apply (colon_ends _ _ Hx). }
  unfold pbind at 1 in E. rewrite E1 in E. unfold pbind at 1, opt, preceded in E. unfold pbind at 1 in E.
  rewrite tag_app in E.
  assert (E2 : exists sp, parse_format_spec xid_start xid_continue (s1 ++ s2 ++ s3 ++ lit "0$" ++ rest)
               = POk (36%N :: rest) sp).
  { unfold Parse.parse_format_spec. unfold pbind at 1. rewrite (align_app al s1); [|exact H1|].
    2: { destruct H2; rewrite H3; destruct alt; cbn; do 2 eexists; (split; [reflexivity|]);
           (split; [reflexivity|]); intros _; reflexivity. }
    unfold pbind at 1.
    assert (E3 : exists d q, s3 ++ lit "0$" ++ rest = d :: q /\ d <> 43%N /\ d <> 45%N).
    { rewrite H3. destruct alt; cbn; do 2 eexists; (split; [reflexivity|]); split; discriminate. }
    destruct E3 as (d & q & E3 & N1 & N2). rewrite (sign_app sg s2 _ d q) by auto.
    unfold pbind at 1. rewrite (hash_app alt s3 _ 48%N (36%N :: rest)); [|exact H3|reflexivity|discriminate].
    unfold pbind at 1. change (lit "0$" ++ rest) with (lit "0" ++ 36%N :: rest).
    rewrite (zero_app true (lit "0") _ 36%N rest); [|reflexivity|reflexivity|discriminate].
    unfold pbind at 1, opt. rewrite parse_count_err by
      (try reflexivity; unfold ident_start; rewrite (xs _ _ Hx) by reflexivity; reflexivity).
    eexists. cbn. reflexivity. }
  destruct E2 as (sp & E2). rewrite E2 in E. discriminate.
Qed.

(** What the parser can read of a std placeholder is a readable one. *)
Lemma content_readable p c rest a x :
  std_content p c rest -> parse_piece (lit "{" ++ c ++ lit "}" ++ rest) = POk x a ->
  readable p /\ x = rest /\ a = Arg (as_arg p).
Proof.
  intros Hc E.
  assert (R : readable p).
  { pose proof Hc as Hc'.
    destruct Hc as [arg fill al sg alt zero w pr hex tr s0 s1 s2 s3 s4 s5 s6 s7 colon ws rest
      Ha H1 H2 H3 H4 H5 H6 H7 Hcol Hws Hal Hz].
    assert (Rf : fill = None \/ fill = Some 32%N).
    { destruct fill as [f|]; [|auto]. right. f_equal.
      destruct (N.eq_dec f 32) as [->|Hf]; [reflexivity|]. exfalso.
      destruct Hcol as [->|[_ E0]]; [|inversion H1; subst; discriminate].
      inversion H1 as [|c' a' s' Hal' E1 E2 E3]; subst.
      assert (exists k, is_align_char k = true /\ s' = [k]) as (k & Hk & ->).
      { inversion Hal'; subst; eexists; (split; [|reflexivity]); reflexivity. }
      rewrite <- !app_assoc in E. cbn [app] in E.
      rewrite (fill_piece _ _ Hx s0) in E; [discriminate| |].
      - exists f, k. eexists. split; [reflexivity|auto].
      - destruct Ha as [[_ ->]|(q & _ & Hq)]; [now left|right; eauto]. }
    cbn [sph_fill] in *.
    apply parse_piece_inv in E as [(t & -> & E & Ht & HF & _)|[(-> & E)|[(-> & E)|(a' & e & q & -> & E & Hq & _)]]].
    - exfalso. destruct t as [|c0 t]; [congruence|]. injection E as <- _. inversion HF; discriminate.
    - exfalso. cbn [app lit] in E. injection E as E.
      destruct (Ha) as [[_ ->]|(q & _ & Hq)].
      + destruct Hcol as [->|[-> E0]]; [discriminate|].
        rewrite E0 in E. cbn [app] in E. destruct ws as [|w0 ws]; [discriminate|].
        injection E as -> _. inversion Hws; discriminate.
      + destruct s0 as [|d s0].
        * inversion Hq as [n s' [Hd _]|s' Hi]; subst; [apply decimal_value in Hd as (_ & Hd & _); congruence|inversion Hi].
        * injection E as -> _. inversion Hq as [n s' [Hd _]|s' Hi]; subst.
          -- apply decimal_value in Hd as (_ & _ & Hd). inversion Hd; discriminate.
          -- inversion Hi as [? ? X _]; subst. rewrite (xs _ _ Hx) in X by reflexivity. destruct X; discriminate.
    - discriminate E.
    - apply app_inv_head in E.
      destruct (placeholder_solid _ _ _ Hq) as [Q1 Q2].
      apply no_close_split in E as [E _].
      2: { exact (std_content_inner _ _ _ Hc' Rf). }
      2: { revert Q2. apply Forall_impl. intros d [Hd _]. exact Hd. }
      subst q.
      split; [exact Rf|]. cbn [sph_precision sph_zero sph_width sph_space]. split; [|split].
      + intros ->. inversion H6 as [|? ? X|]; subst; [inversion X|].
        rewrite !Forall_app in Q2.
        destruct Q2 as (_ & _ & (_ & _ & _ & _ & _ & X & _) & _). cbn in X.
        inversion X as [|? ? _ X']; subst. inversion X' as [|? ? [_ X''] _]; subst. now apply X''.
      + intros [-> ->].
        assert (s5 = lit "0$") as ->.
        { apply Hz; [reflexivity|]. inversion H5 as [|? ? X]; subst. inversion X as [|r s' Hr]; subst.
          inversion Hr as [n s'' [Hn _]|]; subst. apply decimal_value in Hn as (Hn & Hne & HF).
          destruct s' as [|d s']; [congruence|]. cbn [app hd_error]. f_equal.
          inversion HF as [|? ? Hd HF' [E1 E2]]; subst.
          assert (G : forall l acc, fold_left (fun a c => a * 10 + (c - 48))%N l acc = 0%N -> acc = 0%N).
          { induction l as [|z l IHl]; intros acc; cbn [fold_left]; [auto|]. intros G. apply IHl in G. lia. }
          unfold dec_value in Hn. cbn [fold_left] in Hn. apply G in Hn.
          unfold is_digit in Hd. apply andb_prop in Hd as [Hd _]. apply N.leb_le in Hd. lia. }
        destruct Hcol as [->|[-> E0]].
        2: { apply app_nil_parts in E0 as [_ E0]. apply app_nil_parts in E0 as [_ E0].
             apply app_nil_parts in E0 as [_ E0]. apply app_nil_parts in E0 as [_ E0]. discriminate. }
        unfold flag_spelled in H4. subst s4.
        assert (Pe := parse_format_arg_app xid_start xid_continue Hx _ _ _ [] Hq (fun _ => eq_refl)).
        rewrite <- !app_assoc in Pe. cbn [app] in Pe.
        eapply (zero_dollar_unread arg s0 (option_map as_align al) s1 (option_map as_sign sg) s2 alt s3); [exact Ha| | |exact H3|exact Pe].
        * eapply std_align_spelled; eauto.
        * now apply std_sign_spelled.
      + destruct (snoc_cases ws) as [->|(ws' & k & ->)]; [reflexivity|]. exfalso.
        apply Forall_app in Hws as [_ Hk]. inversion Hk as [|? ? Hk' _]; subst.
        rewrite !app_assoc in Q1. destruct Q1 as [Q1|(t & d & Q1 & Hd)].
        * apply app_eq_nil in Q1 as [_ Q1]. discriminate.
        * apply app_inj_tail in Q1 as [_ ->]. congruence. }
  split; [exact R|]. destruct (readable_content p c rest Hc R) as (e & Hp & He).
  rewrite (piece_arg _ _ Hx _ _ _ _ Hp He) in E. injection E as <- <-. auto.
Qed.

(** The first piece of a stylish format string is what the parser reads first. *)
Lemma spells_first b ps s : spells b ps s -> s <> [] ->
  exists p ps' s' b', ps = p :: ps' /\ parse_piece s = POk s' p /\ spells b' ps' s' /\
    (b' = false \/ exists t, p = Lit t /\ t <> [] /\ Forall (fun c => is_brace c = false) t).
Proof.
  intros H Hs. destruct H as [b|t ps s Ht HF H|b ps s H|b ps s H|b a e p ps s Hp He H]; [congruence|..].
  - exists (Lit t), ps, s, true. split; [reflexivity|]. split; [|split; [exact H|eauto]].
    apply piece_text; auto. now apply (spells_true_stops xid_start xid_continue ps).
  - exists (Lit (lit "{")), ps, s, false. split; [reflexivity|]. split; [apply piece_open|auto].
  - exists (Lit (lit "}")), ps, s, false. split; [reflexivity|]. split; [apply piece_close|auto].
  - exists (Arg a), ps, s, false. split; [reflexivity|]. split; [|auto].
    now apply (piece_arg _ _ Hx a e).
Qed.
Lemma std_true_stops sps s : std_spells true sps s -> stops not_brace s.
Proof. intros H. inversion H; subst; try exact I; reflexivity. Qed.

Lemma content_width p c rest : std_content p c rest -> sph_width p <> Some NextArg.
Proof.
  intros H. destruct H as [arg fill al sg alt zero w pr hex tr s0 s1 s2 s3 s4 s5 s6 s7 colon ws r
    Ha H1 H2 H3 H4 H5 H6 H7 Hcol Hws Hal Hz]. cbn. intros ->. inversion H5 as [|? ? X]; subst. inversion X.
Qed.

(** If stylish reads a std format string and its counts are literals, it is supported. *)
Lemma read_supported b sps s : std_spells b sps s -> forall b' ps,
  spells b' ps s -> Forall literal_counts ps -> Forall supported sps.
Proof.
  induction 1 as [b|t sps s Ht HF H IH|b sps s H IH|b sps s H IH|b p c sps s Hc H IH];
    intros b' ps Hs HL; [constructor|..].
  - destruct (spells_first _ _ _ Hs) as (p' & ps' & s' & b1 & -> & E & H1 & _).
    { destruct t; [congruence|discriminate]. }
    rewrite piece_text in E; auto; [|now apply (std_true_stops sps)]. injection E as <- <-.
    inversion HL; subst. constructor; [exact I|eauto].
  - destruct (spells_first _ _ _ Hs) as (p' & ps' & s' & b1 & -> & E & H1 & _); [discriminate|].
    rewrite piece_open in E. injection E as <- <-. inversion HL; subst. constructor; [exact I|eauto].
  - destruct (spells_first _ _ _ Hs) as (p' & ps' & s' & b1 & -> & E & H1 & _); [discriminate|].
    rewrite piece_close in E. injection E as <- <-. inversion HL; subst. constructor; [exact I|eauto].
  - destruct (spells_first _ _ _ Hs) as (p' & ps' & s' & b1 & -> & E & H1 & _); [discriminate|].
    destruct (content_readable p c s _ _ Hc E) as ((Rf & Rp & Rz & Rs) & -> & ->).
    inversion HL as [|? ? HL1 HL']; subst. constructor; [|eauto]. destruct HL1 as [L1 L2].
    cbn in L1, L2. pose proof (content_width _ _ _ Hc) as Nw. repeat split; auto.
    + destruct (sph_width p) as [[n|r|]|]; cbn in *; auto.
    + destruct (sph_precision p) as [[n|r|]|]; cbn in *; auto.
Qed.
End Xid.
