(** C79: calls of [std::format!] keep their meaning or are rejected. *)
From Coq Require Import ZArith.
From Verif Require Import Base Style Fmt SpecStd StdCompat SString Plain Ansi Html Format Nom Parse
  Codegen ToString Macros SpecText TextFacts SpecSink StyleFacts SpecTerminal AnsiFacts SpecHtml HtmlFacts
  StdFacts StringFacts FormatFacts SpecGrammar
  ParseFacts SpecFacts GrammarFacts SpecMeaning CodegenFacts MacroFacts AttrFacts PropsString PropsFormat PropsParse PropsMacro
  StdVal SpecCall PropsCall PropsEndToEnd SpecDropIn DropInFacts.

(** * Helpers *)
Definition hex_only_debug (p : std_piece) : Prop :=
  match p with
  | SText _ => True
  | SPlace p => sph_trait p = TDebug \/ sph_hex p = None
  end.
Lemma std_spells_hex xs xc b sps s : std_spells xs xc b sps s -> Forall hex_only_debug sps.
Proof.
  induction 1 as [b|t sps s Ht HF H IH|b sps s H IH|b sps s H IH|b p c sps s Hc H IH];
    constructor; try exact I; auto.
  destruct Hc as [arg fill al sg alt zero w pr hex tr s0 s1 s2 s3 s4 s5 s6 s7 colon ws r
    Ha H1 H2 H3 H4 H5 H6 H7 Hcol Hws Hal Hz]. cbn. destruct H7; auto.
Qed.

Lemma std_trait_code p v st :
  supported (SPlace p) -> hex_only_debug (SPlace p) ->
  let f := mk_formatter st (spelled_flags (fs_args (fa_spec (as_arg p)))) in
  trait_code (as_trait (sph_trait p)) v f = through_proxy f (v_std v (sph_trait p) (std_spelled_flags p)).
Proof.
  intros (F & W & P & S) Hh f.
  assert (Efl : std_flags_of (fm_format f) (sph_hex p) = std_spelled_flags p).
  { unfold f, std_spelled_flags, std_flags_of, spelled_flags. cbn.
    destruct (sph_align p) as [[]|]; destruct (sph_sign p) as [[]|];
    destruct (sph_width p) as [[]|]; try destruct W; destruct (sph_precision p) as [[]|]; try destruct P;
    (destruct F as [-> | ->]; reflexivity). }
  rewrite <- Efl. cbn in Hh.
  assert (Hf : fa_debug_hex (fm_format f) = sph_hex p).
  { unfold f, spelled_flags. cbn. destruct (sph_hex p) as [[]|]; reflexivity. }
  destruct (sph_trait p) eqn:Et; cbn [trait_code as_trait]; unfold through_std;
    try (destruct Hh as [Hh|Hh]; [discriminate|rewrite Hh; reflexivity]).
  rewrite Hf. reflexivity.
Qed.

Lemma uses_more pos named scope n a v :
  uses pos named scope n a v -> uses (pos ++ map snd named) named scope n a v.
Proof.
  intros [v' H|i v' H|nm v' b r E H|nm H].
  - apply use_bare. rewrite nth_error_app1; [exact H|]. apply nth_error_Some. congruence.
  - apply use_index. rewrite nth_error_app1; [exact H|]. apply nth_error_Some. congruence.
  - eapply use_named; eauto.
  - now apply use_captured.
Qed.

Lemma means_std pos named scope f n sps parts :
  means pos named scope f n (map as_piece sps) parts ->
  Forall supported sps -> Forall hex_only_debug sps ->
  exists r, std_formats pos named scope n sps r /\
    match ok_outcome (in_sequence parts) with
    | Returned Ok => exists t, r = Value t /\ produces (in_sequence parts) = paint (fm_style f) t
    | Returned Err => r = Crash Panic
    | Crashed c => r = Crash c
    end.
Proof.
  revert n parts. induction sps as [|p sps IH]; intros n parts Hm HS HH.
  - inversion Hm; subst. exists (Value []). split; [constructor|]. cbn. exists []. auto.
  - inversion HS as [|? ? S1 S2]; inversion HH as [|? ? H1 H2]; subst.
    destruct p as [s|p]; cbn [map as_piece] in Hm.
    + inversion Hm as [|n1 s1 ps1 parts1 Hm1|]; subst.
      destruct (IH n parts1 Hm1 S2 H2) as (r & Hr & Ho).
      eexists. split; [apply sfm_text; exact Hr|]. cbn [in_sequence].
      rewrite ok_outcome_try, produces_try by reflexivity. unfold then_text. cbn.
      destruct (ok_outcome (in_sequence parts1)) as [[|]|c]; try (subst r; reflexivity).
      destruct Ho as (t & -> & ->). exists (s ++ t). rewrite app_nil_r. split; [reflexivity|].
      rewrite paint_app. f_equal. exact (produces_write_str f s).
    + inversion Hm as [| |n1 a1 v1 ps1 parts1 Hu Hm1]; subst.
      destruct (IH _ parts1 Hm1 S2 H2) as (r & Hr & Ho).
      eexists. split; [apply (sfm_place _ _ _ n p v1); [now apply uses_more|exact Hr]|].
      cbn [in_sequence].
      change (fs_trait (fa_spec (as_arg p))) with (as_trait (sph_trait p)).
      change (fs_style (fa_spec (as_arg p))) with (mk_diff None None None).
      pose proof (std_trait_code p v1 (override (mk_diff None None None) (fm_style f)) S1 H1) as Ht.
      cbn zeta in Ht. rewrite Ht. clear Ht.
      assert (Est : override (mk_diff None None None) (fm_style f) = fm_style f).
      { unfold override; cbn. now destruct (fm_style f). }
      rewrite Est. set (g := mk_formatter (fm_style f) _).
      set (code := v_std v1 (sph_trait p) (std_spelled_flags p)).
      unfold try_. rewrite ok_outcome_bind. unfold then_text.
      assert (Eo : ok_outcome (through_proxy g code) = std_outcome code).
      { clearbody code. clear. induction code as [r|c|s k IH]; cbn; try reflexivity. apply IH. }
      rewrite Eo.
      destruct (std_outcome code) as [[|]|c] eqn:Ec; [|reflexivity|reflexivity].
      destruct (ok_outcome (in_sequence parts1)) as [[|]|c]; [|rewrite Ho; reflexivity|rewrite Ho; reflexivity].
      destruct Ho as (t & -> & Hp). eexists. split; [reflexivity|].
      pose proof (produces_try (through_proxy g code) (in_sequence parts1)) as X.
      unfold try_ in X. rewrite (X Eo), paint_app, Hp. f_equal. exact (through_proxy_produces g code).
Qed.

Section Xid.
Variables xid_start xid_continue : char -> bool.
Hypothesis Hx : xid_ok xid_start xid_continue.

Lemma asked_same sps : asked (map as_piece sps) = std_asked sps.
Proof.
  unfold asked, std_asked. induction sps as [|p sps IH]; [reflexivity|].
  cbn [map flat_map]. rewrite IH. destruct p; reflexivity.
Qed.

Lemma std_accepted sps npos names :
  Forall supported sps -> std_accepts sps npos names ->
  ~ by_position sps npos -> ~ captures_self sps names ->
  accepted (map as_piece sps) npos names.
Proof.
  intros HS [A1 A2 A3 A4 A5] Hp Hs.
  assert (Hin : forall i, positions_asked sps i -> i < npos).
  { intros i Hi. destruct (Nat.ltb_spec i npos) as [|L]; [assumption|]. exfalso. apply Hp. exists i. auto. }
  constructor; rewrite ?asked_same.
  - destruct (bare_count (std_asked sps)) as [|k] eqn:E; [lia|].
    enough (k < npos) by lia. apply Hin. left. lia.
  - intros i Hi. enough (N.to_nat i < npos) by lia. apply Hin. right. now rewrite N2Nat.id.
  - intros n Hn. destruct (A2 n Hn) as [I|I]; [now left|].
    destruct (in_dec (list_eq_dec N.eq_dec) n names) as [I2|I2]; [now left|]. right.
    unfold keyword_name. intros K. apply I.
    destruct K as [<-|[<-|[<-|[<-|[<-|[]]]]]]; cbn [In]; auto.
    exfalso. apply Hs. split; assumption.
  - exact A3.
  - intros n Hn. apply In_nth_error in Hn as [j Hj]. destruct (A4 j n Hj) as [H|H]; [|exact H].
    specialize (Hin _ H). lia.
  - apply Forall_forall. intros q Hq. apply in_map_iff in Hq as (p & <- & Hq).
    rewrite Forall_forall in HS. specialize (HS p Hq). destruct p as [s|p]; [exact I|].
    destruct HS as (_ & W & P & _). cbn. split.
    + destruct (sph_width p) as [[]|]; cbn in *; auto.
    + destruct (sph_precision p) as [[]|]; cbn in *; auto.
Qed.

(** C79: a call of [std::format!] (format string [f], read by std as [sps], with arguments std
    accepts) that uses no fill but a space, no width or precision from an argument, no white
    space before a closing brace, no named argument by its position and does not capture [self]
    compiles as a call of stylish's macros: its arguments are evaluated once each, in order, and
    plain [format!] returns the string [std::format!] returns, or panics as it does; ansi
    [format!] returns the very same. *)
Theorem C79_same_as_std {H} (toks : list (tok (expr H))) (f : str) (pos : list (expr H))
  (named : list (str * expr H)) (sps : list std_piece) (scope : str -> value_t) (h : H) :
  spelled_call toks f pos named \/ builtin_call toks f pos named ->
  std_format_string xid_start xid_continue sps f ->
  std_accepts sps (length pos) (map fst named) ->
  Forall supported sps -> ~ by_position sps (length pos) -> ~ captures_self sps (map fst named) ->
  exists c, format_args_macro xid_start xid_continue toks = Expanded c /\
  match eval_code scope c h with
  | (h', None) => cut_short (pos ++ map snd named) h h'
  | (h', Some args) => exists pv nv r,
    evaluated (pos ++ map snd named) h h' (pv ++ nv) /\ length pv = length pos /\
    std_formats pv (combine (map fst named) nv) scope 0 sps r /\
    plain_format args = r /\ ansi_format args = r
  end.
Proof.
  intros Hcall Hsp Hacc HS Hp Hself.
  pose proof (supported_spells xid_start xid_continue Hx false sps f Hsp HS) as Hf.
  destruct (proj2 (C47_accepted _ _ Hx f pos named)) as [c Hc].
  { exists (map as_piece sps). split; [exact Hf|]. now apply std_accepted. }
  pose proof (proj1 (C54_format_args xid_start xid_continue toks) f pos named Hcall) as Hm.
  rewrite Hc in Hm.
  exists c. split; [exact Hm|].
  destruct (eval_code scope c h) as [h' [args|]] eqn:He;
    [|exact (C48_evaluated_once _ _ Hx _ _ _ _ _ _ _ _ Hc He)].
  destruct (C46_resolution _ _ Hx f (map as_piece sps) pos named c scope h h' args Hf Hc He)
    as (pv & nv & Hev & L1 & L2 & Hpart).
  destruct (Hpart formatter_new) as (parts & Hme & Ea).
  destruct (means_std _ _ _ _ _ _ _ Hme HS (std_spells_hex _ _ _ _ _ Hsp)) as (r & Hr & Ho).
  exists pv, nv, r. split; [exact Hev|]. split; [exact L1|]. split; [exact Hr|].
  rewrite plain_format_spec, ansi_format_spec, Ea.
  destruct (ok_outcome (in_sequence parts)) as [[|]|k]; [|rewrite Ho; split; reflexivity|rewrite Ho; split; reflexivity].
  destruct Ho as (t & -> & ->). cbn zeta. change (fm_style formatter_new) with style_default. split.
  - f_equal. unfold chars, paint. rewrite map_map. cbn. apply map_id.
  - f_equal. rewrite ansi_render_paint_same.
    assert (last_style style_default (paint style_default t) = style_default) as ->.
    { destruct t; [reflexivity|]. rewrite last_style_paint by discriminate. reflexivity. }
    change (esc style_default style_default) with (@nil char). apply app_nil_r.
Qed.

(** C79: every other call of [std::format!] is rejected when compiling. *)
Theorem C79_others_rejected {E} (toks : list (tok E)) (f : str) (pos : list E)
  (named : list (str * E)) (sps : list std_piece) :
  xid_no_space xid_start xid_continue ->
  spelled_call toks f pos named \/ builtin_call toks f pos named ->
  std_format_string xid_start xid_continue sps f ->
  ~ Forall supported sps \/ by_position sps (length pos) \/ captures_self sps (map fst named) ->
  format_args_macro xid_start xid_continue toks = CompileError.
Proof.
  intros Hw Hcall Hsp Hbad.
  rewrite (proj1 (C54_format_args xid_start xid_continue toks) f pos named Hcall).
  destruct (format_args_impl xid_start xid_continue f pos named) as [c|] eqn:E1; [|reflexivity].
  exfalso.
  destruct (proj1 (C47_accepted _ _ Hx f pos named) (ex_intro _ c E1)) as (ps & Hps & Hacc).
  pose proof (read_supported xid_start xid_continue Hx Hw false sps f Hsp false ps Hps (acc_counts _ _ _ Hacc)) as HS.
  pose proof (supported_spells xid_start xid_continue Hx false sps f Hsp HS) as Hf.
  assert (ps = map as_piece sps) as -> by (eapply (format_string_unique xid_start xid_continue); eassumption).
  destruct Hacc as [B1 B2 B3 _ _ _]. rewrite !asked_same in *.
  destruct Hbad as [Hb|[(i & [Hi|Hi] & L)|[Hi Hn]]].
  - exact (Hb HS).
  - lia.
  - apply B2 in Hi. lia.
  - destruct (B3 _ Hi) as [I|I]; [exact (Hn I)|]. apply I. cbn. auto.
Qed.
End Xid.
Print Assumptions C79_same_as_std.
Print Assumptions C79_others_rejected.

(** C79: the specification leaves no freedom: [std::format!] returns one thing. *)
Theorem C79_determined pos named scope n sps r r' :
  std_formats pos named scope n sps r -> std_formats pos named scope n sps r' -> r = r'.
Proof.
  intros H. revert r'. induction H as [n|n s ps r H IH|n p v ps r Hu H IH]; intros r' H'.
  - now inversion H'.
  - inversion H'; subst. f_equal. auto.
  - inversion H' as [| |n1 p1 v1 ps1 r1 Hu1 H1]; subst.
    rewrite (uses_fun _ _ _ _ _ _ _ Hu1 Hu). f_equal. auto.
Qed.
Print Assumptions C79_determined.

(** * Concrete calls *)


(** [std::format!("n={:>+5}{{", 42)]: hypotheses and result. *)
Definition ph_example : std_placeholder :=
  mk_sph None None (Some ARight) (Some SPlus) false false (Some (Literal 5)) None None TDisplay false.
Example C79_string_read :
  std_format_string ascii_start ascii_continue [SText (lit "n="); SPlace ph_example; SText (lit "{")]
    (lit "n={:>+5}{{").
Proof.
  apply (ssp_text _ _ (lit "n=")); [discriminate|repeat constructor|].
  apply (ssp_place _ _ true ph_example (lit ":>+5") _ (lit "{{")).
  - apply (scn_intro _ _ None None (Some ARight) (Some SPlus) false false (Some (Literal 5)) None None TDisplay
             [] (lit ">") (lit "+") [] [] (lit "5") [] [] (lit ":") [] (lit "{{")); auto; try reflexivity.
    + constructor. constructor.
    + constructor.
    + constructor. constructor. split; [|reflexivity]. apply (dec_one 53%N). reflexivity.
    + constructor.
    + constructor.
    + discriminate.
  - apply (ssp_open _ _ false [] []). constructor.
Qed.
Example C79_arguments_accepted : std_accepts [SText (lit "n="); SPlace ph_example; SText (lit "{")] 1 [].
Proof.
  constructor.
  - intros i [Hi|Hi]; cbn in *; [lia|]. destruct Hi as [Hi|[]]. discriminate.
  - intros n [Hn|[]]. discriminate.
  - intros [|i] Hi; [left; cbn; lia|lia].
  - intros [|j] n Hn; discriminate.
  - constructor.
Qed.
Example C79_std_result (v : value_t) :
  v_std v TDisplay = int_decimal 42%Z ->
  std_formats [v] [] no_scope 0 [SText (lit "n="); SPlace ph_example; SText (lit "{")] (Value (lit "n=  +42{")).
Proof.
  intros Hv.
  assert (E : Value (lit "n=  +42{") =
    then_text (SEmit (lit "n=") SRet) (then_text (v_std v TDisplay (std_spelled_flags ph_example))
      (then_text (SEmit (lit "{") SRet) (Value [])))) by (rewrite Hv; vm_compute; reflexivity).
  rewrite E. apply sfm_text. apply (sfm_place [v] [] no_scope 0 ph_example v).
  - now apply use_bare.
  - apply sfm_text. constructor.
Qed.

(** Calls std accepts and stylish rejects: [{:*<5}], [{:.*}], [{: }], [{:0$}], [{self}], a named
    argument used by position, as computed by the model; and what replaces them. *)
Example C79_rejections :
  let m f (n : nat) names := format_args_impl ascii_start ascii_continue f (repeat tt n)
                               (map (fun x => (x, tt)) names) in
  m (lit "{:*<5}") 1 [] = CompileError /\ m (lit "{:.*}") 2 [] = CompileError /\ m (lit "{: }") 1 [] = CompileError /\
  m (lit "{:0$}") 1 [] = CompileError /\ m (lit "{self}") 0 [] = CompileError /\
  m (lit "{} {}") 1 [lit "a"] = CompileError /\
  (exists c, m (lit "{:<5}") 1 [] = Expanded c) /\ (exists c, m (lit "{this}") 0 [] = Expanded c) /\
  (exists c, m (lit "{} {a}") 1 [lit "a"] = Expanded c).
Proof. cbn zeta. repeat apply conj; try (vm_compute; reflexivity); eexists; vm_compute; reflexivity. Qed.

(** [{self}] and [{}] with a named argument are among the calls std accepts. *)
Example C79_rejected_accepted :
  let self_ := SPlace (mk_sph (Some (Named (lit "self"))) None None None false false None None None TDisplay false) in
  let bare := SPlace (mk_sph None None None None false false None None None TDisplay false) in
  std_format_string ascii_start ascii_continue [self_] (lit "{self}") /\
  std_accepts [self_] 0 [] /\ captures_self [self_] [] /\
  std_format_string ascii_start ascii_continue [bare] (lit "{}") /\
  std_accepts [bare] 0 [lit "a"] /\ by_position [bare] 0.
Proof.
  cbn zeta. repeat apply conj.
  - apply (ssp_place _ _ false _ (lit "self") [] []); [|constructor].
    apply (scn_intro _ _ (Some (Named (lit "self"))) None None None false false None None None TDisplay
             (lit "self") [] [] [] [] [] [] [] [] [] []); try reflexivity; try (repeat constructor; fail).
    + right. eexists. split; [reflexivity|]. repeat constructor.
    + discriminate.
  - constructor.
    + intros i [Hi|Hi]; cbn in *; [lia|]. destruct Hi as [Hi|[]]. discriminate.
    + intros n [Hn|[]]. injection Hn as <-. right. cbn. intros K.
      repeat (destruct K as [K|K]; [discriminate|]). exact K.
    + intros i Hi. lia.
    + intros [|j] n Hn; discriminate.
    + constructor.
  - left. reflexivity.
  - intros [].
  - apply (ssp_place _ _ false _ [] [] []); [|constructor].
    apply (scn_intro _ _ None None None None false false None None None TDisplay
             [] [] [] [] [] [] [] [] [] [] []); try reflexivity; try (repeat constructor; fail).
    discriminate.
  - constructor.
    + intros i [Hi|Hi]; cbn in *; [lia|]. destruct Hi as [Hi|[]]. discriminate.
    + intros n [Hn|[]]. discriminate.
    + intros i Hi. lia.
    + intros [|j] n Hn; [left; left; cbn; lia|]. destruct j; discriminate.
    + repeat constructor. intros [].
  - exists 0. split; [left; cbn; lia|lia].
Qed.

(** The identifier tables of the examples have no white space. *)
Example ascii_no_space : xid_no_space ascii_start ascii_continue.
Proof.
  intros c. unfold white_space, ascii_start, ascii_continue, ascii_letter, ascii_digit.
  repeat match goal with
  | |- context [(?a <=? ?b)%N] => destruct (N.leb_spec a b); try lia
  | |- context [(?a =? ?b)%N] => destruct (N.eqb_spec a b); try lia
  end; cbn; intros; try discriminate; split; reflexivity.
Qed.
