(** Proofs about macros/src/lib.rs and macros/src/to_tokens.rs. *)
From Verif Require Import Base Style Fmt SpecStd StdCompat Nom Parse Codegen SpecText TextFacts
  StyleFacts StdFacts SpecGrammar ParseFacts SpecFacts GrammarFacts SpecMeaning.

(** * Pieces as the parser makes them *)

(** A literal is brace-free text or one brace. *)
Definition plain_lit (s : str) : Prop :=
  Forall (fun c => is_brace c = false) s \/ s = lit "{" \/ s = lit "}".
(** A style the token generator knows. *)
Definition known_style (d : style_diff) : Prop := style_diff_tokens d = Some d.
Definition good_piece (p : piece) : Prop :=
  match p with Lit s => plain_lit s | Arg a => known_style (fs_style (fa_spec a)) end.

Lemma replace2_plain s : plain_lit s -> replace2 123%N 123%N 123%N s = s.
Proof.
  intros [H|[-> | ->]]; [|reflexivity..].
  induction H as [|x s Hx Hs IH]; [reflexivity|].
  destruct s as [|y r]; [reflexivity|].
  change (replace2 123%N 123%N 123%N (x :: y :: r))
    with (if (N.eqb x 123 && N.eqb y 123)%bool then 123%N :: replace2 123%N 123%N 123%N r
          else x :: replace2 123%N 123%N 123%N (y :: r)).
  rewrite IH. unfold is_brace in Hx. destruct (N.eqb x 123); [discriminate|reflexivity].
Qed.

Definition named_color (c : color) : Prop := color_tokens c = Some c.

Lemma color_name_known c s : color_name c s -> named_color c.
Proof. intros []; reflexivity. Qed.

Lemma attrs_known l s : attrs_spelled l s ->
  Forall (fun a => match a with AFg c | ABg c => named_color c | AIntensity _ => True end) l.
Proof.
  assert (H1 : forall a s, attr_spelled a s ->
    match a with AFg c | ABg c => named_color c | AIntensity _ => True end).
  { intros a t []; auto; eapply color_name_known; eassumption. }
  induction 1 as [a s H|a s l t H _ IH]; constructor; try (eapply H1; eassumption); [constructor|exact IH].
Qed.

Lemma last_known (sel : attribute -> option color) l acc :
  (forall a c, sel a = Some c -> a = AFg c \/ a = ABg c) ->
  Forall (fun a => match a with AFg c | ABg c => named_color c | AIntensity _ => True end) l ->
  (forall c, acc = Some c -> named_color c) ->
  forall c, fold_left (fun acc a => match sel a with Some c => Some c | None => acc end) l acc = Some c ->
  named_color c.
Proof.
  intros Hsel H. revert acc. induction H as [|a l Ha Hl IH]; intros acc Hacc c; cbn; [apply Hacc|].
  apply IH. intros c' Hc'. destruct (sel a) as [c2|] eqn:E; [|now apply Hacc].
  injection Hc' as ->. apply Hsel in E as [-> | ->]; exact Ha.
Qed.

Lemma last_fg_eq l : last_fg l
  = fold_left (fun acc a => match (match a with AFg c => Some c | _ => None end) with
                            | Some c => Some c | None => acc end) l None.
Proof.
  unfold last_fg.
  assert (X : forall acc : option color,
    fold_left (fun acc a => match a with AFg c => Some c | _ => acc end) l acc
    = fold_left (fun acc a => match (match a with AFg c => Some c | _ => None end) with
                              | Some c => Some c | None => acc end) l acc); [|apply X].
  induction l as [|[c|c|i] l IH]; intros acc; cbn; auto.
Qed.
Lemma last_bg_eq l : last_bg l
  = fold_left (fun acc a => match (match a with ABg c => Some c | _ => None end) with
                            | Some c => Some c | None => acc end) l None.
Proof.
  unfold last_bg.
  assert (X : forall acc : option color,
    fold_left (fun acc a => match a with ABg c => Some c | _ => acc end) l acc
    = fold_left (fun acc a => match (match a with ABg c => Some c | _ => None end) with
                              | Some c => Some c | None => acc end) l acc); [|apply X].
  induction l as [|[c|c|i] l IH]; intros acc; cbn; auto.
Qed.

Lemma tokens_known f b i :
  (forall c, f = Some c -> named_color c) -> (forall c, b = Some c -> named_color c) ->
  known_style (mk_diff f b i).
Proof.
  intros Hf Hb. unfold known_style, style_diff_tokens. cbn [d_foreground d_background d_intensity].
  assert (Hi : forall i, intensity_tokens i = Some i) by (intros []; reflexivity).
  destruct f as [cf|], b as [cb|], i as [i|]; rewrite ?Hi; cbn;
    try rewrite (Hf _ eq_refl); cbn; try rewrite (Hb _ eq_refl); reflexivity.
Qed.

Lemma style_known d s : style_spelled d s -> known_style d.
Proof.
  intros [|l t H]; [reflexivity|]. apply attrs_known in H. unfold kept_settings.
  apply tokens_known; intros c Hc.
  - assert (E : last_fg l = Some c) by (destruct (last_fg l) as [[]|]; cbn in Hc; congruence).
    rewrite last_fg_eq in E. revert E. apply last_known; auto; [|discriminate].
    intros [] ?; intros [= ->]; auto.
  - assert (E : last_bg l = Some c) by (destruct (last_bg l) as [[]|]; cbn in Hc; congruence).
    rewrite last_bg_eq in E. revert E. apply last_known; auto; [|discriminate].
    intros [] ?; intros [= ->]; auto.
Qed.

Section Xid.
Variable xid_start xid_continue : char -> bool.

Lemma spells_good b ps s : spells xid_start xid_continue b ps s -> Forall good_piece ps.
Proof.
  induction 1 as [|t ps s _ Ht _ IH|b ps s _ IH|b ps s _ IH|b a e p ps s Hp _ _ IH];
    constructor; cbn; auto.
  - now left.
  - right; auto.
  - right; auto.
  - destruct Hp as [arg s1 spec e s2 _ [(-> & _)|(t & Hs & _)]]; [reflexivity|].
    destruct Hs as [al sg alt zero w p hex st tr t1 t2 t3 t4 t5 t6 t7 t8 _ _ _ _ _ _ Hst _ _].
    now apply style_known in Hst.
Qed.
End Xid.

(** * Named arguments *)
Lemma named_index_from_none i names n : named_index_from i names n = None <-> ~ In n names.
Proof.
  revert i; induction names as [|m names IH]; intros i; cbn; [tauto|].
  specialize (IH (S i)).
  destruct (named_index_from (S i) names n) as [j|].
  - split; [discriminate|]. intros H. exfalso. assert (X : ~ In n names) by tauto.
    apply IH in X. discriminate.
  - destruct (str_eqb_spec m n); split; try discriminate; intuition congruence.
Qed.

Lemma named_index_from_some i names n j :
  named_index_from i names n = Some j ->
  exists before after, names = before ++ n :: after /\ ~ In n after /\ j = i + length before.
Proof.
  revert i j; induction names as [|m names IH]; intros i j; cbn; [discriminate|].
  destruct (named_index_from (S i) names n) as [j'|] eqn:E.
  - intros [= <-]. apply IH in E as (b & a & -> & Hn & ->). exists (m :: b), a. cbn.
    split; [reflexivity|]. split; [exact Hn|lia].
  - destruct (str_eqb_spec m n) as [->|Hne]; [|discriminate]. intros [= <-].
    exists [], names. split; [reflexivity|]. split; [|cbn; lia].
    now apply named_index_from_none in E.
Qed.

Lemma named_index_some names n j : named_index names n = Some j ->
  exists before after, names = before ++ n :: after /\ ~ In n after /\ j = length before.
Proof. intros H. apply named_index_from_some in H. exact H. Qed.
Lemma named_index_none names n : named_index names n = None <-> ~ In n names.
Proof. apply named_index_from_none. Qed.

(** * Counts and flags *)
Lemma fargs_tokens_spec a :
  fargs_tokens a =
  match pa_width a, pa_precision a with
  | Some (CParam _), _ | _, Some (CParam _) => None
  | _, _ => Some (spelled_flags a)
  end.
Proof.
  destruct a as [al sg alt z w p h]. unfold fargs_tokens, spelled_flags. cbn.
  destruct w as [[r|w]|], p as [[r'|p]|]; cbn; try reflexivity;
    destruct al as [[| |]|], sg as [[|]|], h as [[|]|]; reflexivity.
Qed.

Lemma fargs_tokens_some a a' : fargs_tokens a = Some a' ->
  a' = spelled_flags a /\ literal_count (pa_width a) /\ literal_count (pa_precision a).
Proof.
  rewrite fargs_tokens_spec.
  destruct (pa_width a) as [[?|?]|], (pa_precision a) as [[?|?]|]; try discriminate;
    intros [= <-]; cbn; auto.
Qed.

Lemma fargs_tokens_literal a : literal_count (pa_width a) -> literal_count (pa_precision a) ->
  fargs_tokens a = Some (spelled_flags a).
Proof.
  rewrite fargs_tokens_spec.
  destruct (pa_width a) as [[?|?]|], (pa_precision a) as [[?|?]|]; cbn; tauto.
Qed.

Lemma cannot_be_raw_spec n : cannot_be_raw n = true <-> keyword_name n.
Proof.
  unfold cannot_be_raw, keyword_name. rewrite existsb_exists. split.
  - intros (x & Hin & E). destruct (str_eqb_spec n x); [now subst|discriminate].
  - intros H. exists n. split; [exact H|]. destruct (str_eqb_spec n n); congruence.
Qed.

(** * The iteration over the pieces: what it accepts *)
Section Gen.
Variables (np : nat) (names : list str).


Record fits (next : nat) (ps : list piece) : Prop := mk_fits {
  fit_bare : next + bare_count (asked ps) <= np;
  fit_index : forall i, In (Some (Positional i)) (asked ps) -> (i < N.of_nat np)%N;
  fit_captured : forall n, In (Some (Named n)) (asked ps) -> In n names \/ ~ keyword_name n;
  fit_counts : Forall literal_counts ps
}.

Record used_after (g : gen_state) (ps : list piece) (g' : gen_state) : Prop := mk_used {
  us_next : g_next g' = g_next g + bare_count (asked ps);
  us_pos : forall i, In i (g_used_pos g') <->
    In i (g_used_pos g) \/ g_next g <= i < g_next g + bare_count (asked ps) \/
    In (Some (Positional (N.of_nat i))) (asked ps);
  us_named : forall n, In n (g_used_named g') <->
    In n (g_used_named g) \/ In n names /\ In (Some (Named n)) (asked ps);
  us_implicit : exists l, g_implicit g' = g_implicit g ++ l
}.


(** One placeholder. *)
Lemma gen_place_used arg g g' pl spec :
  gen_place np names arg g = Some (g', pl) -> used_after g [Arg (mk_farg arg spec)] g'.
Proof.
  destruct g as [nx up un im]. unfold gen_place. cbn [g_next g_used_pos g_used_named g_implicit].
  destruct arg as [[i|n]|].
  - destruct (N.leb_spec (N.of_nat np) i); [discriminate|]. intros [= <- <-].
    constructor; cbn; [lia| |intros m; intuition discriminate|exists []; now rewrite app_nil_r].
    intros j. split.
    + intros [<-|Hj]; [|tauto]. right; right. left. now rewrite N2Nat.id.
    + intros [Hj|[Hj|[Hj|[]]]]; [tauto|lia|]. injection Hj as ->. left. now rewrite Nat2N.id.
  - destruct (named_index names n) as [j|] eqn:E.
    + intros [= <- <-]. assert (Hin : In n names)
        by (apply named_index_some in E as (b & a & Eq & _); rewrite Eq; apply in_or_app; right; now left).
      constructor; cbn; [lia| | |exists []; now rewrite app_nil_r].
      * intros i. split; [tauto|]. intros [Hi|[Hi|[Hi|[]]]]; [tauto|lia|discriminate].
      * intros m. split.
        -- intros [<-|Hm]; [|tauto]. right. split; [exact Hin|now left].
        -- intros [Hm|[_ [Hm|[]]]]; [tauto|]. injection Hm as ->. now left.
    + destruct (cannot_be_raw n); [discriminate|]. intros [= <- <-].
      apply named_index_none in E. constructor; cbn; [lia| | |exists [n]; reflexivity].
      * intros i. split; [tauto|]. intros [Hi|[Hi|[Hi|[]]]]; [tauto|lia|discriminate].
      * intros m. split; [tauto|]. intros [Hm|[Hm [Hm'|[]]]]; [tauto|]. injection Hm' as ->. tauto.
  - destruct (Nat.ltb_spec nx np); [|discriminate]. intros [= <- <-].
    constructor; cbn; [lia| | |exists []; now rewrite app_nil_r].
    + intros i. split.
      * intros [<-|Hi]; [right; left; lia|tauto].
      * intros [Hi|[Hi|[Hi|[]]]]; [tauto|left; lia|discriminate].
    + intros m. split; [tauto|]. intros [Hm|[_ [Hm|[]]]]; [tauto|discriminate].
Qed.

Definition place_fits (arg : option arg_ref) (next : nat) : Prop :=
  match arg with
  | None => next < np
  | Some (Positional i) => (i < N.of_nat np)%N
  | Some (Named n) => In n names \/ ~ keyword_name n
  end.

Lemma gen_place_iff arg g :
  (exists r, gen_place np names arg g = Some r) <-> place_fits arg (g_next g).
Proof.
  unfold gen_place, place_fits. destruct arg as [[i|n]|].
  - destruct (N.leb_spec (N.of_nat np) i); split; try (intros [? [=]]); eauto; lia.
  - destruct (named_index names n) as [j|] eqn:E.
    + split; eauto. intros _. left. apply named_index_some in E as (b & a & Eq & _).
      rewrite Eq. apply in_or_app; right; now left.
    + apply named_index_none in E. destruct (cannot_be_raw n) eqn:Er.
      * split; [intros [? [=]]|]. apply cannot_be_raw_spec in Er. tauto.
      * split; [|eauto]. intros _. right. rewrite <- cannot_be_raw_spec, Er. discriminate.
  - destruct (Nat.ltb_spec (g_next g) np); split; try (intros [? [=]]); eauto; lia.
Qed.

Lemma gen_pieces_iff ps g :
  g_next g <= np -> Forall good_piece ps ->
  (exists r, gen_pieces np names ps g = Some r) <-> fits (g_next g) ps.
Proof.
  intros Hle Hg. revert g Hle. induction Hg as [|p ps Hp Hps IH]; intros g Hle.
  - split.
    + intros _. constructor; cbn; [lia|tauto|tauto|constructor].
    + intros _. cbn. eauto.
  - cbn [gen_pieces]. destruct p as [s|[arg [fargs st tr]]]; cbn [gen_piece].
    + specialize (IH g Hle).
      assert (X : fits (g_next g) (Lit s :: ps) <-> fits (g_next g) ps).
      { split; intros [H1 H2 H3 H4]; constructor; cbn in *; auto.
        - inversion H4; auto.
        - constructor; [exact I|auto]. }
      rewrite X, <- IH. destruct (gen_pieces np names ps g) as [[g'' ss]|]; split;
        try (intros [? [=]]); eauto.
    + cbn in Hp.
      pose proof (gen_place_iff arg g) as Hpl.
      destruct (gen_place np names arg g) as [[g' pl]|] eqn:Epl.
      2:{ split; [intros [? [=]]|]. intros [H1 H2 H3 H4]. exfalso.
          assert (X : place_fits arg (g_next g)).
          { destruct arg as [[i|n]|]; cbn in *.
            - apply H2; auto.
            - apply H3; auto.
            - lia. }
          apply Hpl in X as [? [=]]. }
      assert (Hfit : place_fits arg (g_next g)) by (apply Hpl; eauto). clear Hpl.
      pose proof (gen_place_used _ _ _ _ (mk_spec fargs st tr) Epl) as [Hn _ _ _].
      unfold known_style in Hp. rewrite Hp.
      destruct (fargs_tokens fargs) as [fa|] eqn:Ef.
      2:{ split; [intros [? [=]]|]. intros [_ _ _ H4]. exfalso.
          inversion H4 as [|x l Hx Hl]; subst. cbn in Hx. destruct Hx as [Hw Hpr].
          rewrite fargs_tokens_literal in Ef by assumption. discriminate. }
      apply fargs_tokens_some in Ef as (_ & Hw & Hpr).
      assert (Hle' : g_next g' <= np).
      { rewrite Hn. cbn. destruct arg as [[i|n]|]; cbn in *; lia. }
      specialize (IH g' Hle').
      assert (X : fits (g_next g) (Arg (mk_farg arg (mk_spec fargs st tr)) :: ps) <-> fits (g_next g') ps).
      { rewrite Hn.
        assert (EQ : asked (Arg (mk_farg arg (mk_spec fargs st tr)) :: ps) = arg :: asked ps)
          by reflexivity.
        assert (EQ1 : asked [Arg (mk_farg arg (mk_spec fargs st tr))] = [arg]) by reflexivity.
        rewrite EQ1. clear - EQ Hfit Hw Hpr. split.
        - intros [H1 H2 H3 H4]. rewrite EQ in *. constructor.
          + destruct arg as [[i|n]|]; cbn [bare_count] in *; lia.
          + intros i Hi. apply H2. now right.
          + intros n Hi. apply H3. now right.
          + inversion H4; auto.
        - intros [H1 H2 H3 H4]. constructor; rewrite ?EQ.
          + destruct arg as [[i|n]|]; cbn [bare_count] in *; lia.
          + intros i [Hi|Hi]; [|now apply H2]. subst arg. exact Hfit.
          + intros n [Hi|Hi]; [|now apply H3]. subst arg. exact Hfit.
          + constructor; [cbn; auto|auto]. }
      rewrite X, <- IH. destruct (gen_pieces np names ps g') as [[g'' ss]|]; split;
        try (intros [? [=]]); eauto.
Qed.

Lemma gen_pieces_used ps g g' ss :
  gen_pieces np names ps g = Some (g', ss) -> used_after g ps g'.
Proof.
  revert g ss; induction ps as [|p ps IH]; intros g ss; cbn [gen_pieces].
  - intros [= <- <-]. constructor; cbn; [lia| |tauto|exists []; now rewrite app_nil_r].
    intros i. split; [tauto|]. intros [H|[H|[]]]; [tauto|lia].
  - destruct (gen_piece np names p g) as [[g1 s1]|] eqn:E1; [|discriminate].
    destruct (gen_pieces np names ps g1) as [[g2 ss']|] eqn:E2; [|discriminate].
    intros [= <- <-]. apply IH in E2.
    destruct p as [s|[arg [fargs st tr]]]; cbn [gen_piece] in E1.
    + injection E1 as <- <-. destruct E2; now constructor.
    + destruct (gen_place np names arg g) as [[gx pl]|] eqn:Epl; [|discriminate].
      destruct (fargs_tokens fargs), (style_diff_tokens st); try discriminate.
      injection E1 as -> _.
      apply gen_place_used with (spec := mk_spec fargs st tr) in Epl.
      destruct Epl as [A1 A2 A3 [l1 A4]], E2 as [B1 B2 B3 [l2 B4]].
      assert (EQ : asked (Arg (mk_farg arg (mk_spec fargs st tr)) :: ps) = arg :: asked ps) by reflexivity.
      assert (EQ1 : asked [Arg (mk_farg arg (mk_spec fargs st tr))] = [arg]) by reflexivity.
      rewrite EQ1 in A1, A2, A3.
      assert (Hb : bare_count (arg :: asked ps) = bare_count [arg] + bare_count (asked ps))
        by (destruct arg; reflexivity).
      constructor.
      * rewrite EQ, Hb, B1, A1. lia.
      * intros i. rewrite EQ, Hb, B2, A1, A2. cbn [In]. intuition lia.
      * intros n. rewrite EQ, B3, A3. cbn [In]. tauto.
      * exists (l1 ++ l2). now rewrite B4, A4, app_assoc.
Qed.

Lemma all_used_spec g : all_used np names g = true <->
  (forall i, i < np -> In i (g_used_pos g)) /\ (forall n, In n names -> In n (g_used_named g)).
Proof.
  unfold all_used. rewrite andb_true_iff, !forallb_forall. split; intros [H1 H2]; split.
  - intros i Hi. specialize (H1 i). rewrite in_seq in H1. specialize (H1 ltac:(lia)).
    apply existsb_exists in H1 as (j & Hj & E). apply Nat.eqb_eq in E. now subst.
  - intros n Hn. specialize (H2 n Hn). apply existsb_exists in H2 as (m & Hm & E).
    destruct (str_eqb_spec n m); [now subst|discriminate].
  - intros i Hi. apply in_seq in Hi. apply existsb_exists. exists i. split; [apply H1; lia|].
    apply Nat.eqb_refl.
  - intros n Hn. apply existsb_exists. exists n. split; [now apply H2|].
    destruct (str_eqb_spec n n); congruence.
Qed.
End Gen.

Lemma generate_iff {E} ps (pos : list E) (named : list (str * E)) :
  Forall good_piece ps ->
  (exists c, generate ps pos named = Expanded c) <->
  accepted ps (length pos) (map fst named).
Proof.
  intros Hg. unfold generate.
  pose proof (gen_pieces_iff (length pos) (map fst named) ps gen_init (Nat.le_0_l _) Hg) as Hi.
  destruct (gen_pieces (length pos) (map fst named) ps gen_init) as [[g ss]|] eqn:Eg.
  - destruct (proj1 Hi ltac:(eauto)) as [H1 H2 H3 H4]. cbn in H1. clear Hi.
    apply gen_pieces_used in Eg as [_ Hp Hn _]. cbn in Hp, Hn.
    pose proof (all_used_spec (length pos) (map fst named) g) as Hu.
    destruct (all_used (length pos) (map fst named) g).
    + split; [|eauto]. intros _. destruct (proj1 Hu eq_refl) as [U1 U2]. constructor; auto.
      * intros i Hi. specialize (U1 i Hi). apply Hp in U1. intuition lia.
      * intros n Hi. specialize (U2 n Hi). apply Hn in U2. tauto.
    + split; [intros [? [=]]|]. intros [_ _ _ A4 A5 _].
      assert (X : false = true); [|discriminate]. apply Hu. split.
      * intros i Hi. apply Hp. destruct (A4 i Hi); [right; left; lia|tauto].
      * intros n Hi. apply Hn. right. split; auto.
  - split; [intros [? [=]]|]. intros [A1 A2 A3 A4 A5 A6].
    assert (X : exists r : gen_state * list stmt, None = Some r); [|destruct X as [? [=]]].
    apply Hi. constructor; auto.
Qed.

(** * Running the generated code *)
Section Run.
Variables (pos : list value_t) (named : list (str * value_t)) (scope : str -> value_t).

Lemma wrapped_trait tr v f : wrapped_display (wrap_tokens tr) v f = trait_code tr v f.
Proof.
  destruct tr; cbn [wrap_tokens wrapped_display trait_code]; unfold through_std;
    [exact (display_other (v_std v TDisplay) f) | exact (display_debug (v_std v TDebug) f)
    | exact (display_other (v_std v TOctal) f) | exact (display_other (v_std v TLowerHex) f)
    | exact (display_other (v_std v TUpperHex) f) | exact (display_other (v_std v TPointer) f)
    | exact (display_other (v_std v TBinary) f) | exact (display_other (v_std v TLowerExp) f)
    | exact (display_other (v_std v TUpperExp) f) | exact eq_refl].
Qed.

Lemma with_args_override f fa st :
  formatter_with_args Restyle_StyleDiff f fa st = mk_formatter (override st (fm_style f)) fa.
Proof.
  unfold formatter_with_args. f_equal.
  destruct st as [[|] [|] [|]], (fm_style f); reflexivity.
Qed.

Lemma gen_place_uses arg g g' pl imps :
  gen_place (length pos) (map fst named) arg g = Some (g', pl) ->
  (exists l, imps = g_implicit g' ++ l) ->
  exists v, place_value (mk_tuples pos (map snd named) (map scope imps)) pl = Some v /\
            uses pos named scope (g_next g) arg v.
Proof.
  intros H [l Hl]. unfold gen_place in H. destruct arg as [[i|n]|].
  - destruct (N.leb_spec (N.of_nat (length pos)) i) as [|Hlt]; [discriminate|]. injection H as <- <-.
    cbn. destruct (nth_error pos (N.to_nat i)) as [v|] eqn:E.
    + exists v. split; [reflexivity|now constructor].
    + apply nth_error_None in E. lia.
  - destruct (named_index (map fst named) n) as [j|] eqn:E.
    + injection H as <- <-. apply named_index_some in E as (b & a & E & Hn & ->).
      assert (X : exists b' v a', named = b' ++ (n, v) :: a' /\ length b' = length b /\ map fst a' = a).
      { clear Hn Hl. revert b E. induction named as [|[m v] nm IH]; intros [|x b]; cbn; try discriminate.
        - intros [= -> <-]. exists [], v, nm. auto.
        - intros [= -> E]. apply IH in E as (b' & v' & a' & -> & Hb & Ha).
          exists ((x, v) :: b'), v', a'. cbn. auto. }
      destruct X as (b' & v & a' & -> & Hb & <-). exists v. split.
      * cbn. rewrite <- Hb, map_app. cbn. rewrite nth_error_app2, map_length, Nat.sub_diag; [reflexivity|].
        now rewrite map_length.
      * now apply use_named with b' a'.
    + destruct (cannot_be_raw n); [discriminate|]. injection H as <- <-.
      apply named_index_none in E. exists (scope n). split; [|now constructor].
      subst imps. cbn. rewrite !map_app. cbn.
      rewrite nth_error_app1 by (rewrite app_length, map_length; cbn; lia).
      rewrite nth_error_app2, map_length, Nat.sub_diag; [reflexivity|]. now rewrite map_length.
  - destruct (Nat.ltb_spec (g_next g) (length pos)) as [Hlt|]; [|discriminate]. injection H as <- <-.
    cbn. destruct (nth_error pos (g_next g)) as [v|] eqn:E.
    + exists v. split; [reflexivity|now constructor].
    + apply nth_error_None in E. lia.
Qed.

Lemma gen_pieces_means ps g g' ss imps f :
  Forall good_piece ps ->
  gen_pieces (length pos) (map fst named) ps g = Some (g', ss) ->
  (exists l, imps = g_implicit g' ++ l) ->
  exists parts, means pos named scope f (g_next g) ps parts /\
    exec_stmts (mk_tuples pos (map snd named) (map scope imps)) ss f = in_sequence parts.
Proof.
  intros Hg. revert g ss. induction Hg as [|p ps Hp Hps IH]; intros g ss; cbn [gen_pieces].
  - intros [= <- <-] _. exists []. split; [constructor|reflexivity].
  - destruct (gen_piece (length pos) (map fst named) p g) as [[g1 s1]|] eqn:E1; [|discriminate].
    destruct (gen_pieces (length pos) (map fst named) ps g1) as [[g2 ss']|] eqn:E2; [|discriminate].
    intros [= <- <-] Himp.
    destruct (IH _ _ E2 Himp) as (parts & Hm & Hex).
    destruct p as [s|[arg [fargs st tr]]]; cbn [gen_piece] in E1.
    + injection E1 as <- <-. exists (formatter_write_str f s :: parts). split; [now constructor|].
      cbn [exec_stmts in_sequence]. rewrite replace2_plain, Hex by exact Hp. reflexivity.
    + destruct (gen_place (length pos) (map fst named) arg g) as [[gx pl]|] eqn:Epl; [|discriminate].
      destruct (fargs_tokens fargs) as [fa|] eqn:Ef; [|discriminate].
      cbn in Hp. unfold known_style in Hp. rewrite Hp in E1. injection E1 as -> <-.
      apply fargs_tokens_some in Ef as (-> & _ & _).
      assert (Himp1 : exists l, imps = g_implicit g1 ++ l).
      { apply gen_pieces_used in E2 as [_ _ _ [l2 Hl2]]. destruct Himp as [l ->].
        exists (l2 ++ l). now rewrite Hl2, app_assoc. }
      destruct (gen_place_uses _ _ _ _ _ Epl Himp1) as (v & Hv & Hu).
      apply gen_place_used with (spec := mk_spec fargs st tr) in Epl as [Hn _ _ _].
      exists (trait_code tr v (mk_formatter (override st (fm_style f)) (spelled_flags fargs)) :: parts).
      split.
      * apply (me_arg pos named scope f (g_next g) (mk_farg arg (mk_spec fargs st tr)) v ps parts Hu).
        cbn [fa_arg]. rewrite Hn in Hm. cbn in Hm.
        destruct arg; cbn in Hm; [now rewrite Nat.add_0_r in Hm|now rewrite Nat.add_1_r in Hm].
      * cbn [exec_stmts in_sequence]. rewrite Hv.
        rewrite wrapped_trait, with_args_override, Hex. reflexivity.
Qed.
End Run.

(** * Evaluating expressions *)
Lemma eval_tuple_app {H} (a b : list (expr H)) h h1 h2 vs ws :
  eval_tuple a h = (h1, Some vs) -> eval_tuple b h1 = (h2, Some ws) ->
  eval_tuple (a ++ b) h = (h2, Some (vs ++ ws)).
Proof.
  revert h vs; induction a as [|e a IH]; intros h vs; cbn [eval_tuple app].
  - intros [= <- <-] Hb. exact Hb.
  - destruct (e h) as [h3 [v|]]; [|discriminate].
    destruct (eval_tuple a h3) as [h4 [vs'|]] eqn:E; [|discriminate]. intros [= -> <-] Hb.
    now rewrite (IH h3 vs' E Hb).
Qed.

Lemma eval_tuple_length {H} (a : list (expr H)) h h' vs :
  eval_tuple a h = (h', Some vs) -> length vs = length a.
Proof.
  revert h vs; induction a as [|e a IH]; intros h vs; cbn [eval_tuple].
  - now intros [= <- <-].
  - destruct (e h) as [h1 [v|]]; [|discriminate].
    destruct (eval_tuple a h1) as [h2 [vs'|]] eqn:E; [|discriminate].
    intros [= -> <-]. cbn. now rewrite (IH _ _ E).
Qed.

Lemma combine_fst {A B} (l : list A) (m : list B) : length l = length m -> map fst (combine l m) = l.
Proof. revert m; induction l as [|x l IH]; intros [|y m]; cbn; try discriminate; auto. intros [= H]. now rewrite IH. Qed.
Lemma combine_snd {A B} (l : list A) (m : list B) : length l = length m -> map snd (combine l m) = m.
Proof. revert m; induction l as [|x l IH]; intros [|y m]; cbn; try discriminate; auto. intros [= H]. now rewrite IH. Qed.

(** The macro result and its evaluation, in one lemma. *)
Lemma generate_eval {H} ps (pos : list (expr H)) (named : list (str * expr H)) c scope h h' args :
  Forall good_piece ps ->
  generate ps pos named = Expanded c ->
  eval_code scope c h = (h', Some args) ->
  exists pv nv, eval_tuple (pos ++ map snd named) h = (h', Some (pv ++ nv)) /\
    length pv = length pos /\ length nv = length named /\
    forall f, exists parts, means pv (combine (map fst named) nv) scope f 0 ps parts /\
                            args f = in_sequence parts.
Proof.
  intros Hg Hgen Hev. unfold generate in Hgen.
  destruct (gen_pieces (length pos) (map fst named) ps gen_init) as [[g ss]|] eqn:E; [|discriminate].
  destruct (all_used (length pos) (map fst named) g); [|discriminate]. injection Hgen as <-.
  unfold eval_code in Hev. cbn [c_positional c_named c_implicit c_stmts] in Hev.
  destruct (eval_tuple pos h) as [h1 [pv|]] eqn:E1; [|discriminate].
  destruct (eval_tuple (map snd named) h1) as [h2 [nv|]] eqn:E2; [|discriminate].
  injection Hev as <- <-.
  pose proof (eval_tuple_length _ _ _ _ E1) as L1. pose proof (eval_tuple_length _ _ _ _ E2) as L2.
  rewrite map_length in L2. exists pv, nv. split; [exact (eval_tuple_app _ _ _ _ _ _ _ E1 E2)|]. split; [exact L1|]. split; [exact L2|].
  intros f.
  assert (L3 : length (map fst named) = length nv) by now rewrite map_length.
  pose proof (gen_pieces_means pv (combine (map fst named) nv) scope ps gen_init g ss (g_implicit g) f Hg) as M.
  rewrite L1, (combine_fst _ _ L3), (combine_snd _ _ L3) in M.
  destruct (M E) as (parts & Hm & Hex); [exists []; now rewrite app_nil_r|].
  exists parts. split; [exact Hm|exact Hex].
Qed.

(** * Parts *)
Lemma in_sequence_app a b :
  same_prog (in_sequence (a ++ b)) (try_ (in_sequence a) (in_sequence b)).
Proof.
  induction a as [|p a IH]; cbn [app in_sequence].
  - unfold try_; cbn. apply same_refl.
  - eapply same_trans; [apply same_try; [apply same_refl|exact IH]|].
    unfold try_. eapply same_sym, same_trans; [apply bind_assoc|].
    apply same_bind; [apply same_refl|]. intros [|]; cbn; apply same_refl.
Qed.

Lemma in_sequence_ok parts :
  Forall (fun p => ok_outcome p = Returned Ok) parts ->
  ok_outcome (in_sequence parts) = Returned Ok /\
  produces (in_sequence parts) = concat (map produces parts).
Proof.
  induction 1 as [|p l Hp Hl [IH1 IH2]]; cbn [in_sequence map concat]; [split; reflexivity|].
  rewrite ok_outcome_try, produces_try by exact Hp. now rewrite IH2.
Qed.

Lemma propagates_bind p q :
  propagates p -> propagates q -> propagates (try_ p q).
Proof.
  intros Hp Hq. unfold try_. induction p as [[|]|c|s st k IH]; cbn in *; auto.
  destruct Hp as [E Hp]. split; [now rewrite E|auto].
Qed.

Lemma propagates_sequence parts : Forall propagates parts -> propagates (in_sequence parts).
Proof. induction 1; cbn [in_sequence]; [exact I|]. now apply propagates_bind. Qed.

