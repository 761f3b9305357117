(** C82: the messages of the macros. *)
From Verif Require Import Base Style Fmt SpecStd StdCompat SString Plain Ansi Html Format Nom Parse
  Codegen ToString Macros SpecText TextFacts SpecSink StyleFacts StdFacts StringFacts FormatFacts SpecGrammar
  ParseFacts SpecFacts GrammarFacts SpecMeaning CodegenFacts MacroFacts AttrFacts PropsParse PropsMacro
  SpecCall PropsCall Diagnose SpecDiagnose FillFacts PropsPad.

(** * Forgetting the messages *)
Definition good {A} (r : checked A) : option A := match r with Good a => Some a | Bad _ => None end.
Lemma good_place np names arg g : good (check_place np names arg g) = gen_place np names arg g.
Proof.
  unfold check_place, gen_place. destruct arg as [[i|n]|].
  - now destruct (N.of_nat np <=? i)%N.
  - destruct (named_index names n); [reflexivity|]. now destruct (cannot_be_raw n).
  - now destruct (g_next g <? np).
Qed.
Lemma good_piece_eq np names p g : good (check_piece np names p g) = gen_piece np names p g.
Proof.
  destruct p as [s|[arg [fargs st tr]]]; [reflexivity|]. cbn [check_piece gen_piece].
  rewrite <- good_place. destruct (check_place np names arg g) as [[g' pl]|d]; [|reflexivity]. cbn [good].
  destruct (fargs_tokens fargs); [|reflexivity]. now destruct (style_diff_tokens st).
Qed.
Lemma good_pieces np names ps : forall g, good (check_pieces np names ps g) = gen_pieces np names ps g.
Proof.
  induction ps as [|p ps IH]; intros g; [reflexivity|]. cbn [check_pieces gen_pieces].
  rewrite <- good_piece_eq. destruct (check_piece np names p g) as [[g' s]|d]; [|reflexivity]. cbn [good].
  rewrite <- IH. now destruct (check_pieces np names ps g') as [[g'' ss]|d].
Qed.
Lemma erase_generate {E} ps (pos : list E) named : erase (check_generate ps pos named) = generate ps pos named.
Proof.
  unfold check_generate, generate. rewrite <- good_pieces.
  destruct (check_pieces (length pos) (map fst named) ps gen_init) as [[g ss]|d]; [|reflexivity]. cbn [good].
  now destruct (all_used (length pos) (map fst named) g).
Qed.
Lemma good_items {E} n : forall (toks : list (tok E)) b p0 n0, length toks <= n ->
  good (check_items b p0 n0 toks) = parse_items b p0 n0 toks.
Proof.
  induction n as [|n IH]; intros toks b p0 n0 Hl.
  - destruct toks; [reflexivity|cbn in Hl; lia].
  - destruct toks as [|[| | | |m] toks]; try reflexivity. destruct toks as [|[| | | |m] toks]; try reflexivity.
    cbn [check_items parse_items]. cbn [length] in Hl. destruct (named_arg m); [apply IH; lia|].
    destruct b; [reflexivity|apply IH; lia].
Qed.
Lemma good_input {E} (toks : list (tok E)) : good (check_args_input toks) = parse_args_input toks.
Proof.
  unfold check_args_input, parse_args_input.
  destruct (match toks with TCrate :: TEq :: TPath :: TComma :: rest => Some (true, rest)
            | TCrate :: _ => None | _ => Some (false, toks) end) as [[k [|[| | | |[s e|s e|l v e|e]] rest]]|]; try reflexivity.
  rewrite <- (good_items (length rest)) by lia. now destruct (check_items false [] [] rest) as [[p q]|d].
Qed.

Section Xid.
Variables xid_start xid_continue : char -> bool.
Hypothesis Hx : xid_ok xid_start xid_continue.
Notation macro := (format_args_impl xid_start xid_continue).
Notation check := (check_format_args_impl xid_start xid_continue).
Notation format_string := (format_string xid_start xid_continue).

Lemma erase_impl {E} s (pos : list E) named : erase (check s pos named) = macro s pos named.
Proof.
  unfold check_format_args_impl, format_args_impl.
  destruct (parse_format xid_start xid_continue s) as [[|c r] ps| | |]; try reflexivity. apply erase_generate.
Qed.
Lemma erase_proc {E} (toks : list (tok E)) :
  erase (check_proc_format_args xid_start xid_continue toks) = proc_format_args xid_start xid_continue toks /\
  erase (check_proc_format_args_nl xid_start xid_continue toks) = proc_format_args_nl xid_start xid_continue toks.
Proof.
  unfold check_proc_format_args, proc_format_args, check_proc_format_args_nl, proc_format_args_nl, format_args_nl.
  rewrite <- !good_input. destruct (check_args_input toks) as [i|d]; [|auto]. cbn [good].
  destruct (in_krate i); [|auto]. split; apply erase_impl.
Qed.

(** C82: a call is rejected with exactly one message, and the message does not depend on anything but the
    call: the macros with messages are those of the other theorems. *)
Theorem C82_rejected {E} (u : E) (toks : list (tok E)) :
  erase (check_format_args xid_start xid_continue toks) = format_args_macro xid_start xid_continue toks /\
  erase (check_write xid_start xid_continue toks) = write_macro xid_start xid_continue toks /\
  erase (check_writeln xid_start xid_continue u toks) = writeln_macro xid_start xid_continue u toks.
Proof.
  assert (F : forall t : list (tok E), erase (check_format_args xid_start xid_continue t) = format_args_macro xid_start xid_continue t).
  { intros t. unfold check_format_args, format_args_macro.
    destruct t as [|[| | | |[s e|s e|l v e|e]] rest]; try reflexivity;
      (destruct (optional_tail rest); [apply erase_proc|reflexivity]). }
  assert (W : forall t : list (tok E), erase (check_write xid_start xid_continue t) = write_macro xid_start xid_continue t).
  { intros t. unfold check_write, write_macro. destruct t as [|[]]; try reflexivity. apply F. }
  split; [apply F|split; [apply W|]].
  unfold check_writeln, writeln_macro. destruct toks as [|[| | | |m] rest]; [apply W|reflexivity..| |reflexivity].
  destruct rest as [|t rest]; [apply W|]. apply erase_proc.
Qed.

(** * The format string *)
Section Gen.
Variables (np : nat) (names : list str).
Notation wrong_argument := (wrong_argument np names).
Notation wrong_piece := (wrong_piece np names).
Notation nothing_wrong := (nothing_wrong np names).

Lemma check_place_spec arg g d : check_place np names arg g = Bad d <-> wrong_argument (g_next g) arg d.
Proof.
  unfold check_place. split.
  - destruct arg as [[i|n]|].
    + destruct (N.leb_spec (N.of_nat np) i); [|discriminate]. intros [= <-].
      destruct (N.ltb_spec i 4294967295); constructor; lia.
    + destruct (named_index names n) eqn:En; [discriminate|]. destruct (cannot_be_raw n) eqn:Er; [|discriminate].
      intros [= <-]. constructor; [now apply named_index_none|now apply cannot_be_raw_spec].
    + destruct (Nat.ltb_spec (g_next g) np); [discriminate|]. intros [= <-]. now constructor.
  - intros [H|i H1 H2|i H1 H2|n H1 H2].
    + destruct (Nat.ltb_spec (g_next g) np); [lia|reflexivity].
    + destruct (N.leb_spec (N.of_nat np) i); [|lia]. destruct (N.ltb_spec i 4294967295); [reflexivity|lia].
    + destruct (N.leb_spec (N.of_nat np) i); [|lia]. destruct (N.ltb_spec i 4294967295); [lia|reflexivity].
    + apply named_index_none in H1. rewrite H1. apply cannot_be_raw_spec in H2. now rewrite H2.
Qed.
Lemma check_place_next arg g g' pl : check_place np names arg g = Good (g', pl) ->
  g_next g' = g_next g + bare_count [arg].
Proof.
  intros H. assert (E : gen_place np names arg g = Some (g', pl)) by now rewrite <- good_place, H.
  apply (gen_place_used _ _ _ _ _ _ (mk_spec (mk_pfargs None None false false None None None) diff_default FDisplay)) in E.
  destruct E as [E _ _ _]. exact E.
Qed.
Lemma check_piece_spec p g d : good_piece p ->
  check_piece np names p g = Bad d <-> wrong_piece (g_next g) p d.
Proof.
  destruct p as [s|[arg [fargs st tr]]]; intros Hg.
  - split; [discriminate|]. intros H. inversion H.
  - cbn [check_piece]. cbn in Hg. unfold known_style in Hg. rewrite Hg. split.
    + destruct (check_place np names arg g) as [[g' pl]|d'] eqn:E.
      * destruct (fargs_tokens fargs) as [fa|] eqn:Ef; [discriminate|]. intros [= <-]. apply wp_count.
        -- cbn [fa_arg]. intros d' H. apply check_place_spec in H. congruence.
        -- cbn. intros [H1 H2]. rewrite fargs_tokens_literal in Ef by assumption. discriminate.
      * intros [= <-]. apply wp_argument. now apply check_place_spec.
    + intros H. inversion H as [a d' Hw|a Hn Hc]; subst; clear H; cbn [fa_arg] in *.
      * apply check_place_spec in Hw. now rewrite Hw.
      * destruct (check_place np names arg g) as [[g' pl]|d'] eqn:E.
        -- destruct (fargs_tokens fargs) as [fa|] eqn:Ef; [|reflexivity]. exfalso. apply Hc.
           apply fargs_tokens_some in Ef as (_ & Hw & Hp). cbn. auto.
        -- apply check_place_spec in E. now destruct (Hn _ E).
Qed.
Lemma check_piece_next p g g' s : check_piece np names p g = Good (g', s) ->
  g_next g' = g_next g + bare_count (placeholder_arg p).
Proof.
  destruct p as [t|[arg [fargs st tr]]]; cbn [check_piece].
  - intros [= <- <-]. cbn. lia.
  - destruct (check_place np names arg g) as [[g1 pl]|d'] eqn:E; [|discriminate].
    destruct (fargs_tokens fargs); [|discriminate]. destruct (style_diff_tokens st); [|discriminate].
    intros [= <- <-]. apply check_place_next in E. exact E.
Qed.
Lemma bare_count_app a b : bare_count (a ++ b) = bare_count a + bare_count b.
Proof. induction a as [|[x|] a IH]; cbn; [reflexivity|exact IH|now rewrite IH]. Qed.
Lemma asked_app a b : asked (a ++ b) = asked a ++ asked b.
Proof. apply flat_map_app. Qed.
Lemma asked_cons p ps : asked (p :: ps) = placeholder_arg p ++ asked ps.
Proof. reflexivity. Qed.

(** Relative to [n] bare placeholders before. *)
Definition none_wrong (n : nat) (ps : list piece) : Prop :=
  forall before p after d, ps = before ++ p :: after -> ~ wrong_piece (n + bare_count (asked before)) p d.
Lemma none_wrong_cons n p ps : none_wrong n (p :: ps) <->
  (forall d, ~ wrong_piece n p d) /\ none_wrong (n + bare_count (placeholder_arg p)) ps.
Proof.
  split.
  - intros H. split.
    + intros d Hd. apply (H [] p ps d eq_refl). cbn [asked flat_map bare_count]. now rewrite Nat.add_0_r.
    + intros before q after d -> Hd. apply (H (p :: before) q after d eq_refl).
      rewrite asked_cons, bare_count_app, Nat.add_assoc. exact Hd.
  - intros [H1 H2] before q after d E Hd. destruct before as [|p' before].
    + injection E as -> ->. cbn [asked flat_map bare_count] in Hd. rewrite Nat.add_0_r in Hd. exact (H1 d Hd).
    + injection E as <- ->. rewrite asked_cons, bare_count_app, Nat.add_assoc in Hd. exact (H2 _ _ _ _ eq_refl Hd).
Qed.
Lemma check_pieces_spec ps : Forall good_piece ps -> forall g,
  (forall d, check_pieces np names ps g = Bad d <->
     exists before p after, ps = before ++ p :: after /\ none_wrong (g_next g) before /\
       wrong_piece (g_next g + bare_count (asked before)) p d) /\
  ((exists r, check_pieces np names ps g = Good r) <-> none_wrong (g_next g) ps).
Proof.
  induction 1 as [|p ps Hp Hps IH]; intros g.
  - split.
    + intros d. split; [discriminate|]. intros ([|x0 l0] & q & after & E & _); discriminate.
    + split; [|intros _; cbn [check_pieces]; eauto]. intros _ [|x0 l0] q after d E; discriminate.
  - cbn [check_pieces]. pose proof (check_piece_spec p g) as Hs.
    destruct (check_piece np names p g) as [[g' s]|d0] eqn:E.
    + pose proof (check_piece_next _ _ _ _ E) as En. specialize (IH g'). rewrite En in IH. destruct IH as [IH1 IH2].
      assert (Hno : forall d, ~ wrong_piece (g_next g) p d) by (intros d Hd; apply Hs in Hd; [discriminate|exact Hp]).
      split.
      * intros d. split.
        -- destruct (check_pieces np names ps g') as [[g'' ss]|d'] eqn:E2; [discriminate|]. intros [= <-].
           destruct (proj1 (IH1 d') eq_refl) as (before & q & after & -> & Hn & Hw).
           exists (p :: before), q, after. split; [reflexivity|]. split.
           ++ apply none_wrong_cons. auto.
           ++ rewrite asked_cons, bare_count_app, Nat.add_assoc. exact Hw.
        -- intros (before & q & after & Eq & Hn & Hw). destruct before as [|p' before].
           ++ injection Eq as -> ->. cbn [asked flat_map bare_count] in Hw. rewrite Nat.add_0_r in Hw. now destruct (Hno d).
           ++ injection Eq as <- ->. apply none_wrong_cons in Hn as [_ Hn].
              rewrite asked_cons, bare_count_app, Nat.add_assoc in Hw.
              assert (E2 : check_pieces np names (before ++ q :: after) g' = Bad d) by (apply IH1; eauto 8).
              now rewrite E2.
      * rewrite none_wrong_cons, <- IH2. split.
        -- intros [r Hr]. split; [exact Hno|]. destruct (check_pieces np names ps g') as [x|d']; [eauto|discriminate].
        -- intros [_ [[g'' ss] Hr]]. rewrite Hr. eauto.
    + assert (Hw : wrong_piece (g_next g) p d0) by now apply Hs.
      split.
      * intros d. split.
        -- intros [= <-]. exists [], p, ps. split; [reflexivity|]. split.
           ++ intros [|x0 l0] q after d E'; discriminate.
           ++ cbn [asked flat_map bare_count]. now rewrite Nat.add_0_r.
        -- intros (before & q & after & Eq & Hn & Hq). destruct before as [|p' before].
           ++ injection Eq as -> ->. cbn [asked flat_map bare_count] in Hq. rewrite Nat.add_0_r in Hq.
              apply Hs in Hq; [injection Hq as ->; reflexivity|exact Hp].
           ++ injection Eq as <- ->. apply none_wrong_cons in Hn as [Hn _]. now destruct (Hn d0).
      * split; [intros [r [=]]|]. intros Hn. apply none_wrong_cons in Hn as [Hn _]. now destruct (Hn d0).
Qed.
End Gen.

Lemma generate_reported {E} ps (pos : list E) named d : Forall good_piece ps ->
  check_generate ps pos named = Bad d <-> reported (length pos) (map fst named) ps d.
Proof.
  intros Hg. unfold check_generate. set (np := length pos). set (names := map fst named).
  destruct (check_pieces_spec np names ps Hg gen_init) as [H1 H2]. cbn [g_next gen_init] in H1, H2.
  assert (NW : forall l, none_wrong np names 0 l <-> nothing_wrong np names l) by (intros l; reflexivity).
  destruct (check_pieces np names ps gen_init) as [[g ss]|d0] eqn:Ec.
  - assert (Hn : nothing_wrong np names ps) by (apply NW, H2; eauto).
    assert (Eg : gen_pieces np names ps gen_init = Some (g, ss)) by now rewrite <- good_pieces, Ec.
    apply gen_pieces_used in Eg as [_ Hup Hun _]. cbn [g_next g_used_pos g_used_named gen_init] in Hup, Hun.
    assert (HU : all_used np names g = false <-> some_unused np names ps).
    { pose proof (all_used_spec np names g) as Ha. split.
      - intros Hf. destruct (forallb (fun i => existsb (Nat.eqb i) (g_used_pos g)) (seq 0 np)) eqn:F1.
        + destruct (forallb (fun n => existsb (str_eqb n) (g_used_named g)) names) eqn:F2.
          { unfold all_used in Hf. rewrite F1, F2 in Hf. discriminate. }
          right. assert (X : exists n, In n names /\ existsb (str_eqb n) (g_used_named g) = false).
          { clear - F2. induction names as [|n l IH]; [discriminate|]. cbn [forallb] in F2.
            destruct (existsb (str_eqb n) (g_used_named g)) eqn:En; [|exists n; split; [now left|exact En]].
            destruct (IH F2) as (m & Hm & Em). exists m. split; [now right|exact Em]. }
          destruct X as (n & Hin & En). exists n. split; [exact Hin|]. intros Hask.
          assert (Hu : In n (g_used_named g)) by (apply Hun; auto).
          assert (T : existsb (str_eqb n) (g_used_named g) = true).
          { apply existsb_exists. exists n. split; [exact Hu|]. destruct (str_eqb_spec n n); congruence. }
          congruence.
        + left. assert (X : exists i, In i (seq 0 np) /\ existsb (Nat.eqb i) (g_used_pos g) = false).
          { clear - F1. induction (seq 0 np) as [|n l IH]; [discriminate|]. cbn [forallb] in F1.
            destruct (existsb (Nat.eqb n) (g_used_pos g)) eqn:En; [|exists n; split; [now left|exact En]].
            destruct (IH F1) as (m & Hm & Em). exists m. split; [now right|exact Em]. }
          destruct X as (i & Hi & Ei). apply in_seq in Hi.
          assert (Hnu : ~ In i (g_used_pos g)).
          { intros Hu. assert (T : existsb (Nat.eqb i) (g_used_pos g) = true)
              by (apply existsb_exists; exists i; split; [exact Hu|apply Nat.eqb_refl]). congruence. }
          exists i. split; [lia|]. rewrite Hup in Hnu. split.
          * destruct (le_lt_dec (bare_count (asked ps)) i); [assumption|]. exfalso. apply Hnu. right. left. lia.
          * intros Hask. apply Hnu. auto.
      - intros Hs. destruct (all_used np names g); [|reflexivity]. exfalso.
        destruct (proj1 Ha eq_refl) as [A1 A2]. destruct Hs as [(i & Hi & Hb & Hni)|(n & Hin & Hni)].
        + specialize (A1 i Hi). apply Hup in A1 as [[]|[A1|A1]]; [lia|now apply Hni].
        + specialize (A2 n Hin). apply Hun in A2 as [[]|[_ A2]]. now apply Hni. }
    split.
    + destruct (all_used np names g) eqn:Ea; [discriminate|]. intros [= <-]. apply rep_unused; [exact Hn|now apply HU].
    + intros [before p after d' E' Hb Hw|_ Hs].
      * exfalso. exact (Hn _ _ _ _ E' Hw).
      * apply HU in Hs. now rewrite Hs.
  - split.
    + intros [= <-]. destruct (proj1 (H1 d0) eq_refl) as (before & p & after & E' & Hb & Hw).
      exact (rep_piece _ _ ps before p after d0 E' Hb Hw).
    + intros [before p after d' E' Hb Hw|Hn _].
      * assert (X : @Bad (gen_state * list stmt) d0 = Bad d') by (apply H1; exists before, p, after; auto).
        injection X as ->. reflexivity.
      * exfalso. apply NW, H2 in Hn as [r [=]].
Qed.

Lemma uses_fill_iff s : parse_format xid_start xid_continue s = PPanic <-> uses_fill xid_start xid_continue s.
Proof.
  rewrite (format_fill _ _ Hx). split.
  - intros (pre & ps & i & -> & Hps & arg & f & c & r & -> & Hf & Hc & Ha). exists pre, ps, arg, f, c, r. auto.
  - intros (pre & ps & arg & f & c & r & -> & Hps & Ha & Hf & Hc). exists pre, ps, (lit "{" ++ arg ++ lit ":" ++ f :: c :: r).
    split; [reflexivity|]. split; [exact Hps|]. exists arg, f, c, r. auto.
Qed.

(** C82: for a format string of the grammar, the message is that of the first problem in it, and "unused
    formatting arguments" if nothing is wrong with the placeholders but some argument is not used; for
    any other format string the message is that of the unfinished feature of fill characters if a fill is the
    first thing wrong with it, and otherwise that of a failed parse. *)
Theorem C82_message {E} (s : str) (pos : list E) (named : list (str * E)) (d : diagnostic) :
  (forall ps, format_string ps s ->
     (check s pos named = Bad d <-> reported (length pos) (map fst named) ps d)) /\
  ((forall ps, ~ format_string ps s) ->
     (check s pos named = Bad d <->
      d = UnsupportedFill /\ uses_fill xid_start xid_continue s \/
      d = BadFormat /\ ~ uses_fill xid_start xid_continue s)).
Proof.
  split.
  - intros ps Hp. unfold check_format_args_impl. rewrite (proj2 (C41_grammar _ _ Hx s ps) Hp).
    apply generate_reported. exact (spells_good _ _ _ _ _ Hp).
  - intros Hn. rewrite <- uses_fill_iff. unfold check_format_args_impl.
    destruct (C43_verdict xid_start xid_continue s) as [[ps Hp]|[Hp|[Hp|(Hp & _)]]]; rewrite Hp.
    + exfalso. apply (Hn ps). now apply (C41_grammar _ _ Hx).
    + split; [intros [= <-]; right; split; [reflexivity|discriminate]|]. now intros [[_ [=]]|[-> _]].
    + split; [intros [= <-]; right; split; [reflexivity|discriminate]|]. now intros [[_ [=]]|[-> _]].
    + split; [intros [= <-]; left; auto|]. intros [[-> _]|[_ H]]; [reflexivity|now destruct H].
Qed.

(** C82: every message is true of the call it is given for. *)
Theorem C82_truthful {E} (s : str) (pos : list E) (named : list (str * E)) (d : diagnostic) :
  check s pos named = Bad d ->
  match d with
  | BadFormat => forall ps, ~ format_string ps s
  | UnsupportedFill => uses_fill xid_start xid_continue s
  | MissingArgument => exists ps, format_string ps s /\ length pos < bare_count (asked ps)
  | MissingPositional i | IndexTooLarge i =>
      exists ps, format_string ps s /\ In (Some (Positional i)) (asked ps) /\ (N.of_nat (length pos) <= i)%N
  | NotCapturable n =>
      exists ps, format_string ps s /\ In (Some (Named n)) (asked ps) /\ ~ In n (map fst named) /\ keyword_name n
  | ParameterCount => exists ps, format_string ps s /\ Exists (fun p => ~ literal_counts p) ps
  | UnusedArguments => exists ps, format_string ps s /\ some_unused (length pos) (map fst named) ps
  | Malformed | PositionalAfterNamed | Leftover | NoCrate | UnknownStyle => False
  end.
Proof.
  intros H. destruct (parse_format xid_start xid_continue s) as [[|c r] ps| | |] eqn:Ep.
  - apply (C41_grammar _ _ Hx) in Ep. apply (proj1 (C82_message s pos named d) ps Ep) in H.
    destruct H as [before p after d E' Hb Hw|Hn Hu].
    + assert (In_ : forall x, In x (placeholder_arg p) -> In x (asked ps)).
      { intros x Hi. rewrite E', asked_app, asked_cons. apply in_or_app. right. apply in_or_app. now left. }
      destruct Hw as [a d Hw|a Hn Hc].
      * cbn [placeholder_arg] in In_. destruct a as [arg spec]; cbn [fa_arg] in *. destruct Hw as [Hle|i H1 H2|i H1 H2|n H1 H2].
        -- exists ps. split; [exact Ep|]. rewrite E', asked_app, asked_cons, !bare_count_app. cbn. lia.
        -- exists ps. split; [exact Ep|]. split; [apply In_; now left|exact H1].
        -- exists ps. split; [exact Ep|]. split; [apply In_; now left|exact H1].
        -- exists ps. split; [exact Ep|]. split; [apply In_; now left|auto].
      * exists ps. split; [exact Ep|]. apply Exists_exists. exists (Arg a). split; [|exact Hc].
        rewrite E'. apply in_or_app. right. now left.
    + exists ps. auto.
  - destruct (C43_verdict xid_start xid_continue s) as [[ps' Hp]|[Hp|[Hp|(Hp & _)]]]; rewrite Hp in Ep; discriminate.
  - assert (Hn : forall ps, ~ format_string ps s) by (intros ps Hp; apply (C41_grammar _ _ Hx) in Hp; congruence).
    unfold check_format_args_impl in H. rewrite Ep in H. injection H as <-. exact Hn.
  - assert (Hn : forall ps, ~ format_string ps s) by (intros ps Hp; apply (C41_grammar _ _ Hx) in Hp; congruence).
    unfold check_format_args_impl in H. rewrite Ep in H. injection H as <-. exact Hn.
  - assert (Hn : forall ps, ~ format_string ps s) by (intros ps Hp; apply (C41_grammar _ _ Hx) in Hp; congruence).
    apply (proj2 (C82_message s pos named d) Hn) in H as [[-> HF]|[-> _]]; [exact HF|exact Hn].
Qed.

(** * The argument list *)
Lemma items_after_named {E} n : forall (toks : list (tok E)) b p0 n0, length toks <= n ->
  check_items b p0 n0 toks = Bad PositionalAfterNamed <->
  exists ps ns named m rest, toks = separated (ps ++ ns ++ [m]) ++ rest /\ Forall positional_arg ps /\
    Forall2 names_arg ns named /\ positional_arg m /\ (if b then ps = [] else ns <> []).
Proof.
  induction n as [|n IH]; intros toks b p0 n0 Hl.
  - destruct toks; [|cbn in Hl; lia]. split; [discriminate|].
    intros (ps & ns & named & m & rest & E1 & _). unfold separated in E1. rewrite !flat_map_app in E1.
    exfalso. apply (f_equal (@length _)) in E1. rewrite !app_length in E1. cbn in E1. lia.
  - assert (Sep : forall (l : list (mexpr E)) (m : mexpr E) rest, exists x l', separated (l ++ [m]) ++ rest = TComma :: TExpr x :: l').
    { intros [|x l] m rest; cbn; eauto. }
    assert (Bad_shape : forall t : list (tok E), (forall x l', t <> TComma :: TExpr x :: l') ->
      ~ exists ps ns named m rest, t = separated (ps ++ ns ++ [m]) ++ rest /\ Forall positional_arg ps /\
        Forall2 names_arg ns named /\ positional_arg m /\ (if b then ps = [] else ns <> [])).
    { intros t Ht (ps & ns & named & m & rest & E1 & _). rewrite app_assoc in E1.
      destruct (Sep (ps ++ ns) m rest) as (x & l' & E2). apply (Ht x l'). now rewrite E1. }
    destruct toks as [|[| | | |m] toks]; try (split; [discriminate|intros HH; exfalso; revert HH; apply Bad_shape; discriminate]).
    destruct toks as [|[| | | |m] toks]; try (split; [discriminate|intros HH; exfalso; revert HH; apply Bad_shape; discriminate]).
    cbn [check_items]. cbn [length] in Hl. destruct (named_arg m) as [nm|] eqn:En.
    + apply named_arg_spec in En. rewrite IH by lia. split.
      * intros (ps & ns & named & m' & rest & -> & Hp & Hn & Hm & ->).
        exists [], (m :: ns), (nm :: named), m', rest. split; [reflexivity|]. split; [constructor|].
        split; [now constructor|]. split; [exact Hm|]. destruct b; [reflexivity|discriminate].
      * intros (ps & ns & named & m' & rest & E1 & Hp & Hn & Hm & Hb).
        destruct ps as [|p ps].
        -- destruct Hn as [|x y ns named Hxy Hn].
           ++ cbn in E1. injection E1 as <- <-. now destruct (Hm nm).
           ++ cbn in E1. injection E1 as <- ->. exists [], ns, named, m', rest. auto.
        -- cbn in E1. injection E1 as <- ->. inversion Hp as [|? ? Hpm _]; subst. now destruct (Hpm nm).
    + apply named_arg_none in En. destruct b.
      * split; [intros _|reflexivity]. exists [], [], [], m, toks. split; [reflexivity|]. auto.
      * rewrite IH by lia. split.
        -- intros (ps & ns & named & m' & rest & -> & Hp & Hn & Hm & Hne).
           exists (m :: ps), ns, named, m', rest. split; [reflexivity|]. auto.
        -- intros (ps & ns & named & m' & rest & E1 & Hp & Hn & Hm & Hne). destruct ps as [|p ps].
           ++ destruct Hn as [|x y ns named Hxy Hn]; [now destruct Hne|]. cbn in E1. injection E1 as <- _. now destruct (En y).
           ++ cbn in E1. injection E1 as <- ->. inversion Hp; subst. exists ps, ns, named, m', rest. auto.
Qed.
Lemma items_bad {E} n : forall (toks : list (tok E)) b p0 n0 d, length toks <= n ->
  check_items b p0 n0 toks = Bad d -> d = PositionalAfterNamed \/ d = Malformed.
Proof.
  induction n as [|n IH]; intros toks b p0 n0 d Hl.
  - destruct toks; [discriminate|cbn in Hl; lia].
  - destruct toks as [|[| | | |m] toks]; try discriminate; try (intros [= <-]; now right).
    destruct toks as [|[| | | |m] toks]; try discriminate; try (intros [= <-]; now right).
    cbn [check_items]. cbn [length] in Hl. destruct (named_arg m); [apply IH; lia|].
    destruct b; [intros [= <-]; now left|apply IH; lia].
Qed.

Notation check_fa := (check_format_args xid_start xid_continue).

(** C82: for a call of the right shape the message is about its format string and the use of its
    arguments; "positional arg after named" is given exactly if a positional argument follows a named one
    and what comes before is well formed; all other calls get a syntax error.  [write!] is the same after
    its destination. *)
Theorem C82_calls {E} (toks : list (tok E)) :
  (forall f pos named, spelled_call toks f pos named \/ builtin_call toks f pos named ->
     check_fa toks = check f pos named) /\
  (check_fa toks = Bad PositionalAfterNamed <-> positional_after_named toks) /\
  (check_fa toks = Bad Malformed <->
     (forall f pos named, ~ spelled_call toks f pos named /\ ~ builtin_call toks f pos named) /\
     ~ positional_after_named toks) /\
  check_fa toks <> Bad NoCrate /\ check_fa toks <> Bad Leftover /\ check_fa toks <> Bad UnknownStyle.
Proof.
  assert (TR : forall f (pos : list E) named d, check f pos named = Bad d ->
     d <> Malformed /\ d <> PositionalAfterNamed /\ d <> NoCrate /\ d <> Leftover /\ d <> UnknownStyle).
  { intros f pos named d H. apply C82_truthful in H. destruct d; repeat split; try discriminate; contradiction. }
  (* a call is spelled, or its argument list is bad *)
  assert (Main : forall f (m : mexpr E) rest, (exists e, m = MStr f e \/ m = MBuiltin f e) ->
    match check_items false [] [] rest with
    | Good (pos, named) => (spelled_call (TExpr m :: rest) f pos named \/ builtin_call (TExpr m :: rest) f pos named) /\
        check_fa (TExpr m :: rest) = check f pos named
    | Bad d => check_fa (TExpr m :: rest) = Bad d
    end).
  { intros f m rest [e Hm].
    assert (Hfa : check_fa (TExpr m :: rest) = if optional_tail rest then match check_items false [] [] rest with
       | Good (pos, named) => check f pos named | Bad d => Bad d end else Bad Malformed).
    { destruct Hm as [-> | ->]; cbn [check_format_args]; destruct (optional_tail rest); try reflexivity;
        unfold check_proc_format_args, check_args_input, crate_prefix; cbn [app];
        destruct (check_items false [] [] rest) as [[p q]|d]; reflexivity. }
    destruct (check_items false [] [] rest) as [[pos named]|d] eqn:Ei.
    - assert (Ep : parse_items false [] [] rest = Some (pos, named)) by (rewrite <- (good_items (length rest)) by lia; now rewrite Ei).
      apply (parse_items_sound (length rest)) in Ep as (ps & ns & nm & tr & -> & Hp & Hn & Ht & _ & -> & ->); [|lia].
      assert (Hs : forall e, spelled_call (TExpr (MStr f e) :: separated (ps ++ ns) ++ tr) f (map expr_value ps) nm) by (intros; now constructor).
      split.
      + destruct Hm as [-> | ->]; [left; apply Hs|right; apply (bc_intro f e e _ _ _ (Hs e))].
      + rewrite Hfa. destruct (spelled_tail _ _ _ _ _ _ (Hs e)) as [-> _]. reflexivity.
    - rewrite Hfa. destruct (optional_tail rest) eqn:Eo; [reflexivity|].
      destruct rest as [|[| | | |x] rest]; try discriminate Eo; cbn in Ei; now injection Ei as <-. }
  assert (Shape : forall f (m : mexpr E) rest, (exists e, m = MStr f e \/ m = MBuiltin f e) ->
    (positional_after_named (TExpr m :: rest) <-> check_items false [] [] rest = Bad PositionalAfterNamed)).
  { intros f m rest [e Hm]. rewrite (items_after_named (length rest)) by lia. split.
    - intros H. inversion H as [f' ps ns named m' rest' Hf Hp Hn Hne Hpm]; subst.
      exists ps, ns, named, m', rest'. auto.
    - intros (ps & ns & named & m' & rest' & -> & Hp & Hn & Hpm & Hne).
      apply (pan_intro m ps ns named m' rest'); auto. exists f, e. exact Hm. }
  assert (Sp : forall f pos named, spelled_call toks f pos named \/ builtin_call toks f pos named -> check_fa toks = check f pos named).
  { intros f pos named H.
    assert (exists m rest, toks = TExpr m :: rest /\ (exists e, m = MStr f e \/ m = MBuiltin f e) /\ parse_items false [] [] rest = Some (pos, named))
      as (m & rest & -> & Hm & Hi).
    { destruct H as [H|H].
      - destruct H as [f e ps ns nm tr Hp Hn Ht]. eexists _, _. split; [reflexivity|]. split; [eauto|].
        now rewrite (parse_items_complete ps ns nm tr) by auto.
      - destruct H as [f e e' rest pos named H]. eexists _, rest. split; [reflexivity|]. split; [eauto|].
        inversion H as [f' e'' ps ns nm tr Hp Hn Ht]; subst. now rewrite (parse_items_complete ps ns named tr) by auto. }
    specialize (Main f m rest Hm). rewrite <- (good_items (length rest)) in Hi by lia.
    destruct (check_items false [] [] rest) as [[p q]|d]; [|discriminate]. injection Hi as <- <-. apply Main. }
  assert (Cases : (exists f m rest, toks = TExpr m :: rest /\ exists e, m = MStr f e \/ m = MBuiltin f e) \/
     (check_fa toks = Bad Malformed /\ ~ positional_after_named toks /\
      forall f pos named, ~ spelled_call toks f pos named /\ ~ builtin_call toks f pos named)).
  { destruct toks as [|[| | | |[s e|s e|l v e|e]] rest]; [| | | | |left; eauto 8|left; eauto 8| |]; right;
      (split; [reflexivity|split; [intros H; inversion H as [f ps ns named m r (s0 & e0 & [?|?]) ? ? ? ?]; subst; discriminate|
         intros f pos named; split; intros H; inversion H]]). }
  split; [exact Sp|].
  destruct Cases as [(f & m & rest & -> & Hm)|(Hb & Hn & Hs)].
  - specialize (Main f m rest Hm). rewrite (Shape f m rest Hm).
    destruct (check_items false [] [] rest) as [[pos named]|d] eqn:Ei.
    + destruct Main as [Hsp Hc]. rewrite Hc.
      split; [|split; [|repeat split; intros H; apply TR in H; intuition congruence]].
      * split; [intros H; apply TR in H; intuition congruence|discriminate].
      * split; [intros H; apply TR in H; intuition congruence|]. intros [Hno _]. destruct (Hno f pos named). tauto.
    + rewrite Main. destruct (items_bad (length rest) _ _ _ _ _ (le_n _) Ei) as [-> | ->].
      * split; [split; reflexivity|]. split; [|repeat split; discriminate].
        split; [discriminate|]. intros [_ Hno]. exfalso. now apply Hno.
      * split; [split; discriminate|]. split; [|repeat split; discriminate].
        split; [|reflexivity]. intros _. split; [|discriminate]. intros f' pos named.
        assert (G : ~ (spelled_call (TExpr m :: rest) f' pos named \/ builtin_call (TExpr m :: rest) f' pos named)).
        { intros H. apply Sp in H. rewrite Main in H. symmetry in H. apply TR in H. intuition congruence. }
        tauto.
  - rewrite Hb. split; [split; [discriminate|contradiction]|]. split; [|repeat split; discriminate]. split; auto.
Qed.

(** * writeln! *)
Lemma ext_check np names ps ps' : ext ps ps' -> forall g,
  match check_pieces np names ps g with
  | Bad d => check_pieces np names ps' g = Bad d
  | Good (g', _) => exists ss, check_pieces np names ps' g = Good (g', ss)
  end.
Proof.
  induction 1 as [|t Ht|p ps ps' He IH]; intros g.
  - cbn. eauto.
  - cbn. eauto.
  - cbn [check_pieces]. destruct (check_piece np names p g) as [[g1 s1]|d]; [|reflexivity].
    specialize (IH g1). destruct (check_pieces np names ps g1) as [[g2 ss]|d].
    + destruct IH as [ss' ->]. eauto.
    + now rewrite IH.
Qed.
Lemma fill_newline s : uses_fill xid_start xid_continue (s ++ [10%N]) <-> uses_fill xid_start xid_continue s.
Proof.
  split.
  - intros (before & ps & arg & f & al & rest & E1 & Hps & Ha & Hf & Hc).
    destruct (exists_last (l := f :: al :: rest) ltac:(discriminate)) as (l & z & El).
    rewrite El in E1. rewrite !app_assoc in E1. apply app_inj_tail in E1 as [E1 <-]. rewrite <- !app_assoc in E1.
    destruct l as [|f' [|al' rest']]; [discriminate El| |].
    + injection El as -> -> _. discriminate Hc.
    + injection El as <- <- El. exists before, ps, arg, f, al, rest'. auto.
  - intros (before & ps & arg & f & al & rest & -> & Hps & Ha & Hf & Hc).
    exists before, ps, arg, f, al, (rest ++ [10%N]). repeat split; auto. now rewrite <- !app_assoc.
Qed.
(** C82: [writeln!] gives the message [write!] gives. *)
Theorem C82_writeln {E} (u : E) (toks : list (tok E)) (f : str) (pos : list E) (named : list (str * E)) (d : diagnostic) :
  spelled_call toks f pos named ->
  (check_writeln xid_start xid_continue u (TComma :: toks) = Bad d <->
   check_write xid_start xid_continue (TComma :: toks) = Bad d).
Proof.
  intros Hs.
  assert (A : check_write xid_start xid_continue (TComma :: toks) = check f pos named).
  { cbn [check_write]. exact (proj1 (C82_calls toks) f pos named (or_introl Hs)). }
  assert (B : check_writeln xid_start xid_continue u (TComma :: toks) = check (f ++ [10%N]) pos named).
  { pose proof Hs as Hs'. apply C54_argument_list in Hs'. rewrite <- good_input in Hs'.
    destruct Hs as [f e ps ns nm tr Hp Hn Ht]. cbn [check_writeln]. unfold check_proc_format_args_nl.
    destruct (check_args_input _) as [i|]; [|discriminate]. injection Hs' as ->. reflexivity. }
  rewrite A, B. clear A B Hs.
  destruct (parse_format xid_start xid_continue f) as [[|c r] ps| | |] eqn:Ep.
  - apply (C41_grammar _ _ Hx) in Ep.
    destruct (newline_fwd _ _ false ps f Ep ltac:(discriminate)) as (ps1 & Hp1 & Hext).
    unfold check_format_args_impl.
    rewrite (proj2 (C41_grammar _ _ Hx _ _) Ep), (proj2 (C41_grammar _ _ Hx _ _) Hp1).
    unfold check_generate. pose proof (ext_check (length pos) (map fst named) ps ps1 Hext gen_init) as X.
    destruct (check_pieces (length pos) (map fst named) ps gen_init) as [[g ss]|d'].
    + destruct X as [ss' ->]. now destruct (all_used (length pos) (map fst named) g).
    + now rewrite X.
  - exfalso. destruct (C43_verdict xid_start xid_continue f) as [[ps' Hp]|[Hp|[Hp|(Hp & _)]]]; rewrite Hp in Ep; discriminate.
  - assert (Hn : forall ps, ~ format_string ps f) by (intros ps Hp; apply (C41_grammar _ _ Hx) in Hp; congruence).
    assert (Hn' : forall ps, ~ format_string ps (f ++ [10%N])).
    { intros ps Hp. destruct (newline_inv _ _ false ps _ Hp f eq_refl) as (ps0 & Hp0 & _). exact (Hn ps0 Hp0). }
    rewrite (proj2 (C82_message f pos named d) Hn), (proj2 (C82_message (f ++ [10%N]) pos named d) Hn').
    now rewrite fill_newline.
  - assert (Hn : forall ps, ~ format_string ps f) by (intros ps Hp; apply (C41_grammar _ _ Hx) in Hp; congruence).
    assert (Hn' : forall ps, ~ format_string ps (f ++ [10%N])).
    { intros ps Hp. destruct (newline_inv _ _ false ps _ Hp f eq_refl) as (ps0 & Hp0 & _). exact (Hn ps0 Hp0). }
    rewrite (proj2 (C82_message f pos named d) Hn), (proj2 (C82_message (f ++ [10%N]) pos named d) Hn').
    now rewrite fill_newline.
  - assert (Hn : forall ps, ~ format_string ps f) by (intros ps Hp; apply (C41_grammar _ _ Hx) in Hp; congruence).
    assert (Hn' : forall ps, ~ format_string ps (f ++ [10%N])).
    { intros ps Hp. destruct (newline_inv _ _ false ps _ Hp f eq_refl) as (ps0 & Hp0 & _). exact (Hn ps0 Hp0). }
    rewrite (proj2 (C82_message f pos named d) Hn), (proj2 (C82_message (f ++ [10%N]) pos named d) Hn').
    now rewrite fill_newline.
Qed.

End Xid.
Print Assumptions C82_writeln.
Print Assumptions C82_rejected.
Print Assumptions C82_message.
Print Assumptions C82_truthful.
Print Assumptions C82_calls.
(** Every message that can be given is given for some call; several problems: the first is reported. *)
Example C82_nonvacuous :
  let msg s pos named := match check_format_args_impl (E := nat) ascii_start ascii_continue s pos named with
                         | Bad d => Some d | Good _ => None end in
  let named x := MAssign (LPath PlainPath [(x, false)]) 7 8 in
  msg (lit "{") [] [] = Some BadFormat /\
  msg (lit "{:*^5}") [0] [] = Some UnsupportedFill /\
  msg (lit "{} {}") [0] [] = Some MissingArgument /\
  msg (lit "{3}") [0] [] = Some (MissingPositional 3) /\
  msg (lit "{4294967295}") [0] [] = Some (IndexTooLarge 4294967295) /\
  msg (lit "{self}") [] [] = Some (NotCapturable (lit "self")) /\
  msg (lit "{self}") [] [(lit "self", 0)] = None /\
  msg (lit "{:1$}") [0; 1] [] = Some ParameterCount /\
  msg (lit "{} {a}") [0; 1] [(lit "b", 2)] = Some UnusedArguments /\
  (* several problems *)
  msg (lit "{2:.x$} {self} {} {}") [0; 1] [] = Some (MissingPositional 2) /\
  msg (lit "{1:.x$} {self} {} {}") [0; 1] [] = Some ParameterCount /\
  check_format_args ascii_start ascii_continue
    [TExpr (MStr (lit "{") 0); TComma; TExpr (named (lit "a")); TComma; TExpr (MOther 1); TExpr (MOther 2)]
  = Bad PositionalAfterNamed /\
  check_format_args ascii_start ascii_continue [TExpr (MOther 0); TComma; TExpr (MOther 1)] = Bad Malformed.
Proof. vm_compute. repeat split; reflexivity. Qed.
