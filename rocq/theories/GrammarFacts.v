(** Placeholders, pieces and whole format strings against the grammar; the parser's verdicts. *)
From Verif Require Import Base Style Nom Parse SpecGrammar ParseFacts SpecFacts.

Section Xid.
Variable xid_start xid_continue : char -> bool.
Hypothesis Hx : xid_ok xid_start xid_continue.

Local Notation identifier := (identifier xid_start xid_continue).
Local Notation parse_arg_ref := (parse_arg_ref xid_start xid_continue).
Local Notation parse_count := (parse_count xid_start xid_continue).
Local Notation parse_format_spec := (parse_format_spec xid_start xid_continue).
Local Notation parse_format_arg := (parse_format_arg xid_start xid_continue).
Local Notation parse_piece := (parse_piece xid_start xid_continue).
Local Notation parse_arg := (parse_arg xid_start xid_continue).
Local Notation parse_format := (parse_format xid_start xid_continue).
Local Notation arg_spelled := (arg_spelled xid_start xid_continue).
Local Notation spec_spelled := (spec_spelled xid_start xid_continue).
Local Notation placeholder_spelled := (placeholder_spelled xid_start xid_continue).
Local Notation spells := (spells xid_start xid_continue).

(** * Placeholders *)
Lemma colon_ref_err r : parse_arg_ref (58%N :: r) = PErr.
Proof.
  apply (parse_arg_ref_err xid_start xid_continue).
  - unfold ident_start. now rewrite (xs _ _ Hx).
  - reflexivity.
Qed.
Lemma brace_ref_err r : parse_arg_ref (125%N :: r) = PErr.
Proof.
  apply (parse_arg_ref_err xid_start xid_continue).
  - unfold ident_start. now rewrite (xs _ _ Hx).
  - reflexivity.
Qed.
Lemma colon_ends r : ends_ref xid_continue (58%N :: r).
Proof. split; cbn; [now rewrite (xc _ _ Hx)|reflexivity]. Qed.
Lemma brace_ends r : ends_ref xid_continue (125%N :: r).
Proof. split; cbn; [now rewrite (xc _ _ Hx)|reflexivity]. Qed.

Lemma parse_format_arg_app a empty p x :
  placeholder_spelled a empty p -> (empty = true -> starts_with_align x = false) ->
  parse_format_arg (p ++ lit "}" ++ x) = POk (lit "}" ++ x) a.
Proof.
  intros [arg s1 spec emp s2 Harg Hspec] Hem. unfold Parse.parse_format_arg.
  rewrite <- app_assoc.
  assert (Hnext : s2 ++ lit "}" ++ x = 58%N :: tl (s2 ++ lit "}" ++ x) \/
                  s2 ++ lit "}" ++ x = 125%N :: tl (s2 ++ lit "}" ++ x)).
  { destruct Hspec as [(_ & -> & _)|(s & _ & -> & _)]; cbn; auto. }
  assert (H1 : opt parse_arg_ref (s1 ++ s2 ++ lit "}" ++ x) = POk (s2 ++ lit "}" ++ x) arg).
  { unfold opt. destruct Harg as [[-> ->]|(r & -> & Hr)].
    - cbn [app]. destruct Hnext as [-> | ->]; [now rewrite colon_ref_err|now rewrite brace_ref_err].
    - rewrite (parse_arg_ref_app _ _ Hx r s1 _ Hr); [reflexivity|].
      destruct Hnext as [-> | ->]; [apply colon_ends|apply brace_ends]. }
  unfold pbind at 1. rewrite H1. unfold pbind, opt, preceded.
  destruct Hspec as [(-> & -> & ->)|(s & Hs & -> & ->)].
  - cbn [app lit]. unfold pbind. rewrite tag1_neq by discriminate. reflexivity.
  - rewrite <- app_assoc. unfold pbind. rewrite tag_app.
    rewrite (parse_format_spec_app _ _ Hx spec s x Hs); [reflexivity|].
    intros ->. now apply Hem.
Qed.

Lemma parse_format_arg_inv i rest a :
  parse_format_arg i = POk rest a ->
  exists p empty, i = p ++ rest /\ placeholder_spelled a empty p /\
    (empty = true -> match rest with _ :: c :: _ => is_align_char c = false | _ => True end).
Proof.
  unfold Parse.parse_format_arg. intros H.
  apply pbind_inv in H as (i1 & arg & H1 & H). apply pbind_inv in H as (i2 & sp & H2 & H).
  injection H as <- <-.
  assert (B1 : exists s1, i = s1 ++ i1 /\
            (arg = None /\ s1 = [] \/ exists r, arg = Some r /\ arg_spelled r s1)).
  { apply opt_inv in H1 as [(r & -> & H)|(-> & -> & _)].
    - apply parse_arg_ref_inv in H as (s & -> & Hs). exists s. eauto.
    - exists []. auto. }
  destruct B1 as (s1 & -> & A1).
  apply opt_inv in H2 as [(spec & -> & H)|(-> & -> & _)].
  - apply preceded_inv in H as (j & u & Ht & H). apply tag_inv in Ht as ->.
    apply parse_format_spec_inv in H as (s & -> & Hs & Hl).
    exists (s1 ++ lit ":" ++ s), (is_empty s).
    split; [now rewrite <- !app_assoc|]. split.
    + constructor; auto. right. exists s. auto.
    + intros He. destruct s; [|discriminate]. now apply Hl.
  - exists s1, false. split; [reflexivity|]. split; [|discriminate].
    rewrite <- (app_nil_r s1). constructor; auto.
Qed.

(** * Pieces *)
Definition not_brace (c : char) : bool := negb (existsb (N.eqb c) (lit "{}")).
Lemma not_brace_spec c : not_brace c = negb (is_brace c).
Proof. unfold not_brace, is_brace. cbn. now rewrite orb_false_r. Qed.

Lemma many1_satisfy f i :
  many1 (satisfy f) i =
  match i with
  | c :: r => if f c then POk (snd (take_while f r)) (c :: fst (take_while f r)) else PErr
  | [] => PErr
  end.
Proof.
  unfold many1. destruct i as [|c r]; cbn [satisfy]; [reflexivity|].
  destruct (f c); [|reflexivity]. now rewrite many_satisfy by lia.
Qed.

Lemma text_eq i :
  recognize (many1 (none_of (lit "{}"))) i =
  match i with
  | c :: r => if not_brace c then POk (snd (take_while not_brace i)) (fst (take_while not_brace i))
              else PErr
  | [] => PErr
  end.
Proof.
  unfold recognize, none_of. fold not_brace.
  change (fun c => negb (existsb (N.eqb c) (lit "{}"))) with not_brace.
  rewrite many1_satisfy. destruct i as [|c r]; [reflexivity|]. cbn [take_while].
  destruct (not_brace c) eqn:E; [|reflexivity].
  pose proof (take_while_spec not_brace r) as Ht.
  destruct (take_while not_brace r) as [a b]; cbn [fst snd]. destruct Ht as (-> & _).
  f_equal. apply (consumed (c :: a) b).
Qed.

Lemma parse_piece_eq i :
  parse_piece i =
  match i with
  | [] => PErr
  | c :: r =>
      if not_brace c
      then POk (snd (take_while not_brace i)) (Lit (fst (take_while not_brace i)))
      else match tag (lit "{{") i with
           | POk rest _ => POk rest (Lit (lit "{"))
           | _ => match tag (lit "}}") i with
                  | POk rest _ => POk rest (Lit (lit "}"))
                  | _ => parse_arg i
                  end
           end
  end.
Proof.
  unfold Parse.parse_piece, parse_lit. cbn [alt]. unfold pmap at 1, pbind at 1. rewrite text_eq.
  destruct i as [|c r]; [reflexivity|].
  destruct (not_brace c); [reflexivity|].
  unfold value, pmap, pbind.
  destruct (tag_cases (lit "{{") (c :: r)) as [(rest & -> & _)| ->]; [reflexivity|].
  destruct (tag_cases (lit "}}") (c :: r)) as [(rest & -> & _)| ->]; [reflexivity|].
  destruct (parse_arg (c :: r)); reflexivity.
Qed.

Lemma piece_text t s :
  t <> [] -> Forall (fun c => is_brace c = false) t -> stops not_brace s ->
  parse_piece (t ++ s) = POk s (Lit t).
Proof.
  intros Hne Ht Hs. rewrite parse_piece_eq.
  assert (Ht' : Forall (fun c => not_brace c = true) t).
  { revert Ht; apply Forall_impl. intros c Hc. now rewrite not_brace_spec, Hc. }
  rewrite take_while_app by auto. destruct t as [|c t]; [congruence|]. cbn [app].
  inversion Ht'; subst. now rewrite H1.
Qed.

Lemma piece_open s : parse_piece (lit "{{" ++ s) = POk s (Lit (lit "{")).
Proof. rewrite parse_piece_eq. cbn [app lit]. destruct s; reflexivity. Qed.
Lemma piece_close s : parse_piece (lit "}}" ++ s) = POk s (Lit (lit "}")).
Proof. rewrite parse_piece_eq. cbn [app lit]. destruct s; reflexivity. Qed.

(** The inside of a placeholder does not start with an open brace. *)
Lemma placeholder_first a empty p x :
  placeholder_spelled a empty p -> exists c r, p ++ lit "}" ++ x = c :: r /\ c <> 123%N.
Proof.
  intros [arg s1 spec emp s2 Harg Hspec]. rewrite <- app_assoc.
  destruct Harg as [[-> ->]|(r & -> & Hr)].
  - destruct Hspec as [(_ & -> & _)|(s & _ & -> & _)]; cbn; do 2 eexists;
      (split; [reflexivity|discriminate]).
  - assert (H : exists c q, s1 = c :: q /\ c <> 123%N).
    { destruct Hr as [n s' [H _]|s' H].
      - apply decimal_value in H as (_ & Hne & HF). destruct s' as [|c q]; [congruence|].
        inversion HF; subst. exists c, q. split; [reflexivity|]. intros ->. discriminate.
      - destruct H as [c q Hc Hq]. exists c, q. split; [reflexivity|]. intros ->.
        rewrite (xs _ _ Hx) in Hc by reflexivity. destruct Hc; discriminate. }
    destruct H as (c & q & -> & Hc). cbn. eauto.
Qed.

Lemma piece_arg a empty p x :
  placeholder_spelled a empty p -> (empty = true -> starts_with_align x = false) ->
  parse_piece (lit "{" ++ p ++ lit "}" ++ x) = POk x (Arg a).
Proof.
  intros Hp Hem. rewrite parse_piece_eq.
  destruct (placeholder_first a empty p x Hp) as (c & r & E & Hc).
  replace (tag (lit "{{") (lit "{" ++ p ++ lit "}" ++ x)) with (@PErr unit).
  2: { rewrite E. cbn [lit app tag]. change (N_of_ascii "{") with 123%N. rewrite N.eqb_refl.
       destruct (N.eqb_spec 123 c) as [<-|]; [congruence|reflexivity]. }
  cbn [app lit]. change (not_brace (N_of_ascii "{")) with false. cbn iota.
  change (tag [N_of_ascii "}"; N_of_ascii "}"] (N_of_ascii "{" :: ?x)) with (@PErr unit).
  cbn iota. unfold Parse.parse_arg, pmap, delimited, pbind.
  change (N_of_ascii "{" :: p ++ N_of_ascii "}" :: x) with (lit "{" ++ p ++ lit "}" ++ x).
  rewrite tag_app. unfold cut. rewrite (parse_format_arg_app a empty p x) by auto.
  rewrite tag_app. reflexivity.
Qed.

(** What a successfully parsed piece looks like. *)
Lemma parse_piece_inv i rest pc :
  parse_piece i = POk rest pc ->
  (exists t, pc = Lit t /\ i = t ++ rest /\ t <> [] /\
             Forall (fun c => is_brace c = false) t /\ stops not_brace rest) \/
  (pc = Lit (lit "{") /\ i = lit "{{" ++ rest) \/
  (pc = Lit (lit "}") /\ i = lit "}}" ++ rest) \/
  (exists a empty p, pc = Arg a /\ i = lit "{" ++ p ++ lit "}" ++ rest /\
     placeholder_spelled a empty p /\ (empty = true -> starts_with_align rest = false)).
Proof.
  rewrite parse_piece_eq. destruct i as [|c r]; [discriminate|].
  destruct (not_brace c) eqn:Eb.
  - intros H. left. exists (fst (take_while not_brace (c :: r))).
    pose proof (take_while_spec not_brace (c :: r)) as Ht.
    cbn [take_while] in *. rewrite Eb in *. destruct (take_while not_brace r) as [a b].
    cbn [fst snd] in *. injection H as <- <-. destruct Ht as (E & HF & Hs).
    repeat split; auto; [discriminate|]. revert HF; apply Forall_impl. intros d Hd.
    rewrite not_brace_spec in Hd. now apply negb_true_iff in Hd.
  - destruct (tag_cases (lit "{{") (c :: r)) as [(rest' & -> & E)| ->].
    { intros H; injection H as -> <-. rewrite E. auto. }
    destruct (tag_cases (lit "}}") (c :: r)) as [(rest' & -> & E)| ->].
    { intros H; injection H as -> <-. rewrite E. auto. }
    intros H. do 3 right. unfold Parse.parse_arg in H. apply pmap_inv in H as (a & H & ->).
    apply delimited_inv in H as (i1 & u & i2 & v & H1 & H2 & H3).
    apply tag_inv in H1. apply tag_inv in H3 as ->. apply cut_inv in H2.
    apply parse_format_arg_inv in H2 as (p & empty & -> & Hp & Hl).
    exists a, empty, p. split; [reflexivity|]. split; [exact H1|]. split; [exact Hp|].
    intros He. specialize (Hl He). destruct rest; cbn in *; auto.
Qed.

Lemma parse_piece_consumes i rest pc :
  parse_piece i = POk rest pc -> exists pre, pre <> [] /\ i = pre ++ rest.
Proof.
  intros H. apply parse_piece_inv in H as [(t & -> & -> & Ht & _)|[(-> & ->)|[(-> & ->)|
    (a & e & p & -> & -> & _)]]].
  - eauto.
  - exists (lit "{{"). split; [discriminate|reflexivity].
  - exists (lit "}}"). split; [discriminate|reflexivity].
  - exists (lit "{" ++ p ++ lit "}"). split; [discriminate|now rewrite <- !app_assoc].
Qed.

(** * Whole strings *)
Lemma many_sound fuel b i acc l :
  (b = true -> stops not_brace i) ->
  many_loop fuel parse_piece i acc = POk [] l ->
  exists ps, l = rev acc ++ ps /\ spells b ps i.
Proof.
  revert b i acc; induction fuel as [|fuel IH]; intros b i acc Hb; [discriminate|].
  cbn [many_loop]. destruct (parse_piece i) as [rest pc| | |] eqn:E; try discriminate.
  - destruct (length rest =? length i); [discriminate|]. intros H.
    apply parse_piece_inv in E as [(t & -> & -> & Ht & HF & Hs)|[(-> & ->)|[(-> & ->)|
      (a & e & p & -> & -> & Hp & He)]]].
    + apply (IH true) in H as (ps & -> & Hps); [|auto].
      exists (Lit t :: ps). split; [cbn; now rewrite <- app_assoc|].
      destruct b; [|now constructor].
      exfalso. specialize (Hb eq_refl). destruct t as [|c t]; [congruence|]. cbn in Hb.
      rewrite not_brace_spec in Hb. inversion HF; subst. rewrite H1 in Hb. discriminate.
    + apply (IH false) in H as (ps & -> & Hps); [|discriminate].
      eexists. split; [cbn; now rewrite <- app_assoc|now constructor].
    + apply (IH false) in H as (ps & -> & Hps); [|discriminate].
      eexists. split; [cbn; now rewrite <- app_assoc|now constructor].
    + apply (IH false) in H as (ps & -> & Hps); [|discriminate].
      eexists. split; [cbn; now rewrite <- app_assoc|]. econstructor; eauto.
  - intros H. injection H as -> <-. exists []. rewrite app_nil_r. split; [reflexivity|constructor].
Qed.

Lemma spells_true_stops ps s : spells true ps s -> stops not_brace s.
Proof. intros H; inversion H; subst; cbn; auto. Qed.

Lemma length_app_neq (a b : str) : a <> [] -> (length b =? length (a ++ b)) = false.
Proof.
  intros H. apply Nat.eqb_neq. rewrite app_length. destruct a; [congruence|]. cbn. lia.
Qed.

Lemma many_complete b ps s :
  spells b ps s -> forall fuel acc, length s < fuel ->
  many_loop fuel parse_piece s acc = POk [] (rev acc ++ ps).
Proof.
  induction 1 as [b|t ps s Ht HF Hs IH|b ps s Hs IH|b ps s Hs IH|b a e p ps s Hp He Hs IH];
    intros fuel acc Hf; (destruct fuel as [|fuel]; [lia|]); cbn [many_loop].
  - rewrite parse_piece_eq. now rewrite app_nil_r.
  - rewrite piece_text by (eauto using spells_true_stops).
    rewrite length_app_neq by auto. rewrite app_length in Hf.
    rewrite IH by (destruct t; [congruence|cbn in *; lia]). cbn [rev]. now rewrite <- app_assoc.
  - rewrite piece_open, length_app_neq by discriminate. rewrite IH by (cbn in *; lia).
    cbn [rev]. now rewrite <- app_assoc.
  - rewrite piece_close, length_app_neq by discriminate. rewrite IH by (cbn in *; lia).
    cbn [rev]. now rewrite <- app_assoc.
  - rewrite (piece_arg a e p s) by auto.
    replace (lit "{" ++ p ++ lit "}" ++ s) with ((lit "{" ++ p ++ lit "}") ++ s) in *
      by now rewrite <- !app_assoc.
    rewrite length_app_neq by discriminate. rewrite app_length in Hf.
    rewrite IH by (cbn in Hf; lia). cbn [rev]. now rewrite <- app_assoc.
Qed.

Lemma parse_format_iff s ps : parse_format s = POk [] ps <-> spells false ps s.
Proof.
  unfold Parse.parse_format, all_consuming, many0. split.
  - destruct (many_loop (S (length s)) parse_piece s []) as [[|c r] l| | |] eqn:E; try discriminate.
    intros H; injection H as <-. apply (many_sound _ false) in E as (ps & -> & Hs);
      [exact Hs|discriminate].
  - intros H. now rewrite (many_complete false ps s H) by lia.
Qed.

(** * Verdicts *)
Definition calm {A} (p : parser A) : Prop := forall i, p i <> PPanic.

Lemma calm_pbind {A B} (p : parser A) (k : A -> parser B) :
  calm p -> (forall a, calm (k a)) -> calm (pbind p k).
Proof. intros Hp Hk i. unfold pbind. specialize (Hp i). destruct (p i); [apply Hk|congruence..]. Qed.
Lemma calm_pret {A} (a : A) : calm (pret a).
Proof. intros i. discriminate. Qed.
Lemma calm_pmap {A B} (p : parser A) (f : A -> B) : calm p -> calm (pmap p f).
Proof. intros. apply calm_pbind; auto using @calm_pret. Qed.
Lemma calm_value {A B} (v : B) (p : parser A) : calm p -> calm (value v p).
Proof. apply calm_pmap. Qed.
Lemma calm_tag t : calm (tag t).
Proof. intros i. destruct (tag_cases t i) as [(r & -> & _)| ->]; discriminate. Qed.
Lemma calm_alt {A} (ps : list (parser A)) : Forall calm ps -> calm (alt ps).
Proof.
  induction 1 as [|p ps Hp H IH]; intros i; [discriminate|]. cbn. specialize (Hp i).
  destruct (p i); [congruence|apply IH|congruence..].
Qed.
Lemma calm_opt {A} (p : parser A) : calm p -> calm (opt p).
Proof. intros H i. unfold opt. specialize (H i). destruct (p i); congruence. Qed.
Lemma calm_cut {A} (p : parser A) : calm p -> calm (cut p).
Proof. intros H i. unfold cut. specialize (H i). destruct (p i); congruence. Qed.

Lemma calm_parse_int : calm parse_int.
Proof. intros i. destruct (parse_int_cases i) as [(r & n & ->)| ->]; discriminate. Qed.
Lemma calm_arg_ref : calm parse_arg_ref.
Proof.
  intros i. destruct (parse_arg_ref_cases xid_start xid_continue i) as [(r & n & ->)| ->]; discriminate.
Qed.
Lemma calm_count : calm parse_count.
Proof.
  intros i. destruct (parse_count_cases xid_start xid_continue i) as [(r & n & ->)| ->]; discriminate.
Qed.

Ltac calm := repeat first
  [ apply calm_pbind; [|intros ?] | apply calm_pret | apply calm_pmap | apply calm_value
  | apply calm_tag | apply calm_opt | apply calm_cut | apply calm_parse_int | apply calm_arg_ref
  | apply calm_count
  | apply calm_alt; repeat (apply Forall_cons; [|]); try apply Forall_nil ].

Lemma calm_restyle : calm parse_restyle.
Proof. unfold parse_restyle, preceded, parse_color, parse_intensity. calm. Qed.

Lemma sep_loop_calm fuel i acc :
  length i < fuel -> sep_loop fuel (tag (lit ",")) (cut parse_restyle) i acc <> PPanic.
Proof.
  revert i acc; induction fuel as [|fuel IH]; intros i acc Hf; [lia|]. cbn [sep_loop].
  destruct (tag_cases (lit ",") i) as [(i1 & -> & ->)| ->]; [|discriminate].
  destruct (length i1 =? length (lit "," ++ i1)); [discriminate|].
  pose proof (calm_cut _ calm_restyle i1) as Hc.
  destruct (cut parse_restyle i1) as [i2 b| | |] eqn:E; try congruence.
  apply cut_inv in E. apply parse_restyle_inv in E as (a & s & -> & -> & Hs).
  apply IH. rewrite !app_length in Hf. cbn in Hf. lia.
Qed.

Lemma calm_attrs : calm (separated_list0 (tag (lit ",")) (cut parse_restyle)).
Proof.
  intros i. unfold separated_list0.
  pose proof (calm_cut _ calm_restyle i) as Hc.
  destruct (cut parse_restyle i) as [i1 b| | |] eqn:E; try congruence.
  apply sep_loop_calm. lia.
Qed.

(** A fill character other than a space. *)
Definition has_fill (i : str) : Prop :=
  exists f c r, i = f :: c :: r /\ f <> 32%N /\ is_align_char c = true.

Lemma spec_panic i : parse_format_spec i = PPanic <-> has_fill i.
Proof.
  assert (Hk : forall al, calm (fun i1 => pbind (opt parse_sign) (fun sg =>
      pbind (opt (value true (tag (lit "#")))) (fun alternate =>
      pbind (opt (value true (tag (lit "0")))) (fun zero =>
      pbind (opt parse_count) (fun width =>
      pbind (opt (preceded (tag (lit ".")) parse_count)) (fun precision =>
      pbind (opt (delimited (tag (lit "(")) (cut parse_style_diff) (tag (lit ")")))) (fun st =>
      pbind (opt parse_trait) (fun ht =>
      pret (mk_spec
          (mk_pfargs al sg (or_false alternate) (or_false zero) width precision
             (match ht with Some (h, _) => h | None => None end))
          (match st with Some d => d | None => diff_default end)
          (match ht with Some (_, t) => t | None => FDisplay end))))))))) i1)).
  { intros al. unfold delimited, preceded, parse_sign, parse_trait. calm. apply calm_attrs. }
  unfold Parse.parse_format_spec. unfold pbind at 1. rewrite fill_align_eq.
  unfold has_fill. split.
  - destruct i as [|f [|c r]].
    + intros H. exfalso. revert H. apply Hk.
    + destruct (align_of f); intros H; exfalso; revert H; apply Hk.
    + destruct (align_of c) as [a|] eqn:Ec.
      * destruct (N.eqb_spec f 32) as [->|Hf].
        -- intros H. exfalso. revert H. apply Hk.
        -- intros _. exists f, c, r. repeat split; auto.
           destruct (is_align_char c) eqn:E; [reflexivity|]. apply align_of_none in E. congruence.
      * destruct (align_of f); intros H; exfalso; revert H; apply Hk.
  - intros (f & c & r & -> & Hf & Hc). destruct (align_of c) as [a|] eqn:Ec.
    + destruct (N.eqb_spec f 32); [congruence|reflexivity].
    + apply align_of_none in Ec. congruence.
Qed.

Lemma piece_panic i :
  parse_piece i = PPanic ->
  exists s1 r, i = lit "{" ++ s1 ++ lit ":" ++ r /\ has_fill r /\
    (s1 = [] \/ exists a, arg_spelled a s1).
Proof.
  rewrite parse_piece_eq. destruct i as [|c r]; [discriminate|].
  destruct (not_brace c); [discriminate|].
  destruct (tag_cases (lit "{{") (c :: r)) as [(rest' & -> & E)| ->]; [discriminate|].
  destruct (tag_cases (lit "}}") (c :: r)) as [(rest' & -> & E)| ->]; [discriminate|].
  unfold Parse.parse_arg, pmap, delimited, pbind.
  destruct (tag_cases (lit "{") (c :: r)) as [(i1 & -> & E)| ->]; [|discriminate].
  rewrite E. unfold cut. destruct (parse_format_arg i1) as [i2 a| | |] eqn:Ea; try discriminate.
  - destruct (tag_cases (lit "}") i2) as [(rest' & -> & E')| ->]; discriminate.
  - intros _. unfold Parse.parse_format_arg, pbind in Ea.
    destruct (opt parse_arg_ref i1) as [i2 arg| | |] eqn:E1; try discriminate.
    + assert (B1 : exists s1, i1 = s1 ++ i2 /\ (s1 = [] \/ exists a, arg_spelled a s1)).
      { apply opt_inv in E1 as [(x & -> & H)|(-> & -> & _)].
        - apply parse_arg_ref_inv in H as (s & -> & Hs). exists s. eauto.
        - exists []. auto. }
      destruct B1 as (s1 & -> & Hs1).
      unfold opt, preceded, pbind in Ea.
      destruct (tag_cases (lit ":") i2) as [(i3 & E3 & ->)|E3]; rewrite E3 in Ea; [|discriminate].
      destruct (parse_format_spec i3) eqn:E4; try discriminate.
      apply spec_panic in E4. exists s1, i3. auto.
    + exfalso. revert E1. apply calm_opt, calm_arg_ref.
Qed.

Lemma many_panic fuel i acc :
  length i < fuel -> many_loop fuel parse_piece i acc = PPanic ->
  exists pre i', i = pre ++ i' /\ parse_piece i' = PPanic.
Proof.
  revert i acc; induction fuel as [|fuel IH]; intros i acc Hf; [lia|]. cbn [many_loop].
  destruct (parse_piece i) as [rest pc| | |] eqn:E; try discriminate.
  - apply parse_piece_consumes in E as (pre & Hp & ->).
    rewrite length_app_neq by exact Hp. rewrite app_length in Hf. intros H.
    apply IH in H as (pre' & i' & -> & Hi); [|destruct pre; [congruence|cbn in Hf; lia]].
    exists (pre ++ pre'), i'. split; [now rewrite app_assoc|exact Hi].
  - intros _. exists [], i. auto.
Qed.

Lemma parse_format_verdict s :
  (exists ps, parse_format s = POk [] ps) \/ parse_format s = PErr \/ parse_format s = PFail \/
  parse_format s = PPanic /\
  exists pre arg r, s = pre ++ lit "{" ++ arg ++ lit ":" ++ r /\ has_fill r /\
    (arg = [] \/ exists a, arg_spelled a arg).
Proof.
  unfold Parse.parse_format, all_consuming, many0.
  destruct (many_loop (S (length s)) parse_piece s []) as [[|c r] l| | |] eqn:E; eauto.
  right; right; right. split; [reflexivity|].
  apply many_panic in E as (pre & i' & -> & Hi); [|lia].
  apply piece_panic in Hi as (s1 & r & -> & Hf & Hs). eauto 8.
Qed.
End Xid.
