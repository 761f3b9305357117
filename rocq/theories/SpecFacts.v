(** The format_spec parser against the grammar. *)
From Verif Require Import Base Style Nom Parse SpecGrammar ParseFacts.

Section Xid.
Variable xid_start xid_continue : char -> bool.
Hypothesis Hx : xid_ok xid_start xid_continue.

Local Notation identifier := (identifier xid_start xid_continue).
Local Notation parse_arg_ref := (parse_arg_ref xid_start xid_continue).
Local Notation parse_count := (parse_count xid_start xid_continue).
Local Notation parse_format_spec := (parse_format_spec xid_start xid_continue).
Local Notation ident := (ident xid_start xid_continue).
Local Notation arg_spelled := (arg_spelled xid_start xid_continue).
Local Notation count_spelled := (count_spelled xid_start xid_continue).
Local Notation width_spelled := (width_spelled xid_start xid_continue).
Local Notation precision_spelled := (precision_spelled xid_start xid_continue).
Local Notation spec_spelled := (spec_spelled xid_start xid_continue).

(** * Identifiers *)
Definition ident_start (c : char) : bool := xid_start c || (95 =? c)%N.

Lemma identifier_eq i :
  identifier i =
  match i with
  | c :: r => if ident_start c
              then POk (snd (take_while xid_continue r)) (c :: fst (take_while xid_continue r))
              else PErr
  | [] => PErr
  end.
Proof.
  unfold Parse.identifier, recognize, ppair, pbind, alt, pchar.
  destruct i as [|c r]; [reflexivity|]. unfold ident_start. cbn [satisfy].
  assert (G : match many0 (satisfy xid_continue) r with
              | POk rest a => pret (c, a) rest
              | PErr => PErr | PFail => PFail | PPanic => PPanic end
              = POk (snd (take_while xid_continue r)) (c, fst (take_while xid_continue r)))
    by now rewrite many0_satisfy.
  assert (K : forall rest (x : char * str), 
     rest = snd (take_while xid_continue r) -> x = (c, fst (take_while xid_continue r)) ->
     POk rest (firstn (length (c :: r) - length rest) (c :: r))
     = POk (snd (take_while xid_continue r)) (c :: fst (take_while xid_continue r))).
  { intros rest x -> _. f_equal. pose proof (take_while_spec xid_continue r) as Ht.
    destruct (take_while xid_continue r) as [a b]; cbn [fst snd].
    destruct Ht as (-> & _). change (c :: a ++ b) with ((c :: a) ++ b). apply consumed. }
  destruct (xid_start c); cbn [orb].
  - rewrite G. now apply (K _ (c, fst (take_while xid_continue r))).
  - destruct (95 =? c)%N; [|reflexivity]. rewrite G.
    now apply (K _ (c, fst (take_while xid_continue r))).
Qed.

Lemma ident_start_spec c : ident_start c = true <-> xid_start c = true \/ c = 95%N.
Proof. unfold ident_start. rewrite orb_true_iff, N.eqb_eq. intuition congruence. Qed.

Lemma identifier_inv i rest s :
  identifier i = POk rest s -> i = s ++ rest /\ ident s /\ stops xid_continue rest.
Proof.
  rewrite identifier_eq. destruct i as [|c r]; [discriminate|].
  destruct (ident_start c) eqn:E; [|discriminate]. apply ident_start_spec in E.
  pose proof (take_while_spec xid_continue r) as Ht.
  destruct (take_while xid_continue r) as [a b]; cbn [fst snd]. destruct Ht as (-> & Ha & Hb).
  intros H; injection H as <- <-. repeat split; auto.
Qed.

Lemma identifier_app s rest :
  ident s -> stops xid_continue rest -> identifier (s ++ rest) = POk rest s.
Proof.
  intros [c r Hc Hr] Hs. rewrite identifier_eq. cbn [app].
  apply ident_start_spec in Hc. now rewrite Hc, take_while_app.
Qed.

Lemma identifier_err c r : ident_start c = false -> identifier (c :: r) = PErr.
Proof. intros H. now rewrite identifier_eq, H. Qed.

Lemma identifier_cases i : (exists rest s, identifier i = POk rest s) \/ identifier i = PErr.
Proof. rewrite identifier_eq. destruct i as [|c r]; [auto|]. destruct (ident_start c); eauto. Qed.

(** ASCII facts. *)
Lemma xs c : (c < 128)%N -> xid_start c = ascii_letter c.
Proof. apply Hx. Qed.
Lemma xc c : (c < 128)%N -> xid_continue c = ascii_letter c || ascii_digit c || (c =? 95)%N.
Proof. apply Hx. Qed.

Lemma ident_start_not_digit c : ident_start c = true -> is_digit c = false.
Proof.
  rewrite ident_start_spec. intros [H| ->]; [|reflexivity].
  destruct (N.ltb_spec c 128) as [Hl|Hl].
  - rewrite xs in H by exact Hl. unfold ascii_letter in H. unfold is_digit.
    destruct (N.leb_spec 65 c), (N.leb_spec c 90), (N.leb_spec 97 c), (N.leb_spec c 122),
      (N.leb_spec 48 c), (N.leb_spec c 57); cbn in *; try discriminate; try reflexivity; lia.
  - unfold is_digit. destruct (N.leb_spec c 57); [lia|]. apply andb_false_r.
Qed.

(** * Argument references *)
Lemma parse_arg_ref_eq i :
  parse_arg_ref i =
  match parse_int i with
  | POk rest n => POk rest (Positional n)
  | _ => match identifier i with POk rest s => POk rest (Named s) | _ => PErr end
  end.
Proof.
  unfold Parse.parse_arg_ref. cbn [alt]. unfold pmap at 1, pbind at 1. fold parse_int.
  destruct (parse_int_cases i) as [(rest & n & ->)| ->]; [reflexivity|].
  unfold pmap, pbind. destruct (identifier_cases i) as [(rest & s & ->)| ->]; reflexivity.
Qed.

Lemma parse_arg_ref_cases i :
  (exists rest r, parse_arg_ref i = POk rest r) \/ parse_arg_ref i = PErr.
Proof.
  rewrite parse_arg_ref_eq. destruct (parse_int_cases i) as [(rest & n & ->)| ->]; [eauto|].
  destruct (identifier_cases i) as [(rest & s & ->)| ->]; eauto.
Qed.

Lemma parse_arg_ref_inv i rest r :
  parse_arg_ref i = POk rest r -> exists s, i = s ++ rest /\ arg_spelled r s.
Proof.
  rewrite parse_arg_ref_eq. destruct (parse_int_cases i) as [(rest' & n & E)|E]; rewrite E.
  - intros H; injection H as <- <-. apply parse_int_inv in E as (s & -> & Hi & _).
    exists s. split; [reflexivity|now constructor].
  - destruct (identifier_cases i) as [(rest' & s & E')|E']; rewrite E'; [|discriminate].
    intros H; injection H as <- <-. apply identifier_inv in E' as (-> & Hi & _).
    exists s. split; [reflexivity|now constructor].
Qed.

(** What may follow an argument reference. *)
Definition ends_ref (rest : str) : Prop := stops xid_continue rest /\ stops is_digit rest.

Lemma parse_arg_ref_app r s rest :
  arg_spelled r s -> ends_ref rest -> parse_arg_ref (s ++ rest) = POk rest r.
Proof.
  intros [n s' Hi|s' Hi] [H1 H2]; rewrite parse_arg_ref_eq.
  - now rewrite (parse_int_app n).
  - rewrite parse_int_err, identifier_app by
      (try assumption; inversion Hi as [c r' Hc Hr]; subst; cbn;
       apply ident_start_not_digit, ident_start_spec, Hc). reflexivity.
Qed.

Lemma parse_arg_ref_err c r :
  ident_start c = false -> is_digit c = false -> parse_arg_ref (c :: r) = PErr.
Proof.
  intros H1 H2. now rewrite parse_arg_ref_eq, parse_int_err, identifier_err by assumption.
Qed.

(** * Counts *)
Lemma parse_count_eq i :
  parse_count i =
  match match parse_arg_ref i with
        | POk (36%N :: rest) r => Some (rest, r) | _ => None end with
  | Some (rest, r) => POk rest (CParam r)
  | None => match parse_int i with POk rest n => POk rest (CInt n) | _ => PErr end
  end.
Proof.
  unfold Parse.parse_count. cbn [alt]. unfold pmap, terminated, pbind. fold parse_int.
  destruct (parse_arg_ref_cases i) as [(rest & r & ->)| ->].
  - destruct rest as [|c rest]; [cbn|].
    + destruct (parse_int_cases i) as [(rest & n & ->)| ->]; reflexivity.
    + cbn [tag lit]. destruct (N.eqb_spec (N_of_ascii "$") c) as [<-|Hn]; [reflexivity|].
      replace (match c with 36%N => Some (rest, r) | _ => None end) with (@None (str * arg_ref)).
      * destruct (parse_int_cases i) as [(rest' & n & ->)| ->]; reflexivity.
      * cbn in Hn. destruct c as [|p]; [reflexivity|].
        do 6 (destruct p as [p|p|]; try reflexivity; try congruence).
  - destruct (parse_int_cases i) as [(rest & n & ->)| ->]; reflexivity.
Qed.

Lemma parse_count_cases i :
  (exists rest c, parse_count i = POk rest c) \/ parse_count i = PErr.
Proof.
  rewrite parse_count_eq.
  destruct (match parse_arg_ref i with POk (36%N :: rest) r => Some (rest, r) | _ => None end)
    as [[rest r]|]; [eauto|].
  destruct (parse_int_cases i) as [(rest & n & ->)| ->]; eauto.
Qed.

Lemma parse_count_inv i rest c :
  parse_count i = POk rest c -> exists s, i = s ++ rest /\ count_spelled c s.
Proof.
  unfold Parse.parse_count. intros H. apply alt_inv in H as (p & Hin & H).
  destruct Hin as [<-|[<-|[]]]; apply pmap_inv in H as (x & H & ->).
  - unfold terminated in H. apply pbind_inv in H as (i1 & r & H1 & H).
    apply pbind_inv in H as (i2 & u & H2 & H). injection H as -> ->.
    apply tag_inv in H2 as ->. apply parse_arg_ref_inv in H1 as (s & -> & Hs).
    exists (s ++ lit "$"). split; [now rewrite <- app_assoc|now constructor].
  - apply parse_int_inv in H as (s & -> & Hs & _). exists s. split; [reflexivity|now constructor].
Qed.

(** What may follow a count. *)
Definition ends_count (rest : str) : Prop :=
  stops is_digit rest /\ match rest with c :: _ => c <> 36%N | [] => True end.

Lemma dollar_ends : forall r, ends_ref (lit "$" ++ r).
Proof. intros r. split; cbn; [now rewrite xc by reflexivity|reflexivity]. Qed.

Lemma parse_count_app c s rest :
  count_spelled c s -> ends_count rest -> parse_count (s ++ rest) = POk rest c.
Proof.
  intros [r s' Hr|n s' Hi] [H1 H2]; rewrite parse_count_eq.
  - rewrite <- app_assoc, (parse_arg_ref_app r s' _ Hr (dollar_ends rest)). reflexivity.
  - rewrite parse_arg_ref_eq, (parse_int_app n) by auto.
    destruct rest as [|d rest]; [reflexivity|].
    replace (match d with 36%N => Some (rest, Positional n) | _ => None end)
      with (@None (str * arg_ref)); [reflexivity|].
    destruct d as [|p]; [reflexivity|].
    do 6 (destruct p as [p|p|]; try reflexivity; try congruence).
Qed.

Lemma parse_count_err c r :
  ident_start c = false -> is_digit c = false -> parse_count (c :: r) = PErr.
Proof.
  intros H1 H2. rewrite parse_count_eq, parse_arg_ref_err by assumption.
  now rewrite parse_int_err.
Qed.

Lemma parse_count_err2 c d r :
  is_digit c = false -> xid_continue d = false -> d <> 36%N -> parse_count (c :: d :: r) = PErr.
Proof.
  intros H1 H2 H3. rewrite parse_count_eq.
  rewrite parse_arg_ref_eq, identifier_eq, parse_int_err by exact H1. cbn [take_while].
  rewrite H2. cbn [fst snd]. destruct (ident_start c); [|reflexivity].
  replace (match d with 36%N => Some (r, Named [c]) | _ => None end)
    with (@None (str * arg_ref)); [reflexivity|].
  destruct d as [|p]; [reflexivity|].
  do 6 (destruct p as [p|p|]; try reflexivity; try congruence).
Qed.

(** * What the parts of a spec start with *)
Definition starts (l : str) (r : str) : Prop := exists c r', r = c :: r' /\ In c l.

Definition after_style : str := lit "?xXopbeEs}".
Definition after_precision : str := lit "(?xXopbeEs}".
Definition after_width : str := lit ".(?xXopbeEs}".

Lemma starts_weaken l l' r : (forall c, In c l -> In c l') -> starts l r -> starts l' r.
Proof. intros H (c & r' & -> & Hc). exists c, r'. auto. Qed.

Lemma type_starts hex tr s x : type_spelled hex tr s -> starts after_style (s ++ lit "}" ++ x).
Proof. intros []; cbn; do 2 eexists; split; try reflexivity; cbn; tauto. Qed.

Lemma style_starts st s r :
  style_spelled st s -> starts after_style r -> starts after_precision (s ++ r).
Proof.
  intros [|l s' H] Hr.
  - revert Hr; apply starts_weaken; intros c; cbn; tauto.
  - exists 40%N. eexists. split; [reflexivity|cbn; tauto].
Qed.

Lemma precision_starts p s r :
  precision_spelled p s -> starts after_precision r -> starts after_width (s ++ r).
Proof.
  intros [|c s' H] Hr.
  - revert Hr; apply starts_weaken; intros c; cbn; tauto.
  - exists 46%N. eexists. split; [reflexivity|cbn; tauto].
Qed.

Ltac in_cases H := cbn [In lit after_style after_precision after_width] in H;
  repeat (destruct H as [H|H]; [subst|]); try (destruct H; fail).

Lemma after_width_ends r : starts after_width r -> ends_count r.
Proof.
  intros (c & r' & -> & Hc). unfold ends_count. cbn [stops].
  cbn in Hc. repeat (destruct Hc as [Hc|Hc]; [subst; split; [reflexivity|discriminate]|]). destruct Hc.
Qed.

(** * Completeness of the parts *)
Lemma trait_app hex tr s x :
  type_spelled hex tr s ->
  opt parse_trait (s ++ lit "}" ++ x)
  = POk (lit "}" ++ x) (match s with [] => None | _ => Some (hex, tr) end).
Proof. intros []; reflexivity. Qed.

Lemma style_app st s r :
  style_spelled st s -> starts after_style r ->
  opt (delimited (tag (lit "(")) (cut parse_style_diff) (tag (lit ")"))) (s ++ r)
  = POk r (match s with [] => None | _ => Some st end).
Proof.
  intros [|l s' H] (c & r' & -> & Hc).
  - cbn [app]. unfold opt, delimited, pbind. cbn [lit]. rewrite tag1_neq; [reflexivity|].
    intros ->. cbn in Hc. intuition discriminate.
  - unfold opt, delimited, pbind. rewrite <- !app_assoc, tag_app. unfold cut.
    rewrite (parse_style_diff_app l s' _ H) by (intros q; discriminate).
    rewrite tag_app. reflexivity.
Qed.

Lemma precision_app p s r :
  precision_spelled p s -> starts after_precision r ->
  opt (preceded (tag (lit ".")) parse_count) (s ++ r) = POk r p.
Proof.
  intros [|c s' H] Hr; unfold opt, preceded, pbind.
  - cbn [app]. destruct Hr as (c & r' & -> & Hc). cbn [lit]. rewrite tag1_neq; [reflexivity|].
    intros ->. cbn in Hc. intuition discriminate.
  - rewrite <- app_assoc, tag_app, (parse_count_app c); auto.
    apply after_width_ends. revert Hr; apply starts_weaken. intros d; cbn; tauto.
Qed.

(** What is left when there is no width does not look like a count. *)
Lemma no_count_precision p s6 st s7 hex tr s8 x :
  precision_spelled p s6 -> style_spelled st s7 -> type_spelled hex tr s8 ->
  parse_count (s6 ++ s7 ++ s8 ++ lit "}" ++ x) = PErr.
Proof.
  intros H6 H7 H8.
  assert (E1 : forall c r, (c < 128)%N -> ascii_letter c = false -> c <> 95%N -> is_digit c = false ->
            parse_count (c :: r) = PErr).
  { intros c r Hc Hl H95 Hd. apply parse_count_err; [|exact Hd]. unfold ident_start.
    rewrite xs, Hl by exact Hc. cbn [orb]. apply N.eqb_neq. congruence. }
  assert (E2 : forall c d r, is_digit c = false -> (d < 128)%N ->
            ascii_letter d || ascii_digit d || (d =? 95)%N = false -> d <> 36%N ->
            parse_count (c :: d :: r) = PErr).
  { intros c d r Hc Hd Hl H36. apply parse_count_err2; auto. now rewrite xc. }
  destruct H6 as [|c s6 H6]; [|cbn [app lit]; apply E1; try reflexivity; discriminate].
  destruct H7 as [|l s7 H7]; [|cbn [app lit]; apply E1; try reflexivity; discriminate].
  destruct H8; cbn [app lit];
    first [ apply E1; [reflexivity|reflexivity|discriminate|reflexivity]
          | apply E2; [reflexivity|reflexivity|reflexivity|discriminate] ].
Qed.

Lemma width_app w s5 p s6 st s7 hex tr s8 x :
  width_spelled w s5 -> precision_spelled p s6 -> style_spelled st s7 -> type_spelled hex tr s8 ->
  opt parse_count (s5 ++ s6 ++ s7 ++ s8 ++ lit "}" ++ x)
  = POk (s6 ++ s7 ++ s8 ++ lit "}" ++ x) w.
Proof.
  intros [|c s5' H5] H6 H7 H8; unfold opt.
  - cbn [app]. now rewrite (no_count_precision p s6 st s7 hex tr s8).
  - rewrite (parse_count_app c s5'); auto. apply after_width_ends.
    eapply precision_starts, style_starts, type_starts; eauto.
Qed.

(** First characters, as a predicate on characters below. *)
Definition plain_first (c : char) : Prop :=
  (c = 46 \/ c = 40 \/ c = 63 \/ c = 125)%N \/ is_digit c = true \/ ident_start c = true.

Lemma after_width_first c : In c after_width -> plain_first c.
Proof.
  intros Hc. unfold plain_first, ident_start. cbn in Hc.
  repeat (destruct Hc as [<-|Hc];
    [first [ left; tauto | right; right; rewrite xs by reflexivity; reflexivity ]|]).
  destruct Hc.
Qed.

Lemma count_first c s : count_spelled c s -> exists d r, s = d :: r /\ (is_digit d = true \/ ident_start d = true).
Proof.
  assert (Hi : forall n s, integer n s -> exists d r, s = d :: r /\ (is_digit d = true \/ ident_start d = true)).
  { intros n s' [H _]. apply decimal_value in H as (_ & Hne & HF).
    destruct s' as [|d r]; [congruence|]. inversion HF; subst. eauto. }
  intros [r s' [n s'' H|s'' H]|n s' H].
  - destruct (Hi n s'' H) as (d & q & -> & Hd). cbn. eauto.
  - destruct H as [d q Hd Hq]. apply ident_start_spec in Hd. cbn. eauto.
  - eauto.
Qed.

Lemma width_first w s5 r :
  width_spelled w s5 -> starts after_width r -> exists c r', s5 ++ r = c :: r' /\ plain_first c.
Proof.
  intros [|c s5' H] Hr.
  - destruct Hr as (c & r' & -> & Hc). exists c, r'. split; [reflexivity|].
    now apply after_width_first.
  - apply count_first in H as (d & q & -> & Hd). exists d, (q ++ r). split; [reflexivity|].
    unfold plain_first. tauto.
Qed.

Lemma plain_first_not c d :
  plain_first c -> (d < 128)%N -> ascii_letter d || ascii_digit d || (d =? 95)%N = false ->
  ~ In d [46; 40; 63; 125]%N -> c <> d.
Proof.
  intros Hc Hd Hf Hin ->. destruct Hc as [Hc|[Hc|Hc]].
  - apply Hin. cbn. intuition congruence.
  - rewrite is_digit_ascii in Hc. rewrite Hc, orb_true_r in Hf. discriminate.
  - unfold ident_start in Hc. rewrite xs in Hc by exact Hd.
    rewrite N.eqb_sym in Hc. destruct (ascii_letter d); [discriminate|].
    cbn in Hc. rewrite Hc, orb_true_r in Hf. discriminate.
Qed.

Lemma zero_app zero s4 r c r' :
  flag_spelled "0" zero s4 -> r = c :: r' -> (zero = false -> c <> 48%N) ->
  opt (value true (tag (lit "0"))) (s4 ++ r) = POk r (if zero then Some true else None).
Proof.
  intros -> -> Hz. destruct zero.
  - unfold opt, value, pmap, pbind. rewrite tag_app. reflexivity.
  - cbn [app]. unfold opt, value, pmap, pbind. cbn [lit]. rewrite tag1_neq by auto. reflexivity.
Qed.

Lemma hash_app b s3 r c r' :
  flag_spelled "#" b s3 -> r = c :: r' -> c <> 35%N ->
  opt (value true (tag (lit "#"))) (s3 ++ r) = POk r (if b then Some true else None).
Proof.
  intros -> -> Hz. destruct b.
  - unfold opt, value, pmap, pbind. rewrite tag_app. reflexivity.
  - cbn [app]. unfold opt, value, pmap, pbind. cbn [lit]. rewrite tag1_neq by auto. reflexivity.
Qed.

Lemma sign_app sg s2 r c r' :
  sign_spelled sg s2 -> r = c :: r' -> c <> 43%N -> c <> 45%N ->
  opt parse_sign (s2 ++ r) = POk r sg.
Proof.
  intros [| |] -> H1 H2; [|reflexivity|reflexivity].
  cbn [app]. unfold opt, parse_sign, alt, value, pmap, pbind. cbn [lit].
  rewrite !tag1_neq by auto. reflexivity.
Qed.

(** * Alignment *)
Lemma parse_align_spec i :
  parse_align i =
  match i with
  | c :: r => if (c =? 60)%N then POk r PLeft else if (c =? 94)%N then POk r PCenter
              else if (c =? 62)%N then POk r PRight else PErr
  | [] => PErr
  end.
Proof.
  destruct i as [|c r]; [reflexivity|]. unfold parse_align, alt, value, pmap, pbind. cbn [lit tag].
  rewrite !(N.eqb_sym c).
  change (N_of_ascii "<") with 60%N; change (N_of_ascii "^") with 94%N;
    change (N_of_ascii ">") with 62%N.
  destruct (60 =? c)%N; [destruct r; reflexivity|]. destruct (94 =? c)%N; [destruct r; reflexivity|].
  destruct (62 =? c)%N; [destruct r; reflexivity|]. reflexivity.
Qed.

Definition align_of (c : char) : option p_align :=
  if (c =? 60)%N then Some PLeft else if (c =? 94)%N then Some PCenter
  else if (c =? 62)%N then Some PRight else None.

Lemma align_of_none c : align_of c = None <-> is_align_char c = false.
Proof.
  unfold align_of, is_align_char.
  destruct (c =? 60)%N, (c =? 94)%N, (c =? 62)%N; cbn; split; congruence.
Qed.

Lemma parse_align_eq i :
  parse_align i = match i with
                  | c :: r => match align_of c with Some a => POk r a | None => PErr end
                  | [] => PErr
                  end.
Proof.
  rewrite parse_align_spec. destruct i as [|c r]; [reflexivity|]. unfold align_of.
  destruct (c =? 60)%N, (c =? 94)%N, (c =? 62)%N; reflexivity.
Qed.

Lemma fill_align_eq i :
  parse_fill_align i =
  match i with
  | f :: ((c :: r) as r1) =>
      match align_of c with
      | Some a => if N.eqb f 32 then POk r (Some a) else PPanic
      | None => match align_of f with Some a => POk r1 (Some a) | None => POk i None end
      end
  | [f] => match align_of f with Some a => POk [] (Some a) | None => POk i None end
  | [] => POk [] None
  end.
Proof.
  unfold parse_fill_align, opt, alt, ppair, pmap, pbind, anychar.
  destruct i as [|f r1]; [reflexivity|]. cbn [satisfy].
  rewrite (parse_align_eq r1), (parse_align_eq (f :: r1)).
  destruct r1 as [|c r].
  - destruct (align_of f); reflexivity.
  - destruct (align_of c); [reflexivity|]. destruct (align_of f); reflexivity.
Qed.

Lemma align_spelled_cases a s :
  align_spelled (Some a) s ->
  exists c, align_of c = Some a /\ (s = [c] \/ s = [32%N; c]).
Proof.
  intros H. remember (Some a) as o eqn:E. revert a E.
  induction H as [| | | |b s H IH Hl]; intros a E; try discriminate.
  - injection E as <-. exists 60%N. auto.
  - injection E as <-. exists 94%N. auto.
  - injection E as <-. exists 62%N. auto.
  - injection E as <-. destruct (IH b eq_refl) as (c & Hc & [->| ->]); [|discriminate Hl].
    exists c. split; [exact Hc|right; reflexivity].
Qed.

Lemma align_app al s1 r :
  align_spelled al s1 ->
  (exists c r', r = c :: r' /\ is_align_char c = false /\
     (s1 = [] -> match r' with d :: _ => is_align_char d = false | [] => True end)) ->
  parse_fill_align (s1 ++ r) = POk r al.
Proof.
  intros H (c & r' & -> & Hc & Hd). rewrite fill_align_eq. destruct al as [a|].
  - apply align_spelled_cases in H as (d & Ha & [->| ->]); cbn [app].
    + rewrite (proj2 (align_of_none c)) by exact Hc. now rewrite Ha.
    + now rewrite Ha.
  - inversion H; subst. cbn [app]. specialize (Hd eq_refl).
    rewrite (proj2 (align_of_none c) Hc). destruct r' as [|d q]; [reflexivity|].
    now rewrite (proj2 (align_of_none d) Hd).
Qed.

(** * No alignment characters after the alignment *)
Definition no_align (s : str) : Prop := Forall (fun c => is_align_char c = false) s.

Lemma xid_not_align c : ident_start c = true \/ xid_continue c = true -> is_align_char c = false.
Proof.
  intros H. destruct (is_align_char c) eqn:E; [|reflexivity]. exfalso.
  unfold is_align_char in E.
  assert (Hc : c = 60%N \/ c = 94%N \/ c = 62%N).
  { apply orb_prop in E as [E|E]; [apply orb_prop in E as [E|E]|];
      apply N.eqb_eq in E; auto. }
  unfold ident_start in H.
  destruct Hc as [-> |[-> | ->]]; rewrite xs, xc in H by reflexivity; destruct H; discriminate.
Qed.

Lemma digits_no_align s : Forall (fun c => is_digit c = true) s -> no_align s.
Proof.
  intros H; induction H as [|c s Hc H IH]; constructor; auto.
  unfold is_digit, is_align_char in *.
  destruct (N.leb_spec 48 c), (N.leb_spec c 57); cbn in Hc; try discriminate.
  destruct (N.eqb_spec c 60), (N.eqb_spec c 94), (N.eqb_spec c 62); try reflexivity; lia.
Qed.

Lemma integer_no_align n s : integer n s -> no_align s.
Proof. intros [H _]. apply decimal_value in H as (_ & _ & H). now apply digits_no_align. Qed.

Lemma ref_no_align r s : arg_spelled r s -> no_align s.
Proof.
  intros [n s' H|s' H]; [now apply integer_no_align in H|].
  destruct H as [c q Hc Hq]. constructor.
  - apply xid_not_align. left. now apply ident_start_spec.
  - revert Hq; apply Forall_impl. intros d Hd. apply xid_not_align. auto.
Qed.

Lemma count_no_align c s : count_spelled c s -> no_align s.
Proof.
  intros [r s' H|n s' H]; [|now apply integer_no_align in H].
  apply Forall_app. split; [now apply ref_no_align in H|repeat constructor].
Qed.

Lemma attr_no_align a s : attr_spelled a s -> no_align s.
Proof. intros [c s' H|c s' H| | |]; try destruct H; repeat constructor. Qed.

Lemma attrs_no_align l s : attrs_spelled l s -> no_align s.
Proof.
  induction 1 as [a s H|a s l t H _ IH].
  - now apply attr_no_align in H.
  - apply Forall_app. split; [now apply attr_no_align in H|].
    apply Forall_app. split; [repeat constructor|exact IH].
Qed.

Lemma parts_no_align sg s2 alt s3 zero s4 w s5 p s6 st s7 hex tr s8 :
  sign_spelled sg s2 -> flag_spelled "#" alt s3 -> flag_spelled "0" zero s4 ->
  width_spelled w s5 -> precision_spelled p s6 -> style_spelled st s7 -> type_spelled hex tr s8 ->
  no_align (s2 ++ s3 ++ s4 ++ s5 ++ s6 ++ s7 ++ s8).
Proof.
  intros H2 -> -> H5 H6 H7 H8. unfold no_align. rewrite !Forall_app. repeat split.
  - destruct H2; repeat constructor.
  - destruct alt; repeat constructor.
  - destruct zero; repeat constructor.
  - destruct H5 as [|c s H]; [constructor|now apply count_no_align in H].
  - destruct H6 as [|c s H]; [constructor|].
    apply Forall_app. split; [repeat constructor|now apply count_no_align in H].
  - destruct H7 as [|l s H]; [constructor|]. rewrite !Forall_app.
    repeat split; try (repeat constructor). now apply attrs_no_align in H.
  - destruct H8; repeat constructor.
Qed.

(** * The whole spec *)
Lemma parse_format_spec_app spec s x :
  spec_spelled spec s -> (s = [] -> starts_with_align x = false) ->
  parse_format_spec (s ++ lit "}" ++ x) = POk (lit "}" ++ x) spec.
Proof.
  intros [al sg alt zero w p hex st tr s1 s2 s3 s4 s5 s6 s7 s8 H1 H2 H3 H4 H5 H6 H7 H8 Hz] Hempty.
  rewrite <- !app_assoc. unfold Parse.parse_format_spec.
  pose proof (type_starts hex tr s8 x H8) as S8.
  pose proof (style_starts st s7 _ H7 S8) as S7.
  pose proof (precision_starts p s6 _ H6 S7) as S6.
  destruct (width_first w s5 _ H5 S6) as (c5 & r5 & E5 & P5).
  (* first character from the zero flag on *)
  assert (S4 : exists c r, s4 ++ s5 ++ s6 ++ s7 ++ s8 ++ lit "}" ++ x = c :: r /\ plain_first c).
  { rewrite H4. destruct zero.
    - exists 48%N. eexists. split; [reflexivity|]. right; left; reflexivity.
    - cbn [app]. eauto. }
  destruct S4 as (c4 & r4 & E4 & P4).
  assert (S3 : exists c r, s3 ++ s4 ++ s5 ++ s6 ++ s7 ++ s8 ++ lit "}" ++ x = c :: r
                 /\ c <> 43%N /\ c <> 45%N).
  { rewrite H3. destruct alt.
    - exists 35%N. eexists. split; [reflexivity|]. split; discriminate.
    - cbn [app]. exists c4, r4. split; [exact E4|].
      split; eapply plain_first_not; eauto; try reflexivity; cbn; intuition discriminate. }
  destruct S3 as (c3 & r3 & E3 & N43 & N45).
  (* alignment *)
  unfold pbind at 1. rewrite (align_app al s1); [|exact H1|].
  2: { pose proof (parts_no_align sg s2 alt s3 zero s4 w s5 p s6 st s7 hex tr s8
                     H2 H3 H4 H5 H6 H7 H8) as Hn.
       replace (s2 ++ s3 ++ s4 ++ s5 ++ s6 ++ s7 ++ s8 ++ lit "}" ++ x)
         with ((s2 ++ s3 ++ s4 ++ s5 ++ s6 ++ s7 ++ s8) ++ lit "}" ++ x)
         by now rewrite <- !app_assoc.
       revert Hn Hempty.
       generalize (s2 ++ s3 ++ s4 ++ s5 ++ s6 ++ s7 ++ s8). intros comp Hn Hempty.
       destruct comp as [|c comp]; [|destruct comp as [|d comp]]; cbn [app lit].
       - exists 125%N, x. split; [reflexivity|]. split; [reflexivity|]. intros ->.
         specialize (Hempty eq_refl). destruct x; cbn in *; auto.
       - inversion Hn; subst. exists c, (lit "}" ++ x). split; [reflexivity|]. split; [auto|].
         reflexivity.
       - inversion Hn as [|? ? Hc Hn']; subst. inversion Hn'; subst.
         exists c. eexists. split; [reflexivity|]. auto. }
  unfold pbind at 1. rewrite (sign_app sg s2 _ c3 r3) by auto.
  unfold pbind at 1. rewrite (hash_app alt s3 _ c4 r4); auto.
  2: { eapply plain_first_not; eauto; try reflexivity; cbn; intuition discriminate. }
  unfold pbind at 1. rewrite (zero_app zero s4 _ c5 r5); auto.
  2: { intros Hz0. specialize (Hz Hz0). intros ->.
       destruct s5 as [|d s5]; cbn [app] in E5.
       - destruct S6 as (c6 & r6 & E6 & I6). rewrite E6 in E5. injection E5 as -> ->.
         cbn in I6. intuition discriminate.
       - injection E5 as -> _. apply Hz. reflexivity. }
  unfold pbind at 1. rewrite (width_app w s5 p s6 st s7 hex tr s8) by auto.
  unfold pbind at 1. rewrite (precision_app p s6) by auto.
  unfold pbind at 1. rewrite (style_app st s7) by auto.
  unfold pbind at 1. rewrite (trait_app hex tr s8) by auto.
  unfold pret. f_equal.
  assert (Ea : or_false (if alt then Some true else None) = alt) by (destruct alt; reflexivity).
  assert (Ez : or_false (if zero then Some true else None) = zero) by (destruct zero; reflexivity).
  rewrite Ea, Ez. clear -H7 H8. destruct H7, H8; reflexivity.
Qed.

(** * Soundness of the whole spec *)
Lemma parse_sign_inv i rest o : opt parse_sign i = POk rest o ->
  exists s, i = s ++ rest /\ sign_spelled o s.
Proof.
  intros H. apply opt_inv in H as [(a & -> & H)|(-> & -> & H)].
  - apply alt_inv in H as (p & Hin & H).
    destruct Hin as [<-|[<-|[]]]; apply value_inv in H as (u & H & ->); apply tag_inv in H as ->;
      eexists; (split; [reflexivity|constructor]).
  - exists []. split; [reflexivity|constructor].
Qed.

Lemma parse_flag_inv ch i rest o : opt (value true (tag (lit ch))) i = POk rest o ->
  exists s, i = s ++ rest /\ flag_spelled ch (or_false o) s /\
            (o = None -> tag (lit ch) i = PErr).
Proof.
  intros H. apply opt_inv in H as [(a & -> & H)|(-> & -> & H)].
  - apply value_inv in H as (u & H & ->). apply tag_inv in H as ->.
    exists (lit ch). repeat split. discriminate.
  - exists []. repeat split. intros _. unfold value, pmap, pbind in H.
    destruct (tag (lit ch) i); try discriminate; reflexivity.
Qed.

Lemma parse_trait_inv i rest o : opt parse_trait i = POk rest o ->
  exists s, i = s ++ rest /\
    type_spelled (match o with Some (h, _) => h | None => None end)
      (match o with Some (_, t) => t | None => FDisplay end) s.
Proof.
  intros H. apply opt_inv in H as [(a & -> & H)|(-> & -> & H)].
  - apply alt_inv in H as (p & Hin & H). cbn [In] in Hin.
    repeat (destruct Hin as [<-|Hin];
      [apply value_inv in H as (u & H & ->); apply tag_inv in H as ->; eexists; split;
       [reflexivity|constructor]|]).
    destruct Hin.
  - exists []. split; [reflexivity|constructor].
Qed.

Lemma parse_style_inv i rest o :
  opt (delimited (tag (lit "(")) (cut parse_style_diff) (tag (lit ")"))) i = POk rest o ->
  exists s, i = s ++ rest /\ style_spelled (match o with Some d => d | None => diff_default end) s.
Proof.
  intros H. apply opt_inv in H as [(a & -> & H)|(-> & -> & H)].
  - apply delimited_inv in H as (i1 & u & i2 & v & H1 & H2 & H3).
    apply tag_inv in H1 as ->, H3 as ->. apply cut_inv in H2.
    apply parse_style_diff_inv in H2 as (al & s & -> & -> & Hs).
    exists (lit "(" ++ s ++ lit ")"). split; [now rewrite <- !app_assoc|now constructor].
  - exists []. split; [reflexivity|constructor].
Qed.

Lemma parse_fill_align_inv i rest o :
  parse_fill_align i = POk rest o ->
  exists s, i = s ++ rest /\ align_spelled o s /\
    (s = [] -> match i with _ :: c :: _ => is_align_char c = false | _ => True end).
Proof.
  rewrite fill_align_eq.
  assert (A : forall c a, align_of c = Some a -> align_spelled (Some a) [c]).
  { intros c a. unfold align_of. destruct (N.eqb_spec c 60) as [->|];
      [intros E; injection E as <-; constructor|].
    destruct (N.eqb_spec c 94) as [->|]; [intros E; injection E as <-; constructor|].
    destruct (N.eqb_spec c 62) as [->|]; [intros E; injection E as <-; constructor|discriminate]. }
  destruct i as [|f [|c r]].
  - intros H; injection H as <- <-. exists []. repeat split. constructor.
  - destruct (align_of f) as [a|] eqn:E; intros H; injection H as <- <-.
    + exists [f]. repeat split; auto.
    + exists []. repeat split. constructor.
  - destruct (align_of c) as [a|] eqn:Ec.
    + destruct (N.eqb_spec f 32) as [->|]; [|discriminate]. intros H; injection H as <- <-.
      exists [32%N; c]. split; [reflexivity|]. split; [|discriminate].
      apply (al_fill a [c]); auto.
    + apply align_of_none in Ec. destruct (align_of f) as [a|] eqn:E; intros H; injection H as <- <-.
      * exists [f]. repeat split; auto.
      * exists []. repeat split; auto. constructor.
Qed.

Lemma parse_format_spec_inv i rest spec :
  parse_format_spec i = POk rest spec ->
  exists s, i = s ++ rest /\ spec_spelled spec s /\
    (s = [] -> match i with _ :: c :: _ => is_align_char c = false | _ => True end).
Proof.
  unfold Parse.parse_format_spec. intros H.
  apply pbind_inv in H as (i1 & al & H1 & H). apply pbind_inv in H as (i2 & sg & H2 & H).
  apply pbind_inv in H as (i3 & alt & H3 & H). apply pbind_inv in H as (i4 & zero & H4 & H).
  apply pbind_inv in H as (i5 & w & H5 & H). apply pbind_inv in H as (i6 & p & H6 & H).
  apply pbind_inv in H as (i7 & st & H7 & H). apply pbind_inv in H as (i8 & ht & H8 & H).
  injection H as <- <-.
  apply parse_fill_align_inv in H1 as (s1 & -> & A1 & L1).
  apply parse_sign_inv in H2 as (s2 & -> & A2).
  apply parse_flag_inv in H3 as (s3 & -> & A3 & _).
  pose proof H4 as H4'.
  apply parse_flag_inv in H4 as (s4 & -> & A4 & Z4).
  assert (B5 : exists s5, i4 = s5 ++ i5 /\ width_spelled w s5).
  { apply opt_inv in H5 as [(a & -> & H)|(-> & -> & H)].
    - apply parse_count_inv in H as (s & -> & Hs). exists s. split; [reflexivity|now constructor].
    - exists []. split; [reflexivity|constructor]. }
  destruct B5 as (s5 & -> & A5).
  assert (B6 : exists s6, i5 = s6 ++ i6 /\ precision_spelled p s6).
  { apply opt_inv in H6 as [(a & -> & H)|(-> & -> & H)].
    - apply preceded_inv in H as (j & u & Ht & H). apply tag_inv in Ht as ->.
      apply parse_count_inv in H as (s & -> & Hs). exists (lit "." ++ s).
      split; [reflexivity|now constructor].
    - exists []. split; [reflexivity|constructor]. }
  destruct B6 as (s6 & -> & A6).
  apply parse_style_inv in H7 as (s7 & -> & A7).
  apply parse_trait_inv in H8 as (s8 & -> & A8).
  exists (s1 ++ s2 ++ s3 ++ s4 ++ s5 ++ s6 ++ s7 ++ s8).
  split; [now rewrite <- !app_assoc|]. split.
  - constructor; auto. intros Hz.
    assert (zero = None) as ->.
    { destruct zero as [[|]|]; cbn in Hz; try discriminate; auto.
      apply opt_inv in H4' as [(a & Ha & H)|(Ha & _)]; [|discriminate].
      injection Ha as <-. apply value_inv in H as (u & _ & E). discriminate. }
    specialize (Z4 eq_refl). rewrite A4 in Z4. cbn [or_false app] in Z4.
    intros Hh. destruct s5 as [|d q]; [discriminate|]. injection Hh as ->. cbn in Z4. 
    destruct (q ++ s6 ++ s7 ++ s8 ++ i8); discriminate.
  - intros Hs. apply app_eq_nil in Hs as [-> _]. now apply L1.
Qed.
End Xid.
