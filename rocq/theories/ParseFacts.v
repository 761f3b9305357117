(** The format-string parser against the grammar of [SpecGrammar]. *)
From Verif Require Import Base Style Nom Parse SpecGrammar TextFacts.

(** * Combinators *)
Lemma tag_app t r : tag t (t ++ r) = POk r tt.
Proof. induction t as [|x t IH]; cbn; [destruct r; reflexivity|]. now rewrite N.eqb_refl. Qed.

Lemma tag_inv t i rest x : tag t i = POk rest x -> i = t ++ rest.
Proof.
  revert i; induction t as [|y t IH]; intros i; cbn.
  - intros H; now injection H as ->.
  - destruct i as [|z i]; [discriminate|]. destruct (N.eqb_spec y z) as [->|]; [|discriminate].
    intros H; f_equal; auto.
Qed.

Lemma tag_cases t i : (exists rest, tag t i = POk rest tt /\ i = t ++ rest) \/ tag t i = PErr.
Proof.
  revert i; induction t as [|y t IH]; intros i; cbn; [left; eauto|].
  destruct i as [|z i]; [auto|]. destruct (N.eqb_spec y z) as [->|]; [|auto].
  destruct (IH i) as [(rest & H & ->)|H]; eauto.
Qed.

Lemma tag1_neq x c r : c <> x -> tag [x] (c :: r) = PErr.
Proof. cbn. destruct (N.eqb_spec x c); congruence. Qed.

Lemma pbind_inv {A B} (p : parser A) (k : A -> parser B) i rest b :
  pbind p k i = POk rest b -> exists i1 a, p i = POk i1 a /\ k a i1 = POk rest b.
Proof. unfold pbind. destruct (p i); try discriminate. eauto. Qed.

Lemma pmap_inv {A B} (p : parser A) (f : A -> B) i rest b :
  pmap p f i = POk rest b -> exists a, p i = POk rest a /\ b = f a.
Proof.
  unfold pmap. intros H. apply pbind_inv in H as (i1 & a & H1 & H2).
  injection H2 as -> <-. eauto.
Qed.

Lemma value_inv {A B} (v : B) (p : parser A) i rest b :
  value v p i = POk rest b -> exists a, p i = POk rest a /\ b = v.
Proof. unfold value. intros H. apply pmap_inv in H as (a & H & ->). eauto. Qed.

Lemma opt_inv {A} (p : parser A) i rest o :
  opt p i = POk rest o ->
  (exists a, o = Some a /\ p i = POk rest a) \/ (o = None /\ rest = i /\ p i = PErr).
Proof.
  unfold opt. destruct (p i) eqn:E; try discriminate; intros H; injection H as <- <-; eauto.
Qed.

Lemma cut_inv {A} (p : parser A) i rest a : cut p i = POk rest a -> p i = POk rest a.
Proof. unfold cut. destruct (p i); congruence. Qed.

Lemma map_res_inv {A B} (p : parser A) (f : A -> option B) i rest b :
  map_res p f i = POk rest b -> exists a, p i = POk rest a /\ f a = Some b.
Proof.
  unfold map_res. intros H. apply pbind_inv in H as (i1 & a & H1 & H2).
  destruct (f a) eqn:E; [|discriminate]. injection H2 as -> <-. eauto.
Qed.

Lemma satisfy_inv f i rest c : satisfy f i = POk rest c -> i = c :: rest /\ f c = true.
Proof.
  destruct i as [|x i]; cbn; [discriminate|]. destruct (f x) eqn:E; [|discriminate].
  intros H; injection H as -> ->; auto.
Qed.

Lemma preceded_inv {A B} (p : parser A) (q : parser B) i rest b :
  preceded p q i = POk rest b -> exists i1 a, p i = POk i1 a /\ q i1 = POk rest b.
Proof. apply pbind_inv. Qed.

Lemma delimited_inv {A B C} (p : parser A) (q : parser B) (r : parser C) i rest b :
  delimited p q r i = POk rest b ->
  exists i1 a i2 c, p i = POk i1 a /\ q i1 = POk i2 b /\ r i2 = POk rest c.
Proof.
  unfold delimited. intros H. apply pbind_inv in H as (i1 & a & H1 & H).
  apply pbind_inv in H as (i2 & b' & H2 & H). apply pbind_inv in H as (i3 & c & H3 & H).
  injection H as -> ->. eauto 8.
Qed.

Lemma alt_inv {A} (ps : list (parser A)) i rest a :
  alt ps i = POk rest a -> exists p, In p ps /\ p i = POk rest a.
Proof.
  induction ps as [|p ps IH]; [discriminate|]. cbn.
  destruct (p i) eqn:E; intros H; try discriminate.
  - exists p. rewrite E. auto.
  - destruct (IH H) as (q & Hq & Hi). eauto.
Qed.

(** * Runs of characters *)
Definition stops (f : char -> bool) (b : str) : Prop :=
  match b with c :: _ => f c = false | [] => True end.

Lemma take_while_spec f i :
  let (a, b) := take_while f i in i = a ++ b /\ Forall (fun c => f c = true) a /\ stops f b.
Proof.
  induction i as [|c r IH]; cbn; [auto|]. destruct (f c) eqn:E.
  - destruct (take_while f r) as [a b]. destruct IH as (-> & Ha & Hb). cbn. auto.
  - cbn. auto.
Qed.

Lemma take_while_app f a b :
  Forall (fun c => f c = true) a -> stops f b -> take_while f (a ++ b) = (a, b).
Proof.
  intros Ha Hb; induction Ha as [|c a Hc Ha IH]; cbn.
  - destruct b as [|c r]; cbn in *; [reflexivity|]. now rewrite Hb.
  - now rewrite Hc, IH.
Qed.

Lemma many_satisfy f fuel i acc :
  length i < fuel ->
  many_loop fuel (satisfy f) i acc
  = POk (snd (take_while f i)) (rev acc ++ fst (take_while f i)).
Proof.
  revert i acc; induction fuel as [|fuel IH]; intros i acc Hf; [lia|].
  cbn [many_loop]. destruct i as [|c r]; cbn [satisfy take_while].
  - cbn. now rewrite app_nil_r.
  - destruct (f c); [|cbn; now rewrite app_nil_r].
    replace (length r =? length (c :: r)) with false
      by (symmetry; apply Nat.eqb_neq; cbn; lia).
    rewrite IH by (cbn in Hf; lia). destruct (take_while f r) as [a b]; cbn [fst snd].
    cbn [rev]. now rewrite <- app_assoc.
Qed.

Lemma many0_satisfy f i :
  many0 (satisfy f) i = POk (snd (take_while f i)) (fst (take_while f i)).
Proof. unfold many0. now rewrite many_satisfy by lia. Qed.

Lemma consumed (a b : str) : firstn (length (a ++ b) - length b) (a ++ b) = a.
Proof.
  rewrite app_length, Nat.add_sub, firstn_app, Nat.sub_diag. cbn.
  rewrite app_nil_r. apply firstn_all.
Qed.

(** * Numbers *)
Lemma is_digit_ascii c : is_digit c = ascii_digit c.
Proof. reflexivity. Qed.

Lemma dec_value_snoc ds d : dec_value (ds ++ [d]) = (10 * dec_value ds + (d - 48))%N.
Proof. unfold dec_value. rewrite fold_left_app. cbn [fold_left]. f_equal. apply N.mul_comm. Qed.

Lemma decimal_value ds n :
  decimal ds n -> dec_value ds = n /\ ds <> [] /\ Forall (fun c => is_digit c = true) ds.
Proof.
  induction 1 as [d Hd|ds n d H (IH & Hn & HF) Hd].
  - cbn. repeat split; try discriminate. repeat constructor. exact Hd.
  - rewrite dec_value_snoc, IH. repeat split; [destruct ds; discriminate|].
    apply Forall_app; auto.
Qed.

Lemma digits_decimal ds :
  ds <> [] -> Forall (fun c => is_digit c = true) ds -> decimal ds (dec_value ds).
Proof.
  induction ds as [|d ds IH] using rev_ind; [congruence|]. intros _ H.
  apply Forall_app in H as [H Hd]. inversion Hd as [|? ? Hd' _]; subst.
  destruct ds as [|x r].
  - cbn. change (match d with 0 => 0 | _ => _ end)%N with (d - 48)%N. now constructor.
  - rewrite dec_value_snoc. constructor; [apply IH; [discriminate|exact H]|exact Hd'].
Qed.

Lemma usize_spec ds n : usize_from_str ds = Some n <-> dec_value ds = n /\ (n < 2 ^ 64)%N.
Proof.
  unfold usize_from_str. destruct (N.leb_spec (dec_value ds) usize_max) as [H|H].
  - unfold usize_max in H. split.
    + intros E; injection E as <-. split; [reflexivity|]. change (2 ^ 64)%N with 18446744073709551616%N. lia.
    + now intros [-> _].
  - split; [discriminate|]. intros [<- Hn]. unfold usize_max in H.
    change (2 ^ 64)%N with 18446744073709551616%N in Hn. lia.
Qed.

Definition parse_int : parser N := map_res digit1 usize_from_str.

Lemma parse_int_inv i rest n :
  parse_int i = POk rest n -> exists s, i = s ++ rest /\ integer n s /\ stops is_digit rest.
Proof.
  unfold parse_int. intros H. apply map_res_inv in H as (ds & H & Hu).
  unfold digit1 in H. pose proof (take_while_spec is_digit i) as Ht.
  destruct (take_while is_digit i) as [[|d a] b]; [discriminate|]. injection H as -> <-.
  destruct Ht as (-> & Ha & Hb). apply usize_spec in Hu as [<- Hn].
  exists (d :: a). repeat split; auto. apply digits_decimal; [discriminate|exact Ha].
Qed.

Lemma parse_int_app n s rest :
  integer n s -> stops is_digit rest -> parse_int (s ++ rest) = POk rest n.
Proof.
  intros [Hd Hn] Hs. apply decimal_value in Hd as (Hv & Hne & HF).
  unfold parse_int, map_res, pbind, digit1. rewrite take_while_app by auto.
  destruct s as [|c s]; [congruence|].
  rewrite (proj2 (usize_spec (c :: s) n) (conj Hv Hn)). reflexivity.
Qed.

Lemma parse_int_err i : stops is_digit i -> parse_int i = PErr.
Proof.
  intros H. unfold parse_int, map_res, pbind, digit1. destruct i as [|c r]; cbn in *; [reflexivity|].
  now rewrite H.
Qed.

Lemma parse_int_cases i : (exists rest n, parse_int i = POk rest n) \/ parse_int i = PErr.
Proof.
  unfold parse_int, map_res, pbind, digit1. destruct (take_while is_digit i) as [[|d a] b]; [auto|].
  destruct (usize_from_str (d :: a)); unfold pret; eauto.
Qed.

(** * Fixed vocabulary *)
Lemma parse_color_inv i rest c :
  parse_color i = POk rest c -> exists s, i = s ++ rest /\ color_name c s.
Proof.
  unfold parse_color. intros H. apply alt_inv in H as (p & Hin & H). cbn [In] in Hin.
  repeat (destruct Hin as [<-|Hin];
    [apply value_inv in H as (u & H & ->); apply tag_inv in H as ->; eexists; split;
     [reflexivity|constructor]|]).
  destruct Hin.
Qed.

Lemma parse_color_app c s rest : color_name c s -> parse_color (s ++ rest) = POk rest c.
Proof. intros []; reflexivity. Qed.

Lemma parse_intensity_inv i rest x :
  parse_intensity i = POk rest x ->
  exists s, i = s ++ rest /\ attr_spelled (AIntensity x) s.
Proof.
  unfold parse_intensity. intros H. apply alt_inv in H as (p & Hin & H). cbn [In] in Hin.
  repeat (destruct Hin as [<-|Hin];
    [apply value_inv in H as (u & H & ->); apply tag_inv in H as ->; eexists; split;
     [reflexivity|constructor]|]).
  destruct Hin.
Qed.

Definition attr_box (a : attribute) : restyle_box :=
  match a with
  | AFg c => RForeground (Foreground c)
  | ABg c => RBackground (Background c)
  | AIntensity i => RIntensity i
  end.

Lemma parse_restyle_inv i rest b :
  parse_restyle i = POk rest b ->
  exists a s, b = attr_box a /\ i = s ++ rest /\ attr_spelled a s.
Proof.
  unfold parse_restyle. intros H. apply alt_inv in H as (p & Hin & H). cbn [In] in Hin.
  destruct Hin as [<-|[<-|[<-|[]]]]; apply pmap_inv in H as (x & H & ->).
  - apply preceded_inv in H as (i1 & u & H1 & H). apply cut_inv in H.
    apply preceded_inv in H as (i2 & v & H2 & H). apply tag_inv in H1 as ->, H2 as ->.
    apply parse_color_inv in H as (s & -> & Hc). exists (AFg x), (lit "fg=" ++ s).
    repeat split. now constructor.
  - apply preceded_inv in H as (i1 & u & H1 & H). apply cut_inv in H.
    apply preceded_inv in H as (i2 & v & H2 & H). apply tag_inv in H1 as ->, H2 as ->.
    apply parse_color_inv in H as (s & -> & Hc). exists (ABg x), (lit "bg=" ++ s).
    repeat split. now constructor.
  - apply parse_intensity_inv in H as (s & -> & Hs). exists (AIntensity x), s. auto.
Qed.

Lemma parse_restyle_app a s rest :
  attr_spelled a s -> parse_restyle (s ++ rest) = POk rest (attr_box a).
Proof.
  intros [c s' Hc|c s' Hc| | |]; try reflexivity.
  - destruct Hc; reflexivity.
  - destruct Hc; reflexivity.
Qed.

Lemma attr_spelled_ne a s : attr_spelled a s -> exists c r, s = c :: r.
Proof. intros [c s' Hc|c s' Hc| | |]; cbn; eauto. Qed.

(** * Attribute lists *)
Lemma sep_loop_inv fuel i acc rest l :
  sep_loop fuel (tag (lit ",")) (cut parse_restyle) i acc = POk rest l ->
  exists al s, l = rev acc ++ map attr_box al /\ i = s ++ rest /\
    match al with [] => s = [] | _ => exists t, s = lit "," ++ t /\ attrs_spelled al t end.
Proof.
  revert i acc; induction fuel as [|fuel IH]; intros i acc; [discriminate|].
  cbn [sep_loop]. destruct (tag_cases (lit ",") i) as [(i1 & E & ->)|E]; rewrite E.
  - replace (length i1 =? length (lit "," ++ i1)) with false
      by (symmetry; apply Nat.eqb_neq; rewrite app_length; cbn; lia).
    destruct (cut parse_restyle i1) as [i2 b| | |] eqn:Ep; try discriminate.
    + intros H. apply cut_inv in Ep. apply parse_restyle_inv in Ep as (a & s & -> & -> & Hs).
      apply IH in H as (al & t & -> & -> & Hal).
      exists (a :: al), (lit "," ++ s ++ t). split; [cbn; now rewrite <- app_assoc|].
      split; [now rewrite <- !app_assoc|]. exists (s ++ t). split; [reflexivity|].
      destruct al as [|a' al].
      * subst t. rewrite app_nil_r. now constructor.
      * destruct Hal as (t' & -> & Ht). now constructor.
    + intros H. unfold cut in Ep. destruct (parse_restyle i1); discriminate.
  - intros H. injection H as <- <-. exists [], []. cbn. rewrite app_nil_r. auto.
Qed.

Lemma sep_loop_app fuel s t al rest acc :
  (match al with [] => s = [] | _ => s = lit "," ++ t /\ attrs_spelled al t end) ->
  length (s ++ rest) < fuel -> (forall r, rest <> 44%N :: r) ->
  sep_loop fuel (tag (lit ",")) (cut parse_restyle) (s ++ rest) acc
  = POk rest (rev acc ++ map attr_box al).
Proof.
  revert s t al acc; induction fuel as [|fuel IH]; intros s t al acc Hs Hf Hr; [lia|].
  cbn [sep_loop]. destruct al as [|a al].
  - subst s. cbn [app map]. rewrite app_nil_r.
    destruct (tag_cases (lit ",") rest) as [(i1 & E & Hi)|E].
    + exfalso. apply (Hr i1). exact Hi.
    + now rewrite E.
  - destruct Hs as [-> Hs]. rewrite <- app_assoc, tag_app.
    replace (length (t ++ rest) =? length (lit "," ++ t ++ rest)) with false
      by (symmetry; apply Nat.eqb_neq; rewrite !app_length; cbn; lia).
    rewrite !app_length in Hf. cbn [lit length] in Hf.
    inversion Hs as [a' s' Ha|a' s' l' t' Ha Hl]; subst.
    + unfold cut at 1. rewrite (parse_restyle_app _ _ _ Ha).
      change rest with ([] ++ rest) at 1. rewrite (IH [] [] []); auto.
      * cbn. now rewrite <- app_assoc.
      * cbn. lia.
    + rewrite <- app_assoc. unfold cut at 1. rewrite (parse_restyle_app _ _ _ Ha).
      rewrite (IH _ t' al).
      * cbn [rev map]. now rewrite <- app_assoc.
      * destruct al; [inversion Hl|auto].
      * rewrite app_length in *. lia.
      * exact Hr.
Qed.

Lemma parse_attrs_inv i rest l :
  separated_list0 (tag (lit ",")) (cut parse_restyle) i = POk rest l ->
  exists al s, l = map attr_box al /\ i = s ++ rest /\ attrs_spelled al s.
Proof.
  unfold separated_list0. destruct (cut parse_restyle i) as [i1 b| | |] eqn:Ep; try discriminate.
  - intros H. apply cut_inv in Ep. apply parse_restyle_inv in Ep as (a & s & -> & -> & Hs).
    apply sep_loop_inv in H as (al & t & -> & -> & Hal).
    exists (a :: al), (s ++ t). split; [reflexivity|]. split; [now rewrite <- app_assoc|].
    destruct al as [|a' al].
    + subst t. rewrite app_nil_r. now constructor.
    + destruct Hal as (t' & -> & Ht). now constructor.
  - unfold cut in Ep. destruct (parse_restyle i); discriminate.
Qed.

Lemma parse_attrs_app al s rest :
  attrs_spelled al s -> (forall r, rest <> 44%N :: r) ->
  separated_list0 (tag (lit ",")) (cut parse_restyle) (s ++ rest)
  = POk rest (map attr_box al).
Proof.
  intros Hs Hr. unfold separated_list0, cut at 1.
  inversion Hs as [a' s' Ha|a' s' l' t' Ha Hl]; subst.
  - rewrite (parse_restyle_app _ _ _ Ha). change rest with ([] ++ rest) at 2.
    rewrite (sep_loop_app _ [] [] []); auto.
  - rewrite <- app_assoc, (parse_restyle_app _ _ _ Ha).
    rewrite (sep_loop_app _ (lit "," ++ t') t' l'); auto.
    destruct l'; [inversion Hl|auto].
Qed.

(** The settings kept by the parser. *)
Lemma restyles_state al st0 :
  fold_left (fun st a => Restyle_dyn (attr_box a) st) al st0
  = mk_style (match last_fg al with Some c => c | None => foreground st0 end)
      (match last_bg al with Some c => c | None => background st0 end)
      (match last_intensity al with Some c => c | None => intens st0 end).
Proof.
  induction al as [|a al IH] using rev_ind; [destruct st0; reflexivity|].
  unfold last_fg, last_bg, last_intensity in *. rewrite !fold_left_app. cbn [fold_left].
  rewrite IH. destruct a; reflexivity.
Qed.

Lemma diff_of_attrs al : diff_of_restyles (map attr_box al) = kept_settings al.
Proof.
  unfold diff_of_restyles, style_with, Restyle_slice.
  assert (E : forall l st, fold_left (fun st0 r => style_with (Restyle_ref (Restyle_box Restyle_dyn)) st0 r) l st
              = fold_left (fun st0 r => Restyle_dyn r st0) l st) by reflexivity.
  transitivity (diff_from (fold_left (fun st a => Restyle_dyn (attr_box a) st) al style_default)
                  style_default).
  - f_equal. generalize style_default. induction al as [|a al IH]; intros st; [reflexivity|].
    cbn [map fold_left]. apply IH.
  - rewrite restyles_state. unfold kept_settings, diff_from; cbn.
    destruct (last_fg al) as [[]|], (last_bg al) as [[]|], (last_intensity al) as [[]|]; reflexivity.
Qed.

Lemma parse_style_diff_inv i rest d :
  parse_style_diff i = POk rest d ->
  exists al s, d = kept_settings al /\ i = s ++ rest /\ attrs_spelled al s.
Proof.
  unfold parse_style_diff. intros H. apply pmap_inv in H as (l & H & ->).
  apply parse_attrs_inv in H as (al & s & -> & -> & Hs). exists al, s.
  rewrite diff_of_attrs. auto.
Qed.

Lemma parse_style_diff_app al s rest :
  attrs_spelled al s -> (forall r, rest <> 44%N :: r) ->
  parse_style_diff (s ++ rest) = POk rest (kept_settings al).
Proof.
  intros Hs Hr. unfold parse_style_diff, pmap, pbind.
  rewrite (parse_attrs_app al s rest Hs Hr). now rewrite diff_of_attrs.
Qed.
