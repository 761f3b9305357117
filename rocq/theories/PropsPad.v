(** C59: what a user sees for strings and integers with formatting flags. *)
From Coq Require Import ZArith.
From Verif Require Import Base Style Fmt SpecStd StdCompat SString Plain Ansi Html Format Nom Parse
  Codegen StdVal SpecText TextFacts SpecSink StyleFacts StdFacts StringFacts FormatFacts SpecGrammar
  ParseFacts SpecFacts GrammarFacts SpecMeaning CodegenFacts MacroFacts AttrFacts PropsParse PropsMacro SpecPad.

(** * std *)
Lemma emit_repeat_events c n k : concat (std_events (emit_repeat c n k)) = repeat c n ++ concat (std_events k).
Proof. induction n as [|n IH]; [reflexivity|]. cbn. now rewrite IH. Qed.
Lemma emit_repeat_outcome c n k : std_outcome (emit_repeat c n k) = std_outcome k.
Proof. induction n as [|n IH]; [reflexivity|]. exact IH. Qed.

Lemma pre_split align n : pre_padding align n <= n /\ split_by align (pre_padding align n) (n - pre_padding align n).
Proof.
  destruct align; cbn; [split; lia| |split; lia].
  pose proof (Nat.div2_odd n) as H. destruct (Nat.odd n); cbn [Nat.b2n] in H; lia.
Qed.

Lemma or_align_eq a d : or_align a d = align_or d a.
Proof. reflexivity. Qed.

Lemma std_pad_text (s : str) (fl : formatter_args) hex :
  std_outcome (std_pad s (std_flags_of fl hex)) = Returned Ok /\
  string_text fl s (concat (std_events (std_pad s (std_flags_of fl hex)))).
Proof.
  unfold std_pad, std_flags_of, string_text. cbn [sf_precision sf_width sf_fill sf_align].
  change (match fa_precision fl with Some p => firstn (N.to_nat p) s | None => s end)
    with (truncated (fa_precision fl) s).
  set (t := truncated (fa_precision fl) s). destruct (fa_width fl) as [w|].
  - destruct (Nat.leb_spec (N.to_nat w) (length t)) as [Hle|Hgt].
    + split; [reflexivity|]. cbn. rewrite app_nil_r. now constructor.
    + unfold with_padding. rewrite emit_repeat_outcome, emit_repeat_events. cbn [emit_try std_outcome std_events concat].
      rewrite emit_repeat_outcome, emit_repeat_events. cbn [std_outcome std_events concat]. rewrite app_nil_r.
      split; [reflexivity|]. destruct (pre_split (align_or ALeft (fa_align fl)) (N.to_nat w - length t)) as [H1 H2].
      constructor; [rewrite or_align_eq; lia|exact H2].
  - split; [reflexivity|]. cbn. rewrite app_nil_r. constructor.
Qed.

Lemma write_prefix_events sign prefix k :
  concat (std_events (write_prefix sign prefix k)) = sign ++ prefix ++ concat (std_events k).
Proof. destruct sign, prefix; reflexivity. Qed.
Lemma write_prefix_outcome sign prefix k : std_outcome (write_prefix sign prefix k) = std_outcome k.
Proof. destruct sign, prefix; reflexivity. Qed.

Lemma std_integral_text (nonneg : bool) (prefix ds : str) (fl : formatter_args) hex :
  std_outcome (std_pad_integral nonneg prefix ds (std_flags_of fl hex)) = Returned Ok /\
  integer_text fl (negb nonneg) prefix ds
    (concat (std_events (std_pad_integral nonneg prefix ds (std_flags_of fl hex)))).
Proof.
  unfold std_pad_integral, std_flags_of, integer_text.
  cbn [sf_sign sf_alternate sf_width sf_zero sf_fill sf_align].
  replace (if negb nonneg then lit "-" else match fa_sign fl with Some SPlus => lit "+" | _ => [] end)
    with (if nonneg then match fa_sign fl with Some SPlus => lit "+" | _ => [] end else lit "-")
    by now destruct nonneg.
  set (sg := if nonneg then _ else _). set (pf := if fa_alternate fl then prefix else []).
  destruct (fa_width fl) as [w|].
  - destruct (Nat.leb_spec (N.to_nat w) (length ds + length sg + length pf)) as [Hle|Hgt].
    + rewrite write_prefix_events, write_prefix_outcome. cbn [std_events std_outcome concat]. rewrite app_nil_r.
      split; [reflexivity|]. destruct (fa_zero fl).
      * exists 0. cbn [repeat app]. rewrite <- !app_assoc. split; [reflexivity|].
        rewrite !app_length. unfold str, char in *. lia.
      * rewrite app_assoc. constructor. rewrite !app_length. unfold str, char in *. lia.
    + destruct (fa_zero fl).
      * rewrite write_prefix_events, write_prefix_outcome. unfold with_padding. cbn [pre_padding].
        rewrite emit_repeat_events, emit_repeat_outcome. cbn [emit_try std_outcome std_events concat].
        rewrite emit_repeat_outcome, emit_repeat_events. cbn [std_outcome std_events concat].
        split; [reflexivity|]. exists (N.to_nat w - (length ds + length sg + length pf)).
        rewrite Nat.sub_diag. cbn [repeat]. rewrite !app_nil_r, <- !app_assoc. split; [reflexivity|].
        rewrite !app_length, repeat_length. unfold str, char in *. lia.
      * unfold with_padding. rewrite emit_repeat_events, emit_repeat_outcome, write_prefix_events, write_prefix_outcome.
        cbn [emit_try std_outcome std_events concat].
        rewrite emit_repeat_outcome, emit_repeat_events. cbn [std_outcome std_events concat]. rewrite app_nil_r.
        split; [reflexivity|].
        destruct (pre_split (align_or ARight (fa_align fl)) (N.to_nat w - (length ds + length sg + length pf))) as [H1 H2].
        rewrite or_align_eq. set (n := N.to_nat w - _) in *. set (b := pre_padding _ n) in *.
        assert (E : repeat 32%N b ++ sg ++ pf ++ ds ++ repeat 32%N (n - b)
                    = repeat 32%N b ++ ((sg ++ pf) ++ ds) ++ repeat 32%N (n - b)) by now rewrite <- !app_assoc.
        unfold str, char in *. rewrite E.
        constructor; [|exact H2]. rewrite !app_length. unfold str, char in *. lia.
  - rewrite write_prefix_events, write_prefix_outcome. cbn [std_events std_outcome concat]. rewrite app_nil_r.
    split; [reflexivity|]. destruct (fa_zero fl).
    + exists 0. cbn [repeat app]. now rewrite <- !app_assoc.
    + rewrite app_assoc. constructor.
Qed.

Lemma digit_value_digit upper d : (d < 16)%N -> digit_value (digit upper d) = d.
Proof.
  intros H. unfold digit, digit_value. destruct (N.ltb_spec d 10) as [Hl|Hl].
  - destruct (N.leb_spec (48 + d) 57); lia.
  - destruct upper.
    + destruct (N.leb_spec (55 + d) 57); [lia|]. destruct (N.leb_spec (55 + d) 70); lia.
    + destruct (N.leb_spec (87 + d) 57); [lia|]. destruct (N.leb_spec (87 + d) 70); lia.
Qed.

Lemma digit_char_digit upper d : (d < 16)%N -> digit_char upper (digit upper d).
Proof. intros H. unfold digit, digit_char. destruct (N.ltb_spec d 10); [lia|]. destruct upper; lia. Qed.

Lemma read_number_app base a b :
  read_number base (a ++ b) = (read_number base a * base ^ N.of_nat (length b) + read_number base b)%N.
Proof.
  unfold read_number. rewrite fold_left_app. generalize (fold_left (fun acc c => (base * acc + digit_value c)%N) a 0%N).
  intros x. revert x. induction b as [|c b IH] using rev_ind; intros x; [cbn; lia|].
  rewrite !fold_left_app. cbn [fold_left]. rewrite IH, app_length. cbn [length].
  replace (N.of_nat (length b + 1)) with (N.succ (N.of_nat (length b))) by lia. rewrite N.pow_succ_r'. lia.
Qed.

Lemma digits_from_spec upper base n : forall fuel acc, (2 <= base <= 16)%N -> (n < 2 ^ N.of_nat fuel)%N ->
  fuel <> 0 ->
  exists ds, digits_from fuel upper base n acc = ds ++ acc /\ read_number base ds = n /\ ds <> [] /\
    Forall (fun c => digit_char upper c /\ (digit_value c < base)%N) ds /\ (hd_error ds = Some 48%N -> ds = [48%N]).
Proof.
  intros fuel. revert n. induction fuel as [|fuel IH]; intros n acc Hb Hn Hf; [congruence|].
  cbn [digits_from]. pose proof (N.mod_lt n base ltac:(lia)) as Hm. pose proof (N.div_mod n base ltac:(lia)) as Hdm.
  destruct (N.eqb_spec (n / base) 0) as [Hz|Hz].
  - exists [digit upper (n mod base)]. rewrite Hz in Hdm. split; [reflexivity|].
    split; [|split; [discriminate|split]].
    + unfold read_number. cbn [fold_left]. rewrite digit_value_digit by lia. lia.
    + constructor; [split; [apply digit_char_digit; lia|rewrite digit_value_digit; lia]|constructor].
    + cbn. intros [= E]. now rewrite E.
  - assert (Hlt : (n / base < 2 ^ N.of_nat fuel)%N).
    { rewrite Nat2N.inj_succ, N.pow_succ_r' in Hn. apply N.div_lt_upper_bound; [lia|]. nia. }
    destruct (IH (n / base)%N (digit upper (n mod base) :: acc) Hb Hlt) as (ds & E & Hr & Hne & HF & Hh).
    { intros ->. change (2 ^ N.of_nat 0)%N with 1%N in Hlt. apply N.lt_1_r in Hlt. congruence. }
    exists (ds ++ [digit upper (n mod base)]). rewrite E, <- app_assoc. split; [reflexivity|].
    split; [|split; [now destruct ds|split]].
    + rewrite read_number_app, Hr. cbn [length]. unfold read_number. cbn [fold_left]. rewrite digit_value_digit by lia.
      change (N.of_nat 1) with 1%N. rewrite N.pow_1_r. lia.
    + apply Forall_app. split; [exact HF|]. constructor; [split; [apply digit_char_digit; lia|rewrite digit_value_digit; lia]|constructor].
    + intros H. destruct ds as [|d ds]; [congruence|]. cbn [app hd_error] in H.
      rewrite (Hh H) in Hr. unfold read_number in Hr. cbn [fold_left] in Hr.
      change (digit_value 48%N) with 0%N in Hr. exfalso. apply Hz. rewrite <- Hr. lia.
Qed.
Lemma digits_numeral upper base n : (2 <= base <= 16)%N -> numeral upper base n (digits upper base n).
Proof.
  intros Hb. unfold digits.
  destruct (digits_from_spec upper base n (S (N.to_nat (N.size n))) [] Hb) as (ds & -> & Hr & Hne & HF & Hh); [|discriminate|].
  - rewrite Nat2N.inj_succ, N2Nat.id, N.pow_succ_r'. pose proof (N.size_gt n). lia.
  - rewrite app_nil_r. repeat split; auto.
Qed.

(** * One placeholder *)
Section Xid.
Variables xid_start xid_continue : char -> bool.
Hypothesis Hx : xid_ok xid_start xid_continue.
Notation macro := (format_args_impl xid_start xid_continue).

(** A call with one placeholder [{:spec}] and one argument. *)
Lemma one_placeholder {H} (sp : format_spec) (text : str) (v : value_t) (scope : str -> value_t) (h : H) :
  spec_spelled xid_start xid_continue sp text -> text <> [] ->
  literal_count (pa_width (fs_args sp)) -> literal_count (pa_precision (fs_args sp)) ->
  exists c args, macro (lit "{:" ++ text ++ lit "}") [fun x : H => (x, Some v)] [] = Expanded c /\
    eval_code scope c h = (h, Some args) /\
    forall f, let f' := mk_formatter (override (fs_style sp) (fm_style f)) (spelled_flags (fs_args sp)) in
      ok_outcome (trait_code (fs_trait sp) v f') = Returned Ok ->
      ok_outcome (args f) = Returned Ok /\
      produces (args f) = shown (fs_trait sp) v (override (fs_style sp) (fm_style f)) (spelled_flags (fs_args sp)).
Proof.
  intros Hsp Hne Hw Hpr. set (a := mk_farg None sp).
  assert (Hp : format_string xid_start xid_continue [Arg a] (lit "{:" ++ text ++ lit "}")).
  { change (lit "{:" ++ text ++ lit "}") with (lit "{" ++ ([] ++ lit ":" ++ text) ++ lit "}" ++ []).
    eapply sp_arg with (empty := false); [|discriminate|constructor].
    constructor; [left; auto|]. right. exists text. split; [exact Hsp|]. split; [reflexivity|]. now destruct text. }
  destruct (proj2 (C47_accepted _ _ Hx (lit "{:" ++ text ++ lit "}") [fun x : H => (x, Some v)] [])) as [c Hc].
  { exists [Arg a]. split; [exact Hp|]. constructor; cbn.
    - lia.
    - intros i [[=]|[]].
    - intros n [[=]|[]].
    - intros i Hi. left. lia.
    - intros n [].
    - repeat constructor; cbn; auto. }
  destruct (eval_pure _ _ Hx _ _ _ c scope h Hc) as [args Ee]; [intros e [<-|[]] x; eauto|].
  destruct (C46_resolution _ _ Hx _ _ _ _ _ scope h h args Hp Hc Ee) as (pv & nv & Hev & L1 & L2 & Hf).
  destruct nv; [|discriminate]. destruct pv as [|v0 [|]]; try discriminate. cbn [app map] in Hev.
  inversion Hev as [|e es h0 h1 h2 v1 vs E1 Hev1]; subst. inversion Hev1; subst.
  injection E1 as <-. exists c, args. split; [exact Hc|]. split; [exact Ee|]. intros f f' Hok.
  destruct (Hf f) as (parts & Hm & ->). inversion Hm as [| |n2 a2 v2 ps2 parts2 Hu2 Hme2]; subst.
  inversion Hme2; subst. cbn [fa_arg a] in Hu2. inversion Hu2 as [v3 Hn3| | |]; subst. cbn in Hn3. try (injection Hn3 as <-).
  cbn [fa_spec a in_sequence] in *. fold f'. split.
  - rewrite <- Hok. apply same_outcome. apply try_ok.
  - unfold produces. rewrite (same_events _ _ (try_ok _)).
    exact (trait_code_shown (fs_trait sp) v (override (fs_style sp) (fm_style f)) (spelled_flags (fs_args sp))).
Qed.

Lemma through_proxy_outcome f p : ok_outcome (through_proxy f p) = std_outcome p.
Proof.
  induction p as [r|c|s k IH]; cbn; try reflexivity.
  unfold formatter_write_str. cbn. apply IH.
Qed.

(** The same, for a value of which only the text is known. *)
Lemma shown_text {H} (sp : format_spec) (text : str) (v : value_t) (P : str -> Prop) (scope : str -> value_t) (h : H) t hex :
  spec_spelled xid_start xid_continue sp text -> text <> [] ->
  literal_count (pa_width (fs_args sp)) -> literal_count (pa_precision (fs_args sp)) ->
  trait_code (fs_trait sp) v (mk_formatter (override (fs_style sp) style_default) (spelled_flags (fs_args sp)))
  = through_proxy (mk_formatter (override (fs_style sp) style_default) (spelled_flags (fs_args sp)))
      (v_std v t (std_flags_of (spelled_flags (fs_args sp)) hex)) ->
  std_outcome (v_std v t (std_flags_of (spelled_flags (fs_args sp)) hex)) = Returned Ok ->
  P (concat (std_events (v_std v t (std_flags_of (spelled_flags (fs_args sp)) hex)))) ->
  exists c args out, macro (lit "{:" ++ text ++ lit "}") [fun x : H => (x, Some v)] [] = Expanded c /\
    eval_code scope c h = (h, Some args) /\ P out /\
    plain_format args = Value out /\
    produces (args formatter_new) = paint (override (fs_style sp) style_default) out.
Proof.
  intros Hsp Hne Hw Hpr Ht Ho HP.
  destruct (one_placeholder sp text v scope h Hsp Hne Hw Hpr) as (c & args & Hc & He & Hf).
  specialize (Hf formatter_new). cbn zeta in Hf. change (fm_style formatter_new) with style_default in Hf.
  rewrite Ht, through_proxy_outcome in Hf. destruct (Hf Ho) as [Hok Hprod].
  exists c, args, (concat (std_events (v_std v t (std_flags_of (spelled_flags (fs_args sp)) hex)))).
  assert (E : produces (args formatter_new) = paint (override (fs_style sp) style_default)
     (concat (std_events (v_std v t (std_flags_of (spelled_flags (fs_args sp)) hex))))).
  { rewrite Hprod, <- trait_code_shown, Ht. apply through_proxy_produces. }
  repeat split; auto. rewrite plain_format_spec, Hok, E. f_equal. unfold chars, paint. rewrite map_map. cbn. apply map_id.
Qed.

(** C59: a string formatted with a Display placeholder, whatever alignment, width, precision and
    attributes it spells: the plain text is the string truncated and padded as documented for
    std, and all of it, padding included, has the placeholder's style. *)
Theorem C59_string {H} (sp : format_spec) (text s : str) (scope : str -> value_t) (h : H) :
  spec_spelled xid_start xid_continue sp text -> text <> [] -> fs_trait sp = FDisplay ->
  literal_count (pa_width (fs_args sp)) -> literal_count (pa_precision (fs_args sp)) ->
  exists c args out, macro (lit "{:" ++ text ++ lit "}") [fun x : H => (x, Some (str_value s))] [] = Expanded c /\
    eval_code scope c h = (h, Some args) /\
    string_text (spelled_flags (fs_args sp)) s out /\
    plain_format args = Value out /\
    produces (args formatter_new) = paint (override (fs_style sp) style_default) out.
Proof.
  intros Hsp Hne Ht Hw Hpr.
  destruct (std_pad_text s (spelled_flags (fs_args sp)) None) as [Ho HP].
  apply (shown_text sp text (str_value s) _ scope h TDisplay None Hsp Hne Hw Hpr); [now rewrite Ht|exact Ho|exact HP].
Qed.

(** C59: an integer formatted with [{:..}], [{:..x}], [{:..X}], [{:..o}], [{:..b}] or [{:..?}]
    (also [x?], [X?]): sign, prefix, zeros, padding and style. *)
Definition integer_digits (t : format_trait) (hex : option p_debug_hex) : option (bool * N * str) :=
  match t with
  | FDisplay => Some (false, 10%N, [])
  | FDebug => match hex with
              | None => Some (false, 10%N, [])
              | Some PLower => Some (false, 16%N, lit "0x")
              | Some PUpper => Some (true, 16%N, lit "0x")
              end
  | FLowerHex => Some (false, 16%N, lit "0x")
  | FUpperHex => Some (true, 16%N, lit "0x")
  | FOctal => Some (false, 8%N, lit "0o")
  | FBinary => Some (false, 2%N, lit "0b")
  | _ => None
  end.
Theorem C59_integer {H} (sp : format_spec) (text : str) (bits : N) (z : Z) (upper : bool) (base : N) (prefix : str)
  (scope : str -> value_t) (h : H) :
  spec_spelled xid_start xid_continue sp text -> text <> [] ->
  integer_digits (fs_trait sp) (pa_debug_hex (fs_args sp)) = Some (upper, base, prefix) ->
  literal_count (pa_width (fs_args sp)) -> literal_count (pa_precision (fs_args sp)) ->
  exists c args out ds, macro (lit "{:" ++ text ++ lit "}") [fun x : H => (x, Some (int_value bits z))] [] = Expanded c /\
    eval_code scope c h = (h, Some args) /\
    (if (base =? 10)%N
     then numeral upper 10 (Z.abs_N z) ds /\ integer_text (spelled_flags (fs_args sp)) (z <? 0)%Z prefix ds out
     else numeral upper base (Z.to_N (z mod 2 ^ Z.of_N bits)) ds /\
          integer_text (spelled_flags (fs_args sp)) false prefix ds out) /\
    plain_format args = Value out /\
    produces (args formatter_new) = paint (override (fs_style sp) style_default) out.
Proof.
  intros Hsp Hne Hd Hw Hpr.
  set (fl := spelled_flags (fs_args sp)).
  assert (G : forall t hex nonneg ds,
     trait_code (fs_trait sp) (int_value bits z) (mk_formatter (override (fs_style sp) style_default) fl)
     = through_proxy (mk_formatter (override (fs_style sp) style_default) fl) (v_std (int_value bits z) t (std_flags_of fl hex)) ->
     v_std (int_value bits z) t (std_flags_of fl hex) = std_pad_integral nonneg prefix ds (std_flags_of fl hex) ->
     exists c args out, macro (lit "{:" ++ text ++ lit "}") [fun x : H => (x, Some (int_value bits z))] [] = Expanded c /\
       eval_code scope c h = (h, Some args) /\ integer_text fl (negb nonneg) prefix ds out /\
       plain_format args = Value out /\
       produces (args formatter_new) = paint (override (fs_style sp) style_default) out).
  { intros t hex nonneg ds E1 E2. destruct (std_integral_text nonneg prefix ds fl hex) as [Ho HP].
    rewrite <- E2 in Ho, HP.
    exact (shown_text sp text (int_value bits z) _ scope h t hex Hsp Hne Hw Hpr E1 Ho HP). }
  assert (Hneg : (z <? 0)%Z = negb (0 <=? z)%Z) by (destruct (Z.ltb_spec z 0), (Z.leb_spec 0 z); lia || reflexivity).
  assert (Hhex : fa_debug_hex fl = match pa_debug_hex (fs_args sp) with
     | Some PLower => Some HexLower | Some PUpper => Some HexUpper | None => None end) by reflexivity.
  assert (Hten : upper = false -> base = 10%N -> prefix = [] -> (fs_trait sp = FDisplay \/ fs_trait sp = FDebug /\ pa_debug_hex (fs_args sp) = None) -> exists c args out ds, macro (lit "{:" ++ text ++ lit "}") [fun x : H => (x, Some (int_value bits z))] [] = Expanded c /\
    eval_code scope c h = (h, Some args) /\
    (numeral upper 10 (Z.abs_N z) ds /\ integer_text fl (z <? 0)%Z prefix ds out) /\
    plain_format args = Value out /\
    produces (args formatter_new) = paint (override (fs_style sp) style_default) out).
  { intros -> -> -> Hk.
    destruct (G (match fs_trait sp with FDebug => TDebug | _ => TDisplay end) None (0 <=? z)%Z (digits false 10 (Z.abs_N z)))
      as (c & args & out & H1 & H2 & H3 & H4 & H5).
    - destruct Hk as [-> | [-> Hh]]; [reflexivity|]. cbn [trait_code fm_format]. rewrite Hhex, Hh. reflexivity.
    - destruct Hk as [-> | [-> Hh]]; reflexivity.
    - exists c, args, out, (digits false 10 (Z.abs_N z)). rewrite Hneg. repeat split; auto; apply digits_numeral; lia. }
  assert (Hrad : forall t hex, base <> 10%N -> (2 <= base <= 16)%N ->
     trait_code (fs_trait sp) (int_value bits z) (mk_formatter (override (fs_style sp) style_default) fl)
     = through_proxy (mk_formatter (override (fs_style sp) style_default) fl) (v_std (int_value bits z) t (std_flags_of fl hex)) ->
     v_std (int_value bits z) t (std_flags_of fl hex) = int_radix upper base prefix bits z (std_flags_of fl hex) ->
     exists c args out ds, macro (lit "{:" ++ text ++ lit "}") [fun x : H => (x, Some (int_value bits z))] [] = Expanded c /\
       eval_code scope c h = (h, Some args) /\
       (numeral upper base (Z.to_N (z mod 2 ^ Z.of_N bits)) ds /\ integer_text fl false prefix ds out) /\
       plain_format args = Value out /\
       produces (args formatter_new) = paint (override (fs_style sp) style_default) out).
  { intros t hex Hb1 Hb2 E1 E2.
    destruct (G t hex true _ E1 E2) as (c & args & out & H1 & H2 & H3 & H4 & H5).
    exists c, args, out, (digits upper base (twos bits z)). repeat split; auto; now apply digits_numeral. }
  destruct (fs_trait sp) eqn:Et; try discriminate Hd.
  - injection Hd as <- <- <-. apply Hten; auto.
  - cbn [integer_digits] in Hd. destruct (pa_debug_hex (fs_args sp)) as [[|]|] eqn:Eh; injection Hd as <- <- <-.
    + apply (Hrad TDebug (Some HexLower)); try lia; try reflexivity. cbn [trait_code fm_format]. now rewrite Hhex.
    + apply (Hrad TDebug (Some HexUpper)); try lia; try reflexivity. cbn [trait_code fm_format]. now rewrite Hhex.
    + apply Hten; auto.
  - injection Hd as <- <- <-. apply (Hrad TOctal None); try lia; reflexivity.
  - injection Hd as <- <- <-. apply (Hrad TLowerHex None); try lia; reflexivity.
  - injection Hd as <- <- <-. apply (Hrad TUpperHex None); try lia; reflexivity.
  - injection Hd as <- <- <-. apply (Hrad TBinary None); try lia; reflexivity.
Qed.
(** C59: a character: as a string of one character. *)
Theorem C59_char {H} (sp : format_spec) (text : str) (x : char) (scope : str -> value_t) (h : H) :
  spec_spelled xid_start xid_continue sp text -> text <> [] -> fs_trait sp = FDisplay ->
  literal_count (pa_width (fs_args sp)) -> literal_count (pa_precision (fs_args sp)) ->
  exists c args out, macro (lit "{:" ++ text ++ lit "}") [fun h : H => (h, Some (char_value x))] [] = Expanded c /\
    eval_code scope c h = (h, Some args) /\
    string_text (spelled_flags (fs_args sp)) [x] out /\
    plain_format args = Value out /\
    produces (args formatter_new) = paint (override (fs_style sp) style_default) out.
Proof.
  intros Hsp Hne Ht Hw Hpr. set (fl := spelled_flags (fs_args sp)).
  assert (E : v_std (char_value x) TDisplay (std_flags_of fl None) = std_pad [x] (std_flags_of fl None)).
  { cbn [v_std char_value]. unfold char_display. destruct (sf_width _) eqn:Ew; [reflexivity|].
    destruct (sf_precision _) eqn:Ep; [reflexivity|]. unfold std_pad. now rewrite Ew, Ep. }
  destruct (std_pad_text [x] fl None) as [Ho HP]. rewrite <- E in Ho, HP.
  apply (shown_text sp text (char_value x) _ scope h TDisplay None Hsp Hne Hw Hpr); [now rewrite Ht|exact Ho|exact HP].
Qed.

(** C59: a boolean, with a Display or a Debug placeholder: as the string "true" or "false". *)
Theorem C59_bool {H} (sp : format_spec) (text : str) (b : bool) (scope : str -> value_t) (h : H) :
  spec_spelled xid_start xid_continue sp text -> text <> [] -> fs_trait sp = FDisplay \/ fs_trait sp = FDebug ->
  literal_count (pa_width (fs_args sp)) -> literal_count (pa_precision (fs_args sp)) ->
  exists c args out, macro (lit "{:" ++ text ++ lit "}") [fun h : H => (h, Some (bool_value b))] [] = Expanded c /\
    eval_code scope c h = (h, Some args) /\
    string_text (spelled_flags (fs_args sp)) (if b then lit "true" else lit "false") out /\
    plain_format args = Value out /\
    produces (args formatter_new) = paint (override (fs_style sp) style_default) out.
Proof.
  intros Hsp Hne Ht Hw Hpr. set (fl := spelled_flags (fs_args sp)).
  destruct Ht as [Ht|Ht].
  - destruct (std_pad_text (if b then lit "true" else lit "false") fl None) as [Ho HP].
    apply (shown_text sp text (bool_value b) _ scope h TDisplay None Hsp Hne Hw Hpr); [now rewrite Ht|exact Ho|exact HP].
  - destruct (std_pad_text (if b then lit "true" else lit "false") fl (fa_debug_hex fl)) as [Ho HP].
    apply (shown_text sp text (bool_value b) _ scope h TDebug (fa_debug_hex fl) Hsp Hne Hw Hpr);
      [|exact Ho|exact HP].
    rewrite Ht. cbn [trait_code fm_format]. fold fl. destruct (fa_debug_hex fl) as [[|]|]; reflexivity.
Qed.

(** C59: a slice of bytes (or signed 8-bit integers) with a Debug placeholder: the
    texts of the elements, each formatted with the placeholder's flags, separated by commas, in
    brackets; with '#' each on an indented line of its own. *)
Definition element_text (fl : formatter_args) (hex : option p_debug_hex) (z : Z) (out : str) : Prop :=
  exists ds, match hex with
  | None => numeral false 10 (Z.abs_N z) ds /\ integer_text fl (z <? 0)%Z [] ds out
  | Some PLower => numeral false 16 (Z.to_N (z mod 256)) ds /\ integer_text fl false (lit "0x") ds out
  | Some PUpper => numeral true 16 (Z.to_N (z mod 256)) ds /\ integer_text fl false (lit "0x") ds out
  end.

Lemma sprog_then_events p q : std_outcome p = Returned Ok ->
  concat (std_events (sprog_then p q)) = concat (std_events p) ++ concat (std_events q) /\
  std_outcome (sprog_then p q) = std_outcome q.
Proof.
  induction p as [[]|c|s k IH]; intros Hp; try discriminate Hp; [now split|].
  cbn in *. destruct (IH Ok Hp) as [-> ->]. split; [|reflexivity]. now rewrite app_assoc.
Qed.
Lemma sprog_item fl a z : a = spelled_flags fl ->
  let p := int_std 8 z TDebug (std_flags_of a (fa_debug_hex a)) in
  std_outcome p = Returned Ok /\ element_text a (pa_debug_hex fl) z (concat (std_events p)).
Proof.
  intros Ea p. subst p. unfold element_text.
  assert (Hh : sf_debug_hex (std_flags_of a (fa_debug_hex a)) = fa_debug_hex a) by reflexivity.
  assert (Hf : fa_debug_hex a = match pa_debug_hex fl with
     | Some PLower => Some HexLower | Some PUpper => Some HexUpper | None => None end) by now rewrite Ea.
  assert (Hneg : (z <? 0)%Z = negb (0 <=? z)%Z) by (destruct (Z.ltb_spec z 0), (Z.leb_spec 0 z); lia || reflexivity).
  unfold int_std. rewrite Hh. destruct (pa_debug_hex fl) as [[|]|]; rewrite Hf.
  - destruct (std_integral_text true (lit "0x") (digits false 16 (twos 8 z)) a (Some HexLower)) as [Ho HP].
    split; [exact Ho|]. exists (digits false 16 (twos 8 z)). split; [apply digits_numeral; lia|exact HP].
  - destruct (std_integral_text true (lit "0x") (digits true 16 (twos 8 z)) a (Some HexUpper)) as [Ho HP].
    split; [exact Ho|]. exists (digits true 16 (twos 8 z)). split; [apply digits_numeral; lia|exact HP].
  - destruct (std_integral_text (0 <=? z)%Z [] (digits false 10 (Z.abs_N z)) a None) as [Ho HP].
    split; [exact Ho|]. exists (digits false 10 (Z.abs_N z)). split; [apply digits_numeral; lia|].
    rewrite Hneg. exact HP.
Qed.
Lemma debug_items_text fl a l : a = spelled_flags fl -> forall k first, std_outcome k = Returned Ok ->
  exists texts, Forall2 (element_text a (pa_debug_hex fl)) l texts /\
    std_outcome (debug_items first l (std_flags_of a (fa_debug_hex a)) k) = Returned Ok /\
    concat (std_events (debug_items first l (std_flags_of a (fa_debug_hex a)) k))
    = match texts with [] => [] | t :: r => (if first then [] else lit ", ") ++ t ++ flat_map (fun t => lit ", " ++ t) r end
      ++ concat (std_events k).
Proof.
  intros Ea. induction l as [|z l IH]; intros k first Hk.
  - exists []. repeat split; auto.
  - destruct (IH k false Hk) as (texts & HF & Ho & Ee). destruct (sprog_item fl a z Ea) as [Hz1 Hz2].
    cbn [debug_items]. set (p := int_std 8 z TDebug _) in *.
    destruct (sprog_then_events p (debug_items false l (std_flags_of a (fa_debug_hex a)) k) Hz1) as [E1 E2].
    exists (concat (std_events p) :: texts). split; [now constructor|].
    assert (E3 : concat (std_events (sprog_then p (debug_items false l (std_flags_of a (fa_debug_hex a)) k)))
       = concat (std_events p) ++ flat_map (fun t => lit ", " ++ t) texts ++ concat (std_events k)).
    { rewrite E1, Ee. f_equal. destruct texts as [|t r]; [reflexivity|]. cbn [flat_map]. now rewrite <- !app_assoc. }
    destruct first.
    + split; [now rewrite E2|]. rewrite E3. cbn [app]. now rewrite <- app_assoc.
    + split; [cbn [emit_try std_outcome]; now rewrite E2|]. cbn [emit_try std_events]. cbn [concat].
      rewrite E3, <- !app_assoc. reflexivity.
Qed.

Lemma split_lines_plain s : Forall (fun c => c <> 10%N) s -> forall cur,
  split_lines s cur = match rev cur ++ s with [] => [] | x => [x] end.
Proof.
  induction 1 as [|c s Hc Hs IH]; intros cur; cbn [split_lines].
  - rewrite app_nil_r. destruct cur as [|c cur]; [reflexivity|]. cbn [rev]. now destruct (rev cur ++ [c]) eqn:E; [destruct (rev cur)|].
  - destruct (N.eqb_spec c 10) as [|_]; [contradiction|]. rewrite IH. cbn [rev]. now rewrite <- app_assoc.
Qed.
Lemma ends_line_plain s : Forall (fun c => c <> 10%N) s -> ends_line s = false.
Proof.
  intros Hs. unfold ends_line. apply Forall_rev in Hs. unfold str, char in *.
  destruct (rev s) as [|c r]; [reflexivity|]. inversion Hs; subst. now apply N.eqb_neq.
Qed.
Lemma concat_plain (l : list str) : Forall (fun c => c <> 10%N) (concat l) -> Forall (Forall (fun c => c <> 10%N)) l.
Proof. induction l as [|s l IH]; cbn; [constructor|]. intros H. apply Forall_app in H as [H1 H2]. constructor; auto. Qed.

(** A text without newlines is indented once. *)
Lemma pad_adapter_plain p k : forall on,
  std_outcome p = Returned Ok -> Forall (fun c => c <> 10%N) (concat (std_events p)) ->
  exists on', on' = (match concat (std_events p) with [] => on | _ => false end) /\
  std_outcome (pad_adapter on p k) = std_outcome (k on') /\
  concat (std_events (pad_adapter on p k))
  = (if on then match concat (std_events p) with [] => [] | _ => lit "    " end else [])
    ++ concat (std_events p) ++ concat (std_events (k on')).
Proof.
  induction p as [[]|c|s kk IH]; intros on Ho Hp; try discriminate Ho.
  - exists on. cbn. destruct on; auto.
  - cbn [std_events concat std_outcome] in *. apply Forall_app in Hp as [Hs Hp].
    cbn [pad_adapter]. rewrite (split_lines_plain s Hs). cbn [rev app].
    destruct s as [|c s].
    + cbn [pad_lines]. cbn [app]. apply (IH Ok on Ho Hp).
    + cbn [pad_lines]. rewrite (ends_line_plain _ Hs).
      destruct (IH Ok false Ho Hp) as (on' & E1 & E2 & E3).
      assert (Eon : on' = false) by (rewrite E1; now destruct (concat (std_events (kk Ok)))).
      clear E1. subst on'.
      exists false. split; [reflexivity|]. destruct on; cbn [std_outcome std_events concat]; rewrite ?E2, ?E3; split; auto.
      all: cbn [app]; rewrite <- ?app_assoc; reflexivity.
Qed.

Lemma padded_plain fill align w s out :
  padded fill align w s out -> fill <> 10%N -> Forall (fun c => c <> 10%N) s -> s <> [] ->
  Forall (fun c => c <> 10%N) out /\ out <> [].
Proof.
  intros Hp Hf Hs Hne.
  assert (HR : forall n, Forall (fun c => c <> 10%N) (repeat fill n)) by (induction n; constructor; auto).
  destruct Hp as [| |w s before after]; auto. split.
  - repeat (apply Forall_app; split); auto.
  - destruct s; [congruence|]. now destruct (repeat fill before).
Qed.
Lemma element_plain a hex z out : element_text a hex z out -> Forall (fun c => c <> 10%N) out /\ out <> [].
Proof.
  assert (HN : forall upper base n ds, numeral upper base n ds -> Forall (fun c => c <> 10%N) ds /\ ds <> []).
  { intros upper base n ds (_ & Hne & HF & _). split; [|exact Hne]. eapply Forall_impl; [|exact HF].
    intros c [Hc _]. unfold digit_char in Hc. destruct upper; lia. }
  assert (HI : forall neg prefix ds, Forall (fun c => c <> 10%N) prefix -> Forall (fun c => c <> 10%N) ds -> ds <> [] ->
    integer_text a neg prefix ds out -> Forall (fun c => c <> 10%N) out /\ out <> []).
  { intros neg prefix ds Hpre Hds Hne. unfold integer_text.
    set (sg := if neg then _ else _).
    assert (Hsg : Forall (fun c => c <> 10%N) sg).
    { unfold sg. destruct neg; [repeat constructor; discriminate|].
      destruct (fa_sign a) as [[|]|]; repeat constructor; discriminate. }
    set (pf := if fa_alternate a then prefix else []).
    assert (Hpf : Forall (fun c => c <> 10%N) pf) by (unfold pf; destruct (fa_alternate a); auto).
    destruct (fa_zero a).
    - intros (zeros & -> & _). split.
      + repeat (apply Forall_app; split); auto. induction zeros; constructor; auto. discriminate.
      + intros E. apply app_eq_nil in E as [_ E]. apply app_eq_nil in E as [_ E]. exact (Hne E).
    - intros Hp. apply (padded_plain _ _ _ _ _ Hp); [discriminate| |].
      + repeat (apply Forall_app; split); auto.
      + intros E. apply app_eq_nil in E as [_ E]. exact (Hne E). }
  intros [ds Hd]. assert (H0x : Forall (fun c => c <> 10%N) (lit "0x")) by (repeat constructor; discriminate).
  destruct hex as [[|]|]; destruct Hd as [Hn Hi]; destruct (HN _ _ _ _ Hn) as [H1 H2];
    first [exact (HI _ _ _ H0x H1 H2 Hi) | exact (HI _ _ _ (Forall_nil _) H1 H2 Hi)].
Qed.

Lemma debug_lines_text fl a l : a = spelled_flags fl -> forall k first, std_outcome k = Returned Ok ->
  exists texts, Forall2 (element_text a (pa_debug_hex fl)) l texts /\
    std_outcome (debug_lines first l (std_flags_of a (fa_debug_hex a)) k) = Returned Ok /\
    concat (std_events (debug_lines first l (std_flags_of a (fa_debug_hex a)) k))
    = (if first then match texts with [] => [] | _ => [10%N] end else [])
      ++ flat_map (fun t => lit "    " ++ t ++ lit "," ++ [10%N]) texts ++ concat (std_events k).
Proof.
  intros Ea. induction l as [|z l IH]; intros k first Hk.
  - exists []. cbn. destruct first; repeat split; auto.
  - destruct (IH k false Hk) as (texts & HF & Ho & Ee). destruct (sprog_item fl a z Ea) as [Hz1 Hz2].
    cbn [debug_lines]. set (p := int_std 8 z TDebug _) in *.
    destruct (element_plain _ _ _ _ Hz2) as [Hp1 Hp2]. set (K := fun on : bool => _).
    destruct (pad_adapter_plain p K true Hz1 Hp1) as (on' & E0 & E1 & E2).
    assert (HK : std_outcome (K false) = Returned Ok /\
       concat (std_events (K false)) = lit "," ++ [10%N] ++ flat_map (fun t => lit "    " ++ t ++ lit "," ++ [10%N]) texts ++ concat (std_events k)).
    { unfold K. cbn -[debug_lines]. rewrite Ho, Ee. split; reflexivity. }
    exists (concat (std_events p) :: texts). split; [now constructor|].
    destruct (concat (std_events p)) as [|c t]; [congruence|]. subst on'. destruct HK as [HK1 HK2].
    rewrite HK1 in E1. rewrite HK2 in E2.
    destruct first; cbn [emit_try std_outcome std_events concat]; rewrite E1, E2; (split; [reflexivity|]);
      cbn [flat_map]; rewrite <- !app_assoc; reflexivity.
Qed.

Theorem C59_bytes {H} (sp : format_spec) (text : str) (l : list Z) (scope : str -> value_t) (h : H) :
  spec_spelled xid_start xid_continue sp text -> text <> [] -> fs_trait sp = FDebug ->
  literal_count (pa_width (fs_args sp)) -> literal_count (pa_precision (fs_args sp)) ->
  exists c args out texts, macro (lit "{:" ++ text ++ lit "}") [fun h : H => (h, Some (bytes_value l))] [] = Expanded c /\
    eval_code scope c h = (h, Some args) /\
    Forall2 (element_text (spelled_flags (fs_args sp)) (pa_debug_hex (fs_args sp))) l texts /\
    (if pa_alternate (fs_args sp) then bracketed_lines texts out else bracketed texts out) /\
    plain_format args = Value out /\
    produces (args formatter_new) = paint (override (fs_style sp) style_default) out.
Proof.
  intros Hsp Hne Ht Hw Hpr. set (fl := spelled_flags (fs_args sp)).
  assert (Halt : sf_alternate (std_flags_of fl (fa_debug_hex fl)) = pa_alternate (fs_args sp)) by reflexivity.
  assert (HT : trait_code (fs_trait sp) (bytes_value l) (mk_formatter (override (fs_style sp) style_default) fl)
     = through_proxy (mk_formatter (override (fs_style sp) style_default) fl)
        (v_std (bytes_value l) TDebug (std_flags_of fl (fa_debug_hex fl)))).
  { rewrite Ht. cbn [trait_code fm_format]. destruct (fa_debug_hex fl) as [[|]|]; reflexivity. }
  assert (HV : v_std (bytes_value l) TDebug (std_flags_of fl (fa_debug_hex fl))
    = emit_try (lit "[") ((if pa_alternate (fs_args sp) then debug_lines else debug_items) true l
         (std_flags_of fl (fa_debug_hex fl)) (SEmit (lit "]") SRet))) by reflexivity.
  assert (G : exists texts, Forall2 (element_text fl (pa_debug_hex (fs_args sp))) l texts /\
     std_outcome (v_std (bytes_value l) TDebug (std_flags_of fl (fa_debug_hex fl))) = Returned Ok /\
     (if pa_alternate (fs_args sp) then bracketed_lines texts else bracketed texts)
       (concat (std_events (v_std (bytes_value l) TDebug (std_flags_of fl (fa_debug_hex fl)))))).
  { rewrite HV. destruct (pa_alternate (fs_args sp)).
    - destruct (debug_lines_text (fs_args sp) fl l eq_refl (SEmit (lit "]") SRet) true eq_refl) as (texts & HF & Ho & Ee).
      exists texts. split; [exact HF|]. split; [exact Ho|]. cbn [emit_try std_events concat]. rewrite Ee.
      destruct texts as [|t r]; [reflexivity|]. cbn [bracketed_lines]. rewrite <- ?app_assoc. reflexivity.
    - destruct (debug_items_text (fs_args sp) fl l eq_refl (SEmit (lit "]") SRet) true eq_refl) as (texts & HF & Ho & Ee).
      exists texts. split; [exact HF|]. split; [exact Ho|]. cbn [emit_try std_events concat]. rewrite Ee.
      destruct texts as [|t r]; [reflexivity|]. cbn [bracketed app]. rewrite <- !app_assoc. reflexivity. }
  destruct G as (texts & HF & Ho & HP).
  destruct (shown_text sp text (bytes_value l) _ scope h TDebug (fa_debug_hex fl) Hsp Hne Hw Hpr HT Ho HP)
    as (c & args & out & H1 & H2 & H3 & H4 & H5).
  exists c, args, out, texts. repeat split; auto. now destruct (pa_alternate (fs_args sp)).
Qed.
End Xid.
Print Assumptions C59_char.
Print Assumptions C59_bool.
Print Assumptions C59_bytes.
Print Assumptions C59_string.
Print Assumptions C59_integer.

(** * Errors *)
Fixpoint std_propagates (p : sprog) : Prop :=
  match p with
  | SRet _ | SAbort _ => True
  | SEmit _ k => k Err = SRet Err /\ std_propagates (k Ok)
  end.
Lemma through_proxy_propagates f p : std_propagates p -> propagates (through_proxy f p).
Proof.
  induction p as [r|c|s k IH]; cbn; auto. intros [H1 H2]. rewrite H1. split; [reflexivity|]. now apply IH.
Qed.
Lemma prop_repeat c n k : std_propagates k -> std_propagates (emit_repeat c n k).
Proof. intros H. induction n; cbn; auto. Qed.
Lemma prop_emit s : std_propagates (SEmit s SRet).
Proof. now cbn. Qed.
Lemma prop_try s k : std_propagates k -> std_propagates (emit_try s k).
Proof. now cbn. Qed.
Lemma prop_pad s fl : std_propagates (std_pad s fl).
Proof.
  unfold std_pad. set (t := match sf_precision fl with Some p => firstn (N.to_nat p) s | None => s end).
  destruct (sf_width fl) as [w|]; [|apply prop_emit].
  destruct (N.to_nat w <=? length t); [apply prop_emit|]. apply prop_repeat, prop_try, prop_repeat. exact I.
Qed.
Lemma prop_prefix a b k : std_propagates k -> std_propagates (write_prefix a b k).
Proof. intros H. unfold write_prefix.
  assert (Hb : std_propagates (match b with [] => k | _ => emit_try b k end)) by (destruct b; [exact H|apply prop_try; exact H]).
  destruct a; [exact Hb|apply prop_try; exact Hb].
Qed.
Lemma prop_integral nonneg prefix ds fl : std_propagates (std_pad_integral nonneg prefix ds fl).
Proof.
  unfold std_pad_integral. destruct (sf_width fl) as [w|]; [|apply prop_prefix, prop_emit].
  destruct (_ <=? _); [apply prop_prefix, prop_emit|]. destruct (sf_zero fl).
  - apply prop_prefix, prop_repeat, prop_try, prop_repeat. exact I.
  - apply prop_repeat, prop_prefix, prop_try, prop_repeat. exact I.
Qed.
Lemma prop_int bits z t fl : std_propagates (int_std bits z t fl).
Proof.
  unfold int_std, int_decimal, int_radix. destruct t; try apply prop_integral; try exact I.
  destruct (sf_debug_hex fl) as [[|]|]; apply prop_integral.
Qed.
Lemma prop_then p q : std_propagates p -> std_propagates q -> std_propagates (sprog_then p q).
Proof.
  intros Hp Hq. induction p as [[]|c|s k IH]; cbn; auto. destruct Hp as [H1 H2]. rewrite H1. split; [reflexivity|auto].
Qed.
Lemma prop_lines lines : forall on (k : bool -> fresult -> sprog),
  (forall on, k on Err = SRet Err) -> (forall on, std_propagates (k on Ok)) -> std_propagates (pad_lines on lines k).
Proof.
  induction lines as [|s r IH]; intros on k H1 H2; cbn [pad_lines]; [apply H2|]. destruct on; cbn; repeat split; auto.
Qed.
Lemma prop_adapter p k : forall on, std_propagates p -> (forall on, std_propagates (k on)) -> std_propagates (pad_adapter on p k).
Proof.
  induction p as [[]|c|s kk IH]; intros on Hp Hk; cbn [pad_adapter]; auto. destruct Hp as [H1 H2].
  apply prop_lines; [intros on'; now rewrite H1|intros on'; now apply IH].
Qed.
Lemma prop_items l fl k : forall first, std_propagates k -> std_propagates (debug_items first l fl k).
Proof.
  induction l as [|z l IH]; intros first Hk; cbn [debug_items]; [exact Hk|].
  destruct first; [|apply prop_try]; apply prop_then; auto using prop_int.
Qed.
Lemma prop_lists l fl k : forall first, std_propagates k -> std_propagates (debug_lines first l fl k).
Proof.
  induction l as [|z l IH]; intros first Hk; cbn [debug_lines]; [exact Hk|].
  destruct first; [apply prop_try|]; (apply prop_adapter; [apply prop_int|intros on; apply prop_adapter; [apply prop_emit|auto]]).
Qed.

(** C26: the std values of C59 stop at the first error in the middle of padding, prefix, digits
    or list elements, and report it; so C26_first_error and C26_generated_propagates apply to
    them. *)
Theorem C26_std_values (s : str) (c : char) (b : bool) (bits : N) (z : Z) (l : list Z) :
  Forall value_propagates [str_value s; char_value c; bool_value b; int_value bits z; bytes_value l].
Proof.
  assert (G : forall v, (forall t fl, std_propagates (v_std v t fl)) -> (forall f, propagates (v_stylish v f)) -> value_propagates v).
  { intros v Hv Hs t f. destruct t; try apply Hs; apply through_proxy_propagates, Hv. }
  repeat constructor; apply G; try (intros f; exact I); intros t fl; cbn [v_std str_value char_value bool_value int_value bytes_value].
  - destruct t; try exact I. apply prop_pad.
  - destruct t; try exact I. unfold char_display. destruct (sf_width fl); [apply prop_pad|]. destruct (sf_precision fl); [apply prop_pad|apply prop_emit].
  - destruct t; try exact I; apply prop_pad.
  - apply prop_int.
  - destruct t; try exact I. apply prop_try. destruct (sf_alternate fl); [apply prop_lists|apply prop_items]; apply prop_emit.
Qed.
Print Assumptions C26_std_values.

(** [{:>5}] of 7 on a writer that fails at the third padding character: nothing more is written. *)
Example C26_std_nonvacuous :
  match call false (lit "{:>5}") [logging 0 (int_value 32 7)] [] with
  | Some (_, args) =>
      let '(w, o) := run (watched (plain_write_str flaky)) (args formatter_new)
                       (mk_plain ([], [Returned Ok; Returned Ok; Returned Err]), []) in
      (fst (pl_inner (fst w)), length (snd w), o) = (lit "  ", 3, Returned Err)
  | None => False end.
Proof. vm_compute. reflexivity. Qed.

(** A spec meeting the hypotheses, and what it gives: [{:^7.3(fg=red,bold)}]. *)
Example C59_nonvacuous :
  spec_spelled ascii_start ascii_continue
    (mk_spec (mk_pfargs (Some PCenter) None false false (Some (CInt 7)) (Some (CInt 3)) None)
       (mk_diff (Some Red) None (Some Bold)) FDisplay) (lit "^7.3(fg=red,bold)") /\
  match call false (lit "{:^7.3(fg=red,bold)}") [logging 0 (str_value (lit "abcdef"))] [] with
  | Some (_, args) => (plain_format args, html_format args) | None => (Crash Panic, Crash Panic) end
  = (Value (lit "  abc  "), Value (lit "<span style=color:red;font-weight:bolder>  abc  </span>")).
Proof.
  split; [|vm_compute; reflexivity].
  refine (spec_intro ascii_start ascii_continue (Some PCenter) None false false (Some (CInt 7)) (Some (CInt 3)) None
            (kept_settings [AFg Red; AIntensity Bold]) FDisplay (lit "^") [] [] [] (lit "7") (lit ".3")
            (lit "(" ++ (lit "fg=red" ++ lit "," ++ lit "bold") ++ lit ")") []
            _ _ eq_refl eq_refl _ _ _ _ _); try constructor.
  - constructor. split; [|reflexivity]. exact (dec_one 55%N eq_refl).
  - constructor. split; [|reflexivity]. exact (dec_one 51%N eq_refl).
  - exact (ats_more _ _ _ _ (at_fg Red (lit "red") cn_red) (ats_one _ _ at_bold)).
  - intros _. discriminate.
Qed.
Example C59_integer_nonvacuous :
  match call false (lit "{:+#010x}|{:<5}|{:05}")
     [logging 0 (int_value 8 (-1)%Z); logging 1 (int_value 32 (-7)%Z); logging 2 (int_value 32 (-7)%Z)] [] with
  | Some (_, args) => plain_format args | None => Crash Panic end = Value (lit "+0x00000ff|-7   |-0007").
Proof. vm_compute. reflexivity. Qed.
Example C59_char_nonvacuous :
  match call false (lit "{:3}|{:>7?}|{:02X?}|{:#?}")
     [logging 0 (char_value 233%N); logging 1 (bool_value false); logging 2 (bytes_value [10; 255]%Z); logging 3 (bytes_value [])] [] with
  | Some (_, args) => plain_format args | None => Crash Panic end = Value ([233%N] ++ lit "  |  false|[0A, FF]|[]").
Proof. vm_compute. reflexivity. Qed.
Example C59_bytes_nonvacuous :
  match call false (lit "{:#x?}") [logging 0 (bytes_value [10; 255]%Z)] [] with
  | Some (_, args) => plain_format args | None => Crash Panic end
  = Value (lit "[" ++ [10%N] ++ lit "    0xa," ++ [10%N] ++ lit "    0xff," ++ [10%N] ++ lit "]").
Proof. vm_compute. reflexivity. Qed.
