(** The encoder of [Base] against the decoder of [SpecUtf8]. *)
From Verif Require Import Base SpecUtf8 StringFacts.
Local Open Scope N_scope.

Lemma rng_spec lo hi b : reflect (lo <= b <= hi) (in_rng lo hi b).
Proof.
  apply iff_reflect. unfold in_rng. rewrite andb_true_iff, !N.leb_le. reflexivity.
Qed.

Ltac rng := repeat match goal with
  | |- context [in_rng ?lo ?hi ?b] => destruct (rng_spec lo hi b); try (exfalso; lia); cbn [andb orb]
  end.

Lemma decode_char c r :
  is_scalar c = true -> utf8_decode (utf8_char c ++ r) = option_map (cons c) (utf8_decode r).
Proof.
  intros Hs. unfold is_scalar in Hs.
  assert (Hv : c < 0xD800 \/ 0xDFFF < c <= 0x10FFFF).
  { destruct (N.ltb_spec c 0xD800); [lia|]. destruct (N.ltb_spec 0xDFFF c); cbn in Hs; [|discriminate].
    apply N.leb_le in Hs. lia. }
  clear Hs. unfold utf8_char.
  destruct (N.ltb_spec c 0x80); [|destruct (N.ltb_spec c 0x800); [|destruct (N.ltb_spec c 0x10000)]];
    cbn [app utf8_decode].
  - rng. reflexivity.
  - assert (E := N.div_mod' c 0x40). assert (M := N.mod_lt c 0x40 ltac:(lia)).
    set (q := c / 0x40) in *. set (m := c mod 0x40) in *.
    rng. do 2 f_equal. lia.
  - assert (E := N.div_mod' c 0x40). assert (M := N.mod_lt c 0x40 ltac:(lia)).
    assert (E2 := N.div_mod' (c / 0x40) 0x40). assert (M2 := N.mod_lt (c / 0x40) 0x40 ltac:(lia)).
    rewrite N.div_div in E2 by lia. change (0x40 * 0x40) with 0x1000 in E2.
    set (q := c / 0x1000) in *. set (q1 := c / 0x40) in *. set (m := c mod 0x40) in *.
    set (m1 := q1 mod 0x40) in *.
    rng. all: try (do 2 f_equal; lia).
  - assert (E := N.div_mod' c 0x40). assert (M := N.mod_lt c 0x40 ltac:(lia)).
    assert (E2 := N.div_mod' (c / 0x40) 0x40). assert (M2 := N.mod_lt (c / 0x40) 0x40 ltac:(lia)).
    rewrite N.div_div in E2 by lia. change (0x40 * 0x40) with 0x1000 in E2.
    assert (E3 := N.div_mod' (c / 0x1000) 0x40).
    assert (M3 := N.mod_lt (c / 0x1000) 0x40 ltac:(lia)).
    rewrite N.div_div in E3 by lia. change (0x1000 * 0x40) with 0x40000 in E3.
    set (q := c / 0x40000) in *. set (q1 := c / 0x40) in *. set (q2 := c / 0x1000) in *.
    set (m := c mod 0x40) in *. set (m1 := q1 mod 0x40) in *. set (m2 := q2 mod 0x40) in *.
    rng. all: try (do 2 f_equal; lia).
Qed.

Lemma decode_utf8 s :
  Forall (fun c => is_scalar c = true) s -> utf8_decode (utf8 s) = Some s.
Proof.
  induction 1 as [|c s Hc Hs IH]; [reflexivity|].
  unfold utf8 in *; cbn [flat_map]. rewrite decode_char, IH by auto. reflexivity.
Qed.

Lemma utf8_app a b : utf8 (a ++ b) = utf8 a ++ utf8 b.
Proof. apply flat_map_app. Qed.

Lemma utf8_length s : length (utf8 s) = str_len s.
Proof.
  induction s as [|c s IH]; [reflexivity|]. unfold utf8 in *; cbn [flat_map str_len].
  rewrite app_length, IH. f_equal. unfold utf8_char, len_utf8.
  destruct (c <? 128), (c <? 2048), (c <? 65536); reflexivity.
Qed.

Lemma utf8_nil s : utf8 s = [] <-> s = [].
Proof.
  split; [|now intros ->]. destruct s as [|c s]; [auto|].
  intros H. apply (f_equal (@length N)) in H. rewrite utf8_length in H. cbn in H.
  pose proof (len_utf8_pos c). lia.
Qed.
