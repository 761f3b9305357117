(** When the parser meets a fill character: exactly. *)
From Verif Require Import Base Style Fmt SpecStd StdCompat Nom Parse SpecGrammar ParseFacts SpecFacts GrammarFacts.

Section Xid.
Variables xid_start xid_continue : char -> bool.
Hypothesis Hx : xid_ok xid_start xid_continue.
Local Notation parse_piece := (parse_piece xid_start xid_continue).
Local Notation parse_format := (parse_format xid_start xid_continue).
Local Notation spells := (spells xid_start xid_continue).
Local Notation arg_spelled := (arg_spelled xid_start xid_continue).

(** A placeholder with a fill character other than a space, and anything after. *)
Definition fill_placeholder (i : str) : Prop :=
  exists arg fill al rest, i = lit "{" ++ arg ++ lit ":" ++ fill :: al :: rest /\
    fill <> 32%N /\ is_align_char al = true /\ (arg = [] \/ exists a, arg_spelled a arg).

Lemma piece_fill i : parse_piece i = PPanic <-> fill_placeholder i.
Proof.
  split.
  - intros H. apply piece_panic in H as (s1 & r & -> & (f & c & r' & -> & Hf & Hc) & Hs).
    exists s1, f, c, r'. auto.
  - intros (arg & f & c & r & -> & Hf & Hc & Ha). rewrite parse_piece_eq.
    assert (E1 : tag (lit "{{") (lit "{" ++ arg ++ lit ":" ++ f :: c :: r) = (@PErr unit)).
    { assert (N : exists x y, arg ++ lit ":" ++ f :: c :: r = x :: y /\ x <> 123%N).
      { destruct Ha as [->|[a Ha]]; [cbn; do 2 eexists; split; [reflexivity|discriminate]|].
        assert (H : exists c q, arg = c :: q /\ c <> 123%N).
        { destruct Ha as [n s' [H _]|s' H].
          - apply decimal_value in H as (_ & Hne & HF). destruct s' as [|c0 q]; [congruence|].
            inversion HF; subst. exists c0, q. split; [reflexivity|]. intros ->. discriminate.
          - destruct H as [c0 q Hc0 Hq]. exists c0, q. split; [reflexivity|]. intros ->.
            rewrite (xs _ _ Hx) in Hc0 by reflexivity. destruct Hc0; discriminate. }
        destruct H as (c0 & q & -> & Hc0). cbn. eauto. }
      destruct N as (x & y & -> & Hn). cbn [lit app tag]. change (N_of_ascii "{") with 123%N. rewrite N.eqb_refl.
      destruct (N.eqb_spec 123 x) as [<-|]; [congruence|reflexivity]. }
    rewrite E1. cbn [app lit]. change (not_brace (N_of_ascii "{")) with false. cbn iota.
    change (tag [N_of_ascii "}"; N_of_ascii "}"] (N_of_ascii "{" :: ?x)) with (@PErr unit).
    cbn iota. unfold Parse.parse_arg, pmap, delimited, pbind.
    change (N_of_ascii "{" :: arg ++ N_of_ascii ":" :: f :: c :: r) with (lit "{" ++ arg ++ lit ":" ++ f :: c :: r).
    rewrite tag_app. unfold cut, Parse.parse_format_arg, pbind.
    assert (E2 : exists o, opt (parse_arg_ref xid_start xid_continue) (arg ++ lit ":" ++ f :: c :: r)
       = POk (lit ":" ++ f :: c :: r) o).
    { unfold opt. destruct Ha as [->|[a Ha]].
      - exists None. cbn [app]. change (lit ":" ++ f :: c :: r) with (58%N :: f :: c :: r).
        now rewrite (colon_ref_err _ _ Hx).
      - exists (Some a). change (lit ":" ++ f :: c :: r) with (58%N :: f :: c :: r). rewrite (parse_arg_ref_app _ _ Hx a arg _ Ha (colon_ends _ _ Hx _)). reflexivity. }
    destruct E2 as [o ->]. unfold opt, preceded, pbind. rewrite tag_app.
    assert (E3 : parse_format_spec xid_start xid_continue (f :: c :: r) = PPanic).
    { apply spec_panic. exists f, c, r. auto. }
    now rewrite E3.
Qed.

Lemma fill_first i : fill_placeholder i -> exists r, i = 123%N :: r.
Proof. intros (arg & f & c & r & -> & _). cbn. eauto. Qed.

Lemma many_fill fuel : forall b i acc, (b = true -> stops not_brace i) ->
  length i < fuel -> many_loop fuel parse_piece i acc = PPanic ->
  exists pre ps i', i = pre ++ i' /\ spells b ps pre /\ fill_placeholder i'.
Proof.
  induction fuel as [|fuel IH]; intros b i acc Hb Hf; [lia|]. cbn [many_loop].
  destruct (parse_piece i) as [rest pc| | |] eqn:E; try discriminate.
  - pose proof (parse_piece_consumes _ _ _ _ _ E) as (pre0 & Hpre & Ei).
    assert (Hl : length rest < fuel).
    { rewrite Ei, app_length in Hf. destruct pre0; [congruence|cbn in Hf; lia]. }
    rewrite Ei at 1. rewrite length_app_neq by exact Hpre. clear Ei Hpre pre0. intros H.
    apply parse_piece_inv in E as [(t & -> & -> & Ht & HF & Hs)|[(-> & ->)|[(-> & ->)|
      (a & e & p & -> & -> & Hp & He)]]].
    + apply (IH true) in H as (pre & ps & i' & -> & Hps & Hi); [|auto|exact Hl].
      exists (t ++ pre), (Lit t :: ps), i'. split; [now rewrite app_assoc|]. split; [|exact Hi].
      destruct b; [|now constructor]. exfalso. specialize (Hb eq_refl). destruct t as [|c t]; [congruence|]. cbn in Hb.
      rewrite not_brace_spec in Hb. inversion HF as [|? ? H1 ?]; subst. rewrite H1 in Hb. discriminate.
    + apply (IH false) in H as (pre & ps & i' & -> & Hps & Hi); [|discriminate|exact Hl].
      exists (lit "{{" ++ pre), (Lit (lit "{") :: ps), i'. split; [now rewrite app_assoc|]. split; [now constructor|exact Hi].
    + apply (IH false) in H as (pre & ps & i' & -> & Hps & Hi); [|discriminate|exact Hl].
      exists (lit "}}" ++ pre), (Lit (lit "}") :: ps), i'. split; [now rewrite app_assoc|]. split; [now constructor|exact Hi].
    + apply (IH false) in H as (pre & ps & i' & -> & Hps & Hi); [|discriminate|exact Hl].
      exists (lit "{" ++ p ++ lit "}" ++ pre), (Arg a :: ps), i'. split; [now rewrite <- !app_assoc|]. split; [|exact Hi].
      econstructor; eauto. intros Hem. specialize (He Hem). destruct pre; [reflexivity|exact He].
  - intros _. exists [], [], i. split; [reflexivity|]. split; [constructor|]. now apply piece_fill.
Qed.

Lemma many_fill_complete b ps pre : spells b ps pre -> forall i' fuel acc, fill_placeholder i' ->
  length (pre ++ i') < fuel -> many_loop fuel parse_piece (pre ++ i') acc = PPanic.
Proof.
  induction 1 as [b|t ps s Ht HF Hs IH|b ps s Hs IH|b ps s Hs IH|b a e p ps s Hp He Hs IH];
    intros i' fuel acc Hi Hf; (destruct fuel as [|fuel]; [lia|]); cbn [many_loop];
    destruct (fill_first _ Hi) as [r Er].
  - cbn [app]. apply piece_fill in Hi. now rewrite Hi.
  - rewrite <- app_assoc in *. rewrite piece_text.
    + rewrite length_app_neq by auto. apply IH; [exact Hi|]. rewrite app_length in Hf. destruct t; [congruence|cbn in Hf; lia].
    + exact Ht.
    + exact HF.
    + apply spells_true_stops in Hs. destruct s; [rewrite Er; reflexivity|exact Hs].
  - rewrite <- app_assoc in *. rewrite piece_open, length_app_neq by discriminate. apply IH; [exact Hi|cbn in Hf; lia].
  - rewrite <- app_assoc in *. rewrite piece_close, length_app_neq by discriminate. apply IH; [exact Hi|cbn in Hf; lia].
  - rewrite <- !app_assoc in *.
    rewrite (piece_arg _ _ Hx a e p (s ++ i')).
    + assert (X : (length (s ++ i') =? length (lit "{" ++ p ++ lit "}" ++ s ++ i')) = false)
        by (apply Nat.eqb_neq; rewrite !app_length; cbn; lia).
      rewrite X. apply IH; [exact Hi|]. rewrite !app_length in *. cbn in Hf. lia.
    + exact Hp.
    + intros Hem. destruct s; [rewrite Er; reflexivity|exact (He Hem)].
Qed.

(** The parser panics exactly if the first placeholder that is not well formed has a fill. *)
Lemma format_fill s : parse_format s = PPanic <->
  exists pre ps i, s = pre ++ i /\ spells false ps pre /\ fill_placeholder i.
Proof.
  unfold Parse.parse_format, all_consuming, many0. split.
  - destruct (many_loop (S (length s)) parse_piece s []) as [[|c r] l| | |] eqn:E; try discriminate. intros _.
    apply (many_fill _ false) in E as (pre & ps & i' & -> & Hps & Hi); [|discriminate|lia]. eauto 8.
  - intros (pre & ps & i & -> & Hps & Hi). now rewrite (many_fill_complete _ _ _ Hps) by (try exact Hi; lia).
Qed.
End Xid.
