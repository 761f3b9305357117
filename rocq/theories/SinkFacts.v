(** Facts about writing to arbitrary sinks. *)
From Verif Require Import Base Style Fmt Ansi Html Plain SpecText TextFacts SpecSink AnsiFacts.

Lemma write_parts_app {S} (sink : fmt_sink S) a b s :
  write_parts sink (a ++ b) s =
  match write_parts sink a s with (s', Returned Ok) => write_parts sink b s' | r => r end.
Proof.
  revert s; induction a as [|p a IH]; intros s; cbn; [reflexivity|].
  destruct (sink s p) as [s' [[|]|c]]; auto.
Qed.

(** The calls an Ansi adaptor makes for a history when nothing fails. *)
Fixpoint ansi_parts (cur : style) (h : history) : list str :=
  match h with
  | [] => []
  | (s, st) :: r => if is_empty s then ansi_parts cur r
                    else ansi_change cur st ++ s :: ansi_parts st r
  end.

Lemma ansi_play_parts {S} (sink : fmt_sink S) h i cur :
  let '(w', o) := play (ansi_write_str sink) h (mk_ansi i cur) in
  let '(i', r) := write_parts sink (ansi_parts cur h) i in
  an_inner w' = i' /\ o = r.
Proof.
  revert i cur; induction h as [|[s st] h IH]; intros i cur; cbn [play ansi_parts].
  - cbn. auto.
  - unfold ansi_write_str; cbn [an_inner an_current].
    destruct (is_empty s) eqn:Es; [apply IH|].
    rewrite write_parts_app.
    destruct (write_parts sink (ansi_change cur st) i) as [i' [[|]|c]] eqn:E; [|cbn; auto|cbn; auto].
    cbn [write_parts].
    destruct (sink i' s) as [i'' [[|]|c]] eqn:E2; [apply IH|cbn; auto|cbn; auto].
Qed.

Fixpoint html_parts (cur : style) (h : history) : list str :=
  match h with
  | [] => []
  | (s, st) :: r => if is_empty s then html_parts cur r
                    else html_change cur st ++ escape_parts s ++ html_parts st r
  end.

Lemma html_play_parts {S} (sink : fmt_sink S) h i cur :
  let '(w', o) := play (html_write_str sink) h (mk_html i cur) in
  let '(i', r) := write_parts sink (html_parts cur h) i in
  ht_inner w' = i' /\ o = r.
Proof.
  revert i cur; induction h as [|[s st] h IH]; intros i cur; cbn [play html_parts].
  - cbn. auto.
  - unfold html_write_str; cbn [ht_inner ht_current].
    destruct (is_empty s) eqn:Es; [apply IH|].
    rewrite write_parts_app.
    destruct (write_parts sink (html_change cur st) i) as [i' [[|]|c]] eqn:E; [|cbn; auto|cbn; auto].
    rewrite write_parts_app.
    destruct (write_parts sink (escape_parts s) i') as [i'' [[|]|c]] eqn:E2; [apply IH|cbn; auto|cbn; auto].
Qed.

Lemma plain_play_parts {S} (sink : fmt_sink S) h i :
  let '(w', o) := play (plain_write_str sink) h (mk_plain i) in
  let '(i', r) := write_parts sink (map fst h) i in
  pl_inner w' = i' /\ o = r.
Proof.
  revert i; induction h as [|[s st] h IH]; intros i; cbn [play map fst].
  - cbn. auto.
  - unfold plain_write_str; cbn [pl_inner write_parts].
    destruct (sink i s) as [i' [[|]|c]]; [apply IH|cbn; auto|cbn; auto].
Qed.

(** * Logs *)
Lemma all_ok_app a b : all_ok (a ++ b) <-> all_ok a /\ all_ok b.
Proof. apply Forall_app. Qed.

Lemma write_parts_logged {S} (sink : fmt_sink S) parts i l :
  let '((i', l'), r) := write_parts (logged sink) parts (i, l) in
  write_parts sink parts i = (i', r) /\
  exists new rest, l' = l ++ new /\ parts = map fst new ++ rest /\
    (r = Returned Ok /\ all_ok new /\ rest = [] \/ stopped_with r new).
Proof.
  revert i l; induction parts as [|p ps IH]; intros i l; cbn [write_parts].
  - split; [reflexivity|]. exists [], []. rewrite app_nil_r. repeat split. left. repeat split. constructor.
  - assert (Hlg : logged sink (i, l) p = let (i1, r) := sink i p in (@pair S log i1 (l ++ [(p, r)]), r))
      by reflexivity.
    rewrite Hlg; clear Hlg. destruct (sink i p) as [i1 o] eqn:E.
    assert (Hstop : o <> Returned Ok ->
      exists new rest, l ++ [(p, o)] = l ++ new /\ p :: ps = map fst new ++ rest /\
        (o = Returned Ok /\ all_ok new /\ rest = [] \/ stopped_with o new)).
    { intros Ho. exists [(p, o)], ps. split; [reflexivity|]. split; [reflexivity|].
      right. split; [exact Ho|]. exists [], p. split; [reflexivity|constructor]. }
    destruct o as [[|]|c].
    + specialize (IH i1 (l ++ [(p, Returned Ok)])).
      revert IH.
      destruct (write_parts (logged sink) ps (i1, l ++ [(p, Returned Ok)])) as [[i' l'] r]; intros IH.
      destruct IH as (H1 & new & rest & Hl & Hp & Hr). split; [exact H1|].
      exists ((p, Returned Ok) :: new), rest. subst l'. rewrite <- app_assoc. cbn. split; [reflexivity|].
      split; [now rewrite Hp|]. destruct Hr as [(-> & Hr & ->)|(Hn & l0 & s & -> & H0)].
      * left. repeat split. constructor; auto.
      * right. split; [exact Hn|]. exists ((p, Returned Ok) :: l0), s. split; [reflexivity|].
        constructor; auto.
    + split; [reflexivity|]. apply Hstop. discriminate.
    + split; [reflexivity|]. apply Hstop. discriminate.
Qed.

Lemma stopped_not_ok o l : stopped_with o l -> ~ all_ok l.
Proof.
  intros (Ho & l0 & s & -> & _) H. apply all_ok_app in H as [_ H]. inversion H; subst.
  cbn in *; congruence.
Qed.
Lemma stopped_same o o' l : stopped_with o l -> stopped_with o' l -> o = o'.
Proof.
  intros (_ & l0 & s & -> & _) (_ & l1 & s1 & E & _). apply app_inj_tail in E as [_ E]. congruence.
Qed.

Lemma write_parts_contract {S} (sink : fmt_sink S) parts i :
  let made := snd (fst (write_parts (logged sink) parts (start i))) in
  let full := snd (fst (write_parts (logged string_sink) parts (@start str []))) in
  failure_contract full made (snd (write_parts (logged sink) parts (start i))).
Proof.
  unfold start.
  pose proof (write_parts_logged sink parts i []) as H.
  pose proof (write_parts_logged string_sink parts [] []) as Hf.
  rewrite write_parts_string in Hf.
  revert H Hf.
  destruct (write_parts (logged sink) parts (i, [])) as [[i' made] r]; cbn [fst snd].
  destruct (write_parts (logged string_sink) parts (@pair str log [] [])) as [[i'' full] rf]; cbn [fst snd].
  intros H Hf.
  destruct H as (H1 & new & rest & Hl & Hp & Hr). cbn in Hl; subst new.
  destruct Hf as (Hf1 & newf & restf & Hlf & Hpf & Hrf). cbn in Hlf; subst newf.
  injection Hf1 as _ <-. destruct Hrf as [(_ & _ & ->)|[Hrf _]]; [|congruence]. rewrite app_nil_r in Hpf.
  unfold failure_contract. split; [exists rest; rewrite <- Hp; symmetry; exact Hpf|].
  destruct Hr as [(-> & Hr & ->)|Hr].
  - rewrite app_nil_r in Hp.
    split; [split; [intros _; split; [auto|congruence] | auto]|].
    intros bad Hb. split; [congruence|]. intros Hs; now apply stopped_not_ok in Hs.
  - split.
    + split; [intros ->; now destruct Hr|]. intros [Ho _]. now apply stopped_not_ok in Hr.
    + intros bad Hb. split; [intros <-; exact Hr|]. exact (stopped_same _ _ _ Hr).
Qed.

Lemma ansi_contract {S} (sink : fmt_sink S) h i :
  let '(w', o) := play (ansi_write_str (logged sink)) h (ansi_new (start i)) in
  let '(wf, _) := play (ansi_write_str (logged string_sink)) h (ansi_new (@start str [])) in
  failure_contract (snd (an_inner wf)) (snd (an_inner w')) o.
Proof.
  pose proof (ansi_play_parts (logged sink) h (start i) style_default) as H.
  pose proof (ansi_play_parts (logged string_sink) h (@start str []) style_default) as Hf.
  pose proof (write_parts_contract sink (ansi_parts style_default h) i) as Hc.
  unfold ansi_new. revert H Hf Hc.
  destruct (play (ansi_write_str (logged sink)) h _) as [w' o].
  destruct (play (ansi_write_str (logged string_sink)) h _) as [wf of].
  destruct (write_parts (logged sink) _ _) as [i' r].
  destruct (write_parts (logged string_sink) _ _) as [i'' r']. intros H Hf Hc.
  destruct H as [-> ->], Hf as [-> ->]. exact Hc.
Qed.

Lemma html_contract {S} (sink : fmt_sink S) h i :
  let '(w', o) := play (html_write_str (logged sink)) h (html_new (start i)) in
  let '(wf, _) := play (html_write_str (logged string_sink)) h (html_new (@start str [])) in
  failure_contract (snd (ht_inner wf)) (snd (ht_inner w')) o.
Proof.
  pose proof (html_play_parts (logged sink) h (start i) style_default) as H.
  pose proof (html_play_parts (logged string_sink) h (@start str []) style_default) as Hf.
  pose proof (write_parts_contract sink (html_parts style_default h) i) as Hc.
  unfold html_new. revert H Hf Hc.
  destruct (play (html_write_str (logged sink)) h _) as [w' o].
  destruct (play (html_write_str (logged string_sink)) h _) as [wf of].
  destruct (write_parts (logged sink) _ _) as [i' r].
  destruct (write_parts (logged string_sink) _ _) as [i'' r']. intros H Hf Hc.
  destruct H as [-> ->], Hf as [-> ->]. exact Hc.
Qed.

Lemma plain_contract {S} (sink : fmt_sink S) h i :
  let '(w', o) := play (plain_write_str (logged sink)) h (plain_new (start i)) in
  let '(wf, _) := play (plain_write_str (logged string_sink)) h (plain_new (@start str [])) in
  failure_contract (snd (pl_inner wf)) (snd (pl_inner w')) o /\
  map fst (snd (pl_inner wf)) = map fst h.
Proof.
  pose proof (plain_play_parts (logged sink) h (start i)) as H.
  pose proof (plain_play_parts (logged string_sink) h (@start str [])) as Hf.
  pose proof (write_parts_contract sink (map fst h) i) as Hc.
  pose proof (write_parts_logged string_sink (map fst h) [] []) as Hl. fold (@start str []) in Hl.
  unfold plain_new. revert H Hf Hc Hl.
  destruct (play (plain_write_str (logged sink)) h _) as [w' o].
  destruct (play (plain_write_str (logged string_sink)) h _) as [wf of].
  destruct (write_parts (logged sink) _ _) as [i' r].
  destruct (write_parts (logged string_sink) _ _) as [[i'' l''] r']. intros H Hf Hc Hl.
  destruct H as [-> ->], Hf as [-> ->]. split; [exact Hc|].
  destruct Hl as (Hs & new & rest & Hl & Hp & Hr). rewrite write_parts_string in Hs.
  injection Hs as _ <-. destruct Hr as [(_ & _ & ->)|[Hr _]]; [|congruence]. cbn in Hl; subst. rewrite app_nil_r in Hp.
  cbn. congruence.
Qed.

(** Logging does not disturb the sink. *)
Lemma ansi_logged_transparent {S} (sink : fmt_sink S) h i l cur :
  let '(w', o) := play (ansi_write_str (logged sink)) h (mk_ansi (i, l) cur) in
  let '(w2, o2) := play (ansi_write_str sink) h (mk_ansi i cur) in
  fst (an_inner w') = an_inner w2 /\ o = o2.
Proof.
  pose proof (ansi_play_parts (logged sink) h (i, l) cur) as H.
  pose proof (ansi_play_parts sink h i cur) as H2.
  pose proof (write_parts_logged sink (ansi_parts cur h) i l) as Hl.
  revert H H2 Hl.
  destruct (play (ansi_write_str (logged sink)) h _) as [w' o].
  destruct (play (ansi_write_str sink) h _) as [w2 o2].
  destruct (write_parts (logged sink) _ _) as [[i' l'] r].
  destruct (write_parts sink _ _) as [i'' r']. intros H H2 Hl.
  destruct H as [-> ->], H2 as [-> ->], Hl as [He _]. injection He as -> ->. auto.
Qed.

(** * Watched writers (C26) *)
Lemma run_watched_propagates {W} (ws : write_fn W) p w l :
  propagates p ->
  let '((w', l'), o) := run (watched ws) p (w, l) in
  exists new, l' = l ++ new /\
    match o with
    | Returned Ok => w_all_ok new
    | _ => w_all_ok new \/
           exists new0 s st, new = new0 ++ [(s, st, o)] /\ w_all_ok new0
    end /\
    (forall new0 s st bad, new = new0 ++ [(s, st, bad)] -> bad <> Returned Ok -> o = bad).
Proof.
  revert w l; induction p as [r|c|s st k IH]; intros w l Hp; cbn [run].
  - exists []. rewrite app_nil_r. split; [reflexivity|]. split.
    + destruct r; [constructor|left; constructor].
    + intros new0 s0 st0 bad H. destruct new0; discriminate.
  - exists []. rewrite app_nil_r. split; [reflexivity|]. split; [left; constructor|].
    intros new0 s0 st0 bad H. destruct new0; discriminate.
  - destruct Hp as [Hk Hp]. unfold watched at 1; cbn [fst snd].
    destruct (ws w s st) as [w1 [[|]|c]] eqn:E.
    + specialize (IH Ok w1 (l ++ [(s, st, Returned Ok)]) Hp).
      revert IH. destruct (run (watched ws) (k Ok) _) as [[w' l'] o]. intros IH.
      destruct IH as (new & -> & Ho & Hl).
      exists ((s, st, Returned Ok) :: new). rewrite <- app_assoc. split; [reflexivity|]. split.
      * destruct o as [[|]|c].
        -- constructor; auto.
        -- destruct Ho as [Ho|(n0 & s0 & st0 & -> & Ho)]; [left; constructor; auto|].
           right. exists ((s, st, Returned Ok) :: n0), s0, st0. split; [reflexivity|].
           constructor; auto.
        -- destruct Ho as [Ho|(n0 & s0 & st0 & -> & Ho)]; [left; constructor; auto|].
           right. exists ((s, st, Returned Ok) :: n0), s0, st0. split; [reflexivity|].
           constructor; auto.
      * intros [|x new0] s0 st0 bad Heq Hb; cbn in Heq.
        -- injection Heq as _ _ Hx _. congruence.
        -- injection Heq as _ Hx. eauto.
    + rewrite Hk. cbn [run]. exists [(s, st, Returned Err)]. split; [reflexivity|].
      split; [right; exists [], s, st; split; [reflexivity|constructor]|].
      intros [|x new0] s0 st0 bad Heq Hb; cbn in Heq.
      * now injection Heq as _ _ <-.
      * injection Heq as _ Hx. destruct new0; discriminate.
    + exists [(s, st, Crashed c)]. split; [reflexivity|].
      split; [right; exists [], s, st; split; [reflexivity|constructor]|].
      intros [|x new0] s0 st0 bad Heq Hb; cbn in Heq.
      * now injection Heq as _ _ <-.
      * injection Heq as _ Hx. destruct new0; discriminate.
Qed.
