(** Proofs about io writers. *)
From Verif Require Import Base Style Fmt Ansi Io SpecText TextFacts StyleFacts AnsiFacts SpecUtf8
  Utf8Facts SpecIo.

Lemma is_interrupted_spec e : is_interrupted e = true <-> err_kind e = Interrupted.
Proof. unfold is_interrupted. destruct (err_kind e); split; congruence. Qed.
Lemma is_interrupted_false e : is_interrupted e = false <-> err_kind e <> Interrupted.
Proof. rewrite <- is_interrupted_spec. destruct (is_interrupted e); split; congruence. Qed.

Lemma taken_length b st r : length (taken (b, st, r)) <= length b.
Proof. destruct r; cbn [taken length]; try lia. rewrite firstn_length. lia. Qed.

(** The complete description of [write_all] through the log of its calls. *)
Definition finished (buf : bytes) (l : iolog) (st : style) (fuel : nat) (r : io_res unit) : Prop :=
  match r with
  | IoOk _ => Forall goes_on l /\ delivered l = buf
  | IoErr e => exists l0 b, Forall goes_on l0 /\ buf = delivered l0 ++ b /\ b <> [] /\
      (l = l0 ++ [(b, st, IoOk 0)] /\ e = write_zero_error \/
       l = l0 ++ [(b, st, IoErr e)] /\ err_kind e <> Interrupted)
  | IoCrash c => exists l0 b, Forall goes_on l0 /\ buf = delivered l0 ++ b /\ b <> [] /\
      ((exists n, l = l0 ++ [(b, st, IoOk n)] /\ length b < n /\ c = Panic) \/
       l = l0 ++ [(b, st, IoCrash c)] \/
       l = l0 /\ length l0 = fuel /\ c = Diverge)
  end.

Lemma skipn_taken {W} (w : W) (b : bytes) st n : n <= length b ->
  skipn (length (taken (b, st, IoOk n))) b = skipn n b.
Proof. intros H. cbn [taken]. rewrite firstn_length. f_equal. lia. Qed.

Lemma write_all_log {W} (write : W -> bytes -> style -> W * io_res nat) fuel st : forall w l buf,
  let '((w', l'), r) := default_write_all fuel (logged_io write) (w, l) buf st in
  exists new, l' = l ++ new /\ offers st buf new /\ finished buf new st fuel r.
Proof.
  induction fuel as [|fuel IH]; intros w l [|x buf].
  - exists []. rewrite app_nil_r. repeat split; constructor.
  - exists []. rewrite app_nil_r. split; [reflexivity|]. split; [constructor|].
    exists [], (x :: buf). repeat split; [constructor|discriminate|]. auto.
  - exists []. rewrite app_nil_r. repeat split; constructor.
  - cbn [default_write_all]. set (b := x :: buf). unfold logged_io at 1. cbn [fst snd].
    assert (Hb : b <> []) by discriminate.
    destruct (write w b st) as [w1 [n|e|c]].
    + destruct n as [|n].
      * exists [(b, st, IoOk 0)]. split; [reflexivity|].
        split; [constructor; [exact Hb|constructor]|]. exists [], b. repeat split; auto.
      * destruct (Nat.leb_spec (S n) (length b)) as [Hn|Hn].
        -- specialize (IH w1 (l ++ [(b, st, IoOk (S n))]) (skipn (S n) b)). revert IH.
           destruct (default_write_all fuel (logged_io write) _ _ _) as [[w' l'] r].
           intros (new & -> & Ho & Hf). exists ((b, st, IoOk (S n)) :: new).
           rewrite <- app_assoc. split; [reflexivity|]. split.
           ++ constructor; [exact Hb|]. now rewrite (skipn_taken w).
           ++ assert (G : goes_on (b, st, IoOk (S n))) by (cbn [goes_on]; lia).
              assert (E : firstn (S n) b ++ skipn (S n) b = b) by apply firstn_skipn.
              revert Hf. unfold finished. destruct r as [u|e|c].
              ** intros [H1 H2]. split; [now constructor|]. cbn [delivered flat_map taken].
                 fold (delivered new). now rewrite H2.
              ** intros (l0 & b' & H1 & H2 & H3 & H4).
                 exists ((b, st, IoOk (S n)) :: l0), b'. split; [now constructor|].
                 split; [|split; [exact H3|]].
                 { cbn [delivered flat_map taken]. fold (delivered l0).
                   rewrite <- app_assoc, <- H2. now rewrite E. }
                 destruct H4 as [[-> ->]|[-> H4]]; [left|right]; split; auto.
              ** intros (l0 & b' & H1 & H2 & H3 & H4).
                 exists ((b, st, IoOk (S n)) :: l0), b'. split; [now constructor|].
                 split; [|split; [exact H3|]].
                 { cbn [delivered flat_map taken]. fold (delivered l0).
                   rewrite <- app_assoc, <- H2. now rewrite E. }
                 destruct H4 as [(k & -> & Hk & ->)|[->|(-> & <- & ->)]].
                 --- left. exists k. auto.
                 --- right. left. reflexivity.
                 --- right. right. auto.
        -- exists [(b, st, IoOk (S n))]. split; [reflexivity|].
           split; [constructor; [exact Hb|constructor]|].
           exists [], b. repeat split; auto. left. exists (S n). auto.
    + destruct (is_interrupted e) eqn:Ei.
      * specialize (IH w1 (l ++ [(b, st, IoErr e)]) b). revert IH.
        destruct (default_write_all fuel (logged_io write) _ _ _) as [[w' l'] r].
        intros (new & -> & Ho & Hf). exists ((b, st, IoErr e) :: new).
        rewrite <- app_assoc. split; [reflexivity|]. split; [constructor; [exact Hb|exact Ho]|].
        apply is_interrupted_spec in Ei.
        assert (G : goes_on (b, st, IoErr e)) by exact Ei.
        revert Hf. unfold finished. destruct r as [u|e'|c].
        -- intros [H1 H2]. split; [now constructor|exact H2].
        -- intros (l0 & b' & H1 & H2 & H3 & H4). exists ((b, st, IoErr e) :: l0), b'.
           split; [now constructor|]. split; [exact H2|]. split; [exact H3|].
           destruct H4 as [[-> ->]|[-> H4]]; [left|right]; split; auto.
        -- intros (l0 & b' & H1 & H2 & H3 & H4). exists ((b, st, IoErr e) :: l0), b'.
           split; [now constructor|]. split; [exact H2|]. split; [exact H3|].
           destruct H4 as [(k & -> & Hk & ->)|[->|(-> & <- & ->)]].
           ++ left. exists k. auto.
           ++ right. left. reflexivity.
           ++ right. right. auto.
      * exists [(b, st, IoErr e)]. split; [reflexivity|].
        split; [constructor; [exact Hb|constructor]|]. exists [], b. repeat split; auto.
        right. split; [reflexivity|]. now apply is_interrupted_false.
    + exists [(b, st, IoCrash c)]. split; [reflexivity|].
      split; [constructor; [exact Hb|constructor]|]. exists [], b. repeat split; auto.
Qed.

(** The log does not influence the writer. *)
Lemma write_all_logged {W} (write : W -> bytes -> style -> W * io_res nat) fuel st : forall w l buf,
  let '((w', _), r) := default_write_all fuel (logged_io write) (w, l) buf st in
  default_write_all fuel write w buf st = (w', r).
Proof.
  induction fuel as [|fuel IH]; intros w l [|x buf]; cbn [default_write_all]; try reflexivity.
  unfold logged_io at 1. cbn [fst snd]. destruct (write w (x :: buf) st) as [w1 [[|n]|e|c]];
    try reflexivity.
  - destruct (S n <=? length (x :: buf)); [apply IH|reflexivity].
  - destruct (is_interrupted e); [apply IH|reflexivity].
Qed.

(** * Termination *)
Lemma goes_on_count l st buf : offers st buf l -> Forall goes_on l ->
  length l <= length (delivered l) + interruptions l.
Proof.
  induction 1 as [buf|buf r l Hb Ho IH]; intros HF; [cbn; lia|].
  inversion HF as [|e l' Hg HF' E1]; subst. specialize (IH HF').
  cbn [delivered flat_map length]. fold (delivered l). rewrite app_length. cbn [interruptions].
  destruct r as [n|e|c]; cbn [goes_on taken] in *.
  - rewrite firstn_length. lia.
  - apply is_interrupted_spec in Hg. rewrite Hg. cbn. lia.
  - destruct Hg.
Qed.

Lemma write_all_mono {W} (write : W -> bytes -> style -> W * io_res nat) st f1 : forall f2 w buf w' r,
  f1 <= f2 -> default_write_all f1 write w buf st = (w', r) ->
  r <> IoCrash Diverge -> default_write_all f2 write w buf st = (w', r).
Proof.
  induction f1 as [|f1 IH]; intros f2 w [|x buf] w' r Hle.
  - destruct f2; auto.
  - cbn. congruence.
  - destruct f2; auto.
  - destruct f2 as [|f2]; [lia|]. cbn [default_write_all].
    destruct (write w (x :: buf) st) as [w1 [[|n]|e|c]]; auto.
    + destruct (S n <=? length (x :: buf)); auto. apply IH. lia.
    + destruct (is_interrupted e); auto. apply IH. lia.
Qed.

Lemma write_all_settles {W} (write : W -> bytes -> style -> W * io_res nat) st :
  (forall w b, b <> [] -> settles write b st w) ->
  (forall w b, snd (write w b st) <> IoCrash Diverge) ->
  forall buf w, exists fuel, snd (default_write_all fuel write w buf st) <> IoCrash Diverge.
Proof.
  intros Hs Hd buf. remember (length buf) as k eqn:Ek. revert buf Ek.
  induction k as [k IH] using lt_wf_ind. intros buf Ek w.
  destruct buf as [|x buf]; [exists 0; discriminate|]. assert (Hb : x :: buf <> []) by discriminate.
  revert Hb Ek. generalize (x :: buf). clear x buf. intros b Hb Ek.
  pose proof (Hs w b Hb) as S0. induction S0 as [w Hw|w S0 IHs].
  - destruct (write w b st) as [w1 r] eqn:E. cbn [snd] in Hw.
    destruct r as [[|n]|e|c].
    + exists 1. destruct b as [|x b]; [congruence|]. cbn [default_write_all]. rewrite E. discriminate.
    + destruct (Nat.leb_spec (S n) (length b)) as [Hn|Hn].
      * destruct (IH (length (skipn (S n) b)) ltac:(rewrite skipn_length; lia) _ eq_refl w1) as [f Hf].
        exists (S f). destruct b as [|x b]; [congruence|]. cbn [default_write_all]. rewrite E.
        apply Nat.leb_le in Hn. now rewrite Hn.
      * exists 1. destruct b as [|x b]; [congruence|]. cbn [default_write_all]. rewrite E.
        apply Nat.leb_gt in Hn. rewrite Hn. discriminate.
    + exists 1. destruct b as [|x b]; [congruence|]. cbn [default_write_all]. rewrite E.
      specialize (Hw e eq_refl). apply is_interrupted_false in Hw. rewrite Hw. discriminate.
    + exists 1. destruct b as [|x b]; [congruence|]. cbn [default_write_all]. rewrite E.
      specialize (Hd w (x :: b)). rewrite E in Hd. cbn in *. congruence.
  - destruct IHs as [f Hf]. destruct (write w b st) as [w1 r] eqn:E. cbn [fst] in Hf.
    destruct r as [[|n]|e|c].
    + exists 1. destruct b as [|x b]; [congruence|]. cbn [default_write_all]. rewrite E. discriminate.
    + destruct (Nat.leb_spec (S n) (length b)) as [Hn|Hn].
      * destruct (IH (length (skipn (S n) b)) ltac:(rewrite skipn_length; lia) _ eq_refl w1) as [f' Hf'].
        exists (S f'). destruct b as [|x b]; [congruence|]. cbn [default_write_all]. rewrite E.
        apply Nat.leb_le in Hn. now rewrite Hn.
      * exists 1. destruct b as [|x b]; [congruence|]. cbn [default_write_all]. rewrite E.
        apply Nat.leb_gt in Hn. rewrite Hn. discriminate.
    + destruct (is_interrupted e) eqn:Ei.
      * exists (S f). destruct b as [|x b]; [congruence|]. cbn [default_write_all]. rewrite E, Ei. exact Hf.
      * exists 1. destruct b as [|x b]; [congruence|]. cbn [default_write_all]. rewrite E, Ei. discriminate.
    + exists 1. destruct b as [|x b]; [congruence|]. cbn [default_write_all]. rewrite E.
      specialize (Hd w (x :: b)). rewrite E in Hd. cbn in *. congruence.
Qed.

Lemma settles_needed {W} (write : W -> bytes -> style -> W * io_res nat) st fuel : forall w b,
  b <> [] -> snd (default_write_all fuel write w b st) <> IoCrash Diverge -> settles write b st w.
Proof.
  induction fuel as [|fuel IH]; intros w [|x b] Hb; try congruence; cbn [default_write_all].
  - cbn. congruence.
  - destruct (write w (x :: b) st) as [w1 r] eqn:E. intros H.
    destruct r as [n|e|c]; try (apply se_now; rewrite E; cbn; discriminate).
    destruct (is_interrupted e) eqn:Ei.
    + apply se_later. rewrite E. cbn [fst]. now apply IH.
    + apply se_now. rewrite E. cbn. intros e' [= <-]. now apply is_interrupted_false.
Qed.

(** * io::Ansi *)
Lemma io_change_same cur st : io_ansi_change cur st = ansi_change cur st.
Proof. reflexivity. Qed.

Section Honest.
Variables (S : Type) (sink : std_io S) (held : S -> bytes).
Hypothesis Hh : honest sink held.

Lemma parts_ok parts : forall s s',
  write_all_parts sink parts s = (s', IoOk tt) -> held s' = held s ++ utf8 (concat parts).
Proof.
  induction parts as [|p parts IH]; intros s s'; cbn [write_all_parts].
  - intros [= <-]. cbn. now rewrite app_nil_r.
  - destruct (si_write_all sink s (utf8 p)) as [s1 [[]|e|c]] eqn:E; try discriminate.
    intros H. apply IH in H. rewrite H. apply (ho_all_ok _ _ Hh) in E. rewrite E.
    cbn [concat]. now rewrite utf8_app, app_assoc.
Qed.

Lemma parts_err parts : forall s s' e,
  write_all_parts sink parts s = (s', IoErr e) ->
  err_kind e <> Interrupted /\ exists p, is_prefix p (utf8 (concat parts)) /\ held s' = held s ++ p.
Proof.
  induction parts as [|p parts IH]; intros s s' e; cbn [write_all_parts]; [discriminate|].
  destruct (si_write_all sink s (utf8 p)) as [s1 [[]|e1|c]] eqn:E; try discriminate.
  - intros H. apply IH in H as (H1 & q & (r & Hr) & H2). split; [exact H1|].
    apply (ho_all_ok _ _ Hh) in E. exists (utf8 p ++ q). split.
    + exists r. cbn [concat]. now rewrite utf8_app, Hr, app_assoc.
    + now rewrite H2, E, app_assoc.
  - intros [= <- <-]. apply (ho_all_err _ _ Hh) in E as (H1 & q & (r & Hr) & H2).
    split; [exact H1|]. exists q. split; [|exact H2]. exists (r ++ utf8 (concat parts)).
    cbn [concat]. now rewrite utf8_app, Hr, app_assoc.
Qed.

(** One [write]. *)
Lemma io_write_ok w b st w' n :
  io_ansi_write sink w b st = (w', IoOk n) ->
  ia_current w' = st /\ n <= length b /\
  held (ia_inner w') = held (ia_inner w) ++ utf8 (esc (ia_current w) st) ++ firstn n b.
Proof.
  unfold io_ansi_write. rewrite io_change_same.
  destruct (write_all_parts sink (ansi_change (ia_current w) st) (ia_inner w)) as [i [[]|e|c]] eqn:E;
    try discriminate.
  destruct (si_write sink i b) as [i' r] eqn:E2. intros [= <- ->]. cbn [ia_current ia_inner].
  apply (ho_write_ok _ _ Hh) in E2 as [H1 H2]. apply parts_ok in E.
  split; [reflexivity|]. split; [exact H1|]. unfold esc. now rewrite H2, E, <- app_assoc.
Qed.

Lemma io_write_err w b st w' e :
  io_ansi_write sink w b st = (w', IoErr e) ->
  (ia_current w' = st /\ held (ia_inner w') = held (ia_inner w) ++ utf8 (esc (ia_current w) st)) \/
  (ia_current w' = ia_current w /\ err_kind e <> Interrupted /\
   exists p, is_prefix p (utf8 (esc (ia_current w) st)) /\
             held (ia_inner w') = held (ia_inner w) ++ p).
Proof.
  unfold io_ansi_write. rewrite io_change_same.
  destruct (write_all_parts sink (ansi_change (ia_current w) st) (ia_inner w)) as [i [[]|e1|c]] eqn:E;
    try discriminate.
  - destruct (si_write sink i b) as [i' r] eqn:E2. intros [= <- ->]. cbn [ia_current ia_inner].
    apply (ho_write_err _ _ Hh) in E2. apply parts_ok in E. left. split; [reflexivity|].
    rewrite E2, E. reflexivity.
  - intros [= <- ->]. right. cbn [ia_current ia_inner]. apply parts_err in E as (H1 & H2). auto.
Qed.

Lemma esc_nil st : utf8 (esc st st) = [].
Proof. now rewrite esc_same. Qed.

(** [write_all]. *)
Lemma io_write_all_ok fuel st : forall b w w',
  io_ansi_write_all fuel sink w b st = (w', IoOk tt) ->
  ia_current w' = (if is_empty b then ia_current w else st) /\
  held (ia_inner w') = held (ia_inner w) ++
    (if is_empty b then [] else utf8 (esc (ia_current w) st) ++ b).
Proof.
  unfold io_ansi_write_all. induction fuel as [|fuel IH]; intros [|x b] w w'; cbn [default_write_all is_empty].
  - intros [= <-]. now rewrite app_nil_r.
  - discriminate.
  - intros [= <-]. now rewrite app_nil_r.
  - destruct (io_ansi_write sink w (x :: b) st) as [w1 [[|n]|e|c]] eqn:E; try discriminate.
    + destruct (Datatypes.S n <=? length (x :: b)) eqn:En; [|discriminate].
      intros H. apply IH in H as [H1 H2]. apply io_write_ok in E as (E1 & E2 & E3).
      assert (X : ia_current w' = st) by (rewrite H1, E1; destruct (is_empty _); reflexivity).
      split; [exact X|]. rewrite H2, E3, E1, esc_nil. cbn [app].
      rewrite <- !app_assoc. do 2 f_equal.
      transitivity (firstn (Datatypes.S n) (x :: b) ++ skipn (Datatypes.S n) (x :: b));
        [|apply firstn_skipn].
      f_equal. destruct (skipn (Datatypes.S n) (x :: b)); reflexivity.
    + destruct (is_interrupted e) eqn:Ei; [|discriminate].
      intros H. apply IH in H as [H1 H2]. apply is_interrupted_spec in Ei.
      apply io_write_err in E as [(E1 & E2)|(_ & E2 & _)]; [|congruence].
      cbn [is_empty] in H1, H2. split; [exact H1|]. rewrite H2, E2, E1, esc_nil. cbn [app].
      now rewrite <- app_assoc.
Qed.

Lemma trap_write_ok fuel t s st t' :
  trap_write_str (io_ansi_write_all fuel sink) t s st = (t', Returned Ok) ->
  ia_current (et_inner t') = last_style (ia_current (et_inner t)) (paint st s) /\
  held (ia_inner (et_inner t')) =
  held (ia_inner (et_inner t)) ++ utf8 (ansi_render (ia_current (et_inner t)) (paint st s)).
Proof.
  unfold trap_write_str. destruct (io_ansi_write_all fuel sink (et_inner t) (utf8 s) st) as [w1 [[]|e|c]] eqn:E;
    try discriminate.
  intros [= <-]. cbn [et_inner]. apply io_write_all_ok in E as [E1 E2]. rewrite E1, E2. clear E1 E2.
  destruct s as [|c s]; [split; reflexivity|].
  destruct (utf8 (c :: s)) as [|x b] eqn:Eu; [exfalso; pose proof (proj1 (utf8_nil (c :: s)) Eu); discriminate|].
  cbn [is_empty]. rewrite last_style_paint, ansi_render_paint by discriminate.
  split; [reflexivity|]. rewrite utf8_app. now rewrite Eu.
Qed.

Lemma trap_play_ok fuel h : forall t t',
  play (trap_write_str (io_ansi_write_all fuel sink)) h t = (t', Returned Ok) ->
  ia_current (et_inner t') = last_style (ia_current (et_inner t)) (denote h) /\
  held (ia_inner (et_inner t')) =
  held (ia_inner (et_inner t)) ++ utf8 (ansi_render (ia_current (et_inner t)) (denote h)).
Proof.
  induction h as [|[s st] h IH]; intros t t'; cbn [play denote].
  - intros [= <-]. cbn. now rewrite app_nil_r.
  - destruct (trap_write_str (io_ansi_write_all fuel sink) t s st) as [t1 [[|]|c]] eqn:E;
      try discriminate.
    intros H. apply IH in H as [H1 H2]. apply trap_write_ok in E as [E1 E2].
    rewrite H1, H2, E1, E2, last_style_app, ansi_render_app, utf8_app. now rewrite <- app_assoc.
Qed.
End Honest.

(** The provided [write_all] of std meets the contract. *)
Lemma std_default_honest {S} (held : S -> bytes) fuel (write : S -> bytes -> S * io_res nat) flush :
  (forall s b s' n, write s b = (s', IoOk n) -> n <= length b /\ held s' = held s ++ firstn n b) ->
  (forall s b s' e, write s b = (s', IoErr e) -> held s' = held s) ->
  (forall s s' r, flush s = (s', r) -> held s' = held s) ->
  honest (std_default fuel write flush) held.
Proof.
  intros H1 H2 H3. constructor; cbn [std_default si_write si_write_all si_flush]; auto.
  - induction fuel as [|fuel IH]; intros s [|x b] s'; cbn [std_write_all]; try discriminate.
    1,2: intros [= <-]; now rewrite app_nil_r.
    destruct (write s (x :: b)) as [s1 [[|n]|e|c]] eqn:E; try discriminate.
    + destruct (Datatypes.S n <=? length (x :: b)) eqn:En; [|discriminate]. intros H. apply IH in H.
      apply H1 in E as [_ E]. rewrite H, E, <- app_assoc. f_equal. apply firstn_skipn.
    + destruct (is_interrupted e); [|discriminate]. intros H. apply IH in H. apply H2 in E. congruence.
  - induction fuel as [|fuel IH]; intros s [|x b] s' e; cbn [std_write_all]; try discriminate.
    destruct (write s (x :: b)) as [s1 [[|n]|e1|c]] eqn:E; try discriminate.
    + intros [= <- <-]. split; [discriminate|]. exists []. split; [eexists; reflexivity|].
      apply H1 in E as [_ E]. exact E.
    + destruct (Datatypes.S n <=? length (x :: b)) eqn:En; [|discriminate]. intros H.
      apply IH in H as (Hi & p & (r & Hr) & Hp). split; [exact Hi|].
      apply H1 in E as [_ E]. exists (firstn (Datatypes.S n) (x :: b) ++ p). split.
      * exists r. rewrite <- app_assoc, <- Hr. symmetry. apply firstn_skipn.
      * now rewrite Hp, E, app_assoc.
    + destruct (is_interrupted e1) eqn:Ei.
      * intros H. apply IH in H as (Hi & p & Hr & Hp). apply H2 in E.
        split; [exact Hi|]. exists p. rewrite <- E. auto.
      * intros [= <- <-]. split; [now apply is_interrupted_false|]. exists [].
        split; [eexists; reflexivity|]. apply H2 in E. now rewrite app_nil_r.
Qed.

Lemma scripted_honest fuel : honest (scripted fuel) fst.
Proof.
  apply std_default_honest.
  - intros [h sc] b s' n. unfold scripted_write. cbn [fst snd]. destruct sc as [|[k|e] r].
    + intros [= <- <-]. cbn [fst]. split; [lia|]. now rewrite firstn_all.
    + intros [= <- <-]. cbn [fst]. split; [lia|]. f_equal.
      destruct (Nat.le_ge_cases k (length b)).
      * now rewrite Nat.min_l.
      * rewrite Nat.min_r, firstn_all, firstn_all2; auto.
    + discriminate.
  - intros [h sc] b s' e. unfold scripted_write. cbn [fst snd]. destruct sc as [|[k|e'] r]; try discriminate.
    intros [= <- <-]. reflexivity.
  - intros s s' r [= <- <-]. reflexivity.
Qed.

(** * write_fmt *)
Lemma default_io_run {W} (wa : W -> bytes -> style -> W * io_res unit) w args :
  default_io_write_fmt wa w args =
  match run (trap_write_str wa) (args formatter_new) (trap_new w) with
  | (t, Returned Ok) => (et_inner t, IoOk tt)
  | (t, Returned Err) => (et_inner t, IoErr (trap_error t))
  | (t, Crashed c) => (et_inner t, IoCrash c)
  end.
Proof. unfold default_io_write_fmt. now rewrite default_write_fmt_run. Qed.

Definition last_error_from (acc : option io_error) (l : alllog) : option io_error :=
  fold_left (fun acc e => match e with (_, _, IoErr err) => Some err | _ => acc end) l acc.

Lemma trap_run_log {W} (wa : W -> bytes -> style -> W * io_res unit) p : forall w l err,
  let '(t, o) := run (trap_write_str (logged_all wa)) p (mk_trap (w, l) err) in
  exists new, snd (et_inner t) = l ++ new /\ et_error t = last_error_from err new /\
    (propagates p -> o = Returned Ok ->
       all_delivered new /\ ok_outcome p = Returned Ok /\
       map fst new = map (fun e => (utf8 (fst e), snd e)) (ok_events p)) /\
    (propagates p -> o = Returned Err ->
       all_delivered new \/
       exists new0 b st e, new = new0 ++ [(b, st, IoErr e)] /\ all_delivered new0).
Proof.
  induction p as [r|c|s st k IH]; intros w l err; cbn [run].
  - exists []. rewrite app_nil_r. split; [reflexivity|]. split; [reflexivity|]. split.
    + intros _ Ho. split; [constructor|]. split; [exact Ho|reflexivity].
    + intros _ _. left. constructor.
  - exists []. rewrite app_nil_r. cbn. repeat split; congruence.
  - unfold trap_write_str at 1. unfold logged_all at 1. cbn [et_inner fst snd et_error].
    destruct (wa w (utf8 s) st) as [w1 [[]|e|c]].
    + specialize (IH Ok w1 (l ++ [(utf8 s, st, IoOk tt)]) err). revert IH.
      destruct (run (trap_write_str (logged_all wa)) (k Ok) _) as [t o].
      intros (new & H1 & H2 & H3 & H4). exists ((utf8 s, st, IoOk tt) :: new).
      rewrite <- app_assoc in H1. split; [exact H1|]. split; [exact H2|]. split.
      * intros [_ Hp] Ho. destruct (H3 Hp Ho) as (A & B & C). split; [now constructor|].
        split; [exact B|]. cbn. now rewrite C.
      * intros [_ Hp] Ho. destruct (H4 Hp Ho) as [A|(n0 & b & st' & e & -> & A)].
        -- left. now constructor.
        -- right. exists ((utf8 s, st, IoOk tt) :: n0), b, st', e. split; [reflexivity|now constructor].
    + specialize (IH Err w1 (l ++ [(utf8 s, st, IoErr e)]) (Some e)). revert IH.
      destruct (run (trap_write_str (logged_all wa)) (k Err) _) as [t o] eqn:Er.
      intros (new & H1 & H2 & H3 & H4). exists ((utf8 s, st, IoErr e) :: new).
      rewrite <- app_assoc in H1. split; [exact H1|]. split; [exact H2|]. split.
      * intros [Hk _] Ho. exfalso. rewrite Hk in Er. cbn in Er. congruence.
      * intros [Hk _] Ho. right. rewrite Hk in Er. cbn in Er. injection Er as <- <-. cbn in H1.
        apply app_inv_head in H1. cbn in H1. injection H1 as <-.
        exists [], (utf8 s), st, e. split; [reflexivity|constructor].
    + exists [(utf8 s, st, IoCrash c)]. cbn. repeat split; congruence.
Qed.

(** The writes of a history through the trap, stopping at the first that does not succeed. *)
Definition wire (h : history) : list (bytes * style) := map (fun e => (utf8 (fst e), snd e)) h.
Lemma trap_play_log {W} (wa : W -> bytes -> style -> W * io_res unit) h : forall w l err,
  let '(t, o) := play (trap_write_str (logged_all wa)) h (mk_trap (w, l) err) in
  exists new, snd (et_inner t) = l ++ new /\
    match o with
    | Returned Ok => all_delivered new /\ map fst new = wire h /\ et_error t = err
    | Returned Err => exists n0 b st e rest, new = n0 ++ [(b, st, IoErr e)] /\ all_delivered n0 /\
        et_error t = Some e /\ wire h = map fst new ++ rest
    | Crashed c => exists n0 b st rest, new = n0 ++ [(b, st, IoCrash c)] /\ all_delivered n0 /\
        wire h = map fst new ++ rest
    end.
Proof.
  induction h as [|[s st] h IH]; intros w l err; cbn [play].
  - exists []. rewrite app_nil_r. repeat split. constructor.
  - unfold trap_write_str at 1. unfold logged_all at 1. cbn [et_inner fst snd et_error].
    destruct (wa w (utf8 s) st) as [w1 [[]|e|c]].
    + specialize (IH w1 (l ++ [(utf8 s, st, IoOk tt)]) err). revert IH.
      destruct (play (trap_write_str (logged_all wa)) h _) as [t o].
      intros (new & H1 & H2). exists ((utf8 s, st, IoOk tt) :: new).
      rewrite <- app_assoc in H1. split; [exact H1|]. destruct o as [[|]|c].
      * destruct H2 as (A & B & C). split; [now constructor|]. split; [cbn; now rewrite B|exact C].
      * destruct H2 as (n0 & b & st' & e & rest & -> & A & B & C).
        exists ((utf8 s, st, IoOk tt) :: n0), b, st', e, rest.
        split; [reflexivity|]. split; [now constructor|]. split; [exact B|].
        cbn [wire map app]. change (map (fun e => (utf8 (fst e), snd e)) h) with (wire h). now rewrite C.
      * destruct H2 as (n0 & b & st' & rest & -> & A & C).
        exists ((utf8 s, st, IoOk tt) :: n0), b, st', rest.
        split; [reflexivity|]. split; [now constructor|].
        cbn [wire map app]. change (map (fun e => (utf8 (fst e), snd e)) h) with (wire h). now rewrite C.
    + exists [(utf8 s, st, IoErr e)]. split; [reflexivity|].
      exists [], (utf8 s), st, e, (wire h). repeat split. constructor.
    + exists [(utf8 s, st, IoCrash c)]. split; [reflexivity|].
      exists [], (utf8 s), st, (wire h). repeat split. constructor.
Qed.

(** * Failures deliver a prefix *)
Section Prefix.
Variables (S : Type) (sink : std_io S) (held : S -> bytes).
Hypothesis Hh : honest sink held.

Lemma prefix_app {A} (p a b : list A) : is_prefix p a -> is_prefix p (a ++ b).
Proof. intros [r ->]. exists (r ++ b). now rewrite app_assoc. Qed.
Lemma prefix_cons_app {A} (a p b : list A) : is_prefix p b -> is_prefix (a ++ p) (a ++ b).
Proof. intros [r ->]. exists r. now rewrite app_assoc. Qed.
Lemma prefix_nil {A} (b : list A) : is_prefix [] b.
Proof. exists b. reflexivity. Qed.

Lemma io_write_all_err fuel st : forall b w w' e,
  io_ansi_write_all fuel sink w b st = (w', IoErr e) ->
  err_kind e <> Interrupted /\
  exists p, is_prefix p (utf8 (esc (ia_current w) st) ++ b) /\
            held (ia_inner w') = held (ia_inner w) ++ p.
Proof.
  unfold io_ansi_write_all. induction fuel as [|fuel IH]; intros [|x b] w w' e;
    cbn [default_write_all]; try discriminate.
  destruct (io_ansi_write sink w (x :: b) st) as [w1 [[|n]|e1|c]] eqn:E; try discriminate.
  - intros [= <- <-]. split; [discriminate|].
    apply (io_write_ok _ _ held Hh) in E as (_ & _ & E). rewrite E. cbn [firstn].
    rewrite app_nil_r. exists (utf8 (esc (ia_current w) st)). split; [|reflexivity]. eexists; reflexivity.
  - destruct (Datatypes.S n <=? length (x :: b)) eqn:En; [|discriminate].
    intros H. apply IH in H as (Hi & p & Hp & H2). split; [exact Hi|].
    apply (io_write_ok _ _ held Hh) in E as (E1 & _ & E3).
    rewrite E1, esc_nil in Hp. cbn [app] in Hp.
    exists (utf8 (esc (ia_current w) st) ++ firstn (Datatypes.S n) (x :: b) ++ p). split.
    + apply prefix_cons_app. rewrite <- (firstn_skipn (Datatypes.S n) (x :: b)) at 2.
      now apply prefix_cons_app.
    + rewrite H2, E3. now rewrite <- !app_assoc.
  - destruct (is_interrupted e1) eqn:Ei.
    + intros H. apply IH in H as (Hi & p & Hp & H2). split; [exact Hi|].
      apply is_interrupted_spec in Ei.
      apply (io_write_err _ _ held Hh) in E as [(E1 & E2)|(_ & E2 & _)]; [|congruence].
      rewrite E1, esc_nil in Hp. cbn [app] in Hp.
      exists (utf8 (esc (ia_current w) st) ++ p). split; [now apply prefix_cons_app|].
      now rewrite H2, E2, <- app_assoc.
    + intros [= <- <-]. split; [now apply is_interrupted_false|].
      apply (io_write_err _ _ held Hh) in E as [(E1 & E2)|(_ & _ & p & Hp & E2)].
      * exists (utf8 (esc (ia_current w) st)). split; [eexists; reflexivity|exact E2].
      * exists p. split; [now apply prefix_app|exact E2].
Qed.

Lemma trap_play_err fuel h : forall t t',
  play (trap_write_str (io_ansi_write_all fuel sink)) h t = (t', Returned Err) ->
  exists p, is_prefix p (utf8 (ansi_render (ia_current (et_inner t)) (denote h))) /\
            held (ia_inner (et_inner t')) = held (ia_inner (et_inner t)) ++ p.
Proof.
  induction h as [|[s st] h IH]; intros t t'; cbn [play denote]; [discriminate|].
  destruct (trap_write_str (io_ansi_write_all fuel sink) t s st) as [t1 [[|]|c]] eqn:E;
    try discriminate.
  - intros H. apply IH in H as (p & Hp & H2). apply (trap_write_ok _ _ held Hh) in E as [E1 E2].
    exists (utf8 (ansi_render (ia_current (et_inner t)) (paint st s)) ++ p). split.
    + rewrite ansi_render_app, utf8_app. apply prefix_cons_app. now rewrite <- E1.
    + now rewrite H2, E2, <- app_assoc.
  - intros [= <-]. revert E. unfold trap_write_str.
    destruct (io_ansi_write_all fuel sink (et_inner t) (utf8 s) st) as [w1 [[]|e|c]] eqn:E;
      try discriminate.
    intros [= <-]. cbn [et_inner]. pose proof E as E0. apply io_write_all_err in E as (_ & p & Hp & E).
    exists p. split; [|exact E]. rewrite ansi_render_app, utf8_app. apply prefix_app.
    destruct s as [|c s].
    + exfalso. revert E0. unfold io_ansi_write_all. destruct fuel; discriminate.
    + now rewrite ansi_render_paint, utf8_app by discriminate.
Qed.

(** io::Plain. *)
Lemma plain_trap_ok h : forall t t',
  play (trap_write_str (io_plain_write_all sink)) h t = (t', Returned Ok) ->
  held (ipl_inner (et_inner t')) = held (ipl_inner (et_inner t)) ++ utf8 (text_of h).
Proof.
  induction h as [|[s st] h IH]; intros t t'; cbn [play].
  - intros [= <-]. cbn. now rewrite app_nil_r.
  - unfold trap_write_str at 1. unfold io_plain_write_all at 1.
    destruct (si_write_all sink (ipl_inner (et_inner t)) (utf8 s)) as [i [[]|e|c]] eqn:E; try discriminate.
    intros H. apply IH in H. cbn [et_inner ipl_inner] in H. apply (ho_all_ok _ _ Hh) in E.
    rewrite H, E. unfold text_of. cbn [map concat]. now rewrite utf8_app, app_assoc.
Qed.
End Prefix.
