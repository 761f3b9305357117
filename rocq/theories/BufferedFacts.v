(** Facts about the buffered writers of [Buffered]. *)
From Verif Require Import Base Style Fmt Io SpecIo IoFacts SpecBuffered Buffered.

Lemma lines_end_bound b : forall n, lines_end b = Some n -> 1 <= n <= length b.
Proof.
  induction b as [|x b IH]; intros n; cbn [lines_end length]; [discriminate|].
  destruct (lines_end b) as [k|]; [intros [= <-]; specialize (IH k eq_refl); lia|].
  destruct (N.eqb x newline); [intros [= <-]; lia|discriminate].
Qed.
(** No newline at all; the last one. *)
Lemma lines_end_none b : lines_end b = None <-> ~ In newline b.
Proof.
  induction b as [|x b IH]; cbn [lines_end In]; [tauto|].
  destruct (lines_end b) as [k|].
  - split; [discriminate|]. intros H. exfalso. assert (N : ~ In newline b) by tauto. apply IH in N. discriminate.
  - destruct (N.eqb_spec x newline) as [->|Hx].
    + split; [discriminate|]. intros H. exfalso. apply H. now left.
    + split; [|reflexivity]. intros _ [H|H]; [congruence|]. revert H. now apply IH.
Qed.
Lemma lines_end_some b : forall n, lines_end b = Some n ->
  (exists l, firstn n b = l ++ [newline]) /\ ~ In newline (skipn n b).
Proof.
  induction b as [|x b IH]; intros n; cbn [lines_end]; [discriminate|].
  destruct (lines_end b) as [k|] eqn:E.
  - intros [= <-]. destruct (IH k eq_refl) as [[l H1] H2]. cbn [firstn skipn]. split; [|exact H2].
    exists (x :: l). now rewrite H1.
  - destruct (N.eqb_spec x newline) as [->|Hx]; [|discriminate]. intros [= <-]. cbn [firstn skipn].
    split; [exists []; reflexivity|]. now apply lines_end_none.
Qed.


Section Facts.
Context {S : Type}.
Variable fuel : nat.
Variable inner : std_io S.
Variable cap : nat.
Variable held : S -> bytes.
Hypothesis Hh : honest inner held.
Hypothesis Hp : panics_clean inner held.

Notation all_held := (given held).

Lemma flush_loop_spec n : forall w w' r, bw_flush_loop inner n w = (w', r) ->
  all_held w' = all_held w /\ (r = IoOk tt -> bw_buf w' = []) /\
  (forall e, r = IoErr e -> err_kind e <> Interrupted).
Proof using Hh Hp.
  induction n as [|n IH]; intros w w' r; cbn [bw_flush_loop].
  - destruct (bw_buf w) eqn:Eb; intros [= <- <-]; (split; [reflexivity|]); (split; [|discriminate]); [auto|discriminate].
  - destruct (bw_buf w) as [|x b] eqn:Eb.
    { intros [= <- <-]. split; [reflexivity|]. split; [auto|discriminate]. }
    destruct (si_write inner (bw_inner w) (x :: b)) as [i [[|k]|e|c]] eqn:E.
    + intros [= <- <-]. apply (ho_write_ok _ _ Hh) in E as [_ E].
      split; [unfold given; cbn [bw_inner bw_buf]; rewrite E, Eb; now rewrite app_nil_r|].
      split; [discriminate|]. intros e [= <-]. discriminate.
    + apply (ho_write_ok _ _ Hh) in E as [Hk E]. destruct (Datatypes.S k <=? length (x :: b)) eqn:Ek.
      * intros H. apply IH in H as (H1 & H2 & H3). split; [|auto].
        rewrite H1. unfold given. cbn [bw_inner bw_buf].
        rewrite E, Eb, <- app_assoc. f_equal. exact (firstn_skipn (Datatypes.S k) (x :: b)).
      * apply Nat.leb_gt in Ek. lia.
    + apply (ho_write_err _ _ Hh) in E. destruct (is_interrupted e) eqn:Ei.
      * intros H. apply IH in H as (H1 & H2 & H3). split; [|auto].
        rewrite H1. unfold given. cbn [bw_inner bw_buf]. now rewrite E, Eb.
      * intros [= <- <-].
        split; [unfold given; cbn [bw_inner bw_buf]; now rewrite E, Eb|]. split; [discriminate|].
        intros e' [= <-]. now apply is_interrupted_false.
    + apply Hp in E. intros [= <- <-]. split; [unfold given; cbn [bw_inner bw_buf]; now rewrite E, Eb|].
      split; discriminate.
Qed.
Lemma flush_spec w w' r : bw_flush_buf fuel inner w = (w', r) ->
  all_held w' = all_held w /\ (r = IoOk tt -> bw_buf w' = []) /\
  (forall e, r = IoErr e -> err_kind e <> Interrupted).
Proof using Hh Hp. apply flush_loop_spec. Qed.

(** The first step of [write] and [write_all] makes room. *)
Lemma room_spec (b : bool) w w' r :
  (if b then bw_flush_buf fuel inner w else (w, IoOk tt)) = (w', r) ->
  all_held w' = all_held w /\ (r = IoOk tt -> b = true -> bw_buf w' = []) /\ (b = false -> w' = w) /\
  (forall e, r = IoErr e -> err_kind e <> Interrupted).
Proof using Hh Hp.
  destruct b.
  - intros H. apply flush_spec in H as (H1 & H2 & H3). repeat split; auto. discriminate.
  - intros [= <- <-]. repeat split; auto; discriminate.
Qed.

Lemma push_held w b : all_held (bw_push w b) = all_held w ++ b.
Proof. unfold given, bw_push. cbn [bw_inner bw_buf]. now rewrite app_assoc. Qed.

(** If nothing is left in the buffer, or nothing fits into it, writing to the destination keeps the
    order. *)
Lemma spare_empty (w : buf_writer S) (b : bytes) :
  cap <= length b -> (bw_spare cap w <? length b) = false -> bw_buf w = [] \/ b = [].
Proof.
  unfold bw_spare. intros H1 H2. apply Nat.ltb_ge in H2. destruct (bw_buf w) as [|x l]; [auto|].
  destruct b; [auto|]. cbn [length] in *. lia.
Qed.
Lemma direct w w1 (b : bytes) r :
  (if bw_spare cap w <? length b then bw_flush_buf fuel inner w else (w, IoOk tt)) = (w1, IoOk r) ->
  (cap <=? length b) = true -> bw_buf w1 = [] \/ b = [].
Proof using Hh Hp.
  intros E Ec. destruct r. apply room_spec in E as (H1 & H2 & H3 & _). apply Nat.leb_le in Ec.
  destruct (bw_spare cap w <? length b) eqn:Es; [left; now apply H2|].
  rewrite (H3 eq_refl). exact (spare_empty w b Ec Es).
Qed.

Lemma bw_write_ok w b w' n : bw_write fuel inner cap w b = (w', IoOk n) ->
  n <= length b /\ all_held w' = all_held w ++ firstn n b.
Proof using Hh Hp.
  unfold bw_write. destruct (length b <? bw_spare cap w).
  { intros [= <- <-]. rewrite push_held, firstn_all. split; [lia|reflexivity]. }
  destruct (if bw_spare cap w <? length b then bw_flush_buf fuel inner w else (w, IoOk tt)) as [w1 [r|e|c]] eqn:E;
    try discriminate.
  pose proof (direct _ _ _ _ E) as D. apply room_spec in E as (H1 & _).
  destruct (cap <=? length b) eqn:Ec.
  - destruct (si_write inner (bw_inner w1) b) as [i [k|e|c]] eqn:Ew; intros [= <- <-].
    apply (ho_write_ok _ _ Hh) in Ew as [Hk Ew]. split; [exact Hk|]. rewrite <- H1.
    unfold given. cbn [bw_inner bw_buf]. rewrite Ew.
    destruct (D eq_refl) as [->| ->]; [|rewrite firstn_nil]; now rewrite !app_nil_r.
  - intros [= <- <-]. rewrite push_held, firstn_all, H1. split; [lia|reflexivity].
Qed.
Lemma bw_write_fails w b w' r : bw_write fuel inner cap w b = (w', r) -> (forall n, r <> IoOk n) ->
  all_held w' = all_held w.
Proof using Hh Hp.
  unfold bw_write. destruct (length b <? bw_spare cap w).
  { intros [= <- <-] Hr. now elim (Hr (length b)). }
  destruct (if bw_spare cap w <? length b then bw_flush_buf fuel inner w else (w, IoOk tt)) as [w1 [r1|e1|c]] eqn:E;
    apply room_spec in E as (H1 & _).
  - destruct (cap <=? length b); [|intros [= <- <-] Hr; now elim (Hr (length b))].
    destruct (si_write inner (bw_inner w1) b) as [i [k|e1|c]] eqn:Ew; intros [= <- <-] Hr.
    + now elim (Hr k).
    + apply (ho_write_err _ _ Hh) in Ew. rewrite <- H1. unfold given. cbn [bw_inner bw_buf]. now rewrite Ew.
    + apply Hp in Ew. rewrite <- H1. unfold given. cbn [bw_inner bw_buf]. now rewrite Ew.
  - intros [= <- <-] _. exact H1.
  - intros [= <- <-] _. exact H1.
Qed.
Lemma bw_all_ok w b w' : bw_write_all fuel inner cap w b = (w', IoOk tt) -> all_held w' = all_held w ++ b.
Proof using Hh Hp.
  unfold bw_write_all. destruct (length b <? bw_spare cap w).
  { intros [= <-]. now rewrite push_held. }
  destruct (if bw_spare cap w <? length b then bw_flush_buf fuel inner w else (w, IoOk tt)) as [w1 [r|e|c]] eqn:E;
    try discriminate.
  pose proof (direct _ _ _ _ E) as D. apply room_spec in E as (H1 & _).
  destruct (cap <=? length b) eqn:Ec.
  - destruct (si_write_all inner (bw_inner w1) b) as [i [[]|e|c]] eqn:Ew; intros [= <-].
    apply (ho_all_ok _ _ Hh) in Ew. rewrite <- H1.
    unfold given. cbn [bw_inner bw_buf]. rewrite Ew.
    destruct (D eq_refl) as [->| ->]; now rewrite !app_nil_r.
  - intros [= <-]. now rewrite push_held, H1.
Qed.
Lemma bw_all_err w b w' e : bw_write_all fuel inner cap w b = (w', IoErr e) ->
  err_kind e <> Interrupted /\ exists p, is_prefix p b /\ all_held w' = all_held w ++ p /\
    (stops_short inner held -> b <> [] -> p <> b).
Proof using Hh Hp.
  unfold bw_write_all. destruct (length b <? bw_spare cap w); [discriminate|].
  destruct (if bw_spare cap w <? length b then bw_flush_buf fuel inner w else (w, IoOk tt)) as [w1 [r|e1|c]] eqn:E;
    try discriminate.
  - pose proof (direct _ _ _ _ E) as D. apply room_spec in E as (H1 & _).
    destruct (cap <=? length b) eqn:Ec; [|discriminate].
    destruct (si_write_all inner (bw_inner w1) b) as [i [k|e1|c]] eqn:Ew; try discriminate. intros [= <- <-].
    pose proof Ew as Ew'.
    apply (ho_all_err _ _ Hh) in Ew as (Hk & p & Hpp & Ew). split; [exact Hk|]. exists p. split; [exact Hpp|].
    rewrite <- H1. unfold given. cbn [bw_inner bw_buf]. rewrite Ew. split.
    + destruct (D eq_refl) as [->| ->]; [now rewrite !app_nil_r|].
      destruct Hpp as [q Hpp]. destruct p; [|discriminate]. now rewrite !app_nil_r.
    + intros Hs Hb Hpb. destruct (Hs _ _ _ _ Ew' Hb) as (p' & q & F1 & F2 & F3). rewrite Ew in F3.
      apply app_inv_head in F3. apply F2. subst p' p. symmetry in F1. rewrite <- (app_nil_r b) in F1 at 2.
      now apply app_inv_head in F1.
  - intros [= <- <-]. apply room_spec in E as (H1 & _ & _ & H3).
    split; [now apply H3|]. exists []. split; [eexists; reflexivity|]. rewrite app_nil_r. split; [exact H1|].
    intros _ Hb Heq. apply Hb. now rewrite <- Heq.
Qed.
Lemma bw_flush_held w w' r : bw_flush fuel inner w = (w', r) ->
  all_held w' = all_held w /\ (r = IoOk tt -> bw_buf w' = []).
Proof using Hh Hp.
  unfold bw_flush. destruct (bw_flush_buf fuel inner w) as [w1 [r1|e|c]] eqn:E; apply flush_spec in E as (H1 & H2 & _).
  - destruct (si_flush inner (bw_inner w1)) as [i r2] eqn:Ef. intros [= <- <-].
    apply (ho_flush _ _ Hh) in Ef.
    rewrite <- H1. unfold given. cbn [bw_inner bw_buf]. rewrite Ef. destruct r1. auto.
  - intros [= <- <-]. split; [exact H1|discriminate].
  - intros [= <- <-]. split; [exact H1|discriminate].
Qed.

(** * LineWriter *)
Lemma completed_spec w w' r : lw_flush_completed fuel inner w = (w', r) ->
  all_held w' = all_held w /\ (forall e, r = IoErr e -> err_kind e <> Interrupted).
Proof using Hh Hp.
  unfold lw_flush_completed. destruct (N.eqb (last (bw_buf w) 0%N) newline).
  - intros E. apply flush_spec in E as (H1 & _ & H2). auto.
  - intros [= <- <-]. split; [reflexivity|discriminate].
Qed.
(** What is kept of the rest of the buffer after [flushed] bytes were written is its beginning. *)
Lemma kept_prefix (rest t : bytes) n (b : bytes) flushed : is_prefix t rest -> rest = skipn flushed b ->
  flushed <= length b ->
  flushed + length (firstn n t) <= length b /\
  firstn (flushed + length (firstn n t)) b = firstn flushed b ++ firstn n t.
Proof.
  intros [q ->] Hr Hl.
  assert (L : length b = flushed + length (t ++ q)).
  { rewrite Hr, skipn_length. unfold bytes, str, char in *. lia. }
  rewrite app_length in L. pose proof (firstn_length n t) as F0. unfold bytes in *. split; [lia|].
  rewrite <- (firstn_skipn flushed b) at 1. rewrite <- Hr.
  assert (F : length (firstn flushed b) = flushed) by (apply firstn_length_le; lia).
  rewrite <- F at 1. rewrite firstn_app_2. f_equal.
  rewrite <- (firstn_skipn n t) at 2. rewrite <- app_assoc.
  rewrite <- (Nat.add_0_r (length _)), firstn_app_2. now rewrite firstn_O, app_nil_r.
Qed.
Lemma firstn_prefix {A} n (l : list A) : is_prefix (firstn n l) l.
Proof. exists (skipn n l). symmetry. apply firstn_skipn. Qed.
Lemma prefix_trans {A} (a b c : list A) : is_prefix a b -> is_prefix b c -> is_prefix a c.
Proof. intros [x ->] [y ->]. exists (x ++ y). now rewrite app_assoc. Qed.

Lemma lw_write_ok newer w b w' n : lw_write fuel inner cap newer w b = (w', IoOk n) ->
  n <= length b /\ all_held w' = all_held w ++ firstn n b.
Proof using Hh Hp.
  unfold lw_write. destruct (lines_end b) as [e|] eqn:El.
  - destruct (bw_flush_buf fuel inner w) as [w1 [r1|e1|c]] eqn:E; try discriminate.
    apply flush_spec in E as (H1 & H2 & _). destruct r1. specialize (H2 eq_refl).
    destruct (si_write inner (bw_inner w1) (firstn e b)) as [i [[|k]|e1|c]] eqn:Ew; try discriminate.
    + intros [= <- <-]. apply (ho_write_ok _ _ Hh) in Ew as [_ Ew]. split; [lia|]. rewrite <- H1.
      unfold given. cbn [bw_inner bw_buf firstn]. rewrite Ew. cbn [firstn]. now rewrite !app_nil_r.
    + apply (ho_write_ok _ _ Hh) in Ew as [Hk Ew]. set (fl := Datatypes.S k) in *. clearbody fl.
      destruct (length b <? fl) eqn:Ef; [discriminate|]. apply Nat.ltb_ge in Ef.
      assert (G : firstn fl (firstn e b) = firstn fl b).
      { rewrite firstn_firstn. f_equal. rewrite firstn_length in Hk. lia. }
      rewrite G in Ew.
      assert (A : forall t, is_prefix t (skipn fl b) ->
        forall m, fl + length (firstn m t) <= length b /\
        all_held (bw_push (mk_bw i (bw_buf w1) (bw_panicked w1)) (firstn m t))
        = all_held w ++ firstn (fl + length (firstn m t)) b).
      { intros t Ht m. destruct (kept_prefix _ t m b fl Ht eq_refl Ef) as [K1 K2]. split; [exact K1|].
        rewrite push_held, K2, <- H1. unfold given. cbn [bw_inner bw_buf].
        rewrite Ew, H2, !app_nil_r, app_assoc. reflexivity. }
      destruct (e <=? fl).
      * destruct (newer && (cap <=? length (skipn fl b))).
        -- intros [= <- <-]. split; [exact Ef|]. rewrite <- H1. unfold given. cbn [bw_inner bw_buf].
           now rewrite Ew, H2, !app_nil_r.
        -- intros [= <- <-]. apply A. exists []. now rewrite app_nil_r.
      * intros [= <- <-]. apply A. destruct (e - fl <=? cap); [apply firstn_prefix|].
        destruct (lines_end (firstn cap (skipn fl b))); [|apply firstn_prefix].
        eapply prefix_trans; [apply firstn_prefix|apply firstn_prefix].
  - destruct (lw_flush_completed fuel inner w) as [w1 [r1|e1|c]] eqn:E; try discriminate.
    apply completed_spec in E as [H1 _]. rewrite <- H1. apply bw_write_ok.
Qed.
Lemma lw_write_fails newer w b w' r : lw_write fuel inner cap newer w b = (w', r) -> (forall n, r <> IoOk n) ->
  all_held w' = all_held w.
Proof using Hh Hp.
  unfold lw_write. destruct (lines_end b) as [e|] eqn:El.
  - destruct (bw_flush_buf fuel inner w) as [w1 [r1|e1|c]] eqn:E; apply flush_spec in E as (H1 & H2 & _).
    + destruct (si_write inner (bw_inner w1) (firstn e b)) as [i [[|k]|e1|c]] eqn:Ew.
      * intros [= <- <-] Hr. now elim (Hr 0).
      * apply (ho_write_ok _ _ Hh) in Ew as [Hk Ew].
        destruct (length b <? Datatypes.S k) eqn:Ef.
        { apply Nat.ltb_lt in Ef. rewrite firstn_length in Hk. lia. }
        destruct (e <=? Datatypes.S k); [destruct (newer && _)|]; intros [= <- <-] Hr; exfalso; eapply Hr; reflexivity.
      * intros [= <- <-] _. apply (ho_write_err _ _ Hh) in Ew. rewrite <- H1. unfold given.
        cbn [bw_inner bw_buf]. now rewrite Ew.
      * intros [= <- <-] _. apply Hp in Ew. rewrite <- H1. unfold given. cbn [bw_inner bw_buf]. now rewrite Ew.
    + intros [= <- <-] _. exact H1.
    + intros [= <- <-] _. exact H1.
  - destruct (lw_flush_completed fuel inner w) as [w1 [r1|e1|c]] eqn:E; apply completed_spec in E as [H1 _].
    + rewrite <- H1. apply bw_write_fails.
    + intros [= <- <-] _. exact H1.
    + intros [= <- <-] _. exact H1.
Qed.

(** The first part of [write_all]: the lines. *)
Definition lw_lines (w : buf_writer S) (lines : bytes) : buf_writer S * io_res unit :=
  match bw_buf w with
  | [] => let (i, r) := si_write_all inner (bw_inner w) lines in (mk_bw i (bw_buf w) (bw_panicked w), r)
  | _ :: _ =>
      match bw_write_all fuel inner cap w lines with
      | (w1, IoOk _) => bw_flush_buf fuel inner w1
      | r => r
      end
  end.
Lemma lw_lines_spec w b w' r : lw_lines w b = (w', r) ->
  match r with
  | IoOk _ => all_held w' = all_held w ++ b /\ bw_buf w' = []
  | IoErr e => err_kind e <> Interrupted /\ exists p, is_prefix p b /\ all_held w' = all_held w ++ p
  | IoCrash _ => True
  end.
Proof using Hh Hp.
  unfold lw_lines. destruct (bw_buf w) as [|x l] eqn:Eb.
  - destruct (si_write_all inner (bw_inner w) b) as [i [[]|e|c]] eqn:Ew; intros [= <- <-]; [| |exact I].
    + apply (ho_all_ok _ _ Hh) in Ew. unfold given. cbn [bw_inner bw_buf]. now rewrite Ew, Eb, !app_nil_r.
    + apply (ho_all_err _ _ Hh) in Ew as (Hk & p & H & Ew). split; [exact Hk|]. exists p. split; [exact H|].
      unfold given. cbn [bw_inner bw_buf]. now rewrite Ew, Eb, !app_nil_r.
  - destruct (bw_write_all fuel inner cap w b) as [w1 [[]|e|c]] eqn:Ew; intros H.
    + apply bw_all_ok in Ew. apply flush_spec in H as (H1 & H2 & H3). destruct r as [[]|e|c]; [| |exact I].
      * rewrite H1, Ew. auto.
      * split; [now apply H3|]. exists b. split; [exists []; now rewrite app_nil_r|]. now rewrite H1.
    + injection H as <- <-. apply bw_all_err in Ew as (Hk & p & K1 & K2 & _). eauto.
    + injection H as <- <-. exact I.
Qed.
Lemma lw_write_all_lines w b e : lines_end b = Some e ->
  lw_write_all fuel inner cap w b =
  match lw_lines w (firstn e b) with
  | (w1, IoOk _) => bw_write_all fuel inner cap w1 (skipn e b)
  | r => r
  end.
Proof. intros E. unfold lw_write_all. now rewrite E. Qed.

Lemma lw_all_ok w b w' : lw_write_all fuel inner cap w b = (w', IoOk tt) -> all_held w' = all_held w ++ b.
Proof using Hh Hp.
  destruct (lines_end b) as [e|] eqn:El.
  - rewrite (lw_write_all_lines _ _ _ El).
    destruct (lw_lines w (firstn e b)) as [w1 [[]|e1|c]] eqn:E; try discriminate.
    apply lw_lines_spec in E as [E _]. intros H. apply bw_all_ok in H. rewrite H, E, <- app_assoc. f_equal.
    apply firstn_skipn.
  - unfold lw_write_all. rewrite El.
    destruct (lw_flush_completed fuel inner w) as [w1 [r1|e1|c]] eqn:E; try discriminate.
    apply completed_spec in E as [H1 _]. rewrite <- H1. apply bw_all_ok.
Qed.
Lemma lw_all_err w b w' e : lw_write_all fuel inner cap w b = (w', IoErr e) ->
  err_kind e <> Interrupted /\ exists p, is_prefix p b /\ all_held w' = all_held w ++ p.
Proof using Hh Hp.
  destruct (lines_end b) as [n|] eqn:El.
  - rewrite (lw_write_all_lines _ _ _ El).
    destruct (lw_lines w (firstn n b)) as [w1 [[]|e1|c]] eqn:E; try discriminate; apply lw_lines_spec in E.
    + intros H. apply bw_all_err in H as (Hk & p & K1 & K2 & _). split; [exact Hk|].
      exists (firstn n b ++ p). split; [|rewrite K2; destruct E as [-> _]; now rewrite app_assoc].
      destruct K1 as [q K1]. exists q. rewrite <- app_assoc, <- K1. symmetry. apply firstn_skipn.
    + intros [= <- <-]. destruct E as (Hk & p & K1 & K2). split; [exact Hk|]. exists p. split; [|exact K2].
      exact (prefix_trans _ _ _ K1 (firstn_prefix n b)).
  - unfold lw_write_all. rewrite El.
    destruct (lw_flush_completed fuel inner w) as [w1 [r1|e1|c]] eqn:E; try discriminate;
      apply completed_spec in E as [H1 H2].
    + intros H. apply bw_all_err in H as (Hk & p & K1 & K2 & _). rewrite <- H1. eauto.
    + intros [= <- <-]. split; [now apply H2|]. exists []. split; [apply prefix_nil|]. now rewrite app_nil_r.
Qed.
End Facts.

(** * The size of the buffer *)
Section Sizes.
Context {S : Type}.
Variable fuel : nat.
Variable inner : std_io S.
Variable cap : nat.

Definition is_suffix {A} (a b : list A) : Prop := exists p, b = p ++ a.
Lemma skipn_suffix {A} n (l : list A) : is_suffix (skipn n l) l.
Proof. exists (firstn n l). symmetry. apply firstn_skipn. Qed.
Lemma suffix_refl {A} (l : list A) : is_suffix l l.
Proof. exists []. reflexivity. Qed.
Lemma suffix_trans {A} (a b c : list A) : is_suffix a b -> is_suffix b c -> is_suffix a c.
Proof. intros [x ->] [y ->]. exists (y ++ x). now rewrite app_assoc. Qed.
Lemma suffix_length {A} (a b : list A) : is_suffix a b -> length a <= length b.
Proof. intros [p ->]. rewrite app_length. lia. Qed.

Lemma flush_loop_suffix n : forall w w' r, bw_flush_loop inner n w = (w', r) ->
  is_suffix (bw_buf w') (bw_buf w) /\ (forall u, r = IoOk u -> bw_buf w' = []).
Proof.
  induction n as [|n IH]; intros w w' r; cbn [bw_flush_loop].
  - destruct (bw_buf w) eqn:Eb; intros [= <- <-]; rewrite Eb; (split; [apply suffix_refl|]); [auto|discriminate].
  - destruct (bw_buf w) as [|x b] eqn:Eb.
    { intros [= <- <-]. rewrite Eb. split; [apply suffix_refl|auto]. }
    destruct (si_write inner (bw_inner w) (x :: b)) as [i [[|k]|e|c]].
    + intros [= <- <-]. split; [apply suffix_refl|discriminate].
    + destruct (Datatypes.S k <=? length (x :: b)).
      * intros H. apply IH in H as [H1 H2]. split; [|exact H2]. cbn [bw_buf] in H1.
        eapply suffix_trans; [exact H1|apply skipn_suffix].
      * intros [= <- <-]. split; [apply suffix_refl|discriminate].
    + destruct (is_interrupted e).
      * intros H. apply IH in H as [H1 H2]. split; [exact H1|exact H2].
      * intros [= <- <-]. split; [apply suffix_refl|discriminate].
    + intros [= <- <-]. split; [apply suffix_refl|discriminate].
Qed.
Lemma flush_suffix w w' r : bw_flush_buf fuel inner w = (w', r) ->
  is_suffix (bw_buf w') (bw_buf w) /\ (forall u, r = IoOk u -> bw_buf w' = []).
Proof. apply flush_loop_suffix. Qed.
Lemma room_suffix (b : bool) w w' r :
  (if b then bw_flush_buf fuel inner w else (w, IoOk tt)) = (w', r) ->
  is_suffix (bw_buf w') (bw_buf w) /\ (forall u, r = IoOk u -> if b then bw_buf w' = [] else w' = w).
Proof.
  destruct b; [apply flush_suffix|]. intros [= <- <-]. split; [apply suffix_refl|auto].
Qed.

(** What the buffer can be after [write] and [write_all]: less than it was (or nothing), then the new
    bytes or not. *)
Lemma bw_write_buf w b w' r : bw_write fuel inner cap w b = (w', r) ->
  (is_suffix (bw_buf w') (bw_buf w)) \/
  (exists old, bw_buf w' = old ++ b /\ (old = bw_buf w \/ old = []) /\
    (length (bw_buf w) <= cap -> length (bw_buf w') <= cap)).
Proof.
  unfold bw_write, bw_spare. destruct (length b <? cap - length (bw_buf w)) eqn:El.
  { intros [= <- <-]. right. exists (bw_buf w). cbn [bw_push bw_buf]. split; [reflexivity|]. split; [auto|].
    apply Nat.ltb_lt in El. rewrite app_length. lia. }
  destruct (if cap - length (bw_buf w) <? length b then bw_flush_buf fuel inner w else (w, IoOk tt)) as [w1 r1] eqn:E.
  apply room_suffix in E as [H1 H2]. destruct r1 as [u|e|c].
  - specialize (H2 u eq_refl). destruct (cap <=? length b) eqn:Ec.
    + destruct (si_write inner (bw_inner w1) b) as [i [k|e|c]]; intros [= <- <-]; left; exact H1.
    + intros [= <- <-]. right. exists (bw_buf w1). cbn [bw_push bw_buf]. split; [reflexivity|].
      apply Nat.leb_gt in Ec. destruct (cap - length (bw_buf w) <? length b) eqn:Es.
      * rewrite H2. cbn [app]. split; [auto|lia].
      * rewrite H2. split; [auto|]. apply Nat.ltb_ge in Es. rewrite app_length. lia.
  - intros [= <- <-]. now left.
  - intros [= <- <-]. now left.
Qed.
Lemma bw_write_all_buf w b w' r : bw_write_all fuel inner cap w b = (w', r) ->
  (is_suffix (bw_buf w') (bw_buf w) /\ (forall u, r = IoOk u -> bw_buf w' = [] \/ b = [])) \/
  (exists old, bw_buf w' = old ++ b /\ (old = bw_buf w \/ old = []) /\
    (length (bw_buf w) <= cap -> length (bw_buf w') <= cap)).
Proof.
  unfold bw_write_all, bw_spare. destruct (length b <? cap - length (bw_buf w)) eqn:El.
  { intros [= <- <-]. right. exists (bw_buf w). cbn [bw_push bw_buf]. split; [reflexivity|]. split; [auto|].
    apply Nat.ltb_lt in El. rewrite app_length. lia. }
  destruct (if cap - length (bw_buf w) <? length b then bw_flush_buf fuel inner w else (w, IoOk tt)) as [w1 r1] eqn:E.
  apply room_suffix in E as [H1 H2]. destruct r1 as [u|e|c].
  - specialize (H2 u eq_refl). destruct (cap <=? length b) eqn:Ec.
    + assert (D : bw_buf w1 = [] \/ b = []).
      { apply Nat.leb_le in Ec. destruct (cap - length (bw_buf w) <? length b) eqn:Es; [now left|].
        rewrite H2. exact (spare_empty cap w b Ec Es). }
      destruct (si_write_all inner (bw_inner w1) b) as [i [k|e|c]]; intros [= <- <-]; left; (split; [exact H1|]);
        try discriminate. intros _ _. exact D.
    + intros [= <- <-]. right. exists (bw_buf w1). cbn [bw_push bw_buf]. split; [reflexivity|].
      apply Nat.leb_gt in Ec. destruct (cap - length (bw_buf w) <? length b) eqn:Es.
      * rewrite H2. cbn [app]. split; [auto|lia].
      * rewrite H2. split; [auto|]. apply Nat.ltb_ge in Es. rewrite app_length. lia.
  - intros [= <- <-]. left. split; [exact H1|discriminate].
  - intros [= <- <-]. left. split; [exact H1|discriminate].
Qed.

Definition fits (w : buf_writer S) : Prop := length (bw_buf w) <= cap.
Lemma bw_write_fits w b : fits w -> fits (fst (bw_write fuel inner cap w b)).
Proof.
  destruct (bw_write fuel inner cap w b) as [w' r] eqn:E. apply bw_write_buf in E. cbn [fst]. unfold fits.
  destruct E as [E|(old & _ & _ & E)]; [|exact E]. apply suffix_length in E. lia.
Qed.
Lemma bw_all_fits w b : fits w -> fits (fst (bw_write_all fuel inner cap w b)).
Proof.
  destruct (bw_write_all fuel inner cap w b) as [w' r] eqn:E. apply bw_write_all_buf in E. cbn [fst]. unfold fits.
  destruct E as [[E _]|(old & _ & _ & E)]; [|exact E]. apply suffix_length in E. lia.
Qed.
Lemma flush_buf_fits w : fits w -> fits (fst (bw_flush_buf fuel inner w)).
Proof.
  destruct (bw_flush_buf fuel inner w) as [w' r] eqn:E. apply flush_suffix in E as [E _]. cbn [fst]. unfold fits.
  apply suffix_length in E. lia.
Qed.
Lemma bw_flush_fits w : fits w -> fits (fst (bw_flush fuel inner w)).
Proof.
  intros H. apply flush_buf_fits in H. unfold bw_flush.
  destruct (bw_flush_buf fuel inner w) as [w1 [u|e|c]]; try exact H.
  destruct (si_flush inner (bw_inner w1)) as [i r]. exact H.
Qed.
Lemma completed_fits w : fits w -> fits (fst (lw_flush_completed fuel inner w)).
Proof. unfold lw_flush_completed. destruct (N.eqb _ _); [apply flush_buf_fits|auto]. Qed.
Lemma lw_write_fits newer w b : fits w -> fits (fst (lw_write fuel inner cap newer w b)).
Proof.
  intros H. unfold lw_write. destruct (lines_end b) as [e|].
  - destruct (bw_flush_buf fuel inner w) as [w1 r1] eqn:E. pose proof (flush_buf_fits w H) as H1.
    rewrite E in H1. cbn [fst] in H1. destruct r1 as [u|e1|c]; try exact H1.
    destruct (si_write inner (bw_inner w1) (firstn e b)) as [i [[|k]|e1|c]]; try exact H1.
    assert (K : forall t, fits (bw_push (mk_bw i (bw_buf w1) (bw_panicked w1))
                  (firstn (bw_spare cap (mk_bw i (bw_buf w1) (bw_panicked w1))) t))).
    { intros t. unfold fits, bw_spare, bw_push in *. cbn [bw_buf]. rewrite app_length, firstn_length. lia. }
    destruct (length b <? Datatypes.S k); [exact H1|].
    destruct (e <=? Datatypes.S k); [|apply K]. destruct (newer && _); [exact H1|apply K].
  - destruct (lw_flush_completed fuel inner w) as [w1 r1] eqn:E. pose proof (completed_fits w H) as H1.
    rewrite E in H1. cbn [fst] in H1. destruct r1 as [u|e1|c]; try exact H1. now apply bw_write_fits.
Qed.
Lemma lw_lines_fits w b : fits w -> fits (fst (lw_lines fuel inner cap w b)).
Proof.
  intros H. unfold lw_lines. destruct (bw_buf w) as [|x l] eqn:Eb.
  - destruct (si_write_all inner (bw_inner w) b) as [i r]. unfold fits. cbn [fst bw_buf length]. lia.
  - pose proof (bw_all_fits w b H) as H1. destruct (bw_write_all fuel inner cap w b) as [w1 [u|e|c]]; try exact H1.
    now apply flush_buf_fits.
Qed.
Lemma lw_all_fits w b : fits w -> fits (fst (lw_write_all fuel inner cap w b)).
Proof.
  intros H. destruct (lines_end b) as [e|] eqn:El.
  - rewrite (lw_write_all_lines _ _ _ _ _ _ El). pose proof (lw_lines_fits w (firstn e b) H) as H1.
    destruct (lw_lines fuel inner cap w (firstn e b)) as [w1 [u|e1|c]]; try exact H1. now apply bw_all_fits.
  - unfold lw_write_all. rewrite El. pose proof (completed_fits w H) as H1.
    destruct (lw_flush_completed fuel inner w) as [w1 [u|e1|c]]; try exact H1. now apply bw_all_fits.
Qed.

(** * Lines *)

(** The buffer holds no complete line, or ends with one. *)
Definition clear (w : buf_writer S) : Prop := ~ In newline (bw_buf w).
Definition neat (w : buf_writer S) : Prop := clear w \/ exists l, bw_buf w = l ++ [newline].
Lemma suffix_clear (w w' : buf_writer S) : is_suffix (bw_buf w') (bw_buf w) -> clear w -> clear w'.
Proof. intros [p E] H C. apply H. rewrite E. apply in_or_app. now right. Qed.
Lemma suffix_neat (w w' : buf_writer S) : is_suffix (bw_buf w') (bw_buf w) -> neat w -> neat w'.
Proof.
  intros [p E] [H|[l H]].
  - left. apply (suffix_clear w); [exists p; exact E|exact H].
  - destruct (bw_buf w') as [|x b] eqn:Eb; [left; unfold clear; rewrite Eb; auto|].
    right. rewrite Eb. rewrite H in E. destruct (exists_last (l := x :: b)) as (l' & y & Hy); [discriminate|].
    rewrite Hy in E |- *. exists l'. rewrite app_assoc in E. apply app_inj_tail in E as [_ <-]. reflexivity.
Qed.
Lemma clear_nil (w : buf_writer S) : bw_buf w = [] -> clear w.
Proof. intros H. unfold clear. rewrite H. auto. Qed.
Lemma completed_clear w w' r : neat w -> lw_flush_completed fuel inner w = (w', r) ->
  neat w' /\ (forall u, r = IoOk u -> clear w').
Proof.
  intros Hn. unfold lw_flush_completed. destruct (N.eqb_spec (last (bw_buf w) 0%N) newline) as [El|El].
  - intros E. apply flush_suffix in E as [H1 H2]. split; [exact (suffix_neat _ _ H1 Hn)|].
    intros u ->. apply clear_nil. now apply (H2 u).
  - intros [= <- <-]. split; [exact Hn|]. intros _ _. destruct Hn as [Hn|[l Hn]]; [exact Hn|].
    rewrite Hn, last_last in El. now elim El.
Qed.
Lemma bw_write_clear w b w' r : clear w -> ~ In newline b -> bw_write fuel inner cap w b = (w', r) -> clear w'.
Proof.
  intros Hc Hb E. apply bw_write_buf in E as [E|(old & E & Ho & _)]; [exact (suffix_clear _ _ E Hc)|].
  unfold clear. rewrite E. intros C. apply in_app_or in C as [C|C]; [|now apply Hb].
  destruct Ho as [->| ->]; [now apply Hc|contradiction].
Qed.
Lemma bw_all_clear w b w' r : clear w -> ~ In newline b -> bw_write_all fuel inner cap w b = (w', r) -> clear w'.
Proof.
  intros Hc Hb E. apply bw_write_all_buf in E as [[E _]|(old & E & Ho & _)]; [exact (suffix_clear _ _ E Hc)|].
  unfold clear. rewrite E. intros C. apply in_app_or in C as [C|C]; [|now apply Hb].
  destruct Ho as [->| ->]; [now apply Hc|contradiction].
Qed.

Hypothesis Ht : takes_all inner.
Lemma lw_write_lines newer w b w' r : neat w -> lw_write fuel inner cap newer w b = (w', r) ->
  neat w' /\ (forall n, r = IoOk n -> clear w').
Proof using Ht.
  intros Hn. unfold lw_write. destruct (lines_end b) as [e|] eqn:El.
  - destruct (lines_end_some _ _ El) as [_ Hr]. pose proof (lines_end_bound _ _ El) as Hb.
    destruct (bw_flush_buf fuel inner w) as [w1 r1] eqn:E. apply flush_suffix in E as [H1 H2].
    pose proof (suffix_neat _ _ H1 Hn) as N1. destruct r1 as [u|e1|c].
    + specialize (H2 u eq_refl). assert (C1 : clear w1) by now apply clear_nil.
      destruct (si_write inner (bw_inner w1) (firstn e b)) as [i [[|k]|e1|c]] eqn:Ew.
      * intros [= <- <-]. split; [now left|]. intros n _. exact C1.
      * apply Ht in Ew. rewrite firstn_length_le in Ew by lia. rewrite Ew.
        destruct (length b <? e) eqn:Eb; [apply Nat.ltb_lt in Eb; lia|]. rewrite Nat.leb_refl.
        destruct (newer && _).
        -- intros [= <- <-]. split; [now left|]. intros n _. exact C1.
        -- intros [= <- <-].
           assert (C : clear (bw_push (mk_bw i (bw_buf w1) (bw_panicked w1))
                   (firstn (bw_spare cap (mk_bw i (bw_buf w1) (bw_panicked w1))) (skipn e b)))).
           { unfold clear, bw_push. cbn [bw_buf]. rewrite H2. cbn [app].
             match goal with |- ~ In _ (firstn ?m _) => generalize m end. intros m C. apply Hr.
             rewrite <- (firstn_skipn m (skipn e b)). apply in_or_app. now left. }
           split; [now left|]. intros n _. exact C.
      * intros [= <- <-]. split; [now left|discriminate].
      * intros [= <- <-]. split; [now left|discriminate].
    + intros [= <- <-]. split; [exact N1|discriminate].
    + intros [= <- <-]. split; [exact N1|discriminate].
  - apply lines_end_none in El.
    destruct (lw_flush_completed fuel inner w) as [w1 r1] eqn:E. apply (completed_clear _ _ _ Hn) in E as [N1 C1].
    destruct r1 as [u|e1|c].
    + intros H. apply (bw_write_clear _ _ _ _ (C1 u eq_refl) El) in H. split; [now left|]. intros n _. exact H.
    + intros [= <- <-]. split; [exact N1|discriminate].
    + intros [= <- <-]. split; [exact N1|discriminate].
Qed.
Lemma lw_lines_neat w l b w' r : neat w -> b = l ++ [newline] -> lw_lines fuel inner cap w b = (w', r) ->
  neat w' /\ (forall u, r = IoOk u -> bw_buf w' = []).
Proof.
  intros Hn Hb. unfold lw_lines. destruct (bw_buf w) as [|x l0] eqn:Eb.
  - destruct (si_write_all inner (bw_inner w) b) as [i r1]. intros [= <- <-]. cbn [bw_buf].
    split; [left; now apply clear_nil|auto].
  - destruct (bw_write_all fuel inner cap w b) as [w1 r1] eqn:E. apply bw_write_all_buf in E.
    assert (N1 : neat w1).
    { destruct E as [[E _]|(old & E & _ & _)]; [exact (suffix_neat _ _ E Hn)|]. right. rewrite E, Hb.
      exists (old ++ l). now rewrite app_assoc. }
    destruct r1 as [u|e|c].
    + intros F. apply flush_suffix in F as [F1 F2]. split; [exact (suffix_neat _ _ F1 N1)|exact F2].
    + intros [= <- <-]. split; [exact N1|discriminate].
    + intros [= <- <-]. split; [exact N1|discriminate].
Qed.
Lemma lw_all_lines w b w' r : neat w -> lw_write_all fuel inner cap w b = (w', r) ->
  neat w' /\ (forall u, r = IoOk u -> clear w').
Proof.
  intros Hn. destruct (lines_end b) as [e|] eqn:El.
  - rewrite (lw_write_all_lines _ _ _ _ _ _ El). destruct (lines_end_some _ _ El) as [[l Hl] Hr].
    destruct (lw_lines fuel inner cap w (firstn e b)) as [w1 r1] eqn:E.
    apply (lw_lines_neat _ _ _ _ _ Hn Hl) in E as [N1 C1]. destruct r1 as [u|e1|c].
    + intros H. apply bw_all_clear in H; [|apply clear_nil; now apply (C1 u)|exact Hr].
      split; [now left|auto].
    + intros [= <- <-]. split; [exact N1|discriminate].
    + intros [= <- <-]. split; [exact N1|discriminate].
  - unfold lw_write_all. rewrite El. apply lines_end_none in El.
    destruct (lw_flush_completed fuel inner w) as [w1 r1] eqn:E. apply (completed_clear _ _ _ Hn) in E as [N1 C1].
    destruct r1 as [u|e1|c].
    + intros H. apply (bw_all_clear _ _ _ _ (C1 u eq_refl) El) in H. split; [now left|auto].
    + intros [= <- <-]. split; [exact N1|discriminate].
    + intros [= <- <-]. split; [exact N1|discriminate].
Qed.
Lemma bw_flush_lines w w' r : neat w -> bw_flush fuel inner w = (w', r) ->
  neat w' /\ (forall u, r = IoOk u -> clear w').
Proof.
  intros Hn. unfold bw_flush. destruct (bw_flush_buf fuel inner w) as [w1 r1] eqn:E. apply flush_suffix in E as [H1 H2].
  pose proof (suffix_neat _ _ H1 Hn) as N1. destruct r1 as [u|e|c].
  - destruct (si_flush inner (bw_inner w1)) as [i r2]. intros [= <- <-].
    assert (C : clear (mk_bw i (bw_buf w1) (bw_panicked w1))) by (apply clear_nil; exact (H2 u eq_refl)).
    split; [now left|auto].
  - intros [= <- <-]. split; [exact N1|discriminate].
  - intros [= <- <-]. split; [exact N1|discriminate].
Qed.
End Sizes.
