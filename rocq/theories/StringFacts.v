(** Proofs about core/src/string.rs. *)
From Verif Require Import Base Style Fmt SString SpecText TextFacts SpecHtml HtmlFacts.

(** * Byte offsets *)
Lemma len_utf8_pos c : 1 <= len_utf8 c.
Proof. unfold len_utf8. destruct (c <? 128)%N, (c <? 2048)%N, (c <? 65536)%N; lia. Qed.

Lemma str_len_app a b : str_len (a ++ b) = str_len a + str_len b.
Proof. induction a as [|c a IH]; cbn; [reflexivity|]. rewrite IH. lia. Qed.

Lemma split_at_byte_app a b : split_at_byte (str_len a) (a ++ b) = Some (a, b).
Proof.
  induction a as [|c a IH]; cbn [str_len app]; [destruct b; reflexivity|].
  pose proof (len_utf8_pos c) as Hp.
  destruct (len_utf8 c + str_len a) as [|n] eqn:E; [lia|]. cbn [split_at_byte].
  replace (len_utf8 c <=? S n) with true by (symmetry; apply Nat.leb_le; lia).
  replace (S n - len_utf8 c) with (str_len a) by lia. now rewrite IH.
Qed.

Lemma str_slice_mid a b c :
  str_slice (a ++ b ++ c) (str_len a) (str_len a + str_len b) = Some b.
Proof.
  unfold str_slice. replace (str_len a <=? str_len a + str_len b) with true
    by (symmetry; apply Nat.leb_le; lia).
  rewrite split_at_byte_app. replace (str_len a + str_len b - str_len a) with (str_len b) by lia.
  now rewrite split_at_byte_app.
Qed.

(** * Runs *)
Notation run_t := (style * str)%type.
Definition runs_text (rs : list run_t) : str := concat (map snd rs).
Fixpoint offsets (n : nat) (rs : list run_t) : list (nat * style) :=
  match rs with
  | [] => []
  | (st, s) :: r => (n, st) :: offsets (n + str_len s) r
  end.
Definition ss_of_runs (rs : list run_t) : sstring := mk_sstring (runs_text rs) (offsets 0 rs).

(** Appending a write to the runs. *)
Fixpoint push (rs : list run_t) (s : str) (st : style) : list run_t :=
  match rs with
  | [] => [(st, s)]
  | [(st', s')] => if style_eqb st st' then [(st', s' ++ s)] else [(st', s'); (st, s)]
  | x :: r => x :: push r s st
  end.
Definition push_all (rs : list run_t) (h : history) : list run_t :=
  fold_left (fun rs e => push rs (fst e) (snd e)) h rs.

Lemma push_cons2 x y r s st : push (x :: y :: r) s st = x :: push (y :: r) s st.
Proof. destruct x; reflexivity. Qed.

Lemma runs_text_push rs s st : runs_text (push rs s st) = runs_text rs ++ s.
Proof.
  induction rs as [|[st' s'] rs IH].
  - unfold runs_text; cbn. apply app_nil_r.
  - destruct rs as [|y r].
    + unfold runs_text; cbn. destruct (style_eqb st st'); cbn; rewrite ?app_nil_r; reflexivity.
    + rewrite push_cons2. unfold runs_text in *. cbn [map concat snd] in *. rewrite IH.
      now rewrite <- !app_assoc.
Qed.

Lemma last_style_is_cons n x y r st :
  last_style_is (offsets n (x :: y :: r)) st =
  last_style_is (offsets (n + str_len (snd x)) (y :: r)) st.
Proof. destruct x as [a sa], y as [b sb]. reflexivity. Qed.

Lemma offsets_push n rs s st :
  offsets n (push rs s st) =
  if last_style_is (offsets n rs) st then offsets n rs
  else offsets n rs ++ [(n + str_len (runs_text rs), st)].
Proof.
  revert n; induction rs as [|[st' s'] rs IH]; intros n.
  - cbn. now rewrite Nat.add_0_r.
  - destruct rs as [|y r].
    + unfold last_style_is; cbn [offsets last_opt push].
      destruct (style_eqb st st'); cbn; [reflexivity|].
      unfold runs_text; cbn. rewrite app_nil_r. reflexivity.
    + rewrite push_cons2, last_style_is_cons. cbn [snd].
      change (offsets n ((st', s') :: push (y :: r) s st))
        with ((n, st') :: offsets (n + str_len s') (push (y :: r) s st)).
      change (offsets n ((st', s') :: y :: r))
        with ((n, st') :: offsets (n + str_len s') (y :: r)).
      rewrite IH.
      destruct (last_style_is (offsets (n + str_len s') (y :: r)) st); [reflexivity|].
      cbn [app]. do 4 f_equal. unfold runs_text; cbn [map concat snd].
      rewrite !str_len_app. lia.
Qed.

Lemma ss_write_runs rs s st :
  sstring_write_str (ss_of_runs rs) s st = (ss_of_runs (push rs s st), Returned Ok).
Proof.
  unfold sstring_write_str, ss_of_runs; cbn [ss_string ss_styles].
  rewrite offsets_push, runs_text_push.
  destruct (last_style_is (offsets 0 rs) st); reflexivity.
Qed.

Lemma ss_play_runs h rs :
  play sstring_write_str h (ss_of_runs rs) = (ss_of_runs (push_all rs h), Returned Ok).
Proof.
  revert rs; induction h as [|[s st] h IH]; intros rs; cbn [play push_all fold_left fst snd];
    [reflexivity|].
  rewrite ss_write_runs. apply IH.
Qed.

Lemma sstring_infallible : infallible sstring_write_str.
Proof. intros w s st; reflexivity. Qed.

(** * Display *)
Definition run_events (rs : list run_t) : history := map (fun r => (snd r, fst r)) rs.

Fixpoint emit_runs (rs : list run_t) : wprog :=
  match rs with
  | [] => Ret Ok
  | (st, s) :: r => Emit s st (fun x => match x with Ok => emit_runs r | Err => Ret Err end)
  end.

Lemma display_runs_from pre rs f :
  same_prog
    (sstring_display_loop (runs_text (pre ++ rs)) (offsets (str_len (runs_text pre)) rs) f)
    (emit_runs rs).
Proof.
  revert pre; induction rs as [|[st s] rs IH]; intros pre; [constructor|].
  cbn [offsets sstring_display_loop emit_runs].
  assert (Hend : match offsets (str_len (runs_text pre) + str_len s) rs with
                 | [] => str_len (runs_text (pre ++ (st, s) :: rs))
                 | (e, _) :: _ => e
                 end = str_len (runs_text pre) + str_len s).
  { destruct rs as [|[st' s'] r]; [|reflexivity]. cbn [offsets]. unfold runs_text.
    rewrite map_app, concat_app. cbn [map concat snd]. rewrite app_nil_r.
    apply str_len_app. }
  rewrite Hend.
  assert (Htext : runs_text (pre ++ (st, s) :: rs) = runs_text pre ++ s ++ runs_text rs).
  { unfold runs_text. now rewrite map_app, concat_app. }
  rewrite Htext, str_slice_mid. unfold try_, formatter_write_str.
  cbn [bind try_ formatter_with style_with Restyle_Style fm_style].
  constructor. intros [|]; cbn [bind]; [|constructor].
  specialize (IH (pre ++ [(st, s)])). rewrite <- app_assoc in IH. cbn [app] in IH.
  rewrite Htext in IH.
  replace (str_len (runs_text (pre ++ [(st, s)]))) with (str_len (runs_text pre) + str_len s) in IH.
  - exact IH.
  - unfold runs_text. rewrite map_app, concat_app. cbn [map concat snd].
    rewrite app_nil_r, str_len_app. reflexivity.
Qed.

Lemma display_runs rs f : same_prog (Display_sstring (ss_of_runs rs) f) (emit_runs rs).
Proof. exact (display_runs_from [] rs f). Qed.

Lemma emit_runs_events rs : ok_events (emit_runs rs) = run_events rs.
Proof. induction rs as [|[st s] rs IH]; cbn; [reflexivity|]. now rewrite IH. Qed.

Lemma emit_runs_outcome rs : ok_outcome (emit_runs rs) = Returned Ok.
Proof. induction rs as [|[st s] rs IH]; cbn; auto. Qed.

Lemma emit_runs_propagates rs : propagates (emit_runs rs).
Proof. induction rs as [|[st s] rs IH]; cbn; auto. Qed.

Lemma run_events_push rs s st :
  denote (run_events (push rs s st)) = denote (run_events rs) ++ paint st s.
Proof.
  induction rs as [|[st' s'] rs IH].
  - cbn. apply app_nil_r.
  - destruct rs as [|y r].
    + cbn [push]. destruct (style_eqb_spec st st') as [<-|Hn]; cbn [run_events map denote fst snd].
      * now rewrite paint_app, !app_nil_r.
      * now rewrite !app_nil_r.
    + rewrite push_cons2. cbn [run_events map denote fst snd] in *.
      change (map (fun r0 : run_t => (snd r0, fst r0)) (push (y :: r) s st))
        with (run_events (push (y :: r) s st)).
      rewrite IH. now rewrite <- !app_assoc.
Qed.

Lemma push_all_denote h rs :
  denote (run_events (push_all rs h)) = denote (run_events rs) ++ denote h.
Proof.
  revert rs; induction h as [|[s st] h IH]; intros rs; cbn [push_all fold_left fst snd denote].
  - now rewrite app_nil_r.
  - fold (push_all (push rs s st) h). rewrite IH, run_events_push. now rewrite <- app_assoc.
Qed.

Lemma alternating_push rs s st : alternating rs -> alternating (push rs s st).
Proof.
  induction rs as [|[a sa] rs IH]; [cbn; auto|].
  destruct rs as [|[b sb] r].
  - cbn. destruct (style_eqb_spec st a) as [<-|Hn]; cbn; [auto|]. split; auto.
  - intros [Hab H]. rewrite push_cons2. specialize (IH H).
    destruct r as [|z r].
    + cbn in *. destruct (style_eqb st b); cbn in *; auto.
    + rewrite push_cons2 in *. cbn [alternating]. split; auto.
Qed.

Lemma alternating_push_all h rs : alternating rs -> alternating (push_all rs h).
Proof.
  revert rs; induction h as [|[s st] h IH]; intros rs H; cbn; auto.
  apply IH, alternating_push, H.
Qed.

Lemma push_length rs s st : length (push rs s st) <= S (length rs).
Proof.
  induction rs as [|[a sa] rs IH]; [cbn; lia|]. destruct rs as [|y r].
  - cbn. destruct (style_eqb st a); cbn; lia.
  - rewrite push_cons2. cbn [length] in *. lia.
Qed.

Lemma push_all_length h rs : length (push_all rs h) <= length rs + length h.
Proof.
  revert rs; induction h as [|[s st] h IH]; intros rs; cbn [push_all fold_left fst snd length].
  - lia.
  - fold (push_all (push rs s st) h). specialize (IH (push rs s st)).
    pose proof (push_length rs s st). lia.
Qed.

(** Re-pushing the runs of an alternating list gives the same list. *)
Lemma push_snoc rs a sa st s :
  a <> st -> push (rs ++ [(a, sa)]) s st = rs ++ [(a, sa); (st, s)].
Proof.
  intros Hn. induction rs as [|x rs IH]; cbn [app].
  - cbn. now rewrite (style_eqb_neq st a) by congruence.
  - destruct (rs ++ [(a, sa)]) as [|y r] eqn:E; [destruct rs; discriminate|].
    rewrite push_cons2. now rewrite IH.
Qed.

Lemma push_all_runs pre rs :
  alternating (pre ++ rs) -> push_all pre (run_events rs) = pre ++ rs.
Proof.
  revert pre; induction rs as [|[st s] rs IH]; intros pre H; [symmetry; apply app_nil_r|].
  cbn [run_events map push_all fold_left fst snd].
  change (fold_left _ _ ?x) with (push_all x (run_events rs)).
  assert (Hp : push pre s st = pre ++ [(st, s)]).
  { destruct pre as [|x pre] using rev_ind; [reflexivity|]. clear IHpre.
    destruct x as [a sa]. rewrite <- app_assoc. apply push_snoc.
    rewrite <- app_assoc in H. clear -H. induction pre as [|[z sz] pre IH]; cbn in *.
    - tauto.
    - destruct (pre ++ _) as [|[y sy] q] eqn:E; [destruct pre; discriminate|]. tauto. }
  rewrite Hp, IH.
  - now rewrite <- app_assoc.
  - now rewrite <- app_assoc.
Qed.

(** Strings a user can build. *)
Lemma ss_built h :
  fst (play sstring_write_str h sstring_new) = ss_of_runs (push_all [] h).
Proof. change sstring_new with (ss_of_runs []). now rewrite ss_play_runs. Qed.
