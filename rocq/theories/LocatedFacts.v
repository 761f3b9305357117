(** Forgetting the payload of the errors of [Located] gives [Parse]. *)
From Verif Require Import Base Style Nom Parse Located SpecGrammar ParseFacts SpecFacts
  GrammarFacts.

Definition forget {A} (r : lres A) : pres A :=
  match r with
  | LOk rest a => POk rest a
  | LErr _ _ => PErr
  | LFail _ _ => PFail
  | LPanic => PPanic
  end.

Definition agree {A} (lp : lparser A) (p : parser A) : Prop := forall i, forget (lp i) = p i.

Lemma agree_lbind {A B} (lp : lparser A) p (lk : A -> lparser B) k :
  agree lp p -> (forall a, agree (lk a) (k a)) -> agree (lbind lp lk) (pbind p k).
Proof.
  intros H Hk i. unfold lbind, pbind. rewrite <- (H i). destruct (lp i); cbn; try reflexivity.
  apply Hk.
Qed.
Lemma agree_lret {A} (a : A) : agree (lret a) (pret a).
Proof. intros i. reflexivity. Qed.
Lemma agree_ltag t : agree (ltag t) (tag t).
Proof.
  intros i. unfold ltag. destruct (tag_cases t i) as [(r & -> & _)| ->]; reflexivity.
Qed.
Lemma agree_lsatisfy k f : agree (lsatisfy_with k f) (satisfy f).
Proof. intros [|c r]; [reflexivity|]. cbn. destruct (f c); reflexivity. Qed.
Lemma agree_ldigit1 : agree ldigit1 digit1.
Proof. intros i. unfold ldigit1, digit1. destruct (take_while is_digit i) as [[|] ?]; reflexivity. Qed.
Lemma agree_lmap {A B} (lp : lparser A) p (f : A -> B) : agree lp p -> agree (lmap lp f) (pmap p f).
Proof. intros. apply agree_lbind; auto using @agree_lret. Qed.
Lemma agree_lvalue {A B} (lp : lparser A) p (v : B) : agree lp p -> agree (lvalue v lp) (value v p).
Proof. apply agree_lmap. Qed.
Lemma agree_lmap_res {A B} (lp : lparser A) p (f : A -> option B) :
  agree lp p -> agree (lmap_res lp f) (map_res p f).
Proof.
  intros H i. unfold lmap_res, map_res, pbind. rewrite <- (H i).
  destruct (lp i); cbn; try reflexivity. destruct (f a); reflexivity.
Qed.
Lemma agree_lopt {A} (lp : lparser A) p : agree lp p -> agree (lopt lp) (opt p).
Proof. intros H i. unfold lopt, opt. rewrite <- (H i). destruct (lp i); reflexivity. Qed.
Lemma agree_lcut {A} (lp : lparser A) p : agree lp p -> agree (lcut lp) (cut p).
Proof. intros H i. unfold lcut, cut. rewrite <- (H i). destruct (lp i); reflexivity. Qed.
Lemma agree_lalt {A} (lp : lparser A) p lps ps :
  agree lp p -> Forall2 agree lps ps -> agree (lalt lp lps) (alt (p :: ps)).
Proof.
  intros H H2. revert lp p H. induction H2 as [|lq q lps ps Hq H2 IH]; intros lp p H i.
  - cbn. rewrite <- (H i). destruct (lp i); reflexivity.
  - change (alt (p :: q :: ps) i) with (match p i with PErr => alt (q :: ps) i | r => r end).
    change (lalt lp (lq :: lps) i)
      with (match lp i with LErr _ _ => lalt lq lps i | r => r end).
    rewrite <- (H i). destruct (lp i); try reflexivity. cbn iota beta. apply IH. exact Hq.
Qed.
Lemma agree_lrecognize {A} (lp : lparser A) p : agree lp p -> agree (lrecognize lp) (recognize p).
Proof. intros H i. unfold lrecognize, recognize. rewrite <- (H i). destruct (lp i); reflexivity. Qed.
Lemma agree_lmany_loop {A} (lp : lparser A) p k fuel i acc :
  agree lp p -> forget (lmany_loop k fuel lp i acc) = many_loop fuel p i acc.
Proof.
  intros H. revert i acc; induction fuel as [|fuel IH]; intros i acc; [reflexivity|].
  cbn [lmany_loop many_loop]. rewrite <- (H i). destruct (lp i); cbn; try reflexivity.
  destruct (length rest =? length i); [reflexivity|apply IH].
Qed.
Lemma agree_lmany0 {A} (lp : lparser A) p : agree lp p -> agree (lmany0 lp) (many0 p).
Proof. intros H i. now apply agree_lmany_loop. Qed.
Lemma agree_lmany1 {A} (lp : lparser A) p : agree lp p -> agree (lmany1 lp) (many1 p).
Proof.
  intros H i. unfold lmany1, many1. rewrite <- (H i). destruct (lp i); try reflexivity.
  cbn [forget]. now apply agree_lmany_loop.
Qed.
Lemma agree_lsep_loop {A B} (ls : lparser B) s (lp : lparser A) p fuel i acc :
  agree ls s -> agree lp p -> forget (lsep_loop fuel ls lp i acc) = sep_loop fuel s p i acc.
Proof.
  intros Hs H. revert i acc; induction fuel as [|fuel IH]; intros i acc; [reflexivity|].
  cbn [lsep_loop sep_loop]. rewrite <- (Hs i). destruct (ls i) as [i1 x| | |]; cbn; try reflexivity.
  destruct (length i1 =? length i); [reflexivity|].
  rewrite <- (H i1). destruct (lp i1) as [i2 y| | |]; cbn; try reflexivity. apply IH.
Qed.
Lemma agree_lsep {A B} (ls : lparser B) s (lp : lparser A) p :
  agree ls s -> agree lp p -> agree (lseparated_list0 ls lp) (separated_list0 s p).
Proof.
  intros Hs H i. unfold lseparated_list0, separated_list0. rewrite <- (H i).
  destruct (lp i); try reflexivity. cbn [forget]. now apply agree_lsep_loop.
Qed.
Lemma agree_lall {A} (lp : lparser A) p : agree lp p -> agree (lall_consuming lp) (all_consuming p).
Proof.
  intros H i. unfold lall_consuming, all_consuming. rewrite <- (H i).
  destruct (lp i) as [[|] | | |]; reflexivity.
Qed.

Ltac agree := repeat first
  [ apply agree_lret | apply agree_lmap | apply agree_lvalue
  | apply agree_ltag | apply agree_lsatisfy | apply agree_ldigit1 | apply agree_lmap_res
  | apply agree_lopt | apply agree_lcut | apply agree_lrecognize | apply agree_lmany0
  | apply agree_lmany1 | apply agree_lsep
  | apply agree_lalt; [|repeat (apply Forall2_cons; [|]); try apply Forall2_nil]
  | apply agree_lbind; [|intros ?] ].

Lemma agree_color : agree lparse_color parse_color.
Proof. unfold lparse_color, parse_color. agree. Qed.
Lemma agree_restyle : agree lparse_restyle parse_restyle.
Proof.
  unfold lparse_restyle, parse_restyle, lparse_intensity, parse_intensity, lpreceded, preceded.
  agree; apply agree_color.
Qed.
Lemma agree_style_diff : agree lparse_style_diff parse_style_diff.
Proof. unfold lparse_style_diff, parse_style_diff. agree; apply agree_restyle. Qed.
Lemma agree_align : agree lparse_align parse_align.
Proof. unfold lparse_align, parse_align. agree. Qed.
Lemma agree_fill_align : agree lparse_fill_align parse_fill_align.
Proof.
  intros i. unfold lparse_fill_align, parse_fill_align.
  assert (H : agree (lopt (lalt (lpair lanychar lparse_align)
                               [lmap lparse_align (fun a => (32%N, a))]))
                    (opt (alt [ppair anychar parse_align; pmap parse_align (fun a => (32%N, a))]))).
  { unfold lpair, ppair, lanychar, anychar. agree; apply agree_align. }
  rewrite <- (H i). destruct (lopt _ i) as [r [[f a]|]| | |]; cbn; try reflexivity.
  destruct (N.eqb f 32); reflexivity.
Qed.

Section Xid.
Variable xs xc : char -> bool.
Lemma agree_arg_ref : agree (lparse_arg_ref xs xc) (parse_arg_ref xs xc).
Proof.
  unfold lparse_arg_ref, parse_arg_ref, lidentifier, identifier, lpair, ppair, lsatisfy, lchar, pchar.
  agree.
Qed.
Lemma agree_count : agree (lparse_count xs xc) (parse_count xs xc).
Proof.
  unfold lparse_count, parse_count, lterminated, terminated. agree; apply agree_arg_ref.
Qed.
Lemma agree_spec : agree (lparse_format_spec xs xc) (parse_format_spec xs xc).
Proof.
  unfold lparse_format_spec, parse_format_spec. apply agree_lbind; [apply agree_fill_align|intros al].
  unfold ldelimited, delimited, lpreceded, preceded, lparse_sign, parse_sign, lparse_trait, parse_trait.
  agree; first [apply agree_count|apply agree_style_diff].
Qed.
Lemma agree_format_arg : agree (lparse_format_arg xs xc) (parse_format_arg xs xc).
Proof.
  unfold lparse_format_arg, parse_format_arg, lpreceded, preceded.
  apply agree_lbind; [apply agree_lopt, agree_arg_ref|intros arg].
  apply agree_lbind; [|intros sp; apply agree_lret].
  apply agree_lopt, agree_lbind; [apply agree_ltag|intros _; apply agree_spec].
Qed.
Lemma agree_piece : agree (lparse_piece xs xc) (parse_piece xs xc).
Proof.
  unfold lparse_piece, parse_piece, lparse_lit, parse_lit, lparse_arg, parse_arg, ldelimited,
    delimited, lnone_of, none_of.
  apply agree_lalt; [agree|apply Forall2_cons; [|apply Forall2_nil]].
  apply agree_lmap, agree_lbind; [apply agree_ltag|intros _].
  apply agree_lbind; [apply agree_lcut, agree_format_arg|intros a]. agree.
Qed.
Lemma agree_format : agree (lparse_format xs xc) (parse_format xs xc).
Proof.
  unfold lparse_format, parse_format. apply agree_lall, agree_lmany0, agree_piece.
Qed.
End Xid.
