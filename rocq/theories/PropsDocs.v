(** C89: documents, nested to any depth. *)
From Verif Require Import Base Style Fmt SpecStd StdCompat SString Plain Ansi Html Format Nom Parse
  Codegen SpecText TextFacts SpecTerminal SpecSgr SpecHtml StyleFacts StdFacts StringFacts FormatFacts SpecGrammar
  ParseFacts GrammarFacts SpecMeaning CodegenFacts MacroFacts PropsString PropsParse PropsMacro PropsFormat Docs SpecDocs.

(** * Induction over documents *)
Section Rect.
Variable P : doc -> Prop.
Hypothesis HStd : forall v, P (Std v).
Hypothesis HText : forall s, P (Text s).
Hypothesis HStored : forall h, P (Stored h).
Hypothesis HItems : forall l, Forall P l -> P (Items l).
Hypothesis HStyled : forall a d, P d -> P (Styled a d).
Hypothesis HWritten : forall fmt pos named locals, Forall P pos -> Forall (fun nd => P (snd nd)) named ->
  Forall (fun nd => P (snd nd)) locals -> P (Written fmt pos named locals).
Fixpoint doc_ind' (d : doc) : P d :=
  let all := fix all (l : list doc) : Forall P l :=
    match l with [] => Forall_nil _ | x :: r => Forall_cons _ (doc_ind' x) (all r) end in
  let bound := fix bound (l : list (str * doc)) : Forall (fun nd => P (snd nd)) l :=
    match l with [] => Forall_nil _ | (n, x) :: r => @Forall_cons _ (fun nd => P (snd nd)) (n, x) r (doc_ind' x) (bound r) end in
  match d with
  | Std v => HStd v
  | Text s => HText s
  | Stored h => HStored h
  | Items l => HItems l (all l)
  | Styled a x => HStyled a x (doc_ind' x)
  | Written fmt pos named locals => HWritten fmt pos named locals (all pos) (bound named) (bound locals)
  end.
End Rect.

(** * Helpers *)
Lemma look_cons outside d around : look outside (d :: around) = override d (look outside around).
Proof. destruct d as [[?|] [?|] [?|]]; reflexivity. Qed.
Lemma look_with outside a around fl :
  with_attr (mk_formatter (look outside around) fl) a = mk_formatter (look outside (sets a :: around)) fl.
Proof. rewrite look_cons. destruct a as [c|c|i|[[?|] [?|] [?|]]|[f b i]]; reflexivity. Qed.
Lemma looks_app outside a b : looks outside (a ++ b) = looks outside a ++ looks outside b.
Proof. apply map_app. Qed.
Lemma looks_place outside around s : looks outside (place around s) = paint (look outside around) s.
Proof. unfold looks, place, paint. rewrite map_map. reflexivity. Qed.
Lemma looks_all_of outside around st s :
  looks outside (place (all_of st :: around) s) = paint st s.
Proof. rewrite looks_place, look_cons. destruct st; reflexivity. Qed.
Lemma stored_built h : fold_left (fun w e => fst (sstring_write_str w (fst e) (snd e))) h sstring_new = built h.
Proof.
  unfold built. generalize sstring_new. induction h as [|[s st] h IH]; intros w; cbn [fold_left play]; [reflexivity|].
  rewrite IH. pose proof (C22_writes_succeed w s st) as E. cbn [fst snd].
  destruct (sstring_write_str w s st) as [w' o]. cbn [fst snd] in *. now subst o.
Qed.
Lemma looks_stored outside around h :
  looks outside (flat_map (fun e => place (all_of (snd e) :: around) (fst e)) h) = denote h.
Proof.
  induction h as [|[s st] h IH]; cbn [flat_map denote]; [reflexivity|].
  now rewrite looks_app, looks_all_of, IH.
Qed.

Lemma ok_try p q t : (ok_outcome (try_ p q) = Returned Ok /\ produces (try_ p q) = t) <->
  exists t1 t2, (ok_outcome p = Returned Ok /\ produces p = t1) /\ (ok_outcome q = Returned Ok /\ produces q = t2) /\
    t = t1 ++ t2.
Proof.
  unfold try_. rewrite ok_outcome_bind. destruct (ok_outcome p) as [[|]|c] eqn:E.
  - split.
    + intros [H1 H2]. exists (produces p), (produces q). repeat split; auto.
      rewrite <- H2. unfold produces. now rewrite ok_events_bind, E, denote_app.
    + intros (t1 & t2 & [_ H1] & [H2 H3] & ->). split; [exact H2|].
      unfold produces in *. now rewrite ok_events_bind, E, denote_app, H1, H3.
  - split; [intros [H _]; discriminate H|]. intros (t1 & t2 & [H _] & _). discriminate H.
  - split; [intros [H _]; discriminate H|]. intros (t1 & t2 & [H _] & _). discriminate H.
Qed.

Lemma std_side_code tr v st fl : forall s hex, std_side tr fl = Some (s, hex) ->
  trait_code tr v (mk_formatter st fl) = through_proxy (mk_formatter st fl) (v_std v s (std_flags_of fl hex)).
Proof. intros s hex H. destruct tr; cbn [std_side] in H; try discriminate H; injection H as <- <-; reflexivity. Qed.

Lemma eval_fields {H} (l : list (value_t)) (h : H) :
  eval_tuple (map (fun v : value_t => fun h : H => (h, Some v)) l) h = (h, Some l).
Proof. induction l as [|v l IH]; cbn [map eval_tuple]; [reflexivity|]. now rewrite IH. Qed.

Lemma local_value_in l n : match local_value l n with Some _ => In n (map fst l) | None => ~ In n (map fst l) end.
Proof.
  induction l as [|[m x] l IH]; cbn [local_value map fst]; [intros []|].
  destruct (local_value l n); [now right|]. destruct (str_eqb_spec m n) as [->|Hne]; [now left|].
  intros [E|E]; [congruence|auto].
Qed.
Lemma local_value_app l n v after : ~ In n (map fst after) -> local_value (l ++ (n, v) :: after) n = Some v.
Proof.
  intros Ha. induction l as [|[m x] l IH]; cbn [app local_value]; [|now rewrite IH].
  pose proof (local_value_in after n) as HI. destruct (local_value after n); [contradiction|].
  destruct (str_eqb_spec n n); congruence.
Qed.
Lemma local_value_some l n v : local_value l n = Some v <->
  exists before after, l = before ++ (n, v) :: after /\ ~ In n (map fst after).
Proof.
  split; [|intros (b & a & -> & Ha); now apply local_value_app].
  induction l as [|[m x] l IH]; cbn [local_value]; [discriminate|].
  pose proof (local_value_in l n) as HI. destruct (local_value l n) as [y|].
  - intros E. destruct (IH E) as (b & a & -> & Ha). exists ((m, x) :: b), a. auto.
  - destruct (str_eqb_spec m n) as [->|Hne]; [|discriminate]. intros [= ->]. exists [], l. auto.
Qed.

Section Xid.
Variables xid_start xid_continue : char -> bool.
Hypothesis Hx : xid_ok xid_start xid_continue.
Notation format_string := (format_string xid_start xid_continue).
Notation macro := (format_args_impl xid_start xid_continue).
Notation drawn := (drawn xid_start xid_continue).
Notation drawn_all := (drawn_all xid_start xid_continue).
Notation drawn_pieces := (drawn_pieces xid_start xid_continue).
Notation doc_display := (doc_display xid_start xid_continue).
Notation doc_value := (doc_value xid_start xid_continue).

Definition bind_value (nx : str * doc) : str * value_t := (fst nx, doc_value (snd nx)).
Lemma names_kept l : map fst (map bind_value l) = map fst l.
Proof. rewrite map_map. reflexivity. Qed.
Lemma last_bound_values l n v :
  (exists before after, map bind_value l = before ++ (n, v) :: after /\ ~ In n (map fst after)) <->
  exists d, last_bound l n d /\ v = doc_value d.
Proof.
  split.
  - intros (b & a & E & Ha). apply map_eq_app in E as (lb & la & -> & <- & E).
    apply map_eq_cons in E as ([m d] & la' & -> & E & <-). injection E as -> <-.
    exists d. split; [|reflexivity]. exists lb, la'. split; [reflexivity|]. now rewrite names_kept in Ha.
  - intros (d & (b & a & -> & Ha) & ->). exists (map bind_value b), (map bind_value a).
    rewrite map_app. cbn [map]. split; [reflexivity|]. now rewrite names_kept.
Qed.
Lemma last_bound_in l n d : last_bound l n d -> In d (map snd l).
Proof. intros (b & a & -> & _). rewrite map_app. apply in_or_app. right. now left. Qed.

Section Fields.
Variables (pos : list doc) (named locals : list (str * doc)).
Notation uses := (uses (map doc_value pos) (map bind_value named) (scope_of (map bind_value locals))).
Notation means := (means (map doc_value pos) (map bind_value named) (scope_of (map bind_value locals))).
Notation field := (field pos named locals).

Lemma uses_field n a v : uses n a v -> (exists d, field n a d /\ v = doc_value d) \/ v = no_value.
Proof.
  intros Hu. destruct Hu as [v E|i v E|name v before after E Ha|name Hn].
  - left. rewrite nth_error_map in E. destruct (nth_error pos n) as [d|] eqn:Ed; [|discriminate].
    injection E as <-. exists d. split; [now constructor|reflexivity].
  - left. rewrite nth_error_map in E. destruct (nth_error pos (N.to_nat i)) as [d|] eqn:Ed; [|discriminate].
    injection E as <-. exists d. split; [now constructor|reflexivity].
  - left. destruct (proj1 (last_bound_values named name v)) as (d & Hd & ->); [now exists before, after|].
    exists d. split; [now constructor|reflexivity].
  - unfold scope_of. destruct (local_value (map bind_value locals) name) as [v|] eqn:E; [left|now right].
    apply local_value_some in E. apply last_bound_values in E as (d & Hd & ->).
    exists d. split; [|reflexivity]. apply field_local; [now rewrite names_kept in Hn|exact Hd].
Qed.
Lemma field_uses n a d : field n a d -> uses n a (doc_value d).
Proof.
  intros Hf. destruct Hf as [d E|i d E|name d Hb|name d Hn Hb].
  - constructor. now rewrite nth_error_map, E.
  - constructor. now rewrite nth_error_map, E.
  - destruct (proj2 (last_bound_values named name (doc_value d))) as (b & a & E & Ha); [eauto|].
    now apply (use_named _ _ _ _ _ _ b a).
  - assert (E : scope_of (map bind_value locals) name = doc_value d).
    { unfold scope_of. destruct (proj2 (last_bound_values locals name (doc_value d))) as (b & a & E & Ha); [eauto|].
      rewrite E, (local_value_app _ _ _ _ Ha). reflexivity. }
    rewrite <- E. constructor. now rewrite names_kept.
Qed.

Definition Shows (d : doc) : Prop := forall outside around fl t,
  (ok_outcome (doc_display d (mk_formatter (look outside around) fl)) = Returned Ok /\
   produces (doc_display d (mk_formatter (look outside around) fl)) = t) <->
  exists out, drawn d around out /\ t = looks outside out.
Hypothesis Hall : forall n a d, field n a d -> Shows d.

Lemma part_drawn n a v outside around t :
  uses n (fa_arg a) v ->
  let f := mk_formatter (override (fs_style (fa_spec a)) (look outside around)) (spelled_flags (fs_args (fa_spec a))) in
  (ok_outcome (trait_code (fs_trait (fa_spec a)) v f) = Returned Ok /\ produces (trait_code (fs_trait (fa_spec a)) v f) = t) <->
  exists out, t = looks outside out /\
    ((exists d, field n (fa_arg a) d /\ fs_trait (fa_spec a) = FStylish /\ drawn d (fs_style (fa_spec a) :: around) out) \/
     (exists w tr hex, field n (fa_arg a) (Std w) /\
        std_side (fs_trait (fa_spec a)) (spelled_flags (fs_args (fa_spec a))) = Some (tr, hex) /\
        let code := w tr (std_flags_of (spelled_flags (fs_args (fa_spec a))) hex) in
        std_outcome code = Returned Ok /\
        out = place (fs_style (fa_spec a) :: around) (concat (std_events code)))).
Proof.
  intros Hu f. set (fl := spelled_flags (fs_args (fa_spec a))) in *.
  set (sty := fs_style (fa_spec a)) in *.
  assert (Ef : f = mk_formatter (look outside (sty :: around)) fl) by (unfold f; now rewrite look_cons).
  destruct (std_side (fs_trait (fa_spec a)) fl) as [[tr hex]|] eqn:Es.
  - assert (Hn : fs_trait (fa_spec a) <> FStylish) by (intros E; rewrite E in Es; discriminate Es).
    rewrite Ef. rewrite (std_side_code _ v (look outside (sty :: around)) fl tr hex Es).
    rewrite through_proxy_produces, (proj2 (through_proxy_events _ _)).
    destruct (uses_field _ _ _ Hu) as [(d & Hf & ->)| ->].
    + cbn [fm_style v_std doc_value]. split.
      * intros [H1 H2]. destruct d as [w| | | | |]; try discriminate H1.
        exists (place (sty :: around) (concat (std_events (w tr (std_flags_of fl hex))))).
        split; [rewrite looks_place; now symmetry|]. right. exists w, tr, hex. auto.
      * intros (out & -> & [(d' & _ & E & _)|(w & tr' & hex' & Hw & E & Ho & ->)]); [contradiction|].
        injection E as <- <-. pose proof (uses_det _ _ _ _ _ _ _ Hu (field_uses _ _ _ Hw)) as Ed.
        apply (f_equal v_std) in Ed. cbn [v_std doc_value doc_std] in Ed. rewrite Ed.
        split; [exact Ho|]. now rewrite looks_place.
    + split; [intros [H1 _]; discriminate H1|].
      intros (out & -> & [(d' & _ & E & _)|(w & tr' & hex' & Hw & E & Ho & ->)]); [contradiction|].
      injection E as <- <-. pose proof (uses_det _ _ _ _ _ _ _ Hu (field_uses _ _ _ Hw)) as Ed.
      apply (f_equal v_std) in Ed. cbn [v_std doc_value doc_std no_value] in Ed. rewrite <- Ed in Ho. discriminate Ho.
  - assert (Et : fs_trait (fa_spec a) = FStylish).
    { destruct (fs_trait (fa_spec a)); try discriminate Es. reflexivity. }
    rewrite Et. cbn [trait_code]. rewrite Ef.
    destruct (uses_field _ _ _ Hu) as [(d & Hf & ->)| ->].
    + cbn [v_stylish doc_value]. pose proof (Hall _ _ _ Hf outside (sty :: around) fl t) as HS. cbv zeta.
      split.
      * intros H1. apply HS in H1 as (out & H1 & H2). exists out. split; [exact H2|]. left. exists d. auto.
      * intros (out & Ho & [(d' & Hf' & _ & Hd)|(w & tr' & hex' & _ & E & _)]); [|discriminate E].
        pose proof (uses_det _ _ _ _ _ _ _ Hu (field_uses _ _ _ Hf')) as Ed.
        apply (f_equal v_stylish) in Ed. cbn [v_stylish doc_value] in Ed. rewrite Ed.
        apply (Hall _ _ _ Hf' outside (sty :: around) fl t). eauto.
    + split; [intros [H1 _]; discriminate H1|].
      intros (out & Ho & [(d' & Hf' & _ & Hd)|(w & tr' & hex' & _ & E & _)]); [|discriminate E].
      pose proof (uses_det _ _ _ _ _ _ _ Hu (field_uses _ _ _ Hf')) as Ed.
      apply (f_equal v_stylish) in Ed. cbn [v_stylish doc_value no_value] in Ed.
      destruct (proj2 (Hall _ _ _ Hf' outside (sty :: around) fl t)) as [H1 _]; [eauto|].
      rewrite <- Ed in H1. discriminate H1.
Qed.

Lemma pieces_drawn outside around fl n ps parts :
  means (mk_formatter (look outside around) fl) n ps parts -> forall t,
  (Forall (fun p => ok_outcome p = Returned Ok) parts /\ concat (map produces parts) = t) <->
  exists out, drawn_pieces pos named locals n ps around out /\ t = looks outside out.
Proof.
  induction 1 as [n|n s ps parts Hm IH|n a v ps parts Hu Hm IH]; intros t.
  - split.
    + intros [_ <-]. exists []. split; [constructor|reflexivity].
    + intros (out & Hd & ->). inversion Hd; subst. split; [constructor|reflexivity].
  - split.
    + intros [HF <-]. inversion HF as [|? ? H1 H2]; subst.
      destruct (proj1 (IH (concat (map produces parts)))) as (out & Hd & E); [auto|].
      exists (place around s ++ out). split; [now constructor|].
      cbn [map concat]. rewrite looks_app, looks_place, produces_write_str, E. reflexivity.
    + intros (out & Hd & ->). inversion Hd as [|? ? ? ? ? ? ? u Hd'| |]; subst.
      destruct (proj2 (IH (looks outside u))) as [HF E]; [eauto|].
      split; [constructor; [reflexivity|exact HF]|].
      cbn [map concat]. now rewrite looks_app, looks_place, produces_write_str, E.
  - cbn [map concat].
    set (p := trait_code _ _ _) in *.
    pose proof (part_drawn n a v outside around (produces p) Hu) as HP. cbv zeta in HP.
    cbn [fm_style] in p. fold p in HP.
    split.
    + intros [HF <-]. inversion HF as [|? ? H1 H2]; subst.
      destruct (proj1 (IH (concat (map produces parts)))) as (out & Hd & E); [auto|].
      destruct (proj1 HP) as (out1 & E1 & Hout); [auto|].
      exists (out1 ++ out). split; [|now rewrite looks_app, E1, E].
      destruct Hout as [(d & Hf & Ht & Hd1)|(w & tr & hex & Hw & Es & Ho & ->)].
      * now apply (pieces_doc _ _ _ _ _ _ _ d).
      * now apply (pieces_std _ _ _ _ _ _ _ w tr hex).
    + intros (out & Hd & ->).
      assert (HQ : exists o1 u, out = o1 ++ u /\ ok_outcome p = Returned Ok /\ produces p = looks outside o1 /\
        drawn_pieces pos named locals (match fa_arg a with None => 1 + n | Some _ => n end) ps around u).
      { inversion Hd as [| |? ? ? ? ? w tr hex ? ? u Hw Es code Ho Hd'|? ? ? ? ? d ? ? o1 u Hf Ht Hd1 Hd']; subst.
        - exists (place (fs_style (fa_spec a) :: around) (concat (std_events code))), u.
          destruct (proj2 (part_drawn n a v outside around
            (looks outside (place (fs_style (fa_spec a) :: around) (concat (std_events code)))) Hu)) as [H1 H2].
          { eexists. split; [reflexivity|]. right. exists w, tr, hex. auto. }
          repeat split; auto.
        - exists o1, u. destruct (proj2 (part_drawn n a v outside around (looks outside o1) Hu)) as [H1 H2].
          { eexists. split; [reflexivity|]. left. exists d. auto. }
          repeat split; auto. }
      destruct HQ as (o1 & u & -> & H1 & H2 & Hd').
      destruct (proj2 (IH (looks outside u))) as [HF E]; [eauto|].
      split; [constructor; [exact H1|exact HF]|]. now rewrite looks_app, H2, E.
Qed.
End Fields.

(** The Arguments a Written document makes. *)
Definition field_expr (x : doc) : expr unit := fun h => (h, Some (doc_value x)).
Definition bind_expr (nx : str * doc) : str * expr unit := (fst nx, field_expr (snd nx)).
Lemma display_written fmt pos named locals f :
  doc_display (Written fmt pos named locals) f =
  match macro fmt (map field_expr pos) (map bind_expr named) with
  | Expanded c =>
      match eval_code (scope_of (map bind_value locals)) c tt with
      | (_, Some args) => formatter_write_fmt f args
      | (_, None) => Ret Err
      end
  | CompileError => Ret Err
  end.
Proof. reflexivity. Qed.

Lemma evaluated_const {H} (l : list value_t) (h h' : H) vs :
  evaluated (map (fun v : value_t => fun h : H => (h, Some v)) l) h h' vs -> vs = l.
Proof.
  revert h vs. induction l as [|v l IH]; intros h vs Hev; inversion Hev; subst; [reflexivity|].
  match goal with H : (_, Some _) = _ |- _ => injection H as <- <- end. f_equal. eauto.
Qed.
Lemma fields_evaluate (scope : str -> value_t) fmt pos named ps c :
  format_string ps fmt -> macro fmt (map field_expr pos) (map bind_expr named) = Expanded c ->
  exists args, eval_code scope c tt = (tt, Some args) /\
    forall f, exists parts, means (map doc_value pos) (map bind_value named) scope f 0 ps parts /\ args f = in_sequence parts.
Proof.
  intros Hp Hm.
  assert (EP : map field_expr pos = map (fun v : value_t => fun h : unit => (h, Some v)) (map doc_value pos))
    by (now rewrite map_map).
  assert (EN : map snd (map bind_expr named) = map (fun v : value_t => fun h : unit => (h, Some v)) (map snd (map bind_value named)))
    by (now rewrite !map_map).
  destruct (C47_in_range _ _ Hx _ _ _ _ Hm) as (_ & C1 & C2).
  assert (HE : exists args, eval_code scope c tt = (tt, Some args)).
  { unfold eval_code. rewrite C1, C2, EP, EN, !eval_fields. eauto. }
  destruct HE as (args & He). exists args. split; [exact He|].
  destruct (C46_resolution _ _ Hx _ _ _ _ _ _ _ _ _ Hp Hm He) as (pv & nv & Hev & L1 & L2 & Hf).
  rewrite EP, EN, <- map_app in Hev. apply evaluated_const in Hev.
  assert (pv = map doc_value pos /\ nv = map snd (map bind_value named)) as [-> ->].
  { rewrite map_length in L1. assert (L : length pv = length (map doc_value pos)) by now rewrite map_length.
    split.
    - apply (f_equal (firstn (length pv))) in Hev. rewrite firstn_app, Nat.sub_diag, firstn_all, app_nil_r in Hev.
      rewrite L, firstn_app, Nat.sub_diag, firstn_all, app_nil_r in Hev. exact Hev.
    - apply (f_equal (skipn (length pv))) in Hev. rewrite skipn_app, Nat.sub_diag, skipn_all in Hev.
      rewrite L, skipn_app, Nat.sub_diag, skipn_all in Hev. exact Hev. }
  intros f. destruct (Hf f) as (parts & Hme & E). exists parts. split; [|exact E].
  assert (EC : combine (map fst (map bind_expr named)) (map snd (map bind_value named)) = map bind_value named).
  { clear. induction named as [|[n d] l IH]; cbn; [reflexivity|]. f_equal. exact IH. }
  rewrite EC in Hme. exact Hme.
Qed.

Lemma write_fmt_ok f args t :
  (ok_outcome (formatter_write_fmt f args) = Returned Ok /\ produces (formatter_write_fmt f args) = t) <->
  (ok_outcome (args f) = Returned Ok /\ produces (args f) = t).
Proof.
  unfold formatter_write_fmt. rewrite ok_try. unfold Display_Arguments. split.
  - intros (t1 & t2 & H1 & [_ <-] & ->). cbn. now rewrite app_nil_r.
  - intros H1. exists t, []. repeat split; try apply H1. now rewrite app_nil_r.
Qed.
Lemma sequence_ok parts t :
  (ok_outcome (in_sequence parts) = Returned Ok /\ produces (in_sequence parts) = t) <->
  (Forall (fun p => ok_outcome p = Returned Ok) parts /\ concat (map produces parts) = t).
Proof.
  split.
  - intros [H1 H2]. pose proof (in_sequence_ok_inv parts H1) as HF. split; [exact HF|].
    now destruct (in_sequence_ok parts HF) as [_ <-].
  - intros [HF H2]. destruct (in_sequence_ok parts HF) as [H1 E]. split; [exact H1|congruence].
Qed.

(** Documents in the macro call [macro fmt pos named] with these local variables. *)
Lemma written_drawn fmt pos named locals outside around fl t :
  (forall n a d, field pos named locals n a d -> Shows d) ->
  (ok_outcome (doc_display (Written fmt pos named locals) (mk_formatter (look outside around) fl)) = Returned Ok /\
   produces (doc_display (Written fmt pos named locals) (mk_formatter (look outside around) fl)) = t) <->
  exists out, drawn (Written fmt pos named locals) around out /\ t = looks outside out.
Proof.
  intros Hall. rewrite display_written. split.
  - destruct (macro fmt (map field_expr pos) (map bind_expr named)) as [c|] eqn:Hm; [|intros [H _]; discriminate H].
    destruct (proj1 (C47_accepted _ _ Hx fmt (map field_expr pos) (map bind_expr named))) as (ps & Hp & Ha); [eauto|].
    destruct (fields_evaluate (scope_of (map bind_value locals)) fmt pos named ps c Hp Hm) as (args & He & Hf). rewrite He.
    rewrite write_fmt_ok. destruct (Hf (mk_formatter (look outside around) fl)) as (parts & Hme & ->).
    rewrite sequence_ok, (pieces_drawn pos named locals Hall outside around fl 0 ps parts Hme).
    intros (out & Hd & E). exists out. split; [|exact E].
    apply (drawn_written _ _ _ _ _ _ ps); auto.
    rewrite map_length, map_map in Ha. exact Ha.
  - intros (out & Hd & ->). inversion Hd as [| | | |? ? ? ? ps ? ? Hp Ha Hps]; subst.
    destruct (proj2 (C47_accepted _ _ Hx fmt (map field_expr pos) (map bind_expr named))) as (c & Hm).
    { exists ps. split; [exact Hp|]. rewrite map_length, map_map. exact Ha. }
    rewrite Hm. destruct (fields_evaluate (scope_of (map bind_value locals)) fmt pos named ps c Hp Hm) as (args & He & Hf). rewrite He.
    rewrite write_fmt_ok. destruct (Hf (mk_formatter (look outside around) fl)) as (parts & Hme & ->).
    rewrite sequence_ok, (pieces_drawn pos named locals Hall outside around fl 0 ps parts Hme). eauto.
Qed.

Lemma field_in pos named locals n a d : field pos named locals n a d ->
  In d pos \/ In d (map snd named) \/ In d (map snd locals).
Proof.
  intros Hf. destruct Hf as [d E|i d E|name d Hb|name d Hn Hb].
  - left. eapply nth_error_In, E.
  - left. eapply nth_error_In, E.
  - right. left. eapply last_bound_in, Hb.
  - right. right. eapply last_bound_in, Hb.
Qed.

Lemma all_shows d : Shows d.
Proof.
  induction d as [v|s|h|l Hl|a d IH|fmt pos named locals Hp Hn Hlo] using doc_ind'; intros outside around fl t.
  - split; [intros [H _]; discriminate H|]. intros (out & Hd & _). inversion Hd.
  - cbn [Docs.doc_display]. rewrite produces_write_str. cbn [fm_style]. split.
    + intros [_ <-]. exists (place around s). split; [constructor|]. now rewrite looks_place.
    + intros (out & Hd & ->). inversion Hd; subst. split; [reflexivity|]. now rewrite looks_place.
  - cbn [Docs.doc_display]. rewrite stored_built. destruct (C22_replay h (mk_formatter (look outside around) fl)) as [-> ->].
    split.
    + intros [_ <-]. eexists. split; [constructor|]. now rewrite looks_stored.
    + intros (out & Hd & ->). inversion Hd; subst. split; [reflexivity|]. now rewrite looks_stored.
  - transitivity (exists out, drawn_all l around out /\ t = looks outside out).
    + cbn [Docs.doc_display]. revert t. induction Hl as [|x l Hx' Hl IH]; intros t; cbn [fold_right].
      * split.
        -- intros [_ <-]. exists []. split; [constructor|reflexivity].
        -- intros (out & Hd & ->). inversion Hd; subst. auto.
      * rewrite ok_try. split.
        -- intros (t1 & t2 & H1 & H2 & ->). apply Hx' in H1 as (o1 & D1 & ->). apply IH in H2 as (o2 & D2 & ->).
           exists (o1 ++ o2). split; [now constructor|]. now rewrite looks_app.
        -- intros (out & Hd & ->). inversion Hd as [|? ? ? o1 o2 D1 D2]; subst.
           exists (looks outside o1), (looks outside o2). split; [apply Hx'; eauto|]. split; [apply IH; eauto|]. apply looks_app.
    + split; intros (out & Hd & E); exists out; (split; [|exact E]); [now constructor|now inversion Hd].
  - cbn [Docs.doc_display]. rewrite look_with, (IH outside (sets a :: around) fl t).
    split; intros (out & Hd & E); exists out; (split; [|exact E]); [now constructor|now inversion Hd].
  - apply written_drawn. intros n a d Hf. rewrite Forall_forall in *.
    destruct (field_in _ _ _ _ _ _ Hf) as [H|[H|H]]; [auto| |];
      apply in_map_iff in H as ([m x] & <- & H); [apply (Hn (m, x) H)|apply (Hlo (m, x) H)].
Qed.

(** * One text *)
Lemma last_bound_det l n d d' : last_bound l n d -> last_bound l n d' -> d = d'.
Proof.
  intros (b & a & E & Ha) (b' & a' & E' & Ha'). rewrite E in E'. clear E l. revert b' E'.
  induction b as [|[x y] b IH]; intros [|[x2 y2] b2]; cbn; intros E2.
  - congruence.
  - exfalso. injection E2 as -> -> ->. apply Ha. rewrite map_app. apply in_or_app. right. now left.
  - exfalso. injection E2 as -> -> <-. apply Ha'. rewrite map_app. apply in_or_app. right. now left.
  - injection E2 as -> -> E2. eauto.
Qed.
Lemma field_det pos named locals n a d d' :
  field pos named locals n a d -> field pos named locals n a d' -> d = d'.
Proof.
  intros H H'. destruct H as [d E|i d E|name d Hb|name d Hn Hb];
    inversion H' as [d2 E2|i2 d2 E2|name2 d2 Hb2|name2 d2 Hn2 Hb2]; subst; try congruence.
  - eapply last_bound_det; eassumption.
  - exfalso. apply Hn2. destruct Hb as (b & a & -> & _). rewrite map_app. apply in_or_app. right. now left.
  - exfalso. apply Hn. destruct Hb2 as (b & a & -> & _). rewrite map_app. apply in_or_app. right. now left.
  - eapply last_bound_det; eassumption.
Qed.
Lemma pieces_det pos named locals around :
  (forall n a d, field pos named locals n a d -> forall around o o', drawn d around o -> drawn d around o' -> o = o') ->
  forall ps n o o', drawn_pieces pos named locals n ps around o -> drawn_pieces pos named locals n ps around o' -> o = o'.
Proof.
  intros Hall. induction ps as [|[s|a] ps IH]; intros n o o' H1 H2.
  - inversion H1; inversion H2; subst. reflexivity.
  - inversion H1 as [|? ? ? ? ? ? ? u Hu| |]; inversion H2 as [|? ? ? ? ? ? ? u2 Hu2| |]; subst. f_equal. eauto.
  - inversion H1 as [| |? ? ? ? ? w tr hex ? ? u Hw Es code Ho Hu|? ? ? ? ? d ? ? o1 u Hf Ht Hd1 Hu]; subst;
    inversion H2 as [| |? ? ? ? ? w2 tr2 hex2 ? ? u2 Hw2 Es2 code2 Ho2 Hu2|? ? ? ? ? d2 ? ? o12 u2 Hf2 Ht2 Hd12 Hu2]; subst.
    + pose proof (field_det _ _ _ _ _ _ _ Hw Hw2) as E. injection E as <-. rewrite Es in Es2. injection Es2 as <- <-.
      f_equal. eauto.
    + rewrite Ht2 in Es. discriminate Es.
    + rewrite Ht in Es2. discriminate Es2.
    + pose proof (field_det _ _ _ _ _ _ _ Hf Hf2) as <-. f_equal; eauto.
Qed.

(** C89: a document is displayed as one text at most: its characters and what is set around each
    of them are determined. *)
Theorem C89_determined (d : doc) (around : list style_diff) (t t' : list placed) :
  drawn d around t -> drawn d around t' -> t = t'.
Proof.
  revert around t t'. induction d as [v|s|h|l Hl|a d IH|fmt pos named locals Hp Hn Hlo] using doc_ind'; intros around t t' H H'.
  - inversion H.
  - inversion H; inversion H'; congruence.
  - inversion H; inversion H'; congruence.
  - inversion H as [| |? ? ? H1| |]; inversion H' as [| |? ? ? H1'| |]; subst. clear H H'.
    revert t t' H1 H1'. induction Hl as [|x l Hx' Hl IH]; intros t t' H1 H1'; inversion H1; inversion H1'; subst; [reflexivity|].
    f_equal; [eapply Hx'; eassumption|eapply IH; eassumption].
  - inversion H; inversion H'; subst. eapply IH; eassumption.
  - inversion H as [| | | |? ? ? ? ps ? ? F1 _ D1]; inversion H' as [| | | |? ? ? ? ps2 ? ? F2 _ D2]; subst.
    pose proof (format_string_unique _ _ Hx _ _ _ F1 F2) as <-.
    revert D1 D2. apply pieces_det. intros n a d Hf. rewrite Forall_forall in *.
    destruct (field_in _ _ _ _ _ _ Hf) as [I|[I|I]]; [now apply Hp| |];
      apply in_map_iff in I as ([m x] & <- & I); [apply (Hn (m, x) I)|apply (Hlo (m, x) I)].
Qed.

(** * The theorems *)

(** C89: displaying a document with a formatter succeeds, on a sink that accepts every write, and
    shows [t], if and only if the document is [drawn] as characters with settings around them and [t]
    is these characters, each with the innermost setting of each attribute; attributes nobody sets
    are those of the formatter. *)
Theorem C89_exact (d : doc) (f : formatter) (t : stext) :
  (ok_outcome (doc_display d f) = Returned Ok /\ produces (doc_display d f) = t) <->
  exists out, drawn d [] out /\ t = looks (fm_style f) out.
Proof.
  destruct f as [st fl]. cbn [fm_style].
  assert (E : st = look st []) by (destruct st; reflexivity).
  pose proof (all_shows d st [] fl t) as HS. rewrite <- E in HS. exact HS.
Qed.

(** C89: so whether a document can be displayed does not depend on the formatter, and in two places
    it shows the same characters; where they differ in an attribute, nothing in the document sets
    it and it is that of the place. *)
Definition inherits {A} (x y outside outside' : A) : Prop := x = y \/ (x = outside /\ y = outside').
Theorem C89_context (d : doc) (f g : formatter) :
  ok_outcome (doc_display d f) = Returned Ok ->
  ok_outcome (doc_display d g) = Returned Ok /\
  Forall2 (fun a b : cell => fst a = fst b /\
     inherits (foreground (snd a)) (foreground (snd b)) (foreground (fm_style f)) (foreground (fm_style g)) /\
     inherits (background (snd a)) (background (snd b)) (background (fm_style f)) (background (fm_style g)) /\
     inherits (intens (snd a)) (intens (snd b)) (intens (fm_style f)) (intens (fm_style g)))
    (produces (doc_display d f)) (produces (doc_display d g)).
Proof.
  intros Hok. destruct (proj1 (C89_exact d f (produces (doc_display d f)))) as (out & Hd & E); [auto|].
  destruct (proj2 (C89_exact d g (looks (fm_style g) out))) as [Hok' E']; [eauto|].
  split; [exact Hok'|]. rewrite E, E'. clear.
  assert (HI : forall A (l : list (option A)) x y, inherits (innermost l x) (innermost l y) x y).
  { intros A l x y. unfold inherits. induction l as [|[z|] l IH]; cbn; auto. }
  induction out as [|[c p] out IH]; [constructor|]. cbn [looks map]. constructor; [|exact IH].
  cbn [fst snd look foreground background intens]. auto.
Qed.

(** C89: a call of format! with documents as arguments. *)
Theorem C89_format (fmt : str) (pos : list doc) (named locals : list (str * doc)) (out : list placed) :
  drawn (Written fmt pos named locals) [] out ->
  exists c args,
    macro fmt (map (fun x => fun h : unit => (h, Some (doc_value x))) pos)
      (map (fun nx => (fst nx, fun h : unit => (h, Some (doc_value (snd nx))))) named) = Expanded c /\
    eval_code (scope_of (map (fun nx => (fst nx, doc_value (snd nx))) locals)) c tt = (tt, Some args) /\
    plain_format args = Value (map fst out) /\
    (exists a, ansi_format args = Value a /\
       (no_controls (map fst out) -> tm_screen (term_feed sgr_style term_new a) = looks style_default out)) /\
    (exists x, html_format args = Value x /\
       page_feed page_new x = mk_page Data [] (map (fun cs => (fst cs, css_look (snd cs))) (looks style_default out))) /\
    (exists w, stylish_format args = Value w /\ forall g, produces (Display_sstring w g) = looks style_default out).
Proof.
  intros Hd.
  destruct (proj2 (C89_exact (Written fmt pos named locals) formatter_new (looks style_default out))) as [Hok Hpr]; [eauto|].
  rewrite display_written in Hok, Hpr.
  destruct (macro fmt (map field_expr pos) (map bind_expr named)) as [c|] eqn:Hm; [|discriminate Hok].
  destruct (proj1 (C47_accepted _ _ Hx fmt (map field_expr pos) (map bind_expr named))) as (ps & Hp & Ha); [eauto|].
  destruct (fields_evaluate (scope_of (map bind_value locals)) fmt pos named ps c Hp Hm) as (args & He & Hf).
  rewrite He in Hok, Hpr.
  destruct (proj1 (write_fmt_ok formatter_new args (looks style_default out))) as [Ho Hpo]; [auto|].
  exists c, args. split; [exact Hm|]. split; [exact He|].
  assert (HP : plain_format args = Value (map fst out)).
  { rewrite plain_format_spec, Ho. f_equal. rewrite Hpo. unfold chars, looks. rewrite map_map. reflexivity. }
  split; [exact HP|].
  destruct (C04_formats_agree args _ HP) as (t & a & x & w & Et & (A1 & A2) & (X1 & X2) & (W1 & W2)).
  assert (E : t = looks style_default out) by (now rewrite <- (W2 formatter_new), (C22_format_replay _ _ _ W1)).
  subst t. split; [eauto|]. split; [eauto|]. eauto.
Qed.
End Xid.
Print Assumptions C89_determined.
Print Assumptions C89_exact.
Print Assumptions C89_context.
Print Assumptions C89_format.

(** A report with a title, a list of notes and a stored String, three levels deep. *)
Definition example_doc : doc :=
  let note s := Written (lit "- {} {:(fg=blue)s}") [Std (fun _ _ => SEmit (lit "n") SRet); Text s] [] [] in
  Written (lit "{:(fg=red,bold)s}{rest:(bg=white)s}") [Styled (AIntensity Faint) (Text (lit "T"))] []
    [(lit "rest", Items [note (lit "x"); Stored [(lit "S", style_default)]; Styled (ABackground Black) (note (lit "y"))])].
Example C89_nonvacuous :
  let red := mk_style Red ColorDefault Faint in
  let white := mk_style ColorDefault White Normal in
  let blue := mk_style Blue White Normal in
  let black := mk_style ColorDefault Black Normal in
  let dark := mk_style Blue Black Normal in
  ok_outcome (doc_display ascii_start ascii_continue example_doc formatter_new) = Returned Ok /\
  produces (doc_display ascii_start ascii_continue example_doc formatter_new) =
    paint red (lit "T") ++ paint white (lit "- n ") ++ paint blue (lit "x") ++ paint style_default (lit "S") ++
    paint black (lit "- n ") ++ paint dark (lit "y") /\
  exists out, drawn ascii_start ascii_continue example_doc [] out.
Proof.
  cbv zeta. set (P := ok_outcome _ = _). set (Q := produces _ = _).
  assert (HP : P) by (vm_compute; reflexivity). assert (HQ : Q) by (vm_compute; reflexivity).
  split; [exact HP|]. split; [exact HQ|]. unfold P, Q in *.
  destruct (proj1 (C89_exact _ _ ascii_xid_ok example_doc formatter_new _) (conj HP HQ)) as (out & Hd & _). eauto.
Qed.
