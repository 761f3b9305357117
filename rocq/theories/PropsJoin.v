(** Property C96: format strings can be joined, split, factored, numbered and named. *)
From Verif Require Import Base Style Fmt SpecStd StdCompat Format Nom Parse Codegen SpecText TextFacts StyleFacts
  StdFacts SpecGrammar ParseFacts SpecFacts GrammarFacts SpecMeaning CodegenFacts MacroFacts PropsParse PropsMacro.

(** * Specification *)

(** Arguments that are given values: their expressions have no effects. *)
Definition given {H} (vs : list value_t) : list (expr H) := map (fun v h => (h, Some v)) vs.
Definition given_named {H} (nvs : list (str * value_t)) : list (str * expr H) :=
  map (fun nv => (fst nv, fun h => (h, Some (snd nv)))) nvs.

(** First what [o1] and [t1] say; if that is success, then what [o2] and [t2] say. *)
Definition then_outcome (o1 o2 : outcome) : outcome := match o1 with Returned Ok => o2 | _ => o1 end.
Definition then_text (o1 : outcome) (t1 t2 : stext) : stext := t1 ++ match o1 with Returned Ok => t2 | _ => [] end.

(** The bare placeholders numbered explicitly, from [n] on. *)
Fixpoint numbered (n : nat) (ps : list piece) : list piece :=
  match ps with
  | [] => []
  | Arg a :: r =>
      match fa_arg a with
      | None => Arg (mk_farg (Some (Positional (N.of_nat n))) (fa_spec a)) :: numbered (S n) r
      | Some _ => Arg a :: numbered n r
      end
  | p :: r => p :: numbered n r
  end.

(** * Effects of code *)
Lemma outcome_try p q : ok_outcome (try_ p q) = then_outcome (ok_outcome p) (ok_outcome q).
Proof. unfold try_, then_outcome. rewrite ok_outcome_bind. destruct (ok_outcome p) as [[|]|c]; reflexivity. Qed.
Lemma text_try p q : produces (try_ p q) = then_text (ok_outcome p) (produces p) (produces q).
Proof.
  unfold try_, then_text, produces. rewrite ok_events_bind. destruct (ok_outcome p) as [[|]|c]; cbn [ok_events].
  - apply denote_app.
  - now rewrite !app_nil_r.
  - now rewrite !app_nil_r.
Qed.
Lemma outcome_assoc a b c : then_outcome a (then_outcome b c) = then_outcome (then_outcome a b) c.
Proof. destruct a as [[|]|x]; reflexivity. Qed.
Lemma text_assoc a t b u v : then_text a t (then_text b u v) = then_text (then_outcome a b) (then_text a t u) v.
Proof. unfold then_text. destruct a as [[|]|x]; cbn [then_outcome]; [now rewrite app_assoc|now rewrite !app_nil_r..]. Qed.
Lemma outcome_ok o : then_outcome o (Returned Ok) = o.
Proof. destruct o as [[|]|x]; reflexivity. Qed.
Lemma text_nil o t : then_text o t [] = t.
Proof. unfold then_text. destruct o as [[|]|x]; apply app_nil_r. Qed.

(** Two pieces of code have the same effect. *)
Definition same_effect (p q : wprog) : Prop := ok_outcome p = ok_outcome q /\ produces p = produces q.
Lemma effect_app a b :
  same_effect (in_sequence (a ++ b)) (try_ (in_sequence a) (in_sequence b)).
Proof.
  split; [apply same_outcome|unfold produces; rewrite (same_events _ _ (in_sequence_app a b)); reflexivity].
  apply in_sequence_app.
Qed.
Lemma effect_try p p' q q' : same_effect p p' -> same_effect q q' -> same_effect (try_ p q) (try_ p' q').
Proof. intros [A B] [C D]. split; rewrite ?outcome_try, ?text_try; congruence. Qed.
Lemma effect_trans p q r : same_effect p q -> same_effect q r -> same_effect p r.
Proof. intros [A B] [C D]. split; congruence. Qed.
Lemma effect_sym p q : same_effect p q -> same_effect q p.
Proof. intros [A B]. split; congruence. Qed.
Lemma effect_refl p : same_effect p p.
Proof. split; reflexivity. Qed.
Lemma effect_text f t u a b :
  same_effect (in_sequence (a ++ formatter_write_str f (t ++ u) :: b))
    (try_ (in_sequence (a ++ [formatter_write_str f t])) (in_sequence (formatter_write_str f u :: b))).
Proof.
  induction a as [|p a IH].
  - cbn [app in_sequence]. split; rewrite ?outcome_try, ?text_try, ?produces_write_str; cbn [ok_outcome in_sequence].
    + reflexivity.
    + unfold then_text. cbn. unfold paint. rewrite map_app, <- app_assoc. cbn. now rewrite app_nil_r.
  - revert IH. generalize (in_sequence (formatter_write_str f u :: b)). intros Q IH. cbn [app in_sequence].
    eapply effect_trans; [apply effect_try; [apply effect_refl|exact IH]|].
    split; rewrite ?outcome_try, ?text_try, ?outcome_try.
    + apply outcome_assoc.
    + apply text_assoc.
Qed.

Section Xid.
Variable xid_start xid_continue : char -> bool.
Hypothesis Hx : xid_ok xid_start xid_continue.
Notation spells := (spells xid_start xid_continue).
Notation format_string := (format_string xid_start xid_continue).
Notation placeholder_spelled := (placeholder_spelled xid_start xid_continue).
Notation parse_piece := (parse_piece xid_start xid_continue).
Notation macro := (format_args_impl xid_start xid_continue).

(** * Joining pieces *)
Inductive glue : list piece -> list piece -> list piece -> Prop :=
  | gl_app a b : glue a b (a ++ b)
  | gl_text a t u b : glue (a ++ [Lit t]) (Lit u :: b) (a ++ Lit (t ++ u) :: b).
Lemma glue_cons p a b c : glue a b c -> glue (p :: a) b (p :: c).
Proof. intros [x y|x t u y]; [apply (gl_app (p :: x))|apply (gl_text (p :: x))]. Qed.
Lemma glue_asked a b c : glue a b c -> asked c = asked a ++ asked b.
Proof. intros [x y|x t u y]; unfold asked; rewrite !flat_map_app; cbn; now rewrite ?app_nil_r. Qed.
Lemma glue_counts a b c : glue a b c -> Forall literal_counts a -> Forall literal_counts b -> Forall literal_counts c.
Proof.
  intros [x y|x t u y] A B; [now apply Forall_app|]. apply Forall_app in A as [A _].
  inversion B; subst. apply Forall_app. split; [exact A|]. now constructor.
Qed.

(** An empty format_spec ends in a colon. *)
Lemma empty_colon a p : placeholder_spelled a true p -> exists p', p = p' ++ lit ":".
Proof.
  intros X. inversion X as [arg s1 spec e s2 Ha Hs]; subst.
  destruct Hs as [(_ & _ & E)|(s & _ & -> & E)]; [discriminate|]. destruct s; [|discriminate].
  exists s1. reflexivity.
Qed.
Lemma spells_weaken b ps s : spells b ps s -> b = true -> spells false ps s.
Proof.
  intros X ->. inversion X; subst; econstructor; eauto.
Qed.

Lemma spells_join ps2 s2 : spells false ps2 s2 -> forall b ps1 s1, spells b ps1 s1 ->
  (starts_with_align s2 = true -> forall s, s1 <> s ++ lit ":}") ->
  (b = false -> exists ps, spells false ps (s1 ++ s2) /\ glue ps1 ps2 ps) /\
  (b = true -> forall t, t <> [] -> Forall (fun c => is_brace c = false) t ->
     exists ps, spells false ps (t ++ s1 ++ s2) /\ glue (Lit t :: ps1) ps2 ps).
Proof.
  intros H2 b ps1 s1 H1. induction H1 as [b|t ps s Ht HF Hs IH|b ps s Hs IH|b ps s Hs IH|b a e p ps s Hp He Hs IH];
    intros Hb.
  - split; [intros ->; exists ps2; split; [exact H2|apply (gl_app [])]|].
    intros -> t Ht HF. inversion H2 as [b'|u r s' Hu HFu Hr|b' r s' Hr|b' r s' Hr|b' a e p r s' Hp He Hr]; subst.
    + exists [Lit t]. split; [apply sp_text; [assumption..|apply sp_nil]|apply (gl_app [Lit t] [])].
    + exists (Lit (t ++ u) :: r). split; [|apply (gl_text [] t u r)]. cbn [app]. rewrite app_assoc.
      apply sp_text; [destruct t; [congruence|discriminate]|now apply Forall_app|exact Hr].
    + exists (Lit t :: Lit (lit "{") :: r). split; [|apply (gl_app [Lit t])]. apply sp_text; [assumption..|].
      now apply sp_open.
    + exists (Lit t :: Lit (lit "}") :: r). split; [|apply (gl_app [Lit t])]. apply sp_text; [assumption..|].
      now apply sp_close.
    + exists (Lit t :: Arg a :: r). split; [|apply (gl_app [Lit t])]. apply sp_text; [assumption..|].
      now apply sp_arg with e.
  - split; [|discriminate]. intros _. destruct IH as [_ IH].
    { intros A s' E. apply (Hb A (t ++ s')). rewrite E. apply app_assoc. }
    destruct (IH eq_refl t Ht HF) as (r & R1 & R2). exists r. rewrite <- app_assoc. now split.
  - destruct IH as [IH _].
    { intros A s' E. apply (Hb A (lit "{{" ++ s')). rewrite E. apply app_assoc. }
    destruct (IH eq_refl) as (r & R1 & R2). split.
    + intros _. exists (Lit (lit "{") :: r). split; [rewrite <- app_assoc; now apply sp_open|now apply glue_cons].
    + intros _ t Ht HF. exists (Lit t :: Lit (lit "{") :: r). split; [|now apply glue_cons, glue_cons].
      apply sp_text; [assumption..|]. rewrite <- app_assoc. now apply sp_open.
  - destruct IH as [IH _].
    { intros A s' E. apply (Hb A (lit "}}" ++ s')). rewrite E. apply app_assoc. }
    destruct (IH eq_refl) as (r & R1 & R2). split.
    + intros _. exists (Lit (lit "}") :: r). split; [rewrite <- app_assoc; now apply sp_close|now apply glue_cons].
    + intros _ t Ht HF. exists (Lit t :: Lit (lit "}") :: r). split; [|now apply glue_cons, glue_cons].
      apply sp_text; [assumption..|]. rewrite <- app_assoc. now apply sp_close.
  - destruct IH as [IH _].
    { intros A s' E. apply (Hb A (lit "{" ++ p ++ lit "}" ++ s')). rewrite E. now rewrite <- !app_assoc. }
    destruct (IH eq_refl) as (r & R1 & R2).
    assert (Ha : spells true (Arg a :: r) (lit "{" ++ p ++ lit "}" ++ s ++ s2)).
    { apply sp_arg with e; [exact Hp| |exact R1]. intros ->. destruct s as [|c s].
      - cbn [app]. destruct (starts_with_align s2) eqn:A; [|reflexivity]. exfalso.
        destruct (empty_colon _ _ Hp) as [p' ->]. apply (Hb eq_refl (lit "{" ++ p')).
        rewrite <- !app_assoc. reflexivity.
      - cbn [app starts_with_align]. exact (He eq_refl). }
    assert (E : (lit "{" ++ p ++ lit "}" ++ s) ++ s2 = lit "{" ++ p ++ lit "}" ++ s ++ s2) by now rewrite <- !app_assoc.
    unfold str, char in *. rewrite E. split.
    + intros _. exists (Arg a :: r). split; [now apply spells_weaken with true|now apply glue_cons].
    + intros _ t Ht HF. exists (Lit t :: Arg a :: r). split; [|now apply glue_cons, glue_cons].
      apply sp_text; [assumption..|exact Ha].
Qed.

(** C96: two accepted format strings one after the other are an accepted format string with the
    same placeholders, unless the first ends with a placeholder with an empty format_spec and the
    second begins with an alignment character. *)
Theorem C96_concat (s1 s2 : str) (ps1 ps2 : list piece) :
  format_string ps1 s1 -> format_string ps2 s2 ->
  (starts_with_align s2 = true -> forall s, s1 <> s ++ lit ":}") ->
  exists ps, format_string ps (s1 ++ s2) /\ asked ps = asked ps1 ++ asked ps2.
Proof.
  intros H1 H2 Hb. destruct (spells_join ps2 s2 H2 false ps1 s1 H1 Hb) as [J _].
  destruct (J eq_refl) as (ps & Hp & G). exists ps. split; [exact Hp|now apply glue_asked].
Qed.
Print Assumptions C96_concat.

(** ** The exception *)
Lemma panic_piece a p c r : placeholder_spelled a true p -> is_align_char c = true ->
  parse_piece (lit "{" ++ p ++ lit "}" ++ c :: r) = PPanic.
Proof.
  intros Hp Hc.
  assert (Sp : parse_format_spec xid_start xid_continue (lit "}" ++ c :: r) = PPanic).
  { unfold is_align_char in Hc.
    assert (A : exists x, parse_align (c :: r) = POk r x).
    { destruct (N.eqb_spec c 60) as [->|]; [now exists PLeft|]. destruct (N.eqb_spec c 94) as [->|]; [now exists PCenter|].
      destruct (N.eqb_spec c 62) as [->|]; [now exists PRight|]. discriminate. }
    destruct A as [x A].
    assert (F : opt (alt [ppair anychar parse_align; pmap parse_align (fun a0 => (32%N, a0))]) (lit "}" ++ c :: r)
                = POk r (Some (125%N, x))).
    { assert (F0 : ppair anychar parse_align (lit "}" ++ c :: r) = POk r (125%N, x)).
      { unfold ppair, pbind. change (anychar (lit "}" ++ c :: r)) with (POk (c :: r) 125%N). cbn iota beta. now rewrite A. }
      unfold opt. cbn [alt]. now rewrite F0. }
    unfold parse_format_spec, pbind, parse_fill_align. rewrite F. reflexivity. }
  assert (Ar : parse_format_arg xid_start xid_continue (p ++ lit "}" ++ c :: r) = PPanic).
  { inversion Hp as [arg s1 spec e s2 Ha Hs]; subst.
    destruct Hs as [(_ & _ & E)|(s & _ & -> & E)]; [discriminate|]. destruct s; [clear E|discriminate].
    unfold parse_format_arg, pbind. rewrite <- app_assoc.
    assert (R : opt (parse_arg_ref xid_start xid_continue) (s1 ++ lit ":" ++ lit "}" ++ c :: r)
                = POk (lit ":" ++ lit "}" ++ c :: r) arg).
    { destruct Ha as [[-> ->]|(rf & -> & Hr)].
      - unfold opt. cbn [app]. change (lit ":" ++ lit "}" ++ c :: r) with (58%N :: lit "}" ++ c :: r).
        now rewrite (colon_ref_err _ _ Hx).
      - unfold opt. rewrite (parse_arg_ref_app _ _ Hx rf s1) by (exact Hr || apply (colon_ends _ _ Hx)). reflexivity. }
    change (lit ":" ++ []) with (lit ":"). unfold str, char in *. rewrite R. unfold opt, preceded, pbind.
    rewrite tag_app. rewrite Sp. reflexivity. }
  rewrite (parse_piece_eq _ _).
  destruct (placeholder_first _ _ Hx a true p (c :: r) Hp) as (c0 & r0 & E & Hc0).
  replace (tag (lit "{{") (lit "{" ++ p ++ lit "}" ++ c :: r)) with (@PErr unit).
  2: { rewrite E. cbn [lit app tag]. change (N_of_ascii "{") with 123%N. rewrite N.eqb_refl.
       destruct (N.eqb_spec 123 c0) as [<-|]; [congruence|reflexivity]. }
  cbn [app lit]. change (not_brace (N_of_ascii "{")) with false. cbn iota.
  change (tag [N_of_ascii "}"; N_of_ascii "}"] (N_of_ascii "{" :: ?x)) with (@PErr unit).
  cbn iota. unfold Parse.parse_arg, pmap, delimited, pbind.
  change (N_of_ascii "{" :: p ++ N_of_ascii "}" :: c :: r) with (lit "{" ++ p ++ lit "}" ++ c :: r).
  rewrite tag_app. unfold cut. rewrite Ar. reflexivity.
Qed.

(** A format_spec has no colon inside, nor has the name of an argument. *)
Notation clean := (Forall (fun c : char => c <> 58%N)).
Lemma ref_clean r s : arg_spelled xid_start xid_continue r s -> clean s.
Proof.
  intros [n s' [H _]|s' H].
  - apply decimal_value in H as (_ & _ & HF). revert HF. apply Forall_impl. intros c Hc ->. discriminate.
  - destruct H as [c q Hc Hq]. constructor.
    + intros ->. rewrite (xs _ _ Hx) in Hc by reflexivity. destruct Hc; discriminate.
    + revert Hq. apply Forall_impl. intros d Hd ->. rewrite (xc _ _ Hx) in Hd by reflexivity. discriminate.
Qed.
Ltac cleaned := repeat constructor; discriminate.
Lemma count_clean c s : count_spelled xid_start xid_continue c s -> clean s.
Proof.
  intros [r s' H|n s' H].
  - apply Forall_app. split; [now apply ref_clean in H|cleaned].
  - destruct H as [H _]. apply decimal_value in H as (_ & _ & HF). revert HF. apply Forall_impl. intros d Hd ->. discriminate.
Qed.
Lemma attrs_clean l s : attrs_spelled l s -> clean s.
Proof.
  induction 1 as [a s H|a s l t H _ IH].
  - destruct H as [c s' H|c s' H| | |]; try destruct H; cleaned.
  - apply Forall_app. split; [destruct H as [c s' H|c s' H| | |]; try destruct H; cleaned|].
    apply Forall_app. split; [cleaned|exact IH].
Qed.
Lemma spec_clean sp s : spec_spelled xid_start xid_continue sp s -> clean s.
Proof.
  intros [al sg alt zero w p hex st tr s1 s2 s3 s4 s5 s6 s7 s8 H1 H2 H3 H4 H5 H6 H7 H8 _].
  unfold flag_spelled in *. subst s3 s4.
  apply Forall_app; split.
  { induction H1 as [| | | |a s1 H1 IH L]; [cleaned..|]. apply Forall_app. split; [cleaned|exact IH]. }
  apply Forall_app; split; [destruct H2; cleaned|].
  apply Forall_app; split; [destruct alt; cleaned|].
  apply Forall_app; split; [destruct zero; cleaned|].
  apply Forall_app; split; [destruct H5 as [|c u H]; [constructor|now apply count_clean in H]|].
  apply Forall_app; split.
  { destruct H6 as [|c u H]; [constructor|]. apply Forall_app. split; [cleaned|now apply count_clean in H]. }
  apply Forall_app; split; [|destruct H8; cleaned].
  destruct H7 as [|l u H]; [constructor|]. apply Forall_app. split; [cleaned|].
  apply Forall_app. split; [now apply attrs_clean in H|cleaned].
Qed.
Lemma colon_empty a e p p' : placeholder_spelled a e p -> p = p' ++ lit ":" -> e = true.
Proof.
  intros [arg s1 spec e' s2 Ha Hs] E.
  assert (K : forall s : str, clean s -> forall q : str, s <> q ++ lit ":").
  { intros s C q ->. apply Forall_app in C as [_ C]. inversion C; subst. congruence. }
  destruct Hs as [(_ & -> & _)|(s & Hs & -> & ->)].
  - exfalso. rewrite app_nil_r in E. destruct Ha as [[_ ->]|(r & _ & Hr)].
    + destruct p'; discriminate.
    + exact (K _ (ref_clean _ _ Hr) _ E).
  - destruct (snoc_cases s) as [->|(s0 & x & ->)]; [reflexivity|]. exfalso.
    rewrite !app_assoc in E. apply app_inj_tail in E as [_ ->].
    apply spec_clean in Hs. exact (K _ Hs s0 eq_refl).
Qed.

(** The pieces before a placeholder with an empty format_spec are parsed, then the parser gives up. *)
Lemma ends_later (a b s' : str) : a ++ b = s' ++ lit ":}" ->
  (exists s'', b = s'' ++ lit ":}") \/ (b = lit "}" /\ exists q, a = q ++ lit ":") \/ (b = [] /\ a = s' ++ lit ":}").
Proof.
  intros E. destruct (app_eq_app _ _ _ _ E) as [l [[E1 E2]|[E1 E2]]]; [|left; eauto].
  destruct l as [|x [|y [|z l]]]; cbn in E2.
  - left. exists []. now symmetry.
  - injection E2 as <- <-. right; left. split; [reflexivity|]. exists s'. exact E1.
  - injection E2 as <- <- <-. right; right. split; [reflexivity|exact E1].
  - destruct l; discriminate.
Qed.
Lemma last_differs (x y z : char) (q : str) : y <> z -> [x; y] = q ++ [z] -> False.
Proof. intros N E. change [x; y] with ([x] ++ [y]) in E. apply app_inj_tail in E as [_ E]. congruence. Qed.
Lemma last_two_differ (x y z t : char) (q : str) : (x, y) <> (z, t) -> [x; y] = q ++ [z; t] -> False.
Proof.
  intros N E. change [z; t] with ([z] ++ [t]) in E. rewrite app_assoc in E. change [x; y] with (([] ++ [x]) ++ [y]) in E.
  apply app_inj_tail in E as [E E2]. apply app_inj_tail in E as [_ E]. congruence.
Qed.
Lemma many_step fuel i rest pc acc : parse_piece i = POk rest pc -> length i < S fuel ->
  exists f', fuel = f' /\ length rest < fuel /\
  many_loop (S fuel) parse_piece i acc = many_loop fuel parse_piece rest (pc :: acc).
Proof.
  intros E L. exists fuel. split; [reflexivity|].
  destruct (parse_piece_consumes _ _ _ _ _ E) as (pre & Hn & ->).
  split; [rewrite app_length in L; destruct pre; [congruence|cbn in L; lia]|].
  cbn [many_loop]. rewrite E. now rewrite length_app_neq.
Qed.
Lemma many_panic c r : is_align_char c = true -> forall b ps s, spells b ps s ->
  forall s', s = s' ++ lit ":}" -> forall fuel acc, length (s ++ c :: r) < fuel ->
  many_loop fuel parse_piece (s ++ c :: r) acc = PPanic.
Proof.
  intros Hc b ps s X.
  induction X as [b|t ps s Ht HF Hs IH|b ps s Hs IH|b ps s Hs IH|b a e p ps s Hp He Hs IH];
    intros s' E fuel acc Hf; (destruct fuel as [|fuel]; [lia|]).
  - destruct s'; discriminate.
  - destruct (ends_later _ _ _ E) as [[s'' E']|[[-> _]|[-> E']]].
    + rewrite <- app_assoc in *.
      assert (St : stops not_brace (s ++ c :: r)).
      { apply spells_true_stops in Hs. destruct s as [|x s]; [destruct s''; discriminate|exact Hs]. }
      destruct (many_step fuel _ _ _ acc (piece_text _ _ t (s ++ c :: r) Ht HF St) Hf) as (f' & _ & L & ->).
      now apply IH with s''.
    + exfalso. inversion Hs.
    + exfalso. rewrite E' in HF. apply Forall_app in HF as [_ HF]. inversion HF as [|? ? _ HF']; subst.
      inversion HF'; subst. discriminate.
  - destruct (ends_later _ _ _ E) as [[s'' E']|[[-> [q E']]|[-> E']]].
    + rewrite <- app_assoc in *.
      destruct (many_step fuel _ _ _ acc (piece_open _ _ (s ++ c :: r)) Hf) as (f' & _ & L & ->).
      now apply IH with s''.
    + exfalso. eapply last_differs; [|exact E']; discriminate.
    + exfalso. eapply last_two_differ; [|exact E']; discriminate.
  - destruct (ends_later _ _ _ E) as [[s'' E']|[[-> [q E']]|[-> E']]].
    + rewrite <- app_assoc in *.
      destruct (many_step fuel _ _ _ acc (piece_close _ _ (s ++ c :: r)) Hf) as (f' & _ & L & ->).
      now apply IH with s''.
    + exfalso. eapply last_differs; [|exact E']; discriminate.
    + exfalso. eapply last_two_differ; [|exact E']; discriminate.
  - rewrite <- !app_assoc in Hf. rewrite <- !app_assoc.
    assert (E0 : (lit "{" ++ p ++ lit "}") ++ s = s' ++ lit ":}") by (rewrite <- E, <- !app_assoc; reflexivity).
    destruct (ends_later _ _ _ E0) as [[s'' E']|[[-> [q E']]|[-> E']]].
    + assert (Em : e = true -> starts_with_align (s ++ c :: r) = false).
      { intros Y. specialize (He Y). destruct s as [|x s]; [destruct s''; discriminate|exact He]. }
      destruct (many_step fuel _ _ _ acc (piece_arg _ _ Hx a e p (s ++ c :: r) Hp Em) Hf) as (f' & _ & L & ->).
      now apply IH with s''.
    + exfalso. rewrite app_assoc in E'. apply app_inj_tail in E' as [_ E']. discriminate.
    + assert (Ep : e = true).
      { rewrite app_assoc in E'. change (lit ":}") with ([58%N] ++ lit "}") in E'. rewrite app_assoc in E'.
        apply app_inj_tail in E' as [E' _]. destruct s' as [|x s'].
        - destruct p as [|? ?]; cbn in E'; [discriminate|]. discriminate.
        - cbn in E'. injection E' as _ E'. exact (colon_empty _ _ _ s' Hp E'). }
      subst e. cbn [app]. cbn [many_loop]. now rewrite (panic_piece a p c r Hp Hc).
Qed.

(** C96: exactly then the joined string is rejected, whatever the arguments. *)
Theorem C96_glued {E} (s1 s2 s : str) (ps1 : list piece) (pos : list E) (named : list (str * E)) :
  format_string ps1 s1 -> s1 = s ++ lit ":}" -> starts_with_align s2 = true ->
  macro (s1 ++ s2) pos named = CompileError.
Proof.
  intros H1 E1 H2. destruct s2 as [|c r]; [discriminate|]. cbn in H2.
  unfold format_args_impl, parse_format, all_consuming, many0.
  rewrite (many_panic c r H2 false ps1 s1 H1 s E1) by lia. reflexivity.
Qed.
Print Assumptions C96_glued.

(** * What the joined string does *)
Lemma bare_app a b : bare_count (a ++ b) = bare_count a + bare_count b.
Proof. induction a as [|[x|] a IH]; cbn; lia. Qed.
Lemma accepted_join ps1 ps2 ps n1 n2 names1 names2 : glue ps1 ps2 ps ->
  accepted ps1 n1 names1 -> accepted ps2 n2 names2 -> bare_count (asked ps1) = n1 ->
  (forall i, ~ In (Some (Positional i)) (asked ps2)) ->
  accepted ps (n1 + n2) (names1 ++ names2).
Proof.
  intros G [A1 A2 A3 A4 A5 A6] [B1 B2 B3 B4 B5 B6] Hn Hi. pose proof (glue_asked _ _ _ G) as E.
  constructor; try rewrite E.
  - rewrite bare_app. lia.
  - intros i X. apply in_app_or in X as [X|X]; [apply A2 in X; lia|now apply Hi in X].
  - intros n X. apply in_app_or in X as [X|X].
    + destruct (A3 n X); [left; apply in_or_app; auto|auto].
    + destruct (B3 n X); [left; apply in_or_app; auto|auto].
  - intros i L. rewrite bare_app.
    destruct (Nat.lt_ge_cases i n1) as [L1|L1]; [left; lia|].
    destruct (B4 (i - n1) ltac:(lia)) as [X|X]; [left; lia|now apply Hi in X].
  - intros n X. apply in_or_app. apply in_app_or in X as [X|X]; [left; now apply A5|right; now apply B5].
  - exact (glue_counts _ _ _ G A6 B6).
Qed.

Section Means.
Variables (v1 v2 : list value_t) (n1 n2 : list (str * value_t)) (scope : str -> value_t) (f : formatter).
Lemma means_first n ps parts :
  (forall x, In (Some (Named x)) (asked ps) -> ~ In x (map fst n2)) ->
  means v1 n1 scope f n ps parts -> means (v1 ++ v2) (n1 ++ n2) scope f n ps parts.
Proof.
  intros Hn X. revert Hn. induction X as [n|n s ps parts X IH|n a v ps parts U X IH]; intros Hn.
  - constructor.
  - constructor. apply IH. exact Hn.
  - econstructor.
    + remember (fa_arg a) as ar eqn:Ear. destruct U as [v E|i v E|nm v b a' E K|nm K].
      * constructor. rewrite nth_error_app1; [exact E|]. apply nth_error_Some. congruence.
      * constructor. rewrite nth_error_app1; [exact E|]. apply nth_error_Some. congruence.
      * apply use_named with b (a' ++ n2); [rewrite E, <- app_assoc; reflexivity|].
        rewrite map_app, in_app_iff. intros [Y|Y]; [tauto|]. revert Y. apply Hn. unfold asked. cbn. left. now symmetry.
      * apply use_captured. rewrite map_app, in_app_iff. intros [Y|Y]; [tauto|].
        revert Y. apply Hn. unfold asked. cbn. left. now symmetry.
    + apply IH. intros x Y. apply Hn. unfold asked in *. cbn. now right.
Qed.
Lemma means_second n ps parts :
  (forall x, In (Some (Named x)) (asked ps) -> ~ In x (map fst n1)) ->
  (forall i, ~ In (Some (Positional i)) (asked ps)) ->
  means v2 n2 scope f n ps parts -> means (v1 ++ v2) (n1 ++ n2) scope f (length v1 + n) ps parts.
Proof.
  intros Hn Hi X. revert Hn Hi. induction X as [n|n s ps parts X IH|n a v ps parts U X IH]; intros Hn Hi.
  - constructor.
  - constructor. apply IH; assumption.
  - econstructor.
    + remember (fa_arg a) as ar eqn:Ear. destruct U as [v E|i v E|nm v b a' E K|nm K].
      * constructor. rewrite nth_error_app2 by lia. rewrite <- E. f_equal. lia.
      * exfalso. apply (Hi i). unfold asked. cbn. left. now symmetry.
      * apply use_named with (n1 ++ b) a'; [rewrite E, app_assoc; reflexivity|exact K].
      * apply use_captured. rewrite map_app, in_app_iff. intros [Y|Y]; [|tauto].
        revert Y. apply Hn. unfold asked. cbn. left. now symmetry.
    + assert (Y0 : forall z, In z (asked ps) -> In z (asked (Arg a :: ps))) by (intros z Z; unfold asked; cbn; now right).
      destruct (fa_arg a); [|rewrite <- Nat.add_succ_r];
        (apply IH; [intros x Y; apply Hn, Y0, Y|intros i Y; apply (Hi i), Y0, Y]).
Qed.
End Means.
Lemma means_app pos named scope f ps1 p1 n : means pos named scope f n ps1 p1 -> forall ps2 p2,
  means pos named scope f (n + bare_count (asked ps1)) ps2 p2 -> means pos named scope f n (ps1 ++ ps2) (p1 ++ p2).
Proof.
  induction 1 as [n|n s ps parts X IH|n a v ps parts U X IH]; intros ps2 p2 Y.
  - cbn in Y. rewrite Nat.add_0_r in Y. exact Y.
  - cbn [app]. constructor. apply IH. exact Y.
  - cbn [app]. econstructor; [exact U|]. apply IH. revert Y. unfold asked. cbn.
    destruct (fa_arg a); cbn; [auto|]. rewrite Nat.add_succ_r. auto.
Qed.
Lemma means_split pos named scope f ps1 : forall n ps2 p, means pos named scope f n (ps1 ++ ps2) p ->
  exists p1 p2, p = p1 ++ p2 /\ means pos named scope f n ps1 p1 /\
    means pos named scope f (n + bare_count (asked ps1)) ps2 p2.
Proof.
  induction ps1 as [|pc ps1 IH]; intros n ps2 p X.
  - exists [], p. cbn. rewrite Nat.add_0_r. split; [reflexivity|]. split; [constructor|exact X].
  - cbn [app] in X. inversion X as [|n' s ps parts X'|n' a v ps parts U X']; subst.
    + destruct (IH _ _ _ X') as (p1 & p2 & -> & Y1 & Y2). exists (formatter_write_str f s :: p1), p2.
      split; [reflexivity|]. split; [now constructor|exact Y2].
    + destruct (IH _ _ _ X') as (p1 & p2 & -> & Y1 & Y2). eexists (_ :: p1), p2.
      split; [reflexivity|]. split; [econstructor; eassumption|].
      revert Y2. unfold asked. cbn. destruct (fa_arg a); cbn; [auto|]. rewrite Nat.add_succ_r. auto.
Qed.
Lemma means_glue pos named scope f ps1 ps2 ps p1 p2 n : glue ps1 ps2 ps ->
  means pos named scope f n ps1 p1 -> means pos named scope f (n + bare_count (asked ps1)) ps2 p2 ->
  exists p, means pos named scope f n ps p /\
    same_effect (in_sequence p) (try_ (in_sequence p1) (in_sequence p2)).
Proof.
  intros G X1 X2. destruct G as [a b|a t u b].
  - exists (p1 ++ p2). split; [now apply means_app|apply effect_app].
  - apply means_split in X1 as (q1 & q2 & -> & Y1 & Y2).
    inversion Y2 as [|n' s ps parts Y2'|]; subst. inversion Y2'; subst.
    unfold asked in X2. rewrite flat_map_app in X2. cbn [flat_map placeholder_arg app] in X2. rewrite app_nil_r in X2.
    inversion X2 as [|n' s ps parts X2'|]; subst.
    exists (q1 ++ formatter_write_str f (t ++ u) :: parts). split; [|apply effect_text].
    apply means_app with (p1 := q1); [exact Y1|]. now constructor.
Qed.

(** Calls with given values. *)
Lemma app_eq_app_length {A} (a b c d : list A) : a ++ b = c ++ d -> length a = length c -> a = c /\ b = d.
Proof.
  revert c. induction a as [|x a IH]; intros [|y c] E L; try discriminate; [auto|].
  cbn in E. injection E as -> E. injection L as L. destruct (IH _ E L) as [-> ->]. auto.
Qed.
Lemma given_evaluated {H} (vs : list value_t) (h : H) : evaluated (given vs) h h vs.
Proof. induction vs as [|v vs IH]; [constructor|]. econstructor; [reflexivity|exact IH]. Qed.
Lemma evaluated_det {H} (es : list (expr H)) h h1 vs : evaluated es h h1 vs -> forall h2 us, evaluated es h h2 us ->
  h1 = h2 /\ vs = us.
Proof.
  induction 1 as [h|e es h h1 h2 v vs E X IH]; intros h3 us Y; inversion Y as [|e' es' h' h1' h2' v' vs' E' Y']; subst.
  - auto.
  - rewrite E in E'. injection E' as <- <-. destruct (IH _ _ Y') as [-> ->]. auto.
Qed.
Lemma given_snd {H} (nvs : list (str * value_t)) : map snd (given_named (H := H) nvs) = given (map snd nvs).
Proof. unfold given_named, given. rewrite !map_map. reflexivity. Qed.
Lemma given_fst {H} (nvs : list (str * value_t)) : map fst (given_named (H := H) nvs) = map fst nvs.
Proof. unfold given_named. rewrite map_map. reflexivity. Qed.
Lemma combine_split (nvs : list (str * value_t)) : combine (map fst nvs) (map snd nvs) = nvs.
Proof. induction nvs as [|[x y] nvs IH]; cbn; congruence. Qed.

(** What an accepted call with given values does. *)
Lemma given_call {H} (s : str) (ps : list piece) (vs : list value_t) (nvs : list (str * value_t))
  (scope : str -> value_t) :
  format_string ps s -> accepted ps (length vs) (map fst nvs) ->
  exists c, macro s (given vs) (given_named nvs) = Expanded c /\
    forall h : H, exists args, eval_code scope c h = (h, Some args) /\
      forall f, exists parts, means vs nvs scope f 0 ps parts /\ args f = in_sequence parts.
Proof.
  intros Hp Ha.
  destruct (proj2 (macro_iff _ _ Hx s (given (H := H) vs) (given_named nvs))) as [c Hc].
  { exists ps. split; [exact Hp|]. rewrite given_fst. unfold given. now rewrite map_length. }
  exists c. split; [exact Hc|]. intros h.
  destruct (eval_pure _ _ Hx _ _ _ c scope h Hc) as [args Hev].
  { intros e Hin. rewrite given_snd in Hin. unfold given in Hin. rewrite <- map_app in Hin.
    apply in_map_iff in Hin as (v & <- & _). intros x. now exists v. }
  exists args. split; [exact Hev|].
  destruct (C46_resolution _ _ Hx s ps _ _ c scope h h args Hp Hc Hev) as (pv & nv & He & L1 & L2 & F).
  rewrite given_snd, given_fst in *. unfold given_named, given in L1, L2. rewrite map_length in L1, L2.
  pose proof (given_evaluated (vs ++ map snd nvs) h) as G. unfold given in G. rewrite map_app in G.
  destruct (evaluated_det _ _ _ _ G _ _ He) as [_ E].
  apply app_eq_app_length in E as [<- <-]; [|now symmetry].
  rewrite combine_split in F. exact F.
Qed.

(** The core of joining. *)
Lemma join_core (s1 s2 : str) (ps1 ps2 : list piece) (v1 v2 : list value_t) (n1 n2 : list (str * value_t))
  (scope : str -> value_t) :
  format_string ps1 s1 -> accepted ps1 (length v1) (map fst n1) ->
  format_string ps2 s2 -> accepted ps2 (length v2) (map fst n2) ->
  bare_count (asked ps1) = length v1 -> (forall i, ~ In (Some (Positional i)) (asked ps2)) ->
  (forall x, In (Some (Named x)) (asked ps1) -> ~ In x (map fst n2)) ->
  (forall x, In (Some (Named x)) (asked ps2) -> ~ In x (map fst n1)) ->
  (starts_with_align s2 = true -> forall s, s1 <> s ++ lit ":}") ->
  exists ps, format_string ps (s1 ++ s2) /\ accepted ps (length (v1 ++ v2)) (map fst (n1 ++ n2)) /\
    asked ps = asked ps1 ++ asked ps2 /\
    forall f p1 p2, means v1 n1 scope f 0 ps1 p1 -> means v2 n2 scope f 0 ps2 p2 ->
      exists p, means (v1 ++ v2) (n1 ++ n2) scope f 0 ps p /\
        same_effect (in_sequence p) (try_ (in_sequence p1) (in_sequence p2)).
Proof.
  intros P1 A1 P2 A2 Hb Hi N1 N2 Hg.
  destruct (spells_join ps2 s2 P2 false ps1 s1 P1 Hg) as [J _]. destruct (J eq_refl) as (ps & P & G).
  exists ps. split; [exact P|]. split.
  { rewrite app_length, map_app. now apply accepted_join with ps1 ps2. }
  split; [now apply glue_asked|]. intros f p1 p2 X1 X2.
  apply (means_first v1 v2 n1 n2 scope f) in X1; [|exact N1].
  apply (means_second v1 v2 n1 n2 scope f) in X2; [|exact N2|exact Hi].
  rewrite Nat.add_0_r, <- Hb in X2. exact (means_glue _ _ _ _ _ _ _ _ _ 0 G X1 X2).
Qed.

(** C96: what the joined string does is what the first does and then, if that succeeds, what the
    second does, in text and result. *)
Theorem C96_join {H} (s1 s2 : str) (ps1 ps2 : list piece) (v1 v2 : list value_t) (n1 n2 : list (str * value_t))
  (scope : str -> value_t) (h : H) :
  format_string ps1 s1 -> accepted ps1 (length v1) (map fst n1) ->
  format_string ps2 s2 -> accepted ps2 (length v2) (map fst n2) ->
  bare_count (asked ps1) = length v1 -> (forall i, ~ In (Some (Positional i)) (asked ps2)) ->
  (forall x, In (Some (Named x)) (asked ps1) -> ~ In x (map fst n2)) ->
  (forall x, In (Some (Named x)) (asked ps2) -> ~ In x (map fst n1)) ->
  (starts_with_align s2 = true -> forall s, s1 <> s ++ lit ":}") ->
  exists c1 c2 c a1 a2 a,
    macro s1 (given v1) (given_named n1) = Expanded c1 /\ eval_code scope c1 h = (h, Some a1) /\
    macro s2 (given v2) (given_named n2) = Expanded c2 /\ eval_code scope c2 h = (h, Some a2) /\
    macro (s1 ++ s2) (given (v1 ++ v2)) (given_named (n1 ++ n2)) = Expanded c /\ eval_code scope c h = (h, Some a) /\
    forall f,
      ok_outcome (a f) = then_outcome (ok_outcome (a1 f)) (ok_outcome (a2 f)) /\
      produces (a f) = then_text (ok_outcome (a1 f)) (produces (a1 f)) (produces (a2 f)).
Proof.
  intros P1 A1 P2 A2 Hb Hi N1 N2 Hg.
  destruct (join_core s1 s2 ps1 ps2 v1 v2 n1 n2 scope P1 A1 P2 A2 Hb Hi N1 N2 Hg) as (ps & P & A & _ & J).
  destruct (given_call (H := H) s1 ps1 v1 n1 scope P1 A1) as (c1 & M1 & F1).
  destruct (given_call (H := H) s2 ps2 v2 n2 scope P2 A2) as (c2 & M2 & F2).
  destruct (given_call (H := H) (s1 ++ s2) ps (v1 ++ v2) (n1 ++ n2) scope P A) as (c & M & F).
  destruct (F1 h) as (a1 & E1 & K1). destruct (F2 h) as (a2 & E2 & K2). destruct (F h) as (a & E & K).
  exists c1, c2, c, a1, a2, a. do 6 (split; [assumption|]). intros f.
  destruct (K1 f) as (p1 & X1 & ->). destruct (K2 f) as (p2 & X2 & ->). destruct (K f) as (p & X & ->).
  destruct (J f p1 p2 X1 X2) as (p' & X' & [Q1 Q2]).
  pose proof (means_det _ _ _ _ _ _ _ _ X X') as <-. rewrite Q1, Q2. split; [apply outcome_try|apply text_try].
Qed.
Print Assumptions C96_join.

(** * Factoring out *)
Lemma means_style pos named scope f f' n ps parts : fm_style f' = fm_style f ->
  means pos named scope f n ps parts -> means pos named scope f' n ps parts.
Proof.
  intros E X. induction X as [n|n s ps parts X IH|n a v ps parts U X IH].
  - constructor.
  - replace (formatter_write_str f s) with (formatter_write_str f' s) by (unfold formatter_write_str; now rewrite E).
    now constructor.
  - rewrite <- E. econstructor; eassumption.
Qed.

(** C96: a part of a format string can be moved, with its arguments, to a [format_args!] of its own
    that is used with [{:s}] in its place: same text, same result. *)
Theorem C96_factor {H} (s1 s2 s3 : str) (ps1 ps2 ps3 : list piece) (v1 v2 v3 : list value_t)
  (n1 n2 n3 : list (str * value_t)) (scope : str -> value_t) (h : H) (w : value_t)
  (c2 : code (expr H)) (a2 : arguments) :
  format_string ps1 s1 -> accepted ps1 (length v1) (map fst n1) ->
  format_string ps2 s2 -> accepted ps2 (length v2) (map fst n2) ->
  format_string ps3 s3 -> accepted ps3 (length v3) (map fst n3) ->
  bare_count (asked ps1) = length v1 -> bare_count (asked ps2) = length v2 ->
  (forall i, ~ In (Some (Positional i)) (asked ps2)) -> (forall i, ~ In (Some (Positional i)) (asked ps3)) ->
  (forall x, In (Some (Named x)) (asked ps1) -> ~ In x (map fst n2) /\ ~ In x (map fst n3)) ->
  (forall x, In (Some (Named x)) (asked ps2) -> ~ In x (map fst n1) /\ ~ In x (map fst n3)) ->
  (forall x, In (Some (Named x)) (asked ps3) -> ~ In x (map fst n1) /\ ~ In x (map fst n2)) ->
  (starts_with_align (s2 ++ s3) = true -> forall s, s1 <> s ++ lit ":}") ->
  (starts_with_align s3 = true -> forall s, s2 <> s ++ lit ":}") ->
  macro s2 (given v2) (given_named n2) = Expanded c2 -> eval_code scope c2 h = (h, Some a2) ->
  v_stylish w = Display_Arguments a2 ->
  exists c c' a a',
    macro (s1 ++ s2 ++ s3) (given (v1 ++ v2 ++ v3)) (given_named (n1 ++ n2 ++ n3)) = Expanded c /\
    eval_code scope c h = (h, Some a) /\
    macro (s1 ++ lit "{:s}" ++ s3) (given (v1 ++ w :: v3)) (given_named (n1 ++ n3)) = Expanded c' /\
    eval_code scope c' h = (h, Some a') /\
    forall f, ok_outcome (a f) = ok_outcome (a' f) /\ produces (a f) = produces (a' f).
Proof.
  intros P1 A1 P2 A2 P3 A3 B1 B2 I2 I3 N1 N2 N3 G1 G2 M2 E2 Hw.
  destruct (join_core s2 s3 ps2 ps3 v2 v3 n2 n3 scope P2 A2 P3 A3 B2 I3
              ltac:(intros x X; apply N2, X) ltac:(intros x X; apply N3, X) G2) as (q & Pq & Aq & Kq & Jq).
  destruct (join_core s1 (s2 ++ s3) ps1 q v1 (v2 ++ v3) n1 (n2 ++ n3) scope P1 A1 Pq Aq B1) as (ps & Pp & Ap & Kp & Jp).
  { intros i. rewrite Kq, in_app_iff. intros [X|X]; [now apply I2 in X|now apply I3 in X]. }
  { intros x X. rewrite map_app, in_app_iff. destruct (N1 x X). tauto. }
  { intros x. rewrite Kq, in_app_iff. intros [X|X]; [apply N2, X|apply N3, X]. }
  { exact G1. }
  set (hole := [Arg (mk_farg None (mk_spec (mk_pfargs None None false false None None None)
                   (mk_diff None None None) FStylish))]).
  assert (Ph : format_string hole (lit "{:s}")) by exact (s_string_spelled xid_start xid_continue).
  assert (Ah : accepted hole (length [w]) (map fst (@nil (str * value_t)))).
  { constructor; cbn.
    - lia.
    - intros i [X|[]]. discriminate.
    - intros n [X|[]]. discriminate.
    - intros i L. left. lia.
    - intros n [].
    - constructor; [|constructor]. split; exact I. }
  destruct (join_core (lit "{:s}") s3 hole ps3 [w] v3 [] n3 scope Ph Ah P3 A3 eq_refl I3) as (r & Pr & Ar & Kr & Jr).
  { intros x [X|[]]. discriminate. }
  { intros x _ []. }
  { intros _ s E. destruct s as [|? [|? [|? [|? s]]]]; try discriminate. cbn in E. destruct s; discriminate. }
  destruct (join_core s1 (lit "{:s}" ++ s3) ps1 r v1 ([w] ++ v3) n1 ([] ++ n3) scope P1 A1 Pr Ar B1) as (ps' & Pp' & Ap' & Kp' & Jp').
  { intros i. rewrite Kr, in_app_iff. intros [[X|[]]|X]; [discriminate|now apply I3 in X]. }
  { intros x X. apply N1, X. }
  { intros x. rewrite Kr, in_app_iff. intros [[X|[]]|X]; [discriminate|apply N3, X]. }
  { discriminate. }
  destruct (given_call (H := H) _ _ _ _ scope Pp Ap) as (c & M & F). destruct (F h) as (a & E & K).
  destruct (given_call (H := H) _ _ _ _ scope Pp' Ap') as (c' & M' & F'). destruct (F' h) as (a' & E' & K').
  destruct (given_call (H := H) s1 ps1 v1 n1 scope P1 A1) as (c1 & _ & F1). destruct (F1 h) as (a1 & _ & K1).
  destruct (given_call (H := H) s3 ps3 v3 n3 scope P3 A3) as (c3 & _ & F3). destruct (F3 h) as (a3 & _ & K3).
  destruct (given_call (H := H) s2 ps2 v2 n2 scope P2 A2) as (c2' & M2' & F2). destruct (F2 h) as (a2' & E2' & K2).
  rewrite M2 in M2'. injection M2' as <-. rewrite E2 in E2'. injection E2' as <-.
  exists c, c', a, a'. do 4 (split; [assumption|]). intros f.
  destruct (K f) as (p & X & ->). destruct (K' f) as (p' & X' & ->).
  destruct (K1 f) as (p1 & X1 & _). destruct (K3 f) as (p3 & X3 & _).
  set (g := mk_formatter (fm_style f) fargs_default).
  destruct (K2 g) as (p2 & X2 & Y2). apply (means_style _ _ _ g f) in X2; [|reflexivity].
  destruct (Jq f p2 p3 X2 X3) as (pq & Xq & Eq). destruct (Jp f p1 pq X1 Xq) as (pp & Xp & Ep).
  pose proof (means_det _ _ _ _ _ _ _ _ X Xp) as <-.
  assert (Xh : means [w] [] scope f 0 hole [a2 g]).
  { replace (a2 g) with (trait_code FStylish w (mk_formatter (override (mk_diff None None None) (fm_style f))
       (spelled_flags (mk_pfargs None None false false None None None)))).
    - eapply me_arg; [constructor; reflexivity|constructor].
    - cbn [trait_code]. rewrite Hw. unfold Display_Arguments, g. destruct (fm_style f). reflexivity. }
  destruct (Jr f _ p3 Xh X3) as (pr & Xr & Er). destruct (Jp' f p1 pr X1 Xr) as (pp' & Xp' & Ep').
  pose proof (means_det _ _ _ _ _ _ _ _ X' Xp') as <-.
  enough (Q : same_effect (in_sequence p) (in_sequence p')) by exact Q.
  eapply effect_trans; [exact Ep|]. eapply effect_trans; [|apply effect_sym; exact Ep'].
  apply effect_try; [apply effect_refl|]. eapply effect_trans; [exact Eq|]. eapply effect_trans; [|apply effect_sym; exact Er].
  apply effect_try; [|apply effect_refl]. rewrite Y2. cbn [in_sequence]. split.
  - now rewrite (same_outcome _ _ (try_ok _)).
  - unfold produces. now rewrite (same_events _ _ (try_ok _)).
Qed.
Print Assumptions C96_factor.

(** * Numbering *)
Lemma gen_numbered np names ps : forall k g g', g_next g = k -> g_used_pos g' = g_used_pos g ->
  g_used_named g' = g_used_named g -> g_implicit g' = g_implicit g ->
  match gen_pieces np names ps g, gen_pieces np names (numbered k ps) g' with
  | Some (r, ss), Some (r', ss') => ss' = ss /\ g_used_pos r' = g_used_pos r /\
      g_used_named r' = g_used_named r /\ g_implicit r' = g_implicit r
  | None, None => True
  | _, _ => False
  end.
Proof.
  assert (Q : forall p g1 g2 k ps, 
    (forall k g g', g_next g = k -> g_used_pos g' = g_used_pos g ->
      g_used_named g' = g_used_named g -> g_implicit g' = g_implicit g ->
      match gen_pieces np names ps g, gen_pieces np names (numbered k ps) g' with
      | Some (r, ss), Some (r', ss') => ss' = ss /\ g_used_pos r' = g_used_pos r /\
          g_used_named r' = g_used_named r /\ g_implicit r' = g_implicit r
      | None, None => True
      | _, _ => False
      end) ->
    g_next g1 = k -> g_used_pos g2 = g_used_pos g1 -> g_used_named g2 = g_used_named g1 -> g_implicit g2 = g_implicit g1 ->
    match (match gen_pieces np names ps g1 with Some (g'', ss) => Some (g'', p :: ss) | None => None end),
          (match gen_pieces np names (numbered k ps) g2 with Some (g'', ss) => Some (g'', p :: ss) | None => None end) with
    | Some (r, ss), Some (r', ss') => ss' = ss /\ g_used_pos r' = g_used_pos r /\
        g_used_named r' = g_used_named r /\ g_implicit r' = g_implicit r
    | None, None => True
    | _, _ => False
    end).
  { intros p g1 g2 k ps0 IH E1 E2 E3 E4. specialize (IH k g1 g2 E1 E2 E3 E4). revert IH.
    destruct (gen_pieces np names ps0 g1) as [[r ss]|], (gen_pieces np names (numbered k ps0) g2) as [[r' ss']|]; auto.
    intros (-> & IH). auto. }
  induction ps as [|[t|[arg [fa st tr]]] ps IH]; intros k g g' Ek E1 E2 E3.
  - cbn. auto.
  - cbn [numbered gen_pieces gen_piece]. apply Q; auto.
  - cbn [numbered fa_arg fa_spec]. destruct arg as [[i|name]|].
    + cbn [gen_pieces gen_piece gen_place]. destruct (N.of_nat np <=? i)%N; [exact I|].
      destruct (fargs_tokens fa); [|exact I]. destruct (style_diff_tokens st); [|exact I].
      apply Q; auto; cbn; congruence.
    + cbn [gen_pieces gen_piece gen_place]. destruct (named_index names name) as [j|].
      * destruct (fargs_tokens fa); [|exact I]. destruct (style_diff_tokens st); [|exact I].
        apply Q; auto; cbn; congruence.
      * destruct (cannot_be_raw name); [exact I|]. rewrite E3.
        destruct (fargs_tokens fa); [|exact I]. destruct (style_diff_tokens st); [|exact I].
        apply Q; auto; cbn; congruence.
    + cbn [gen_pieces gen_piece gen_place]. rewrite Ek.
      destruct (Nat.ltb_spec k np) as [L|L]; destruct (N.leb_spec (N.of_nat np) (N.of_nat k)) as [L'|L']; try lia.
      destruct (fargs_tokens fa); [|exact I]. destruct (style_diff_tokens st); [|exact I].
      rewrite Nat2N.id. apply Q; auto; cbn; congruence.
Qed.

(** C96: numbering the bare placeholders explicitly changes nothing: the call is rejected alike or
    expands to the same code. *)
Theorem C96_numbered {E} (s s' : str) (ps : list piece) (pos : list E) (named : list (str * E)) :
  format_string ps s -> format_string (numbered 0 ps) s' ->
  macro s' pos named = macro s pos named.
Proof.
  intros P P'. rewrite (macro_of _ _ Hx s ps pos named P), (macro_of _ _ Hx s' _ pos named P'). unfold generate.
  pose proof (gen_numbered (length pos) (map fst named) ps 0 gen_init gen_init eq_refl eq_refl eq_refl eq_refl) as G.
  revert G. destruct (gen_pieces (length pos) (map fst named) ps gen_init) as [[r ss]|],
    (gen_pieces (length pos) (map fst named) (numbered 0 ps) gen_init) as [[r' ss']|]; try tauto.
  intros (-> & G1 & G2 & G3). unfold all_used. rewrite G1, G2, G3. reflexivity.
Qed.
Print Assumptions C96_numbered.

(** * Naming *)

(** C96: passing a captured variable as an argument of its name changes nothing. *)
Theorem C96_captured {H} (s x : str) (ps : list piece) (vs : list value_t) (nvs : list (str * value_t))
  (scope : str -> value_t) (h : H) :
  format_string ps s -> accepted ps (length vs) (map fst nvs) ->
  In (Some (Named x)) (asked ps) -> ~ In x (map fst nvs) ->
  exists c c' a a',
    macro s (given vs) (given_named nvs) = Expanded c /\ eval_code scope c h = (h, Some a) /\
    macro s (given vs) (given_named (nvs ++ [(x, scope x)])) = Expanded c' /\ eval_code scope c' h = (h, Some a') /\
    forall f, a' f = a f.
Proof.
  intros P A Hin Hno.
  assert (A' : accepted ps (length vs) (map fst (nvs ++ [(x, scope x)]))).
  { destruct A as [A1 A2 A3 A4 A5 A6]. rewrite map_app. cbn [map fst]. constructor; auto.
    - intros n X. destruct (A3 n X); [left; apply in_or_app; auto|auto].
    - intros n X. apply in_app_or in X as [X|[<-|[]]]; auto. }
  destruct (given_call (H := H) s ps vs nvs scope P A) as (c & M & F). destruct (F h) as (a & E & K).
  destruct (given_call (H := H) s ps vs _ scope P A') as (c' & M' & F'). destruct (F' h) as (a' & E' & K').
  exists c, c', a, a'. do 4 (split; [assumption|]). intros f.
  destruct (K f) as (p & X & ->). destruct (K' f) as (p' & X' & ->). f_equal.
  eapply means_det; [exact X'|]. clear - X Hno. induction X as [n|n s ps parts X IH|n a v ps parts U X IH].
  - constructor.
  - now constructor.
  - econstructor; [|exact IH]. clear IH X. revert U. generalize (fa_arg a). intros ar U.
    destruct U as [v E|i v E|nm v b a' E K|nm K].
    + now constructor.
    + now constructor.
    + apply use_named with b (a' ++ [(x, scope x)]); [rewrite E, <- app_assoc; reflexivity|].
      rewrite map_app, in_app_iff. cbn. intros [Y|[Y|[]]]; [tauto|]. subst nm. apply Hno. rewrite E, map_app.
      apply in_or_app. right. now left.
    + destruct (str_eqb_spec nm x) as [->|D].
      * apply use_named with nvs []; [reflexivity|intros []].
      * apply use_captured. rewrite map_app, in_app_iff. cbn. intros [Y|[Y|[]]]; [tauto|congruence].
Qed.
Print Assumptions C96_captured.
End Xid.

(** * Concrete cases *)
Ltac spelled := apply (C41_grammar ascii_start ascii_continue ascii_xid_ok); vm_compute; reflexivity.
Ltac acceptable :=
  constructor; cbn;
  [ lia
  | intros i X; repeat (destruct X as [X|X]; [discriminate X|]); destruct X
  | intros n X; right; repeat (destruct X as [X|X]; [first [discriminate X|injection X as <-; cbv; intuition discriminate]|]); destruct X
  | intros i X; left; lia
  | intros n []
  | repeat constructor ].
Ltac no_index := cbn; intros i X; repeat (destruct X as [X|X]; [discriminate X|]); destruct X.

Definition shows (s : str) (vs : list value_t) (nvs : list (str * value_t)) : option (comp str) :=
  match call false s (given vs) (given_named nvs) with Some (_, a) => Some (html_format a) | None => None end.

(** ["a {} {x}"] and ["b {:(fg=red)} {y}"]: the hypotheses of [C96_join]. *)
Example C96_join_nonvacuous :
  exists ps1 ps2,
  format_string ascii_start ascii_continue ps1 (lit "a {} {x}") /\ accepted ps1 1 [] /\
  format_string ascii_start ascii_continue ps2 (lit "b {:(fg=red)} {y}") /\ accepted ps2 1 [] /\
  bare_count (asked ps1) = 1 /\ (forall i, ~ In (Some (Positional i)) (asked ps2)) /\
  starts_with_align (lit "b {:(fg=red)} {y}") = false.
Proof.
  eexists _, _. split; [spelled|]. split; [acceptable|]. split; [spelled|]. split; [acceptable|].
  split; [reflexivity|]. split; [no_index|reflexivity].
Qed.

Example C96_join_shown :
  let A := text_value (lit "A") in let B := text_value (lit "B") in
  shows (lit "a {} {x}") [A] [] = Some (Value (lit "a A var x")) /\
  shows (lit "b {:(fg=red)} {y}") [B] [] = Some (Value (lit "b <span style=color:red>B</span> var y")) /\
  shows (lit "a {} {x}b {:(fg=red)} {y}") [A; B] [] =
    Some (Value (lit "a A var xb <span style=color:red>B</span> var y")).
Proof. cbn zeta. repeat split; vm_compute; reflexivity. Qed.

(** [C96_glued]: ["{:}"] is fine and so is ["<b"], but not the two joined; ["{:}"] and ["b"] are. *)
Example C96_glued_nonvacuous :
  let A := text_value (lit "A") in
  shows (lit "{:}") [A] [] = Some (Value (lit "A")) /\ shows (lit "<b") [] [] = Some (Value (lit "&lt;b")) /\
  shows (lit "{:}<b") [A] [] = None /\ shows (lit "{:}b") [A] [] = Some (Value (lit "Ab")).
Proof. cbn zeta. repeat split; vm_compute; reflexivity. Qed.

(** [C96_factor]: the middle of ["a{}{:(bold)}c"]. *)
Example C96_factor_nonvacuous :
  let A := text_value (lit "A") in let B := text_value (lit "B") in
  match call false (lit "{}{:(bold)}") (given [A; B]) (given_named []) with
  | Some (_, inner) =>
      let w := mk_value (fun _ _ => SRet Ok) (Display_Arguments inner) in
      shows (lit "a{:s}c") [w] [] = Some (Value (lit "aA<span style=font-weight:bolder>B</span>c")) /\
      shows (lit "a{}{:(bold)}c") [A; B] [] = Some (Value (lit "aA<span style=font-weight:bolder>B</span>c"))
  | None => False
  end.
Proof. cbn zeta. vm_compute. split; reflexivity. Qed.

Example C96_numbered_nonvacuous :
  exists ps, format_string ascii_start ascii_continue ps (lit "{} {x} {:5} {0} {}") /\
  format_string ascii_start ascii_continue (numbered 0 ps) (lit "{0} {x} {1:5} {0} {2}").
Proof. eexists. split; [spelled|]. spelled. Qed.

Example C96_captured_nonvacuous :
  shows (lit "{x}{y}{x}") [] [] = Some (Value (lit "var xvar yvar x")) /\
  shows (lit "{x}{y}{x}") [] [(lit "x", no_scope (lit "x"))] = Some (Value (lit "var xvar yvar x")) /\
  shows (lit "{x}{y}{x}") [] [(lit "x", text_value (lit "1"))] = Some (Value (lit "1var y1")).
Proof. repeat split; vm_compute; reflexivity. Qed.
