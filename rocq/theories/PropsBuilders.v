(** C85: values shown through std's Debug builders. *)
From Coq Require Import ZArith Lia.
From Verif Require Import Base Style Fmt SpecStd StdCompat SString Plain Ansi Html Format Nom Parse
  Codegen StdVal SpecText TextFacts SpecSink StyleFacts StdFacts StringFacts FormatFacts SpecGrammar
  ParseFacts SpecFacts GrammarFacts SpecMeaning CodegenFacts MacroFacts AttrFacts PropsParse PropsMacro SpecPad
  PropsPad Builders SpecBuilders.

(** * Texts and outcomes of code in sequence *)
Definition says (p : sprog) (t : str) : Prop := std_outcome p = Returned Ok /\ concat (std_events p) = t.

Lemma then_outcome p q : std_outcome (sprog_then p q)
  = match std_outcome p with Returned Ok => std_outcome q | o => o end.
Proof. induction p as [[]|c|s k IH]; cbn; auto. Qed.
Lemma then_says p q s t : says p s -> says q t -> says (sprog_then p q) (s ++ t).
Proof.
  intros [Hp Ep] [Hq Eq]. destruct (sprog_then_events p q Hp) as [E1 E2]. split; [now rewrite E2|].
  now rewrite E1, Ep, Eq.
Qed.
Lemma try_says s q t : says q t -> says (emit_try s q) (s ++ t).
Proof. intros [H1 H2]. split; [exact H1|]. cbn. now rewrite H2. Qed.
Lemma emit_says s : says (SEmit s SRet) s.
Proof. split; [reflexivity|]. cbn. apply app_nil_r. Qed.
Lemma says_eq p s t : says p s -> s = t -> says p t.
Proof. now intros H <-. Qed.

(** * The adaptor *)
Fixpoint ind (on : bool) (s : str) : str :=
  match s with
  | [] => []
  | c :: r => (if on then lit "    " else []) ++ c :: ind (c =? 10)%N r
  end.
Fixpoint after (on : bool) (s : str) : bool :=
  match s with [] => on | c :: r => after (c =? 10)%N r end.
Lemma ind_app s t : forall on, ind on (s ++ t) = ind on s ++ ind (after on s) t.
Proof. induction s as [|c s IH]; intros on; cbn; [reflexivity|]. rewrite IH, <- app_assoc. reflexivity. Qed.
Lemma after_app s t : forall on, after on (s ++ t) = after (after on s) t.
Proof. induction s as [|c s IH]; intros on; cbn; auto. Qed.
Lemma ind_plain s : Forall (fun c => c <> 10%N) s -> ind false s = s /\ after false s = false.
Proof.
  induction 1 as [|c s Hc Hs IH]; [now split|]. cbn. apply N.eqb_neq in Hc. rewrite Hc. destruct IH as [-> ->]. now split.
Qed.
Lemma ind_line on s c : Forall (fun c => c <> 10%N) s ->
  ind on (s ++ [c]) = (if on then lit "    " else []) ++ s ++ [c] /\ after on (s ++ [c]) = (c =? 10)%N.
Proof.
  intros H. rewrite after_app. cbn [after]. split; [|reflexivity].
  destruct H as [|d s Hd Hs]; [reflexivity|]. cbn. apply N.eqb_neq in Hd. rewrite Hd. f_equal. f_equal.
  rewrite ind_app. destruct (ind_plain s Hs) as [-> E]. rewrite E. reflexivity.
Qed.
Lemma ends_line_last s c : ends_line (s ++ [c]) = (c =? 10)%N.
Proof. unfold ends_line. now rewrite rev_app_distr. Qed.
Lemma pad_lines_one on s c r k :
  Forall (fun c => c <> 10%N) s ->
  std_outcome (pad_lines on ((s ++ [c]) :: r) k) = std_outcome (pad_lines (c =? 10)%N r k) /\
  concat (std_events (pad_lines on ((s ++ [c]) :: r) k))
  = ind on (s ++ [c]) ++ concat (std_events (pad_lines (c =? 10)%N r k)).
Proof.
  intros H. destruct (ind_line on s c H) as [-> _]. cbn [pad_lines]. rewrite ends_line_last.
  destruct on; cbn [std_outcome std_events concat]; (split; [reflexivity|]); rewrite <- ?app_assoc; reflexivity.
Qed.
Lemma split_adapter s k : forall cur on, Forall (fun c => c <> 10%N) cur ->
  std_outcome (pad_lines on (split_lines s cur) k) = std_outcome (k (after on (rev cur ++ s)) Ok) /\
  concat (std_events (pad_lines on (split_lines s cur) k))
  = ind on (rev cur ++ s) ++ concat (std_events (k (after on (rev cur ++ s)) Ok)).
Proof.
  induction s as [|c s IH]; intros cur on Hc.
  - cbn [split_lines]. rewrite app_nil_r. destruct cur as [|c cur]; [now split|].
    inversion Hc as [|? ? H1 H2]; subst. apply Forall_rev in H2. cbn [rev].
    destruct (pad_lines_one on (rev cur) c [] k H2) as [E1 E2]. destruct (ind_line on (rev cur) c H2) as [_ E3].
    unfold str, char in *. rewrite E1, E2, E3. now split.
  - cbn [split_lines]. destruct (N.eqb_spec c 10) as [->|Hn].
    + apply Forall_rev in Hc. cbn [rev]. destruct (pad_lines_one on (rev cur) 10%N (split_lines s []) k Hc) as [E1 E2].
      destruct (IH [] true (Forall_nil _)) as [E3 E4]. cbn [rev app] in E3, E4.
      change (10 =? 10)%N with true in E1, E2. unfold str, char in *. rewrite E3 in E1. rewrite E4 in E2.
      rewrite E1, E2.
      assert (E : rev cur ++ 10%N :: s = (rev cur ++ [10%N]) ++ s) by now rewrite <- app_assoc.
      rewrite E, (ind_app (rev cur ++ [10%N]) s), (after_app (rev cur ++ [10%N]) s).
      destruct (ind_line on (rev cur) 10%N Hc) as [_ E5]. unfold str, char in *. rewrite E5.
      change (10 =? 10)%N with true. rewrite <- (app_assoc (ind on (rev cur ++ [10%N]))). split; reflexivity.
    + assert (Hcc : Forall (fun c => c <> 10%N) (c :: cur)) by (constructor; assumption). specialize (IH (c :: cur) on Hcc). cbn [rev] in IH.
      rewrite <- app_assoc in IH. exact IH.
Qed.
Lemma adapter_outcome p k : forall on, std_outcome p = Returned Ok ->
  std_outcome (pad_adapter on p k) = std_outcome (k (after on (concat (std_events p)))) /\
  concat (std_events (pad_adapter on p k))
  = ind on (concat (std_events p)) ++ concat (std_events (k (after on (concat (std_events p))))).
Proof.
  induction p as [[]|c|s kk IH]; intros on Ho; try discriminate Ho.
  - now split.
  - cbn [std_outcome] in Ho. cbn [pad_adapter std_events concat].
    destruct (split_adapter s (fun on r => pad_adapter on (kk r) k) [] on (Forall_nil _)) as [E1 E2].
    cbn [rev app] in E1, E2. destruct (IH Ok (after on s) Ho) as [E3 E4].
    rewrite E3 in E1. rewrite E4 in E2. rewrite ind_app, after_app, <- app_assoc. split; [exact E1|exact E2].
Qed.
Lemma adapter_fails p k : forall on o, std_outcome p = o -> o <> Returned Ok ->
  std_outcome (pad_adapter on p k) = o.
Proof.
  induction p as [[]|c|s kk IH]; intros on o Ho Hne; cbn in *; subst; try congruence.
  destruct (split_adapter s (fun on r => pad_adapter on (kk r) k) [] on (Forall_nil _)) as [E _].
  etransitivity; [exact E|]. now apply IH.
Qed.
Lemma adapter_result on p k : std_outcome (pad_adapter on p k)
  = match std_outcome p with
    | Returned Ok => std_outcome (k (after on (concat (std_events p))))
    | o => o end.
Proof.
  destruct (std_outcome p) as [[]|c] eqn:E.
  - now apply adapter_outcome.
  - now apply adapter_fails.
  - now apply adapter_fails.
Qed.
Lemma ind_shift s x r : forall on, ind on (s ++ x :: r)
  = (if on then lit "    " else []) ++ shift s ++ x :: ind (x =? 10)%N r.
Proof.
  induction s as [|c s IH]; intros on; [reflexivity|]. cbn [app ind]. rewrite IH.
  change (shift (c :: s)) with ((if N.eqb c 10 then c :: lit "    " else [c]) ++ shift s).
  destruct (N.eqb c 10); rewrite <- ?app_assoc; reflexivity.
Qed.
Lemma shift_app s t : shift (s ++ t) = shift s ++ shift t.
Proof. apply flat_map_app. Qed.
Lemma indented_says p k t u : says p (t ++ lit "," ++ [10%N]) -> says k u ->
  says (indented p k) (lit "    " ++ shift t ++ lit "," ++ [10%N] ++ u).
Proof.
  intros [Hp Ep] [Hk Ek]. unfold indented. destruct (adapter_outcome p (fun _ => k) true Hp) as [E1 E2].
  split; [now rewrite E1|]. rewrite E2, Ep, Ek. change (lit "," ++ [10%N]) with [44%N; 10%N].
  rewrite ind_shift. cbn [ind app]. rewrite <- ?app_assoc. reflexivity.
Qed.
Lemma indented_outcome p k : std_outcome (indented p k)
  = match std_outcome p with Returned Ok => std_outcome k | o => o end.
Proof. apply adapter_result. Qed.
Lemma comma_says p t : says p t -> says (sprog_then p comma_line) (t ++ lit "," ++ [10%N]).
Proof. intros H. apply then_says; [exact H|]. apply emit_says. Qed.

(** * The builders, for fields whose text is known *)
Definition item (n : str) (t : str) : str := n ++ lit ": " ++ t.
Lemma fields_lines (fields : list (str * sprog)) (texts : list str) k u :
  Forall2 (fun f t => says (snd f) t) fields texts -> forall has,
  says (k (match fields with [] => has | _ => true end)) u ->
  says (struct_fields true has fields k)
    ((match fields with [] => [] | _ => if has then [] else lit " {" ++ [10%N] end)
     ++ lines (map (fun x => item (fst (fst x)) (snd x)) (combine fields texts)) ++ u).
Proof.
  induction 1 as [|[n p] t fields texts Hp HF IH]; intros has Hk; [exact Hk|].
  cbn [struct_fields]. unfold struct_field.
  assert (Hr : says (struct_fields true true fields k)
     (lines (map (fun x => item (fst (fst x)) (snd x)) (combine fields texts)) ++ u)).
  { eapply says_eq; [apply IH|]. - now destruct fields. - now destruct fields. }
  assert (HL : says (emit_try n (emit_try (lit ": ") (sprog_then p comma_line))) (item n t ++ lit "," ++ [10%N])).
  { unfold item. rewrite <- !app_assoc. apply try_says, try_says, comma_says. exact Hp. }
  pose proof (indented_says _ _ _ _ HL Hr) as HI.
  cbn [combine map lines flat_map fst snd]. fold (lines (map (fun x => item (fst (fst x)) (snd x)) (combine fields texts))).
  destruct has; [eapply says_eq; [exact HI|]|eapply says_eq; [apply try_says; exact HI|]];
    rewrite <- ?app_assoc; reflexivity.
Qed.
Definition seps (has : bool) (items : list str) : str :=
  match items with [] => [] | t :: r => (if has then lit ", " else lit " { ") ++ t ++ flat_map (fun t => lit ", " ++ t) r end.
Lemma seps_true items : seps true items = flat_map (fun t => lit ", " ++ t) items.
Proof. destruct items; [reflexivity|]. cbn. now rewrite <- ?app_assoc. Qed.
Lemma fields_line (fields : list (str * sprog)) (texts : list str) k u :
  Forall2 (fun f t => says (snd f) t) fields texts -> forall has,
  says (k (match fields with [] => has | _ => true end)) u ->
  says (struct_fields false has fields k)
    (seps has (map (fun x => item (fst (fst x)) (snd x)) (combine fields texts)) ++ u).
Proof.
  induction 1 as [|[n p] t fields texts Hp HF IH]; intros has Hk; [exact Hk|].
  cbn [struct_fields]. unfold struct_field.
  assert (Hr : says (struct_fields false true fields k)
     (seps true (map (fun x => item (fst (fst x)) (snd x)) (combine fields texts)) ++ u)).
  { apply IH. now destruct fields. }
  rewrite seps_true in Hr.
  eapply says_eq; [apply try_says, try_says, try_says, then_says; [exact Hp|exact Hr]|].
  cbn [combine map seps fst snd]. unfold item. rewrite <- ?app_assoc. reflexivity.
Qed.
Lemma dots_lines k : says k (lit "}") ->
  says (indented (SEmit (lit ".." ++ [10%N]) SRet) k) (lit "    .." ++ [10%N] ++ lit "}").
Proof.
  intros [H1 H2]. unfold indented. destruct (adapter_outcome (SEmit (lit ".." ++ [10%N]) SRet) (fun _ => k) true eq_refl) as [E1 E2].
  split; [now rewrite E1|]. rewrite E2, H2. reflexivity.
Qed.

Lemma tuple_lines (ps : list sprog) (texts : list str) k u :
  Forall2 says ps texts -> forall n,
  says (k (n + length ps)) u ->
  says (tuple_fields true n ps k)
    ((match ps, n with _ :: _, O => lit "(" ++ [10%N] | _, _ => [] end) ++ lines texts ++ u).
Proof.
  induction 1 as [|p t ps texts Hp HF IH]; intros n Hk.
  - cbn. rewrite Nat.add_0_r in Hk. exact Hk.
  - cbn [tuple_fields]. unfold tuple_field. cbn [length] in Hk. rewrite <- Nat.add_succ_comm in Hk.
    assert (Hr : says (tuple_fields true (S n) ps k) (lines texts ++ u)).
    { eapply says_eq; [apply IH; exact Hk|]. now destruct ps. }
    pose proof (indented_says _ _ _ _ (comma_says _ _ Hp) Hr) as HI.
    cbn [lines flat_map]. fold (lines texts).
    destruct n; [eapply says_eq; [apply try_says; exact HI|]|eapply says_eq; [exact HI|]];
      rewrite <- ?app_assoc; reflexivity.
Qed.
Lemma tuple_line (ps : list sprog) (texts : list str) k u :
  Forall2 says ps texts -> forall n,
  says (k (n + length ps)) u ->
  says (tuple_fields false n ps k)
    ((match texts with [] => [] | t :: r => (match n with O => lit "(" | _ => lit ", " end) ++ t ++ flat_map (fun t => lit ", " ++ t) r end) ++ u).
Proof.
  induction 1 as [|p t ps texts Hp HF IH]; intros n Hk.
  - cbn. rewrite Nat.add_0_r in Hk. exact Hk.
  - cbn [tuple_fields]. unfold tuple_field. cbn [length] in Hk. rewrite <- Nat.add_succ_comm in Hk.
    specialize (IH (S n) Hk).
    eapply says_eq; [apply try_says, then_says; [exact Hp|exact IH]|].
    destruct texts; cbn [flat_map]; rewrite <- ?app_assoc; reflexivity.
Qed.
Lemma inner_lines (ps : list sprog) (texts : list str) k u :
  Forall2 says ps texts -> says k u -> forall has,
  says (inner_entries true has ps k)
    ((match ps with [] => [] | _ => if has then [] else [10%N] end) ++ lines texts ++ u).
Proof.
  intros HF Hk. induction HF as [|p t ps texts Hp HF IH]; intros has; [exact Hk|].
  cbn [inner_entries]. unfold inner_entry.
  assert (Hr : says (inner_entries true true ps k) (lines texts ++ u)).
  { eapply says_eq; [apply IH|]. now destruct ps. }
  pose proof (indented_says _ _ _ _ (comma_says _ _ Hp) Hr) as HI.
  cbn [lines flat_map]. fold (lines texts).
  destruct has; [eapply says_eq; [exact HI|]|eapply says_eq; [apply try_says; exact HI|]];
    rewrite <- ?app_assoc; reflexivity.
Qed.
Lemma inner_line (ps : list sprog) (texts : list str) k u :
  Forall2 says ps texts -> says k u -> forall has,
  says (inner_entries false has ps k)
    ((if has then flat_map (fun t => lit ", " ++ t) texts else join texts) ++ u).
Proof.
  intros HF Hk. induction HF as [|p t ps texts Hp HF IH]; intros has.
  - now destruct has.
  - cbn [inner_entries]. unfold inner_entry. specialize (IH true). cbn iota in IH.
    destruct has; [eapply says_eq; [apply try_says, then_says; [exact Hp|exact IH]|]
      |eapply says_eq; [apply then_says; [exact Hp|exact IH]|]]; cbn [join flat_map]; rewrite <- ?app_assoc; reflexivity.
Qed.
Lemma map_lines (es : list (sprog * sprog)) (texts : list (str * str)) :
  Forall2 (fun e t => says (fst e) (fst t) /\ says (snd e) (snd t)) es texts -> forall has on,
  says (map_calls true has false on (flat_map (fun e => [MKey (fst e); MValue (snd e)]) es))
    ((match es with [] => [] | _ => if has then [] else [10%N] end)
     ++ lines (map (fun t => item (fst t) (snd t)) texts) ++ lit "}").
Proof.
  induction 1 as [|[p q] [s t] es texts [Hp Hq] HF IH]; intros has on; [apply emit_says|].
  cbn [flat_map app fst snd] in *. cbn [map_calls negb].
  set (P := sprog_then p (SEmit (lit ": ") SRet)).
  assert (HP : says P (s ++ lit ": ")) by (apply then_says; [exact Hp|apply emit_says]).
  set (Q := sprog_then q comma_line). pose proof (comma_says _ _ Hq) as HQ. fold Q in HQ.
  set (K2 := fun on0 : bool => map_calls true true false on0 _).
  assert (HK2 : forall on, says (K2 on) (lines (map (fun t => item (fst t) (snd t)) texts) ++ lit "}")).
  { intros on'. eapply says_eq; [apply IH|]. now destruct es. }
  assert (HB : says (pad_adapter true P (fun on1 => pad_adapter on1 Q K2))
     (lit "    " ++ shift (item s t) ++ lit "," ++ [10%N] ++ lines (map (fun t => item (fst t) (snd t)) texts) ++ lit "}")).
  { destruct HP as [HP1 HP2], HQ as [HQ1 HQ2].
    destruct (adapter_outcome P (fun on1 => pad_adapter on1 Q K2) true HP1) as [E1 E2].
    destruct (adapter_outcome Q K2 (after true (concat (std_events P))) HQ1) as [E3 E4].
    destruct (HK2 (after (after true (concat (std_events P))) (concat (std_events Q)))) as [E5 E6].
    split; [now rewrite E1, E3, E5|]. rewrite E2, E4, E6, app_assoc, <- ind_app, HP2, HQ2.
    assert (E : (s ++ lit ": ") ++ t ++ lit "," ++ [10%N] = item s t ++ 44%N :: [10%N])
      by (unfold item; rewrite <- !app_assoc; reflexivity).
    unfold str, char in *. rewrite E, ind_shift. cbn [ind app]. rewrite <- ?app_assoc. reflexivity. }
  cbn [map lines flat_map fst snd]. fold (lines (map (fun t => item (fst t) (snd t)) texts)).
  destruct has; [eapply says_eq; [exact HB|]|eapply says_eq; [apply try_says; exact HB|]];
    rewrite <- ?app_assoc; reflexivity.
Qed.
Lemma map_line (es : list (sprog * sprog)) (texts : list (str * str)) :
  Forall2 (fun e t => says (fst e) (fst t) /\ says (snd e) (snd t)) es texts -> forall has on,
  says (map_calls false has false on (flat_map (fun e => [MKey (fst e); MValue (snd e)]) es))
    ((if has then flat_map (fun t => lit ", " ++ t) (map (fun t => item (fst t) (snd t)) texts)
      else join (map (fun t => item (fst t) (snd t)) texts)) ++ lit "}").
Proof.
  induction 1 as [|[p q] [s t] es texts [Hp Hq] HF IH]; intros has on; [destruct has; apply emit_says|].
  cbn [flat_map app fst snd] in *. cbn [map_calls negb]. specialize (IH true on). cbn iota in IH.
  pose proof (then_says _ _ _ _ Hp (try_says (lit ": ") _ _ (then_says _ _ _ _ Hq IH))) as HI.
  destruct has; [eapply says_eq; [apply try_says; exact HI|]|eapply says_eq; [exact HI|]];
    cbn [map join flat_map fst snd]; unfold item; rewrite <- ?app_assoc; reflexivity.
Qed.

(** * Trees *)
Lemma dbg_rect' (P : dbg -> Prop) :
  (forall v, P (DLeaf v)) ->
  (forall name fields ex, Forall (fun f => P (snd f)) fields -> P (DStruct name fields ex)) ->
  (forall name l, Forall P l -> P (DTuple name l)) ->
  (forall l, Forall P l -> P (DList l)) ->
  (forall l, Forall P l -> P (DSet l)) ->
  (forall l, Forall (fun e => P (fst e) /\ P (snd e)) l -> P (DMap l)) ->
  forall d, P d.
Proof.
  intros H1 H2 H3 H4 H5 H6. fix IH 1.
  assert (HL : forall l, (fix all (l : list dbg) : Prop := match l with [] => True | d :: r => P d /\ all r end) l -> Forall P l).
  { induction l as [|d l I]; [constructor|]. intros [A B]. constructor; auto. }
  intros [v|name fields ex|name l|l|l|l].
  - apply H1.
  - apply H2. induction fields as [|[n d] fields I]; constructor; [apply IH|exact I].
  - apply H3. clear HL. induction l as [|d l I]; constructor; [apply IH|exact I].
  - apply H4. clear HL. induction l as [|d l I]; constructor; [apply IH|exact I].
  - apply H5. clear HL. induction l as [|d l I]; constructor; [apply IH|exact I].
  - apply H6. clear HL. induction l as [|[a b] l I]; constructor; [split; apply IH|exact I].
Qed.

Lemma flat_map_map {A B C} (f : B -> list C) (g : A -> B) l : flat_map f (map g l) = flat_map (fun x => f (g x)) l.
Proof. induction l as [|x l IH]; cbn; [reflexivity|]. now rewrite IH. Qed.
Lemma Forall_flat {A B} (P : B -> Prop) (f : A -> list B) l : Forall P (flat_map f l) -> Forall (fun x => Forall P (f x)) l.
Proof. induction l as [|x l IH]; cbn; [constructor|]. intros H. apply Forall_app in H as [H1 H2]. constructor; auto. Qed.
Lemma Forall2_maps {A B C} (R : B -> C -> Prop) (P Q : A -> Prop) (f : A -> B) (g : A -> C) l :
  Forall P l -> Forall Q l -> (forall x, P x -> Q x -> R (f x) (g x)) -> Forall2 R (map f l) (map g l).
Proof. intros HP HQ H. induction l; inversion HP; inversion HQ; subst; constructor; auto. Qed.
Lemma combine_maps {A B C} (f : A -> B) (g : A -> C) l : combine (map f l) (map g l) = map (fun x => (f x, g x)) l.
Proof. induction l as [|x l IH]; cbn; [reflexivity|]. now rewrite IH. Qed.
Lemma join_app l x : join (l ++ [x]) = match l with [] => x | _ => join l ++ lit ", " ++ x end.
Proof.
  destruct l as [|t l]; [cbn; now rewrite app_nil_r|]. cbn. rewrite flat_map_app. cbn. now rewrite app_nil_r, <- !app_assoc.
Qed.
Lemma seps_join has items : seps has items
  = match items with [] => [] | _ => (if has then lit ", " else lit " { ") ++ join items end.
Proof. now destruct items. Qed.

Lemma debug_says fl leaf d :
  Forall (fun v => says (v fl) (leaf v)) (leaves d) ->
  says (debug_std d fl) ((if sf_alternate fl then many_lines else one_line) leaf d).
Proof.
  set (lay := (if sf_alternate fl then many_lines else one_line) leaf).
  assert (G : forall l : list dbg, Forall (fun d => Forall (fun v => says (v fl) (leaf v)) (leaves d) -> says (debug_std d fl) (lay d)) l ->
     Forall (fun v => says (v fl) (leaf v)) (flat_map leaves l) ->
     Forall2 says (map (fun x => debug_std x fl) l) (map lay l)).
  { intros l HI HL. apply Forall_flat in HL. apply (Forall2_maps _ _ _ _ _ _ HI HL). auto. }
  induction d as [v|name fields ex IH|name l IH|l IH|l IH|l IH] using dbg_rect'; intros HL; cbn [leaves] in HL.
  - cbn. inversion HL as [|? ? H1 H2]; subst. unfold lay. destruct (sf_alternate fl); exact H1.
  - apply Forall_flat in HL.
    assert (HF : Forall2 (fun f t => says (snd f) t) (map (fun f => (fst f, debug_std (snd f) fl)) fields)
       (map (fun f : str * dbg => lay (snd f)) fields)).
    { apply (Forall2_maps _ _ _ _ _ _ IH HL). cbn. auto. }
    assert (EM : map (fun x => item (fst (fst x)) (snd x))
        (combine (map (fun f => (fst f, debug_std (snd f) fl)) fields) (map (fun f : str * dbg => lay (snd f)) fields))
       = map (fun f => item (fst f) (lay (snd f))) fields).
    { rewrite combine_maps, map_map. reflexivity. }
    cbn [debug_std]. unfold debug_struct, lay in *. destruct (sf_alternate fl) eqn:Ea.
    + destruct ex.
      * eapply says_eq; [apply try_says, (fields_lines _ _ (struct_finish true)
          (match fields with [] => [] | _ => lit "}" end) HF false); destruct fields; [now split|apply emit_says]|].
        rewrite EM. cbn [many_lines]. destruct fields as [|[n d] fields]; [cbn; now rewrite app_nil_r|].
        cbn [map block fst snd]. unfold item. rewrite <- ?app_assoc. reflexivity.
      * assert (E : forall u, says (struct_finish_dots true (match map (fun f => (fst f, debug_std (snd f) fl)) fields with [] => false | _ => true end)) u ->
          says (emit_try name (struct_fields true false (map (fun f => (fst f, debug_std (snd f) fl)) fields) (struct_finish_dots true)))
            (name ++ (match map (fun f => (fst f, debug_std (snd f) fl)) fields with [] => [] | _ => lit " {" ++ [10%N] end) ++ lines (map (fun f => item (fst f) (many_lines leaf (snd f))) fields) ++ u)).
        { intros u Hu. rewrite <- EM. apply try_says, (fields_lines _ _ _ u HF false Hu). }
        destruct fields as [|f fields].
        -- eapply says_eq; [apply E; apply try_says, dots_lines, emit_says|]. cbn [many_lines map app lines flat_map]. rewrite <- ?app_assoc. reflexivity.
        -- eapply says_eq; [apply E; apply dots_lines, emit_says|]. cbn [many_lines map]. unfold item. rewrite <- ?app_assoc. reflexivity.
    + assert (E : forall k u, says (k (match map (fun f => (fst f, debug_std (snd f) fl)) fields with [] => false | _ => true end)) u ->
          says (emit_try name (struct_fields false false (map (fun f => (fst f, debug_std (snd f) fl)) fields) k))
            (name ++ seps false (map (fun f => item (fst f) (one_line leaf (snd f))) fields) ++ u)).
      { intros k u Hu. rewrite <- EM. apply try_says, (fields_line _ _ _ u HF false Hu). }
      cbn [one_line]. rewrite seps_join in E. destruct ex.
      * rewrite app_nil_r. destruct fields as [|f fields].
        -- eapply says_eq; [apply (E (struct_finish false) []); now split|]. reflexivity.
        -- eapply says_eq; [apply (E (struct_finish false) (lit " }")); apply emit_says|]. cbn [map]. unfold item. rewrite <- ?app_assoc. reflexivity.
      * destruct fields as [|f fields].
        -- eapply says_eq; [apply (E (struct_finish_dots false) (lit " { .. }")); apply emit_says|]. reflexivity.
        -- eapply says_eq; [apply (E (struct_finish_dots false) (lit ", .. }")); apply emit_says|]. cbn [map].
           cbn [app]. fold (item (fst f) (one_line leaf (snd f))).
           change (fun f0 : str * dbg => fst f0 ++ lit ": " ++ one_line leaf (snd f0)) with (fun f0 : str * dbg => item (fst f0) (one_line leaf (snd f0))).
           rewrite (app_comm_cons _ [lit ".."] (item (fst f) (one_line leaf (snd f)))), join_app. cbn [app]. rewrite <- ?app_assoc. reflexivity.
  - specialize (G l IH HL). cbn [debug_std]. unfold debug_tuple, lay in *.
    set (nl := match name with [] => true | _ => false end).
    assert (EL : length (map (fun x => debug_std x fl) l) = length l) by apply map_length.
    destruct (sf_alternate fl).
    + eapply says_eq; [apply try_says, (tuple_lines _ _ (tuple_finish true nl) (match l with [] => [] | _ => lit ")" end) G 0)|].
      * rewrite EL. destruct l as [|d l]; [now split|]. cbn. rewrite andb_false_r. apply emit_says.
      * cbn [many_lines]. destruct l as [|d l]; [cbn; now rewrite app_nil_r|]. cbn [map block]. rewrite <- ?app_assoc. reflexivity.
    + eapply says_eq; [apply try_says, (tuple_line _ _ (tuple_finish false nl)
          (match l with [] => [] | [_] => (if nl then lit "," else []) ++ lit ")" | _ => lit ")" end) G 0)|].
      * rewrite EL. destruct l as [|d [|d' l]]; [now split| |apply emit_says]. cbn. destruct nl; [apply (try_says (lit ",")), emit_says|apply emit_says].
      * cbn [one_line]. destruct l as [|d [|d' l]]; cbn [map join flat_map]; rewrite ?app_nil_r; [reflexivity| |rewrite <- ?app_assoc; reflexivity].
        unfold nl. destruct name; rewrite <- ?app_assoc; reflexivity.
  - specialize (G l IH HL). cbn [debug_std]. unfold debug_list, lay in *. destruct (sf_alternate fl).
    + eapply says_eq; [apply try_says, (inner_lines _ _ _ _ G (emit_says _) false)|].
      destruct l; cbn [many_lines map block lines flat_map]; rewrite <- ?app_assoc; reflexivity.
    + eapply says_eq; [apply try_says, (inner_line _ _ _ _ G (emit_says _) false)|]. reflexivity.
  - specialize (G l IH HL). cbn [debug_std]. unfold debug_set, lay in *. destruct (sf_alternate fl).
    + eapply says_eq; [apply try_says, (inner_lines _ _ _ _ G (emit_says _) false)|].
      destruct l; cbn [many_lines map block lines flat_map]; rewrite <- ?app_assoc; reflexivity.
    + eapply says_eq; [apply try_says, (inner_line _ _ _ _ G (emit_says _) false)|]. reflexivity.
  - apply Forall_flat in HL.
    assert (HF : Forall2 (fun e t => says (fst e) (fst t) /\ says (snd e) (snd t))
       (map (fun e : dbg * dbg => (debug_std (fst e) fl, debug_std (snd e) fl)) l)
       (map (fun e : dbg * dbg => (lay (fst e), lay (snd e))) l)).
    { apply (Forall2_maps _ _ _ _ _ _ IH HL). intros e [H1 H2] H. apply Forall_app in H as [H3 H4]. cbn. auto. }
    assert (EC : flat_map (fun e => [MKey (fst e); MValue (snd e)]) (map (fun e : dbg * dbg => (debug_std (fst e) fl, debug_std (snd e) fl)) l)
       = flat_map (fun e => [MKey (debug_std (fst e) fl); MValue (debug_std (snd e) fl)]) l) by (rewrite flat_map_map; reflexivity).
    cbn [debug_std]. unfold debug_map. rewrite <- EC. unfold lay in *. destruct (sf_alternate fl).
    + eapply says_eq; [apply try_says, (map_lines _ _ HF false)|]. cbn [many_lines]. rewrite map_map.
      destruct l; cbn [map block]; unfold item; rewrite <- ?app_assoc; reflexivity.
    + eapply says_eq; [apply try_says, (map_line _ _ HF false)|]. cbn [one_line]. rewrite map_map. reflexivity.
Qed.

(** * Failures *)
Definition orelse (o o' : outcome) : outcome := match o with Returned Ok => o' | _ => o end.
Lemma first_failure_app a b : first_failure (a ++ b) = orelse (first_failure a) (first_failure b).
Proof. induction a as [|[[]|c] a IH]; cbn; auto. Qed.
Lemma first_failure_ok l : Forall (fun o => o = Returned Ok) l <-> first_failure l = Returned Ok.
Proof.
  induction l as [|o l IH]; cbn; [split; [reflexivity|constructor]|]. split.
  - intros H. inversion H; subst. now apply IH.
  - destruct o as [[]|c]; intros H; try discriminate H. constructor; [reflexivity|now apply IH].
Qed.
Lemma orelse_ok o : orelse o (Returned Ok) = o.
Proof. destruct o as [[]|]; reflexivity. Qed.
Lemma orelse_assoc a b c : orelse (orelse a b) c = orelse a (orelse b c).
Proof. destruct a as [[]|]; reflexivity. Qed.
Lemma then_result p q : std_outcome (sprog_then p q) = orelse (std_outcome p) (std_outcome q).
Proof. rewrite then_outcome. now destruct (std_outcome p) as [[]|]. Qed.
Lemma indented_result p k : std_outcome (indented p k) = orelse (std_outcome p) (std_outcome k).
Proof. rewrite indented_outcome. now destruct (std_outcome p) as [[]|]. Qed.
Lemma comma_result p : std_outcome (sprog_then p comma_line) = std_outcome p.
Proof. rewrite then_result. apply orelse_ok. Qed.
Definition outcomes (ps : list sprog) : outcome := first_failure (map std_outcome ps).
Lemma outcomes_cons p ps : outcomes (p :: ps) = orelse (std_outcome p) (outcomes ps).
Proof. unfold outcomes. cbn. now destruct (std_outcome p) as [[]|]. Qed.
Lemma outcomes_app a b : outcomes (a ++ b) = orelse (outcomes a) (outcomes b).
Proof. unfold outcomes. now rewrite map_app, first_failure_app. Qed.

Lemma fields_result pretty k : (forall b, std_outcome (k b) = Returned Ok) -> forall l has,
  std_outcome (struct_fields pretty has l k) = outcomes (map snd l).
Proof.
  intros Hk. induction l as [|[n p] l IH]; intros has; [apply Hk|].
  cbn [struct_fields map snd]. rewrite outcomes_cons, <- (IH true). unfold struct_field.
  destruct pretty; [destruct has; cbn [emit_try std_outcome]; rewrite indented_result; cbn [emit_try std_outcome]; now rewrite comma_result|].
  cbn [emit_try std_outcome]. apply then_result.
Qed.
Lemma tuple_result pretty k : (forall b, std_outcome (k b) = Returned Ok) -> forall l n,
  std_outcome (tuple_fields pretty n l k) = outcomes l.
Proof.
  intros Hk. induction l as [|p l IH]; intros n; [apply Hk|].
  cbn [tuple_fields]. rewrite outcomes_cons, <- (IH (S n)). unfold tuple_field.
  destruct pretty; [destruct n; cbn [emit_try std_outcome]; rewrite indented_result; now rewrite comma_result|].
  cbn [emit_try std_outcome]. apply then_result.
Qed.
Lemma inner_result pretty k : std_outcome k = Returned Ok -> forall l has,
  std_outcome (inner_entries pretty has l k) = outcomes l.
Proof.
  intros Hk. induction l as [|p l IH]; intros has; [apply Hk|].
  cbn [inner_entries]. rewrite outcomes_cons, <- (IH true). unfold inner_entry.
  destruct pretty; [destruct has; cbn [emit_try std_outcome]; rewrite indented_result; now rewrite comma_result|].
  destruct has; cbn [emit_try std_outcome]; apply then_result.
Qed.
Lemma adapter_res on p k o : (forall on, std_outcome (k on) = o) -> std_outcome (pad_adapter on p k) = orelse (std_outcome p) o.
Proof. intros H. rewrite adapter_result, H. now destruct (std_outcome p) as [[]|]. Qed.
(** One call of [key] or [value]. *)
Lemma map_result pretty l : forall has has_key on,
  std_outcome (map_calls pretty has has_key on l)
  = match l with
    | [] => if has_key then Crashed Panic else Returned Ok
    | MKey p :: r => if has_key then Crashed Panic else orelse (std_outcome p) (std_outcome (map_calls pretty has true on r))
    | MValue p :: r => if has_key then orelse (std_outcome p) (std_outcome (map_calls pretty true false on r)) else Crashed Panic
    end.
Proof.
  assert (N : forall l has has' has_key on on', std_outcome (map_calls pretty has has_key on l) = std_outcome (map_calls pretty has' has_key on' l)).
  { clear l. induction l as [|[p|p] l IH]; intros has has' has_key on on'; cbn [map_calls]; [destruct has_key; reflexivity| |].
    - destruct has_key; [reflexivity|]. destruct pretty.
      + transitivity (orelse (std_outcome (sprog_then p (SEmit (lit ": ") SRet))) (std_outcome (map_calls true has true on l))).
        * destruct has; cbn [emit_try std_outcome]; apply adapter_res; intros; apply IH.
        * symmetry. destruct has'; cbn [emit_try std_outcome]; apply adapter_res; intros; apply IH.
      + destruct has, has'; cbn [emit_try std_outcome]; rewrite !then_result; cbn [emit_try std_outcome]; f_equal; apply IH.
    - destruct has_key; cbn [negb]; [|reflexivity]. destruct pretty.
      + transitivity (orelse (std_outcome (sprog_then p comma_line)) (std_outcome (map_calls true true false on l))).
        * apply adapter_res; intros; apply IH.
        * symmetry. apply adapter_res; intros; apply IH.
      + rewrite !then_result. f_equal. apply IH. }
  intros has has_key on. destruct l as [|[p|p] l]; cbn [map_calls]; [destruct has_key; reflexivity| |].
  - destruct has_key; [reflexivity|]. destruct pretty.
    + assert (E : std_outcome (pad_adapter true (sprog_then p (SEmit (lit ": ") SRet)) (fun on => map_calls true has true on l))
        = orelse (std_outcome p) (std_outcome (map_calls true has true on l))).
      { rewrite (adapter_res _ _ _ (std_outcome (map_calls true has true on l))); [|intros; apply N].
        rewrite then_result. cbn [std_outcome]. now rewrite orelse_ok. }
      destruct has; exact E.
    + destruct has; cbn [emit_try std_outcome]; rewrite then_result; reflexivity.
  - destruct has_key; cbn [negb]; [|reflexivity]. destruct pretty.
    + rewrite (adapter_res _ _ _ (std_outcome (map_calls true true false on l))); [|intros; apply N].
      now rewrite comma_result.
    + now rewrite then_result.
Qed.
Lemma entries_result pretty (es : list (sprog * sprog)) : forall has on,
  std_outcome (map_calls pretty has false on (flat_map (fun e => [MKey (fst e); MValue (snd e)]) es))
  = outcomes (flat_map (fun e => [fst e; snd e]) es).
Proof.
  induction es as [|[p q] es IH]; intros has on; cbn [flat_map app fst snd]; [reflexivity|].
  rewrite map_result, map_result, !outcomes_cons. now rewrite IH.
Qed.
Lemma in_turns_spec l : ((exists es, l = flat_map (fun e => [MKey (fst e); MValue (snd e)]) es) <-> in_turns l).
Proof.
  split.
  - intros [es ->]. induction es as [|[p q] es IH]; cbn; now constructor.
  - induction 1 as [|k v r H [es ->]]; [now exists []|]. now exists ((k, v) :: es).
Qed.
Lemma calls_panic pretty l : Forall (fun c => std_outcome (call_code c) = Returned Ok) l ->
  forall has on,
  (in_turns l <-> std_outcome (map_calls pretty has false on l) = Returned Ok) /\
  (~ in_turns l -> std_outcome (map_calls pretty has false on l) = Crashed Panic).
Proof.
  intros H. remember (length l) as n eqn:En. revert l En H. induction n as [n IH] using lt_wf_ind. intros l -> H has on.
  rewrite map_result. destruct l as [|[p|p] l].
  - split; [split; [reflexivity|constructor]|]. intros Hn. exfalso. apply Hn. constructor.
  - inversion H as [|? ? Hp Hl]; subst. cbn [call_code] in Hp. rewrite Hp. cbn [orelse]. rewrite map_result.
    destruct l as [|[q|q] l].
    + split; [|reflexivity]. split; [intros T; inversion T|discriminate].
    + split; [|reflexivity]. split; [intros T; inversion T|discriminate].
    + inversion Hl as [|? ? Hq Hr]; subst. cbn [call_code] in Hq. rewrite Hq. cbn [orelse].
      assert (Hlt : length l < length (MKey p :: MValue q :: l)) by (cbn; lia).
      destruct (IH _ Hlt l eq_refl Hr true on) as [I1 I2]. split.
      * rewrite <- I1. split; [intros T; now inversion T|now constructor].
      * intros Hn. apply I2. intros T. apply Hn. now constructor.
  - split; [|reflexivity]. split; [intros T; inversion T|discriminate].
Qed.

Lemma debug_result fl d : std_outcome (debug_std d fl) = first_failure (map (fun v => std_outcome (v fl)) (leaves d)).
Proof.
  assert (G : forall l : list dbg, Forall (fun d => std_outcome (debug_std d fl) = first_failure (map (fun v => std_outcome (v fl)) (leaves d))) l ->
     outcomes (map (fun x => debug_std x fl) l) = first_failure (map (fun v => std_outcome (v fl)) (flat_map leaves l))).
  { induction 1 as [|d0 l Hd Hl I]; [reflexivity|]. cbn [map flat_map]. rewrite outcomes_cons, Hd, I, map_app, first_failure_app.
    reflexivity. }
  induction d as [v|name fields ex IH|name l IH|l IH|l IH|l IH] using dbg_rect'; cbn [debug_std leaves].
  - cbn. now destruct (std_outcome (v fl)) as [[]|].
  - unfold debug_struct. cbn [emit_try std_outcome]. rewrite fields_result.
    + rewrite map_map. cbn [snd]. rewrite <- (map_map snd (fun x => debug_std x fl)), G; [|now apply Forall_map].
      now rewrite flat_map_map.
    + intros b. destruct ex, b; try reflexivity; unfold struct_finish_dots; destruct (sf_alternate fl); reflexivity.
  - unfold debug_tuple. cbn [emit_try std_outcome]. rewrite tuple_result; [now apply G|].
    intros [|m]; [reflexivity|]. cbn [tuple_finish]. now destruct (_ && _).
  - unfold debug_list. cbn [emit_try std_outcome]. rewrite inner_result; [now apply G|reflexivity].
  - unfold debug_set. cbn [emit_try std_outcome]. rewrite inner_result; [now apply G|reflexivity].
  - unfold debug_map. cbn [emit_try std_outcome].
    rewrite <- (flat_map_map (fun e => [MKey (fst e); MValue (snd e)]) (fun e : dbg * dbg => (debug_std (fst e) fl, debug_std (snd e) fl))).
    rewrite entries_result, flat_map_map. cbn [fst snd].
    induction IH as [|[a b] l [Ha Hb] Hl I]; [reflexivity|]. cbn [flat_map app fst snd] in *.
    rewrite !outcomes_cons, I, Ha, Hb, !map_app, !first_failure_app, <- orelse_assoc.
    reflexivity.
Qed.

Lemma prop_struct pretty k : (forall b, std_propagates (k b)) -> forall l has,
  Forall (fun f => std_propagates (snd f)) l -> std_propagates (struct_fields pretty has l k).
Proof.
  intros Hk. induction l as [|[n p] l IH]; intros has HF; [apply Hk|]. inversion HF as [|? ? Hp Hl]; subst.
  cbn [struct_fields]. unfold struct_field.
  assert (H1 : std_propagates (indented (emit_try n (emit_try (lit ": ") (sprog_then p comma_line))) (struct_fields pretty true l k))).
  { apply prop_adapter; [|intros _; now apply IH]. apply prop_try, prop_try, prop_then; [exact Hp|apply prop_emit]. }
  destruct pretty; [destruct has; [exact H1|apply prop_try; exact H1]|].
  apply prop_try, prop_try, prop_try, prop_then; [exact Hp|now apply IH].
Qed.
Lemma prop_tuple pretty k : (forall b, std_propagates (k b)) -> forall l n,
  Forall std_propagates l -> std_propagates (tuple_fields pretty n l k).
Proof.
  intros Hk. induction l as [|p l IH]; intros n HF; [apply Hk|]. inversion HF as [|? ? Hp Hl]; subst.
  cbn [tuple_fields]. unfold tuple_field.
  assert (H1 : std_propagates (indented (sprog_then p comma_line) (tuple_fields pretty (S n) l k))).
  { apply prop_adapter; [|intros _; now apply IH]. apply prop_then; [exact Hp|apply prop_emit]. }
  destruct pretty; [destruct n; [apply prop_try; exact H1|exact H1]|].
  apply prop_try, prop_then; [exact Hp|now apply IH].
Qed.
Lemma prop_inner pretty k : std_propagates k -> forall l has,
  Forall std_propagates l -> std_propagates (inner_entries pretty has l k).
Proof.
  intros Hk. induction l as [|p l IH]; intros has HF; [apply Hk|]. inversion HF as [|? ? Hp Hl]; subst.
  cbn [inner_entries]. unfold inner_entry.
  assert (H1 : std_propagates (indented (sprog_then p comma_line) (inner_entries pretty true l k))).
  { apply prop_adapter; [|intros _; now apply IH]. apply prop_then; [exact Hp|apply prop_emit]. }
  assert (H2 : std_propagates (sprog_then p (inner_entries pretty true l k))) by (apply prop_then; [exact Hp|now apply IH]).
  destruct pretty, has; [exact H1|apply prop_try; exact H1|apply prop_try; exact H2|exact H2].
Qed.
Lemma prop_map pretty l : Forall (fun c => std_propagates (call_code c)) l -> forall has has_key on,
  std_propagates (map_calls pretty has has_key on l).
Proof.
  induction 1 as [|[p|p] l Hp Hl IH]; intros has has_key on; cbn [map_calls call_code] in *.
  - destruct has_key; [exact I|apply prop_emit].
  - destruct has_key; [exact I|]. destruct pretty.
    + assert (H1 : std_propagates (pad_adapter true (sprog_then p (SEmit (lit ": ") SRet)) (fun on => map_calls true has true on l))).
      { apply prop_adapter; [|intros; apply IH]. apply prop_then; [exact Hp|apply prop_emit]. }
      destruct has; [exact H1|apply prop_try; exact H1].
    + assert (H1 : std_propagates (sprog_then p (emit_try (lit ": ") (map_calls false has true on l)))).
      { apply prop_then; [exact Hp|]. apply prop_try, IH. }
      destruct has; [apply prop_try|]; exact H1.
  - destruct has_key; cbn [negb]; [|exact I]. destruct pretty.
    + apply prop_adapter; [|intros; apply IH]. apply prop_then; [exact Hp|apply prop_emit].
    + apply prop_then; [exact Hp|apply IH].
Qed.
Lemma prop_debug fl d : Forall (fun v : std_display => std_propagates (v fl)) (leaves d) -> std_propagates (debug_std d fl).
Proof.
  assert (G : forall l : list dbg, Forall (fun d => Forall (fun v : std_display => std_propagates (v fl)) (leaves d) -> std_propagates (debug_std d fl)) l ->
     Forall (fun v : std_display => std_propagates (v fl)) (flat_map leaves l) ->
     Forall std_propagates (map (fun x => debug_std x fl) l)).
  { intros l HI HL. apply Forall_flat in HL. induction l; inversion HI; inversion HL; subst; constructor; auto. }
  induction d as [v|name fields ex IH|name l IH|l IH|l IH|l IH] using dbg_rect'; cbn [debug_std leaves]; intros HL.
  - now inversion HL.
  - apply prop_try, prop_struct.
    + assert (HD : std_propagates (indented (SEmit (lit ".." ++ [10%N]) SRet) (SEmit (lit "}") SRet)))
        by (apply prop_adapter; [apply prop_emit|intros; apply prop_emit]).
      intros b. destruct ex; [destruct b; [apply prop_emit|exact I]|]. unfold struct_finish_dots.
      destruct (sf_alternate fl); [|apply prop_emit]. destruct b; [exact HD|apply prop_try; exact HD].
    + apply Forall_flat in HL. apply Forall_map. induction fields; inversion IH; inversion HL; subst; constructor; auto.
  - apply prop_try, prop_tuple; [|now apply G]. intros [|m]; [exact I|]. cbn [tuple_finish].
    destruct (_ && _); [apply prop_try|]; apply prop_emit.
  - apply prop_try, prop_inner; [apply prop_emit|now apply G].
  - apply prop_try, prop_inner; [apply prop_emit|now apply G].
  - apply prop_try, prop_map. apply Forall_flat in HL. apply Forall_forall. intros c Hc. apply in_flat_map in Hc as (e & He & Hc).
    rewrite Forall_forall in IH, HL. destruct (IH e He) as [I1 I2]. specialize (HL e He). cbn beta in HL.
    apply Forall_app in HL as [L1 L2]. destruct Hc as [<-|[<-|[]]]; cbn [call_code]; auto.
Qed.

(** * The theorems *)
Section Xid.
Variables xid_start xid_continue : char -> bool.
Hypothesis xid : xid_ok xid_start xid_continue.
Notation macro := (format_args_impl xid_start xid_continue).

(** C85: a value whose Debug implementation uses the builders (every derived one does), nested to
    any depth, shown with a Debug placeholder with any flags and attributes: the plain text is
    the documented layout of the texts its leaves give for these flags, on one line or, with
    '#', indented on several, and all of it has the placeholder's style. *)
Theorem C85_layout {H} (sp : format_spec) (text : str) (d : dbg) (scope : str -> value_t) (h : H) :
  spec_spelled xid_start xid_continue sp text -> text <> [] -> fs_trait sp = FDebug ->
  literal_count (pa_width (fs_args sp)) -> literal_count (pa_precision (fs_args sp)) ->
  let flags := std_flags_of (spelled_flags (fs_args sp)) (fa_debug_hex (spelled_flags (fs_args sp))) in
  let leaf := fun v : std_display => concat (std_events (v flags)) in
  let out := if pa_alternate (fs_args sp) then many_lines leaf d else one_line leaf d in
  Forall (fun v => std_outcome (v flags) = Returned Ok) (leaves d) ->
  exists c args, macro (lit "{:" ++ text ++ lit "}") [fun h : H => (h, Some (dbg_value d))] [] = Expanded c /\
    eval_code scope c h = (h, Some args) /\
    plain_format args = Value out /\
    produces (args formatter_new) = paint (override (fs_style sp) style_default) out.
Proof.
  intros Hsp Hne Ht Hw Hpr flags leaf out HL. set (fl := spelled_flags (fs_args sp)) in *.
  assert (HS : says (debug_std d flags) out).
  { assert (HL' : Forall (fun v => says (v flags) (leaf v)) (leaves d)).
    { eapply Forall_impl; [|exact HL]. intros v Hv. now split. }
    pose proof (debug_says flags leaf d HL') as HD. change (sf_alternate flags) with (pa_alternate (fs_args sp)) in HD.
    unfold out. destruct (pa_alternate (fs_args sp)); exact HD. }
  destruct HS as [Ho He].
  assert (HT : trait_code (fs_trait sp) (dbg_value d) (mk_formatter (override (fs_style sp) style_default) fl)
     = through_proxy (mk_formatter (override (fs_style sp) style_default) fl) (v_std (dbg_value d) TDebug flags)).
  { rewrite Ht. cbn [trait_code fm_format]. unfold flags. destruct (fa_debug_hex fl) as [[|]|]; reflexivity. }
  destruct (shown_text xid_start xid_continue xid sp text (dbg_value d) (eq out) scope h TDebug (fa_debug_hex fl) Hsp Hne Hw Hpr HT Ho (eq_sym He))
    as (c & args & o & H1 & H2 & <- & H4 & H5).
  exists c, args. auto.
Qed.

(** C85: it returns what its first leaf that does not succeed returns (an error, a panic), and
    succeeds if there is none. *)
Theorem C85_failure (d : dbg) (f : formatter) :
  let flags := std_flags_of (fm_format f) (fa_debug_hex (fm_format f)) in
  ok_outcome (trait_code FDebug (dbg_value d) f) = first_failure (map (fun v => std_outcome (v flags)) (leaves d)).
Proof.
  intros flags. rewrite <- debug_result.
  assert (HT : trait_code FDebug (dbg_value d) f = through_proxy f (debug_std d flags)).
  { cbn [trait_code]. unfold flags. destruct (fa_debug_hex (fm_format f)) as [[|]|]; reflexivity. }
  rewrite HT. apply through_proxy_outcome.
Qed.

(** C85: a sink's error stops it: if the leaves pass errors on, so does the whole value (C26). *)
Theorem C85_errors (d : dbg) :
  Forall (fun v => forall fl, std_propagates (v fl)) (leaves d) -> value_propagates (dbg_value d).
Proof.
  intros HL.
  assert (G : forall v, (forall t fl, std_propagates (v_std v t fl)) -> (forall f, propagates (v_stylish v f)) -> value_propagates v).
  { intros v Hv Hs t f. destruct t; try apply Hs; apply through_proxy_propagates, Hv. }
  apply G; [|intros f; exact I]. intros t fl. destruct t; try exact I. cbn [v_std dbg_value]. apply prop_debug.
  eapply Forall_impl; [|exact HL]. intros v Hv. apply Hv.
Qed.

(** C85: [DebugMap] used by calls of key and value in any order: it succeeds if and only if they
    come in turns, and panics otherwise. *)
Theorem C85_map_calls (pretty : bool) (calls : list map_call) :
  Forall (fun c => std_outcome (call_code c) = Returned Ok) calls ->
  (std_outcome (debug_map pretty calls) = Returned Ok <-> in_turns calls) /\
  (std_outcome (debug_map pretty calls) = Crashed Panic <-> ~ in_turns calls).
Proof.
  intros H. change (std_outcome (debug_map pretty calls)) with (std_outcome (map_calls pretty false false true calls)).
  destruct (calls_panic pretty calls H false true) as [H1 H2]. split; [now split; apply H1|]. split; [|exact H2].
  intros E T. apply H1 in T. congruence.
Qed.
End Xid.
Print Assumptions C85_layout.
Print Assumptions C85_failure.
Print Assumptions C85_errors.
Print Assumptions C85_map_calls.

(** A spelling with flags, and a nested value with a failing leaf or not. *)
Definition sample_dbg : dbg :=
  DStruct (lit "Foo") [(lit "bar", DLeaf (int_std 32 1024 TDebug));
    (lit "baz", DMap [(DTuple [] [DLeaf (int_std 32 7 TDebug)], DList [DUnit (lit "A" ++ [10%N] ++ lit "B"); DSet []])])] false.
Example C85_nonvacuous :
  spec_spelled ascii_start ascii_continue
    (mk_spec (mk_pfargs None None true true (Some (CInt 3)) None None) diff_default FDebug) (lit "#03?") /\
  match call false (lit "{:03?}|{:#03?}") [logging 0 (dbg_value sample_dbg); logging 1 (dbg_value sample_dbg)] [] with
  | Some (_, args) => plain_format args | None => Crash Panic end
  = Value (lit "Foo { bar: 1024, baz: {(007,): [A" ++ [10%N] ++ lit "B, {}]}, .. }|Foo {" ++ [10%N] ++
      lit "    bar: 1024," ++ [10%N] ++ lit "    baz: {" ++ [10%N] ++
      lit "        (" ++ [10%N] ++ lit "            007," ++ [10%N] ++
      lit "        ): [" ++ [10%N] ++ lit "            A" ++ [10%N] ++ lit "            B," ++ [10%N] ++
      lit "            {}," ++ [10%N] ++ lit "        ]," ++ [10%N] ++
      lit "    }," ++ [10%N] ++ lit "    .." ++ [10%N] ++ lit "}").
Proof.
  split; [|vm_compute; reflexivity].
  refine (spec_intro ascii_start ascii_continue None None true true (Some (CInt 3)) None None
            (kept_settings []) FDebug [] [] (lit "#") (lit "0") (lit "3") [] [] (lit "?")
            _ _ eq_refl eq_refl _ _ _ _ _); try constructor.
  all: try discriminate.
  constructor. split; [|reflexivity]. exact (dec_one 51%N eq_refl).
Qed.
Example C85_failure_nonvacuous :
  first_failure (map (fun v => std_outcome (v (std_flags_of fargs_default None)))
    (leaves (DList [DUnit (lit "a"); DTuple (lit "b") [DLeaf (fun _ => SRet Err)]; DLeaf (fun _ => SAbort Panic)]))) = Returned Err.
Proof. reflexivity. Qed.
Example C85_map_calls_nonvacuous :
  in_turns [MKey (SRet Ok); MValue (SRet Ok)] /\ ~ in_turns [MKey (SRet Ok); MKey (SRet Ok)] /\
  std_outcome (debug_map true [MKey (SRet Ok)]) = Crashed Panic.
Proof. repeat split; [repeat constructor|intros H; inversion H]. Qed.
