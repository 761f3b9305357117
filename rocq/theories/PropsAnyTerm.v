(** Property C92: ANSI output on terminals of any kind. *)
From Verif Require Import Base Style Fmt Plain Ansi Io StdIo Lib SpecText TextFacts StyleFacts SpecTerminal AnsiFacts
  SpecSink RetryFacts SpecUtf8 Utf8Facts SpecIo IoFacts SpecSession PropsSession PropsRetry PropsMore PropsRecover
  PropsAnsi SpecLines PropsLines Shared SpecShared PropsShared SpecResume SpecAnyTerm AnyTermFacts ResumeFacts.

Section AnyTerminal.
Context {R : Type} (sgr : N -> R -> R) (look : style -> R) (allowed : intensity -> Prop).

(** Streams of style changes and text. *)
Inductive made : str -> Prop :=
  | md_nil : made []
  | md_esc a b o : allowed (intens b) -> made o -> made (esc a b ++ o)
  | md_text s o : no_controls s -> made o -> made (s ++ o).
Lemma made_app a b : made a -> made b -> made (a ++ b).
Proof.
  induction 1; intros Hb; cbn [app]; [exact Hb|rewrite <- app_assoc; apply md_esc; auto|rewrite <- app_assoc; apply md_text; auto].
Qed.
Lemma made_one a b : allowed (intens b) -> made (esc a b).
Proof. intros H. rewrite <- (app_nil_r (esc a b)). apply md_esc; [exact H|constructor]. Qed.
Lemma made_render t : forall cur, no_controls (chars t) -> all_within allowed t -> made (ansi_render cur t).
Proof.
  induction t as [|[c st] t IH]; intros cur Hn Ht; cbn [ansi_render]; [constructor|].
  inversion Hn; subst. inversion Ht; subst. apply md_esc; [assumption|].
  change (c :: ansi_render st t) with ([c] ++ ansi_render st t). apply md_text; [|now apply IH].
  constructor; [assumption|constructor].
Qed.

Hypothesis Hu : understands sgr look allowed.
Lemma made_feed o : made o -> forall s, allowed (intens s) -> exists s' new, allowed (intens s') /\
  (forall screen, term_feed sgr_style (mk_term Ground s screen) o = mk_term Ground s' (screen ++ new)) /\
  (forall screen, term_feed sgr (mk_term Ground (look s) screen) o = mk_term Ground (look s') (screen ++ seen look new)).
Proof.
  induction 1 as [|a b o Hb _ IH|t o Ht _ IH]; intros s Hs.
  - exists s, []. split; [exact Hs|]. split; intros screen; cbn; now rewrite app_nil_r.
  - destruct (IH (fold_left (fun r n => sgr_style n r) (esc_codes a b) s)) as (s' & new & A & B & C).
    { apply (fold_look sgr look allowed Hu); [now apply (codes_known sgr look allowed Hu)|exact Hs]. }
    exists s', new. split; [exact A|]. split; intros screen; rewrite feed_app, feed_esc.
    + apply B.
    + rewrite (esc_look sgr look allowed Hu) by assumption. apply C.
  - destruct (IH s Hs) as (s' & new & A & B & C). exists s', (paint s t ++ new). split; [exact A|].
    split; intros screen; rewrite feed_app, feed_text by exact Ht.
    + rewrite B, app_assoc. reflexivity.
    + rewrite C, seen_app, app_assoc. unfold seen at 2, paint. rewrite map_map. reflexivity.
Qed.
Lemma made_shown o : made o -> term_feed sgr (fresh_term look) o = shown_as look (term_feed sgr_style term_new o).
Proof.
  intros H. destruct (made_feed o H style_default (proj1 Hu)) as (s' & new & _ & B & C).
  change term_new with (mk_term Ground style_default ([] : stext)). unfold fresh_term. rewrite B, C. reflexivity.
Qed.
Lemma made_finished h : no_controls (text_of h) -> within allowed h -> made (ansi_finished h).
Proof.
  intros Hn Hw. rewrite ansi_finished_eq. apply made_app; [|apply made_one; exact (proj1 Hu)].
  apply made_render; [now rewrite chars_denote|now apply within_denote].
Qed.
Lemma made_concat l : Forall made l -> made (concat l).
Proof. induction 1; cbn [concat]; [constructor|now apply made_app]. Qed.
End AnyTerminal.

(** C92: any history of writes in styles that the terminal understands, on a terminal of any kind:
    every character is shown as its style should look there and the default look is back at the
    end. *)
Theorem C92_text {R} (sgr : N -> R -> R) (look : style -> R) (allowed : intensity -> Prop) (h : history) :
  understands sgr look allowed -> within allowed h -> no_controls (text_of h) ->
  term_feed sgr (fresh_term look) (ansi_finished h) = mk_term Ground (look style_default) (seen look (denote h)) /\
  term_feed sgr (fresh_term look) (ansi_unfinished h)
  = mk_term Ground (look (last_style style_default (denote h))) (seen look (denote h)).
Proof.
  intros Hu Hw Hn.
  assert (E : term_feed sgr (fresh_term look) (ansi_unfinished h)
    = mk_term Ground (look (last_style style_default (denote h))) (seen look (denote h))).
  { rewrite ansi_unfinished_eq. apply (render_seen sgr look allowed Hu (denote h) style_default []).
    - now rewrite chars_denote.
    - exact (proj1 Hu).
    - now apply within_denote. }
  split; [|exact E]. rewrite ansi_finished_eq, feed_app, <- ansi_unfinished_eq, E.
  apply (esc_ready sgr look allowed Hu). apply ready_at; [|exact (proj1 Hu)].
  apply last_within; [exact (proj1 Hu)|now apply within_denote].
Qed.
Print Assumptions C92_text.

(** C92: any number of finished outputs one after another. *)
Theorem C92_concat {R} (sgr : N -> R -> R) (look : style -> R) (allowed : intensity -> Prop) (hs : list history) :
  understands sgr look allowed -> Forall (within allowed) hs -> Forall (fun h => no_controls (text_of h)) hs ->
  term_feed sgr (fresh_term look) (concat (map ansi_finished hs))
  = mk_term Ground (look style_default) (seen look (concat (map denote hs))).
Proof.
  intros Hu Hw Hn. rewrite (made_shown sgr look allowed Hu).
  - rewrite C61_ansi_concat by exact Hn. reflexivity.
  - apply made_concat. apply Forall_forall. intros o Ho. apply in_map_iff in Ho as (h & <- & Hh).
    rewrite Forall_forall in Hw, Hn. apply (made_finished sgr look allowed Hu); auto.
Qed.
Print Assumptions C92_concat.

Lemma pieces_cells s t x : In x (pieces s t) -> forall c, In c (p_line x) -> In c t.
Proof.
  revert s x. induction t as [|[c st] t IH]; intros s x Hx c0 Hc; cbn [pieces] in Hx.
  - destruct Hx as [<-|[]]. destruct Hc.
  - destruct (is_newline c).
    + destruct Hx as [<-|Hx]; [destruct Hc|]. right. now apply (IH st x Hx).
    + destruct (pieces_cons st t) as (l & e & ps & E). specialize (IH st). rewrite E in *. destruct Hx as [<-|Hx].
      * destruct Hc as [Hc|Hc]; [now left|]. right. apply (IH (st, l, e) (or_introl eq_refl)). exact Hc.
      * right. apply (IH x (or_intror Hx)). exact Hc.
Qed.
(** C92: any selection of the lines of the output (grep, head, sort), if newlines are written in the
    default style. *)
Theorem C92_select {R} (sgr : N -> R -> R) (look : style -> R) (allowed : intensity -> Prop) (h : history) (ks : list nat) :
  understands sgr look allowed -> within allowed h -> no_controls (text_of h) -> plain_newlines (denote h) ->
  term_feed sgr (fresh_term look) (pick newline (lines (ansi_finished h)) ks)
  = mk_term Ground (look style_default) (seen look (pick (newline, style_default) (styled_lines (denote h)) ks)).
Proof.
  intros Hu Hw Hn Hp. rewrite (made_shown sgr look allowed Hu).
  - rewrite C83_select by assumption. reflexivity.
  - assert (PL : Forall (made allowed) (lines (ansi_finished h))).
    { rewrite finished_lines. apply Forall_forall. intros o Ho. apply in_map_iff in Ho as (x & <- & Hx). unfold out_line.
      pose proof (proj1 (Forall_forall _ _) (plain_pieces _ Hp) x Hx) as [-> ->].
      apply made_app; [|apply made_one; exact (proj1 Hu)]. apply made_render.
      - apply Forall_forall. intros c Hin. apply (pieces_chars _ _ _ Hx) in Hin.
        rewrite chars_denote in Hin. unfold no_controls in Hn. rewrite Forall_forall in Hn. auto.
      - apply Forall_forall. intros cs Hin. apply (pieces_cells _ _ _ Hx) in Hin.
        apply within_denote in Hw. unfold all_within in Hw. rewrite Forall_forall in Hw. now apply Hw. }
    unfold pick. rewrite flat_map_concat_map. apply made_concat. apply Forall_forall. intros o Ho. apply in_map_iff in Ho as (k & <- & _).
    apply made_app.
    + destruct (nth_in_or_default k (lines (ansi_finished h)) []) as [H|H].
      * exact (proj1 (Forall_forall _ _) PL _ H).
      * match goal with |- made _ ?x => change x with (nth k (lines (ansi_finished h)) []) end. unfold str, char in *. rewrite H. constructor.
    + apply (md_text allowed [newline] []); [repeat constructor|constructor].
Qed.
Print Assumptions C92_select.

(** C92: several adaptors on one terminal, in any interleaving: it shows what a terminal that follows
    ECMA-48 would show, as it should look there; so if they take turns everything is shown right. *)
Theorem C92_shared {R} (sgr : N -> R -> R) (look : style -> R) (allowed : intensity -> Prop) (es : list event) :
  understands sgr look allowed -> within allowed (written es) -> no_controls (text_of (written es)) ->
  term_feed sgr (fresh_term look) (ansi_group es) = shown_as look (term_feed sgr_style term_new (ansi_group es)) /\
  (taking_turns es -> tm_screen (term_feed sgr (fresh_term look) (ansi_group es)) = seen look (denote (written es))) /\
  (all_back es -> tm_rend (term_feed sgr (fresh_term look) (ansi_group es)) = look style_default).
Proof.
  intros Hu Hw Hn.
  assert (E : term_feed sgr (fresh_term look) (ansi_group es) = shown_as look (term_feed sgr_style term_new (ansi_group es))).
  { apply (made_shown sgr look allowed Hu). revert Hw Hn. induction es as [|e es IH] using rev_ind; intros Hw Hn; [constructor|].
    destruct (written_controls _ _ Hn) as [Hn1 He]. unfold within in Hw. rewrite written_snoc in Hw. apply Forall_app in Hw as [Hw1 Hw2].
    destruct e as [k s st|k].
    - rewrite group_puts. apply made_app; [now apply IH|]. specialize (He k s st eq_refl). inversion Hw2; subst. cbn [snd] in *.
      destruct s as [|c s]; [constructor|]. apply md_esc; [assumption|]. rewrite <- (app_nil_r (c :: s)). apply md_text; [exact He|constructor].
    - rewrite group_finishes. apply made_app; [now apply IH|]. apply made_one. exact (proj1 Hu). }
  split; [exact E|]. rewrite E. unfold shown_as. cbn [tm_screen tm_rend]. split.
  - intros H. now rewrite C87_taking_turns.
  - intros H. f_equal. now apply C87_left_reset.
Qed.
Print Assumptions C92_shared.

(** C92: the sessions of C91, in which any call may fail and the caller goes on in the style of the
    failed call (or, where sinks stop short, in a style not used since the last success). *)
Theorem C92_failures {R} (sgr : N -> R -> R) (look : style -> R) (allowed : intensity -> Prop)
  {S} (sink : std_io S) (held : S -> bytes) (fuel : nat) (fresh : bool) (calls : list iocall)
  (s : S) (w : io_ansi S) (l : list (iocall * io_res nat)) :
  understands sgr look allowed -> honest sink held -> (fresh = true -> stops_short sink held) ->
  Forall call_regular calls -> Forall (fun c => Forall (fun st => allowed (intens st)) (call_styles c)) calls ->
  io_session (IoWrite_ansi fuel sink) calls (lib_io_ansi s) = (w, l) ->
  careful fresh style_default [] None l ->
  exists parts, Forall2 arrives l parts /\
    forall (s' : S) (h : history), io_ansi_finish sink w = (s', IoOk tt) ->
      map (fun e : str * style => (utf8 (fst e), snd e)) h = concat parts ->
      no_controls (text_of h) -> scalar_text (text_of h) ->
      exists out, held s' = held s ++ utf8 out /\
        term_feed sgr (fresh_term look) out = mk_term Ground (look style_default) (seen look (denote h)).
Proof.
  intros Hu Hh Hs Hc Hw. apply (resume_finish sgr look allowed Hu sink held fuel Hh fresh Hs).
  apply Forall_forall. intros c Hin. rewrite Forall_forall in Hc, Hw. split; [auto|exact (Hw c Hin)].
Qed.
Print Assumptions C92_failures.

Theorem C92_in_memory {R} (sgr : N -> R -> R) (look : style -> R) (allowed : intensity -> Prop)
  {S} (sink : fmt_sink S) (held : S -> str) (calls : list wcall) (i : S) :
  understands sgr look allowed -> atomic_fmt sink held -> held i = [] ->
  Forall wcall_regular calls -> Forall (fun c => Forall (fun st => allowed (intens st)) (wcall_styles c)) calls ->
  let (w, results) := session (Write_ansi sink) calls (lib_ansi i) in
  let log := combine calls results in
  wcareful style_default [] None log ->
  exists parts, Forall2 warrives log parts /\
    forall i', ansi_finish sink w = (i', Returned Ok) -> no_controls (text_of (concat parts)) ->
      term_feed sgr (fresh_term look) (held i')
      = mk_term Ground (look style_default) (seen look (denote (concat parts))).
Proof.
  intros Hu Ha H0 Hc Hw. apply (wresume_finish sgr look allowed Hu sink held Ha calls i H0).
  apply Forall_forall. intros c Hin. rewrite Forall_forall in Hc, Hw. split; [auto|exact (Hw c Hin)].
Qed.
Print Assumptions C92_in_memory.

(** C92: which terminals understand which styles: one that follows ECMA-48 all of them; one on which
    bold and faint are independent (xterm, VTE) all styles without faint, or all without bold; one without
    colors that has bold only; one with underlining and blinking that has no bright colors. *)
Theorem C92_terminals :
  understands sgr_style (fun s => s) (fun _ => True) /\
  understands sgr_xterm xterm_look (fun i => i <> Faint) /\
  understands sgr_xterm xterm_look (fun i => i <> Bold) /\
  understands sgr_mono mono_look (fun _ => True) /\
  understands sgr_rich rich_look (fun _ => True).
Proof.
  assert (X : forall n s, (intens s = Normal \/ intens (sgr_style n s) = Normal \/ intens (sgr_style n s) = intens s) ->
    sgr_xterm n (xterm_look s) = xterm_look (sgr_style n s)).
  { intros n [f b i]. unfold sgr_xterm, sgr_style. cbn [foreground background intens].
    destruct (N.eqb n 0); [reflexivity|].
    destruct (N.eqb n 1); [destruct i; cbn; intros [H|[H|H]]; solve [reflexivity|discriminate]|].
    destruct (N.eqb n 2); [destruct i; cbn; intros [H|[H|H]]; solve [reflexivity|discriminate]|].
    destruct (N.eqb n 22); [reflexivity|]. intros _.
    destruct (sgr_fg n); [reflexivity|]. destruct (sgr_bg n); reflexivity. }
  split; [|split; [|split; [|split]]].
  - split; [exact I|reflexivity].
  - split; [discriminate|]. intros n s _ H1 H2. apply X. destruct (intens s) eqn:E1; destruct (intens (sgr_style n s)) eqn:E2; auto; exfalso; congruence.
  - split; [discriminate|]. intros n s _ H1 H2. apply X. destruct (intens s) eqn:E1; destruct (intens (sgr_style n s)) eqn:E2; auto; exfalso; congruence.
  - split; [exact I|]. intros n [f b i] Hk _ _. unfold sgr_mono, sgr_style, mono_look. cbn [intens foreground background existsb].
    destruct (N.eqb_spec n 0) as [->|N0]; [reflexivity|]. destruct (N.eqb_spec n 1) as [->|N1]; [reflexivity|].
    destruct (N.eqb_spec n 2) as [->|N2]; [reflexivity|]. destruct (N.eqb_spec n 22) as [->|N3]; [reflexivity|]. cbn [orb].
    destruct (sgr_fg n); [reflexivity|]. destruct (sgr_bg n); reflexivity.
  - split; [exact I|]. intros n [f b i] Hk _ _. unfold sgr_rich, rich_look. cbn [fst snd].
    destruct (N.eqb_spec n 0) as [->|N0]; [reflexivity|].
    assert (NK : ~ In n [4; 24; 5; 25]%N).
    { intros H. cbn in H. destruct H as [<-|[<-|[<-|[<-|[]]]]]; destruct Hk as [Hk|[Hk|Hk]]; cbn in Hk; intuition congruence. }
    cbn in NK. destruct (N.eqb_spec n 4); [exfalso; intuition congruence|]. destruct (N.eqb_spec n 24); [exfalso; intuition congruence|].
    destruct (N.eqb_spec n 5); [exfalso; intuition congruence|]. destruct (N.eqb_spec n 25); [exfalso; intuition congruence|]. f_equal.
    unfold sgr_style. cbn [dim_style foreground background intens].
    assert (DD : forall c, dim_color (dim_color c) = dim_color c) by (intros []; reflexivity).
    destruct (N.eqb_spec n 0); [congruence|]. destruct (N.eqb n 1); [|destruct (N.eqb n 2); [|destruct (N.eqb n 22)]];
      try (unfold dim_style; cbn [foreground background intens]; now rewrite !DD).
    destruct (sgr_fg n); [|destruct (sgr_bg n)]; unfold dim_style; cbn [foreground background intens]; now rewrite !DD.
Qed.
Print Assumptions C92_terminals.

(** C92: there is no way for styles to look on xterm under which it understands all of them (see C14
    for what it shows then). *)
Theorem C92_xterm_not_both (look : style -> xrend) : ~ understands sgr_xterm look (fun _ => True).
Proof.
  intros [_ H].
  assert (K : forall n, In n [0; 1; 2; 22]%N -> forall s, sgr_xterm n (look s) = look (sgr_style n s)).
  { intros n Hn s. apply H; [left; exact Hn|exact I|exact I]. }
  pose proof (K 22%N ltac:(cbn; auto) style_default) as A. change (sgr_style 22 style_default) with style_default in A.
  pose proof (K 1%N ltac:(cbn; auto) style_default) as B.
  pose proof (K 2%N ltac:(cbn; auto) style_default) as C.
  pose proof (K 2%N ltac:(cbn; auto) (sgr_style 1 style_default)) as D.
  change (sgr_style 2 (sgr_style 1 style_default)) with (sgr_style 2 style_default) in D.
  rewrite <- B, <- C, <- A in D. cbn in D. discriminate.
Qed.
Print Assumptions C92_xterm_not_both.

(** Non-vacuity: on a real-world like terminal, a failed style change, then another style. *)
Example C92_nonvacuous :
  let red := mk_style Red ColorDefault Bold in let cyan := mk_style BrightCyan Blue Normal in
  let h := [(lit "ab", red); (lit "c", cyan); ([newline], style_default); (lit "d", red)] in
  within (fun i => i <> Faint) h /\ no_controls (text_of h) /\ plain_newlines (denote h) /\
  tm_screen (term_feed sgr_xterm (fresh_term xterm_look) (ansi_finished h)) =
    [(97, mk_xrend Red ColorDefault true false); (98, mk_xrend Red ColorDefault true false);
     (99, mk_xrend BrightCyan Blue false false); (10, mk_xrend ColorDefault ColorDefault false false);
     (100, mk_xrend Red ColorDefault true false)]%N /\
  tm_screen (term_feed sgr_mono (fresh_term mono_look) (ansi_finished h)) =
    [(97, true); (98, true); (99, false); (10, false); (100, true)]%N.
Proof.
  cbv zeta. split; [repeat (apply Forall_cons; [discriminate|]); apply Forall_nil|].
  split; [repeat (apply Forall_cons; [reflexivity|]); apply Forall_nil|]. split.
  { intros c st Hin Hc. cbn in Hin. subst c. repeat destruct Hin as [E|Hin]; try (injection E; congruence); destruct Hin. }
  split; vm_compute; reflexivity.
Qed.
Example C92_failures_nonvacuous :
  let red := mk_style Red ColorDefault Bold in let green := mk_style Green ColorDefault Bold in
  let ok := Returned Ok in
  let calls := [CStr (lit "a") red; CStr (lit "c") green; CStr (lit "d") red] in
  Forall wcall_regular calls /\ Forall (fun c => Forall (fun st => intens st <> Faint) (wcall_styles c)) calls /\
  let '(w, results) := session (Write_ansi flaky) calls (lib_ansi (lit "", [ok; ok; Returned Err])) in
  let log := combine calls results in
  results = [Returned Err; ok; ok] /\ wcareful style_default [] None log /\
  term_feed sgr_xterm (fresh_term xterm_look) (fst (fst (ansi_finish flaky w)))
  = mk_term Ground (xterm_look style_default)
      [(99%N, mk_xrend Green ColorDefault true false); (100%N, mk_xrend Red ColorDefault true false)].
Proof.
  cbv zeta. split; [repeat (apply Forall_cons; [exact I|]); apply Forall_nil|].
  split; [repeat (apply Forall_cons; [cbn; repeat (apply Forall_cons; [discriminate|]); apply Forall_nil|]); apply Forall_nil|].
  match goal with |- let '(w, l) := ?x in _ => let y := eval vm_compute in x in change x with y end. cbv iota beta zeta.
  split; [reflexivity|]. split; [|reflexivity].
  cbn [combine]. eapply wc_failure; [reflexivity|left; reflexivity|discriminate|].
  eapply wc_success; [reflexivity|right; right; split; [reflexivity|]|].
  { cbn. intros H. repeat destruct H as [H|H]; discriminate || destruct H. }
  eapply wc_success; [reflexivity|left; reflexivity|]. apply wc_finish. left. reflexivity.
Qed.
