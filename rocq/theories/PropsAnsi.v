(** Property theorems C10-C15, C28, C29: the ANSI adaptor. *)
From Verif Require Import Base Style Fmt Ansi SpecText TextFacts SpecTerminal SpecSgr SpecSink
  AnsiFacts SinkFacts RetryFacts.

(** What a user's writes leave in the String behind an Ansi adaptor, without and with a final
    [finish()?]. *)
Definition ansi_unfinished (h : history) : str :=
  an_inner (fst (play (ansi_write_str string_sink) h (ansi_new []))).
Definition ansi_finished (h : history) : str :=
  fst (ansi_finish string_sink (fst (play (ansi_write_str string_sink) h (ansi_new [])))).

Lemma ansi_unfinished_eq h : ansi_unfinished h = ansi_render style_default (denote h).
Proof. unfold ansi_unfinished. now rewrite ansi_play. Qed.
Lemma ansi_finished_eq h :
  ansi_finished h = ansi_render style_default (denote h)
                    ++ esc (last_style style_default (denote h)) style_default.
Proof. unfold ansi_finished. now rewrite ansi_play, ansi_finish_string. Qed.

(** C10: on a terminal, every character is shown, in order, with the style it was written
    with, and nothing else is shown; writing to a String never fails. *)
Theorem C10_terminal_shows (h : history) :
  no_controls (text_of h) ->
  snd (play (ansi_write_str string_sink) h (ansi_new [])) = Returned Ok /\
  tm_screen (term_feed sgr_style term_new (ansi_unfinished h)) = denote h /\
  tm_screen (term_feed sgr_style term_new (ansi_finished h)) = denote h.
Proof.
  rewrite <- chars_denote; intros H. split; [now rewrite ansi_play|].
  rewrite ansi_unfinished_eq, ansi_finished_eq. rewrite feed_app. unfold term_new.
  rewrite render_shows by exact H. split; [reflexivity|]. now rewrite esc_default_ends.
Qed.
Print Assumptions C10_terminal_shows.

Example C10_nonvacuous :
  no_controls (text_of [(lit "Hello ", style_default);
                        (lit "Ferris", mk_style Red ColorDefault Bold)]) /\
  ansi_finished [(lit "Hello ", style_default); (lit "Ferris", mk_style Red ColorDefault Bold)]
  = lit "Hello " ++ [27%N] ++ lit "[31;1mFerris" ++ [27%N] ++ lit "[0m".
Proof. split; [repeat constructor|reflexivity]. Qed.

(** C11: without [finish] the terminal is left in the style of the last character; with it, in
    the default style; in both cases ready for ordinary text. *)
Theorem C11_finish_resets (h : history) :
  no_controls (text_of h) ->
  tm_state (term_feed sgr_style term_new (ansi_finished h)) = Ground /\
  tm_rend (term_feed sgr_style term_new (ansi_finished h)) = style_default /\
  tm_state (term_feed sgr_style term_new (ansi_unfinished h)) = Ground /\
  tm_rend (term_feed sgr_style term_new (ansi_unfinished h))
  = last_style style_default (denote h).
Proof.
  rewrite <- chars_denote; intros H. rewrite ansi_unfinished_eq, ansi_finished_eq.
  rewrite feed_app. unfold term_new. rewrite render_shows by exact H.
  now rewrite esc_default_ends.
Qed.
Print Assumptions C11_finish_resets.

(** C11: [finish] writes nothing when the style already is the default one. *)
Theorem C11_finish_noop (h : history) :
  last_style style_default (denote h) = style_default -> ansi_finished h = ansi_unfinished h.
Proof.
  intros H. rewrite ansi_unfinished_eq, ansi_finished_eq, H. rewrite esc_same. apply app_nil_r.
Qed.
Print Assumptions C11_finish_noop.

Example C11_nonvacuous :
  last_style style_default (denote [(lit "a", mk_style Red Blue Bold); (lit "b", style_default)])
  = style_default.
Proof. reflexivity. Qed.

(** C12: the output is a function of the styled text alone (any characters). *)
Theorem C12_chunking (h1 h2 : history) :
  denote h1 = denote h2 ->
  ansi_unfinished h1 = ansi_unfinished h2 /\ ansi_finished h1 = ansi_finished h2.
Proof.
  intros H. rewrite !ansi_unfinished_eq, !ansi_finished_eq, H. auto.
Qed.
Print Assumptions C12_chunking.

Example C12_nonvacuous :
  let red := mk_style Red ColorDefault Normal in
  denote [(lit "ab", red); (lit "", style_default); (lit "c", red)]
  = denote [(lit "", style_default); (lit "a", red); (lit "bc", red)].
Proof. reflexivity. Qed.

(** C13: one write appends at most one SGR sequence and then the text; the sequence is empty
    when nothing changes, the lone reset when going to the default style, and otherwise has one
    parameter per changed attribute. *)
Theorem C13_write_shape (out : str) (cur : style) (s : str) (st : style) :
  exists e, ansi_write_str string_sink (mk_ansi out cur) s st
            = (mk_ansi (out ++ e ++ s) (if is_empty s then cur else st), Returned Ok) /\
    (s = [] \/ st = cur -> e = []) /\
    (s <> [] -> st <> cur -> st = style_default -> e = sgr_sequence [0%N]) /\
    (s <> [] -> st <> cur -> st <> style_default ->
     exists ps, e = sgr_sequence ps /\ length ps = attributes_changed cur st /\ ~ In 0%N ps).
Proof.
  rewrite ansi_write_string. cbn [an_inner an_current]. destruct s as [|c s].
  - exists []. cbn. repeat split; congruence.
  - exists (esc cur st). rewrite last_style_paint, ansi_render_paint by congruence.
    split; [reflexivity|]. destruct (esc_minimal cur st) as (H1 & H2 & H3).
    split; [intros [?|?]; [congruence|auto]|]. split; [auto|].
    intros _ Hn Hd. destruct H3 as (ps & E & L & Z & _); [congruence|auto|]. eauto.
Qed.
Print Assumptions C13_write_shape.

(** C13: that many parameters are needed: no shorter list of SGR parameters (without using the
    full reset) takes a terminal from [cur] to [st]. *)
Theorem C13_parameters_needed (ps : list N) (cur st : style) :
  ~ In 0%N ps -> fold_left (fun r n => sgr_style n r) ps cur = st ->
  attributes_changed cur st <= length ps.
Proof. exact (sgr_needs ps cur st). Qed.
Print Assumptions C13_parameters_needed.

(** C13: over a whole history, as many escapes as style changes. *)
Theorem C13_escape_count (h : history) :
  no_controls (text_of h) ->
  occurrences ESC (ansi_unfinished h) = style_changes style_default (denote h).
Proof.
  rewrite <- chars_denote, ansi_unfinished_eq. exact (render_count style_default (denote h)).
Qed.
Print Assumptions C13_escape_count.

(** C13: default-styled text passes through untouched. *)
Theorem C13_default_untouched (h : history) :
  Forall (fun e => snd e = style_default) h ->
  ansi_unfinished h = text_of h /\ ansi_finished h = text_of h.
Proof.
  intros H.
  assert (Hd : Forall (fun cs => snd cs = style_default) (denote h)).
  { induction H as [|[s st] h Hs _ IH]; [constructor|]. cbn in Hs; subst. cbn [denote].
    apply Forall_app; split; [|exact IH]. unfold paint. apply Forall_map.
    apply Forall_forall. reflexivity. }
  rewrite ansi_unfinished_eq, ansi_finished_eq, (render_default _ Hd), chars_denote.
  split; [reflexivity|].
  assert (last_style style_default (denote h) = style_default) as ->.
  { clear H. induction Hd as [|[c st] t Hc _ IH]; [reflexivity|]. cbn in *. now subst. }
  rewrite esc_same. apply app_nil_r.
Qed.
Print Assumptions C13_default_untouched.

Example C13_nonvacuous :
  let h := [(lit "a", mk_style Red Blue Bold); (lit "b", mk_style Red ColorDefault Bold);
            (lit "c", style_default)] in
  style_changes style_default (denote h) = 3 /\
  ansi_unfinished h = [27%N] ++ lit "[31;44;1ma" ++ [27%N] ++ lit "[49mb" ++ [27%N] ++ lit "[0mc".
Proof. split; reflexivity. Qed.

(** The reset could be shorter: the parameter count is not minimal once 0 is allowed. *)
Example C13_reset_would_be_shorter :
  let cur := mk_style Red Blue Bold in let st := mk_style Green ColorDefault Normal in
  attributes_changed cur st = 3 /\
  fold_left (fun r n => sgr_style n r) [0; 32]%N cur = st.
Proof. split; reflexivity. Qed.

(** C14 as stated is false: on a terminal with independent bold and faint bits, faint text
    right after bold text is shown bold and faint. *)
Theorem C14_exclusive_refuted :
  exists h, no_controls (text_of h) /\
    tm_screen (term_feed sgr_xterm xterm_new (ansi_finished h))
    <> map (fun cs => (fst cs, xterm_look (snd cs))) (denote h) /\
    (exists c r, In (c, r) (tm_screen (term_feed sgr_xterm xterm_new (ansi_finished h))) /\
                 x_bold r = true /\ x_faint r = true).
Proof.
  exists [(lit "a", mk_style ColorDefault ColorDefault Bold);
          (lit "b", mk_style ColorDefault ColorDefault Faint)].
  split; [repeat constructor|]. split; [discriminate|].
  exists 98%N, (mk_xrend ColorDefault ColorDefault true true).
  split; [right; left; reflexivity|split; reflexivity].
Qed.
Print Assumptions C14_exclusive_refuted.

(** C14: exactly what such a terminal shows: colors are always right; once a bold or faint
    character was shown, its bit stays until a character of normal intensity. *)
Theorem C14_xterm_shows (h : history) :
  no_controls (text_of h) ->
  tm_screen (term_feed sgr_xterm xterm_new (ansi_finished h)) = sticky false false (denote h).
Proof.
  rewrite <- chars_denote; intros H. rewrite ansi_finished_eq, feed_app.
  change xterm_new with (mk_term Ground (mk_xrend (foreground style_default) (background style_default) false false) []).
  destruct (render_shows_xterm style_default (denote h) false false [] H (conj eq_refl eq_refl)) as (r & ->).
  now rewrite feed_esc.
Qed.
Print Assumptions C14_xterm_shows.

(** C14 holds exactly when no bold character directly follows a faint one or the reverse.
    Missing from the full statement: exactly those direct switches. *)
Theorem C14_exclusive_partial (h : history) :
  no_controls (text_of h) ->
  (tm_screen (term_feed sgr_xterm xterm_new (ansi_finished h))
   = map (fun cs => (fst cs, xterm_look (snd cs))) (denote h)
   <-> no_direct_switch style_default (denote h)).
Proof.
  intros H. rewrite C14_xterm_shows by exact H. exact (sticky_exact style_default (denote h)).
Qed.
Print Assumptions C14_exclusive_partial.

Example C14_nonvacuous :
  let bold := mk_style Red ColorDefault Bold in let faint := mk_style Red ColorDefault Faint in
  no_direct_switch style_default
    (denote [(lit "a", bold); (lit " ", style_default); (lit "b", faint)]).
Proof. cbn. unfold compatible; cbn. repeat split; auto. Qed.

(** C15 as stated is false: an escape sequence inside data changes how other text is shown. *)
Theorem C15_data_inert_refuted :
  exists data, tm_screen (term_feed sgr_style term_new
                  (ansi_finished [(data, style_default); (lit "x", style_default)]))
               = [(120%N, mk_style Red ColorDefault Normal)].
Proof. exists (ESC :: lit "[31m"). reflexivity. Qed.
Print Assumptions C15_data_inert_refuted.

(** C15 for data without control functions: whatever it is, text written before and after it is
    shown as if it were not there.  Missing: data containing ESC or a C1 control opener. *)
Theorem C15_data_inert_partial (h1 h2 : history) (data : str) (st : style) :
  no_controls (text_of h1) -> no_controls (text_of h2) -> no_controls data ->
  tm_screen (term_feed sgr_style term_new (ansi_finished (h1 ++ (data, st) :: h2)))
  = tm_screen (term_feed sgr_style term_new (ansi_finished h1)) ++ paint st data
    ++ tm_screen (term_feed sgr_style term_new (ansi_finished h2)).
Proof.
  intros H1 H2 Hd.
  destruct (C10_terminal_shows h1 H1) as (_ & _ & E1).
  destruct (C10_terminal_shows h2 H2) as (_ & _ & E2).
  rewrite E1, E2.
  destruct (C10_terminal_shows (h1 ++ (data, st) :: h2)) as (_ & _ & ->).
  - unfold text_of, no_controls in *. rewrite map_app, concat_app. apply Forall_app.
    split; [exact H1|]. cbn [map concat fst]. apply Forall_app; split; auto.
  - rewrite denote_app. reflexivity.
Qed.
Print Assumptions C15_data_inert_partial.

Example C15_nonvacuous :
  let red := mk_style Red ColorDefault Normal in
  let data := lit "[0m;31m" in
  no_controls data /\
  tm_screen (term_feed sgr_style term_new (ansi_finished [(lit "a", red); (data, red); (lit "b", red)]))
  = paint red (lit "a[0m;31mb").
Proof. split; [repeat constructor; discriminate|vm_compute; reflexivity]. Qed.

(** C28 (ANSI): on an arbitrary sink, the calls made are a prefix of the calls made on a sink
    that never fails, the write sequence succeeds exactly when all calls succeeded (and then
    all were made), otherwise ends (with an error or a panic) exactly as the last call did, and
    no call follows one that did not succeed. *)
Theorem C28_ansi_failures {S} (sink : fmt_sink S) (h : history) (i : S) :
  let '(w', o) := play (ansi_write_str (logged sink)) h (ansi_new (start i)) in
  let '(wf, _) := play (ansi_write_str (logged string_sink)) h (ansi_new (@start str [])) in
  failure_contract (snd (an_inner wf)) (snd (an_inner w')) o.
Proof. exact (ansi_contract sink h i). Qed.
Print Assumptions C28_ansi_failures.

(** Observing the calls does not change what the sink receives. *)
Theorem C28_ansi_log_transparent {S} (sink : fmt_sink S) (h : history) (i : S) (l : log)
  (cur : style) :
  let '(w', o) := play (ansi_write_str (logged sink)) h (mk_ansi (i, l) cur) in
  let '(w2, o2) := play (ansi_write_str sink) h (mk_ansi i cur) in
  fst (an_inner w') = an_inner w2 /\ o = o2.
Proof. exact (ansi_logged_transparent sink h i l cur). Qed.
Print Assumptions C28_ansi_log_transparent.

Example C28_nonvacuous :
  let red := mk_style Red ColorDefault Normal in
  (let '(w', o) := play (ansi_write_str (logged flaky)) [(lit "a", red); (lit "b", style_default)]
                    (ansi_new (start ([], [Returned Ok; Returned Ok; Returned Err]))) in
   o = Returned Err /\
   snd (an_inner w') = [(ESC :: lit "[", Returned Ok); (lit "31", Returned Ok); (lit "m", Returned Err)]) /\
  (let '(w', o) := play (ansi_write_str (logged flaky)) [(lit "a", red); (lit "b", style_default)]
                    (ansi_new (start ([], [Returned Ok; Crashed Panic]))) in
   o = Crashed Panic /\
   snd (an_inner w') = [(ESC :: lit "[", Returned Ok); (lit "31", Crashed Panic)]).
Proof. repeat split; reflexivity. Qed.

(** C29: whatever calls fail or panic on a sink that takes nothing of a call that does not
    succeed, repeating the same write until it succeeds shows the text once, in its style, and
    leaves terminal and adaptor in agreement. *)
Theorem C29_retry {S} (sink : fmt_sink S) (held : S -> str) (w w' : ansi S) (s : str) (st : style)
  (screen : stext) :
  atomic_fmt sink held -> s <> [] -> no_controls s ->
  term_feed sgr_style term_new (held (an_inner w)) = mk_term Ground (an_current w) screen ->
  repeated_write (ansi_write_str sink) s st w w' ->
  an_current w' = st /\
  term_feed sgr_style term_new (held (an_inner w')) = mk_term Ground st (screen ++ paint st s).
Proof.
  intros Ha Hs Hc Ht Hr.
  destruct (retry_shows sink held (atomic_honest _ _ Ha) screen w s st w' Hs Hc) as (H1 & ps & _ & H2 & H3); auto.
  - unfold between, shown. rewrite Ht. cbn. auto.
  - split; [exact H1|]. unfold shown in H3. rewrite H3, (H2 Ha). reflexivity.
Qed.
Print Assumptions C29_retry.

(** C29: on a sink that may also take part of a call that does not succeed (anywhere, including
    inside the escape sequence), the same holds except that parts of the text delivered by
    unsuccessful attempts are shown before it, also in its style. *)
Theorem C29_retry_any_sink {S} (sink : fmt_sink S) (held : S -> str) (w w' : ansi S) (s : str)
  (st : style) (screen : stext) :
  honest_fmt sink held -> s <> [] -> no_controls s ->
  term_feed sgr_style term_new (held (an_inner w)) = mk_term Ground (an_current w) screen ->
  repeated_write (ansi_write_str sink) s st w w' ->
  an_current w' = st /\
  exists partials, Forall (fun p => exists q, s = p ++ q) partials /\
  term_feed sgr_style term_new (held (an_inner w'))
  = mk_term Ground st (screen ++ paint st (concat partials ++ s)).
Proof.
  intros Ha Hs Hc Ht Hr.
  destruct (retry_shows sink held Ha screen w s st w' Hs Hc) as (H1 & ps & H2 & _ & H3); auto.
  - unfold between, shown. rewrite Ht. cbn. auto.
  - split; [exact H1|]. eauto.
Qed.
Print Assumptions C29_retry_any_sink.

(** Non-vacuity: three failed attempts at different points, then success. *)
Lemma flaky_atomic : atomic_fmt flaky fst.
Proof.
  intros [out sched] s i' o. unfold flaky; cbn [fst snd].
  destruct sched as [|[[|]|c] r]; intros [= <- <-]; reflexivity.
Qed.
Example C29_nonvacuous :
  let ok := Returned Ok in
  let w := mk_ansi (lit "x", [ok; Returned Err; ok; ok; ok; Crashed Panic; Returned Err]) style_default in
  let red := mk_style Red ColorDefault Normal in
  exists w', repeated_write (ansi_write_str flaky) (lit "hi") red w w' /\
             fst (an_inner w') = lit "x" ++ [27%N] ++ lit "[" ++ [27%N] ++ lit "[31mhi".
Proof.
  eexists. split.
  - do 3 (eapply rw_again; [reflexivity|discriminate|]). apply rw_done. reflexivity.
  - reflexivity.
Qed.
(** A sink that takes the scheduled number of characters of each call and fails if that is not
    all of them. *)
Definition trickle : fmt_sink (str * list nat) :=
  fun st s =>
    match snd st with
    | [] => (@pair str (list nat) (fst st ++ s) [], Returned Ok)
    | n :: r => (@pair str (list nat) (fst st ++ firstn n s) r,
                 if length s <=? n then Returned Ok else Returned Err)
    end.
Lemma trickle_honest : honest_fmt trickle fst.
Proof.
  intros [out sched] s i' o. unfold trickle; cbn [fst snd]. destruct sched as [|n r].
  - intros [= <- <-]. reflexivity.
  - destruct (Nat.leb_spec (length s) n) as [H|H]; intros [= <- <-]; cbn [fst].
    + now rewrite firstn_all2.
    + exists (firstn n s), (skipn n s). split; [symmetry; apply firstn_skipn|reflexivity].
Qed.
Example C29_any_sink_nonvacuous :
  let w := mk_ansi (lit "x", [1; 9; 9; 9; 2]) style_default in
  let red := mk_style Red ColorDefault Normal in
  exists w', repeated_write (ansi_write_str trickle) (lit "hey") red w w' /\
             fst (an_inner w') = lit "x" ++ [27%N] ++ [27%N] ++ lit "[31mhehey".
Proof.
  eexists. split.
  - do 2 (eapply rw_again; [reflexivity|discriminate|]). apply rw_done. reflexivity.
  - reflexivity.
Qed.

(** The limit of C29: it does not extend to a different write after a failure: text in the old style lands in
    the middle of the unfinished escape sequence and is swallowed. *)
Theorem C29_only_the_same_write :
  exists (w w' : ansi (str * list outcome)) (red : style),
    term_feed sgr_style term_new (fst (an_inner w)) = mk_term Ground (an_current w) [] /\
    ansi_write_str flaky w (lit "a") red = (w', Returned Err) /\
    let '(w'', o) := ansi_write_str flaky w' (lit "b") style_default in
    o = Returned Ok /\ tm_screen (term_feed sgr_style term_new (fst (an_inner w''))) = [].
Proof.
  exists (mk_ansi ([], [Returned Ok; Returned Ok; Returned Err]) style_default).
  eexists. exists (mk_style Red ColorDefault Normal).
  split; [reflexivity|]. split; [reflexivity|]. split; reflexivity.
Qed.
Print Assumptions C29_only_the_same_write.
