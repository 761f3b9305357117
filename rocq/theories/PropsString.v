(** Theorems about stylish::String (C22, C23, C24). *)
From Verif Require Import Base Style Fmt SString Format SpecText TextFacts SpecHtml HtmlFacts StringFacts
  FormatFacts.

(** The String a user gets by making the writes of a history on a new String (every write
    returns Ok, see [C22_writes_succeed]). *)
Definition built (h : history) : sstring := fst (play sstring_write_str h sstring_new).

Theorem C22_writes_succeed (w : sstring) (s : str) (st : style) :
  snd (sstring_write_str w s st) = Returned Ok.
Proof. exact (sstring_infallible w s st). Qed.
Print Assumptions C22_writes_succeed.

(** Displaying it, with any formatter, writes exactly the styled characters of the history and
    returns Ok. *)
Theorem C22_replay (h : history) (f : formatter) :
  produces (Display_sstring (built h) f) = denote h /\
  ok_outcome (Display_sstring (built h) f) = Returned Ok.
Proof.
  unfold built. rewrite ss_built. unfold produces.
  rewrite (same_events _ _ (display_runs _ f)), (same_outcome _ _ (display_runs _ f)).
  rewrite emit_runs_events, emit_runs_outcome, push_all_denote. auto.
Qed.
Print Assumptions C22_replay.

(** The same for a String built by [stylish::format!]. *)
Theorem C22_format_replay (args : arguments) (w : sstring) (f : formatter) :
  stylish_format args = Value w ->
  produces (Display_sstring w f) = produces (args formatter_new).
Proof.
  rewrite stylish_format_spec. destruct (ok_outcome (args formatter_new)) as [[|]|c]; try discriminate.
  intros E; injection E as <-. unfold produces.
  rewrite (same_events _ _ (display_runs _ f)), emit_runs_events, push_all_denote. reflexivity.
Qed.
Print Assumptions C22_format_replay.

Example C22_nonvacuous :
  let red := mk_style Red ColorDefault Normal in
  let h := [(lit "a", red); (lit "b", style_default); ([233%N], style_default)] in
  built h = mk_sstring [97%N; 98%N; 233%N] [(0, red); (1, style_default)] /\
  produces (Display_sstring (built h) formatter_new)
  = [(97%N, red); (98%N, style_default); (233%N, style_default)].
Proof. split; reflexivity. Qed.

Lemma never_aborts_same p q : same_prog p q -> never_aborts q -> never_aborts p.
Proof. intros H; induction H; cbn; auto. Qed.

Lemma emit_runs_never_aborts rs : never_aborts (emit_runs rs).
Proof. induction rs as [|[st s] rs IH]; cbn; [exact I|]. intros [|]; cbn; auto. Qed.

(** Displaying never panics by itself: no slice is out of range or splits a character,
    whatever the characters are and whatever the writer answers. *)
Theorem C23_no_panic (h : history) (f : formatter) :
  never_aborts (Display_sstring (built h) f).
Proof.
  unfold built. rewrite ss_built.
  apply (never_aborts_same _ _ (display_runs _ f)), emit_runs_never_aborts.
Qed.
Print Assumptions C23_no_panic.

(** On any writer that does not panic, displaying returns. *)
Theorem C23_returns {W} (ws : write_fn W) (h : history) (f : formatter) (w : W) :
  (forall w s st, exists r, snd (ws w s st) = Returned r) ->
  exists r, snd (run ws (Display_sstring (built h) f) w) = Returned r.
Proof.
  intros Hw. generalize (C23_no_panic h f). generalize (Display_sstring (built h) f).
  intros p; revert w; induction p as [r|c|s st k IH]; intros w Hp; cbn in *.
  - eauto.
  - tauto.
  - destruct (Hw w s st) as [r Hr]. destruct (ws w s st) as [w' o]; cbn in *; subst o. auto.
Qed.
Print Assumptions C23_returns.

(** A slice that does split a character would panic, so C23 is not vacuous. *)
Example C23_nonvacuous :
  str_slice [233%N] 0 1 = None /\ str_slice [233%N; 97%N] 2 3 = Some [97%N] /\
  Display_sstring (mk_sstring [233%N] [(0, style_default); (1, style_default)]) formatter_new
  = Abort Panic.
Proof. repeat split. Qed.

Lemma offsets_neighbours n rs : alternating rs -> neighbours_differ (map snd (offsets n rs)).
Proof.
  revert n; induction rs as [|[a sa] rs IH]; intros n; [cbn; auto|].
  destruct rs as [|[b sb] r]; [cbn; auto|]. intros [Hn H]. specialize (IH (n + str_len sa) H).
  cbn [offsets map snd] in *. split; auto.
Qed.

Lemma offsets_length n rs : length (offsets n rs) = length rs.
Proof. revert n; induction rs as [|[a sa] rs IH]; intros n; cbn; auto. Qed.

(** The stored table: neighbouring entries have different styles, the first entry is at 0, there
    are no more entries than writes, and there is none only if nothing was written. *)
Theorem C24_table (h : history) :
  neighbours_differ (map snd (ss_styles (built h))) /\
  hd_error (map fst (ss_styles (built h))) = match h with [] => None | _ => Some 0 end /\
  length (ss_styles (built h)) <= length h.
Proof.
  unfold built. rewrite ss_built. unfold ss_of_runs; cbn [ss_styles]. repeat split.
  - apply offsets_neighbours, alternating_push_all. exact I.
  - destruct h as [|[s st] h]; [reflexivity|].
    assert (H : forall h rs, rs <> [] -> push_all rs h <> []).
    { clear. induction h as [|[s st] h IH]; intros rs Hr; cbn; auto. apply IH.
      destruct rs as [|[a sa] [|y r]]; cbn; try congruence. destruct (style_eqb st a); congruence. }
    specialize (H h [(st, s)]).
    change (push_all [] ((s, st) :: h)) with (push_all [(st, s)] h).
    destruct (push_all [(st, s)] h) as [|[a sa] r]; [exfalso; apply H; congruence|reflexivity].
  - rewrite offsets_length. pose proof (push_all_length h []). cbn in *. lia.
Qed.
Print Assumptions C24_table.

(** Formatting a String into a new String gives an identical String. *)
Theorem C24_copy (h : history) :
  stylish_format (fun f => Display_sstring (built h) f) = Value (built h).
Proof.
  rewrite stylish_format_spec. unfold built. rewrite ss_built.
  rewrite (same_events _ _ (display_runs _ _)), (same_outcome _ _ (display_runs _ _)).
  rewrite emit_runs_events, emit_runs_outcome. do 2 f_equal.
  apply (push_all_runs []). cbn. apply alternating_push_all. exact I.
Qed.
Print Assumptions C24_copy.

(** What displaying does is independent of the formatter's style and flags. *)
Theorem C24_absolute (h : history) (f g : formatter) :
  same_prog (Display_sstring (built h) f) (Display_sstring (built h) g).
Proof.
  unfold built. rewrite ss_built.
  eapply same_trans; [apply display_runs|]. apply same_sym, display_runs.
Qed.
Print Assumptions C24_absolute.

(** Displaying makes at most one write per entry and stops at the first error. *)
Theorem C24_display_writes (h : history) (f : formatter) :
  length (ok_events (Display_sstring (built h) f)) = length (ss_styles (built h)) /\
  map snd (ok_events (Display_sstring (built h) f)) = map snd (ss_styles (built h)).
Proof.
  unfold built. rewrite ss_built, (same_events _ _ (display_runs _ f)), emit_runs_events.
  unfold ss_of_runs; cbn [ss_styles]. rewrite offsets_length. unfold run_events.
  rewrite map_length, map_map. cbn. split; [reflexivity|].
  generalize 0. induction (push_all [] h) as [|[st s] rs IH]; intros n; cbn; [reflexivity|].
  f_equal; apply IH.
Qed.
Print Assumptions C24_display_writes.

Example C24_nonvacuous :
  let red := mk_style Red ColorDefault Normal in
  let w := built [(lit "a", red); (lit "b", red); ([], style_default); (lit "c", red)] in
  ss_styles w = [(0, red); (2, style_default); (2, red)] /\
  stylish_format (fun f => Display_sstring w f) = Value w.
Proof. split; reflexivity. Qed.
