(** Property theorems about formatting in general (C04, C09, C26, C27, C38, C39, C40). *)
From Verif Require Import Base Style Fmt SString Plain Ansi Html Io Format SpecText TextFacts
  SpecTerminal SpecHtml SpecSink SpecUtf8 SinkFacts AnsiFacts HtmlFacts StringFacts FormatFacts
  Utf8Facts.

(** C04: a piece of user code (a Display implementation or Arguments, with any control flow)
    makes the same styled writes, in the same order, and ends in the same way, on any two
    writers that accept every write; the writers end as if the user had made these writes
    directly. *)
Theorem C04_backend_independent {W1 W2} (ws1 : write_fn W1) (ws2 : write_fn W2) (p : wprog)
  (w1 : W1) (w2 : W2) :
  infallible ws1 -> infallible ws2 ->
  let '((w1', l1), o1) := run (watched ws1) p (w1, []) in
  let '((w2', l2), o2) := run (watched ws2) p (w2, []) in
  l1 = l2 /\ o1 = o2 /\
  w1' = fst (play ws1 (map fst l1) w1) /\ w2' = fst (play ws2 (map fst l2) w2).
Proof.
  intros H1 H2.
  assert (G : forall W (ws : write_fn W) w l, infallible ws ->
            run (watched ws) p (w, l)
            = ((fst (play ws (ok_events p) w),
                l ++ map (fun e => (e, Returned Ok)) (ok_events p)), ok_outcome p)).
  { clear. intros W ws w l Hi; revert w l; induction p as [r|c|s st k IH]; intros w l;
      cbn [run ok_events ok_outcome map play]; [now rewrite app_nil_r..|].
    unfold watched at 1; cbn [fst snd]. rewrite (infallible_eq ws w s st Hi), IH.
    now rewrite <- app_assoc. }
  rewrite !G by auto. cbn [app]. rewrite map_map. cbn. rewrite map_id. auto.
Qed.
Print Assumptions C04_backend_independent.

(** C04: the four format functions agree: they succeed on the same Arguments, and then all
    present one and the same styled text. *)
Theorem C04_formats_agree (args : arguments) (txt : str) :
  plain_format args = Value txt ->
  exists (t : stext) (a x : str) (w : sstring),
    txt = chars t /\
    (ansi_format args = Value a /\
     (no_controls txt -> tm_screen (term_feed sgr_style term_new a) = t)) /\
    (html_format args = Value x /\
     page_feed page_new x = mk_page Data [] (map (fun cs => (fst cs, css_look (snd cs))) t)) /\
    (stylish_format args = Value w /\
     forall f, produces (Display_sstring w f) = t).
Proof.
  rewrite plain_format_spec, ansi_format_spec, html_format_spec, stylish_format_spec.
  destruct (ok_outcome (args formatter_new)) as [[|]|c]; try discriminate.
  intros E; injection E as <-.
  set (t := produces (args formatter_new)). exists t. do 3 eexists.
  split; [reflexivity|]. split; [split; [reflexivity|]|split; split; [reflexivity| |reflexivity|]].
  - intros H. cbn zeta. rewrite feed_app. unfold term_new. rewrite render_shows by exact H.
    now rewrite esc_default_ends.
  - rewrite <- html_reference, pfeed_app.
    change page_new with (mk_page Data (open_elements style_default) []).
    rewrite html_render_view. now rewrite feed_hesc.
  - intros f. unfold produces. rewrite (same_events _ _ (display_runs _ f)), emit_runs_events.
    apply push_all_denote.
Qed.
Print Assumptions C04_formats_agree.

Example C04_nonvacuous :
  let args : arguments := fun f =>
    try_ (formatter_write_str f (lit "a<")) 
      (formatter_write_str (formatter_with Restyle_Foreground f (Foreground Red)) (lit "b")) in
  plain_format args = Value (lit "a<b") /\
  ansi_format args = Value (lit "a<" ++ [27%N] ++ lit "[31mb" ++ [27%N] ++ lit "[0m") /\
  html_format args = Value (lit "a&lt;<span style=color:red>b</span>").
Proof. repeat split. Qed.

(** C09: on any sink, the plain adaptor calls the sink with the written strings, unchanged and
    in order (a prefix of them if the sink fails), whatever the styles, and returns what the
    sink returned. *)
Theorem C09_plain_passthrough {S} (sink : fmt_sink S) (h : history) (i : S) :
  let '(w', o) := play (plain_write_str (logged sink)) h (plain_new (start i)) in
  let made := snd (plain_into_inner w') in
  (exists rest, map fst h = map fst made ++ rest) /\
  (o = Returned Ok <-> all_ok made /\ map fst made = map fst h) /\
  (forall bad, bad <> Returned Ok -> (o = bad <-> stopped_with bad made)).
Proof.
  pose proof (plain_contract sink h i) as H. revert H.
  destruct (play (plain_write_str (logged sink)) h _) as [w' o].
  destruct (play (plain_write_str (logged string_sink)) h _) as [wf o'].
  intros [(H1 & H2 & H3) Hm]. unfold plain_into_inner. rewrite Hm in *. auto.
Qed.
Print Assumptions C09_plain_passthrough.

(** C09: [plain::format] is the concatenated text, with no styling left. *)
Theorem C09_plain_format (args : arguments) (txt : str) :
  plain_format args = Value txt -> txt = text_of (ok_events (args formatter_new)).
Proof.
  rewrite plain_format_spec. destruct (ok_outcome (args formatter_new)) as [[|]|c]; try discriminate.
  intros E; injection E as <-. apply chars_denote.
Qed.
Print Assumptions C09_plain_format.

Example C09_nonvacuous :
  let h := [(lit "a", mk_style Red Blue Bold); (lit "b", style_default)] in
  snd (pl_inner (fst (play (plain_write_str (logged string_sink)) h (plain_new (@start str [])))))
  = [(lit "a", Returned Ok); (lit "b", Returned Ok)].
Proof. reflexivity. Qed.

(** C26: code that propagates errors, on any writer: all writes before the last one succeeded;
    if the last one did not return Ok then the code ended exactly as that write did (so nothing
    was written after a failure and the failure is reported). *)
Theorem C26_first_error {W} (ws : write_fn W) (p : wprog) (w : W) :
  propagates p ->
  let '((_, l), o) := run (watched ws) p (w, []) in
  w_all_ok l \/
  exists l0 s st bad, l = l0 ++ [(s, st, bad)] /\ w_all_ok l0 /\ bad <> Returned Ok /\ o = bad.
Proof.
  intros Hp. pose proof (run_watched_propagates ws p w [] Hp) as H. revert H.
  destruct (run (watched ws) p (w, [])) as [[w' l] o]. intros (new & -> & Ho & Hl).
  cbn [app]. destruct o as [[|]|c].
  - left; exact Ho.
  - destruct Ho as [Ho|(n0 & s & st & -> & Ho)]; [left; exact Ho|].
    right. exists n0, s, st, (Returned Err). repeat split; auto. discriminate.
  - destruct Ho as [Ho|(n0 & s & st & -> & Ho)]; [left; exact Ho|].
    right. exists n0, s, st, (Crashed c). repeat split; auto. discriminate.
Qed.
Print Assumptions C26_first_error.

(** C26: the pieces formatting code is made of propagate, and composing propagating code with
    the question mark propagates. *)
Theorem C26_write_str_propagates (f : formatter) (s : str) (st : style) :
  propagates (formatter_write_str f s) /\ propagates (Formatter_Write_write_str f s st) /\
  propagates (Formatter_std_write_str f s).
Proof. repeat split; try apply propagates_write_str; cbn; auto. Qed.
Print Assumptions C26_write_str_propagates.

Theorem C26_write_fmt_propagates (f : formatter) (args : arguments) (p q : wprog) :
  (propagates (args f) -> propagates (formatter_write_fmt f args)) /\
  (propagates p -> propagates q -> propagates (try_ p q)).
Proof. split; [apply propagates_write_fmt|apply propagates_try]. Qed.
Print Assumptions C26_write_fmt_propagates.

(** C26: [write!] into any writer with the provided [write_fmt] returns Ok only if the
    Arguments did and every write succeeded. *)
Theorem C26_write_fmt_ok {W} (ws : write_fn W) (args : arguments) (w : W) :
  propagates (args formatter_new) ->
  let '((_, l), o) := default_write_fmt (watched ws) (w, []) args in
  o = Returned Ok -> w_all_ok l /\ ok_outcome (args formatter_new) = Returned Ok /\
                     map fst l = ok_events (args formatter_new).
Proof.
  intros Hp. rewrite default_write_fmt_run.
  assert (G : forall p w l, propagates p ->
     let '((_, l'), o) := run (watched ws) p (w, l) in
     o = Returned Ok -> exists new, l' = l ++ new /\ w_all_ok new /\
        ok_outcome p = Returned Ok /\ map fst new = ok_events p).
  { clear. induction p as [r|c|s st k IH]; intros w l Hp; cbn [run].
    - intros Hr; injection Hr as ->. exists []. rewrite app_nil_r. repeat split. constructor.
    - discriminate.
    - destruct Hp as [Hk Hp]. unfold watched at 1; cbn [fst snd].
      destruct (ws w s st) as [w1 [[|]|c]]; try discriminate.
      + specialize (IH Ok w1 (l ++ [(s, st, Returned Ok)]) Hp). revert IH.
        destruct (run (watched ws) (k Ok) _) as [[w' l'] o]. intros IH Ho.
        destruct (IH Ho) as (new & -> & Ha & Hok & Hm).
        exists ((s, st, Returned Ok) :: new). rewrite <- app_assoc. split; [reflexivity|].
        split; [constructor; auto|]. split; [exact Hok|]. cbn. now rewrite Hm.
      + rewrite Hk. cbn [run]. discriminate. }
  specialize (G (args formatter_new) w [] Hp). revert G.
  destruct (run (watched ws) (args formatter_new) (w, [])) as [[w' l] o]. intros G Ho.
  destruct (G Ho) as (new & -> & Ha & Hok & Hm). auto.
Qed.
Print Assumptions C26_write_fmt_ok.

Example C26_nonvacuous :
  let p := try_ (formatter_write_str formatter_new (lit "a"))
             (formatter_write_str formatter_new (lit "b")) in
  let refuse : write_fn unit := fun w s _ => (w, Returned (if str_eqb s (lit "a") then Err else Ok)) in
  propagates p /\
  run (watched refuse) p (tt, []) = ((tt, [(lit "a", style_default, Returned Err)]), Returned Err).
Proof. split; [repeat split|reflexivity]. Qed.

(** C27: each format function returns normally exactly when the Arguments return Ok on a writer
    that never fails; it panics when they return Err, and otherwise unwinds as they do. *)
Definition finishes {A} (c : comp A) : Prop := exists a, c = Value a.
Theorem C27_format_panics {W} (ws : write_fn W) (w : W) (args : arguments) :
  infallible ws ->
  let o := snd (run ws (args formatter_new) w) in
  match o with
  | Returned Ok => finishes (stylish_format args) /\ finishes (plain_format args) /\
                   finishes (ansi_format args) /\ finishes (html_format args)
  | Returned Err => stylish_format args = Crash Panic /\ plain_format args = Crash Panic /\
                    ansi_format args = Crash Panic /\ html_format args = Crash Panic
  | Crashed c => stylish_format args = Crash c /\ plain_format args = Crash c /\
                 ansi_format args = Crash c /\ html_format args = Crash c
  end.
Proof.
  intros H. rewrite run_infallible by exact H. cbn [snd].
  rewrite plain_format_spec, ansi_format_spec, html_format_spec, stylish_format_spec.
  destruct (ok_outcome (args formatter_new)) as [[|]|c]; repeat split; eexists; reflexivity.
Qed.
Print Assumptions C27_format_panics.

Example C27_nonvacuous :
  infallible sstring_write_str /\
  html_format (fun f => bind (formatter_write_str f (lit "x")) (fun _ => Ret Err)) = Crash Panic.
Proof. split; [exact sstring_infallible|reflexivity]. Qed.

(** C38: the bytes of a text are valid UTF-8 for exactly that text, and their number is the
    length of the text. *)
Theorem C38_utf8_round_trip (s : str) :
  Forall (fun c => is_scalar c = true) s ->
  utf8_decode (utf8 s) = Some s /\ length (utf8 s) = str_len s.
Proof. intros H. split; [apply decode_utf8, H|apply utf8_length]. Qed.
Print Assumptions C38_utf8_round_trip.

(** C38: writing a character is writing the one-character string, on every provided writer. *)
Theorem C38_write_char {S W} (sink : fmt_sink S) (ws : write_fn W) (w : W) (c : char) (st : style) :
  w_write_char (Write_default ws) w c st = ws w [c] st /\
  (forall i, w_write_char (Write_ansi sink) i c st = w_write_str (Write_ansi sink) i [c] st) /\
  (forall i, w_write_char (Write_html sink) i c st = w_write_str (Write_html sink) i [c] st) /\
  (forall i, w_write_char (Write_plain sink) i c st = w_write_str (Write_plain sink) i [c] st) /\
  (forall i, w_write_char Write_sstring i c st = w_write_str Write_sstring i [c] st).
Proof. repeat split. Qed.
Print Assumptions C38_write_char.

Example C38_nonvacuous :
  Forall (fun c => is_scalar c = true) [0x41; 0xE9; 0x20AC; 0x1F600]%N /\
  utf8 [0x41; 0xE9; 0x20AC; 0x1F600]%N
  = [0x41; 0xC3; 0xA9; 0xE2; 0x82; 0xAC; 0xF0; 0x9F; 0x98; 0x80]%N.
Proof. split; [repeat constructor|reflexivity]. Qed.

(** C39: [&mut W] behaves as [W], all methods (overridden ones included), for both Write
    traits; [by_ref] is the writer itself; [&T] displays as [T]. *)
Theorem C39_forwarding {W V} (d : Write W) (io : IoWrite V) (t : display) :
  (forall w s st, w_write_str (Write_mut_ref d) w s st = w_write_str d w s st) /\
  (forall w c st, w_write_char (Write_mut_ref d) w c st = w_write_char d w c st) /\
  (forall w a, w_write_fmt (Write_mut_ref d) w a = w_write_fmt d w a) /\
  (forall w s st, io_write (IoWrite_mut_ref io) (by_ref w) s st = io_write io w s st) /\
  (forall w, io_flush (IoWrite_mut_ref io) (by_ref w) = io_flush io w) /\
  (forall w s st, io_write_all (IoWrite_mut_ref io) (by_ref w) s st = io_write_all io w s st) /\
  (forall w a, io_write_fmt (IoWrite_mut_ref io) (by_ref w) a = io_write_fmt io w a) /\
  (forall f, Display_ref t f = t f).
Proof. repeat split. Qed.
Print Assumptions C39_forwarding.

(** A writer that overrides [write_char] and [write_fmt]: the overrides are reached. *)
Example C39_nonvacuous :
  let d := mk_Write (fun (w : nat) _ _ => (w, Returned Ok)) (fun w _ _ => (w + 1, Returned Err))
             (fun w _ => (w + 2, Returned Ok)) in
  w_write_char (Write_mut_ref d) 0 65%N style_default = (1, Returned Err) /\
  w_write_fmt (Write_mut_ref (Write_mut_ref d)) 0 (fun _ => Ret Err) = (2, Returned Ok).
Proof. split; reflexivity. Qed.

(** C40: writing to a Formatter through stylish::Write makes exactly one write, with the given
    style and none of the formatter's, and returns its result; through core::fmt::Write it uses
    the formatter's style; [write!(f, ..)] runs the Arguments in the formatter's own context. *)
Theorem C40_formatter_as_write {W} (ws : write_fn W) (f : formatter) (s : str) (st : style)
  (args : arguments) (w : W) :
  run ws (Formatter_Write_write_str f s st) w = ws w s st /\
  run ws (Formatter_std_write_str f s) w = ws w s (fm_style f) /\
  run ws (Formatter_Write_write_fmt f args) w = run ws (args f) w.
Proof.
  repeat split.
  - cbn. unfold style_with, Restyle_Style. destruct (ws w s st) as [w' [[|]|c]]; reflexivity.
  - cbn. destruct (ws w s (fm_style f)) as [w' [[|]|c]]; reflexivity.
  - apply same_run, write_fmt_same.
Qed.
Print Assumptions C40_formatter_as_write.

(** C40: [write!] into a writer starts from the default style and no flags. *)
Theorem C40_write_starts_fresh {W} (ws : write_fn W) (args : arguments) (w : W) :
  w_write_fmt (Write_default ws) w args
  = run ws (args (mk_formatter (mk_style ColorDefault ColorDefault Normal)
                    (mk_fargs None None false false None None None))) w.
Proof. apply default_write_fmt_run. Qed.
Print Assumptions C40_write_starts_fresh.

Example C40_nonvacuous :
  let red := mk_style Red ColorDefault Bold in
  let f := mk_formatter red fargs_default in
  ok_events (Formatter_Write_write_str f (lit "x") style_default) = [(lit "x", style_default)] /\
  ok_events (Formatter_Write_write_fmt f (fun g => formatter_write_str g (lit "x")))
  = [(lit "x", red)].
Proof. split; reflexivity. Qed.
