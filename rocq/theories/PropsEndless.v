(** Property C95: formatting code that may run forever. *)
From Verif Require Import Base Style Fmt SpecStd StdCompat Nom Parse Codegen SpecText TextFacts StyleFacts
  StdFacts SpecGrammar ParseFacts SpecFacts GrammarFacts SpecMeaning CodegenFacts MacroFacts
  Plain Ansi Html Io StdIo Lib SpecTerminal AnsiFacts SpecHtml HtmlFacts FormatFacts SpecUtf8 Utf8Facts SpecIo IoFacts
  PropsAnsi PropsHtml PropsBuffers Effects SpecEffects PropsParse Endless SpecEndless EndlessFacts.

(** * What happens when *)
Section Xid.
Variable xid_start xid_continue : char -> bool.
Hypothesis Hx : xid_ok xid_start xid_continue.
Notation format_string := (format_string xid_start xid_continue).
Notation macro := (format_args_impl xid_start xid_continue).

(** C95: the moments of formatting with a format string are those of running the literal texts
    and the formatting code of each placeholder's value one after the other, each from where the
    one before ended. *)
Theorem C95_moments {H} (s : str) (ps : list piece) (pos : list (lexpr H)) (named : list (str * lexpr H))
  (c : code (lexpr H)) (scope : str -> lvalue H) (h h' : H) (args : larguments H) :
  format_string ps s -> macro s pos named = Expanded c -> leval_code scope c h = (h', Some args) ->
  exists pv nv,
    levaluated (pos ++ map snd named) h h' (pv ++ nv) /\
    length pv = length pos /\ length nv = length named /\
    forall f, exists parts,
      lcalls pv (combine (map fst named) nv) scope (fm_style f) 0 ps parts /\
      forall W (ws : write_fn W) w h0 o w' h1,
        (exists q, leads ws (args f) w h0 q w' h1 /\ ended q = o) <-> progress ws parts w h0 o w' h1.
Proof.
  intros Hp Hm He. apply (macro_inv _ _ Hx) in Hm as (ps' & Hp' & Hg & Hgen).
  assert (ps' = ps) as -> by (eapply format_string_unique; eassumption).
  unfold generate in Hgen.
  destruct (gen_pieces (length pos) (map fst named) ps gen_init) as [[g ss]|] eqn:E; [|discriminate].
  destruct (all_used (length pos) (map fst named) g); [|discriminate]. injection Hgen as <-.
  unfold leval_code in He. cbn [c_positional c_named c_implicit c_stmts] in He.
  destruct (leval_tuple pos h) as [h1 [pv|]] eqn:E1; [|discriminate].
  destruct (leval_tuple (map snd named) h1) as [h2 [nv|]] eqn:E2; [|discriminate].
  injection He as <- <-. destruct (leval_tuple_app _ _ _ _ _ _ _ E1 E2) as [Hev L1].
  pose proof (levaluated_length _ _ _ _ Hev) as L. rewrite !app_length, map_length in L.
  assert (L2 : length nv = length named) by lia. clear L.
  exists pv, nv. split; [exact Hev|]. split; [exact L1|]. split; [exact L2|].
  intros f. assert (L3 : length (map fst named) = length nv) by now rewrite map_length.
  pose proof (gen_pieces_lcalls pv (combine (map fst named) nv) scope ps gen_init g ss (g_implicit g) f Hg) as M.
  rewrite L1, (combine_fst _ _ L3), (combine_snd _ _ L3) in M.
  destruct (M E) as (parts & Hc & Hex); [exists []; now rewrite app_nil_r|].
  exists parts. split; [exact Hc|]. intros W ws w h0 o w' h3. destruct (Hex W ws) as [R1 R2]. split.
  - intros (q & L & <-). now apply R1.
  - apply R2.
Qed.
Print Assumptions C95_moments.

Lemma write_fmt_moments {H W} (ws : write_fn W) (args : larguments H) w h o w' h' :
  (exists q, leads ws (ldefault_write_fmt args) w h q w' h' /\ ended q = o) <->
  (exists q, leads ws (args formatter_new) w h q w' h' /\ ended q = o).
Proof.
  unfold ldefault_write_fmt, lformatter_write_fmt, ltry. split.
  - intros (q & L & <-). apply bind_leads in L as [(y & L & ->)|(r & w1 & h1 & L & L2)].
    + exists y. split; [exact L|]. destruct y as [[|]|cr|k|h2 y|s st k];
        [rewrite lbind_ret|rewrite lbind_ret|rewrite lbind_abort|rewrite lbind_get|rewrite lbind_put|rewrite lbind_emit]; reflexivity.
    + destruct r; apply leads_ended in L2 as (-> & -> & ->); try discriminate; eexists; (split; [exact L|reflexivity]).
  - intros (q & L & <-). eexists. split; [apply leads_bind; exact L|].
    destruct q as [[|]|cr|k|h2 y|s st k];
        [rewrite lbind_ret|rewrite lbind_ret|rewrite lbind_abort|rewrite lbind_get|rewrite lbind_put|rewrite lbind_emit]; reflexivity.
Qed.

(** C95: [write!] to any writer does this, in the default style. *)
Theorem C95_write {H} (s : str) (ps : list piece) (pos : list (lexpr H)) (named : list (str * lexpr H))
  (c : code (lexpr H)) (scope : str -> lvalue H) (h h' : H) (args : larguments H) :
  format_string ps s -> macro s pos named = Expanded c -> leval_code scope c h = (h', Some args) ->
  exists pv nv parts,
    levaluated (pos ++ map snd named) h h' (pv ++ nv) /\
    length pv = length pos /\ length nv = length named /\
    lcalls pv (combine (map fst named) nv) scope style_default 0 ps parts /\
    forall W (ws : write_fn W) w o w' h1,
      (exists q, leads ws (ldefault_write_fmt args) w h' q w' h1 /\ ended q = o) <-> progress ws parts w h' o w' h1.
Proof.
  intros Hp Hm He. destruct (C95_moments s ps pos named c scope h h' args Hp Hm He) as (pv & nv & H1 & H2 & H3 & H4).
  destruct (H4 formatter_new) as (parts & Hc & Hex). exists pv, nv, parts.
  split; [exact H1|]. split; [exact H2|]. split; [exact H3|]. split; [exact Hc|].
  intros W ws w o w' h1. rewrite write_fmt_moments. apply Hex.
Qed.
Print Assumptions C95_write.
End Xid.

(** * Determinism *)
Lemma lstep_det {H W} (ws : write_fn W) (p : lprog H) w h p1 w1 h1 p2 w2 h2 :
  lstep ws p w h p1 w1 h1 -> lstep ws p w h p2 w2 h2 -> p1 = p2 /\ w1 = w2 /\ h1 = h2.
Proof.
  intros A B. destruct A as [k w h|h' p w h|s st k w h w' o E N]; inversion B; subst; auto.
  match goal with X : ws w s st = (_, ?o') |- _ => rewrite E in X; injection X as -> -> end. auto.
Qed.
Lemma leads_linear {H W} (ws : write_fn W) (p : lprog H) w h q1 w1 h1 : leads ws p w h q1 w1 h1 ->
  forall q2 w2 h2, leads ws p w h q2 w2 h2 -> leads ws q1 w1 h1 q2 w2 h2 \/ leads ws q2 w2 h2 q1 w1 h1.
Proof.
  induction 1 as [p w h|p w h p1 w1 h1 q1 w1' h1' S L IH]; intros q2 w2 h2 L2; [now left|].
  inversion L2 as [|a1 a2 a3 p2 w3 h3 a4 a5 a6 S2 L2']; subst.
  - right. eapply le_step; eassumption.
  - destruct (lstep_det ws p w h _ _ _ _ _ _ S S2) as (-> & -> & ->). now apply IH.
Qed.
(** Runs end in one way at most. *)
Lemma leads_end {H W} (ws : write_fn W) (p : lprog H) w h q1 w1 h1 q2 w2 h2 :
  leads ws p w h q1 w1 h1 -> ended q1 <> None -> leads ws p w h q2 w2 h2 -> leads ws q2 w2 h2 q1 w1 h1.
Proof.
  intros A E B. destruct (leads_linear ws p w h _ _ _ A _ _ _ B) as [L|L]; [|exact L].
  apply leads_ended in L as (-> & -> & ->); [constructor|exact E].
Qed.

(** * An endless value *)

(** C95: if the parts before some part complete and that part never ends, the whole run never ends,
    and its moments are those before that part and then those of that part: what comes after it
    is never begun. *)
Theorem C95_endless_part {H W} (ws : write_fn W) (before after : list (lprog H)) (p : lprog H)
  (w w1 : W) (h h1 : H) :
  progress ws before w h (Some (Returned Ok)) w1 h1 -> endless ws p w1 h1 ->
  forall o w' h', progress ws (before ++ p :: after) w h o w' h' ->
    o = None /\ forall other, progress ws (before ++ p :: other) w h o w' h'.
Proof.
  intros P N. revert w h P. induction before as [|b before IH]; intros w h P o w' h' Q; cbn [app] in *.
  - inversion P; subst. inversion Q as [|p0 parts0 w0 h0 y w0' h0' L E|p0 parts0 w0 h0 w2 h2 o0 w0' h0' L Q']; subst.
    + pose proof (N _ _ _ L) as X. split; [exact X|]. intros other. apply pr_within; assumption.
    + pose proof (N _ _ _ L) as X. discriminate.
  - inversion P as [|p0 parts0 w0 h0 y w0' h0' L E|p0 parts0 w0 h0 w2 h2 o0 w0' h0' L P']; subst.
    + congruence.
    + inversion Q as [|p0 parts0 w0 h0 y w0' h0' L2 E|p0 parts0 w0 h0 w3 h3 o0 w0' h0' L2 Q']; subst.
      * pose proof (leads_end ws b w h _ _ _ _ _ _ L ltac:(discriminate) L2) as X.
        assert (Y : ended y = None).
        { destruct (ended y) as [oy|] eqn:Ey; [|reflexivity].
          apply leads_ended in X as (<- & _ & _); [|congruence]. cbn in Ey. congruence. }
        split; [exact Y|]. intros other. apply pr_within; assumption.
      * pose proof (leads_end ws b w h _ _ _ _ _ _ L ltac:(discriminate) L2) as X.
        apply leads_ended in X as (_ & -> & ->); [|discriminate].
        destruct (IH w3 h3 P' o w' h' Q') as [-> IH2]. split; [reflexivity|].
        intros other. eapply pr_next; [exact L|]. apply IH2.
Qed.
Print Assumptions C95_endless_part.

(** * Writers that accept everything *)
Lemma record_from {H} (p : lprog H) acc h q l h' : leads record p acc h q l h' ->
  exists writes, l = acc ++ writes /\
    forall W (ws : write_fn W), infallible ws -> forall w, leads ws p w h q (fst (play ws writes w)) h'.
Proof.
  induction 1 as [p w h|p w h p1 w1 h1 q w' h' S L IH].
  - exists []. split; [now rewrite app_nil_r|]. intros. cbn. constructor.
  - destruct IH as (writes & -> & IH). destruct S as [k w h|h2 p w h|s st k w h w1 o E N].
    + exists writes. split; [reflexivity|]. intros W ws Hi w0. eapply le_step; [constructor|now apply IH].
    + exists writes. split; [reflexivity|]. intros W ws Hi w0. eapply le_step; [constructor|now apply IH].
    + unfold record in E. injection E as <- <-. exists ((s, st) :: writes).
      split; [now rewrite <- app_assoc|]. intros W ws Hi w0. cbn [play].
      pose proof (Hi w0 s st) as Hw. destruct (ws w0 s st) as [w2 o] eqn:Ew. cbn in Hw. subst o.
      eapply le_step; [eapply ls_emit; [exact Ew|discriminate]|]. now apply IH.
Qed.
Lemma record_infallible : infallible record.
Proof. intros w s st. reflexivity. Qed.
Lemma record_play l : forall acc, fst (play record l acc) = acc ++ l.
Proof.
  induction l as [|[s st] l IH]; intros acc; cbn; [now rewrite app_nil_r|].
  rewrite IH, <- app_assoc. reflexivity.
Qed.
Lemma to_record {H W} (ws : write_fn W) (p : lprog H) w h q w' h' : infallible ws -> leads ws p w h q w' h' ->
  exists writes, w' = fst (play ws writes w) /\ forall acc, leads record p acc h q (acc ++ writes) h'.
Proof.
  intros Hi. induction 1 as [p w h|p w h p1 w1 h1 q w' h' S L IH].
  - exists []. split; [reflexivity|]. intros acc. rewrite app_nil_r. constructor.
  - destruct IH as (writes & -> & IH). destruct S as [k w h|h2 p w h|s st k w h w1 o E N].
    + exists writes. split; [reflexivity|]. intros acc. eapply le_step; [constructor|apply IH].
    + exists writes. split; [reflexivity|]. intros acc. eapply le_step; [constructor|apply IH].
    + pose proof (Hi w s st) as Hw. rewrite E in Hw. cbn in Hw. subst o.
      exists ((s, st) :: writes). split; [cbn [play]; now rewrite E|].
      intros acc. eapply le_step; [eapply ls_emit; [reflexivity|discriminate]|].
      specialize (IH (acc ++ [(s, st)])). now rewrite <- app_assoc in IH.
Qed.

(** C95: on any writer that accepts everything, each moment is one at which the code has made
    certain writes, and the writer has got exactly these: nothing is held back, and the backend has
    no influence on the code. *)
Theorem C95_backend {H W} (ws : write_fn W) (p : lprog H) (w w' : W) (h h' : H) (q : lprog H) :
  infallible ws ->
  leads ws p w h q w' h' <-> exists writes, so_far p h writes q h' /\ w' = fst (play ws writes w).
Proof.
  intros Hi. split.
  - intros L. destruct (to_record ws p w h q w' h' Hi L) as (writes & E & A). exists writes. split; [exact (A [])|exact E].
  - intros (writes & A & ->). destruct (record_from p [] h q writes h' A) as (wr & E & B). cbn in E. subst wr. now apply B.
Qed.
Print Assumptions C95_backend.

(** C95: nothing written is ever taken back: of two moments, the writes up to one begin the writes
    up to the other, and from there the code goes on to the other. *)
Theorem C95_grows {H} (p : lprog H) (h : H) (l1 l2 : history) (q1 q2 : lprog H) (h1 h2 : H) :
  so_far p h l1 q1 h1 -> so_far p h l2 q2 h2 ->
  (exists more, l2 = l1 ++ more /\ so_far q1 h1 more q2 h2) \/
  (exists more, l1 = l2 ++ more /\ so_far q2 h2 more q1 h1).
Proof.
  assert (X : forall (q q' : lprog H) l l' hh hh', leads record q l hh q' l' hh' ->
    exists more, l' = l ++ more /\ so_far q hh more q' hh').
  { intros q q' l l' hh hh' L. destruct (record_from _ _ _ _ _ _ L) as (more & -> & A). exists more. split; [reflexivity|].
    specialize (A _ record record_infallible []). rewrite record_play in A. exact A. }
  intros A B. destruct (leads_linear record p [] h _ _ _ A _ _ _ B) as [L|L]; [left|right]; now apply X.
Qed.
Print Assumptions C95_grows.

(** C95: at every moment of writing to an Ansi adaptor over a String, a terminal fed with what the
    String holds then shows exactly what was written so far, each character in its style; and if
    the adaptor were finished at that moment, the terminal would be reset. *)
Theorem C95_ansi {H} (p q : lprog H) (h h' : H) (w' : ansi str) :
  leads (ansi_write_str string_sink) p (lib_ansi []) h q w' h' ->
  exists writes, so_far p h writes q h' /\
    (no_controls (text_of writes) ->
     term_feed sgr_style term_new (an_inner w')
     = mk_term Ground (last_style style_default (denote writes)) (denote writes) /\
     exists out, ansi_finish string_sink w' = (out, Returned Ok) /\
       term_feed sgr_style term_new out = mk_term Ground style_default (denote writes)).
Proof.
  intros L. apply (C95_backend _ _ _ _ _ _ _ ansi_infallible) in L as (writes & A & ->).
  exists writes. split; [exact A|]. intros Hn. unfold lib_ansi, ansi_new. rewrite ansi_play.
  cbn [fst an_inner an_current]. rewrite ansi_finish_string. cbn [an_inner an_current app].
  assert (X : term_feed sgr_style term_new (ansi_render style_default (denote writes))
     = mk_term Ground (last_style style_default (denote writes)) (denote writes)).
  { unfold term_new. change (mk_style ColorDefault ColorDefault Normal) with style_default.
    now rewrite render_shows by (now rewrite chars_denote). }
  split; [exact X|]. eexists. split; [reflexivity|]. rewrite feed_app, X. apply esc_default_ends.
Qed.
Print Assumptions C95_ansi.

(** C95: the same for an Html adaptor: the document so far, closed at that moment, shows exactly
    what was written. *)
Theorem C95_html {H} (p q : lprog H) (h h' : H) (w' : html str) :
  leads (html_write_str string_sink) p (lib_html []) h q w' h' ->
  exists writes, so_far p h writes q h' /\
    pg_cells (page_feed page_new (ht_inner w')) = looks (denote writes) /\
    exists out, html_finish string_sink w' = (out, Returned Ok) /\
      page_feed page_new out = mk_page Data [] (looks (denote writes)).
Proof.
  intros L. apply (C95_backend _ _ _ _ _ _ _ html_infallible) in L as (writes & A & ->).
  exists writes. split; [exact A|].
  pose proof (html_render_view style_default (denote writes) []) as X. cbn in X.
  change (open_elements style_default) with (@nil css) in X.
  unfold lib_html, html_new. rewrite html_play. cbn [fst ht_inner ht_current app]. unfold page_new in *. split.
  - now rewrite X.
  - rewrite html_finish_string. cbn [ht_inner ht_current app]. eexists. split; [reflexivity|].
    rewrite pfeed_app, X. rewrite feed_hesc. reflexivity.
Qed.
Print Assumptions C95_html.

(** C95: and for a Plain adaptor, whose String holds exactly the text so far. *)
Theorem C95_plain {H} (p q : lprog H) (h h' : H) (w' : plain str) :
  leads (plain_write_str string_sink) p (lib_plain []) h q w' h' ->
  exists writes, so_far p h writes q h' /\ plain_into_inner w' = text_of writes.
Proof.
  intros L. apply (C95_backend _ _ _ _ _ _ _ plain_infallible) in L as (writes & A & ->).
  exists writes. split; [exact A|]. now rewrite plain_play.
Qed.
Print Assumptions C95_plain.

(** * Stopping *)
Lemma gives_up_ends {H W} (ws : write_fn W) (p : lprog H) : gives_up p -> forall w h,
  exists h', leads ws p w h (LRet Err) w h'.
Proof.
  induction 1 as [|k _ IH|h1 p _ IH]; intros w h.
  - exists h. constructor.
  - destruct (IH h w h) as [h' L]. exists h'. eapply le_step; [apply ls_get|exact L].
  - destruct (IH w h1) as [h' L]. exists h'. eapply le_step; [apply ls_put|exact L].
Qed.

Lemma stops {H W} (ws : write_fn W) (room : W -> nat) : limited ws room ->
  forall n (p : lprog H), productive p -> lpropagates p -> forall w h, room w < n ->
  exists q w' h' o, leads ws p w h q w' h' /\ ended q = Some o /\
    (o = Returned Err /\ (exists w0 s st, ws w0 s st = (w', Returned Err)) \/
     room w' <= room w /\ exists writes, play ws writes w = (w', Returned Ok) /\
       forall acc, leads record p acc h q (acc ++ writes) h').
Proof.
  intros Hl. induction n as [|n IHn]; intros p Hp Hr w h Hw; [lia|].
  destruct Hp as [Hs]. revert Hr w h Hw. induction Hs as [r|c|k _ IH|h1 p _ IH|st k _ IH|s st k Hs Hk]; intros Hr w h Hw.
  - exists (LRet r), w, h, (Returned r). split; [constructor|]. split; [reflexivity|]. right. split; [lia|].
    exists []. split; [reflexivity|]. intros acc. rewrite app_nil_r. constructor.
  - exists (LAbort c), w, h, (Crashed c). split; [constructor|]. split; [reflexivity|]. right. split; [lia|].
    exists []. split; [reflexivity|]. intros acc. rewrite app_nil_r. constructor.
  - inversion Hr as [| |k' Hk| |]; subst.
    destruct (IH h (Hk h) w h Hw) as (q & w' & h' & o & L & E & X).
    exists q, w', h', o. split; [eapply le_step; [apply ls_get|exact L]|]. split; [exact E|].
    destruct X as [X|[R [wr [Y X]]]]; [now left|]. right. split; [exact R|]. exists wr. split; [exact Y|]. intros acc.
    eapply le_step; [apply ls_get|apply X].
  - inversion Hr as [| | |h2 p' Hk|]; subst.
    destruct (IH Hk w h1 Hw) as (q & w' & h' & o & L & E & X).
    exists q, w', h', o. split; [eapply le_step; [apply ls_put|exact L]|]. split; [exact E|].
    destruct X as [X|[R [wr [Y X]]]]; [now left|]. right. split; [exact R|]. exists wr. split; [exact Y|]. intros acc.
    eapply le_step; [apply ls_put|apply X].
  - inversion Hr as [| | | |s' st' k' He Ho]; subst.
    destruct (li_returns ws room Hl w [] st) as [r Er]. destruct (ws w [] st) as [w1 o1] eqn:Ew. cbn in Er. subst o1.
    destruct r.
    + pose proof (li_same ws room Hl _ _ _ _ Ew) as Rm.
      destruct (IH (Returned Ok) Ho w1 h ltac:(lia)) as (q & w' & h' & o & L & E & X).
      exists q, w', h', o. split; [eapply le_step; [eapply ls_emit; [exact Ew|discriminate]|exact L]|]. split; [exact E|].
      destruct X as [X|[R [wr [Y X]]]]; [now left|]. right. split; [lia|]. exists (([], st) :: wr).
      split; [cbn [play]; rewrite Ew; exact Y|]. intros acc.
      eapply le_step; [eapply ls_emit; [reflexivity|discriminate]|].
      specialize (X (acc ++ [([], st)])). rewrite <- app_assoc in X. exact X.
    + destruct (gives_up_ends ws _ He w1 h) as [h' L].
      exists (LRet Err), w1, h', (Returned Err). split; [eapply le_step; [eapply ls_emit; [exact Ew|discriminate]|exact L]|].
      split; [reflexivity|]. left. split; [reflexivity|eauto].
  - inversion Hr as [| | | |s' st' k' He Ho]; subst.
    destruct (li_returns ws room Hl w s st) as [r Er]. destruct (ws w s st) as [w1 o1] eqn:Ew. cbn in Er. subst o1.
    destruct r.
    + pose proof (li_less ws room Hl _ _ _ _ Ew Hs) as Rm.
      destruct (IHn _ (Hk (Returned Ok)) Ho w1 h ltac:(lia)) as (q & w' & h' & o & L & E & X).
      exists q, w', h', o. split; [eapply le_step; [eapply ls_emit; [exact Ew|discriminate]|exact L]|]. split; [exact E|].
      destruct X as [X|[R [wr [Y X]]]]; [now left|]. right. split; [lia|]. exists ((s, st) :: wr).
      split; [cbn [play]; rewrite Ew; exact Y|]. intros acc.
      eapply le_step; [eapply ls_emit; [reflexivity|discriminate]|].
      specialize (X (acc ++ [(s, st)])). rewrite <- app_assoc in X. exact X.
    + destruct (gives_up_ends ws _ He w1 h) as [h' L].
      exists (LRet Err), w1, h', (Returned Err). split; [eapply le_step; [eapply ls_emit; [exact Ew|discriminate]|exact L]|].
      split; [reflexivity|]. left. split; [reflexivity|eauto].
Qed.

(** C95: code that keeps writing and gives up when a write fails ends on every writer with limited
    room: with [Err] after a write that failed, unless it ends of itself, the writer having
    accepted all its writes. *)
Theorem C95_stops {H W} (ws : write_fn W) (room : W -> nat) (p : lprog H) (w : W) (h : H) :
  limited ws room -> productive p -> lpropagates p ->
  exists q w' h' o, leads ws p w h q w' h' /\ ended q = Some o /\
    (o = Returned Err /\ (exists w0 s st, ws w0 s st = (w', Returned Err)) \/
     exists writes, so_far p h writes q h' /\ play ws writes w = (w', Returned Ok)).
Proof.
  intros Hl Hp Hr. destruct (stops ws room Hl (S (room w)) p Hp Hr w h ltac:(lia)) as (q & w' & h' & o & L & E & X).
  exists q, w', h', o. split; [exact L|]. split; [exact E|]. destruct X as [X|[_ [wr [Y X]]]]; [now left|].
  right. exists wr. split; [exact (X [])|exact Y].
Qed.
Print Assumptions C95_stops.

(** Parts one after the other. *)
Lemma parts_stop {H W} (ws : write_fn W) (room : W -> nat) : limited ws room ->
  forall parts : list (lprog H), Forall (fun p => productive p /\ lpropagates p) parts -> forall w h,
  exists w' h' o, progress ws parts w h (Some o) w' h' /\
    (o = Returned Err /\ (exists w0 s st, ws w0 s st = (w', Returned Err)) \/
     exists writes, play ws writes w = (w', Returned Ok) /\ forall acc, progress record parts acc h (Some o) (acc ++ writes) h').
Proof.
  intros Hl parts Hp. induction Hp as [|p parts [P1 P2] Hp IH]; intros w h.
  - exists w, h, (Returned Ok). split; [constructor|]. right. exists []. split; [reflexivity|]. intros acc. rewrite app_nil_r. constructor.
  - destruct (stops ws room Hl (S (room w)) p P1 P2 w h ltac:(lia)) as (q & w1 & h1 & o & L & E & X).
    destruct (ended q) as [[[|]|c]|] eqn:Eq; [| | |discriminate]; injection E as <-.
    + apply ended_ok in Eq. subst q. destruct (IH w1 h1) as (w' & h' & o & Q & Y).
      exists w', h', o. split; [eapply pr_next; eassumption|].
      destruct X as [[X _]|[_ [wr [P X]]]]; [discriminate|]. destruct Y as [Y|[wr' [P' Y]]]; [now left|right].
      exists (wr ++ wr'). split; [rewrite play_app, P; exact P'|]. intros acc. eapply pr_next; [apply X|]. rewrite app_assoc. apply Y.
    + exists w1, h1, (Returned Err). split; [rewrite <- Eq; apply pr_within; [exact L|congruence]|].
      destruct X as [X|[_ [wr [P X]]]]; [now left|]. right. exists wr. split; [exact P|]. intros acc. rewrite <- Eq.
      apply pr_within; [apply X|congruence].
    + exists w1, h1, (Crashed c). split; [rewrite <- Eq; apply pr_within; [exact L|congruence]|].
      destruct X as [X|[_ [wr [P X]]]]; [now left|]. right. exists wr. split; [exact P|]. intros acc. rewrite <- Eq.
      apply pr_within; [apply X|congruence].
Qed.

(** Values whose code, for every trait, keeps writing and gives up when a write fails. *)
Definition well_behaved {H} (v : lvalue H) : Prop :=
  forall t st flags, productive (lcode_of t v st flags) /\ lpropagates (lcode_of t v st flags).

Lemma write_text_ok {H} st s : productive (lwrite_text st s : lprog H) /\ lpropagates (lwrite_text st s : lprog H).
Proof.
  unfold lwrite_text. split.
  - constructor. destruct s as [|c s].
    + apply so_empty. intros [r|c]; constructor.
    + apply so_write; [discriminate|]. intros [r|x]; constructor; constructor.
  - apply lp_emit; constructor.
Qed.
Lemma lcalls_ok {H} (pos : list (lvalue H)) named scope S n ps parts :
  Forall well_behaved pos -> Forall (fun nv => well_behaved (snd nv)) named -> (forall x, well_behaved (scope x)) ->
  lcalls pos named scope S n ps parts -> Forall (fun p => productive p /\ lpropagates p) parts.
Proof.
  intros Hp Hn Hs. induction 1 as [n|n s ps parts _ IH|n a v ps parts U _ IH].
  - constructor.
  - apply Forall_cons; [apply write_text_ok|exact IH].
  - apply Forall_cons; [|exact IH]. apply (fun X : well_behaved v => X _ _ _).
    destruct U as [v U|i v U|name v before after U _|name _].
    + rewrite Forall_forall in Hp. apply Hp. eapply nth_error_In, U.
    + rewrite Forall_forall in Hp. apply Hp. eapply nth_error_In, U.
    + rewrite Forall_forall in Hn. apply (Hn (name, v)). rewrite U. apply in_or_app. right. now left.
    + apply Hs.
Qed.

Lemma levaluated_in {H} (es : list (lexpr H)) h h' vs : levaluated es h h' vs ->
  Forall (fun e : lexpr H => forall h h1 v, e h = (h1, Some v) -> well_behaved v) es -> Forall well_behaved vs.
Proof. induction 1 as [|e es h h1 h2 v vs E _ IH]; intros F; [constructor|]. inversion F; subst. constructor; eauto. Qed.

Section XidStops.
Variable xid_start xid_continue : char -> bool.
Hypothesis Hx : xid_ok xid_start xid_continue.
Notation format_string := (format_string xid_start xid_continue).
Notation macro := (format_args_impl xid_start xid_continue).

(** C95: so a [write!] of endless (or any other) values of this kind ends on every writer with
    limited room: with [Err], or after writing everything. *)
Theorem C95_write_stops {H W} (ws : write_fn W) (room : W -> nat) (w : W)
  (s : str) (ps : list piece) (pos : list (lexpr H)) (named : list (str * lexpr H))
  (c : code (lexpr H)) (scope : str -> lvalue H) (h h' : H) (args : larguments H) :
  format_string ps s -> macro s pos named = Expanded c -> leval_code scope c h = (h', Some args) ->
  Forall (fun e : lexpr H => forall h h1 v, e h = (h1, Some v) -> well_behaved v) (pos ++ map snd named) ->
  (forall x, well_behaved (scope x)) ->
  limited ws room ->
  exists q w' h1 o, leads ws (ldefault_write_fmt args) w h' q w' h1 /\ ended q = Some o /\
    (o = Returned Err /\ (exists w0 s st, ws w0 s st = (w', Returned Err)) \/
     exists writes q', so_far (ldefault_write_fmt args) h' writes q' h1 /\ ended q' = Some o /\
       play ws writes w = (w', Returned Ok)).
Proof.
  intros Hp Hm He Hv Hs Hl.
  destruct (C95_write _ _ Hx s ps pos named c scope h h' args Hp Hm He) as (pv & nv & parts & H1 & H2 & H3 & H4 & H5).
  pose proof (levaluated_in _ _ _ _ H1 Hv) as F. apply Forall_app in F as [F1 F2].
  assert (F3 : Forall (fun nv : str * lvalue H => well_behaved (snd nv)) (combine (map fst named) nv)).
  { apply Forall_forall. intros [n v] I. rewrite Forall_forall in F2. apply F2. eapply in_combine_r, I. }
  pose proof (lcalls_ok _ _ _ _ _ _ _ F1 F3 Hs H4) as G.
  destruct (parts_stop ws room Hl parts G w h') as (w' & h1 & o & P & X).
  apply H5 in P as (q & L & E). exists q, w', h1, o. split; [exact L|]. split; [exact E|].
  destruct X as [X|[wr [Y X]]]; [now left|right]. exists wr. specialize (X []). apply H5 in X as (q' & L' & E').
  exists q'. split; [exact L'|]. split; [exact E'|exact Y].
Qed.
Print Assumptions C95_write_stops.
End XidStops.

(** * Writers with limited room *)
Lemma parts_limited {S} (sink : fmt_sink S) room : limited_sink sink room -> forall parts i,
  (exists r, snd (write_parts sink parts i) = Returned r) /\
  (forall i', write_parts sink parts i = (i', Returned Ok) -> room i' <= room i /\ (concat parts <> [] -> room i' < room i)).
Proof.
  intros Hl. induction parts as [|p parts IH]; intros i; cbn [write_parts concat].
  - split; [eexists; reflexivity|]. intros i' [= <-]. split; [lia|congruence].
  - destruct (ls_returns sink room Hl i p) as [r Er]. destruct (sink i p) as [i1 o] eqn:Ei. cbn in Er. subst o.
    destruct r.
    + destruct (IH i1) as [I1 I2]. split; [exact I1|]. intros i' E. apply I2 in E as [E1 E2].
      pose proof (ls_same sink room Hl _ _ _ Ei) as X. split; [lia|]. intros N.
      destruct p as [|ch p]; [cbn in N; specialize (E2 N); lia|].
      pose proof (ls_less sink room Hl _ _ _ Ei ltac:(discriminate)). lia.
    + split; [eexists; reflexivity|]. intros i' E. discriminate.
Qed.

(** C95: the adaptors over a sink with limited room have limited room. *)
Theorem C95_adaptors_limited {S} (sink : fmt_sink S) (room : S -> nat) :
  limited_sink sink room ->
  limited (ansi_write_str sink) (fun w => room (an_inner w)) /\
  limited (html_write_str sink) (fun w => room (ht_inner w)) /\
  limited (plain_write_str sink) (fun w => room (pl_inner w)).
Proof.
  intros Hl. split; [|split].
  - assert (G : forall w s st, (exists r, snd (ansi_write_str sink w s st) = Returned r) /\
      forall w', ansi_write_str sink w s st = (w', Returned Ok) ->
        room (an_inner w') <= room (an_inner w) /\ (s <> [] -> room (an_inner w') < room (an_inner w))).
    { intros [i cur] s st. unfold ansi_write_str. cbn [an_inner an_current]. destruct s as [|ch s].
      - cbn. split; [eexists; reflexivity|]. intros w' [= <-]. cbn. split; [lia|congruence].
      - cbn [is_empty]. destruct (parts_limited sink room Hl (ansi_change cur st) i) as [I1 I2].
        destruct (write_parts sink (ansi_change cur st) i) as [i1 [[|]|x]] eqn:E.
        + destruct (ls_returns sink room Hl i1 (ch :: s)) as [r Er].
          destruct (sink i1 (ch :: s)) as [i2 o] eqn:E2. cbn in Er. subst o. split; [eexists; reflexivity|].
          intros w' [= <- ->]. cbn [an_inner]. destruct (I2 _ eq_refl) as [I3 _].
          pose proof (ls_less sink room Hl _ _ _ E2 ltac:(discriminate)). split; [lia|intros _; lia].
        + split; [eexists; reflexivity|]. intros w' [=].
        + destruct I1 as [r I1]. discriminate I1. }
    split; intros w s st; [apply G|intros w' E; now apply (G w s st)|intros w' E; now apply (G w s st)].
  - assert (G : forall w s st, (exists r, snd (html_write_str sink w s st) = Returned r) /\
      forall w', html_write_str sink w s st = (w', Returned Ok) ->
        room (ht_inner w') <= room (ht_inner w) /\ (s <> [] -> room (ht_inner w') < room (ht_inner w))).
    { intros [i cur] s st. unfold html_write_str. cbn [ht_inner ht_current]. destruct s as [|ch s].
      - cbn. split; [eexists; reflexivity|]. intros w' [= <-]. cbn. split; [lia|congruence].
      - cbn [is_empty]. destruct (parts_limited sink room Hl (html_change cur st) i) as [I1 I2].
        destruct (write_parts sink (html_change cur st) i) as [i1 [[|]|x]] eqn:E.
        + destruct (parts_limited sink room Hl (escape_parts (ch :: s)) i1) as [J1 J2].
          destruct (write_parts sink (escape_parts (ch :: s)) i1) as [i2 o] eqn:E2.
          destruct J1 as [r J1]. cbn in J1. subst o. split; [eexists; reflexivity|].
          intros w' [= <- ->]. cbn [ht_inner]. destruct (I2 _ eq_refl) as [I3 _]. destruct (J2 _ eq_refl) as [_ J3].
          assert (N : concat (escape_parts (ch :: s)) <> []).
          { rewrite escape_parts_concat. cbn. unfold escaped_char. 
            destruct (N.eqb ch 34), (N.eqb ch 38), (N.eqb ch 39), (N.eqb ch 60), (N.eqb ch 62); discriminate. }
          specialize (J3 N). split; [lia|intros _; lia].
        + split; [eexists; reflexivity|]. intros w' [=].
        + destruct I1 as [r I1]. discriminate I1. }
    split; intros w s st; [apply G|intros w' E; now apply (G w s st)|intros w' E; now apply (G w s st)].
  - split; intros [i] s st; unfold plain_write_str; cbn [pl_inner].
    + destruct (ls_returns sink room Hl i s) as [r Er]. destruct (sink i s) as [i1 o]. eexists. exact Er.
    + intros w'. destruct (sink i s) as [i1 o] eqn:E. intros [= <- ->]. cbn. now apply (ls_less sink room Hl _ _ _ E).
    + intros w'. destruct (sink i s) as [i1 o] eqn:E. intros [= <- ->]. cbn. now apply (ls_same sink room Hl _ _ _ E).
Qed.
Print Assumptions C95_adaptors_limited.

(** * io *)
Definition io_result {W} (t : error_trap W) (o : outcome) : io_res unit :=
  match o with
  | Returned Ok => IoOk tt
  | Returned Err => IoErr (trap_error t)
  | Crashed c => IoCrash c
  end.
Lemma io_leads_iff {H W} (wa : W -> bytes -> style -> W * io_res unit) (args : larguments H) w h res w' h' :
  io_leads wa args w h res w' h' <->
  exists q t, leads (trap_write_str wa) (ldefault_write_fmt args) (trap_new w) h q t h' /\
    res = option_map (io_result t) (ended q) /\ w' = et_inner t.
Proof.
  split.
  - intros [q t h1 L E|q t h1 L E|q t h1 L E|q t h1 c L E]; exists q, t; rewrite E; auto.
  - intros (q & t & L & -> & ->). destruct (ended q) as [[[|]|c]|] eqn:E; cbn [option_map io_result].
    + eapply il_ok; eassumption.
    + eapply il_err; eassumption.
    + eapply il_crash; eassumption.
    + eapply il_running; eassumption.
Qed.

Lemma trap_keeps {W} (wa : W -> bytes -> style -> W * io_res unit) l : forall t t',
  play (trap_write_str wa) l t = (t', Returned Ok) -> et_error t' = et_error t.
Proof.
  induction l as [|[s st] l IH]; intros t t'; cbn [play]; [now intros [= <-]|].
  unfold trap_write_str at 1. destruct (wa (et_inner t) (utf8 s) st) as [w [u|e|c]]; try discriminate.
  intros E. apply IH in E. exact E.
Qed.
Lemma infallible_ok {W} (ws : write_fn W) l w : infallible ws -> play ws l w = (fst (play ws l w), Returned Ok).
Proof. intros Hi. now rewrite (infallible_play ws l w Hi). Qed.
Lemma clean_io {W} (t : error_trap W) o : et_error t = None -> clean_result o (io_result t o).
Proof.
  intros E. destruct o as [[|]|c]; cbn; [reflexivity| |reflexivity].
  unfold trap_error. rewrite E. eexists. split; reflexivity.
Qed.

(** C95: at every moment of a [write!] to io::Ansi over a Vec, the Vec holds exactly the bytes of
    what the in-memory adaptor holds for what was written so far, and the call has returned
    exactly if the formatting code has ended, what that says. *)
Theorem C95_io_ansi {H} (fuel : nat) (args : larguments H) (h h' : H) (res : option (io_res unit)) (w' : io_ansi bytes) :
  1 <= fuel ->
  io_leads (io_write_all (IoWrite_ansi fuel vec_sink)) args (lib_io_ansi []) h res w' h' ->
  exists writes q, so_far (ldefault_write_fmt args) h writes q h' /\
    match ended q, res with
    | None, None => True
    | Some o, Some r => clean_result o r
    | _, _ => False
    end /\
    exists w, play (ansi_write_str string_sink) writes (lib_ansi []) = (w, Returned Ok) /\
      ia_inner w' = utf8 (an_inner w) /\ ia_current w' = an_current w.
Proof.
  intros Hf L. apply io_leads_iff in L as (q & t & L & -> & ->).
  change (io_write_all (IoWrite_ansi fuel vec_sink)) with (io_ansi_write_all fuel vec_sink) in L.
  apply (C95_backend _ _ _ _ _ _ _ (vec_trap_infallible fuel Hf)) in L as (writes & A & E).
  pose proof (infallible_ok _ writes (trap_new (lib_io_ansi [])) (vec_trap_infallible fuel Hf)) as P. subst t.
  exists writes, q. split; [exact A|]. split.
  - destruct (ended q) as [o|]; [|exact I]. cbn [option_map]. apply clean_io. now apply trap_keeps in P.
  - unfold lib_ansi, ansi_new. rewrite ansi_play. eexists. split; [reflexivity|].
    apply (trap_play_ok _ _ (fun v => v) vec_honest) in P as [B C]. split; [exact C|exact B].
Qed.
Print Assumptions C95_io_ansi.

(** C95: the same for io::Plain. *)
Theorem C95_io_plain {H} (args : larguments H) (h h' : H) (res : option (io_res unit)) (w' : io_plain bytes) :
  io_leads (io_write_all (IoWrite_plain vec_sink)) args (lib_io_plain []) h res w' h' ->
  exists writes q, so_far (ldefault_write_fmt args) h writes q h' /\
    match ended q, res with
    | None, None => True
    | Some o, Some r => clean_result o r
    | _, _ => False
    end /\
    ipl_inner w' = utf8 (text_of writes).
Proof.
  intros L. apply io_leads_iff in L as (q & t & L & -> & ->).
  change (io_write_all (IoWrite_plain vec_sink)) with (io_plain_write_all vec_sink) in L.
  apply (C95_backend _ _ _ _ _ _ _ vec_plain_trap_infallible) in L as (writes & A & E).
  pose proof (infallible_ok _ writes (trap_new (lib_io_plain [])) vec_plain_trap_infallible) as P. subst t.
  exists writes, q. split; [exact A|]. split.
  - destruct (ended q) as [o|]; [|exact I]. cbn [option_map]. apply clean_io. now apply trap_keeps in P.
  - now apply (plain_trap_ok _ _ (fun v => v) vec_honest) in P.
Qed.
Print Assumptions C95_io_plain.

(** Fixed-size buffers. *)
Lemma slice_trap fuel : 2 <= fuel ->
  limited (trap_write_str (io_ansi_write_all fuel slice_sink)) (fun t => snd (ia_inner (et_inner t))) /\
  forall t s st t', trap_write_str (io_ansi_write_all fuel slice_sink) t s st = (t', Returned Err) ->
    exists e, et_error t' = Some e /\ err_kind e = WriteZero.
Proof.
  intros Hf.
  assert (G : forall t s st,
    let r := trap_write_str (io_ansi_write_all fuel slice_sink) t s st in
    (exists x, snd r = Returned x) /\
    (snd r = Returned Ok -> snd (ia_inner (et_inner (fst r))) <= snd (ia_inner (et_inner t)) /\
       (s <> [] -> snd (ia_inner (et_inner (fst r))) < snd (ia_inner (et_inner t)))) /\
    (snd r = Returned Err -> exists e, et_error (fst r) = Some e /\ err_kind e = WriteZero)).
  { intros [[i cur] er] s st. unfold trap_write_str. cbn [et_inner et_error]. destruct s as [|ch s].
    - cbn [utf8 flat_map]. unfold io_ansi_write_all. destruct fuel as [|fuel]; [lia|]. cbn. split; [eexists; reflexivity|].
      split; [|discriminate]. intros _. split; [lia|congruence].
    - assert (N : utf8 (ch :: s) <> []) by (intros X; pose proof (proj1 (utf8_nil (ch :: s)) X); discriminate).
      destruct (slice_ansi_write_all fuel i cur (utf8 (ch :: s)) st Hf N) as (cur' & r & -> & R).
      set (full := utf8 (esc cur st) ++ utf8 (ch :: s)) in *.
      assert (Lf : 0 < length full).
      { unfold full. rewrite app_length. destruct (utf8 (ch :: s)); [congruence|cbn; lia]. }
      destruct (Nat.leb_spec (length full) (snd i)) as [Hle|Hgt].
      + destruct R as [-> ->]. cbn [fst snd et_inner ia_inner et_error]. rewrite poured_room.
        split; [eexists; reflexivity|]. split; [|discriminate]. intros _. split; [lia|intros _; lia].
      + destruct R as (e & -> & K). cbn [fst snd et_inner ia_inner et_error].
        split; [eexists; reflexivity|]. split; [discriminate|]. intros _. eauto. }
  split; [split|].
  - intros t s st. exact (proj1 (G t s st)).
  - intros t s st t' E Ns. pose proof (proj1 (proj2 (G t s st))) as X. rewrite E in X. cbn in X. now apply X.
  - intros t s st t' E. pose proof (proj1 (proj2 (G t s st))) as X. rewrite E in X. cbn in X. now apply X.
  - intros t s st t' E. pose proof (proj2 (proj2 (G t s st))) as X. rewrite E in X. cbn in X. now apply X.
Qed.
(** C95: a [write!] of endless (or any other) code that keeps writing and gives up when a write
    fails, to io::Ansi over a fixed-size buffer, always returns: an error of kind WriteZero, unless
    the code ends of itself with everything in the buffer. *)
Theorem C95_io_slice {H} (fuel : nat) (args : larguments H) (w : io_ansi (bytes * nat)) (h : H) :
  2 <= fuel -> productive (ldefault_write_fmt args) -> lpropagates (ldefault_write_fmt args) ->
  exists r w' h', io_leads (io_write_all (IoWrite_ansi fuel slice_sink)) args w h (Some r) w' h' /\
    ((exists e, r = IoErr e /\ err_kind e = WriteZero) \/
     exists writes q o, so_far (ldefault_write_fmt args) h writes q h' /\ ended q = Some o /\ clean_result o r).
Proof.
  intros Hf Hp Hr. destruct (slice_trap fuel Hf) as [Hl Hz].
  destruct (C95_stops _ _ (ldefault_write_fmt args) (trap_new w) h Hl Hp Hr) as (q & t & h' & o & L & E & X).
  exists (io_result t o), (et_inner t), h'. split.
  - apply io_leads_iff. exists q, t. rewrite E. auto.
  - destruct X as [[-> (t0 & s & st & Et)]|[writes [X Y]]].
    + left. apply Hz in Et as (e & Ee & K). cbn. unfold trap_error. rewrite Ee. eauto.
    + right. exists writes, q, o. split; [exact X|]. split; [exact E|]. apply clean_io.
      now apply trap_keeps in Y.
Qed.
Print Assumptions C95_io_slice.

(** * Relation to code that terminates *)
Fixpoint lazily {H} (p : eprog H) : lprog H :=
  match p with
  | ERet r => LRet r
  | EAbort c => LAbort c
  | EGet k => LGet (fun h => lazily (k h))
  | EPut h p => LPut h (lazily p)
  | EEmit s st k => LEmit s st (fun o => lazily (k o))
  end.

(** C95: terminating code (that of the other properties), seen as code that might not terminate,
    ends on every writer whose calls return, as before. *)
Theorem C95_conservative {H W} (ws : write_fn W) (p : eprog H) (w : W) (h : H) :
  returns ws ->
  exists q w' h' o, leads ws (lazily p) w h q w' h' /\ ended q = Some o /\ erun ws p w h = (w', h', o).
Proof.
  intros Hr. revert w h. induction p as [r|c|k IH|h1 p IH|s st k IH]; intros w h; cbn [lazily erun].
  - exists (LRet r), w, h, (Returned r). split; [constructor|]. split; reflexivity.
  - exists (LAbort c), w, h, (Crashed c). split; [constructor|]. split; reflexivity.
  - destruct (IH h w h) as (q & w' & h' & o & L & E & X). exists q, w', h', o.
    split; [eapply le_step; [apply ls_get|exact L]|]. auto.
  - destruct (IH w h1) as (q & w' & h' & o & L & E & X). exists q, w', h', o.
    split; [eapply le_step; [apply ls_put|exact L]|]. auto.
  - destruct (Hr w s st) as [r Er]. destruct (ws w s st) as [w1 o1] eqn:Ew. cbn in Er. subst o1.
    destruct (IH (Returned r) w1 h) as (q & w' & h' & o & L & E & X). exists q, w', h', o.
    split; [eapply le_step; [eapply ls_emit; [exact Ew|discriminate]|exact L]|]. auto.
Qed.
Print Assumptions C95_conservative.

(** C95: conversely, up to any moment code behaves, on every writer whose calls return, as some
    terminating code without side effects that then hangs, so what is proved about the latter when
    it crashes applies at every moment. *)
Fixpoint first_steps {H} (n : nat) (p : lprog H) (h : H) : wprog :=
  match n with
  | O => match ended p with Some (Returned r) => Ret r | Some (Crashed c) => Abort c | None => Abort Diverge end
  | S n =>
      match p with
      | LRet r => Ret r
      | LAbort c => Abort c
      | LGet k => first_steps n (k h) h
      | LPut h' p' => first_steps n p' h'
      | LEmit s st k => Emit s st (fun r => first_steps n (k (Returned r)) h)
      end
  end.
Theorem C95_as_finite {H} (p : lprog H) (h : H) :
  exists code : nat -> wprog, forall W (ws : write_fn W) w, returns ws ->
    (forall n, exists q w' h', leads ws p w h q w' h' /\
       run ws (code n) w = (w', match ended q with Some o => o | None => Crashed Diverge end)) /\
    (forall q w' h', leads ws p w h q w' h' -> exists n,
       run ws (code n) w = (w', match ended q with Some o => o | None => Crashed Diverge end)).
Proof.
  exists (fun n => first_steps n p h). intros W ws w Hr. split.
  - intros n. revert p h w. induction n as [|n IH]; intros p h w.
    + exists p, w, h. split; [constructor|]. cbn. destruct (ended p) as [[r|c]|]; reflexivity.
    + destruct p as [r|c|k|h1 p|s st k]; cbn [first_steps].
      * exists (LRet r), w, h. split; [constructor|reflexivity].
      * exists (LAbort c), w, h. split; [constructor|reflexivity].
      * destruct (IH (k h) h w) as (q & w' & h' & L & E). exists q, w', h'.
        split; [eapply le_step; [apply ls_get|exact L]|exact E].
      * destruct (IH p h1 w) as (q & w' & h' & L & E). exists q, w', h'.
        split; [eapply le_step; [apply ls_put|exact L]|exact E].
      * cbn [run]. destruct (Hr w s st) as [r Er]. destruct (ws w s st) as [w1 o1] eqn:Ew. cbn in Er. subst o1.
        destruct (IH (k (Returned r)) h w1) as (q & w' & h' & L & E). exists q, w', h'.
        split; [eapply le_step; [eapply ls_emit; [exact Ew|discriminate]|exact L]|exact E].
  - intros q w' h'. induction 1 as [p w h|p w h p1 w1 h1 q w' h' S L IH].
    + exists 0. cbn. destruct (ended p) as [[r|c]|]; reflexivity.
    + destruct IH as [n IH]. exists (Datatypes.S n). destruct S as [k w h|h2 p w h|s st k w h w1 o Ew No].
      * exact IH.
      * exact IH.
      * cbn [first_steps run]. rewrite Ew. destruct o as [r|[|]]; [exact IH| |congruence].
        destruct (Hr w s st) as [r Er]. rewrite Ew in Er. discriminate.
Qed.
Print Assumptions C95_as_finite.

(** C95: so a [write!] of values of this kind to io::Ansi over a fixed-size buffer always returns. *)
Theorem C95_io_slice_write {H} (xid_start xid_continue : char -> bool) (fuel : nat) (w : io_ansi (bytes * nat))
  (s : str) (ps : list piece) (pos : list (lexpr H)) (named : list (str * lexpr H))
  (c : code (lexpr H)) (scope : str -> lvalue H) (h h' : H) (args : larguments H) :
  xid_ok xid_start xid_continue -> 2 <= fuel ->
  format_string xid_start xid_continue ps s -> format_args_impl xid_start xid_continue s pos named = Expanded c ->
  leval_code scope c h = (h', Some args) ->
  Forall (fun e : lexpr H => forall h h1 v, e h = (h1, Some v) -> well_behaved v) (pos ++ map snd named) ->
  (forall x, well_behaved (scope x)) ->
  exists r w' h1, io_leads (io_write_all (IoWrite_ansi fuel slice_sink)) args w h' (Some r) w' h1 /\
    ((exists e, r = IoErr e /\ err_kind e = WriteZero) \/
     exists writes q o, so_far (ldefault_write_fmt args) h' writes q h1 /\ ended q = Some o /\ clean_result o r).
Proof.
  intros Hx Hf Hps Hm He Hpos Hsc. destruct (slice_trap fuel Hf) as [Hl Hz].
  destruct (C95_write_stops xid_start xid_continue Hx _ _ (trap_new w) s ps pos named c scope h h' args Hps Hm He Hpos Hsc Hl)
    as (q & t & h1 & o & L & E & [[Eo [w0 [s0 [st0 F]]]]|[writes [q' [S0 [Eq P]]]]]).
  - subst o. destruct (Hz _ _ _ _ F) as [e [Ee Ek]].
    exists (IoErr (trap_error t)), (et_inner t), h1. split.
    + exact (il_err _ _ _ _ _ q t h1 L E).
    + left. exists (trap_error t). split; [reflexivity|]. unfold trap_error. rewrite Ee. exact Ek.
  - exists (io_result t o), (et_inner t), h1. split.
    + apply io_leads_iff. exists q, t. split; [exact L|]. rewrite E. split; reflexivity.
    + right. exists writes, q', o. split; [exact S0|]. split; [exact Eq|]. apply clean_io.
      exact (trap_keeps _ _ _ _ P).
Qed.
Print Assumptions C95_io_slice_write.

(** * An endless value: it counts up, showing the last digit of each number, forever. *)
Section CounterExample.
CoFixpoint count_std : lsprog N :=
  LSGet (fun n => LSPut (n + 1)%N (LSEmit [48 + n mod 10]%N (fun o =>
    match o with Returned Ok => count_std | Returned Err => LSRet Err | Crashed c => LSAbort c end))).
CoFixpoint count_styled (st : style) : lprog N :=
  LGet (fun n => LPut (n + 1)%N (LEmit [48 + n mod 10]%N st (fun o =>
    match o with Returned Ok => count_styled st | Returned Err => LRet Err | Crashed c => LAbort c end))).
Definition forever : lvalue N := mk_lvalue (fun _ _ => count_std) (fun f => count_styled (fm_style f)).

Lemma count_styled_eq st : count_styled st =
  LGet (fun n => LPut (n + 1)%N (LEmit [48 + n mod 10]%N st (fun o =>
    match o with Returned Ok => count_styled st | Returned Err => LRet Err | Crashed c => LAbort c end))).
Proof. rewrite (lid_eq (count_styled st)) at 1. reflexivity. Qed.
Lemma count_std_eq : count_std =
  LSGet (fun n => LSPut (n + 1)%N (LSEmit [48 + n mod 10]%N (fun o =>
    match o with Returned Ok => count_std | Returned Err => LSRet Err | Crashed c => LSAbort c end))).
Proof.
  assert (F : forall p : lsprog N, p = match p with LSRet r => LSRet r | LSAbort c => LSAbort c | LSGet k => LSGet k
     | LSPut h q => LSPut h q | LSEmit s k => LSEmit s k end) by (intros []; reflexivity).
  rewrite (F count_std) at 1. reflexivity.
Qed.

Lemma count_ok : forall st, productive (count_styled st) /\ lpropagates (count_styled st).
Proof.
  intros st. split.
  - cofix IH. constructor. rewrite count_styled_eq. constructor. intros n. constructor. constructor; [discriminate|].
    intros [[|]|c]; [exact IH|constructor; constructor|constructor; constructor].
  - cofix IH. rewrite count_styled_eq. constructor. intros n. constructor. constructor; [constructor|exact IH].
Qed.
Lemma count_std_ok : forall st, productive (lstd_code st count_std) /\ lpropagates (lstd_code st count_std).
Proof.
  intros st. split.
  - cofix IH. constructor. rewrite count_std_eq, lstd_code_eq. constructor. intros n. rewrite lstd_code_eq. constructor.
    rewrite lstd_code_eq. constructor; [discriminate|].
    intros [[|]|c]; [exact IH| |]; rewrite lstd_code_eq; constructor; constructor.
  - cofix IH. rewrite count_std_eq, lstd_code_eq. constructor. intros n. rewrite lstd_code_eq. constructor.
    rewrite lstd_code_eq. constructor; [rewrite lstd_code_eq; constructor|exact IH].
Qed.
Lemma forever_ok : well_behaved forever.
Proof. intros t st flags. destruct t; solve [apply count_std_ok|apply count_ok]. Qed.

Lemma lstep_emit {H W} (ws : write_fn W) s st (k : outcome -> lprog H) w h p1 w1 h1 :
  lstep ws (LEmit s st k) w h p1 w1 h1 -> exists o, ws w s st = (w1, o) /\ p1 = k o.
Proof. intros X. inversion X; subst. eauto. Qed.
(** It never ends on a writer that accepts everything. *)
Lemma forever_endless {W} (ws : write_fn W) st w h : infallible ws -> endless ws (count_styled st) w h.
Proof.
  intros Hi.
  assert (G : forall p w h q w' h', leads ws p w h q w' h' ->
    (p = count_styled st \/ (exists n, p = LPut (n + 1)%N (LEmit [48 + n mod 10]%N st (fun o =>
      match o with Returned Ok => count_styled st | Returned Err => LRet Err | Crashed c => LAbort c end))) \/
     exists n, p = LEmit [48 + n mod 10]%N st (fun o =>
      match o with Returned Ok => count_styled st | Returned Err => LRet Err | Crashed c => LAbort c end)) ->
    ended q = None).
  { clear w h. intros p w h q w' h' L. induction L as [p w h|p w h p1 w1 h1 q w' h' St L IH]; intros Hp.
    - destruct Hp as [->|[[n ->]|[n ->]]]; [rewrite count_styled_eq|..]; reflexivity.
    - apply IH. destruct Hp as [->|[[n ->]|[n ->]]].
      + rewrite count_styled_eq in St. inversion St; subst. right; left. eexists; reflexivity.
      + inversion St; subst. right; right. eexists; reflexivity.
      + left. destruct (lstep_emit _ _ _ _ _ _ _ _ _ St) as [o [E ->]].
        assert (Eo : o = Returned Ok) by (etransitivity; [symmetry; exact (f_equal snd E)|apply Hi]).
        rewrite Eo. reflexivity. }
  intros q w' h' L. apply (G _ _ _ _ _ _ L). now left.
Qed.

(** The moment after some number of steps. *)
Fixpoint moment {H W} (ws : write_fn W) (n : nat) (p : lprog H) (w : W) (h : H) : lprog H * W * H :=
  match n with
  | O => (p, w, h)
  | S n =>
      match p with
      | LRet r => (p, w, h)
      | LAbort c => (p, w, h)
      | LGet k => moment ws n (k h) w h
      | LPut h' p' => moment ws n p' w h'
      | LEmit s st k => match ws w s st with
                        | (w', Crashed Diverge) => (p, w, h)
                        | (w', o) => moment ws n (k o) w' h
                        end
      end
  end.
Lemma moment_leads {H W} (ws : write_fn W) n : forall (p : lprog H) w h,
  leads ws p w h (fst (fst (moment ws n p w h))) (snd (fst (moment ws n p w h))) (snd (moment ws n p w h)).
Proof.
  induction n as [|n IH]; intros p w h; [apply le_here|].
  destruct p as [r|c|k|h' p|s st k]; cbn [moment].
  - apply le_here.
  - apply le_here.
  - eapply le_step; [apply ls_get|apply IH].
  - eapply le_step; [apply ls_put|apply IH].
  - destruct (ws w s st) as [w' o] eqn:E.
    assert (D : o = Crashed Diverge \/ o <> Crashed Diverge) by (destruct o as [|[|]]; intuition congruence).
    destruct D as [->|D]; [apply le_here|].
    replace (match o with Crashed Diverge => (LEmit s st k, w, h) | _ => moment ws n (k o) w' h end)
      with (moment ws n (k o) w' h) by (destruct o as [|[|]]; congruence).
    eapply le_step; [exact (ls_emit _ _ _ _ _ _ _ _ _ E D)|apply IH].
Qed.

(** The macro call with two uses of the endless value: the first is shown in red up to any moment,
    the second never begins; over a buffer of 20 bytes it ends with an error, the counter being
    where the buffer was full. *)
Definition endless_call : option (larguments N * N) :=
  match format_args_impl ascii_start ascii_continue (lit "n: {0:(fg=red)} {0:s}") [(fun n => (n + 7, Some forever))%N] [] with
  | Expanded c => match leval_code (fun _ => forever) c 0%N with (h, Some args) => Some (args, h) | _ => None end
  | CompileError => None
  end.
Example C95_nonvacuous :
  match endless_call with
  | Some (args, h) =>
      h = 7%N /\
      (let m := moment (ansi_write_str string_sink) 13 (ldefault_write_fmt args) (lib_ansi []) h in
       ended (fst (fst m)) = None /\
       an_inner (snd (fst m)) = lit "n: " ++ [27%N] ++ lit "[31m7890" /\ snd m = 11%N) /\
      (let m := moment (trap_write_str (io_write_all (IoWrite_ansi 2 slice_sink))) 100 (ldefault_write_fmt args)
                  (trap_new (mk_io_ansi ([], 15) style_default)) h in
       ended (fst (fst m)) = Some (Returned Err) /\
       ia_inner (et_inner (snd (fst m))) = (utf8 (lit "n: " ++ [27%N] ++ lit "[31m7890123"), 0) /\
       snd m = 15%N)
  | None => False
  end.
Proof.
  vm_compute. split; [reflexivity|]. split; (split; [reflexivity|]); split; reflexivity.
Qed.
End CounterExample.
