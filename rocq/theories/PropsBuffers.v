(** C67, C68: io::Ansi and io::Plain over a growing buffer (Vec<u8>) and over a fixed-size one
    (&mut [u8]). *)
From Verif Require Import Base Style Fmt Plain Ansi Io Format StdIo Lib SpecText TextFacts AnsiFacts FormatFacts
  SpecUtf8 Utf8Facts SpecIo IoFacts SpecSession PropsAnsi.

(** * C67 *)
Lemma vec_honest : honest vec_sink (fun v => v).
Proof.
  constructor; cbn [vec_sink si_write si_write_all si_flush].
  - intros s b s' n [= <- <-]. split; [lia|]. now rewrite firstn_all.
  - discriminate.
  - intros s b s' [= <-]. reflexivity.
  - discriminate.
  - intros s s' r [= <- _]. reflexivity.
Qed.

Lemma vec_parts parts : forall v, exists v', write_all_parts vec_sink parts v = (v', IoOk tt).
Proof. induction parts as [|p parts IH]; intros v; [eexists; reflexivity|]. cbn. apply IH. Qed.

Lemma vec_write (w : io_ansi bytes) b st : exists w', io_ansi_write vec_sink w b st = (w', IoOk (length b)).
Proof.
  unfold io_ansi_write. destruct (vec_parts (io_ansi_change (ia_current w) st) (ia_inner w)) as [v' ->].
  eexists. reflexivity.
Qed.

Lemma vec_write_all fuel (w : io_ansi bytes) b st : 1 <= fuel ->
  exists w', io_ansi_write_all fuel vec_sink w b st = (w', IoOk tt).
Proof.
  intros Hf. destruct b as [|x b]; [destruct fuel; eexists; reflexivity|].
  destruct fuel as [|fuel]; [lia|]. unfold io_ansi_write_all. cbn [default_write_all].
  destruct (vec_write w (x :: b) st) as [w' ->]. cbn [length]. rewrite Nat.leb_refl.
  change (Datatypes.S (length b)) with (length (x :: b)). rewrite skipn_all. exists w'. destruct fuel; reflexivity.
Qed.

Lemma vec_trap_infallible fuel : 1 <= fuel -> infallible (trap_write_str (io_ansi_write_all fuel vec_sink)).
Proof.
  intros Hf t s st. unfold trap_write_str. destruct (vec_write_all fuel (et_inner t) (utf8 s) st Hf) as [w' ->].
  reflexivity.
Qed.
Lemma vec_plain_trap_infallible : infallible (trap_write_str (io_plain_write_all vec_sink)).
Proof. intros t s st. reflexivity. Qed.

(** The result of a [write_fmt] that meets no I/O error: success, an error of kind Other when the
    formatting code itself failed, or its panic. *)
Definition clean_result (o : outcome) (r : io_res unit) : Prop :=
  match o with
  | Returned Ok => r = IoOk tt
  | Returned Err => exists e, r = IoErr e /\ err_kind e = OtherError
  | Crashed c => r = IoCrash c
  end.

Lemma clean_run {W} (wa : W -> bytes -> style -> W * io_res unit) (w : W) args :
  (forall w b st, exists w', wa w b st = (w', IoOk tt)) ->
  exists t, run (trap_write_str wa) (args formatter_new) (trap_new w) = (t, ok_outcome (args formatter_new)) /\
    play (trap_write_str wa) (ok_events (args formatter_new)) (trap_new w) = (t, Returned Ok) /\
    et_error t = None.
Proof.
  intros Hw.
  assert (I : infallible (trap_write_str wa)).
  { intros t s st. unfold trap_write_str. destruct (Hw (et_inner t) (utf8 s) st) as [w' ->]. reflexivity. }
  rewrite (run_infallible _ _ _ I), (infallible_play _ _ _ I). eexists. split; [reflexivity|]. split; [reflexivity|].
  enough (G : forall h (t : error_trap W), et_error t = None -> et_error (fst (play (trap_write_str wa) h t)) = None)
    by now apply G.
  induction h as [|[s st] h IH]; intros t Ht; [exact Ht|]. cbn [play].
  unfold trap_write_str at 1. destruct (Hw (et_inner t) (utf8 s) st) as [w' ->]. now apply IH.
Qed.

Lemma clean_fmt {W} (wa : W -> bytes -> style -> W * io_res unit) (w : W) args :
  (forall w b st, exists w', wa w b st = (w', IoOk tt)) ->
  exists w' r err, default_io_write_fmt wa w args = (w', r) /\ clean_result (ok_outcome (args formatter_new)) r /\
    play (trap_write_str wa) (ok_events (args formatter_new)) (trap_new w) = (mk_trap w' err, Returned Ok).
Proof.
  intros Hw. rewrite default_io_run. destruct (clean_run wa w args Hw) as ([w' err] & -> & H & He).
  exists w'. cbn [et_error] in He. subst err.
  destruct (ok_outcome (args formatter_new)) as [[|]|c]; eexists; eexists; (split; [reflexivity|]);
    (split; [|exact H]); cbn; eauto.
Qed.

(** C67: [write!] of any Arguments (propagating errors or not) into io::Ansi over a Vec: the only
    failures are those of the formatting code, and after [finish] the Vec holds exactly the UTF-8
    bytes of what an Ansi adaptor over a String holds for the same styled text. *)
Theorem C67_vec_ansi (fuel : nat) (args : arguments) :
  1 <= fuel ->
  exists w r, io_write_fmt (IoWrite_ansi fuel vec_sink) (lib_io_ansi []) args = (w, r) /\
    clean_result (ok_outcome (args formatter_new)) r /\
    io_ansi_finish vec_sink w = (utf8 (ansi_finished (ok_events (args formatter_new))), IoOk tt).
Proof.
  intros Hf. cbn [IoWrite_ansi io_write_fmt].
  destruct (clean_fmt (io_ansi_write_all fuel vec_sink) (lib_io_ansi []) args) as (w & r & err & H1 & H2 & H3).
  { intros w b st. now apply vec_write_all. }
  exists w, r. split; [exact H1|]. split; [exact H2|].
  apply (trap_play_ok _ _ (fun v => v) vec_honest) in H3 as [A B].
  cbn [et_inner trap_new lib_io_ansi io_ansi_new ia_inner ia_current app] in A, B.
  rewrite ansi_finished_eq, utf8_app, <- A, <- B.
  unfold io_ansi_finish, esc, ansi_change.
  destruct (style_eqb_spec (ia_current w) style_default) as [->|Hne]; cbn [negb andb].
  - cbn. now rewrite app_nil_r.
  - reflexivity.
Qed.
Print Assumptions C67_vec_ansi.

(** C67: the same for io::Plain. *)
Theorem C67_vec_plain (args : arguments) :
  exists w r, io_write_fmt (IoWrite_plain vec_sink) (lib_io_plain []) args = (w, r) /\
    clean_result (ok_outcome (args formatter_new)) r /\
    io_plain_into_inner w = utf8 (text_of (ok_events (args formatter_new))).
Proof.
  cbn [IoWrite_plain io_write_fmt].
  destruct (clean_fmt (io_plain_write_all vec_sink) (lib_io_plain []) args) as (w & r & err & H1 & H2 & H3).
  { intros w b st. eexists. reflexivity. }
  exists w, r. split; [exact H1|]. split; [exact H2|].
  apply (plain_trap_ok _ _ (fun v => v) vec_honest) in H3. exact H3.
Qed.
Print Assumptions C67_vec_plain.

(** C67: so writing to a Vec and decoding it gives what the [format] functions return. *)
Theorem C67_vec_as_format (fuel : nat) (args : arguments) (out txt : str) :
  1 <= fuel -> ansi_format args = Value out -> plain_format args = Value txt ->
  (exists w, io_write_fmt (IoWrite_ansi fuel vec_sink) (lib_io_ansi []) args = (w, IoOk tt) /\
             io_ansi_finish vec_sink w = (utf8 out, IoOk tt)) /\
  (exists w, io_write_fmt (IoWrite_plain vec_sink) (lib_io_plain []) args = (w, IoOk tt) /\
             io_plain_into_inner w = utf8 txt).
Proof.
  intros Hf Ha Hp. rewrite ansi_format_spec in Ha. rewrite plain_format_spec in Hp.
  destruct (C67_vec_ansi fuel args Hf) as (w & r & A1 & A2 & A3).
  destruct (C67_vec_plain args) as (v & q & B1 & B2 & B3).
  destruct (ok_outcome (args formatter_new)) as [[|]|c] eqn:Eo; try discriminate.
  cbn in A2, B2. subst r q. injection Ha as Ha. injection Hp as Hp.
  unfold produces in Ha, Hp. rewrite <- ansi_finished_eq in Ha. rewrite chars_denote in Hp. subst. split; eauto.
Qed.
Print Assumptions C67_vec_as_format.

Definition vec_answer (c : iocall) (r : io_res nat) : Prop :=
  match c with
  | IWrite b _ => r = IoOk (length b)
  | IAll _ _ | IFlush => r = IoOk 0
  | IFmt args => exists u, clean_result (ok_outcome (args formatter_new)) u /\ r = unit_res u
  end.

(** C67: in any sequence of calls on io::Ansi over a Vec, [write] takes everything, [write_all] and
    [flush] succeed, and [write!] fails only if the formatting code does. *)
Theorem C67_vec_session (fuel : nat) (calls : list iocall) (w : io_ansi bytes) :
  1 <= fuel ->
  Forall (fun e => vec_answer (fst e) (snd e)) (snd (io_session (IoWrite_ansi fuel vec_sink) calls w)).
Proof.
  intros Hf. revert w. induction calls as [|c calls IH]; intros w; [constructor|]. cbn [io_session].
  destruct (do_iocall (IoWrite_ansi fuel vec_sink) w c) as [w1 o] eqn:E.
  specialize (IH w1). destruct (io_session (IoWrite_ansi fuel vec_sink) calls w1) as [w2 os]. cbn [snd] in *.
  constructor; [|exact IH]. clear IH. cbn [fst snd].
  destruct c as [b st|b st| |args]; cbn [do_iocall IoWrite_ansi io_write io_write_all io_flush io_write_fmt vec_answer] in *.
  - destruct (vec_write w b st) as [w' Hw]. congruence.
  - destruct (vec_write_all fuel w b st Hf) as [w' Hw]. rewrite Hw in E. cbn in E. congruence.
  - cbn in E. congruence.
  - destruct (clean_fmt (io_ansi_write_all fuel vec_sink) w args) as (w' & r & err & H1 & H2 & H3).
    { intros v b st. now apply vec_write_all. }
    rewrite H1 in E. exists r. split; [exact H2|]. congruence.
Qed.
Print Assumptions C67_vec_session.

Example C67_nonvacuous :
  let args : arguments := fun f =>
    try_ (formatter_write_str (formatter_with Restyle_Foreground f (Foreground Red)) [233%N]) (formatter_write_str f (lit "c")) in
  match io_write_fmt (IoWrite_ansi 1 vec_sink) (lib_io_ansi []) args with
  | (w, IoOk tt) => io_ansi_finish vec_sink w
  | (w, _) => ([], IoErr write_zero_error)
  end = ([27%N] ++ lit "[31m" ++ [0xC3; 0xA9]%N ++ [27%N] ++ lit "[0mc", IoOk tt) /\
  ansi_format args = Value ([27%N] ++ lit "[31m" ++ [233%N] ++ [27%N] ++ lit "[0mc").
Proof. split; reflexivity. Qed.

(** * C68 *)

(** Sending [b] to a buffer that has [snd s] bytes left: what it then holds. *)
Definition poured (s : bytes * nat) (b : bytes) : bytes * nat :=
  (fst s ++ firstn (snd s) b, snd s - length b).

Lemma poured_nil s : poured s [] = s.
Proof. destruct s as [v n]. unfold poured. cbn [fst snd length]. rewrite firstn_nil, app_nil_r, Nat.sub_0_r. reflexivity. Qed.
Lemma poured_app s a b : poured (poured s a) b = poured s (a ++ b).
Proof.
  destruct s as [v n]. unfold poured. cbn [fst snd]. rewrite firstn_app, app_length, <- app_assoc. f_equal. lia.
Qed.
Lemma poured_full s a b : snd s < length a -> poured s (a ++ b) = poured s a.
Proof.
  destruct s as [v n]. unfold poured. cbn [fst snd]. intros H. rewrite firstn_app, app_length.
  replace (n - length a) with 0 by lia. cbn [firstn]. rewrite app_nil_r. f_equal. lia.
Qed.
Lemma slice_write_poured s b : slice_write s b = (poured s b, IoOk (Nat.min (snd s) (length b))).
Proof.
  destruct s as [v n]. unfold slice_write, poured. cbn [fst snd]. f_equal. f_equal; [f_equal|lia].
  destruct (Nat.le_ge_cases n (length b)).
  - now rewrite Nat.min_l.
  - rewrite Nat.min_r by lia. now rewrite firstn_all, firstn_all2.
Qed.
Lemma slice_write_all_poured s b :
  slice_write_all s b = (poured s b, if length b <=? snd s then IoOk tt else IoErr slice_full).
Proof.
  unfold slice_write_all. rewrite slice_write_poured.
  destruct (Nat.leb_spec (length b) (snd s)).
  - rewrite Nat.min_r by lia. now rewrite Nat.eqb_refl.
  - rewrite Nat.min_l by lia. now destruct (Nat.eqb_spec (snd s) (length b)); [lia|].
Qed.
Lemma poured_room s b : snd (poured s b) = snd s - length b.
Proof. reflexivity. Qed.

Lemma slice_parts parts : forall s, let b := utf8 (concat parts) in
  write_all_parts slice_sink parts s
  = (poured s b, if length b <=? snd s then IoOk tt else IoErr slice_full).
Proof.
  induction parts as [|p parts IH]; intros s; cbn [write_all_parts concat utf8 length].
  - cbn. now rewrite poured_nil.
  - cbn zeta. cbn [slice_sink si_write_all]. rewrite slice_write_all_poured, utf8_app, app_length.
    destruct (Nat.leb_spec (length (utf8 p)) (snd s)) as [H|H].
    + cbn zeta in IH. rewrite IH, poured_app, poured_room. f_equal.
      destruct (Nat.leb_spec (length (utf8 (concat parts))) (snd s - length (utf8 p)));
        destruct (Nat.leb_spec (length (utf8 p) + length (utf8 (concat parts))) (snd s)); try lia; reflexivity.
    + rewrite poured_full by exact H.
      destruct (Nat.leb_spec (length (utf8 p) + length (utf8 (concat parts))) (snd s)); [lia|reflexivity].
Qed.

(** One [write_all] on io::Ansi over a slice. *)
Lemma slice_ansi_write_all fuel s cur b st : 2 <= fuel -> b <> [] ->
  let full := utf8 (esc cur st) ++ b in
  exists cur' r, io_ansi_write_all fuel slice_sink (mk_io_ansi s cur) b st = (mk_io_ansi (poured s full) cur', r) /\
    if length full <=? snd s then r = IoOk tt /\ cur' = st else exists e, r = IoErr e /\ err_kind e = WriteZero.
Proof.
  intros Hf Hb full. destruct b as [|x b]; [congruence|]. destruct fuel as [|[|fuel]]; try lia.
  unfold io_ansi_write_all. cbn [default_write_all].
  assert (W : forall s cur b, io_ansi_write slice_sink (mk_io_ansi s cur) b st =
    if length (utf8 (esc cur st)) <=? snd s
    then (mk_io_ansi (poured s (utf8 (esc cur st) ++ b)) st, IoOk (Nat.min (snd s - length (utf8 (esc cur st))) (length b)))
    else (mk_io_ansi (poured s (utf8 (esc cur st))) cur, IoErr slice_full)).
  { clear. intros s cur b. unfold io_ansi_write. cbn [ia_current ia_inner]. rewrite slice_parts. rewrite io_change_same. fold (esc cur st).
    destruct (length (utf8 (esc cur st)) <=? snd s); [|reflexivity].
    cbn [slice_sink si_write]. rewrite slice_write_poured, poured_app. now rewrite poured_room. }
  rewrite W. unfold full. rewrite app_length.
  destruct (Nat.leb_spec (length (utf8 (esc cur st))) (snd s)) as [H|H].
  - set (room := snd s - length (utf8 (esc cur st))).
    destruct (Nat.min room (length (x :: b))) as [|n] eqn:En.
    + exists st, (IoErr write_zero_error). split; [reflexivity|].
      destruct (Nat.leb_spec (length (utf8 (esc cur st)) + length (x :: b)) (snd s)); [cbn [length] in *; lia|].
      eexists; split; reflexivity.
    + destruct (Nat.leb_spec (Datatypes.S n) (length (x :: b))) as [Hn|Hn]; [|lia].
      destruct (skipn (Datatypes.S n) (x :: b)) as [|y rest] eqn:Es.
      * exists st, (IoOk tt). split; [reflexivity|].
        assert (L : length (skipn (Datatypes.S n) (x :: b)) = 0) by now rewrite Es.
        rewrite skipn_length in L.
        destruct (Nat.leb_spec (length (utf8 (esc cur st)) + length (x :: b)) (snd s)); [auto|lia].
      * assert (L : length (skipn (Datatypes.S n) (x :: b)) = Datatypes.S (length rest)) by now rewrite Es.
        rewrite skipn_length in L. rewrite W, esc_same. cbn [utf8 flat_map length app Nat.leb].
        rewrite poured_room, app_length, poured_app.
        replace (snd s - (length (utf8 (esc cur st)) + length (x :: b)) - 0) with 0 by lia. cbn [Nat.min].
        exists st, (IoErr write_zero_error). split.
        -- f_equal. f_equal. rewrite poured_full; [reflexivity|]. rewrite app_length. lia.
        -- destruct (Nat.leb_spec (length (utf8 (esc cur st)) + Datatypes.S (length b)) (snd s)); [cbn [length] in *; lia|].
           eexists; split; reflexivity.
  - exists cur, (IoErr slice_full). split.
    + rewrite poured_full by exact H. reflexivity.
    + destruct (Nat.leb_spec (length (utf8 (esc cur st)) + length (x :: b)) (snd s)); [lia|].
      eexists; split; reflexivity.
Qed.

Lemma slice_ansi_play fuel h : 2 <= fuel -> forall s cur err,
  let full := utf8 (ansi_render cur (denote h)) in
  exists cur' err' o,
    play (trap_write_str (io_ansi_write_all fuel slice_sink)) h (mk_trap (mk_io_ansi s cur) err)
    = (mk_trap (mk_io_ansi (poured s full) cur') err', o) /\
    if length full <=? snd s then o = Returned Ok /\ cur' = last_style cur (denote h) /\ err' = err
    else o = Returned Err /\ exists e, err' = Some e /\ err_kind e = WriteZero.
Proof.
  intros Hf. induction h as [|[t st] h IH]; intros s cur err full.
  - exists cur, err, (Returned Ok). subst full. cbn. rewrite poured_nil. auto.
  - subst full. cbn [play denote]. unfold trap_write_str at 1. cbn [et_inner et_error].
    destruct t as [|c t].
    { cbn [utf8 flat_map paint map app]. replace (io_ansi_write_all fuel slice_sink (mk_io_ansi s cur) [] st)
        with (mk_io_ansi s cur, @IoOk unit tt) by (destruct fuel; reflexivity). apply IH. }
    assert (Hb : utf8 (c :: t) <> []) by (intros H; apply (proj1 (utf8_nil (c :: t))) in H; discriminate).
    destruct (slice_ansi_write_all fuel s cur (utf8 (c :: t)) st Hf Hb) as (cur1 & r & E & Hr). rewrite E.
    rewrite ansi_render_app, utf8_app, last_style_paint by discriminate.
    rewrite ansi_render_paint, utf8_app by discriminate.
    destruct (Nat.leb_spec (length (utf8 (esc cur st) ++ utf8 (c :: t))) (snd s)) as [H|H].
    + destruct Hr as [-> ->]. destruct (IH (poured s (utf8 (esc cur st) ++ utf8 (c :: t))) st err) as (cur' & err' & o & E2 & Ho).
      exists cur', err', o. rewrite poured_app in E2. split; [exact E2|].
      rewrite poured_room in Ho. rewrite app_length.
      destruct (Nat.leb_spec (length (utf8 (ansi_render st (denote h)))) (snd s - length (utf8 (esc cur st) ++ utf8 (c :: t))));
        destruct (Nat.leb_spec (length (utf8 (esc cur st) ++ utf8 (c :: t)) + length (utf8 (ansi_render st (denote h)))) (snd s)); try lia.
      * destruct Ho as (-> & -> & ->). rewrite last_style_app, last_style_paint by discriminate. auto.
      * exact Ho.
    + destruct Hr as (e & -> & He). exists cur1, (Some e), (Returned Err). rewrite (poured_full s _ (utf8 (ansi_render st (denote h))) H).
      split; [reflexivity|]. rewrite app_length.
      destruct (Nat.leb_spec (length (utf8 (esc cur st) ++ utf8 (c :: t)) + length (utf8 (ansi_render st (denote h)))) (snd s)); [lia|].
      split; [reflexivity|]. eauto.
Qed.

(** C68: [write!] of Arguments that propagate errors into io::Ansi over a fixed-size buffer with
    [room] bytes left, where [full] is what the in-memory adaptor appends for the same text in the
    same situation: the buffer receives exactly the first [room] bytes of [full], nothing else is
    touched; if [full] fits, the result is that of the formatting code; if not, it is an error of
    kind WriteZero. *)
Theorem C68_slice_ansi (fuel : nat) (written : bytes) (room : nat) (cur : style) (args : arguments) :
  2 <= fuel -> propagates (args formatter_new) ->
  exists full cur' w' r,
    play (ansi_write_str string_sink) (ok_events (args formatter_new)) (mk_ansi [] cur)
    = (mk_ansi full cur', Returned Ok) /\
    io_write_fmt (IoWrite_ansi fuel slice_sink) (mk_io_ansi (written, room) cur) args = (w', r) /\
    ia_inner w' = (written ++ firstn room (utf8 full), room - length (utf8 full)) /\
    (length (utf8 full) <= room -> ia_current w' = cur' /\ clean_result (ok_outcome (args formatter_new)) r) /\
    (room < length (utf8 full) -> exists e, r = IoErr e /\ err_kind e = WriteZero).
Proof.
  intros Hf Hp. rewrite ansi_play. cbn [an_inner an_current app]. eexists. eexists.
  cbn [IoWrite_ansi io_write_fmt]. rewrite default_io_run, run_propagates by exact Hp. unfold trap_new.
  destruct (slice_ansi_play fuel (ok_events (args formatter_new)) Hf (written, room) cur None) as (cur' & err' & o & E & Ho).
  rewrite E. clear E. cbn [snd] in Ho. unfold poured. cbn [fst snd].
  destruct (Nat.leb_spec (length (utf8 (ansi_render cur (denote (ok_events (args formatter_new)))))) room) as [H|H].
  - destruct Ho as (-> & -> & ->). destruct (ok_outcome (args formatter_new)) as [[|]|c];
      eexists; eexists; (split; [reflexivity|]); (split; [reflexivity|]); cbn [et_inner ia_inner ia_current];
      (split; [reflexivity|]); (split; [|lia]); intros _; split; try reflexivity; cbn; eauto.
  - destruct Ho as (-> & e & -> & He). eexists; eexists. split; [reflexivity|]. split; [reflexivity|].
    cbn [et_inner ia_inner]. split; [reflexivity|]. split; [lia|]. intros _. cbn. eauto.
Qed.
Print Assumptions C68_slice_ansi.

(** C68: [finish] on a fixed-size buffer. *)
Theorem C68_slice_finish (written : bytes) (room : nat) (cur : style) :
  exists full s r,
    ansi_finish string_sink (mk_ansi [] cur) = (full, Returned Ok) /\
    io_ansi_finish slice_sink (mk_io_ansi (written, room) cur) = (s, r) /\
    s = (written ++ firstn room (utf8 full), room - length (utf8 full)) /\
    (length (utf8 full) <= room -> r = IoOk tt) /\
    (room < length (utf8 full) -> exists e, r = IoErr e /\ err_kind e = WriteZero).
Proof.
  unfold io_ansi_finish, ansi_finish. cbn [an_current an_inner ia_current ia_inner].
  destruct (style_eqb cur style_default); cbn [negb].
  - eexists; eexists; eexists. split; [reflexivity|]. split; [reflexivity|]. cbn [utf8 flat_map length].
    rewrite firstn_nil, app_nil_r, Nat.sub_0_r. split; [reflexivity|]. split; [reflexivity|lia].
  - rewrite slice_parts, write_parts_string. cbn [app snd]. eexists; eexists; eexists.
    split; [reflexivity|]. split; [reflexivity|]. split; [reflexivity|].
    destruct (Nat.leb_spec (length (utf8 (concat [ansi_reset]))) room).
    + split; [reflexivity|lia].
    + split; [lia|]. intros _. eexists; split; reflexivity.
Qed.
Print Assumptions C68_slice_finish.

Lemma slice_plain_play h : forall s err,
  let full := utf8 (text_of h) in
  exists err' o,
    play (trap_write_str (io_plain_write_all slice_sink)) h (mk_trap (mk_io_plain s) err)
    = (mk_trap (mk_io_plain (poured s full)) err', o) /\
    if length full <=? snd s then o = Returned Ok /\ err' = err
    else o = Returned Err /\ exists e, err' = Some e /\ err_kind e = WriteZero.
Proof.
  induction h as [|[t st] h IH]; intros s err full.
  - exists err, (Returned Ok). subst full. cbn. rewrite poured_nil. auto.
  - subst full. unfold text_of. cbn [play map concat]. fold (text_of h). rewrite utf8_app, app_length.
    unfold trap_write_str at 1. unfold io_plain_write_all at 1. cbn [et_inner ipl_inner slice_sink si_write_all fst].
    rewrite slice_write_all_poured.
    destruct (Nat.leb_spec (length (utf8 t)) (snd s)) as [H|H].
    + cbn [et_error]. destruct (IH (poured s (utf8 t)) err) as (err' & o & E & Ho). rewrite poured_app in E.
      exists err', o. split; [exact E|]. rewrite poured_room in Ho.
      destruct (Nat.leb_spec (length (utf8 (text_of h))) (snd s - length (utf8 t)));
        destruct (Nat.leb_spec (length (utf8 t) + length (utf8 (text_of h))) (snd s)); try lia; exact Ho.
    + rewrite poured_full by exact H. eexists; eexists. split; [reflexivity|].
      destruct (Nat.leb_spec (length (utf8 t) + length (utf8 (text_of h))) (snd s)); [lia|].
      split; [reflexivity|]. eexists; split; reflexivity.
Qed.

(** C68: the same for io::Plain, whose full output is the text. *)
Theorem C68_slice_plain (written : bytes) (room : nat) (args : arguments) :
  propagates (args formatter_new) ->
  let full := utf8 (text_of (ok_events (args formatter_new))) in
  exists w' r,
    io_write_fmt (IoWrite_plain slice_sink) (lib_io_plain (written, room)) args = (w', r) /\
    io_plain_into_inner w' = (written ++ firstn room full, room - length full) /\
    (length full <= room -> clean_result (ok_outcome (args formatter_new)) r) /\
    (room < length full -> exists e, r = IoErr e /\ err_kind e = WriteZero).
Proof.
  intros Hp full. cbn [IoWrite_plain io_write_fmt]. rewrite default_io_run, run_propagates by exact Hp. unfold trap_new.
  destruct (slice_plain_play (ok_events (args formatter_new)) (written, room) None) as (err' & o & E & Ho).
  unfold lib_io_plain, io_plain_new. rewrite E. clear E. fold full in Ho |- *. cbn [snd] in Ho. unfold poured. cbn [fst snd].
  destruct (Nat.leb_spec (length full) room) as [H|H].
  - destruct Ho as (-> & ->). destruct (ok_outcome (args formatter_new)) as [[|]|c];
      eexists; eexists; (split; [reflexivity|]); (split; [reflexivity|]); (split; [|lia]); intros _; cbn; eauto.
  - destruct Ho as (-> & e & -> & He). eexists; eexists. split; [reflexivity|]. split; [reflexivity|].
    split; [lia|]. intros _. cbn. eauto.
Qed.
Print Assumptions C68_slice_plain.

(** Non-vacuity: ten bytes needed; six and ten are there. *)
Example C68_nonvacuous :
  let args : arguments := fun f => formatter_write_str (formatter_with Restyle_Foreground f (Foreground Red)) (lit "hello") in
  propagates (args formatter_new) /\
  io_write_fmt (IoWrite_ansi 2 slice_sink) (lib_io_ansi ([], 6)) args
  = (mk_io_ansi (ESC :: lit "[31mh", 0) (mk_style Red ColorDefault Normal), IoErr write_zero_error) /\
  io_write_fmt (IoWrite_ansi 2 slice_sink) (lib_io_ansi ([], 10)) args
  = (mk_io_ansi (ESC :: lit "[31mhello", 0) (mk_style Red ColorDefault Normal), IoOk tt).
Proof. cbv zeta. split; [repeat split|]. split; reflexivity. Qed.
