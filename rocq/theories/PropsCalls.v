(** Property C102: how often the sink is called. *)
From Verif Require Import Base Style Fmt Ansi Html Plain Io SpecText TextFacts StyleFacts SpecSink AnsiFacts SinkFacts SpecSgr
  SpecTerminal PropsAnsi PropsMore Threads PropsThreads SpecCalls.

Lemma flat_pairs {A} (x : A) l : length (flat_map (fun s => [x; s]) l) = 2 * length l.
Proof. induction l as [|s l IH]; [reflexivity|]. cbn in *. lia. Qed.
Lemma differs_same {A} (d : forall x y : A, {x = y} + {x <> y}) x : differs d x x = 0.
Proof. unfold differs. destruct (d x x); congruence. Qed.
Lemma changed_same st : attributes_changed st st = 0.
Proof. unfold attributes_changed. now rewrite !differs_same. Qed.
Lemma changed_zero a b : attributes_changed a b = 0 -> a = b.
Proof.
  unfold attributes_changed, differs. destruct (color_eq_dec (foreground a) (foreground b)), (color_eq_dec (background a) (background b)),
    (intensity_eq_dec (intens a) (intens b)); try discriminate. destruct a, b; cbn in *; congruence.
Qed.
Lemma changed_pos a b : a <> b -> exists k, attributes_changed a b = Datatypes.S k.
Proof. intros H. destruct (attributes_changed a b) eqn:E; [apply changed_zero in E; congruence|eauto]. Qed.
Lemma is_default st : Nat.eqb (attributes_changed style_default st) 0 = style_eqb st style_default.
Proof.
  destruct (style_eqb_spec st style_default) as [->|H]; [now rewrite changed_same|].
  destruct (changed_pos style_default st) as (k & ->); [congruence|reflexivity].
Qed.
(** The number of settings of a difference. *)
Lemma somes_count {A} (f : color -> A) (g : color -> A) (h : intensity -> A) cur st :
  length (somes [option_map f (d_foreground (diff_from st cur)); option_map g (d_background (diff_from st cur));
                 option_map h (d_intensity (diff_from st cur))]) = attributes_changed cur st.
Proof.
  pose proof (diff_mentions cur st) as (H1 & H2 & H3 & H4 & H5 & H6). unfold attributes_changed, differs.
  destruct (color_eq_dec (foreground cur) (foreground st)) as [E1|E1]; [rewrite (H1 E1)|rewrite (H2 E1)];
  (destruct (color_eq_dec (background cur) (background st)) as [E2|E2]; [rewrite (H3 E2)|rewrite (H4 E2)]);
  (destruct (intensity_eq_dec (intens cur) (intens st)) as [E3|E3]; [rewrite (H5 E3)|rewrite (H6 E3)]); reflexivity.
Qed.
Lemma ansi_change_count cur st : length (ansi_change cur st) = ansi_change_calls cur st.
Proof.
  unfold ansi_change, ansi_change_calls. rewrite is_default.
  pose proof (somes_count ansi_foreground ansi_background ansi_intensity cur st) as L.
  destruct (style_eqb_spec cur st) as [->|N].
  - cbn [negb andb]. rewrite changed_same in *. now destruct (somes _).
  - destruct (changed_pos cur st N) as (k & E). rewrite E in *. cbn [negb andb].
    destruct (style_eqb st style_default); [reflexivity|].
    destruct (somes _) as [|seg rest]; [discriminate|]. cbn [length] in L. injection L as L.
    cbn [length app]. rewrite app_length, flat_pairs, L. cbn [length]. lia.
Qed.
Lemma html_change_count cur st : length (html_change cur st) = html_change_calls cur st.
Proof.
  unfold html_change, html_change_calls. rewrite !is_default.
  pose proof (somes_count html_foreground html_background html_intensity style_default st) as L.
  destruct (style_eqb_spec st style_default) as [->|Hd].
  - destruct (style_eqb_spec cur style_default) as [->|Hc]; cbn [negb]; [now rewrite changed_same|].
    destruct (changed_pos cur style_default Hc) as (k & ->). now rewrite changed_same.
  - destruct (style_eqb_spec st cur) as [->|N]; cbn [negb]; [now rewrite changed_same|].
    destruct (changed_pos cur st) as (k & ->); [congruence|].
    destruct (changed_pos style_default st) as (m & E); [congruence|]. rewrite E in *.
    destruct (somes _) as [|seg rest]; [discriminate|]. cbn [length] in L. injection L as L.
    rewrite !app_length, flat_pairs, L. destruct (style_eqb cur style_default); cbn [negb length]; lia.
Qed.
Lemma escape_from_count s : forall acc, length (escape_parts_from acc s) = 1 + 2 * specials s.
Proof.
  induction s as [|c s IH]; intros acc; [reflexivity|]. cbn [escape_parts_from].
  assert (E : specials (c :: s) = (match html_entity c with Some _ => 1 | None => 0 end) + specials s).
  { unfold specials, html_entity. cbn [filter existsb].
    destruct (N.eqb c 34), (N.eqb c 38), (N.eqb c 39), (N.eqb c 60), (N.eqb c 62); reflexivity. }
  rewrite E. destruct (html_entity c); cbn [length]; rewrite IH; lia.
Qed.
Lemma ansi_parts_count h : forall cur, length (ansi_parts cur h) = ansi_calls cur h.
Proof.
  induction h as [|[[|c s] st] h IH]; intros cur; cbn [ansi_parts ansi_calls is_empty]; [reflexivity|apply IH|].
  rewrite app_length. cbn [length]. rewrite IH, ansi_change_count. lia.
Qed.
Lemma html_parts_count h : forall cur, length (html_parts cur h) = html_calls cur h.
Proof.
  induction h as [|[[|c s] st] h IH]; intros cur; cbn [html_parts html_calls is_empty]; [reflexivity|apply IH|].
  rewrite !app_length, IH, html_change_count. unfold escape_parts. rewrite escape_from_count. lia.
Qed.
Lemma parts_count {S} (sink : fmt_sink S) parts i :
  let '((i', l'), r) := write_parts (logged sink) parts (start i) in
  length l' <= length parts /\ (r = Returned Ok -> length l' = length parts).
Proof.
  pose proof (write_parts_logged sink parts i []) as L. unfold start.
  destruct (write_parts (logged sink) parts (i, [])) as [[i' l'] r]. destruct L as (_ & new & rest & -> & -> & H).
  cbn [app]. rewrite app_length, map_length. split; [lia|]. intros ->. destruct H as [(_ & _ & ->)|[H _]]; [cbn; lia|congruence].
Qed.

(** C102: on any sink, a sequence of writes to Ansi takes at most this many calls, and exactly so many
    if all succeed: one for each write that is not empty, one for a reset, and for any other change
    of style two for each attribute that changes and one more. *)
Theorem C102_ansi {S} (sink : fmt_sink S) (h : history) (i : S) :
  let '(w', o) := play (ansi_write_str (logged sink)) h (ansi_new (start i)) in
  length (snd (an_inner w')) <= ansi_calls style_default h /\
  (o = Returned Ok -> length (snd (an_inner w')) = ansi_calls style_default h).
Proof.
  unfold ansi_new. pose proof (ansi_play_parts (logged sink) h (start i) style_default) as P.
  pose proof (parts_count sink (ansi_parts style_default h) i) as L.
  destruct (play (ansi_write_str (logged sink)) h (mk_ansi (start i) style_default)) as [w' o].
  destruct (write_parts (logged sink) (ansi_parts style_default h) (start i)) as [[i' l'] r].
  destruct P as [-> ->]. rewrite ansi_parts_count in L. exact L.
Qed.
(** C102: to Html: one for each write that is not empty and two for each character that is escaped,
    one for a closing tag, and for an opening tag two for each attribute set and one more. *)
Theorem C102_html {S} (sink : fmt_sink S) (h : history) (i : S) :
  let '(w', o) := play (html_write_str (logged sink)) h (html_new (start i)) in
  length (snd (ht_inner w')) <= html_calls style_default h /\
  (o = Returned Ok -> length (snd (ht_inner w')) = html_calls style_default h).
Proof.
  unfold html_new. pose proof (html_play_parts (logged sink) h (start i) style_default) as P.
  pose proof (parts_count sink (html_parts style_default h) i) as L.
  destruct (play (html_write_str (logged sink)) h (mk_html (start i) style_default)) as [w' o].
  destruct (write_parts (logged sink) (html_parts style_default h) (start i)) as [[i' l'] r].
  destruct P as [-> ->]. rewrite html_parts_count in L. exact L.
Qed.
(** C102: to Plain: one for each write. *)
Theorem C102_plain {S} (sink : fmt_sink S) (h : history) (i : S) :
  let '(w', o) := play (plain_write_str (logged sink)) h (plain_new (start i)) in
  length (snd (pl_inner w')) <= length h /\ (o = Returned Ok -> length (snd (pl_inner w')) = length h).
Proof.
  unfold plain_new. pose proof (plain_play_parts (logged sink) h (start i)) as P.
  pose proof (parts_count sink (map fst h) i) as L.
  destruct (play (plain_write_str (logged sink)) h (mk_plain (start i))) as [w' o].
  destruct (write_parts (logged sink) (map fst h) (start i)) as [[i' l'] r].
  destruct P as [-> ->]. rewrite map_length in L. exact L.
Qed.

Lemma changed_three a b : attributes_changed a b <= 3.
Proof. unfold attributes_changed, differs. destruct (color_eq_dec _ _), (color_eq_dec _ _), (intensity_eq_dec _ _); lia. Qed.
Lemma ansi_change_seven a b : ansi_change_calls a b <= 7.
Proof.
  unfold ansi_change_calls. pose proof (changed_three a b). destruct (attributes_changed a b); [lia|].
  destruct (Nat.eqb _ 0); lia.
Qed.
Lemma html_change_eight a b : html_change_calls a b <= 8.
Proof.
  unfold html_change_calls. pose proof (changed_three style_default b). destruct (attributes_changed a b); [lia|].
  destruct (Nat.eqb _ 0), (attributes_changed style_default b); lia.
Qed.
Lemma ansi_eight h : forall cur, ansi_calls cur h <= 8 * real_writes h.
Proof.
  induction h as [|[[|c s] st] h IH]; intros cur; [cbn; lia|apply IH|].
  cbn [ansi_calls]. unfold real_writes in *. cbn [filter fst length]. pose proof (ansi_change_seven cur st). specialize (IH st). lia.
Qed.
Lemma specials_text s h : specials (text_of ((s, style_default) :: h)) = specials s + specials (text_of h).
Proof.
  unfold specials. change (text_of ((s, style_default) :: h)) with (s ++ text_of h). now rewrite filter_app, app_length.
Qed.
Lemma html_nine h : forall cur, html_calls cur h <= 9 * real_writes h + 2 * specials (text_of h).
Proof.
  induction h as [|[[|c s] st] h IH]; intros cur; [cbn; lia|apply IH|].
  cbn [html_calls]. unfold real_writes in *. cbn [filter fst length]. pose proof (html_change_eight cur st). specialize (IH st).
  change (text_of ((c :: s, st) :: h)) with (text_of ((c :: s, style_default) :: h)). rewrite specials_text. lia.
Qed.
(** C102: at most eight calls for each write that is not empty (nine, and two for each escaped
    character, for Html), whatever the styles. *)
Theorem C102_bound (h : history) :
  ansi_calls style_default h <= 8 * real_writes h /\
  html_calls style_default h <= 9 * real_writes h + 2 * specials (text_of h).
Proof. split; [apply ansi_eight|apply html_nine]. Qed.

Lemma ansi_calls_paint st ss : forall cur h, Forall (fun s => s <> []) ss -> ss <> [] ->
  ansi_calls cur (map (fun s => (s, st)) ss ++ h) = ansi_change_calls cur st + length ss + ansi_calls st h.
Proof.
  induction ss as [|s ss IH]; intros cur h H Hn; [congruence|]. inversion H as [|? ? Hs Hss]; subst. cbn [map app length].
  destruct s as [|c s]; [congruence|]. cbn [ansi_calls]. destruct ss as [|s' ss].
  - cbn [map app length]. lia.
  - rewrite IH by (auto; discriminate). unfold ansi_change_calls at 2. rewrite changed_same. lia.
Qed.
(** C102: text in one style costs one call for each write after the first, so how styled text is cut
    into writes changes nothing else. *)
Theorem C102_pieces (before after : history) (ss : list str) (st : style) :
  Forall (fun s => s <> []) ss -> ss <> [] ->
  ansi_calls style_default (before ++ map (fun s => (s, st)) ss ++ after) + 1 =
  ansi_calls style_default (before ++ (concat ss, st) :: after) + length ss.
Proof.
  intros H Hn. generalize style_default as cur. induction before as [|[[|c s] st'] before IH]; intros cur; cbn [app].
  - rewrite ansi_calls_paint by assumption. destruct ss as [|[|c s] ss]; [congruence|inversion H; congruence|].
    cbn [concat app ansi_calls]. cbn [length]. unfold str, char in *. lia.
  - apply IH.
  - cbn [ansi_calls]. specialize (IH st'). lia.
Qed.
(** C102: io::Ansi makes as many calls (on a writer that takes all it is given). *)
Theorem C102_io (ops : list op) : length (io_sink_calls ops) = length (sink_calls ops).
Proof. rewrite C100_io. apply map_length. Qed.

Example C102_case :
  let red := mk_style Red ColorDefault Normal in let rb := mk_style Red Blue Bold in
  let h := [(lit "a", red); ([], rb); (lit "b<", red); (lit "c", rb); (lit "d", style_default)] in
  ansi_calls style_default h = 3 + 1 + 1 + 5 + 1 + 1 + 1 /\ html_calls style_default h = 3 + 1 + 3 + 8 + 1 + 1 + 1 /\
  length (snd (an_inner (fst (play (ansi_write_str (logged string_sink)) h (ansi_new (@start str [])))))) = 13 /\
  length (snd (ht_inner (fst (play (html_write_str (logged string_sink)) h (html_new (@start str [])))))) = 18.
Proof. vm_compute. repeat split. Qed.
Example C102_case_pieces : Forall (fun s => s <> []) [lit "ab"; lit "c"].
Proof. repeat constructor; discriminate. Qed.
Print Assumptions C102_ansi.
Print Assumptions C102_html.
Print Assumptions C102_plain.
Print Assumptions C102_bound.
Print Assumptions C102_pieces.
Print Assumptions C102_io.
