(** Property C106: threads with adaptors of their own on one document, or taking turns. *)
From Verif Require Import Base Style Fmt Ansi Html SpecText TextFacts StyleFacts SpecTerminal SpecSgr AnsiFacts
  SpecHtml HtmlFacts HtmlRetryFacts Threads SpecThreads PropsThreads SpecTurns Utf8Facts.

(** * Two pages in the same state that get the same *)
Lemma apply_decl_none par l : fold_left (apply_decl par) l None = None.
Proof. induction l as [|d l IH]; [reflexivity|]. exact IH. Qed.
Lemma apply_decl_any par par' a a' d :
  match apply_decl par (Some a) d, apply_decl par' (Some a') d with
  | Some _, Some _ => True | None, None => True | _, _ => False end.
Proof.
  unfold apply_decl. destruct (split_at 58%N d) as [|name [|v [|x y]]]; try exact I.
  repeat match goal with |- context [if str_eqb ?x ?y then _ else _] => destruct (str_eqb x y) end; exact I.
Qed.
Lemma apply_decls_any par par' l : forall a a',
  match fold_left (apply_decl par) l (Some a), fold_left (apply_decl par') l (Some a') with
  | Some _, Some _ => True | None, None => True | _, _ => False end.
Proof.
  induction l as [|d l IH]; intros a a'; [exact I|]. cbn [fold_left].
  pose proof (apply_decl_any par par' a a' d) as H.
  destruct (apply_decl par (Some a) d), (apply_decl par' (Some a') d); try contradiction; [apply IH|].
  rewrite !apply_decl_none. exact I.
Qed.
Lemma open_tag_any par par' tag :
  match open_tag par tag, open_tag par' tag with Some _, Some _ => True | None, None => True | _, _ => False end.
Proof.
  unfold open_tag. destruct (strip_prefix (lit "span style=") tag) as [v|]; [|exact I].
  destruct (negb (is_empty v) && forallb (fun c => negb (ends_unquoted c)) v); [|exact I].
  apply apply_decls_any.
Qed.

Lemma broken_step p c : pg_state (page_step p c) <> Broken -> pg_state p <> Broken.
Proof. destruct p as [[| | |] o cells]; cbn; intros H; discriminate || exact H. Qed.
Lemma broken_feed s : forall p, pg_state (page_feed p s) <> Broken -> pg_state p <> Broken.
Proof.
  induction s as [|c s IH]; intros p H; [exact H|]. apply (broken_step p c). apply IH. exact H.
Qed.

(** [p] is the shared page, [q] that of the thread. *)
Lemma page_lockstep p q c :
  pg_state p = pg_state q -> length (pg_open q) <= length (pg_open p) -> pg_state (page_step q c) <> Broken ->
  pg_state (page_step p c) = pg_state (page_step q c) /\
  length (pg_open (page_step p c)) + length (pg_open q) = length (pg_open p) + length (pg_open (page_step q c)) /\
  exists new, page_text (page_step p c) = page_text p ++ new /\ page_text (page_step q c) = page_text q ++ new.
Proof.
  destruct p as [g o cells], q as [g' o' cells']. cbn [pg_state pg_open]. intros -> Hl Hb.
  assert (N : map fst cells = map fst cells ++ [] /\ map fst cells' = map fst cells' ++ []) by now rewrite !app_nil_r.
  unfold page_step in *. cbn [pg_state pg_open pg_cells] in *. unfold page_text. destruct g' as [|acc|acc|].
  - repeat match goal with |- context [if ?b then _ else _] => destruct b end; cbn [pg_state pg_open pg_cells];
      (split; [reflexivity|]); (split; [lia|]); try (exists []; exact N).
    exists [c]. now rewrite !map_app.
  - destruct (N.eqb c 62).
    + destruct (str_eqb acc (lit "/span")).
      * destruct o' as [|x' o']; [cbn in Hb; contradiction|]. destruct o as [|x o]; [cbn in Hl; lia|].
        cbn [pg_state pg_open pg_cells length]. split; [reflexivity|]. split; [lia|]. exists []; exact N.
      * pose proof (open_tag_any (pg_style (mk_page (InTag acc) o cells)) (pg_style (mk_page (InTag acc) o' cells')) acc) as HO.
        destruct (open_tag (pg_style (mk_page (InTag acc) o cells)) acc),
          (open_tag (pg_style (mk_page (InTag acc) o' cells')) acc); try contradiction;
          cbn [pg_state pg_open pg_cells length] in *; try (now destruct Hb).
        split; [reflexivity|]. split; [lia|]. exists []; exact N.
    + cbn [pg_state pg_open pg_cells]. split; [reflexivity|]. split; [lia|]. exists []; exact N.
  - destruct (N.eqb c 59); cbn [pg_state pg_open pg_cells].
    + destruct (char_reference acc) as [d|]; cbn [pg_state pg_open pg_cells] in *; [|now destruct Hb].
      split; [reflexivity|]. split; [lia|]. exists [d]. now rewrite !map_app.
    + split; [reflexivity|]. split; [lia|]. exists []; exact N.
  - now destruct Hb.
Qed.
Lemma page_together s : forall p q,
  pg_state p = pg_state q -> length (pg_open q) <= length (pg_open p) -> pg_state (page_feed q s) <> Broken ->
  pg_state (page_feed p s) = pg_state (page_feed q s) /\
  length (pg_open (page_feed p s)) + length (pg_open q) = length (pg_open p) + length (pg_open (page_feed q s)) /\
  exists new, page_text (page_feed p s) = page_text p ++ new /\ page_text (page_feed q s) = page_text q ++ new.
Proof.
  induction s as [|c s IH]; intros p q Hs Hl Hb.
  - cbn. split; [exact Hs|]. split; [lia|]. exists []. now rewrite !app_nil_r.
  - change (page_feed ?x (c :: s)) with (page_feed (page_step x c) s) in *.
    destruct (page_lockstep p q c Hs Hl (broken_feed _ _ Hb)) as (H1 & H2 & n & A & B).
    destruct (IH _ _ H1 ltac:(lia) Hb) as (H3 & H4 & n' & A' & B').
    split; [exact H3|]. split; [lia|]. exists (n ++ n'). rewrite A', B', A, B, !app_assoc. now split.
Qed.

(** * The shared document *)
Lemma own_page_snoc k tr j s :
  own_page k (tr ++ [(j, s)]) = if Nat.eqb j k then page_feed (own_page k tr) s else own_page k tr.
Proof.
  unfold own_page. rewrite by_thread_app, by_thread_one, concat_app. destruct (Nat.eqb j k); cbn [concat].
  - now rewrite app_nil_r, pfeed_app.
  - now rewrite app_nil_r.
Qed.
Lemma document_snoc tr j s : document (tr ++ [(j, s)]) = page_feed (document tr) s.
Proof. unfold document, received. rewrite map_app, concat_app. cbn. now rewrite app_nil_r, pfeed_app. Qed.
Lemma html_uninterrupted_prefix a b : html_uninterrupted (a ++ b) -> html_uninterrupted a.
Proof. intros H before k s j s' after E. apply (H before k s j s' (after ++ b)). now rewrite E, <- app_assoc. Qed.

Lemma sum_change (f g : nat -> nat) k n :
  k < n -> (forall j, j <> k -> g j = f j) ->
  list_sum (map g (seq 0 n)) + f k = list_sum (map f (seq 0 n)) + g k.
Proof.
  intros Hk Hj.
  assert (Z : forall l, ~ In k l -> list_sum (map g l) = list_sum (map f l)).
  { induction l as [|x l IH]; intros H; [reflexivity|]. cbn [map list_sum fold_right] in *.
    change (g x + list_sum (map g l) = f x + list_sum (map f l)).
    rewrite IH by (intros Hi; apply H; now right). rewrite Hj; [reflexivity|]. intros ->. apply H. now left. }
  destruct (in_split k (seq 0 n)) as (l1 & l2 & E); [apply in_seq; lia|].
  pose proof (seq_NoDup n 0) as ND. rewrite E in ND. apply NoDup_remove_2 in ND.
  rewrite E, !map_app, !list_sum_app. cbn [map]. change (list_sum (?a :: ?l)) with (a + list_sum l).
  rewrite (Z l1), (Z l2) by (intros H; apply ND, in_or_app; auto). lia.
Qed.
Lemma sum_member (f : nat -> nat) k n : k < n -> f k <= list_sum (map f (seq 0 n)).
Proof.
  intros Hk. destruct (in_split k (seq 0 n)) as (l1 & l2 & E); [apply in_seq; lia|].
  rewrite E, map_app, list_sum_app. cbn [map]. change (list_sum (?a :: ?l)) with (a + list_sum l). lia.
Qed.

Lemma merge_more {A} (f g : nat -> list A) s k new :
  merges f s -> g k = f k ++ new -> (forall j, j <> k -> g j = f j) -> merges g (s ++ new).
Proof.
  intros (l & <- & H) Hk Hj. exists (l ++ map (fun c => (k, c)) new). split.
  - rewrite map_app, map_map. cbn [snd]. now rewrite map_id.
  - intros j. rewrite filter_app, map_app, H. destruct (Nat.eq_dec j k) as [->|E].
    + rewrite Hk. f_equal. clear. induction new as [|c new IH]; [reflexivity|]. cbn. rewrite Nat.eqb_refl. cbn. now rewrite IH.
    + rewrite (Hj j E). rewrite <- (app_nil_r (f j)) at 2. f_equal. clear - E.
      induction new as [|c new IH]; [reflexivity|]. cbn. destruct (Nat.eqb_spec k j); [congruence|exact IH].
Qed.
Lemma merge_same {A} (f g : nat -> list A) s : (forall k, f k = g k) -> merges f s -> merges g s.
Proof. intros E (l & H & K). exists l. split; [exact H|]. intros k. now rewrite K. Qed.

Lemma last_call {A} (l : list A) : l = [] \/ exists b x, l = b ++ [x].
Proof. induction l as [|x l _] using rev_ind; [now left|right; eauto]. Qed.

(** The shared document is in the state of the thread that wrote last, every other thread is between tags. *)
Definition follows (tr : schedule) (k : nat) : Prop :=
  pg_state (document tr) = pg_state (own_page k tr) /\ forall j, j <> k -> pg_state (own_page j tr) = Data.

Lemma shared_pages n tr :
  html_uninterrupted tr -> (forall k, pg_state (own_page k tr) <> Broken) -> Forall (fun e => fst e < n) tr ->
  (forall b k s, tr = b ++ [(k, s)] -> follows tr k) /\
  length (pg_open (document tr)) = opened n tr /\
  merges (fun k => page_text (own_page k tr)) (page_text (document tr)).
Proof.
  induction tr as [|[k s] tr IH] using rev_ind; intros U B F.
  { split; [intros b k s E; now destruct b|]. split.
    - unfold opened. induction (seq 0 n) as [|x l IH]; [reflexivity|]. exact IH.
    - exists []. split; reflexivity. }
  apply Forall_app in F as [F Fk]. inversion Fk as [|? ? Hk _]; subst. cbn [fst] in Hk.
  assert (B' : forall j, pg_state (own_page j tr) <> Broken).
  { intros j. specialize (B j). rewrite own_page_snoc in B. destruct (Nat.eqb k j); [|exact B]. exact (broken_feed _ _ B). }
  destruct (IH (html_uninterrupted_prefix _ _ U) B' F) as (I1 & I2 & I3). clear IH.
  assert (A : follows tr k).
  { destruct (last_call tr) as [->|(b & [k' s'] & E)]; [split; reflexivity|].
    destruct (I1 b k' s' E) as [J1 J2]. destruct (Nat.eq_dec k k') as [->|Hn]; [now split|].
    assert (Z : pg_state (own_page k' tr) = Data).
    { destruct (pg_state (own_page k' tr)) eqn:Z; [reflexivity|..];
        (exfalso; apply Hn; apply (U b k' s' k s []); [now rewrite E, <- app_assoc|rewrite <- E, Z; discriminate]). }
    split.
    - rewrite J1, Z. symmetry. now apply J2.
    - intros j Hj. destruct (Nat.eq_dec j k') as [->|Hj']; auto. }
  destruct A as [A1 A2].
  assert (Bk : pg_state (page_feed (own_page k tr) s) <> Broken).
  { specialize (B k). now rewrite own_page_snoc, Nat.eqb_refl in B. }
  assert (Hl : length (pg_open (own_page k tr)) <= length (pg_open (document tr))).
  { rewrite I2. exact (sum_member (fun k => length (pg_open (own_page k tr))) k n Hk). }
  destruct (page_together s _ _ A1 Hl Bk) as (H1 & H2 & new & C & D).
  assert (Ho : forall j, j <> k -> own_page j (tr ++ [(k, s)]) = own_page j tr).
  { intros j Hj. rewrite own_page_snoc. destruct (Nat.eqb_spec k j); [congruence|reflexivity]. }
  assert (Hk' : own_page k (tr ++ [(k, s)]) = page_feed (own_page k tr) s) by now rewrite own_page_snoc, Nat.eqb_refl.
  rewrite document_snoc. split; [|split].
  - intros b k2 s2 E. apply app_inj_tail in E as [_ E]. injection E as <- <-. split.
    + rewrite document_snoc, Hk'. exact H1.
    + intros j Hj. rewrite (Ho j Hj). auto.
  - pose proof (sum_change (fun j => length (pg_open (own_page j tr)))
      (fun j => length (pg_open (own_page j (tr ++ [(k, s)])))) k n Hk) as HS. cbn beta in HS.
    specialize (HS (fun j Hj => f_equal (fun p => length (pg_open p)) (Ho j Hj))). rewrite Hk' in HS.
    unfold opened in *. lia.
  - rewrite C. apply (merge_more _ _ _ k new I3).
    + now rewrite Hk'.
    + intros j Hj. now rewrite Ho.
Qed.

Lemma threads_bound (tr : schedule) : exists n, Forall (fun e => fst e < n) tr.
Proof.
  induction tr as [|[k s] tr (n & IH)]; [exists 0; constructor|]. exists (Nat.max (S k) n). constructor; [cbn [fst]; lia|].
  eapply Forall_impl; [|exact IH]. cbn beta. intros e He. lia.
Qed.

(** C106 (so far): whatever the threads send, as long as each would make a page of its own and no thread gets
    in while another is in the middle of a tag or a reference, the document is never broken, its text is made
    of the texts of the threads, every character once and each thread's in order, and as many elements
    are open as the threads have opened. *)
Theorem C106_so_far (tr : schedule) :
  html_uninterrupted tr -> (forall k, pg_state (own_page k tr) <> Broken) ->
  pg_state (document tr) <> Broken /\
  merges (fun k => page_text (own_page k tr)) (page_text (document tr)) /\
  forall n, Forall (fun e => fst e < n) tr -> length (pg_open (document tr)) = opened n tr.
Proof.
  intros U B. destruct (threads_bound tr) as (n & F). destruct (shared_pages n tr U B F) as (I1 & _ & I3).
  split; [|split; [exact I3|]].
  - destruct (last_call tr) as [->|(b & [k s] & E)]; [discriminate|]. destruct (I1 b k s E) as [-> _]. apply B.
  - intros m Fm. now destruct (shared_pages m tr U B Fm) as (_ & I2 & _).
Qed.
Print Assumptions C106_so_far.

(** * What one thread sends *)
Definition html_thread_run (ops : list op) : html (list str) := fold_left html_thread_step ops (html_new []).
Lemma html_thread_page ops :
  ht_current (html_thread_run ops) = left_in ops /\
  page_feed page_new (concat (ht_inner (html_thread_run ops)))
  = mk_page Data (open_elements (left_in ops)) (looks (denote (said ops))).
Proof.
  induction ops as [|o ops (IH1 & IH2)] using rev_ind; [split; reflexivity|].
  unfold html_thread_run in *. rewrite fold_left_app. cbn [fold_left].
  set (w := fold_left html_thread_step ops (html_new [])) in *. rewrite left_in_snoc.
  assert (Hs : said (ops ++ [o]) = said ops ++ match o with Put s st => [(s, st)] | Done => [] end).
  { unfold said. rewrite flat_map_app. cbn [flat_map]. now rewrite app_nil_r. }
  rewrite Hs. destruct o as [[|c s] st|]; cbn [html_thread_step left_step].
  - unfold html_write_str. cbn [is_empty fst]. split; [exact IH1|]. rewrite IH2. f_equal.
    rewrite denote_app. cbn. now rewrite app_nil_r.
  - unfold html_write_str. cbn [is_empty]. rewrite !parts_recorded. cbn [fst ht_current ht_inner].
    split; [reflexivity|]. rewrite !concat_app, escape_parts_concat, !pfeed_app, IH2, IH1.
    change (concat (html_change (left_in ops) st)) with (hesc (left_in ops) st). rewrite feed_hesc, feed_escaped_text.
    f_equal. rewrite denote_app. cbn [denote]. rewrite app_nil_r. unfold looks. rewrite map_app. f_equal.
    unfold paint. rewrite map_map. cbn [fst snd]. rewrite open_elements_style. reflexivity.
  - unfold html_new, html_finish. cbn [fst ht_current ht_inner]. split; [reflexivity|]. rewrite app_nil_r, IH1.
    destruct (style_eqb_spec (left_in ops) style_default) as [E|E]; cbn [negb].
    + cbn [fst]. rewrite IH2, E. reflexivity.
    + rewrite parts_recorded. cbn [fst]. rewrite concat_app, pfeed_app, IH2.
      replace (concat [lit "</span>"]) with (hesc (left_in ops) style_default); [apply feed_hesc|].
      rewrite hesc_default. unfold close_tag. rewrite (style_eqb_neq _ _ E). reflexivity.
Qed.
Lemma own_page_of_run progs tr k : html_scheduled progs tr ->
  own_page k tr = mk_page Data (open_elements (left_in (progs k))) (looks (denote (said (progs k)))).
Proof. intros R. unfold own_page. rewrite (R k). apply html_thread_page. Qed.
Lemma said_says ops : text_of (said ops) = says ops.
Proof.
  unfold text_of, said, says. induction ops as [|[s st|] ops IH]; [reflexivity| |]; cbn; now rewrite ?IH.
Qed.

(** C106 (merged): threads that use Html adaptors of their own on one document and run to their end: if no
    thread gets in while another is in the middle of a tag, the document is a complete one, its text is made
    of what the threads said, every character once and each thread's in order, whatever the styles; if every
    thread finished its adaptor no element is left open. *)
Theorem C106_merged (progs : nat -> list op) (tr : schedule) :
  html_scheduled progs tr -> html_uninterrupted tr ->
  pg_state (document tr) = Data /\
  merges (fun k => says (progs k)) (page_text (document tr)) /\
  ((forall k, left_in (progs k) = style_default) -> pg_open (document tr) = []).
Proof.
  intros R U.
  assert (B : forall k, pg_state (own_page k tr) <> Broken).
  { intros k. rewrite (own_page_of_run progs tr k R). discriminate. }
  destruct (threads_bound tr) as (n & F). destruct (shared_pages n tr U B F) as (I1 & I2 & I3).
  split; [|split].
  - destruct (last_call tr) as [->|(b & [k s] & E)]; [reflexivity|]. destruct (I1 b k s E) as [-> _].
    now rewrite (own_page_of_run progs tr k R).
  - eapply merge_same; [|exact I3]. intros k. cbn beta. rewrite (own_page_of_run progs tr k R).
    unfold page_text. cbn [pg_cells]. unfold looks. rewrite map_map. cbn [fst].
    change (map (fun x : cell => fst x) (denote (said (progs k)))) with (chars (denote (said (progs k)))).
    now rewrite chars_denote, said_says.
  - intros L. apply length_zero_iff_nil. rewrite I2. unfold opened. clear -R L.
    induction (seq 0 n) as [|k l IH]; [reflexivity|]. cbn [map].
    change (list_sum (?a :: ?l)) with (a + list_sum l). rewrite IH, (own_page_of_run progs tr k R), L. reflexivity.
Qed.
Print Assumptions C106_merged.

(** * Taking turns *)
Lemma twin_step p q c :
  pg_state p = pg_state q -> pg_open p = pg_open q ->
  pg_state (page_step p c) = pg_state (page_step q c) /\ pg_open (page_step p c) = pg_open (page_step q c) /\
  exists new, pg_cells (page_step p c) = pg_cells p ++ new /\ pg_cells (page_step q c) = pg_cells q ++ new.
Proof.
  destruct p as [g o cells], q as [g' o' cells']. cbn [pg_state pg_open]. intros -> ->.
  assert (N : cells = cells ++ [] /\ cells' = cells' ++ []) by now rewrite !app_nil_r.
  unfold page_step. cbn [pg_state pg_open pg_cells]. unfold pg_style. cbn [pg_open].
  destruct g' as [|acc|acc|].
  - repeat match goal with |- context [if ?b then _ else _] => destruct b end; cbn [pg_state pg_open pg_cells];
      (split; [reflexivity|]); (split; [reflexivity|]); try (exists []; exact N). eexists. split; reflexivity.
  - destruct (N.eqb c 62); [destruct (str_eqb acc (lit "/span"));
      [destruct o'|destruct (open_tag (match o' with [] => css_page | x :: _ => x end) acc)]|];
      cbn [pg_state pg_open pg_cells]; (split; [reflexivity|]); (split; [reflexivity|]); exists []; exact N.
  - destruct (N.eqb c 59); [destruct (char_reference acc)|];
      cbn [pg_state pg_open pg_cells]; (split; [reflexivity|]); (split; [reflexivity|]); try (exists []; exact N).
    eexists. split; reflexivity.
  - cbn [pg_state pg_open pg_cells]. split; [reflexivity|]. split; [reflexivity|]. exists []; exact N.
Qed.
Lemma twin_feed s : forall p q,
  pg_state p = pg_state q -> pg_open p = pg_open q ->
  pg_state (page_feed p s) = pg_state (page_feed q s) /\ pg_open (page_feed p s) = pg_open (page_feed q s) /\
  exists new, pg_cells (page_feed p s) = pg_cells p ++ new /\ pg_cells (page_feed q s) = pg_cells q ++ new.
Proof.
  induction s as [|c s IH]; intros p q Hs Ho.
  - split; [exact Hs|]. split; [exact Ho|]. exists []. now rewrite !app_nil_r.
  - change (page_feed ?x (c :: s)) with (page_feed (page_step x c) s).
    destruct (twin_step p q c Hs Ho) as (H1 & H2 & n & A & B).
    destruct (IH _ _ H1 H2) as (H3 & H4 & n' & A' & B').
    split; [exact H3|]. split; [exact H4|]. exists (n ++ n'). rewrite A', B', A, B, !app_assoc. now split.
Qed.
Lemma turns_prefix a b : html_turns (a ++ b) -> html_turns a.
Proof. intros H before k s j s' after E. apply (H before k s j s' (after ++ b)). now rewrite E, <- app_assoc. Qed.

Lemma turns_pages tr : html_turns tr ->
  (forall b k s, tr = b ++ [(k, s)] ->
     pg_state (document tr) = pg_state (own_page k tr) /\ pg_open (document tr) = pg_open (own_page k tr) /\
     forall j, j <> k -> pg_state (own_page j tr) = Data /\ pg_open (own_page j tr) = []) /\
  merges (fun k => pg_cells (own_page k tr)) (pg_cells (document tr)).
Proof.
  induction tr as [|[k s] tr IH] using rev_ind; intros U.
  { split; [intros b k s E; now destruct b|]. exists []. split; reflexivity. }
  destruct (IH (turns_prefix _ _ U)) as (I1 & I3). clear IH.
  assert (A : pg_state (document tr) = pg_state (own_page k tr) /\ pg_open (document tr) = pg_open (own_page k tr) /\
              forall j, j <> k -> pg_state (own_page j tr) = Data /\ pg_open (own_page j tr) = []).
  { destruct (last_call tr) as [->|(b & [k' s'] & E)]; [repeat split; reflexivity|].
    destruct (I1 b k' s' E) as (J1 & J2 & J3). destruct (Nat.eq_dec k k') as [->|Hn]; [auto|].
    assert (Z : pg_state (own_page k' tr) = Data /\ pg_open (own_page k' tr) = []).
    { pose proof (U b k' s' k s [] ltac:(now rewrite E, <- app_assoc)) as Hu. rewrite <- E in Hu.
      destruct (pg_state (own_page k' tr)) eqn:Z1;
        try (exfalso; apply Hn, Hu; left; discriminate).
      destruct (pg_open (own_page k' tr)) eqn:Z2; [auto|]. exfalso. apply Hn, Hu. right. discriminate. }
    destruct Z as [Z1 Z2]. destruct (J3 k Hn) as [K1 K2]. split; [congruence|]. split; [congruence|].
    intros j Hj. destruct (Nat.eq_dec j k') as [->|Hj']; auto. }
  destruct A as (A1 & A2 & A3). destruct (twin_feed s _ _ A1 A2) as (H1 & H2 & new & C & D).
  assert (Ho : forall j, j <> k -> own_page j (tr ++ [(k, s)]) = own_page j tr).
  { intros j Hj. rewrite own_page_snoc. destruct (Nat.eqb_spec k j); [congruence|reflexivity]. }
  assert (Hk : own_page k (tr ++ [(k, s)]) = page_feed (own_page k tr) s) by now rewrite own_page_snoc, Nat.eqb_refl.
  rewrite document_snoc. split.
  - intros b k2 s2 E. apply app_inj_tail in E as [_ E]. injection E as <- <-. rewrite Hk. split; [exact H1|].
    split; [exact H2|]. intros j Hj. rewrite (Ho j Hj). auto.
  - rewrite C. apply (merge_more _ _ _ k new I3).
    + now rewrite Hk.
    + intros j Hj. now rewrite Ho.
Qed.

(** C106 (turns, HTML): if a thread gets in only when the thread that wrote last has closed what it opened (it
    has finished its adaptor, or written in the default style last), everything is shown in the styles it was
    written in, every character once and each thread's in order. *)
Theorem C106_html_turns (progs : nat -> list op) (tr : schedule) :
  html_scheduled progs tr -> html_turns tr ->
  pg_state (document tr) = Data /\
  merges (fun k => looks (denote (said (progs k)))) (pg_cells (document tr)) /\
  ((forall k, left_in (progs k) = style_default) -> pg_open (document tr) = []).
Proof.
  intros R U. destruct (turns_pages tr U) as (I1 & I3). split; [|split].
  - destruct (last_call tr) as [->|(b & [k s] & E)]; [reflexivity|]. destruct (I1 b k s E) as [-> _].
    now rewrite (own_page_of_run progs tr k R).
  - eapply merge_same; [|exact I3]. intros k. cbn beta. now rewrite (own_page_of_run progs tr k R).
  - intros L. destruct (last_call tr) as [->|(b & [k s] & E)]; [reflexivity|]. destruct (I1 b k s E) as (_ & -> & _).
    rewrite (own_page_of_run progs tr k R). cbn [pg_open]. rewrite L. reflexivity.
Qed.
Print Assumptions C106_html_turns.

(** ** On a terminal *)
Lemma term_twin_step (t u : term style) c :
  tm_state t = tm_state u -> tm_rend t = tm_rend u ->
  tm_state (term_step sgr_style t c) = tm_state (term_step sgr_style u c) /\
  tm_rend (term_step sgr_style t c) = tm_rend (term_step sgr_style u c) /\
  exists new, tm_screen (term_step sgr_style t c) = tm_screen t ++ new /\
              tm_screen (term_step sgr_style u c) = tm_screen u ++ new.
Proof.
  destruct t as [g r scr], u as [g' r' scr']. cbn [tm_state tm_rend]. intros -> ->.
  assert (N : scr = scr ++ [] /\ scr' = scr' ++ []) by now rewrite !app_nil_r.
  unfold term_step. cbn [tm_state tm_rend tm_screen].
  destruct g'; repeat match goal with |- context [if ?b then _ else _] => destruct b end;
    cbn [tm_state tm_rend tm_screen]; (split; [reflexivity|]); (split; [reflexivity|]); try (exists []; exact N).
  eexists. split; reflexivity.
Qed.
Lemma term_twin_feed s : forall t u : term style,
  tm_state t = tm_state u -> tm_rend t = tm_rend u ->
  tm_state (term_feed sgr_style t s) = tm_state (term_feed sgr_style u s) /\
  tm_rend (term_feed sgr_style t s) = tm_rend (term_feed sgr_style u s) /\
  exists new, tm_screen (term_feed sgr_style t s) = tm_screen t ++ new /\
              tm_screen (term_feed sgr_style u s) = tm_screen u ++ new.
Proof.
  induction s as [|c s IH]; intros t u Hs Hr.
  - split; [exact Hs|]. split; [exact Hr|]. exists []. now rewrite !app_nil_r.
  - change (term_feed sgr_style ?x (c :: s)) with (term_feed sgr_style (term_step sgr_style x c) s).
    destruct (term_twin_step t u c Hs Hr) as (H1 & H2 & n & A & B).
    destruct (IH _ _ H1 H2) as (H3 & H4 & n' & A' & B').
    split; [exact H3|]. split; [exact H4|]. exists (n ++ n'). rewrite A', B', A, B, !app_assoc. now split.
Qed.
Lemma ansi_turns_prefix a b : ansi_turns (a ++ b) -> ansi_turns a.
Proof. intros H before k s j s' after E. apply (H before k s j s' (after ++ b)). now rewrite E, <- app_assoc. Qed.
Lemma turns_screens tr : ansi_turns tr ->
  (forall b k s, tr = b ++ [(k, s)] ->
     tm_state (shared_screen tr) = tm_state (own_screen k tr) /\ tm_rend (shared_screen tr) = tm_rend (own_screen k tr) /\
     forall j, j <> k -> tm_state (own_screen j tr) = Ground /\ tm_rend (own_screen j tr) = style_default) /\
  merges (fun k => tm_screen (own_screen k tr)) (tm_screen (shared_screen tr)).
Proof.
  induction tr as [|[k s] tr IH] using rev_ind; intros U.
  { split; [intros b k s E; now destruct b|]. exists []. split; reflexivity. }
  destruct (IH (ansi_turns_prefix _ _ U)) as (I1 & I3). clear IH.
  assert (A : tm_state (shared_screen tr) = tm_state (own_screen k tr) /\ tm_rend (shared_screen tr) = tm_rend (own_screen k tr) /\
              forall j, j <> k -> tm_state (own_screen j tr) = Ground /\ tm_rend (own_screen j tr) = style_default).
  { destruct (last_call tr) as [->|(b & [k' s'] & E)]; [repeat split; reflexivity|].
    destruct (I1 b k' s' E) as (J1 & J2 & J3). destruct (Nat.eq_dec k k') as [->|Hn]; [auto|].
    assert (Z : tm_state (own_screen k' tr) = Ground /\ tm_rend (own_screen k' tr) = style_default).
    { pose proof (U b k' s' k s [] ltac:(now rewrite E, <- app_assoc)) as Hu. rewrite <- E in Hu.
      destruct (tm_state (own_screen k' tr)) eqn:Z1;
        try (exfalso; apply Hn, Hu; left; discriminate).
      destruct (style_eqb_spec (tm_rend (own_screen k' tr)) style_default) as [Z2|Z2]; [auto|].
      exfalso. apply Hn, Hu. right. exact Z2. }
    destruct Z as [Z1 Z2]. destruct (J3 k Hn) as [K1 K2]. split; [congruence|]. split; [congruence|].
    intros j Hj. destruct (Nat.eq_dec j k') as [->|Hj']; auto. }
  destruct A as (A1 & A2 & A3). destruct (term_twin_feed s _ _ A1 A2) as (H1 & H2 & new & C & D).
  assert (Ho : forall j, j <> k -> own_screen j (tr ++ [(k, s)]) = own_screen j tr).
  { intros j Hj. rewrite own_snoc. destruct (Nat.eqb_spec k j); [congruence|reflexivity]. }
  assert (Hk : own_screen k (tr ++ [(k, s)]) = term_feed sgr_style (own_screen k tr) s) by now rewrite own_snoc, Nat.eqb_refl.
  rewrite shared_snoc. split.
  - intros b k2 s2 E. apply app_inj_tail in E as [_ E]. injection E as <- <-. rewrite Hk. split; [exact H1|].
    split; [exact H2|]. intros j Hj. rewrite (Ho j Hj). auto.
  - rewrite C. apply (merge_more _ _ _ k new I3).
    + now rewrite Hk.
    + intros j Hj. now rewrite Ho.
Qed.
Lemma own_cells ops : no_controls (says ops) ->
  term_feed sgr_style term_new (concat (sink_calls ops)) = mk_term Ground (left_in ops) (denote (said ops)).
Proof.
  induction ops as [|o ops IH] using rev_ind; intros H; [reflexivity|].
  rewrite says_snoc in H. apply Forall_app in H as [H1 H2]. specialize (IH H1).
  rewrite sink_calls_snoc, concat_app, new_calls_text, left_in_snoc, feed_app, IH.
  assert (Hs : said (ops ++ [o]) = said ops ++ match o with Put s st => [(s, st)] | Done => [] end).
  { unfold said. rewrite flat_map_app. cbn [flat_map]. now rewrite app_nil_r. }
  rewrite Hs, denote_app. destruct o as [[|c s] st|]; cbn [left_step denote].
  - cbn. now rewrite app_nil_r.
  - rewrite feed_app, feed_esc, esc_codes_style, feed_text by exact H2. now rewrite app_nil_r.
  - rewrite feed_esc, esc_codes_style. now rewrite app_nil_r.
Qed.

(** C106 (turns, ANSI): the same on a terminal. *)
Theorem C106_ansi_turns (progs : nat -> list op) (tr : schedule) :
  scheduled progs tr -> (forall k, no_controls (says (progs k))) -> ansi_turns tr ->
  let t := term_feed sgr_style term_new (received tr) in
  tm_state t = Ground /\
  merges (fun k => denote (said (progs k))) (tm_screen t) /\
  ((forall k, left_in (progs k) = style_default) -> tm_rend t = style_default).
Proof.
  intros R N U. cbn zeta. change (term_feed sgr_style term_new (received tr)) with (shared_screen tr).
  assert (O : forall k, own_screen k tr = mk_term Ground (left_in (progs k)) (denote (said (progs k)))).
  { intros k. unfold own_screen. rewrite (R k). now apply own_cells. }
  destruct (turns_screens tr U) as (I1 & I3). split; [|split].
  - destruct (last_call tr) as [->|(b & [k s] & E)]; [reflexivity|]. destruct (I1 b k s E) as [-> _]. now rewrite O.
  - eapply merge_same; [|exact I3]. intros k. cbn beta. now rewrite O.
  - intros L. destruct (last_call tr) as [->|(b & [k s] & E)]; [reflexivity|]. destruct (I1 b k s E) as (_ & -> & _).
    rewrite O. cbn [tm_rend]. apply L.
Qed.
Print Assumptions C106_ansi_turns.

(** * Locks *)
Lemma pair_split (tr : schedule) (k : nat) (cs : list str) before k0 s0 j s' after :
  tr ++ map (fun s => (k, s)) cs = before ++ (k0, s0) :: (j, s') :: after ->
  (exists after', tr = before ++ (k0, s0) :: (j, s') :: after') \/ tr = before ++ [(k0, s0)] \/ j = k0.
Proof.
  revert before. induction tr as [|e tr IH]; intros before E.
  - right. right. cbn [app] in E. revert before E. induction cs as [|c cs IHc]; intros before E; [now destruct before|].
    destruct before as [|b before]; cbn [map app] in E.
    + injection E as E1 E2 E3. destruct cs as [|c' cs]; [discriminate|]. cbn [map] in E3. injection E3 as E4 E5 E6. congruence.
    + injection E as _ E. exact (IHc before E).
  - destruct before as [|b before]; cbn [app] in E.
    + destruct tr as [|e' tr].
      * right. left. injection E as -> _. reflexivity.
      * left. injection E as -> E1 E2. exists tr. now rewrite <- E1.
    + injection E as -> E. destruct (IH before E) as [(a' & ->)|[->|H]]; [left; now exists a'|right; left; reflexivity|auto].
Qed.
Lemma by_thread_mine k (cs : list str) : by_thread k (map (fun s => (k, s)) cs) = cs.
Proof. unfold by_thread. induction cs as [|c cs IH]; [reflexivity|]. cbn. rewrite Nat.eqb_refl. cbn. now rewrite IH. Qed.
Lemma by_thread_other j k (cs : list str) : j <> k -> by_thread j (map (fun s => (k, s)) cs) = [].
Proof.
  intros H. unfold by_thread. induction cs as [|c cs IH]; [reflexivity|]. cbn. destruct (Nat.eqb_spec k j); [congruence|exact IH].
Qed.
Lemma locked_snoc calls items k ops :
  locked calls (items ++ [(k, ops)]) = locked calls items ++ map (fun s => (k, s)) (calls ops).
Proof. unfold locked. rewrite flat_map_app. cbn. now rewrite app_nil_r. Qed.

Lemma locked_html items : Forall (fun e => left_in (snd e) = style_default) items ->
  let tr := locked html_sink_calls items in
  html_turns tr /\ (forall k, pg_state (own_page k tr) = Data /\ pg_open (own_page k tr) = []) /\
  document tr = mk_page Data [] (looks (denote (flat_map (fun e => said (snd e)) items))).
Proof.
  cbn zeta. induction items as [|[k ops] items IH] using rev_ind; intros H.
  { split; [intros before k s j s' after E; now destruct before|]. split; [intros k; split; reflexivity|reflexivity]. }
  apply Forall_app in H as [H Hk]. inversion Hk as [|? ? L _]; subst. cbn [snd] in L.
  destruct (IH H) as (I1 & I2 & I3). clear IH. rewrite locked_snoc. set (tr := locked html_sink_calls items) in *.
  destruct (html_thread_page ops) as [_ P].
  change (ht_inner (html_thread_run ops)) with (html_sink_calls ops) in P. rewrite L in P.
  change (open_elements style_default) with (@nil css) in P.
  split; [|split].
  - intros before k0 s0 j s' after E Ho. destruct (pair_split _ _ _ _ _ _ _ _ _ E) as [(a' & E')|[E'|E']]; [| |exact E'].
    + exact (I1 _ _ _ _ _ _ E' Ho).
    + rewrite <- E' in Ho. destruct (I2 k0) as [Z1 Z2]. destruct Ho as [Ho|Ho]; contradiction.
  - intros j. unfold own_page. rewrite by_thread_app, concat_app, pfeed_app. fold (own_page j tr).
    destruct (I2 j) as [Z1 Z2]. destruct (Nat.eq_dec j k) as [->|Hj].
    + rewrite by_thread_mine.
      destruct (twin_feed (concat (html_sink_calls ops)) (own_page k tr) page_new Z1 Z2) as (A & B & _).
      rewrite A, B, P. split; reflexivity.
    + rewrite by_thread_other by exact Hj. auto.
  - unfold document, received. rewrite map_app, concat_app, pfeed_app. fold (received tr). fold (document tr). rewrite I3.
    rewrite map_map. cbn [snd]. rewrite map_id.
    destruct (twin_feed (concat (html_sink_calls ops))
      (mk_page Data [] (looks (denote (flat_map (fun e : nat * list op => said (snd e)) items)))) page_new eq_refl eq_refl)
      as (A & B & new & C & D).
    rewrite P in A, B, D. cbn [pg_state pg_open pg_cells page_new app] in A, B, C, D.
    destruct (page_feed (mk_page Data [] (looks (denote (flat_map (fun e : nat * list op => said (snd e)) items))))
      (concat (html_sink_calls ops))) as [g o cells]. cbn [pg_state pg_open pg_cells] in A, B, C. subst.
    rewrite flat_map_app, denote_app. cbn [flat_map]. rewrite app_nil_r. unfold looks. rewrite map_app. reflexivity.
Qed.

Lemma locked_ansi items :
  Forall (fun e => left_in (snd e) = style_default /\ no_controls (says (snd e))) items ->
  let tr := locked sink_calls items in
  ansi_turns tr /\ (forall k, tm_state (own_screen k tr) = Ground /\ tm_rend (own_screen k tr) = style_default) /\
  shared_screen tr = mk_term Ground style_default (denote (flat_map (fun e => said (snd e)) items)).
Proof.
  cbn zeta. induction items as [|[k ops] items IH] using rev_ind; intros H.
  { split; [intros before k s j s' after E; now destruct before|]. split; [intros k; split; reflexivity|reflexivity]. }
  apply Forall_app in H as [H Hk]. inversion Hk as [|? ? [L N] _]; subst. cbn [snd] in L, N.
  destruct (IH H) as (I1 & I2 & I3). clear IH. rewrite locked_snoc. set (tr := locked sink_calls items) in *.
  pose proof (own_cells ops N) as P. rewrite L in P.
  split; [|split].
  - intros before k0 s0 j s' after E Ho. destruct (pair_split _ _ _ _ _ _ _ _ _ E) as [(a' & E')|[E'|E']]; [| |exact E'].
    + exact (I1 _ _ _ _ _ _ E' Ho).
    + rewrite <- E' in Ho. destruct (I2 k0) as [Z1 Z2]. destruct Ho as [Ho|Ho]; contradiction.
  - intros j. unfold own_screen. rewrite by_thread_app, concat_app, feed_app. fold (own_screen j tr).
    destruct (I2 j) as [Z1 Z2]. destruct (Nat.eq_dec j k) as [->|Hj].
    + rewrite by_thread_mine.
      destruct (term_twin_feed (concat (sink_calls ops)) (own_screen k tr) term_new Z1 Z2) as (A & B & _).
      rewrite A, B, P. split; reflexivity.
    + rewrite by_thread_other by exact Hj. auto.
  - unfold shared_screen, received. rewrite map_app, concat_app, feed_app. fold (received tr). fold (shared_screen tr). rewrite I3.
    rewrite map_map. cbn [snd]. rewrite map_id.
    destruct (term_twin_feed (concat (sink_calls ops))
      (mk_term Ground style_default (denote (flat_map (fun e : nat * list op => said (snd e)) items))) term_new eq_refl eq_refl)
      as (A & B & new & C & D).
    rewrite P in A, B, D. cbn [tm_state tm_rend tm_screen] in A, B, C. change (tm_screen term_new) with (@nil cell) in D.
    cbn [tm_state tm_rend tm_screen app] in A, B, C, D.
    destruct (term_feed sgr_style (mk_term Ground style_default (denote (flat_map (fun e : nat * list op => said (snd e)) items)))
      (concat (sink_calls ops))) as [g o cells]. cbn [tm_state tm_rend tm_screen] in A, B, C. subst.
    rewrite flat_map_app, denote_app. cbn [flat_map]. rewrite app_nil_r. reflexivity.
Qed.

(** C106 (locks): threads that hold a lock from the [new] of their adaptor to its [finish], in whatever order
    they get it and however often, take turns in this sense; the document, and the terminal, show their texts
    in the order in which they had the lock, in their styles, and nothing is left open. *)
Theorem C106_locked (items : list (nat * list op)) :
  Forall (fun e => left_in (snd e) = style_default) items ->
  html_turns (locked html_sink_calls items) /\
  document (locked html_sink_calls items)
  = mk_page Data [] (looks (denote (flat_map (fun e => said (snd e)) items))) /\
  (Forall (fun e => no_controls (says (snd e))) items ->
   ansi_turns (locked sink_calls items) /\
   term_feed sgr_style term_new (received (locked sink_calls items))
   = mk_term Ground style_default (denote (flat_map (fun e => said (snd e)) items))).
Proof.
  intros H. destruct (locked_html items H) as (A & _ & B). split; [exact A|]. split; [exact B|].
  intros N. destruct (locked_ansi items) as (C & _ & D); [|split; [exact C|exact D]].
  rewrite Forall_forall in *. auto.
Qed.
Print Assumptions C106_locked.

(** * io::Ansi *)
Lemma decode_schedule (btr : list (nat * bytes)) : forall f : nat -> list str,
  (forall k, map snd (filter (fun e => Nat.eqb (fst e) k) btr) = map utf8 (f k)) ->
  exists tr : schedule, (forall k, by_thread k tr = f k) /\ btr = map (fun e => (fst e, utf8 (snd e))) tr.
Proof.
  induction btr as [|[k b] btr IH]; intros f H.
  - exists []. split; [|reflexivity]. intros k. specialize (H k). destruct (f k); [reflexivity|discriminate].
  - pose proof (H k) as Hk. cbn [filter fst] in Hk. rewrite Nat.eqb_refl in Hk. destruct (f k) as [|s l] eqn:Ef; [discriminate|].
    cbn [map snd] in Hk. injection Hk as -> Hk.
    destruct (IH (fun j => if Nat.eqb j k then l else f j)) as (tr & A & ->).
    { intros j. destruct (Nat.eqb_spec j k) as [->|N]; [exact Hk|]. specialize (H j). cbn [filter fst] in H.
      destruct (Nat.eqb_spec k j); [congruence|exact H]. }
    exists ((k, s) :: tr). split; [|reflexivity]. intros j. unfold by_thread in *. cbn [filter fst].
    specialize (A j). destruct (Nat.eqb_spec k j) as [->|N].
    + cbn [map snd]. rewrite A, Nat.eqb_refl. now rewrite Ef.
    + rewrite A. destruct (Nat.eqb_spec j k); [congruence|reflexivity].
Qed.
Lemma utf8_received tr : concat (map snd (map (fun e : nat * str => (fst e, utf8 (snd e))) tr)) = utf8 (received tr).
Proof.
  unfold received. induction tr as [|[k s] tr IH]; [reflexivity|]. cbn [map concat fst snd]. rewrite IH. now rewrite utf8_app.
Qed.
(** C106 (bytes): however the calls of threads with io::Ansi adaptors of their own are scheduled, the bytes
    received are the encoding of what threads with Ansi adaptors send under the same schedule: no character is
    ever torn, and C100 and C106 say what is shown. *)
Theorem C106_bytes (progs : nat -> list op) (btr : list (nat * bytes)) :
  (forall k, map snd (filter (fun e => Nat.eqb (fst e) k) btr) = io_sink_calls (progs k)) ->
  exists tr, scheduled progs tr /\ map fst btr = map fst tr /\ concat (map snd btr) = utf8 (received tr).
Proof.
  intros H. destruct (decode_schedule btr (fun k => sink_calls (progs k))) as (tr & A & ->).
  { intros k. rewrite H. apply C100_io. }
  exists tr. split; [exact A|]. split; [now rewrite map_map|]. apply utf8_received.
Qed.
Print Assumptions C106_bytes.

(** * Cases *)
(** Two threads, one red and one blue, that do not take turns but tear no tag. The first thread is inside its
    red element when the second writes its plain "b", so "b" is shown in red; and the closing tag of the first
    thread closes the element of the second. All the text is there and no element is left open. *)
Definition progs_two (k : nat) : list op :=
  match k with
  | 0 => [Put (lit "a<") red; Done]
  | 1 => [Put (lit "b") style_default; Put (lit "c") bold_blue; Done]
  | _ => []
  end.
Definition tr_two : schedule :=
  [(0, lit "<span style="); (0, lit "color:red"); (0, lit ">"); (0, lit "a"); (1, lit "b"); (0, lit "&lt;");
   (1, lit "<span style="); (1, lit "color:blue"); (1, lit ";"); (1, lit "font-weight:bolder"); (1, lit ">"); (0, []);
   (1, lit "c"); (0, lit "</span>"); (1, lit "</span>")].
Example C106_case_runs : html_scheduled progs_two tr_two.
Proof. intros [|[|k]]; vm_compute; reflexivity. Qed.
Example C106_case_uninterrupted : html_uninterrupted tr_two.
Proof.
  intros before k s j s' after E. revert before k s j s' after E.
  apply (next_thread (fun before k s j => pg_state (own_page k (before ++ [(k, s)])) <> Data -> j = k)).
  intros n Hn. cbn in Hn. do 15 (destruct n as [|n]; [vm_compute; solve [exact I | intros; (reflexivity || congruence)]|]). lia.
Qed.
Example C106_case_no_turns : ~ html_turns tr_two.
Proof.
  intros H. enough (1 = 0) by discriminate.
  apply (H (firstn 3 tr_two) 0 (lit "a") 1 (lit "b") (skipn 5 tr_two) eq_refl). right. vm_compute. discriminate.
Qed.
Example C106_case_shown :
  page_text (document tr_two) = lit "ab<c" /\ pg_open (document tr_two) = [] /\
  map snd (pg_cells (document tr_two)) = map css_look [red; red; red; bold_blue].
Proof. vm_compute. repeat split. Qed.
(** The same threads with a lock, which the second one gets twice. *)
Definition items_two : list (nat * list op) := [(1, progs_two 1); (0, progs_two 0); (1, progs_two 1)].
Example C106_case_locked :
  Forall (fun e => left_in (snd e) = style_default) items_two /\ Forall (fun e => no_controls (says (snd e))) items_two /\
  page_text (document (locked html_sink_calls items_two)) = lit "bca<bc" /\
  map snd (pg_cells (document (locked html_sink_calls items_two)))
  = map css_look [style_default; bold_blue; red; red; style_default; bold_blue].
Proof. split; [repeat constructor|]. split; [repeat constructor|]. vm_compute. split; reflexivity. Qed.
(** Threads that take turns without a lock: a thread in the default style may be interrupted. *)
Definition tr_turns : schedule :=
  [(1, lit "b"); (0, lit "<span style="); (0, lit "color:red"); (0, lit ">"); (0, lit "a"); (0, lit "&lt;"); (0, []);
   (0, lit "</span>"); (1, lit "<span style="); (1, lit "color:blue"); (1, lit ";"); (1, lit "font-weight:bolder");
   (1, lit ">"); (1, lit "c"); (1, lit "</span>")].
Example C106_case_turns : html_scheduled progs_two tr_turns /\ html_turns tr_turns.
Proof.
  split; [intros [|[|k]]; vm_compute; reflexivity|].
  intros before k s j s' after E. revert before k s j s' after E.
  apply (next_thread (fun before k s j => pg_state (own_page k (before ++ [(k, s)])) <> Data \/
    pg_open (own_page k (before ++ [(k, s)])) <> [] -> j = k)).
  intros n Hn. cbn in Hn. do 15 (destruct n as [|n]; [vm_compute; solve [exact I | intros [|]; (reflexivity || congruence)]|]). lia.
Qed.
Definition tr_ansi_turns : schedule :=
  [(1, lit "b"); (0, ansi_open); (0, lit "31"); (0, lit "m"); (0, lit "a<"); (0, ansi_reset);
   (1, ansi_open); (1, lit "34"); (1, lit ";"); (1, lit "1"); (1, lit "m"); (1, lit "c"); (1, ansi_reset)].
Example C106_case_ansi_turns : scheduled progs_two tr_ansi_turns /\ ansi_turns tr_ansi_turns /\
  forall k, no_controls (says (progs_two k)).
Proof.
  split; [intros [|[|k]]; vm_compute; reflexivity|]. split; [|intros [|[|k]]; repeat constructor].
  intros before k s j s' after E. revert before k s j s' after E.
  apply (next_thread (fun before k s j => tm_state (own_screen k (before ++ [(k, s)])) <> Ground \/
    tm_rend (own_screen k (before ++ [(k, s)])) <> style_default -> j = k)).
  intros n Hn. cbn in Hn. do 13 (destruct n as [|n]; [vm_compute; solve [exact I | intros [|]; (reflexivity || congruence)]|]). lia.
Qed.

Example C106_case_bytes : let progs k := match k with 0 => [Put [233%N] red; Done] | 1 => [Put [8364%N] style_default] | _ => [] end in
  forall k, map snd (filter (fun e => Nat.eqb (fst e) k)
    [(0, utf8 ansi_open); (0, lit "31"); (0, lit "m"); (1, [226; 130; 172]%N); (0, [195; 169]%N); (0, utf8 ansi_reset)])
  = io_sink_calls (progs k).
Proof. intros progs [|[|k]]; vm_compute; reflexivity. Qed.
