(** Property C101: text and markup. *)
From Verif Require Import Base Style Fmt Ansi Html SpecText TextFacts StyleFacts SpecSink SpecIo SpecHtml HtmlFacts
  PropsHtml PropsMore PropsTruncated Threads SpecThreads PropsThreads SpecTokens.

(** * The tokenizer *)
Lemma tok_app k a b : tokenize k (a ++ b) = tokenize (tokenize k a) b.
Proof. apply fold_left_app. Qed.
Lemma attr_name_grows t n out c : exists more, tk_out (attr_name_step t n out c) = out ++ more.
Proof.
  unfold attr_name_step, emit_tag.
  repeat match goal with |- context [if ?b then _ else _] => destruct b end; cbn [tk_out];
    first [exists []; now rewrite app_nil_r | eexists; reflexivity].
Qed.
Lemma before_grows t out c : exists more, tk_out (before_attr_name_step t out c) = out ++ more.
Proof.
  unfold before_attr_name_step. destruct (is_white c); [exists []; now rewrite app_nil_r|].
  destruct (N.eqb c 47); [exists []; now rewrite app_nil_r|]. destruct (N.eqb c 62); [eexists; reflexivity|].
  destruct (N.eqb c 61); [exists []; now rewrite app_nil_r|]. apply attr_name_grows.
Qed.
Lemma value_grows q t n v out c : exists more, tk_out (value_step q t n v out c) = out ++ more.
Proof.
  unfold value_step, emit_tag. destruct q; repeat match goal with |- context [if ?b then _ else _] => destruct b end; cbn [tk_out];
    first [exists []; now rewrite app_nil_r | eexists; reflexivity].
Qed.
Lemma data_grows out c : exists more, tk_out (data_step out c) = out ++ more.
Proof.
  unfold data_step. repeat match goal with |- context [if ?b then _ else _] => destruct b end; cbn [tk_out];
    first [exists []; now rewrite app_nil_r | eexists; reflexivity].
Qed.
Lemma step_grows k c : exists more, tk_out (token_step k c) = tk_out k ++ more.
Proof.
  destruct k as [g out]. unfold token_step. cbn [tk_state tk_out].
  assert (N : exists more, out = out ++ more) by (exists []; now rewrite app_nil_r).
  destruct g; auto using attr_name_grows, before_grows, value_grows, data_grows;
    repeat match goal with |- context [if ?b then _ else _] => destruct b end; cbn [tk_out]; auto using attr_name_grows, before_grows, value_grows, data_grows;
    try (eexists; reflexivity).
  - destruct (data_grows (out ++ [CharTok 60%N]) c) as (m & ->). eexists. rewrite <- app_assoc. reflexivity.
  - destruct (reference_named (acc ++ [c])); [|exact N]. destruct back as [[[[q t] n] v]|]; [exact N|eexists; reflexivity].
  - destruct (reference_named (acc ++ [c])); [|exact N]. destruct back as [[[[q t] n] v]|]; [exact N|eexists; reflexivity].
Qed.
Lemma tokens_grow s : forall k, exists more, tk_out (tokenize k s) = tk_out k ++ more.
Proof.
  induction s as [|c s IH]; intros k; cbn; [exists []; now rewrite app_nil_r|].
  destruct (IH (token_step k c)) as (m & H). destruct (step_grows k c) as (m' & H').
  exists (m' ++ m). unfold tokenize in H. now rewrite H, H', app_assoc.
Qed.

(** ** Escaped text *)
Lemma other_char c :
  match escaped_char c with [c'] => c' = c /\ c <> 38%N /\ c <> 60%N /\ c <> 62%N /\ c <> 34%N /\ c <> 39%N | _ => True end.
Proof.
  unfold escaped_char.
  destruct (N.eqb_spec c 34); [exact I|]. destruct (N.eqb_spec c 38); [exact I|]. destruct (N.eqb_spec c 39); [exact I|].
  destruct (N.eqb_spec c 60); [exact I|]. destruct (N.eqb_spec c 62); [exact I|]. now repeat split.
Qed.
Lemma escape_shape c :
  (exists r, escaped_char c = 38%N :: r /\ forall back out,
     tokenize (mk_tok (Reference back []) out) r =
     match back with
     | None => mk_tok DataState (out ++ [CharTok c])
     | Some (q, t, n, v) => mk_tok (AttrValue q t n (v ++ [c])) out
     end) \/
  (escaped_char c = [c] /\ c <> 38%N /\ c <> 60%N /\ c <> 62%N /\ c <> 34%N /\ c <> 39%N).
Proof.
  unfold escaped_char.
  destruct (N.eqb_spec c 34) as [->|H1]; [left; eexists; split; [reflexivity|]; intros [[[[q t] n] v]|] out; reflexivity|].
  destruct (N.eqb_spec c 38) as [->|H2]; [left; eexists; split; [reflexivity|]; intros [[[[q t] n] v]|] out; reflexivity|].
  destruct (N.eqb_spec c 39) as [->|H3]; [left; eexists; split; [reflexivity|]; intros [[[[q t] n] v]|] out; reflexivity|].
  destruct (N.eqb_spec c 60) as [->|H4]; [left; eexists; split; [reflexivity|]; intros [[[[q t] n] v]|] out; reflexivity|].
  destruct (N.eqb_spec c 62) as [->|H5]; [left; eexists; split; [reflexivity|]; intros [[[[q t] n] v]|] out; reflexivity|].
  right. now repeat split.
Qed.
Lemma tok_char c out : tokenize (mk_tok DataState out) (escaped_char c) = mk_tok DataState (out ++ [CharTok c]).
Proof.
  destruct (escape_shape c) as [(r & -> & H)|(-> & H1 & H2 & H3 & H4 & H5)].
  - exact (H None out).
  - cbn [tokenize fold_left]. unfold token_step, data_step. cbn [tk_state tk_out].
    destruct (N.eqb_spec c 38); [congruence|]. destruct (N.eqb_spec c 60); [congruence|]. reflexivity.
Qed.
Lemma tok_text s : forall out, tokenize (mk_tok DataState out) (escaped s) = mk_tok DataState (out ++ map CharTok s).
Proof.
  induction s as [|c s IH]; intros out; [cbn; now rewrite app_nil_r|].
  change (escaped (c :: s)) with (escaped_char c ++ escaped s). rewrite tok_app, tok_char, IH, <- app_assoc. reflexivity.
Qed.
(** In an unquoted value references are decoded as well, and only white space ends it. *)
Lemma tok_value s t n : no_white s -> forall v out,
  tokenize (mk_tok (AttrValue None t n v) out) (escaped s) = mk_tok (AttrValue None t n (v ++ s)) out.
Proof.
  intros H. induction H as [|c s Hc H IH]; intros v out; [cbn; now rewrite app_nil_r|].
  change (escaped (c :: s)) with (escaped_char c ++ escaped s). rewrite tok_app.
  replace (tokenize (mk_tok (AttrValue None t n v) out) (escaped_char c)) with (mk_tok (AttrValue None t n (v ++ [c])) out).
  - rewrite IH, <- app_assoc. reflexivity.
  - symmetry. destruct (escape_shape c) as [(r & -> & E)|(-> & H1 & H2 & H3 & H4 & H5)].
    + exact (E (Some (None, t, n, v)) out).
    + cbn [tokenize fold_left]. unfold token_step, value_step. cbn [tk_state tk_out]. rewrite Hc.
      destruct (N.eqb_spec c 38); [congruence|]. destruct (N.eqb_spec c 62); [congruence|]. reflexivity.
Qed.
Lemma tok_value_begins c t n out : is_white c = false ->
  tokenize (mk_tok (BeforeAttrValue t n) out) (escaped_char c) = mk_tok (AttrValue None t n [c]) out.
Proof.
  intros Hc. destruct (escape_shape c) as [(r & -> & E)|(-> & H1 & H2 & H3 & H4 & H5)].
  - exact (E (Some (None, t, n, [])) out).
  - cbn [tokenize fold_left]. unfold token_step, value_step. cbn [tk_state tk_out]. rewrite Hc.
    destruct (N.eqb_spec c 34); [congruence|]. destruct (N.eqb_spec c 39); [congruence|]. cbn [orb].
    destruct (N.eqb_spec c 62); [congruence|]. destruct (N.eqb_spec c 38); [congruence|]. reflexivity.
Qed.

(** ** The adaptor's tags *)
Definition quiet (c : char) : Prop := is_white c = false /\ c <> 38%N /\ c <> 62%N /\ c <> 47%N /\ c <> 61%N /\ is_upper c = false /\ c <> 34%N /\ c <> 39%N.
Lemma quiet_value v t n : Forall quiet v -> forall a out,
  tokenize (mk_tok (AttrValue None t n a) out) v = mk_tok (AttrValue None t n (a ++ v)) out.
Proof.
  intros H. induction H as [|c v (H1 & H2 & H3 & _) H IH]; intros a out; [cbn; now rewrite app_nil_r|].
  cbn [tokenize fold_left]. unfold token_step at 2. cbn [tk_state tk_out]. unfold value_step. rewrite H1.
  destruct (N.eqb_spec c 38); [congruence|]. destruct (N.eqb_spec c 62); [congruence|].
  unfold tokenize in IH. now rewrite IH, <- app_assoc.
Qed.
Lemma quiet_name v t : Forall quiet v -> forall a out,
  tokenize (mk_tok (AttrName t a) out) v = mk_tok (AttrName t (a ++ v)) out.
Proof.
  intros H. induction H as [|c v (H1 & H2 & H3 & H4 & H5 & H6 & _) H IH]; intros a out; [cbn; now rewrite app_nil_r|].
  cbn [tokenize fold_left]. unfold token_step at 2. cbn [tk_state tk_out]. unfold attr_name_step, lower. rewrite H1, H6.
  destruct (N.eqb_spec c 47); [congruence|]. destruct (N.eqb_spec c 62); [congruence|]. destruct (N.eqb_spec c 61); [congruence|].
  unfold tokenize in IH. now rewrite IH, <- app_assoc.
Qed.
Lemma semicolons_quiet l : Forall (Forall quiet) l -> Forall quiet (semicolons l).
Proof.
  intros H. induction H as [|x l Hx H IH]; [constructor|]. destruct l as [|y l]; [exact Hx|].
  change (semicolons (x :: y :: l)) with (x ++ lit ";" ++ semicolons (y :: l)).
  apply Forall_app. split; [exact Hx|]. constructor; [now repeat split|exact IH].
Qed.
Lemma style_quiet st : Forall quiet (semicolons (attributes st)).
Proof.
  apply semicolons_quiet. unfold attributes.
  assert (F : forall c, Forall (Forall quiet) (match css_name c with Some v => [lit "color:" ++ v] | None => [] end)).
  { intros []; cbn; repeat (constructor; [now repeat split|]); repeat constructor. all: now repeat split. }
  assert (B : forall c, Forall (Forall quiet) (match css_name c with Some v => [lit "background-color:" ++ v] | None => [] end)).
  { intros []; cbn; repeat (constructor; [now repeat split|]); repeat constructor. all: now repeat split. }
  apply Forall_app. split; [apply F|]. apply Forall_app. split; [apply B|].
  destruct (intens st); repeat constructor; try discriminate.
Qed.
Lemma style_nonempty st : st <> style_default -> exists c r, semicolons (attributes st) = c :: r.
Proof.
  intros H. unfold attributes. destruct st as [f b i]. cbn [foreground background intens].
  destruct f, b, i; try (now destruct H); cbn; eexists; eexists; reflexivity.
Qed.
Lemma tok_open out : tokenize (mk_tok DataState out) (lit "<span style=") = mk_tok (BeforeAttrValue (mk_tag false (lit "span") []) (lit "style")) out.
Proof. reflexivity. Qed.
Lemma quiet_value_begins c t n out : quiet c -> tokenize (mk_tok (BeforeAttrValue t n) out) [c] = mk_tok (AttrValue None t n [c]) out.
Proof.
  intros (H1 & H2 & H3 & H4 & H5 & H6 & H7 & H8). cbn [tokenize fold_left]. unfold token_step. cbn [tk_state tk_out]. rewrite H1.
  destruct (N.eqb_spec c 34); [congruence|]. destruct (N.eqb_spec c 39); [congruence|]. cbn [orb].
  destruct (N.eqb_spec c 62); [congruence|]. unfold value_step. rewrite H1.
  destruct (N.eqb_spec c 38); [congruence|]. destruct (N.eqb_spec c 62); [congruence|]. reflexivity.
Qed.
Lemma tok_style st t n out : st <> style_default ->
  tokenize (mk_tok (BeforeAttrValue t n) out) (semicolons (attributes st) ++ lit ">") =
  emit_tag out (add_attr t n (semicolons (attributes st))).
Proof.
  intros H. destruct (style_nonempty st H) as (c & r & E). assert (Q := style_quiet st). rewrite E in *.
  inversion Q as [|? ? Qc Qr]; subst. rewrite tok_app. change (c :: r) with ([c] ++ r). rewrite tok_app, quiet_value_begins by exact Qc.
  rewrite quiet_value by exact Qr. reflexivity.
Qed.
Lemma tok_start st out : st <> style_default ->
  tokenize (mk_tok DataState out) (start_tag st) =
  mk_tok DataState (out ++ [StartTok (lit "span") [(lit "style", semicolons (attributes st))]]).
Proof. intros H. unfold start_tag. rewrite tok_app, tok_open, tok_style by exact H. reflexivity. Qed.
Lemma tok_close out : tokenize (mk_tok DataState out) (lit "</span>") = mk_tok DataState (out ++ [EndTok (lit "span")]).
Proof. reflexivity. Qed.
Lemma tok_reference l : forall out,
  tokenize (mk_tok DataState out) (reference l) = mk_tok DataState (out ++ flat_map run_tokens l).
Proof.
  induction l as [|[st s] l IH]; intros out; [cbn; now rewrite app_nil_r|].
  rewrite reference_cons. unfold open_text, close_tag. cbn [flat_map]. unfold run_tokens at 1. cbn [fst snd].
  destruct (style_eqb_spec st style_default) as [->|H]; cbn [app].
  - rewrite tok_app, tok_text, IH, <- app_assoc. reflexivity.
  - rewrite tok_app, tok_start, tok_app, tok_text, tok_app, tok_close, IH by exact H.
    rewrite <- !app_assoc. reflexivity.
Qed.

(** C101: a finished output is, to the tokenizer, the characters of the text and for each run of
    non-default style a span around it whose only attribute is the style. *)
Theorem C101_tokens (h : history) :
  tokenize tokenizer_new (html_finished h) = mk_tok DataState (flat_map run_tokens (runs (denote h))).
Proof. rewrite C20_reference. apply (tok_reference _ []). Qed.

Lemma run_harmless r : Forall harmless (run_tokens r).
Proof.
  assert (C : forall s, Forall harmless (map CharTok s)) by (intros s; apply Forall_map, Forall_forall; intros; exact I).
  unfold run_tokens. destruct (style_eqb_spec (fst r) style_default) as [_|H]; [apply C|].
  constructor; [split; [reflexivity|]; exists (fst r); auto|]. apply Forall_app. split; [apply C|]. repeat constructor.
Qed.
Lemma runs_harmless l : Forall harmless (flat_map run_tokens l).
Proof. induction l as [|r l IH]; [constructor|]. cbn. apply Forall_app. split; [apply run_harmless|exact IH]. Qed.
Lemma token_chars_app a b : token_chars (a ++ b) = token_chars a ++ token_chars b.
Proof. apply flat_map_app. Qed.
Lemma token_chars_text s : token_chars (map CharTok s) = s.
Proof. induction s as [|c s IH]; [reflexivity|]. cbn. unfold token_chars in IH. now rewrite IH. Qed.
Lemma run_chars r : token_chars (run_tokens r) = snd r.
Proof.
  unfold run_tokens. destruct (style_eqb (fst r) style_default); [apply token_chars_text|].
  change (?a :: ?b ++ ?c) with ([a] ++ b ++ c). rewrite !token_chars_app, token_chars_text. cbn. apply app_nil_r.
Qed.
Lemma runs_chars t : token_chars (flat_map run_tokens (runs t)) = chars t.
Proof.
  rewrite <- (runs_denote t) at 2. induction (runs t) as [|r l IH]; [reflexivity|]. cbn [flat_map].
  rewrite token_chars_app, run_chars, IH. unfold chars, paint. rewrite map_app, map_map. cbn [fst]. now rewrite map_id.
Qed.

(** C101: also if the output is cut anywhere, there is no tag but the adaptor's own and no character
    that is not of the text. *)
Theorem C101_cut (h : history) (p q : str) :
  html_finished h = p ++ q ->
  Forall harmless (tk_out (tokenize tokenizer_new p)) /\
  exists rest, text_of h = token_chars (tk_out (tokenize tokenizer_new p)) ++ rest.
Proof.
  intros E. assert (T := C101_tokens h). rewrite E, tok_app in T.
  destruct (tokens_grow q (tokenize tokenizer_new p)) as (more & G). rewrite T in G. cbn [tk_out] in G.
  split.
  - assert (F := runs_harmless (runs (denote h))). rewrite G in F. now apply Forall_app in F.
  - exists (token_chars more). rewrite <- token_chars_app, <- G, runs_chars. now rewrite <- chars_denote.
Qed.
(** C101: the same for what any sink holds when a write fails or panics, and for what it holds as
    long as none does. *)
Theorem C101_until_failure {S} (sink : fmt_sink S) (held : S -> str) (h : history) (i : S) (w' : html S) (o : outcome) :
  honest_fmt sink held -> held i = [] ->
  play (html_write_str sink) h (html_new i) = (w', o) ->
  Forall harmless (tk_out (tokenize tokenizer_new (held (ht_inner w')))) /\
  exists rest, text_of h = token_chars (tk_out (tokenize tokenizer_new (held (ht_inner w')))) ++ rest.
Proof.
  intros Hh Hi Hp. destruct (C81_html_sink sink held h i w' o Hh Hi Hp) as (q & _ & _ & q' & E).
  now apply (C101_cut h _ q').
Qed.

(** * Injection *)
Lemma plain_quiet n : plain_name n -> Forall quiet n.
Proof.
  intros [_ H]. eapply Forall_impl; [|exact H]. intros c [H1 H2]. apply N.leb_le in H1. apply N.leb_le in H2.
  unfold quiet, is_white, is_upper. cbn [existsb].
  destruct (N.eqb_spec c 9); [lia|]. destruct (N.eqb_spec c 10); [lia|]. destruct (N.eqb_spec c 12); [lia|]. destruct (N.eqb_spec c 32); [lia|].
  destruct (N.leb_spec c 90); [lia|]. rewrite andb_false_r. repeat split; lia.
Qed.
Lemma plain_escaped n : plain_name n -> escaped n = n.
Proof.
  intros [_ H]. induction H as [|c n [H1 H2] H IH]; [reflexivity|]. apply N.leb_le in H1.
  change (escaped (c :: n)) with (escaped_char c ++ escaped n). rewrite IH. unfold escaped_char.
  destruct (N.eqb_spec c 34); [lia|]. destruct (N.eqb_spec c 38); [lia|]. destruct (N.eqb_spec c 39); [lia|].
  destruct (N.eqb_spec c 60); [lia|]. destruct (N.eqb_spec c 62); [lia|]. reflexivity.
Qed.
Lemma quiet_name_begins c t out : quiet c -> tokenize (mk_tok (BeforeAttrName t) out) [c] = mk_tok (AttrName t [c]) out.
Proof.
  intros (H1 & H2 & H3 & H4 & H5 & H6 & H7 & H8). cbn [tokenize fold_left]. unfold token_step, before_attr_name_step. cbn [tk_state tk_out].
  rewrite H1. destruct (N.eqb_spec c 47); [congruence|]. destruct (N.eqb_spec c 62); [congruence|]. destruct (N.eqb_spec c 61); [congruence|].
  unfold attr_name_step, lower. rewrite H1, H6. destruct (N.eqb_spec c 47); [congruence|]. destruct (N.eqb_spec c 62); [congruence|].
  destruct (N.eqb_spec c 61); [congruence|]. reflexivity.
Qed.
Lemma quiet_name_whole n t out : n <> [] -> Forall quiet n -> tokenize (mk_tok (BeforeAttrName t) out) n = mk_tok (AttrName t n) out.
Proof.
  intros Hn Q. destruct Q as [|c n Qc Q]; [congruence|]. change (c :: n) with ([c] ++ n).
  rewrite tok_app, quiet_name_begins, quiet_name; auto.
Qed.
Lemma escaped_app a b : escaped (a ++ b) = escaped a ++ escaped b.
Proof. apply flat_map_app. Qed.
Definition span_tag : tag := mk_tag false (lit "span") [].
Lemma tok_injecting n v out :
  plain_name n -> n <> lit "style" -> v <> [] -> no_white v ->
  tokenize (mk_tok (BeforeAttrValue span_tag (lit "style")) out) (escaped (injecting n v)) =
  mk_tok (BeforeAttrName (mk_tag false (lit "span") [(lit "style", lit "x"); (n, v)])) out.
Proof.
  intros Hn Hs Hv Hw. unfold injecting. rewrite !escaped_app, (plain_escaped n Hn), !tok_app.
  change (tokenize (mk_tok (BeforeAttrValue span_tag (lit "style")) out) (escaped (lit "x ")))
    with (mk_tok (BeforeAttrName (mk_tag false (lit "span") [(lit "style", lit "x")])) out).
  rewrite quiet_name_whole by (try apply plain_quiet; try apply Hn; assumption).
  change (tokenize (mk_tok (AttrName ?t n) out) (escaped (lit "="))) with (mk_tok (BeforeAttrValue t n) out).
  destruct Hw as [|c v Hc Hw]; [congruence|]. change (escaped (c :: v)) with (escaped_char c ++ escaped v).
  rewrite tok_app, tok_value_begins, tok_value by assumption. cbn [app].
  change (tokenize (mk_tok (AttrValue None ?t n ?v) out) (escaped (lit " "))) with (mk_tok (BeforeAttrName (add_attr t n v)) out).
  unfold add_attr. cbn [tg_attrs existsb fst]. destruct (str_eqb_spec (lit "style") n); [congruence|]. reflexivity.
Qed.

Lemma tok_again t out :
  tokenize (mk_tok (BeforeAttrName t) out) (lit "<span style=") = mk_tok (BeforeAttrValue (add_attr t (lit "<span") []) (lit "style")) out.
Proof. reflexivity. Qed.
Lemma tok_name_ends t m out : tokenize (mk_tok (AttrName t m) out) (lit ">") = emit_tag out (add_attr t m []).
Proof. reflexivity. Qed.
Lemma html_change_opens st : st <> style_default ->
  exists rest, rest <> [] /\ html_change style_default st = lit "<span style=" :: rest /\
    concat rest = semicolons (attributes st) ++ lit ">".
Proof.
  intros H. unfold html_change. rewrite (style_eqb_neq _ _ H). cbn [negb]. rewrite segments_attributes, style_eqb_refl. cbn [negb app].
  destruct (attributes st) as [|seg rest] eqn:E; [now apply attributes_nil in E|].
  eexists. split; [|split; [reflexivity|]]; [discriminate|]. clear E H. revert seg. induction rest as [|s rest IH]; intros seg.
  - reflexivity.
  - cbn [flat_map concat app]. change (semicolons (seg :: s :: rest)) with (seg ++ lit ";" ++ semicolons (s :: rest)).
    specialize (IH s). cbn [concat] in IH. rewrite IH, <- !app_assoc. reflexivity.
Qed.
Lemma flaky_parts parts : forall x, write_parts flaky parts (@pair str (list outcome) x []) = ((x ++ concat parts, []), Returned Ok).
Proof.
  induction parts as [|p parts IH]; intros x; cbn; [now rewrite app_nil_r|]. rewrite IH. now rewrite <- app_assoc.
Qed.
Lemma not_plain n (m : str) c : plain_name n -> In c m -> (c < 97)%N -> str_eqb n m = false.
Proof.
  intros [_ H] Hi Hc. destruct (str_eqb_spec n m) as [->|]; [|reflexivity]. exfalso.
  rewrite Forall_forall in H. destruct (H c Hi) as [H1 _]. apply N.leb_le in H1. lia.
Qed.
Lemma style_colon st : st <> style_default -> In 58%N (semicolons (attributes st)).
Proof.
  intros H. unfold attributes. destruct st as [f b i]. cbn [foreground background intens].
  destruct f; try (destruct b; [..|]; try (destruct i; [..|]; try now destruct H)); cbn; tauto.
Qed.

(** C101: after a write that failed inside a tag (the sink fails once) a text written next can inject
    any attribute: all further calls succeed and the text is escaped, and still the browser sees a
    span with that attribute, of any value without white space. *)
Theorem C101_after_failure (n v s : str) (st : style) :
  plain_name n -> n <> lit "style" -> v <> [] -> no_white v -> st <> style_default -> s <> [] ->
  exists w1 w2 w3 : html (str * list outcome),
    html_write_str flaky (html_new ([], [Returned Ok; Returned Err])) s st = (w1, Returned Err) /\
    html_write_str flaky w1 (injecting n v) style_default = (w2, Returned Ok) /\
    html_write_str flaky w2 s st = (w3, Returned Ok) /\
    tokenize tokenizer_new (fst (fst (html_finish flaky w3))) =
    mk_tok DataState (StartTok (lit "span") [(lit "style", lit "x"); (n, v); (lit "<span", [])] :: map CharTok s ++ [EndTok (lit "span")]).
Proof.
  intros Hn Hs Hv Hw Hd Ht. destruct (html_change_opens st Hd) as (rest & Hr & E & C).
  set (x1 := lit "<span style="). set (x2 := x1 ++ escaped (injecting n v)).
  set (x3 := x2 ++ (x1 ++ semicolons (attributes st) ++ lit ">") ++ escaped s).
  exists (mk_html (x1, []) style_default), (mk_html (x2, []) style_default), (mk_html (x3, []) st).
  split; [|split; [|split]].
  - unfold html_write_str, html_new. destruct s as [|c s]; [congruence|]. cbn [is_empty ht_current ht_inner]. rewrite E.
    destruct rest as [|r rest]; [congruence|]. reflexivity.
  - unfold html_write_str. cbn [ht_current ht_inner]. change (is_empty (injecting n v)) with false. cbv iota.
    unfold html_change. rewrite style_eqb_refl. cbn [negb write_parts]. rewrite flaky_parts, escape_parts_concat. reflexivity.
  - unfold html_write_str. cbn [ht_current ht_inner]. destruct s as [|c s]; [congruence|]. cbn [is_empty].
    rewrite E, flaky_parts, flaky_parts, escape_parts_concat. cbn [concat]. rewrite C. unfold x3, x1. now rewrite <- !app_assoc.
  - unfold html_finish. cbn [ht_current ht_inner]. rewrite (style_eqb_neq _ _ Hd). cbn [negb]. rewrite flaky_parts. cbn [fst concat].
    rewrite app_nil_r. unfold x3, x2. rewrite !tok_app. unfold tokenizer_new, x1. rewrite tok_open. fold span_tag.
    rewrite tok_injecting by assumption.
    rewrite tok_again. rewrite <- (tok_app _ (semicolons (attributes st)) (lit ">")). rewrite tok_style by exact Hd.
    unfold add_attr at 2. cbn [tg_attrs existsb fst]. rewrite (not_plain n (lit "<span") 60%N Hn); [|now left|lia].
    change (str_eqb (lit "style") (lit "<span")) with false. cbn [orb tg_end tg_name tg_attrs app].
    unfold add_attr. cbn [tg_attrs existsb fst].
    change (str_eqb (lit "style") (lit "style")) with true. cbn [orb]. unfold emit_tag. cbn [tg_end tg_name tg_attrs app].
    rewrite tok_text, tok_close. cbn [app]. reflexivity.
Qed.

(** C101: threads that share a page (each with an Html adaptor of its own on a handle that locks for
    each call) have such schedules without any failure. *)
Lemma html_calls_styled s0 st : s0 <> [] -> st <> style_default ->
  html_sink_calls [Put s0 st; Done] = html_change style_default st ++ escape_parts s0 ++ [lit "</span>"].
Proof.
  intros Hs Hd. unfold html_sink_calls. cbn [fold_left html_thread_step]. unfold html_write_str, html_new.
  destruct s0 as [|c s0]; [congruence|]. cbn [is_empty ht_current ht_inner]. rewrite parts_recorded, parts_recorded. cbn [fst app].
  unfold html_finish. cbn [ht_current ht_inner]. rewrite (style_eqb_neq _ _ Hd). cbn [negb]. rewrite parts_recorded. cbn [fst ht_inner].
  now rewrite <- app_assoc.
Qed.
Lemma html_calls_plain s1 : s1 <> [] -> html_sink_calls [Put s1 style_default] = escape_parts s1.
Proof.
  intros Hs. unfold html_sink_calls. cbn [fold_left html_thread_step]. unfold html_write_str, html_new.
  destruct s1 as [|c s1]; [congruence|]. cbn [is_empty ht_current ht_inner]. unfold html_change. rewrite style_eqb_refl. cbn [negb write_parts].
  now rewrite parts_recorded.
Qed.
Theorem C101_threads (n v s : str) (st : style) :
  plain_name n -> n <> lit "style" -> v <> [] -> no_white v -> st <> style_default -> s <> [] ->
  exists (tr : schedule) (junk : str),
    html_scheduled (two_threads s st (injecting n v)) tr /\
    tokenize tokenizer_new (received tr) =
    mk_tok DataState (StartTok (lit "span") [(lit "style", lit "x"); (n, v); (junk, [])] :: map CharTok s ++ [EndTok (lit "span")]).
Proof.
  intros Hn Hs Hv Hw Hd Ht. destruct (html_change_opens st Hd) as (rest & Hr & E & C).
  set (tr := [(0, lit "<span style=")] ++ map (pair 1) (escape_parts (injecting n v)) ++ map (pair 0) (rest ++ escape_parts s ++ [lit "</span>"]) : schedule).
  exists tr, (semicolons (attributes st)). split.
  - intros [|[|k]]; unfold two_threads, tr; rewrite !by_thread_app, !by_thread_map; cbn [Nat.eqb].
    + rewrite html_calls_styled, E by assumption. reflexivity.
    + rewrite html_calls_plain by discriminate. now rewrite app_nil_r.
    + reflexivity.
  - assert (R : received tr = lit "<span style=" ++ escaped (injecting n v) ++ (semicolons (attributes st) ++ lit ">") ++ escaped s ++ lit "</span>").
    { unfold received, tr. rewrite !map_app, !map_map. cbn [map snd]. rewrite !map_id, !concat_app, !escape_parts_concat, C.
      cbn [concat]. now rewrite !app_nil_r. }
    rewrite R, tok_app. unfold tokenizer_new. rewrite tok_open. fold span_tag. rewrite tok_app, tok_injecting by assumption.
    rewrite !tok_app. destruct (style_nonempty st Hd) as (c & r & Z).
    rewrite quiet_name_whole by (first [apply style_quiet | rewrite Z; discriminate]).
    rewrite tok_name_ends. unfold add_attr. cbn [tg_attrs existsb fst]. rewrite (not_plain n _ 58%N Hn (style_colon st Hd)) by lia.
    replace (str_eqb (lit "style") (semicolons (attributes st))) with false.
    2: { symmetry. apply (not_plain _ _ 58%N); [|now apply style_colon|lia]. split; [discriminate|]. repeat constructor. }
    cbn [orb]. unfold emit_tag. cbn [tg_end tg_name tg_attrs app]. rewrite tok_text, tok_close. reflexivity.
Qed.

(** C101: threads that send every finished output in one call. *)
Theorem C101_one_call (items : list (nat * history)) :
  tokenize tokenizer_new (received (map (fun e => (fst e, html_finished (snd e))) items)) =
  mk_tok DataState (flat_map (fun e => flat_map run_tokens (runs (denote (snd e)))) items).
Proof.
  unfold received. rewrite map_map. cbn [snd]. unfold tokenizer_new.
  enough (G : forall out, tokenize (mk_tok DataState out) (concat (map (fun e => html_finished (snd e)) items)) =
    mk_tok DataState (out ++ flat_map (fun e => flat_map run_tokens (runs (denote (snd e)))) items)) by exact (G []).
  induction items as [|[k h] items IH]; intros out; cbn [map concat flat_map snd]; [cbn; now rewrite app_nil_r|].
  rewrite tok_app, C20_reference, tok_reference, IH, <- app_assoc. reflexivity.
Qed.

(** * Cases *)
Example C101_case_tokens :
  tokenize tokenizer_new (html_finished [(lit "a<", style_default); (lit "b", mk_style Red ColorDefault Bold)]) =
  mk_tok DataState [CharTok 97%N; CharTok 60%N; StartTok (lit "span") [(lit "style", lit "color:red;font-weight:bolder")]; CharTok 98%N; EndTok (lit "span")].
Proof. reflexivity. Qed.
Example C101_case_injection :
  let n := lit "onclick" in let v := lit "alert('hi')" in
  plain_name n /\ n <> lit "style" /\ v <> [] /\ no_white v /\
  injecting n v = lit "x onclick=alert('hi') " /\ escaped (injecting n v) = lit "x onclick=alert(&#x27;hi&#x27;) ".
Proof. cbn zeta. repeat split; try discriminate; repeat constructor; reflexivity. Qed.
Example C101_case_threads :
  let tr := [(0, lit "<span style="); (1, lit "x onclick=alert(1) "); (0, lit "color:red"); (0, lit ">"); (0, lit "ok"); (0, lit "</span>")] in
  html_scheduled (two_threads (lit "ok") (mk_style Red ColorDefault Normal) (lit "x onclick=alert(1) ")) tr /\
  tokenize tokenizer_new (received tr) =
  mk_tok DataState [StartTok (lit "span") [(lit "style", lit "x"); (lit "onclick", lit "alert(1)"); (lit "color:red", [])];
    CharTok 111%N; CharTok 107%N; EndTok (lit "span")].
Proof. cbn zeta. split; [intros [|[|k]]; reflexivity|reflexivity]. Qed.
Print Assumptions C101_tokens.
Print Assumptions C101_cut.
Print Assumptions C101_until_failure.
Print Assumptions C101_after_failure.
Print Assumptions C101_threads.
Print Assumptions C101_one_call.
