(** C58: what a user sees of a whole [format!] call, from its tokens to the terminal, the browser
    and the plain text. *)
From Verif Require Import Base Style Fmt SpecStd StdCompat SString Plain Ansi Html Format Nom Parse
  Codegen ToString Macros SpecText TextFacts SpecSink StyleFacts SpecTerminal AnsiFacts SpecHtml HtmlFacts
  StdFacts StringFacts FormatFacts SpecGrammar
  ParseFacts SpecFacts GrammarFacts SpecMeaning CodegenFacts MacroFacts AttrFacts PropsString PropsFormat PropsParse PropsMacro
  SpecCall PropsCall.

(** The value a placeholder uses is determined by the arguments. *)
Lemma last_unique {A} (n : str) (v v' : A) b a b' a' :
  b ++ (n, v) :: a = b' ++ (n, v') :: a' ->
  ~ In n (map fst a) -> ~ In n (map fst a') -> v = v'.
Proof.
  revert b'. induction b as [|x b IH]; intros [|y b'] E H1 H2; cbn in E.
  - now injection E.
  - injection E as <- ->. exfalso. apply H1. rewrite map_app, in_app_iff. right. now left.
  - injection E as -> <-. exfalso. apply H2. rewrite map_app, in_app_iff. right. now left.
  - injection E as _ E. eauto.
Qed.
Lemma uses_fun pos named scope n a v v' :
  uses pos named scope n a v -> uses pos named scope n a v' -> v = v'.
Proof.
  intros H H'. inversion H; subst; inversion H'; subst; try congruence.
  - eapply last_unique; eauto.
  - exfalso. match goal with F : ~ In _ (map fst (_ ++ _)) |- _ => apply F end.
    rewrite map_app, in_app_iff. right. now left.
  - exfalso. match goal with F : ~ In _ (map fst (_ ++ _)) |- _ => apply F end.
    rewrite map_app, in_app_iff. right. now left.
Qed.

(** C58: the specification leaves no freedom: for given arguments a format string shows exactly
    one text. *)
Theorem C58_determined pos named scope st n ps t t' :
  shows pos named scope st n ps t -> shows pos named scope st n ps t' -> t = t'.
Proof.
  intros H. revert t'. induction H as [n|n s ps t H IH|n a v ps t Hu H IH]; intros t' H'.
  - now inversion H'.
  - inversion H'; subst. f_equal. auto.
  - inversion H' as [| |n1 a1 v1 ps1 t1 Hu1 H1]; subst. rewrite (uses_fun _ _ _ _ _ _ _ Hu1 Hu).
    f_equal. auto.
Qed.
Print Assumptions C58_determined.

Section Xid.
Variables xid_start xid_continue : char -> bool.

(** C58: a call of the accepted shape whose format string and arguments fit compiles; its
    arguments are evaluated once each, in order (up to the first that does not complete, if one
    panics or returns early); and if the formatted values return Ok then for
    the one text [t] that [shows] prescribes (from the default style): plain [format!] is its
    characters, a terminal given the ansi [format!] shows it (if it has no control characters),
    a browser given the html [format!] shows it, and the stylish [format!] reproduces it. *)
Theorem C58_end_to_end {H} (toks : list (tok (expr H))) (f : str) (pos : list (expr H))
  (named : list (str * expr H)) (ps : list piece) (scope : str -> value_t) (h : H) :
  xid_ok xid_start xid_continue ->
  spelled_call toks f pos named \/ builtin_call toks f pos named ->
  format_string xid_start xid_continue ps f ->
  accepted ps (length pos) (map fst named) ->
  (forall e, In e (pos ++ map snd named) -> gives e returns_ok) ->
  (forall x, returns_ok (scope x)) ->
  exists c, format_args_macro xid_start xid_continue toks = Expanded c /\
  match eval_code scope c h with
  | (h', None) => cut_short (pos ++ map snd named) h h'
  | (h', Some args) => exists pv nv t,
    evaluated (pos ++ map snd named) h h' (pv ++ nv) /\ length pv = length pos /\
    shows pv (combine (map fst named) nv) scope style_default 0 ps t /\
    plain_format args = Value (chars t) /\
    (exists a, ansi_format args = Value a /\
       (no_controls (chars t) -> tm_screen (term_feed sgr_style term_new a) = t)) /\
    (exists x, html_format args = Value x /\
       page_feed page_new x = mk_page Data [] (map (fun cs => (fst cs, css_look (snd cs))) t)) /\
    (exists w, stylish_format args = Value w /\ forall g, produces (Display_sstring w g) = t)
  end.
Proof.
  intros Hx Hcall Hp Hacc Hv Hs.
  destruct (proj2 (C47_accepted _ _ Hx f pos named)) as [c Hc]; [eauto|].
  pose proof (proj1 (C54_format_args xid_start xid_continue toks) f pos named Hcall) as Hm.
  rewrite Hc in Hm.
  exists c. split; [exact Hm|].
  destruct (eval_code scope c h) as [h' [args|]] eqn:He;
    [|exact (C48_evaluated_once _ _ Hx _ _ _ _ _ _ _ _ Hc He)].
  destruct (C05_scoped _ _ Hx f ps pos named c scope h h' args Hp Hc He) as (pv & nv & Hev & L & Hsh).
  pose proof (C05_returns_ok _ _ Hx f pos named c scope h h' args Hc He Hv Hs) as Hok.
  assert (Hpl : plain_format args = Value (chars (produces (args formatter_new)))).
  { rewrite plain_format_spec, Hok. reflexivity. }
  destruct (C04_formats_agree args _ Hpl) as (t & a & x & w & Ht & [Ha Ha'] & [Hh Hh'] & [Hw Hw']).
  assert (Et : t = produces (args formatter_new)).
  { rewrite <- (Hw' formatter_new). apply (C22_format_replay args w formatter_new Hw). }
  exists pv, nv, t. split; [exact Hev|].
  split; [exact L|]. split; [rewrite Et; apply (Hsh formatter_new (Hok formatter_new))|].
  split; [now rewrite Hpl, Ht|]. rewrite Ht in Ha'. split; [exists a; auto|]. split; [exists x; auto|].
  exists w; auto.
Qed.
End Xid.
Print Assumptions C58_end_to_end.

(** A call meeting the hypotheses: [format!("Hello {:(fg=red,bold)}{}", a0, a1)]. *)
Example C58_nonvacuous :
  let e0 : expr (list nat) := logging 0 (text_value (lit "A&")) in
  let e1 : expr (list nat) := logging 1 (text_value (lit "B")) in
  let toks := [fmt "Hello {:(fg=red,bold)}{}"; TComma; TExpr (MOther e0); TComma; TExpr (MOther e1)] in
  spelled_call toks (lit "Hello {:(fg=red,bold)}{}") [e0; e1] [] /\
  (exists ps, format_string ascii_start ascii_continue ps (lit "Hello {:(fg=red,bold)}{}") /\
     accepted ps 2 []) /\
  (forall e, In e [e0; e1] -> gives e returns_ok) /\
  match format_args_macro ascii_start ascii_continue toks with
  | Expanded c => match eval_code no_scope c [] with
                  | (h, Some args) => (h, html_format args, plain_format args)
                  | (h, None) => (h, Crash Panic, Crash Panic) end
  | CompileError => ([], Crash Panic, Crash Panic)
  end = ([0; 1], Value (lit "Hello <span style=color:red;font-weight:bolder>A&amp;</span>B"),
         Value (lit "Hello A&B")).
Proof.
  cbn zeta. split; [|split; [|split]].
  - refine (sc_intro (lit "Hello {:(fg=red,bold)}{}") _ [MOther _; MOther _] [] [] [] _ (Forall2_nil _) (or_introl eq_refl)).
    repeat constructor; intros n Hn; inversion Hn.
  - apply (C47_accepted ascii_start ascii_continue ascii_xid_ok (lit "Hello {:(fg=red,bold)}{}")
             [logging 0 (text_value (lit "A&")); logging 1 (text_value (lit "B"))] []).
    eexists. vm_compute. reflexivity.
  - intros e [<-|[<-|[]]] x v Hv; injection Hv as <-; apply (proj1 (text_value_ok _)).
  - vm_compute. reflexivity.
Qed.
