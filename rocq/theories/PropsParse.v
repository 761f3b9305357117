(** Property theorems about the format-string parser (C41, C43, C44, C50, C51). *)
From Verif Require Import Base Style Fmt SpecStd StdCompat Nom Parse Codegen SpecText TextFacts
  StyleFacts SpecGrammar ParseFacts SpecFacts GrammarFacts SpecMeaning CodegenFacts MacroFacts AttrFacts.

(** Identifier tables used in examples: ASCII only. *)
Definition ascii_start (c : char) : bool := ascii_letter c.
Definition ascii_continue (c : char) : bool := ascii_letter c || ascii_digit c || (c =? 95)%N.
Example ascii_xid_ok : xid_ok ascii_start ascii_continue.
Proof. split; intros; reflexivity. Qed.

Section Xid.
Variables xid_start xid_continue : char -> bool.
Hypothesis Hx : xid_ok xid_start xid_continue.

(** C41: the parser accepts exactly the strings of the grammar ([format_string], in
    SpecGrammar) and yields the syntax tree they spell. *)
Theorem C41_grammar (s : str) (ps : list piece) :
  parse_format xid_start xid_continue s = POk [] ps <-> format_string xid_start xid_continue ps s.
Proof. exact (parse_format_iff xid_start xid_continue Hx s ps). Qed.

(** C41: the grammar is unambiguous: a string spells at most one syntax tree. *)
Theorem C41_unambiguous (ps ps' : list piece) (s : str) :
  format_string xid_start xid_continue ps s -> format_string xid_start xid_continue ps' s ->
  ps = ps'.
Proof. exact (format_string_unique xid_start xid_continue Hx ps ps' s). Qed.

(** C43: the parser gives a verdict on every string: acceptance with nothing left over, an
    error, or a panic, the latter only because of a fill character other than a space.  (The
    loops of the model stop with a panic when they exceed their bound, so this also says that
    they never do.) *)
Theorem C43_verdict (s : str) :
  (exists ps, parse_format xid_start xid_continue s = POk [] ps) \/
  parse_format xid_start xid_continue s = PErr \/
  parse_format xid_start xid_continue s = PFail \/
  parse_format xid_start xid_continue s = PPanic /\
  exists pre arg fill al rest,
    s = pre ++ lit "{" ++ arg ++ lit ":" ++ fill :: al :: rest /\
    fill <> 32%N /\ is_align_char al = true /\
    (arg = [] \/ exists a, arg_spelled xid_start xid_continue a arg).
Proof.
  destruct (parse_format_verdict xid_start xid_continue s)
    as [H|[H|[H|(H & pre & arg & r & E & (f & c & r' & -> & Hf & Hc) & Ha)]]]; auto.
  do 3 right. split; [exact H|]. eauto 12.
Qed.

(** C51: a fill character other than a space never compiles, whatever precedes and follows the
    placeholder (the text before it being a format string, so that the brace does open a
    placeholder). *)
Theorem C51_fill_rejected {E} (ps : list piece) (pre arg rest : str) (fill al : char)
  (positional : list E) (named : list (str * E)) :
  format_string xid_start xid_continue ps pre ->
  arg = [] \/ (exists a, arg_spelled xid_start xid_continue a arg) ->
  fill <> 32%N -> is_align_char al = true ->
  format_args_impl xid_start xid_continue
    (pre ++ lit "{" ++ arg ++ lit ":" ++ fill :: al :: rest) positional named = CompileError.
Proof.
  intros Hp Ha Hf Hal. unfold format_args_impl.
  rewrite (fill_panics xid_start xid_continue Hx ps pre arg); auto. unfold has_fill. eauto 8.
Qed.

(** C51: a width or precision taken from an argument never compiles. *)
Theorem C51_counts_rejected {E} (ps : list piece) (s : str) (positional : list E)
  (named : list (str * E)) (a : format_arg) (r : arg_ref) :
  format_string xid_start xid_continue ps s -> In (Arg a) ps ->
  pa_width (fs_args (fa_spec a)) = Some (CParam r) \/
  pa_precision (fs_args (fa_spec a)) = Some (CParam r) ->
  format_args_impl xid_start xid_continue s positional named = CompileError.
Proof.
  intros Hp Hin Hr.
  destruct (format_args_impl xid_start xid_continue s positional named) as [c|] eqn:E1; [|reflexivity].
  exfalso. assert (X : exists c, format_args_impl xid_start xid_continue s positional named = Expanded c)
    by eauto.
  apply (macro_iff _ _ Hx) in X as (ps' & Hp' & Hacc).
  assert (ps = ps') by (eapply format_string_unique; eassumption). subst ps'.
  destruct Hacc as [_ _ _ _ _ Hc]. rewrite Forall_forall in Hc. specialize (Hc _ Hin). cbn in Hc.
  destruct Hr as [Hr|Hr]; rewrite Hr in Hc; cbn in Hc; tauto.
Qed.

(** C50: the token generator knows every style the parser can produce, and reproduces it. *)
Theorem C50_styles_known (ps : list piece) (s : str) (a : format_arg) :
  format_string xid_start xid_continue ps s -> In (Arg a) ps ->
  style_diff_tokens (fs_style (fa_spec a)) = Some (fs_style (fa_spec a)).
Proof.
  intros Hp Hin. apply spells_good in Hp. rewrite Forall_forall in Hp.
  exact (Hp _ Hin).
Qed.
End Xid.
Print Assumptions C41_grammar.
Print Assumptions C41_unambiguous.
Print Assumptions C43_verdict.
Print Assumptions C51_fill_rejected.
Print Assumptions C51_counts_rejected.
Print Assumptions C50_styles_known.

Example C41_nonvacuous :
  parse_format ascii_start ascii_continue (lit "a{{{x: ^+#08.3(fg=red,bold)x?}}}")
  = POk [] [Lit (lit "a"); Lit (lit "{");
            Arg (mk_farg (Some (Named (lit "x")))
                   (mk_spec (mk_pfargs (Some PCenter) (Some PPlus) true true (Some (CInt 8))
                               (Some (CInt 3)) (Some PLower))
                      (mk_diff (Some Red) None (Some Bold)) FDebug));
            Lit (lit "}")].
Proof. vm_compute. reflexivity. Qed.
Example C43_nonvacuous :
  parse_format ascii_start ascii_continue (lit "{:*<}") = PPanic /\
  parse_format ascii_start ascii_continue (lit "{:()}") = PFail /\
  parse_format ascii_start ascii_continue (lit "a}") = PErr.
Proof. repeat split; vm_compute; reflexivity. Qed.
Example C51_nonvacuous :
  format_args_impl ascii_start ascii_continue (lit "a{:1$}") [tt; tt] [] = CompileError /\
  format_args_impl ascii_start ascii_continue (lit "a{:.x$}") [tt] [(lit "x", tt)] = CompileError /\
  format_args_impl ascii_start ascii_continue (lit "a{:-^5}") [tt] [] = CompileError /\
  parse_format ascii_start ascii_continue (lit "a{:1$}")
  = POk [] [Lit (lit "a"); Arg (mk_farg None (mk_spec (mk_pfargs None None false false
             (Some (CParam (Positional 1))) None None) (mk_diff None None None) FDisplay))].
Proof. repeat split; vm_compute; reflexivity. Qed.

Section Attributes.
Variables xid_start xid_continue : char -> bool.
Hypothesis Hx : xid_ok xid_start xid_continue.

(** C44 (partial): exactly which attribute lists are accepted in a one-argument call: those of
    the documented grammar that are not empty and have no trailing comma. *)
Theorem C44_documented_partial {E} (inside : str) (e : E) :
  ~ In (41%N : char) inside ->
  (exists c, format_args_impl xid_start xid_continue (lit "{:(" ++ inside ++ lit ")}") [e] []
             = Expanded c) <->
  exists l, attrs_spelled l inside.
Proof.
  intros Hin. change (lit "{:(" ++ inside ++ lit ")}") with (attribute_string inside).
  rewrite (macro_iff _ _ Hx). split.
  - intros (ps & Hp & _). apply (attribute_string_inv _ _ Hx) in Hp as (l & Hl & _); eauto.
  - intros [l Hl]. eexists. split; [apply attribute_string_spelled; exact Hl|].
    apply attribute_accepted.
Qed.

(** C44 (refuted in full): the empty list, and any list with a trailing comma, is documented but
    never accepted, whatever the arguments. *)
Theorem C44_documented_refuted {E} (l : list attribute) (s : str) (positional : list E)
  (named : list (str * E)) :
  attrs_spelled l s ->
  documented_attributes [] [] /\ documented_attributes l (s ++ lit ",") /\
  format_args_impl xid_start xid_continue (lit "{:(" ++ [] ++ lit ")}") positional named
  = CompileError /\
  format_args_impl xid_start xid_continue (lit "{:(" ++ (s ++ lit ",") ++ lit ")}") positional named
  = CompileError.
Proof.
  intros Hs. split; [constructor|]. split; [now constructor|].
  assert (N41 : ~ In (41%N : char) (s ++ lit ",")).
  { assert (A : forall a t, attr_spelled a t -> ~ In (41%N : char) t).
    { intros a t [c u Hc|c u Hc| | |]; try destruct Hc; cbn; intuition discriminate. }
    rewrite in_app_iff. intros [I|I]; [|cbn in I; intuition discriminate]. revert I.
    induction Hs as [a t H|a t l u H _ IH]; [exact (A a t H)|]. rewrite !in_app_iff. cbn.
    apply A in H. intuition discriminate. }
  assert (G : forall inside : str, ~ In (41%N : char) inside ->
    (forall l, ~ attrs_spelled l inside) ->
    format_args_impl xid_start xid_continue (attribute_string inside) positional named = CompileError).
  { intros inside Hn Hno.
    destruct (format_args_impl xid_start xid_continue (attribute_string inside) positional named)
      as [c|] eqn:E1; [|reflexivity].
    apply (macro_inv _ _ Hx) in E1 as (ps & Hp & _).
    apply (attribute_string_inv _ _ Hx) in Hp as (l' & Hl & _); [|exact Hn].
    now apply Hno in Hl. }
  split; apply G; auto using attrs_nonempty, attrs_no_trailing.
Qed.

(** C50: the accepted color names are exactly black, red, green, yellow, blue, magenta, cyan,
    white and default (any other word is a compile error). *)
Theorem C50_color_names {E} (name : str) (e : E) :
  ~ In (41%N : char) name -> ~ In (44%N : char) name ->
  (exists c, format_args_impl xid_start xid_continue (lit "{:(fg=" ++ name ++ lit ")}") [e] []
             = Expanded c) <->
  In name (map lit ["black"; "red"; "green"; "yellow"; "blue"; "magenta"; "cyan"; "white";
                    "default"]%string).
Proof.
  intros H1 H2.
  assert (X : In name (map lit ["black"; "red"; "green"; "yellow"; "blue"; "magenta"; "cyan";
                "white"; "default"]%string) <-> exists c, color_name c name).
  { split.
    - cbn [map In]. intros H. repeat (destruct H as [<-|H]; [eexists; constructor|]). destruct H.
    - intros [c []]; cbn [map In]; auto 12. }
  rewrite X. clear X.
  change (lit "{:(fg=" ++ name ++ lit ")}") with (lit "{:(" ++ (lit "fg=" ++ name) ++ lit ")}").
  rewrite C44_documented_partial.
  2:{ rewrite in_app_iff. cbn. intuition discriminate. }
  split.
  - intros [l Hl]. apply attrs_fg in Hl as (c & _ & Hc); eauto.
  - intros [c Hc]. exists [AFg c]. constructor. now constructor.
Qed.
End Attributes.
Print Assumptions C44_documented_partial.
Print Assumptions C44_documented_refuted.
Print Assumptions C50_color_names.

Example C44_nonvacuous :
  attrs_spelled [AFg Red; AIntensity Bold; ABg Blue] (lit "fg=red,bold,bg=blue").
Proof.
  apply (ats_more (AFg Red) (lit "fg=red") _ (lit "bold,bg=blue")); [apply (at_fg Red (lit "red")); constructor|].
  apply (ats_more (AIntensity Bold) (lit "bold") _ (lit "bg=blue")); [constructor|].
  constructor. apply (at_bg Blue (lit "blue")). constructor.
Qed.
Example C50_nonvacuous :
  format_args_impl ascii_start ascii_continue (lit "{:(fg=brightred)}") [tt] [] = CompileError /\
  format_args_impl ascii_start ascii_continue (lit "{:(fg=cyan)}") [tt] []
  = Expanded (mk_code [tt] [] []
      [SFmt (WStdOther TDisplay) (PosArg 0) (mk_fargs None None false false None None None)
         (mk_diff (Some Cyan) None None)]).
Proof. split; vm_compute; reflexivity. Qed.
