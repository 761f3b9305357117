(** The generated expression, identifiers included, at the place of the call (C74). *)
From Verif Require Import Base Style Fmt SpecStd StdCompat SString Plain Ansi Html Format Nom Parse
  Codegen ToString SpecText TextFacts SpecSink StyleFacts StdFacts StringFacts FormatFacts SpecGrammar ParseFacts
  SpecFacts GrammarFacts SpecMeaning CodegenFacts MacroFacts AttrFacts PropsParse PropsMacro Quote SpecHygiene.

(** * The generator does not look at the argument expressions *)
Definition map_code {A B} (f : A -> B) (c : code A) : code B :=
  mk_code (map f (c_positional c)) (map f (c_named c)) (c_implicit c) (c_stmts c).
Lemma macro_map {A B} (f : A -> B) xs xc s (pos : list A) named c :
  format_args_impl xs xc s pos named = Expanded c ->
  format_args_impl xs xc s (map f pos) (map (fun '(n, e) => (n, f e)) named) = Expanded (map_code f c).
Proof.
  unfold format_args_impl. destruct (parse_format xs xc s) as [[|x r] ps| | |]; try discriminate.
  unfold generate. rewrite map_length.
  assert (E1 : map fst (map (fun '(n, e) => (n, f e)) named) = map fst named).
  { rewrite map_map. apply map_ext. now intros []. }
  assert (E2 : map snd (map (fun '(n, e) => (n, f e)) named) = map f (map snd named)).
  { rewrite !map_map. apply map_ext. now intros []. }
  rewrite E1, E2. destruct (gen_pieces _ _ _ _) as [[g ss]|]; [|discriminate].
  destruct (all_used _ _ g); [|discriminate]. now intros [= <-].
Qed.

(** * Places refer to existing arguments, captured names are asked for *)
Definition place_in (np nn ni : nat) (p : place) : Prop :=
  match p with PosArg i => i < np | NamedArg i => i < nn | ImplicitArg i => i < ni end.
Definition stmt_in (np nn ni : nat) (s : stmt) : Prop :=
  match s with SLit _ => True | SFmt _ p _ _ => place_in np nn ni p end.
Lemma place_in_mono np nn ni ni' p : ni <= ni' -> place_in np nn ni p -> place_in np nn ni' p.
Proof. destruct p; cbn; lia. Qed.
Lemma stmt_in_mono np nn ni ni' s : ni <= ni' -> stmt_in np nn ni s -> stmt_in np nn ni' s.
Proof. destruct s; cbn; [auto|]. apply place_in_mono. Qed.

Lemma named_index_lt names : forall k name i, named_index_from k names name = Some i -> i < k + length names.
Proof.
  induction names as [|n r IH]; intros k name i; cbn; [discriminate|].
  destruct (named_index_from (S k) r name) as [j|] eqn:E.
  - intros [= <-]. apply IH in E. lia.
  - destruct (str_eqb n name); [|discriminate]. intros [= <-]. lia.
Qed.
Lemma named_index_none names : forall k name, named_index_from k names name = None -> ~ In name names.
Proof.
  induction names as [|n r IH]; intros k name; cbn; [tauto|].
  destruct (named_index_from (S k) r name) as [j|] eqn:E; [discriminate|].
  destruct (str_eqb_spec n name); [discriminate|]. intros _ [H|H]; [auto|]. exact (IH _ _ E H).
Qed.

Lemma style_tokens_id d d' : style_diff_tokens d = Some d' -> d' = d.
Proof.
  destruct d as [f b i]. unfold style_diff_tokens. cbn [d_foreground d_background d_intensity].
  assert (C : forall c c', color_tokens c = Some c' -> c' = c) by (intros [] ?; cbn; congruence).
  assert (I : forall i i', intensity_tokens i = Some i' -> i' = i) by (intros [] ?; cbn; congruence).
  destruct f as [f|].
  1: destruct (color_tokens f) as [f'|] eqn:Ef; [apply C in Ef; subst f'|discriminate].
  all: destruct b as [b|].
  1, 3: destruct (color_tokens b) as [b'|] eqn:Eb; [apply C in Eb; subst b'|discriminate].
  all: destruct i as [i|].
  1, 3, 5, 7: destruct (intensity_tokens i) as [i'|] eqn:Ei; [apply I in Ei; subst i'|discriminate].
  all: cbn; unfold diff_default; congruence.
Qed.

Definition stmt_plain (s : stmt) : Prop := match s with SLit _ => True | SFmt _ _ _ st => st = diff_default end.

Lemma gen_pieces_in np names ps : forall g g' ss, gen_pieces np names ps g = Some (g', ss) ->
  length (g_implicit g) <= length (g_implicit g') /\
  (forall n, In n (g_implicit g') -> In n (g_implicit g) \/ In (Some (Named n)) (asked ps) /\ ~ In n names) /\
  Forall (stmt_in np (length names) (length (g_implicit g'))) ss /\
  (Exists sets_attribute ps \/ Forall stmt_plain ss).
Proof.
  induction ps as [|p ps IH]; intros g g' ss; cbn [gen_pieces].
  - intros [= <- <-]. split; [lia|]. split; [auto|]. split; [constructor|]. right. constructor.
  - destruct (gen_piece np names p g) as [[g1 s]|] eqn:E; [|discriminate].
    destruct (gen_pieces np names ps g1) as [[g2 ss']|] eqn:E2; [|discriminate].
    intros [= <- <-]. destruct (IH _ _ _ E2) as (L & I & F & P). clear IH E2.
    destruct p as [t|[arg [fargs st tr]]]; cbn [gen_piece] in E.
    + injection E as <- <-. split; [exact L|]. split; [|split].
      * intros n Hn. destruct (I n Hn) as [|[]]; auto.
      * constructor; [exact Logic.I|exact F].
      * destruct P as [P|P]; [left; now right|right; now constructor].
    + destruct (gen_place np names arg g) as [[gx pl]|] eqn:Epl; [|discriminate].
      destruct (fargs_tokens fargs) as [fa|]; [|discriminate].
      destruct (style_diff_tokens st) as [st'|] eqn:Est; [|discriminate].
      injection E as <- <-. apply style_tokens_id in Est. subst st'.
      assert (G : length (g_implicit g) <= length (g_implicit gx) /\
        (forall n, In n (g_implicit gx) -> In n (g_implicit g) \/ arg = Some (Named n) /\ ~ In n names) /\
        place_in np (length names) (length (g_implicit gx)) pl).
      { unfold gen_place in Epl. destruct arg as [[i|n]|].
        - destruct (N.leb_spec (N.of_nat np) i) as [|Hi]; [discriminate|]. injection Epl as <- <-.
          cbn. repeat split; auto. lia.
        - destruct (named_index names n) as [i|] eqn:En.
          + injection Epl as <- <-. cbn. repeat split; auto. apply named_index_lt in En. lia.
          + destruct (cannot_be_raw n); [discriminate|]. injection Epl as <- <-.
            cbn [g_implicit place_in]. rewrite app_length. cbn [length]. repeat split; try lia.
            intros m Hm. apply in_app_or in Hm as [Hm|[<-|[]]]; [auto|]. right. split; [reflexivity|].
            exact (named_index_none _ _ _ En).
        - destruct (Nat.ltb_spec (g_next g) np) as [Hi|]; [|discriminate]. injection Epl as <- <-.
          cbn. repeat split; auto. }
      destruct G as (L0 & I0 & Hpl). split; [lia|]. split; [|split].
      * intros n Hn. cbn [asked flat_map placeholder_arg fa_arg app In].
        destruct (I n Hn) as [Hi|[]]; [|tauto]. destruct (I0 n Hi) as [|[-> ]]; tauto.
      * constructor; [|exact F]. cbn. exact (place_in_mono _ _ _ _ _ L Hpl).
      * destruct P as [P|P]; [left; now right|].
        destruct (d_foreground st) eqn:Ef; [left; left; cbn; intros ->; discriminate|].
        destruct (d_background st) eqn:Eb; [left; left; cbn; intros ->; discriminate|].
        destruct (d_intensity st) eqn:Ei; [left; left; cbn; intros ->; discriminate|].
        right. constructor; [|exact P]. cbn. destruct st. cbn in *. subst. reflexivity.
Qed.

(** * Evaluating the quoted code *)
Section Eval.
Context {H : Type}.
Implicit Types sc : scope_t H.

Lemma bind_ok sc x v : (forall w, sc x <> Fixed w) ->
  bind_name H sc x v = Some (fun y => if str_eqb x y then Hideable v else sc y).
Proof. intros Hn. unfold bind_name. destruct (sc x) as [| |w]; try reflexivity. now destruct (Hn w). Qed.

(** A name that can be bound can still be bound under other bindings. *)
Lemma still_free sc x v y : (forall w, sc y <> Fixed w) ->
  forall w, (fun y => if str_eqb x y then Hideable v else sc y) y <> Fixed w.
Proof. intros Hn w. cbn. destruct (str_eqb x y); [discriminate|apply Hn]. Qed.

Lemma performs_lift p : performs (H := H) (plift H p) p.
Proof. induction p; cbn; constructor; auto. Qed.

Lemma performs_try p q (K : dval H -> prog H) :
  performs (pcatch H (K (DRes Ok))) q -> K (DRes Err) = PError ->
  performs (pcatch H (pbind H (plift H p) K)) (try_ p q).
Proof.
  intros Hq Hk. unfold try_. induction p as [r|c|s st k IH]; cbn.
  - destruct r; [exact Hq|]. rewrite Hk. constructor.
  - constructor.
  - constructor. exact IH.
Qed.

(** The scope inside the closure. *)
Record inside (sc : scope_t H) (t : tuples) (f : formatter) : Prop := mk_inside {
  is_pos : sc id_positional = Hideable (DTuple H (map DVal (t_positional t)));
  is_named : sc id_named = Hideable (DTuple H (map DVal (t_named t)));
  is_imp : sc id_implicit = Hideable (DTuple H (map DVal (t_implicit t)));
  is_fmt : sc id_formatter = Hideable (DFmt H f);
  is_arg : forall w, sc id_arg <> Fixed w;
  is_diff : forall w, sc id_diff <> Fixed w
}.

Lemma eval_place sc t f p : inside sc t f ->
  place_in (length (t_positional t)) (length (t_named t)) (length (t_implicit t)) p ->
  exists v, place_value t p = Some v /\ geval sc (quote_place p) = PVal (DVal v).
Proof.
  intros [Hp Hn Hi _ _ _] Hin.
  assert (G : forall l i, i < length l -> exists v, nth_error l i = Some v /\
            nth_error (map (@DVal H) l) i = Some (DVal v)).
  { intros l i Hl. destruct (nth_error l i) as [v|] eqn:E.
    - exists v. split; [reflexivity|]. now apply map_nth_error.
    - apply nth_error_None in E. lia. }
  destruct p as [i|i|i]; cbn [place_in] in Hin; cbn [place_value quote_place geval];
    destruct (G _ _ Hin) as (v & E1 & E2); exists v; (split; [exact E1|]).
  - rewrite Hp. cbn. now rewrite E2.
  - rewrite Hn. cbn. now rewrite E2.
  - rewrite Hi. cbn. now rewrite E2.
Qed.

Definition hide sc x (v : dval H) : scope_t H := fun y => if str_eqb x y then Hideable v else sc y.
Lemma hide_same sc x v : hide sc x v x = Hideable v.
Proof. unfold hide. destruct (str_eqb_spec x x); congruence. Qed.
Lemma hide_other sc x v y : x <> y -> hide sc x v y = sc y.
Proof. unfold hide. destruct (str_eqb_spec x y); congruence. Qed.
Lemma diff_not_some : id_diff <> id_some.
Proof. discriminate. Qed.

Lemma assign_fg sc d c e : sc id_diff = Hideable (DDiff H d) -> denotes (sc id_some) = Some std_some ->
  geval sc (GAssign id_diff FldForeground (GCallIdent id_some (GColor c)) e)
  = geval (hide sc id_diff (DDiff H (mk_diff (Some c) (d_background d) (d_intensity d)))) e.
Proof.
  intros Hd Hs. cbn [geval pbind]. rewrite Hs. cbn [call_fun pbind std_some]. rewrite Hd. cbn [denotes set_field].
  unfold bind_name. rewrite Hd. reflexivity.
Qed.
Lemma assign_bg sc d c e : sc id_diff = Hideable (DDiff H d) -> denotes (sc id_some) = Some std_some ->
  geval sc (GAssign id_diff FldBackground (GCallIdent id_some (GColor c)) e)
  = geval (hide sc id_diff (DDiff H (mk_diff (d_foreground d) (Some c) (d_intensity d)))) e.
Proof.
  intros Hd Hs. cbn [geval pbind]. rewrite Hs. cbn [call_fun pbind std_some]. rewrite Hd. cbn [denotes set_field].
  unfold bind_name. rewrite Hd. reflexivity.
Qed.
Lemma assign_int sc d i e : sc id_diff = Hideable (DDiff H d) -> denotes (sc id_some) = Some std_some ->
  geval sc (GAssign id_diff FldIntensity (GCallIdent id_some (GIntensity i)) e)
  = geval (hide sc id_diff (DDiff H (mk_diff (d_foreground d) (d_background d) (Some i)))) e.
Proof.
  intros Hd Hs. cbn [geval pbind]. rewrite Hs. cbn [call_fun pbind std_some]. rewrite Hd. cbn [denotes set_field].
  unfold bind_name. rewrite Hd. reflexivity.
Qed.

Lemma eval_style sc d : (forall w, sc id_diff <> Fixed w) ->
  (d <> diff_default -> denotes (sc id_some) = Some std_some) ->
  geval sc (quote_style d) = PVal (DDiff H d).
Proof.
  intros Hd Hs. unfold quote_style. cbn [geval call_item pbind]. rewrite bind_ok by exact Hd.
  change (fun y => if str_eqb id_diff y then Hideable (DDiff H diff_default) else sc y)
    with (hide sc id_diff (DDiff H diff_default)).
  assert (E0 : hide sc id_diff (DDiff H diff_default) id_diff = Hideable (DDiff H diff_default)) by apply hide_same.
  assert (S0 : d <> diff_default -> denotes (hide sc id_diff (DDiff H diff_default) id_some) = Some std_some).
  { rewrite hide_other by exact diff_not_some. exact Hs. }
  revert E0 S0. generalize (hide sc id_diff (DDiff H diff_default)). clear sc Hd Hs.
  destruct d as [f b i]. cbn [d_foreground d_background d_intensity]. intros sc E0 S0.
  assert (L : forall sc d, sc id_diff = Hideable (DDiff H d) -> geval sc (GIdent id_diff) = PVal (DDiff H d)).
  { intros sc' d E. cbn [geval]. now rewrite E. }
  assert (N : forall sc v, denotes (sc id_some) = Some std_some -> denotes (hide sc id_diff v id_some) = Some (@std_some H)).
  { intros sc' v E. rewrite hide_other by exact diff_not_some. exact E. }
  unfold diff_default in *.
  destruct f as [f|], b as [b|], i as [i|]; try specialize (S0 ltac:(discriminate));
    repeat first
      [ rewrite (assign_fg _ _ _ _ E0 S0) | rewrite (assign_bg _ _ _ _ E0 S0) | rewrite (assign_int _ _ _ _ E0 S0)
      | exact (L _ _ E0)
      | match goal with |- geval (hide ?s ?x ?v) _ = _ =>
          clear E0; assert (E0 := hide_same s x v); apply (fun K => N s v K) in S0;
          revert E0 S0; generalize (hide s x v); clear s; intros s E0 S0; cbn [d_foreground d_background d_intensity] in E0 end ].
Qed.

Lemma eval_std sc t f v tr : inside sc t f ->
  forall arg, geval sc arg = PVal (DVal v) ->
  exists d, geval sc (quote_std tr arg) = PVal (DStdFmt H d) /\ forall fl, d fl = v_std v tr fl.
Proof.
  intros Hi arg Ha. unfold quote_std. cbn [geval]. rewrite Ha. cbn [pbind].
  rewrite bind_ok by exact (is_arg _ _ _ Hi). cbn [pbind call_item].
  eexists. split; [reflexivity|]. intros fl. cbn beta.
  assert (E : forall w, hide sc id_arg (DVal v) id_formatter <> Fixed w).
  { rewrite hide_other by discriminate. rewrite (is_fmt _ _ _ Hi). discriminate. }
  pose proof (bind_ok _ _ (DStdFlags H fl) E) as B. unfold hide in B. rewrite B. clear B.
  cbn beta. replace (str_eqb id_formatter id_arg) with false by reflexivity.
  replace (str_eqb id_arg id_arg) with true by reflexivity.
  replace (str_eqb id_formatter id_formatter) with true by reflexivity. reflexivity.
Qed.

Lemma eval_wrapped sc t f v w : inside sc t f ->
  forall arg, geval sc arg = PVal (DVal v) ->
  exists d, geval sc (quote_wrapped w arg) = PVal d /\
    forall f', call_item H IDisplayFmt [d; DFmt H f'] = plift H (wrapped_display w v f').
Proof.
  intros Hi arg Ha. destruct w as [|tr|tr]; cbn [quote_wrapped].
  - exists (DVal v). split; [exact Ha|]. reflexivity.
  - destruct (eval_std sc t f v tr Hi arg Ha) as (d & Hd & Hfl). cbn [geval]. rewrite Hd. cbn [pbind call_item].
    eexists. split; [reflexivity|]. intros f'. cbn [call_item wrapped_display].
    rewrite !display_debug, Hfl. reflexivity.
  - destruct (eval_std sc t f v tr Hi arg Ha) as (d & Hd & Hfl). cbn [geval]. rewrite Hd. cbn [pbind call_item].
    eexists. split; [reflexivity|]. intros f'. cbn [call_item wrapped_display].
    rewrite !display_other, Hfl. reflexivity.
Qed.

Lemma eval_stmts sc t f ss : inside sc t f ->
  Forall (stmt_in (length (t_positional t)) (length (t_named t)) (length (t_implicit t))) ss ->
  (Forall stmt_plain ss \/ denotes (sc id_some) = Some std_some) ->
  performs (pcatch H (geval sc (quote_stmts ss))) (exec_stmts t ss f).
Proof.
  intros Hi Hin Hs. induction Hin as [|s ss Hin HF IH].
  - constructor.
  - assert (Hs1 : stmt_plain s \/ denotes (sc id_some) = Some std_some) by (destruct Hs as [X|X]; [inversion X; auto|auto]).
    assert (Hs2 : Forall stmt_plain ss \/ denotes (sc id_some) = Some std_some) by (destruct Hs as [X|X]; [inversion X; auto|auto]).
    specialize (IH Hs2). cbn [quote_stmts]. destruct s as [x|w p fa st]; cbn [quote_stmt exec_stmts].
    + cbn [geval]. rewrite (is_fmt _ _ _ Hi). cbn [denotes pbind call_item].
      apply performs_try; [exact IH|reflexivity].
    + cbn [stmt_in] in Hin. destruct (eval_place sc t f p Hi Hin) as (v & Ev & Ep). rewrite Ev.
      destruct (eval_wrapped sc t f v w Hi _ Ep) as (d & Ed & Hd).
      assert (Est : geval sc (quote_style st) = PVal (DDiff H st)).
      { apply eval_style; [exact (is_diff _ _ _ Hi)|]. intros Hne. destruct Hs1 as [X|X]; [now destruct Hne|exact X]. }
      remember (quote_wrapped w (quote_place p)) as q1 eqn:Q1. remember (quote_style st) as q2 eqn:Q2.
      cbn [geval]. rewrite Ed. cbn [pbind]. rewrite (is_fmt _ _ _ Hi). cbn [denotes pbind].
      rewrite Est. cbn [pbind]. change (call_item H IWithArgs _) with
        (PVal (DFmt H (formatter_with_args Restyle_StyleDiff f fa st))). cbn [pbind].
      rewrite Hd. apply performs_try; [exact IH|reflexivity].
Qed.

Lemma run_expr_bind p : forall K (h : H), run_expr (pbind H p K) h =
  match run_expr p h with (h', Completed v) => run_expr (K v) h' | r => r end.
Proof.
  induction p as [v| | |c|x st k IH|e k IH]; intros K h; cbn; try reflexivity.
  destruct (e h) as [h' [v|]]; [apply IH|reflexivity].
Qed.

Definition gevals sc := fix gevals (l : list (gexpr (uexpr H))) (k : list (dval H) -> prog H) {struct l} : prog H :=
  match l with
  | [] => k []
  | e :: r => pbind H (geval sc e) (fun v => gevals r (fun vs => k (v :: vs)))
  end.
Lemma geval_tuple sc l : geval sc (GTuple l) = gevals sc l (fun vs => PVal (DTuple H vs)).
Proof. reflexivity. Qed.

Lemma evaluated_length (es : list (expr H)) h h' vs : evaluated es h h' vs -> length vs = length es.
Proof. induction 1; cbn; congruence. Qed.
Lemma run_users sc es : forall k (h : H),
  run_expr (gevals sc (map (fun e => GRef (GUser e)) es) k) h =
  match eval_tuple (map (fun e => e sc) es) h with
  | (h', Some vs) => run_expr (k (map DVal vs)) h'
  | (h', None) => (h', Cut)
  end.
Proof.
  induction es as [|e es IH]; intros k h; cbn [map eval_tuple]; [reflexivity|].
  cbn [gevals geval pbind run_expr]. destruct (e sc h) as [h1 [v|]]; [|reflexivity].
  rewrite IH. destruct (eval_tuple (map (fun e => e sc) es) h1) as [h2 [vs|]]; reflexivity.
Qed.
Lemma run_names sc scope xs : (forall x, In x xs -> denotes (sc x) = Some (DVal (scope x))) ->
  forall k, gevals sc (map (fun x => GRef (GIdent x)) xs) k = k (map DVal (map scope xs)).
Proof.
  induction xs as [|x xs IH]; intros Hx k; [reflexivity|]. cbn [map gevals geval].
  rewrite (Hx x) by now left. cbn [pbind]. rewrite IH; [reflexivity|]. intros y Hy. apply Hx. now right.
Qed.

Lemma eval_quoted sc scope (c : code (uexpr H)) h :
  (forall x, In x reserved -> forall w, sc x <> Fixed w) ->
  (Forall stmt_plain (c_stmts c) \/ denotes (sc id_some) = Some std_some) ->
  (forall x, In x (c_implicit c) -> denotes (sc x) = Some (DVal (scope x))) ->
  Forall (stmt_in (length (c_positional c)) (length (c_named c)) (length (c_implicit c))) (c_stmts c) ->
  match eval_code scope (map_code (fun e => e sc) c) h with
  | (h', Some args) => exists g, run_expr (geval sc (quote_code c)) h = (h', Completed (DArguments g)) /\
      forall f, performs (g f) (args f)
  | (h', None) => run_expr (geval sc (quote_code c)) h = (h', Cut)
  end.
Proof.
  intros Hr Hs Hc Hin. destruct c as [pos named imps ss]. unfold map_code, eval_code, quote_code.
  cbn [c_positional c_named c_implicit c_stmts] in *.
  match goal with |- context [geval sc (GCall IArguments [GRef ?m])] => set (M := m) end.
  assert (E0 : geval sc (GCall IArguments [GRef M]) = pbind H (geval sc M) (fun v => call_item H IArguments [v])) by reflexivity.
  rewrite E0. clear E0. rewrite run_expr_bind. unfold M. clear M.
  match goal with |- context [geval sc (GMatch3 ?t ?x ?y ?z ?b)] => set (T := t); set (B := b) end.
  set (MK := fun v : dval H => match v with
        | DTuple _ [v1; v2; v3] =>
            match bind_name H sc id_positional v1 with
            | Some sc1 =>
                match bind_name H sc1 id_named v2 with
                | Some sc2 => match bind_name H sc2 id_implicit v3 with Some sc3 => geval sc3 B | None => PReject end
                | None => PReject
                end
            | None => PReject
            end
        | _ => PReject
        end).
  assert (E0 : geval sc (GMatch3 T id_positional id_named id_implicit B) = pbind H (geval sc T) MK) by reflexivity.
  rewrite E0. clear E0. rewrite run_expr_bind. unfold T. clear T. rewrite geval_tuple. cbn [gevals].
  rewrite run_expr_bind, geval_tuple, run_users.
  destruct (eval_tuple (map (fun e => e sc) pos) h) as [h1 [pv|]] eqn:E1; [|reflexivity].
  cbn [run_expr]. rewrite run_expr_bind, geval_tuple, run_users.
  destruct (eval_tuple (map (fun e => e sc) named) h1) as [h2 [nv|]] eqn:E2; [|reflexivity].
  cbn [run_expr]. rewrite run_expr_bind, geval_tuple, (run_names sc scope imps Hc). cbn [run_expr MK].
  assert (L1 : length pv = length pos).
  { apply evaluated_tuple, evaluated_length in E1. now rewrite map_length in E1. }
  assert (L2 : length nv = length named).
  { apply evaluated_tuple, evaluated_length in E2. now rewrite map_length in E2. }
  assert (F : forall x, In x reserved -> forall w, sc x <> Fixed w) by exact Hr.
  unfold reserved in Hr.
  rewrite bind_ok by (apply F; cbn; tauto). fold (hide sc id_positional (DTuple H (map DVal pv))).
  assert (F1 : forall x, In x reserved -> forall w, hide sc id_positional (DTuple H (map DVal pv)) x <> Fixed w).
  { intros x Hx. apply still_free. now apply F. }
  rewrite bind_ok by (apply F1; cbn; tauto).
  set (sc1 := hide sc id_positional (DTuple H (map DVal pv))) in *.
  fold (hide sc1 id_named (DTuple H (map DVal nv))).
  assert (F2 : forall x, In x reserved -> forall w, hide sc1 id_named (DTuple H (map DVal nv)) x <> Fixed w).
  { intros x Hx. apply still_free. now apply F1. }
  set (sc2 := hide sc1 id_named (DTuple H (map DVal nv))) in *.
  rewrite bind_ok by (apply F2; cbn; tauto).
  set (im := DTuple H (map DVal (map scope imps))).
  fold (hide sc2 id_implicit im).
  assert (F3 : forall x, In x reserved -> forall w, hide sc2 id_implicit im x <> Fixed w).
  { intros x Hx. apply still_free. now apply F2. }
  set (sc3 := hide sc2 id_implicit im) in *.
  unfold B. cbn [geval run_expr call_item]. eexists. split; [reflexivity|].
  intros f. cbn beta. rewrite bind_ok by (apply F3; cbn; tauto). fold (hide sc3 id_formatter (DFmt H f)).
  assert (F4 : forall x, In x reserved -> forall w, hide sc3 id_formatter (DFmt H f) x <> Fixed w).
  { intros x Hx. apply still_free. now apply F3. }
  apply eval_stmts.
  - constructor; try (apply F4; cbn; tauto); reflexivity.
  - cbn [t_positional t_named t_implicit]. rewrite L1, L2, map_length. exact Hin.
  - exact Hs.
Qed.
End Eval.

Section Xid.
Variables xid_start xid_continue : char -> bool.
Hypothesis Hx : xid_ok xid_start xid_continue.
Notation format_string := (format_string xid_start xid_continue).
Notation macro := (format_args_impl xid_start xid_continue).

(** C74: the generated expression can stand in any scope: whatever variables the caller has, also
    ones named like the macro's own temporaries, every argument expression and every captured
    variable means what it means at the place of the call, and formatting does what the format
    string says.  The exceptions: a constant (or static, tuple struct, ..) with a [reserved] name,
    and a caller's own [Some] if some placeholder sets an attribute (see below). *)
Theorem C74_any_scope_partial {H} (s : str) (ps : list piece) (pos : list (uexpr H))
  (named : list (str * uexpr H)) (c : code (uexpr H)) (sc : scope_t H) (scope : str -> value_t) (h : H) :
  format_string ps s -> macro s pos named = Expanded c ->
  (forall x v, In x reserved -> sc x <> Fixed v) ->
  (Exists sets_attribute ps -> denotes (sc (lit "Some")) = Some std_some) ->
  (forall x, In (Some (Named x)) (asked ps) -> ~ In x (map fst named) ->
     denotes (sc x) = Some (DVal (scope x))) ->
  let exprs := map (fun e => e sc) (pos ++ map snd named) in
  match run_expr (geval sc (quote_code c)) h with
  | (h', Completed v) => exists g pv nv, v = DArguments g /\
      evaluated exprs h h' (pv ++ nv) /\ length pv = length pos /\ length nv = length named /\
      forall f, exists parts, means pv (combine (map fst named) nv) scope f 0 ps parts /\
        performs (g f) (in_sequence parts)
  | (h', Cut) => cut_short exprs h h'
  | _ => False
  end.
Proof.
  intros Hp Hm Hr Hs Hc exprs. pose proof Hm as Hm'. apply (macro_inv _ _ Hx) in Hm' as (ps' & Hp' & _ & Hg).
  assert (ps' = ps) as -> by (eapply format_string_unique; eassumption). clear Hp'.
  unfold generate in Hg. destruct (gen_pieces _ _ ps gen_init) as [[g ss]|] eqn:Eg; [|discriminate].
  destruct (all_used _ _ g); [|discriminate]. injection Hg as Ec.
  destruct (gen_pieces_in _ _ _ _ _ _ Eg) as (_ & Hi & Hin & Hst). cbn [gen_init g_implicit In] in Hi.
  assert (Q := eval_quoted sc scope c h).
  replace (c_stmts c) with ss in Q by now rewrite <- Ec.
  replace (c_implicit c) with (g_implicit g) in Q by now rewrite <- Ec.
  replace (c_positional c) with pos in Q by now rewrite <- Ec.
  replace (c_named c) with (map snd named) in Q by now rewrite <- Ec.
  rewrite !map_length in *.
  specialize (Q (fun x I v => Hr x v I)).
  specialize (Q ltac:(destruct Hst as [X|X]; [right; exact (Hs X)|left; exact X])).
  specialize (Q (fun x I => match Hi x I with or_introl F => match F with end | or_intror (conj A B) => Hc x A B end)).
  specialize (Q Hin).
  pose proof (macro_map (fun e : uexpr H => e sc) _ _ _ _ _ _ Hm) as Hm2.
  assert (EX : exprs = map (fun e => e sc) pos ++ map snd (map (fun '(n, e) => (n, e sc)) named)).
  { unfold exprs. rewrite map_app, !map_map. f_equal. apply map_ext. now intros []. }
  assert (EN : map fst (map (fun '(n, e) => (n, e sc)) named) = map fst named).
  { rewrite map_map. apply map_ext. now intros []. }
  destruct (eval_code scope (map_code (fun e => e sc) c) h) as [h' [args|]] eqn:Ee.
  - destruct Q as (gg & -> & Hperf).
    destruct (C46_resolution _ _ Hx _ _ _ _ _ _ _ _ _ Hp Hm2 Ee) as (pv & nv & Hev & L1 & L2 & Hf).
    rewrite !map_length in *. exists gg, pv, nv. rewrite EX. repeat split; auto.
    intros f. destruct (Hf f) as (parts & Hm3 & E3). exists parts. split; [exact (eq_rect _ (fun l => means pv (combine l nv) scope f 0 ps parts) Hm3 _ EN)|].
    rewrite <- E3. apply Hperf.
  - rewrite Q. pose proof (C48_evaluated_once _ _ Hx _ _ _ _ _ _ _ _ Hm2 Ee) as Y. cbn in Y. now rewrite EX.
Qed.

Lemma red_code {E} (e : E) :
  macro (lit "{:(fg=red)}") [e] []
  = Expanded (mk_code [e] [] [] [SFmt (WStdOther TDisplay) (PosArg 0) fargs_default (mk_diff (Some Red) None None)]).
Proof.
  assert (Hp : format_string [attribute_piece (kept_settings [AFg Red])] (lit "{:(fg=red)}")).
  { apply (attribute_string_spelled xid_start xid_continue [AFg Red] (lit "fg=red")).
    constructor. apply (at_fg Red (lit "red")). constructor. }
  rewrite (macro_of _ _ Hx _ _ _ _ Hp). reflexivity.
Qed.

(** C74 as stated is false: the generated code calls whatever the caller's [Some] is; with a
    caller's function of that name the placeholder gets the color that function gives. *)
Theorem C74_some_refuted {H} (e : uexpr H) (sc : scope_t H) (fc : color -> option color)
  (fi : option (intensity -> option intensity)) (h h' : H) (v : value_t) :
  (forall x v, In x reserved -> sc x <> Fixed v) ->
  denotes (sc (lit "Some")) = Some (DFun (Some fc) fi) -> e sc h = (h', Some v) ->
  exists c g, macro (lit "{:(fg=red)}") [e] [] = Expanded c /\
    run_expr (geval sc (quote_code c)) h = (h', Completed (DArguments g)) /\
    forall f, performs (g f)
      (in_sequence [trait_code FDisplay v
         (mk_formatter (override (mk_diff (fc Red) None None) (fm_style f)) fargs_default)]).
Proof.
  intros Hr Hs He. eexists. eexists. split; [apply red_code|].
  assert (B : forall x, In x reserved -> forall v, bind_name H sc x v = Some (hide sc x v)).
  { intros x Hi w. apply bind_ok. intros y. now apply Hr. }
  unfold quote_code. cbn [c_positional c_named c_implicit c_stmts map].
  cbn [geval pbind run_expr]. rewrite He. cbn [pbind run_expr].
  rewrite B by (cbn; tauto).
  assert (F : forall x y w, In x reserved -> forall u, hide sc y w x <> Fixed u).
  { intros x y w Hi. apply still_free. intros u. now apply Hr. }
  rewrite bind_ok by (apply F; cbn; tauto). fold (hide (hide sc id_positional (DTuple H [DVal v])) id_named (DTuple H [])).
  set (sc1 := hide (hide sc id_positional (DTuple H [DVal v])) id_named (DTuple H [])).
  assert (F1 : forall x, In x reserved -> forall u, sc1 x <> Fixed u).
  { intros x Hi. apply still_free. now apply F. }
  rewrite bind_ok by (apply F1; cbn; tauto). fold (hide sc1 id_implicit (DTuple H [])).
  set (sc2 := hide sc1 id_implicit (DTuple H [])).
  assert (F2 : forall x, In x reserved -> forall u, sc2 x <> Fixed u).
  { intros x Hi. apply still_free. now apply F1. }
  cbn [pbind run_expr call_item]. split; [reflexivity|]. intros f. cbn beta.
  rewrite bind_ok by (apply F2; cbn; tauto). fold (hide sc2 id_formatter (DFmt H f)).
  set (sc3 := hide sc2 id_formatter (DFmt H f)).
  assert (F3 : forall x, In x reserved -> forall u, sc3 x <> Fixed u).
  { intros x Hi. apply still_free. now apply F2. }
  assert (Hi : inside sc3 (mk_tuples [v] [] []) f).
  { constructor; try (apply F3; cbn; tauto); reflexivity. }
  destruct (eval_wrapped sc3 _ f v (WStdOther TDisplay) Hi (quote_place (PosArg 0)) eq_refl) as (d & Ed & Hd).
  assert (Est : geval sc3 (quote_style (mk_diff (Some Red) None None)) = PVal (DDiff H (mk_diff (fc Red) None None))).
  { unfold quote_style. cbn [d_foreground d_background d_intensity geval call_item pbind].
    rewrite bind_ok by (apply F3; cbn; tauto). cbn beta.
    change (str_eqb id_diff id_diff) with true. change (str_eqb id_diff id_some) with false. cbv iota.
    change (sc3 id_some) with (sc (lit "Some")). rewrite Hs. cbn [call_fun pbind denotes set_field].
    unfold bind_name. change (str_eqb id_diff id_diff) with true. cbv iota beta. cbn [denotes].
    change (str_eqb id_diff id_diff) with true. cbv iota. now destruct fi. }
  cbn [quote_stmts quote_stmt].
  remember (quote_wrapped (WStdOther TDisplay) (quote_place (PosArg 0))) as q1 eqn:Q1.
  remember (quote_style (mk_diff (Some Red) None None)) as q2 eqn:Q2.
  match goal with |- performs (pcatch H (geval ?x ?e)) _ => change (performs (pcatch H (geval sc3 e)) (in_sequence [trait_code FDisplay v
         (mk_formatter (override (mk_diff (fc Red) None None) (fm_style f)) fargs_default)])) end.
  cbn [geval]. rewrite Ed. cbn [pbind]. rewrite (is_fmt _ _ _ Hi). cbn [denotes pbind].
  rewrite Est. cbn [pbind].
  change (call_item H IWithArgs _) with
    (PVal (DFmt H (formatter_with_args Restyle_StyleDiff f fargs_default (mk_diff (fc Red) None None)))). cbn [pbind].
  rewrite Hd. cbn [in_sequence].
  replace (trait_code FDisplay v (mk_formatter (override (mk_diff (fc Red) None None) (fm_style f)) fargs_default))
    with (wrapped_display (WStdOther TDisplay) v (formatter_with_args Restyle_StyleDiff f fargs_default (mk_diff (fc Red) None None))).
  - apply performs_try; [constructor|reflexivity].
  - cbn [wrapped_display]. rewrite display_other. unfold trait_code, through_std, formatter_with_args.
    destruct (fc Red), (fm_style f); reflexivity.
Qed.

(** C74 as stated is false: a constant named like the macro's own variable [diff] at the place of the
    call makes every call with a placeholder uncompilable. *)
Theorem C74_constant_refuted {H} (e : uexpr H) (sc : scope_t H) (h h' : H) (v : value_t) (w : dval H) :
  (forall x u, In x reserved -> x <> lit "diff" -> sc x <> Fixed u) ->
  sc (lit "diff") = Fixed w -> e sc h = (h', Some v) ->
  exists c g, macro (lit "{:(fg=red)}") [e] [] = Expanded c /\
    run_expr (geval sc (quote_code c)) h = (h', Completed (DArguments g)) /\
    forall f, g f = PReject.
Proof.
  intros Hr Hw He. eexists. eexists. split; [apply red_code|].
  unfold quote_code. cbn [c_positional c_named c_implicit c_stmts map].
  cbn [geval pbind run_expr]. rewrite He. cbn [pbind run_expr].
  assert (F0 : forall x, In x reserved -> x <> lit "diff" -> forall u, sc x <> Fixed u) by eauto.
  assert (F : forall x y w, In x reserved -> x <> lit "diff" -> forall u, hide sc y w x <> Fixed u).
  { intros x y w' Hi Hn. apply still_free. now apply F0. }
  rewrite bind_ok by (apply F0; [cbn; tauto|discriminate]). fold (hide sc id_positional (DTuple H [DVal v])).
  rewrite bind_ok by (apply F; [cbn; tauto|discriminate]). fold (hide (hide sc id_positional (DTuple H [DVal v])) id_named (DTuple H [])).
  set (sc1 := hide (hide sc id_positional (DTuple H [DVal v])) id_named (DTuple H [])).
  assert (F1 : forall x, In x reserved -> x <> lit "diff" -> forall u, sc1 x <> Fixed u).
  { intros x Hi Hn. apply still_free. now apply F. }
  rewrite bind_ok by (apply F1; [cbn; tauto|discriminate]). fold (hide sc1 id_implicit (DTuple H [])).
  set (sc2 := hide sc1 id_implicit (DTuple H [])).
  assert (F2 : forall x, In x reserved -> x <> lit "diff" -> forall u, sc2 x <> Fixed u).
  { intros x Hi Hn. apply still_free. now apply F1. }
  cbn [pbind run_expr call_item]. split; [reflexivity|]. intros f. cbn beta.
  rewrite bind_ok by (apply F2; [cbn; tauto|discriminate]). fold (hide sc2 id_formatter (DFmt H f)).
  set (sc3 := hide sc2 id_formatter (DFmt H f)).
  assert (F3 : forall x, In x reserved -> x <> lit "diff" -> forall u, sc3 x <> Fixed u).
  { intros x Hi Hn. apply still_free. now apply F2. }
  assert (Est : geval sc3 (quote_style (mk_diff (Some Red) None None)) = PReject).
  { unfold quote_style. cbn [d_foreground d_background d_intensity geval call_item pbind].
    unfold bind_name. change (sc3 id_diff) with (sc (lit "diff")). now rewrite Hw. }
  match goal with |- pcatch H (geval ?x ?e) = _ => change (pcatch H (geval sc3 e) = PReject) end.
  cbn [quote_stmts quote_stmt quote_wrapped quote_place quote_std].
  remember (quote_style (mk_diff (Some Red) None None)) as q2 eqn:Q2.
  assert (Ew : exists d, geval sc3 (quote_std TDisplay (GField (GIdent id_positional) 0)) = PVal (DStdFmt H d)).
  { unfold quote_std. cbn [geval pbind]. change (sc3 id_positional) with (@Hideable H (DTuple H [DVal v])).
    cbn [denotes nth_error pbind]. rewrite bind_ok by (apply F3; [cbn; tauto|discriminate]). cbn [pbind call_item]. eauto. }
  destruct Ew as [d Ew]. cbn [geval]. rewrite Ew. cbn [pbind call_item].
  change (sc3 id_formatter) with (@Hideable H (DFmt H f)). cbn [denotes pbind]. rewrite Est. reflexivity.
Qed.
End Xid.
Print Assumptions C74_any_scope_partial.
Print Assumptions C74_some_refuted.
Print Assumptions C74_constant_refuted.

(** * Concrete cases *)

(** A caller whose variables are named like the temporaries of the macro. *)
Definition text_scope : scope_t (list nat) := fun x =>
  if str_eqb x (lit "Some") then Fixed std_some
  else Hideable (DVal (text_value (lit "var " ++ x))).
Definition of_scope (x : str) : uexpr (list nat) := fun sc h =>
  (h ++ [length x], match denotes (sc x) with Some (DVal v) => Some v | _ => None end).
Fixpoint to_wprog {H} (p : prog H) : wprog :=
  match p with
  | PVal (DRes r) => Ret r
  | PEmit s st k => Emit s st (fun r => to_wprog (k r))
  | _ => Abort Panic
  end.
Definition written (sc : scope_t (list nat)) (s : string) (pos : list (uexpr (list nat)))
  : option (list nat * comp str) :=
  match format_args_impl ascii_start ascii_continue (lit s) pos [] with
  | Expanded c => match run_expr (geval sc (quote_code c)) [] with
                  | (h, Completed (DArguments g)) => Some (h, html_format (fun f => to_wprog (g f)))
                  | _ => None end
  | CompileError => None
  end.
Example C74_nonvacuous :
  written text_scope "{__stylish_formatter}{:(bg=red)} {diff}" [of_scope (lit "__stylish_positional_args")]
  = Some ([25], Value (lit ("var __stylish_formatter" ++
      "<span style=background-color:red>var __stylish_positional_args</span> var diff"))) /\
  written (fun x => if str_eqb x (lit "Some") then Hideable (DFun (Some (fun _ => None)) None) else text_scope x)
    "{:(fg=red)}" [of_scope (lit "x")] = Some ([1], Value (lit "var x")) /\
  written (fun x => if str_eqb x (lit "diff") then Fixed (DVal (text_value [])) else text_scope x)
    "{:(fg=red)}" [of_scope (lit "x")] = Some ([1], Crash Panic).
Proof. repeat split; vm_compute; reflexivity. Qed.
(** The hypotheses of the theorems hold for these scopes. *)
Example C74_scope_nonvacuous :
  (forall x v, In x reserved -> text_scope x <> Fixed v) /\
  denotes (text_scope (lit "Some")) = Some std_some /\
  (forall x, x <> lit "Some" -> denotes (text_scope x) = Some (DVal (text_value (lit "var " ++ x)))).
Proof.
  split; [|split; [reflexivity|]].
  - intros x v Hi. cbn in Hi. repeat destruct Hi as [<-|Hi]; try discriminate. destruct Hi.
  - intros x Hn. unfold text_scope. destruct (str_eqb_spec x (lit "Some")); [contradiction|reflexivity].
Qed.
