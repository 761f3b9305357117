(** Specification: formatting values with side effects. *)
From Verif Require Import Base Style Fmt SpecStd StdCompat Parse Codegen SpecText SpecMeaning Effects.

Section Values.
Context {H : Type}.
Variables (pos : list (evalue H)) (named : list (str * evalue H)) (scope : str -> evalue H).

(** Which value a placeholder uses, as [uses] in [SpecMeaning]. *)
Inductive euses (n : nat) : option arg_ref -> evalue H -> Prop :=
  | eu_bare v : nth_error pos n = Some v -> euses n None v
  | eu_index i v : nth_error pos (N.to_nat i) = Some v -> euses n (Some (Positional i)) v
  | eu_named name v before after : named = before ++ (name, v) :: after ->
      ~ In name (map fst after) -> euses n (Some (Named name)) v
  | eu_captured name : ~ In name (map fst named) -> euses n (Some (Named name)) (scope name).

(** A write of some text, the only effect of literal text. *)
Definition write_text (st : style) (s : str) : eprog H :=
  EEmit s st (fun o => match o with Returned r => ERet r | Crashed c => EAbort c end).

(** std code run for a formatter: it sees the flags, and what it writes is written in the
    formatter's style. *)
Fixpoint std_code (st : style) (p : esprog H) : eprog H :=
  match p with
  | ESRet r => ERet r
  | ESAbort c => EAbort c
  | ESGet k => EGet (fun h => std_code st (k h))
  | ESPut h p' => EPut h (std_code st p')
  | ESEmit s k => EEmit s st (fun o => std_code st (k o))
  end.

(** The code of the trait that a placeholder selects. *)
Definition code_of (t : format_trait) (v : evalue H) (st : style) (flags : formatter_args) : eprog H :=
  match t with
  | FStylish => ev_stylish v (mk_formatter st flags)
  | FDebug => std_code st (ev_std v TDebug (std_flags_of flags (fa_debug_hex flags)))
  | FDisplay => std_code st (ev_std v TDisplay (std_flags_of flags None))
  | FOctal => std_code st (ev_std v TOctal (std_flags_of flags None))
  | FLowerHex => std_code st (ev_std v TLowerHex (std_flags_of flags None))
  | FUpperHex => std_code st (ev_std v TUpperHex (std_flags_of flags None))
  | FPointer => std_code st (ev_std v TPointer (std_flags_of flags None))
  | FBinary => std_code st (ev_std v TBinary (std_flags_of flags None))
  | FLowerExp => std_code st (ev_std v TLowerExp (std_flags_of flags None))
  | FUpperExp => std_code st (ev_std v TUpperExp (std_flags_of flags None))
  end.

(** What is to be done for the pieces of a format string, one after the other, in style [S]:
    literal text is one write, a placeholder is one call of its value's formatting code. *)
Inductive calls (S : style) : nat -> list piece -> list (eprog H) -> Prop :=
  | ca_nil n : calls S n [] []
  | ca_lit n s ps parts : calls S n ps parts ->
      calls S n (Lit s :: ps) (write_text S s :: parts)
  | ca_arg n a v ps parts :
      euses n (fa_arg a) v ->
      calls S (match fa_arg a with None => 1 + n | Some _ => n end) ps parts ->
      calls S n (Arg a :: ps)
        (code_of (fs_trait (fa_spec a)) v (override (fs_style (fa_spec a)) S)
           (spelled_flags (fs_args (fa_spec a))) :: parts).

(** Running parts one after the other, each in the state the one before left, until one does not
    return [Ok]. *)
Inductive one_after_another {W} (ws : write_fn W) : list (eprog H) -> W -> H -> W * H * outcome -> Prop :=
  | oa_done w h : one_after_another ws [] w h (w, h, Returned Ok)
  | oa_next p ps w h w1 h1 r : erun ws p w h = (w1, h1, Returned Ok) ->
      one_after_another ws ps w1 h1 r -> one_after_another ws (p :: ps) w h r
  | oa_stop p ps w h w1 h1 o : erun ws p w h = (w1, h1, o) -> o <> Returned Ok ->
      one_after_another ws (p :: ps) w h (w1, h1, o).
End Values.

(** Evaluating expressions one after the other, each exactly once. *)
Inductive eevaluated {H : Type} : list (H -> H * option (evalue H)) -> H -> H -> list (evalue H) -> Prop :=
  | eev_nil h : eevaluated [] h h []
  | eev_cons e es h h1 h2 v vs :
      e h = (h1, Some v) -> eevaluated es h1 h2 vs -> eevaluated (e :: es) h h2 (v :: vs).

(** Code that catches no panics. *)
Inductive uncaught {H : Type} : eprog H -> Prop :=
  | uc_ret r : uncaught (ERet r)
  | uc_abort c : uncaught (EAbort c)
  | uc_get k : (forall h, uncaught (k h)) -> uncaught (EGet k)
  | uc_put h p : uncaught p -> uncaught (EPut h p)
  | uc_emit s st k : (forall r, uncaught (k (Returned r))) -> (forall c, k (Crashed c) = EAbort c) ->
      uncaught (EEmit s st k).

(** A writer whose calls always return. *)
Definition returns {W} (ws : write_fn W) : Prop :=
  forall w s st, exists r, snd (ws w s st) = Returned r.

(** Code and values without side effects, seen as code and values that might have some. *)
Fixpoint pure_code {H} (p : wprog) : eprog H :=
  match p with
  | Ret r => ERet r
  | Abort c => EAbort c
  | Emit s st k => EEmit s st (fun o => match o with Returned r => pure_code (k r) | Crashed c => EAbort c end)
  end.
Fixpoint pure_std {H} (p : sprog) : esprog H :=
  match p with
  | SRet r => ESRet r
  | SAbort c => ESAbort c
  | SEmit s k => ESEmit s (fun o => match o with Returned r => pure_std (k r) | Crashed c => ESAbort c end)
  end.
Definition pure_value {H} (v : value_t) : evalue H :=
  mk_evalue (fun t fl => pure_std (v_std v t fl)) (fun f => pure_code (v_stylish v f)).
Definition pure_result {H} (r : H * option value_t) : H * option (evalue H) :=
  (fst r, option_map pure_value (snd r)).
