(** Specification: formatting code that may run forever. *)
From Verif Require Import Base Style Fmt SpecStd Parse Codegen SpecText SpecMeaning Endless.

Section Values.
Context {H : Type}.
Variables (pos : list (lvalue H)) (named : list (str * lvalue H)) (scope : str -> lvalue H).

(** Which value a placeholder uses, as [uses] in [SpecMeaning]. *)
Inductive luses (n : nat) : option arg_ref -> lvalue H -> Prop :=
  | lu_bare v : nth_error pos n = Some v -> luses n None v
  | lu_index i v : nth_error pos (N.to_nat i) = Some v -> luses n (Some (Positional i)) v
  | lu_named name v before after : named = before ++ (name, v) :: after ->
      ~ In name (map fst after) -> luses n (Some (Named name)) v
  | lu_captured name : ~ In name (map fst named) -> luses n (Some (Named name)) (scope name).

(** A write of some text. *)
Definition lwrite_text (st : style) (s : str) : lprog H :=
  LEmit s st (fun o => match o with Returned r => LRet r | Crashed c => LAbort c end).

(** std code run for a formatter: it sees the flags, and what it writes is written in the
    formatter's style. *)
CoFixpoint lstd_code (st : style) (p : lsprog H) : lprog H :=
  match p with
  | LSRet r => LRet r
  | LSAbort c => LAbort c
  | LSGet k => LGet (fun h => lstd_code st (k h))
  | LSPut h p' => LPut h (lstd_code st p')
  | LSEmit s k => LEmit s st (fun o => lstd_code st (k o))
  end.

(** The code of the trait that a placeholder selects. *)
Definition lcode_of (t : format_trait) (v : lvalue H) (st : style) (flags : formatter_args) : lprog H :=
  match t with
  | FStylish => lv_stylish v (mk_formatter st flags)
  | FDebug => lstd_code st (lv_std v TDebug (std_flags_of flags (fa_debug_hex flags)))
  | FDisplay => lstd_code st (lv_std v TDisplay (std_flags_of flags None))
  | FOctal => lstd_code st (lv_std v TOctal (std_flags_of flags None))
  | FLowerHex => lstd_code st (lv_std v TLowerHex (std_flags_of flags None))
  | FUpperHex => lstd_code st (lv_std v TUpperHex (std_flags_of flags None))
  | FPointer => lstd_code st (lv_std v TPointer (std_flags_of flags None))
  | FBinary => lstd_code st (lv_std v TBinary (std_flags_of flags None))
  | FLowerExp => lstd_code st (lv_std v TLowerExp (std_flags_of flags None))
  | FUpperExp => lstd_code st (lv_std v TUpperExp (std_flags_of flags None))
  end.

(** What is to be done for the pieces of a format string, one after the other, in style [S]. *)
Inductive lcalls (S : style) : nat -> list piece -> list (lprog H) -> Prop :=
  | lc_nil n : lcalls S n [] []
  | lc_lit n s ps parts : lcalls S n ps parts ->
      lcalls S n (Lit s :: ps) (lwrite_text S s :: parts)
  | lc_arg n a v ps parts :
      luses n (fa_arg a) v ->
      lcalls S (match fa_arg a with None => 1 + n | Some _ => n end) ps parts ->
      lcalls S n (Arg a :: ps)
        (lcode_of (fs_trait (fa_spec a)) v (override (fs_style (fa_spec a)) S)
           (spelled_flags (fs_args (fa_spec a))) :: parts).
End Values.

(** Evaluating expressions one after the other, each exactly once. *)
Inductive levaluated {H : Type} : list (H -> H * option (lvalue H)) -> H -> H -> list (lvalue H) -> Prop :=
  | lev_nil h : levaluated [] h h []
  | lev_cons e es h h1 h2 v vs :
      e h = (h1, Some v) -> levaluated es h1 h2 vs -> levaluated (e :: es) h h2 (v :: vs).

(** [progress ws parts w h o w' h']: parts are being run one after the other, each from where the
    one before ended, as long as they return [Ok]; at some moment the writer is [w'], the state is
    [h'], and the run has ended with [o], or goes on ([o] is [None]). *)
Inductive progress {H W : Type} (ws : write_fn W) : list (lprog H) -> W -> H -> option outcome -> W -> H -> Prop :=
  | pr_done w h : progress ws [] w h (Some (Returned Ok)) w h
  | pr_within p parts w h q w' h' : leads ws p w h q w' h' -> ended q <> Some (Returned Ok) ->
      progress ws (p :: parts) w h (ended q) w' h'
  | pr_next p parts w h w1 h1 o w' h' : leads ws p w h (LRet Ok) w1 h1 ->
      progress ws parts w1 h1 o w' h' -> progress ws (p :: parts) w h o w' h'.

(** Code that does not end, run from there on that writer. *)
Definition endless {H W} (ws : write_fn W) (p : lprog H) (w : W) (h : H) : Prop :=
  forall q w' h', leads ws p w h q w' h' -> ended q = None.

(** A writer that accepts everything and remembers the writes it got. *)
Definition record : write_fn history := fun w s st => (w ++ [(s, st)], Returned Ok).
(** [so_far p h writes q h']: at some moment of running [p] from state [h], all writes being
    accepted, it has made these writes, [q] is still to be run and the state is [h']. *)
Definition so_far {H} (p : lprog H) (h : H) (writes : history) (q : lprog H) (h' : H) : Prop :=
  leads record p [] h q writes h'.

(** * Code that keeps writing, and stops when it cannot *)

(** Sooner or later it ends or writes something not empty, whatever happens; then it is as [P]
    says. *)
Inductive soon {H} (P : lprog H -> Prop) : lprog H -> Prop :=
  | so_ret r : soon P (LRet r)
  | so_abort c : soon P (LAbort c)
  | so_get k : (forall h, soon P (k h)) -> soon P (LGet k)
  | so_put h p : soon P p -> soon P (LPut h p)
  | so_empty st k : (forall o, soon P (k o)) -> soon P (LEmit [] st k)
  | so_write s st k : s <> [] -> (forall o, P (k o)) -> soon P (LEmit s st k).
(** Code that never stops writing for good without ending. *)
CoInductive productive {H} (p : lprog H) : Prop :=
  | keeps_writing : soon productive p -> productive p.

(** After a failed write the code ends with [Err], without any more writes. *)
Inductive gives_up {H} : lprog H -> Prop :=
  | gu_err : gives_up (LRet Err)
  | gu_get k : (forall h, gives_up (k h)) -> gives_up (LGet k)
  | gu_put h p : gives_up p -> gives_up (LPut h p).
CoInductive lpropagates {H} : lprog H -> Prop :=
  | lp_ret r : lpropagates (LRet r)
  | lp_abort c : lpropagates (LAbort c)
  | lp_get k : (forall h, lpropagates (k h)) -> lpropagates (LGet k)
  | lp_put h p : lpropagates p -> lpropagates (LPut h p)
  | lp_emit s st k : gives_up (k (Returned Err)) -> lpropagates (k (Returned Ok)) -> lpropagates (LEmit s st k).

(** A writer with limited room: every write returns, and one that writes something leaves less
    room than before. *)
Record limited {W} (ws : write_fn W) (room : W -> nat) : Prop := mk_limited {
  li_returns : forall w s st, exists r, snd (ws w s st) = Returned r;
  li_less : forall w s st w', ws w s st = (w', Returned Ok) -> s <> [] -> room w' < room w;
  li_same : forall w s st w', ws w s st = (w', Returned Ok) -> room w' <= room w
}.
(** The same for what is behind an adaptor. *)
Record limited_sink {S} (sink : fmt_sink S) (room : S -> nat) : Prop := mk_limited_sink {
  ls_returns : forall i s, exists r, snd (sink i s) = Returned r;
  ls_less : forall i s i', sink i s = (i', Returned Ok) -> s <> [] -> room i' < room i;
  ls_same : forall i s i', sink i s = (i', Returned Ok) -> room i' <= room i
}.
