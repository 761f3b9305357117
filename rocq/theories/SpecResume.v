(** Specification vocabulary: sessions on an Ansi adaptor in which any call may fail, also
    [write_all] and [write!], which may fail in the middle of their text. *)
From Verif Require Import Base Style Fmt SpecText Io SpecIo SpecSession.

(** * What has arrived of a failed call *)

(** The first so many bytes of styled bytes. *)
Inductive begun : list (bytes * style) -> list (bytes * style) -> Prop :=
  | be_none l : begun [] l
  | be_inside p b st l : is_prefix p b -> begun [(p, st)] ((b, st) :: l)
  | be_more b st p l : begun p l -> begun ((b, st) :: p) ((b, st) :: l).

(** The styled bytes a call is asked to write. *)
Definition asked (c : iocall) : list (bytes * style) :=
  match c with
  | IWrite b st | IAll b st => [(b, st)]
  | IFlush => []
  | IFmt args => map (fun e => (utf8 (fst e), snd e)) (ok_events (args formatter_new))
  end.

(** [arrives e p]: a call with that result may have delivered [p].  A successful one delivers what
    [accepted] says, a failed [write] nothing, a failed [write_all] or [write!] any first part. *)
Definition arrives (e : iocall * io_res nat) (p : list (bytes * style)) : Prop :=
  match e with
  | (c, IoOk n) => p = accepted (c, IoOk n)
  | (IWrite _ _, _) | (IFlush, _) => p = []
  | (c, _) => begun p (asked c)
  end.

(** * What the caller may do after failures *)

(** The styles of a call's text. *)
Definition call_styles (c : iocall) : list style :=
  match c with
  | IWrite _ st => [st]
  | IAll [] _ => []
  | IAll (_ :: _) st => [st]
  | IFlush => []
  | IFmt args => map snd (denote (ok_events (args formatter_new)))
  end.
(** The style of a list of styles that are all the same. *)
Definition sole (l : list style) : option style :=
  match l with
  | st :: r => if forallb (style_eqb st) r then Some st else None
  | [] => None
  end.

(** [last]: the style in which the last successful call ended; [tried]: the styles of the texts of
    the calls that failed since; [retry]: the style of the latest of these, if its text is all in
    one style.  The caller may go on in a style if no call failed, or it is the style of the latest
    failed call, or (if [fresh]) it was not used since, and by, the last successful call. *)
Definition may (fresh : bool) (last : style) (tried : list style) (retry : option style) (st : style) : Prop :=
  tried = [] \/ retry = Some st \/ (fresh = true /\ ~ In st (last :: tried)).

(** A log of calls of which any may fail, until [finish] (a write in the default style). *)
Inductive careful (fresh : bool) : style -> list style -> option style -> list (iocall * io_res nat) -> Prop :=
  | ca_finish last tried retry : may fresh last tried retry style_default -> careful fresh last tried retry []
  | ca_flush last tried retry r l : careful fresh last tried retry l ->
      careful fresh last tried retry ((IFlush, r) :: l)
  | ca_nothing last tried retry c r l : begins c = None -> (forall x, r <> IoCrash x) ->
      careful fresh last tried retry l -> careful fresh last tried retry ((c, r) :: l)
  | ca_success last tried retry c st n l : begins c = Some st -> may fresh last tried retry st ->
      careful fresh (ends c) [] None l -> careful fresh last tried retry ((c, IoOk n) :: l)
  | ca_interrupted last tried retry b st e l : err_kind e = Interrupted -> may fresh last tried retry st ->
      careful fresh st [] None l -> careful fresh last tried retry ((IWrite b st, IoErr e) :: l)
  | ca_failure last tried retry c st e l : begins c = Some st -> may fresh last tried retry st ->
      careful fresh last (call_styles c ++ tried) (sole (call_styles c)) l ->
      careful fresh last tried retry ((c, IoErr e) :: l).

(** * The same for [stylish::Write] *)

(** A failed write! may have delivered the first so many of its writes, the others nothing. *)
Definition warrives (e : wcall * outcome) (h : history) : Prop :=
  match e with
  | (c, Returned Ok) => h = call_text c
  | (CFmt args, _) => is_prefix h (ok_events (args formatter_new))
  | _ => h = []
  end.
Definition wcall_styles (c : wcall) : list style := map snd (denote (call_text c)).
Inductive wcareful : style -> list style -> option style -> list (wcall * outcome) -> Prop :=
  | wc_finish last tried retry : may true last tried retry style_default -> wcareful last tried retry []
  | wc_nothing last tried retry c o l : wbegins c = None ->
      wcareful last tried retry l -> wcareful last tried retry ((c, o) :: l)
  | wc_success last tried retry c st l : wbegins c = Some st -> may true last tried retry st ->
      wcareful (wends c) [] None l -> wcareful last tried retry ((c, Returned Ok) :: l)
  | wc_failure last tried retry c st o l : wbegins c = Some st -> may true last tried retry st ->
      o <> Returned Ok -> wcareful last (wcall_styles c ++ tried) (sole (wcall_styles c)) l ->
      wcareful last tried retry ((c, o) :: l).
