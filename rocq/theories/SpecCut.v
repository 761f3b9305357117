(** Specification vocabulary: sessions on io::Ansi in which characters may be cut, by short writes and
    by failures, and continued by a later call. *)
From Verif Require Import Base Style Fmt SpecText Io SpecIo SpecSession SpecResume.

(** [leaves e p]: a call with that result may have left the styled bytes [p].  As [arrives], except that
    a failed [write] counts as an empty piece in its style (it may have changed the style, so the
    bytes before and after it do not belong together unless they are in that style too). *)
Definition leaves (e : iocall * io_res nat) (p : list (bytes * style)) : Prop :=
  match e with
  | (c, IoOk n) => p = accepted (c, IoOk n)
  | (IWrite _ st, _) => p = [([], st)]
  | (IFlush, _) => p = []
  | (c, _) => begun p (asked c)
  end.

(** A text sent by a caller that offers what is left of it to [write] again and again, whatever that
    returns (a number of bytes, [WouldBlock], [Interrupted], any other error), maybe flushing in between,
    until all of it is accepted; then the next text. *)
Definition try_in (st : style) (e : iocall * io_res nat) : Prop :=
  match e with
  | (IWrite _ st', IoOk _) | (IWrite _ st', IoErr _) => st' = st
  | (IFlush, _) => True
  | _ => False
  end.
Inductive sent : list (iocall * io_res nat) -> history -> Prop :=
  | se_nil : sent [] []
  | se_text tries b n s st l h : Forall (try_in st) tries ->
      concat (map fst (flat_map accepted (tries ++ [(IWrite b st, IoOk n)]))) = utf8 s ->
      sent l h -> sent ((tries ++ [(IWrite b st, IoOk n)]) ++ l) ((s, st) :: h).
