(** Specification of the part of std's own formatting machinery that stylish relies on:
    what a [std::fmt] implementation can do, what flags it can see, and how rustc reads the
    format_spec of one placeholder (std::fmt documentation, section Syntax):

      format_spec := [[fill]align][sign]['#']['0'][width]['.' precision]type
      width := count     precision := count | '*'     count := parameter | integer
      type := '' | '?' | 'x?' | 'X?' | identifier

    Only named parameters are needed for counts here (stylish generates width$ and
    precision$); integers and positional parameters are outside this reader and rejected. *)
From Verif Require Import Base Fmt.

(** What the [core::fmt::Formatter] handed to an implementation reports. *)
Record std_flags := mk_sflags {
  sf_fill : char;
  sf_align : option align_t;
  sf_sign : option sign_t;
  sf_alternate : bool;
  sf_zero : bool;
  sf_width : option N;
  sf_precision : option N;
  sf_debug_hex : option debug_hex_t
}.

(** Code of a std formatting implementation: a tree of [write_str] calls on the
    [core::fmt::Formatter], like [wprog] but without styles. *)
Inductive sprog :=
  | SRet (r : fresult)
  | SAbort (c : crash)
  | SEmit (s : str) (k : fresult -> sprog).

(** What [fmt(&self, f)] of one std trait does for one value. *)
Definition std_display := std_flags -> sprog.

(** Which closure the literal selects: [Display::fmt] for an empty type, [Debug::fmt]
    for the question-mark types. *)
Inductive std_kind := KDisplay | KDebug.

(** A format_spec as read from the text: counts are parameter names. *)
Record std_spec := mk_sspec {
  ss_fill : option char;
  ss_align : option align_t;
  ss_sign : option sign_t;
  ss_alternate : bool;
  ss_zero : bool;
  ss_width : option str;
  ss_precision : option str;
  ss_debug_hex : option debug_hex_t;
  ss_kind : std_kind
}.

Definition align_of_char (c : char) : option align_t :=
  if N.eqb c 60 then Some ALeft           (* less-than *)
  else if N.eqb c 94 then Some ACenter    (* caret *)
  else if N.eqb c 62 then Some ARight     (* greater-than *)
  else None.

(** [[fill]align]: a character followed by an alignment is a fill. *)
Definition read_align (s : str) : option char * option align_t * str :=
  match s with
  | c1 :: ((c2 :: r2) as r1) =>
      match align_of_char c2 with
      | Some a => (Some c1, Some a, r2)
      | None =>
          match align_of_char c1 with
          | Some a => (None, Some a, r1)
          | None => (None, None, s)
          end
      end
  | [c1] =>
      match align_of_char c1 with
      | Some a => (None, Some a, [])
      | None => (None, None, s)
      end
  | [] => (None, None, s)
  end.

Definition read_sign (s : str) : option sign_t * str :=
  match s with
  | c :: r => if N.eqb c 43 then (Some SPlus, r)
              else if N.eqb c 45 then (Some SMinus, r) else (None, s)
  | [] => (None, s)
  end.

Definition read_flag (ch : char) (s : str) : bool * str :=
  match s with
  | c :: r => if N.eqb c ch then (true, r) else (false, s)
  | [] => (false, s)
  end.

(** The '0' flag: not a flag when followed by a dollar sign (then it is a parameter). *)
Definition read_zero (s : str) : bool * str :=
  match s with
  | c :: r =>
      if N.eqb c 48 then
        match r with
        | d :: _ => if N.eqb d 36 then (false, s) else (true, r)
        | [] => (true, r)
        end
      else (false, s)
  | [] => (false, s)
  end.

(** ASCII identifier characters (all stylish needs). *)
Definition ascii_alpha (c : char) : bool :=
  ((65 <=? c) && (c <=? 90) || (97 <=? c) && (c <=? 122) || (c =? 95))%N.

Fixpoint span_ident (s : str) : str * str :=
  match s with
  | c :: r => if ascii_alpha c then let (a, b) := span_ident r in (c :: a, b) else ([], s)
  | [] => ([], [])
  end.

(** A named-parameter count, [identifier '$']. *)
Definition read_count (s : str) : option str * str :=
  match span_ident s with
  | ([], _) => (None, s)
  | (name, c :: r) => if N.eqb c 36 then (Some name, r) else (None, s)
  | (_, []) => (None, s)
  end.

Definition read_type (s : str) : option (option debug_hex_t * std_kind) :=
  if str_eqb s (lit "") then Some (None, KDisplay)
  else if str_eqb s (lit "?") then Some (None, KDebug)
  else if str_eqb s (lit "x?") then Some (Some HexLower, KDebug)
  else if str_eqb s (lit "X?") then Some (Some HexUpper, KDebug)
  else None.

Definition read_spec (s : str) : option std_spec :=
  let '(fill, al, s) := read_align s in
  let (sg, s) := read_sign s in
  let (alt, s) := read_flag 35%N s in
  let (zero, s) := read_zero s in
  let (w, s) := read_count s in
  let (dot, s') := read_flag 46%N s in
  let r := if dot then
             match read_count s' with
             | (Some p, s'') => Some (Some p, s'')
             | (None, _) => None
             end
           else Some (None, s) in
  match r with
  | None => None
  | Some (p, s) =>
      match read_type s with
      | Some (hex, kind) => Some (mk_sspec fill al sg alt zero w p hex kind)
      | None => None
      end
  end.

(** A whole literal consisting of one placeholder: brace, colon, spec, brace. *)
Definition read_placeholder (s : str) : option std_spec :=
  match s with
  | 123%N :: 58%N :: r =>
      match rev r with
      | 125%N :: m => read_spec (rev m)
      | _ => None
      end
  | _ => None
  end.

(** Looking up a named format argument. *)
Fixpoint named_lookup (env : list (str * N)) (name : str) : option N :=
  match env with
  | [] => None
  | (n, v) :: r => if str_eqb n name then Some v else named_lookup r name
  end.

Definition resolve_count (env : list (str * N)) (c : option str) : option (option N) :=
  match c with
  | None => Some None
  | Some name =>
      match named_lookup env name with Some v => Some (Some v) | None => None end
  end.

(** Is every named argument used by the spec (rustc rejects unused ones). *)
Definition named_used (sp : std_spec) (env : list (str * N)) : bool :=
  forallb (fun nv =>
    match ss_width sp with Some n => str_eqb n (fst nv) | None => false end
    || match ss_precision sp with Some n => str_eqb n (fst nv) | None => false end) env.

(** [core::write!(dst, literal, value, named..)] for a literal with one placeholder: the
    kind of trait used and the flags the implementation sees; [None] when rustc rejects the
    call.  The default fill is a space. *)
Definition std_write_call (literal : str) (env : list (str * N))
  : option (std_kind * std_flags) :=
  match read_placeholder literal with
  | None => None
  | Some sp =>
      match resolve_count env (ss_width sp), resolve_count env (ss_precision sp) with
      | Some w, Some p =>
          if named_used sp env then
            Some (ss_kind sp,
                  mk_sflags (match ss_fill sp with Some c => c | None => 32%N end)
                    (ss_align sp) (ss_sign sp) (ss_alternate sp) (ss_zero sp) w p
                    (ss_debug_hex sp))
          else None
      | _, _ => None
      end
  end.

(** Running a std implementation against a writer that only sees text. *)
Fixpoint std_run {W} (ws : W -> str -> W * outcome) (p : sprog) (w : W) : W * outcome :=
  match p with
  | SRet r => (w, Returned r)
  | SAbort c => (w, Crashed c)
  | SEmit s k =>
      match ws w s with
      | (w', Returned r) => std_run ws (k r) w'
      | (w', Crashed c) => (w', Crashed c)
      end
  end.

(** The strings it writes, and how it ends, when every write succeeds. *)
Fixpoint std_events (p : sprog) : list str :=
  match p with
  | SRet _ | SAbort _ => []
  | SEmit s k => s :: std_events (k Ok)
  end.
Fixpoint std_outcome (p : sprog) : outcome :=
  match p with
  | SRet r => Returned r
  | SAbort c => Crashed c
  | SEmit _ k => std_outcome (k Ok)
  end.

(** A std implementation that returns at the first error. *)
Fixpoint std_propagates (p : sprog) : Prop :=
  match p with
  | SRet _ | SAbort _ => True
  | SEmit _ k => k Err = SRet Err /\ std_propagates (k Ok)
  end.

(** The flags of a stylish placeholder as std reports them: same values, fill a space. *)
Definition std_flags_of (a : formatter_args) (hex : option debug_hex_t) : std_flags :=
  mk_sflags 32%N (fa_align a) (fa_sign a) (fa_alternate a) (fa_zero a) (fa_width a)
    (fa_precision a) hex.
