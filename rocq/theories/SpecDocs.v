(** Specification: what a document shows: its characters from left to right, each with the
    attributes set around it. *)
From Verif Require Import Base Style Fmt SpecStd Parse Codegen SpecText SpecGrammar SpecMeaning Docs.

(** A character and the settings around it, innermost first. *)
Definition placed := (char * list style_diff)%type.
Definition place (around : list style_diff) (s : str) : list placed := map (fun c => (c, around)) s.

(** What [Formatter::with] sets. *)
Definition all_of (s : style) : style_diff := mk_diff (Some (foreground s)) (Some (background s)) (Some (intens s)).
Definition sets (a : attr) : style_diff :=
  match a with
  | AForeground c => mk_diff (Some c) None None
  | ABackground c => mk_diff None (Some c) None
  | AIntensity i => mk_diff None None (Some i)
  | ADiff d => d
  | AStyle s => all_of s
  end.

(** The innermost setting counts. *)
Fixpoint innermost {A} (settings : list (option A)) (outside : A) : A :=
  match settings with
  | [] => outside
  | Some x :: _ => x
  | None :: r => innermost r outside
  end.
Definition look (outside : style) (around : list style_diff) : style :=
  mk_style (innermost (map d_foreground around) (foreground outside))
    (innermost (map d_background around) (background outside))
    (innermost (map d_intensity around) (intens outside)).
Definition looks (outside : style) (t : list placed) : stext := map (fun c => (fst c, look outside (snd c))) t.

(** The std trait a placeholder selects, and the hexadecimal mode it gets. *)
Definition std_side (t : format_trait) (flags : formatter_args) : option (std_trait * option debug_hex_t) :=
  match t with
  | FStylish => None
  | FDebug => Some (TDebug, fa_debug_hex flags)
  | FDisplay => Some (TDisplay, None)
  | FOctal => Some (TOctal, None)
  | FLowerHex => Some (TLowerHex, None)
  | FUpperHex => Some (TUpperHex, None)
  | FPointer => Some (TPointer, None)
  | FBinary => Some (TBinary, None)
  | FLowerExp => Some (TLowerExp, None)
  | FUpperExp => Some (TUpperExp, None)
  end.

(** The field a placeholder asks for; [n] placeholders without explicit argument went before. *)
Section Fields.
Variables (pos : list doc) (named locals : list (str * doc)).
Definition last_bound (l : list (str * doc)) (name : str) (d : doc) : Prop :=
  exists before after, l = before ++ (name, d) :: after /\ ~ In name (map fst after).
Inductive field (n : nat) : option arg_ref -> doc -> Prop :=
  | field_next d : nth_error pos n = Some d -> field n None d
  | field_index i d : nth_error pos (N.to_nat i) = Some d -> field n (Some (Positional i)) d
  | field_named name d : last_bound named name d -> field n (Some (Named name)) d
  | field_local name d : ~ In name (map fst named) -> last_bound locals name d -> field n (Some (Named name)) d.
End Fields.

Section Xid.
Variables xid_start xid_continue : char -> bool.

(** [drawn d around t]: within the settings [around], document [d] is displayed as [t]. *)
Inductive drawn : doc -> list style_diff -> list placed -> Prop :=
  | drawn_text s around : drawn (Text s) around (place around s)
  | drawn_stored h around :
      drawn (Stored h) around (flat_map (fun e => place (all_of (snd e) :: around) (fst e)) h)
  | drawn_items l around t : drawn_all l around t -> drawn (Items l) around t
  | drawn_styled a d around t : drawn d (sets a :: around) t -> drawn (Styled a d) around t
  | drawn_written fmt pos named locals ps around t :
      format_string xid_start xid_continue ps fmt -> accepted ps (length pos) (map fst named) ->
      drawn_pieces pos named locals 0 ps around t ->
      drawn (Written fmt pos named locals) around t
with drawn_all : list doc -> list style_diff -> list placed -> Prop :=
  | all_nil around : drawn_all [] around []
  | all_cons d l around t u : drawn d around t -> drawn_all l around u -> drawn_all (d :: l) around (t ++ u)
with drawn_pieces : list doc -> list (str * doc) -> list (str * doc) -> nat -> list piece ->
  list style_diff -> list placed -> Prop :=
  | pieces_nil pos named locals n around : drawn_pieces pos named locals n [] around []
  | pieces_lit pos named locals n s ps around t :
      drawn_pieces pos named locals n ps around t ->
      drawn_pieces pos named locals n (Lit s :: ps) around (place around s ++ t)
  | pieces_std pos named locals n a v tr hex ps around t :
      field pos named locals n (fa_arg a) (Std v) ->
      std_side (fs_trait (fa_spec a)) (spelled_flags (fs_args (fa_spec a))) = Some (tr, hex) ->
      let code := v tr (std_flags_of (spelled_flags (fs_args (fa_spec a))) hex) in
      std_outcome code = Returned Ok ->
      drawn_pieces pos named locals (match fa_arg a with None => 1 + n | Some _ => n end) ps around t ->
      drawn_pieces pos named locals n (Arg a :: ps) around
        (place (fs_style (fa_spec a) :: around) (concat (std_events code)) ++ t)
  | pieces_doc pos named locals n a d ps around t u :
      field pos named locals n (fa_arg a) d -> fs_trait (fa_spec a) = FStylish ->
      drawn d (fs_style (fa_spec a) :: around) t ->
      drawn_pieces pos named locals (match fa_arg a with None => 1 + n | Some _ => n end) ps around u ->
      drawn_pieces pos named locals n (Arg a :: ps) around (t ++ u).
End Xid.
