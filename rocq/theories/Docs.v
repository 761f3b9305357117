(** Model of documents: user types that implement stylish::Display in the ways the documentation
    shows (core/src/display.rs:5-32, core/src/formatter.rs:60-173, README.md), with
    fields that are such types again, to any depth. *)
From Verif Require Import Base Style Fmt SpecStd StdCompat SString Nom Parse Codegen.

(** An argument of [Formatter::with] (core/src/formatter.rs:96-102). *)
Inductive attr :=
  | AForeground (c : color)
  | ABackground (c : color)
  | AIntensity (i : intensity)
  | ADiff (d : style_diff)
  | AStyle (s : style).
Definition with_attr (f : formatter) (a : attr) : formatter :=
  match a with
  | AForeground c => formatter_with Restyle_Foreground f (Foreground c)
  | ABackground c => formatter_with Restyle_Background f (Background c)
  | AIntensity i => formatter_with Restyle_Intensity f i
  | ADiff d => formatter_with Restyle_StyleDiff f d
  | AStyle s => formatter_with Restyle_Style f s
  end.

Inductive doc :=
  (* a value with std's traits, without stylish::Display *)
  | Std (v : std_trait -> std_display)
  (* f.write_str(s) *)
  | Text (s : str)
  (* a stylish::String to which these texts have been written *)
  | Stored (h : list (str * style))
  (* for x in &self.items { x.fmt(f)? } Ok(()) *)
  | Items (l : list doc)
  (* self.inner.fmt(&mut f.with(a)) *)
  | Styled (a : attr) (d : doc)
  (* f.write_fmt(format_args!(fmt, self.0, .., name = self.x, ..)) with some fields bound to
     local variables, which format strings can capture *)
  | Written (fmt : str) (pos : list doc) (named : list (str * doc)) (locals : list (str * doc)).

(** A later [let] hides an earlier one. *)
Fixpoint local_value (l : list (str * value_t)) (n : str) : option value_t :=
  match l with
  | [] => None
  | (m, v) :: r =>
      match local_value r n with
      | Some x => Some x
      | None => if str_eqb m n then Some v else None
      end
  end.
(** What does not compile (a missing trait, an unknown variable, a rejected macro call) fails
    here, so that only statements about documents that are displayed successfully say anything
    about such documents. *)
Definition no_std : std_trait -> std_display := fun _ _ => SRet Err.
Definition no_value : value_t := mk_value no_std (fun _ => Ret Err).
Definition scope_of (l : list (str * value_t)) (n : str) : value_t :=
  match local_value l n with Some v => v | None => no_value end.

Section Xid.
Variables xid_start xid_continue : char -> bool.

(** The type's std implementations. *)
Definition doc_std (d : doc) : std_trait -> std_display :=
  match d with Std v => v | _ => no_std end.

(** The type's [Display::fmt]. *)
Fixpoint doc_display (d : doc) : display :=
  match d with
  | Std _ => fun _ => Ret Err
  | Text s => fun f => formatter_write_str f s
  | Stored h => Display_sstring (fold_left (fun w e => fst (sstring_write_str w (fst e) (snd e))) h sstring_new)
  | Items l => fun f => fold_right (fun x rest => try_ (doc_display x f) rest) (Ret Ok) l
  | Styled a x => fun f => doc_display x (with_attr f a)
  | Written fmt pos named locals => fun f =>
      let value x := mk_value (doc_std x) (doc_display x) in
      let scope := scope_of (map (fun nx => (fst nx, value (snd nx))) locals) in
      let field x : expr unit := fun h => (h, Some (value x)) in
      match format_args_impl xid_start xid_continue fmt (map (fun x => field x) pos)
              (map (fun nx => (fst nx, field (snd nx))) named) with
      | Expanded c =>
          match eval_code scope c tt with
          | (_, Some args) => formatter_write_fmt f args
          | (_, None) => Ret Err
          end
      | CompileError => Ret Err
      end
  end.
(** The type as an argument of a macro. *)
Definition doc_value (d : doc) : value_t := mk_value (doc_std d) (doc_display d).
End Xid.
