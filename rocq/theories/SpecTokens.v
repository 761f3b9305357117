(** Specification of an HTML tokenizer with tags and attributes, from the HTML standard (13.2.5):
    data, tags, attributes (unquoted and quoted values), and the five character references that
    escaping produces.  What it does not describe (comments, declarations, other references) leads to
    the state [Undescribed] for good.  It does not switch to raw text, as no tag named span makes it.
    No reference to the Html adaptor. *)
From Verif Require Import Base Style SpecText SpecHtml.

Definition attr := (str * str)%type.
Inductive token :=
  | CharTok (c : char)
  | StartTok (name : str) (attrs : list attr)
  | EndTok (name : str).

(** The tag being read. *)
Record tag := mk_tag { tg_end : bool; tg_name : str; tg_attrs : list attr }.
Inductive tstate :=
  | DataState
  | TagOpen
  | EndTagOpen
  | TagName (t : tag)
  | BeforeAttrName (t : tag)
  | AttrName (t : tag) (name : str)
  | AfterAttrName (t : tag) (name : str)
  | BeforeAttrValue (t : tag) (name : str)
  | AttrValue (quote : option char) (t : tag) (name value : str)
  | AfterQuoted (t : tag)
  | SelfClosing (t : tag)
  | Reference (back : option (option char * tag * str * str)) (acc : str)
  | Undescribed.
Record tokenizer := mk_tok { tk_state : tstate; tk_out : list token }.
Definition tokenizer_new : tokenizer := mk_tok DataState [].

Definition is_white (c : char) : bool := existsb (N.eqb c) [9; 10; 12; 32]%N.
Definition is_upper (c : char) : bool := ((65 <=? c) && (c <=? 90))%N.
Definition is_alpha (c : char) : bool := (is_upper c || ((97 <=? c) && (c <=? 122))%N)%bool.
Definition lower (c : char) : char := if is_upper c then (c + 32)%N else c.

(** A second attribute of a name is dropped. *)
Definition add_attr (t : tag) (name value : str) : tag :=
  if existsb (fun a => str_eqb (fst a) name) (tg_attrs t) then t
  else mk_tag (tg_end t) (tg_name t) (tg_attrs t ++ [(name, value)]).
Definition emit_tag (out : list token) (t : tag) : tokenizer :=
  mk_tok DataState (out ++ [if tg_end t then EndTok (tg_name t) else StartTok (tg_name t) (tg_attrs t)]).

(** The references, by what follows the ampersand. *)
Definition references : list (str * char) :=
  [ (lit "quot;", 34%N); (lit "amp;", 38%N); (lit "#x27;", 39%N); (lit "lt;", 60%N); (lit "gt;", 62%N) ].
Definition reference_named (acc : str) : option char :=
  option_map snd (find (fun r => str_eqb (fst r) acc) references).
Fixpoint begins_with (p s : str) : bool :=
  match p, s with
  | [], _ => true
  | x :: p', y :: s' => (N.eqb x y && begins_with p' s')%bool
  | _ :: _, [] => false
  end.
Definition reference_begun (acc : str) : bool := existsb (fun r => begins_with acc (fst r)) references.

(** The attribute name state (where other states reconsume a character). *)
Definition attr_name_step (t : tag) (name : str) (out : list token) (c : char) : tokenizer :=
  if is_white c then mk_tok (AfterAttrName t name) out
  else if N.eqb c 47 then mk_tok (SelfClosing (add_attr t name [])) out
  else if N.eqb c 62 then emit_tag out (add_attr t name [])
  else if N.eqb c 61 then mk_tok (BeforeAttrValue t name) out
  else mk_tok (AttrName t (name ++ [lower c])) out.
Definition before_attr_name_step (t : tag) (out : list token) (c : char) : tokenizer :=
  if is_white c then mk_tok (BeforeAttrName t) out
  else if N.eqb c 47 then mk_tok (SelfClosing t) out
  else if N.eqb c 62 then emit_tag out t
  else if N.eqb c 61 then mk_tok (AttrName t [c]) out
  else attr_name_step t [] out c.
Definition value_step (quote : option char) (t : tag) (name value : str) (out : list token) (c : char) : tokenizer :=
  match quote with
  | None =>
      if is_white c then mk_tok (BeforeAttrName (add_attr t name value)) out
      else if N.eqb c 38 then mk_tok (Reference (Some (quote, t, name, value)) []) out
      else if N.eqb c 62 then emit_tag out (add_attr t name value)
      else mk_tok (AttrValue quote t name (value ++ [c])) out
  | Some q =>
      if N.eqb c q then mk_tok (AfterQuoted (add_attr t name value)) out
      else if N.eqb c 38 then mk_tok (Reference (Some (quote, t, name, value)) []) out
      else mk_tok (AttrValue quote t name (value ++ [c])) out
  end.
Definition data_step (out : list token) (c : char) : tokenizer :=
  if N.eqb c 38 then mk_tok (Reference None []) out
  else if N.eqb c 60 then mk_tok TagOpen out
  else mk_tok DataState (out ++ [CharTok c]).

Definition token_step (k : tokenizer) (c : char) : tokenizer :=
  let out := tk_out k in
  match tk_state k with
  | DataState => data_step out c
  | TagOpen =>
      if N.eqb c 33 || N.eqb c 63 then mk_tok Undescribed out
      else if N.eqb c 47 then mk_tok EndTagOpen out
      else if is_alpha c then mk_tok (TagName (mk_tag false [lower c] [])) out
      else data_step (out ++ [CharTok 60%N]) c
  | EndTagOpen =>
      if is_alpha c then mk_tok (TagName (mk_tag true [lower c] [])) out
      else if N.eqb c 62 then mk_tok DataState out
      else mk_tok Undescribed out
  | TagName t =>
      if is_white c then mk_tok (BeforeAttrName t) out
      else if N.eqb c 47 then mk_tok (SelfClosing t) out
      else if N.eqb c 62 then emit_tag out t
      else mk_tok (TagName (mk_tag (tg_end t) (tg_name t ++ [lower c]) (tg_attrs t))) out
  | BeforeAttrName t => before_attr_name_step t out c
  | AttrName t name => attr_name_step t name out c
  | AfterAttrName t name =>
      if is_white c then k
      else if N.eqb c 47 then mk_tok (SelfClosing (add_attr t name [])) out
      else if N.eqb c 61 then mk_tok (BeforeAttrValue t name) out
      else if N.eqb c 62 then emit_tag out (add_attr t name [])
      else attr_name_step (add_attr t name []) [] out c
  | BeforeAttrValue t name =>
      if is_white c then k
      else if N.eqb c 34 || N.eqb c 39 then mk_tok (AttrValue (Some c) t name []) out
      else if N.eqb c 62 then emit_tag out (add_attr t name [])
      else value_step None t name [] out c
  | AttrValue quote t name value => value_step quote t name value out c
  | AfterQuoted t =>
      if is_white c then mk_tok (BeforeAttrName t) out
      else if N.eqb c 47 then mk_tok (SelfClosing t) out
      else if N.eqb c 62 then emit_tag out t
      else before_attr_name_step t out c
  | SelfClosing t =>
      if N.eqb c 62 then emit_tag out t else before_attr_name_step t out c
  | Reference back acc =>
      match reference_named (acc ++ [c]) with
      | Some d =>
          match back with
          | None => mk_tok DataState (out ++ [CharTok d])
          | Some (quote, t, name, value) => mk_tok (AttrValue quote t name (value ++ [d])) out
          end
      | None =>
          if reference_begun (acc ++ [c]) then mk_tok (Reference back (acc ++ [c])) out
          else mk_tok Undescribed out
      end
  | Undescribed => k
  end.
Definition tokenize (k : tokenizer) (s : str) : tokenizer := fold_left token_step s k.

(** The characters of the text between the tags. *)
Definition token_chars (out : list token) : str :=
  flat_map (fun t => match t with CharTok c => [c] | _ => [] end) out.

(** The tokens of a document that shows runs of styled text. *)
Definition run_tokens (run : style * str) : list token :=
  if style_eqb (fst run) style_default then map CharTok (snd run)
  else StartTok (lit "span") [(lit "style", semicolons (attributes (fst run)))] :: map CharTok (snd run) ++ [EndTok (lit "span")].

(** A token that data cannot do harm with: a character, or a start or end tag of a span whose only
    attribute is that of a style. *)
Definition harmless (t : token) : Prop :=
  match t with
  | CharTok _ => True
  | EndTok name => name = lit "span"
  | StartTok name attrs =>
      name = lit "span" /\ exists st, st <> style_default /\ attrs = [(lit "style", semicolons (attributes st))]
  end.

(** Texts usable as the name and the value of an injected attribute. *)
Definition plain_name (n : str) : Prop :=
  n <> [] /\ Forall (fun c => (97 <=? c)%N = true /\ (c <=? 122)%N = true) n.
Definition no_white (v : str) : Prop := Forall (fun c => is_white c = false) v.
(** The harmless looking text that injects them. *)
Definition injecting (n v : str) : str := lit "x " ++ n ++ lit "=" ++ v ++ lit " ".
