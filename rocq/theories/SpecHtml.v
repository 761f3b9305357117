(** Specification of an HTML viewer: what a reader sees when a text is parsed as an HTML
    fragment.  Written from the HTML tokenizer rules and CSS; knows only span elements with an
    unquoted style attribute, everything else is [Broken].  No reference to the Html adaptor. *)
From Verif Require Import Base Style SpecText.

(** Computed style: color and background color as specified in the text ([None]: those of the
    page), and the font weight (400 is normal). *)
Record css := mk_css { v_color : option str; v_background : option str; v_weight : N }.
Definition css_page : css := mk_css None None 400.

(** CSS Fonts: relative weights. *)
Definition bolder (w : N) : N :=
  if (w <? 350)%N then 400%N else if (w <? 550)%N then 700%N
  else if (w <? 900)%N then 900%N else w.
Definition lighter (w : N) : N :=
  if (w <? 100)%N then w else if (w <? 550)%N then 100%N
  else if (w <? 750)%N then 400%N else 700%N.

(** Splitting at a separator. *)
Fixpoint split_at (sep : char) (s : str) : list str :=
  match s with
  | [] => [[]]
  | c :: r =>
      match split_at sep r with
      | p :: ps => if N.eqb c sep then [] :: p :: ps else (c :: p) :: ps
      | [] => []
      end
  end.

(** One CSS declaration applied to the style being computed; [parent] resolves inherit. *)
Definition apply_decl (parent : css) (acc : option css) (decl : str) : option css :=
  match acc, split_at 58%N decl with
  | Some a, [name; v] =>
      if str_eqb name (lit "color") then
        Some (mk_css (if str_eqb v (lit "inherit") then v_color parent else Some v)
                (v_background a) (v_weight a))
      else if str_eqb name (lit "background-color") then
        Some (mk_css (v_color a)
                (if str_eqb v (lit "inherit") then v_background parent else Some v) (v_weight a))
      else if str_eqb name (lit "font-weight") then
        if str_eqb v (lit "inherit") then
          Some (mk_css (v_color a) (v_background a) (v_weight parent))
        else if str_eqb v (lit "bolder") then
          Some (mk_css (v_color a) (v_background a) (bolder (v_weight parent)))
        else if str_eqb v (lit "lighter") then
          Some (mk_css (v_color a) (v_background a) (lighter (v_weight parent)))
        else None
      else None
  | _, _ => None
  end.

(** Characters that may not occur in an unquoted attribute value (HTML, 13.1.2.3): white space,
    quotes, equals, less-than, greater-than, backquote. *)
Definition ends_unquoted (c : char) : bool :=
  existsb (N.eqb c) [9; 10; 12; 13; 32; 34; 39; 61; 60; 62; 96]%N.

Fixpoint strip_prefix (p s : str) : option str :=
  match p, s with
  | [], _ => Some s
  | x :: p', y :: s' => if N.eqb x y then strip_prefix p' s' else None
  | _ :: _, [] => None
  end.

(** A start tag (the text between the angle brackets): the computed style of the element. *)
Definition open_tag (parent : css) (tag : str) : option css :=
  match strip_prefix (lit "span style=") tag with
  | Some v =>
      if (negb (is_empty v) && forallb (fun c => negb (ends_unquoted c)) v)%bool
      then fold_left (apply_decl parent) (split_at 59%N v) (Some parent)
      else None
  | None => None
  end.

(** The five character references of HTML text produced by escaping. *)
Definition char_reference (name : str) : option char :=
  if str_eqb name (lit "quot") then Some 34%N
  else if str_eqb name (lit "amp") then Some 38%N
  else if str_eqb name (lit "#x27") then Some 39%N
  else if str_eqb name (lit "lt") then Some 60%N
  else if str_eqb name (lit "gt") then Some 62%N
  else None.

Inductive hstate := Data | InTag (acc : str) | InRef (acc : str) | Broken.

(** The viewer: tokenizer state, open elements (innermost first), what has been shown. *)
Record page := mk_page {
  pg_state : hstate;
  pg_open : list css;
  pg_cells : list (char * css)
}.

Definition pg_style (p : page) : css :=
  match pg_open p with x :: _ => x | [] => css_page end.

Definition page_step (p : page) (c : char) : page :=
  match pg_state p with
  | Data =>
      if N.eqb c 60 then mk_page (InTag []) (pg_open p) (pg_cells p)
      else if N.eqb c 38 then mk_page (InRef []) (pg_open p) (pg_cells p)
      else mk_page Data (pg_open p) (pg_cells p ++ [(c, pg_style p)])
  | InTag acc =>
      if N.eqb c 62 then
        if str_eqb acc (lit "/span") then
          match pg_open p with
          | _ :: r => mk_page Data r (pg_cells p)
          | [] => mk_page Broken [] (pg_cells p)
          end
        else
          match open_tag (pg_style p) acc with
          | Some s => mk_page Data (s :: pg_open p) (pg_cells p)
          | None => mk_page Broken (pg_open p) (pg_cells p)
          end
      else mk_page (InTag (acc ++ [c])) (pg_open p) (pg_cells p)
  | InRef acc =>
      if N.eqb c 59 then
        match char_reference acc with
        | Some d => mk_page Data (pg_open p) (pg_cells p ++ [(d, pg_style p)])
        | None => mk_page Broken (pg_open p) (pg_cells p)
        end
      else mk_page (InRef (acc ++ [c])) (pg_open p) (pg_cells p)
  | Broken => p
  end.

Definition page_feed (p : page) (s : str) : page := fold_left page_step s p.
Definition page_new : page := mk_page Data [] [].

(** * How a style should look

    The CSS color for each color, and the weight for each intensity. *)
Definition css_name (c : color) : option str :=
  match c with
  | ColorDefault => None
  | Black => Some (lit "black")
  | Red => Some (lit "red")
  | Green => Some (lit "green")
  | Yellow => Some (lit "yellow")
  | Blue => Some (lit "blue")
  | Magenta => Some (lit "magenta")
  | Cyan => Some (lit "cyan")
  | White => Some (lit "white")
  | BrightBlack => Some (lit "gray")
  | BrightRed => Some (lit "#af0000")
  | BrightGreen => Some (lit "#00ff00")
  | BrightYellow => Some (lit "#ffff00")
  | BrightBlue => Some (lit "#0000ff")
  | BrightMagenta => Some (lit "#ff00ff")
  | BrightCyan => Some (lit "#00ffff")
  | BrightWhite => Some (lit "#ffffff")
  end.
Definition css_weight (i : intensity) : N :=
  match i with Normal => 400 | Bold => 700 | Faint => 100 end%N.
Definition css_look (st : style) : css :=
  mk_css (css_name (foreground st)) (css_name (background st)) (css_weight (intens st)).

(** * CSS colors as RGB values *)
Definition rgb := (N * N * N)%type.
Definition css_keywords : list (str * rgb) :=
  [ (lit "black", (0, 0, 0)); (lit "silver", (192, 192, 192)); (lit "gray", (128, 128, 128));
    (lit "white", (255, 255, 255)); (lit "maroon", (128, 0, 0)); (lit "red", (255, 0, 0));
    (lit "purple", (128, 0, 128)); (lit "fuchsia", (255, 0, 255)); (lit "green", (0, 128, 0));
    (lit "lime", (0, 255, 0)); (lit "olive", (128, 128, 0)); (lit "yellow", (255, 255, 0));
    (lit "navy", (0, 0, 128)); (lit "blue", (0, 0, 255)); (lit "teal", (0, 128, 128));
    (lit "aqua", (0, 255, 255)); (lit "cyan", (0, 255, 255)); (lit "magenta", (255, 0, 255))
  ]%N.
Definition hex_digit (c : char) : option N :=
  if ((48 <=? c) && (c <=? 57))%N then Some (c - 48)%N
  else if ((97 <=? c) && (c <=? 102))%N then Some (c - 87)%N
  else if ((65 <=? c) && (c <=? 70))%N then Some (c - 55)%N
  else None.
Definition hex_pair (a b : char) : option N :=
  match hex_digit a, hex_digit b with
  | Some x, Some y => Some (x * 16 + y)%N
  | _, _ => None
  end.
Definition css_rgb (v : str) : option rgb :=
  match v with
  | [35%N; r1; r2; g1; g2; b1; b2] =>
      match hex_pair r1 r2, hex_pair g1 g2, hex_pair b1 b2 with
      | Some r, Some g, Some b => Some (r, g, b)
      | _, _, _ => None
      end
  | _ => option_map snd (find (fun kv => str_eqb (fst kv) v) css_keywords)
  end.

(** Sum of the channels, as a crude brightness. *)
Definition brightness (x : rgb) : N := let '(r, g, b) := x in (r + g + b)%N.

(** * Reference document

    The fragment one would write by hand: default-styled text as it is, every maximal run of
    other text in one span listing exactly its non-default attributes. *)
Definition escaped_char (c : char) : str :=
  if N.eqb c 34 then lit "&quot;"
  else if N.eqb c 38 then lit "&amp;"
  else if N.eqb c 39 then lit "&#x27;"
  else if N.eqb c 60 then lit "&lt;"
  else if N.eqb c 62 then lit "&gt;"
  else [c].
Definition escaped (s : str) : str := flat_map escaped_char s.

Definition attributes (st : style) : list str :=
  match css_name (foreground st) with Some v => [lit "color:" ++ v] | None => [] end
  ++ match css_name (background st) with Some v => [lit "background-color:" ++ v] | None => [] end
  ++ match intens st with
     | Bold => [lit "font-weight:bolder"]
     | Faint => [lit "font-weight:lighter"]
     | Normal => []
     end.
Fixpoint semicolons (l : list str) : str :=
  match l with
  | [] => []
  | [x] => x
  | x :: r => x ++ lit ";" ++ semicolons r
  end.
Definition start_tag (st : style) : str :=
  lit "<span style=" ++ semicolons (attributes st) ++ lit ">".

Fixpoint reference (l : list (style * str)) : str :=
  match l with
  | [] => []
  | (st, s) :: r =>
      (match attributes st with
       | [] => escaped s
       | _ :: _ => start_tag st ++ escaped s ++ lit "</span>"
       end) ++ reference r
  end.

(** The elements open after text in style [st] (no span around default-styled text). *)
Definition open_elements (st : style) : list css :=
  if style_eqb st style_default then [] else [css_look st].

(** A styled text as it should look on a page. *)
Definition looks (t : stext) : list (char * css) := map (fun cs => (fst cs, css_look (snd cs))) t.

(** Text of an element: no markup characters; ampersands only start known references. *)
Inductive clean_text : str -> Prop :=
  | ct_nil : clean_text []
  | ct_char c s : existsb (N.eqb c) [34; 38; 39; 60; 62]%N = false -> clean_text s ->
                  clean_text (c :: s)
  | ct_ref name c s : char_reference name = Some c -> clean_text s ->
                      clean_text (38%N :: name ++ 59%N :: s).

(** Documents: clean text, and spans with a valid unquoted style attribute and non-empty clean
    text inside. *)
Inductive well_formed : str -> Prop :=
  | wf_nil : well_formed []
  | wf_text s r : clean_text s -> well_formed r -> well_formed (s ++ r)
  | wf_span v s r :
      v <> [] -> forallb (fun c => negb (ends_unquoted c)) v = true ->
      s <> [] -> clean_text s -> well_formed r ->
      well_formed (lit "<span style=" ++ v ++ lit ">" ++ s ++ lit "</span>" ++ r).

(** Neighbouring runs differ in style. *)
Fixpoint alternating (l : list (style * str)) : Prop :=
  match l with
  | (a, _) :: (((b, _) :: _) as r) => a <> b /\ alternating r
  | _ => True
  end.
