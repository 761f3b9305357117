(** Cargo features: the manifests of the seven crates, how Cargo resolves them, and the items of the
    crates with the [cfg] they carry and the items they mention.
    Simplifications: versions, dev-dependencies, [cfg(doc)] items and the [stylish_proc_macro_expand] flag
    (which only chooses between two definitions of the same macro) are left out. *)
From Verif Require Import Base.
From Coq Require Import List String Bool.
Import ListNotations.
Open Scope string_scope.

(** The crates of the repository, and the two third-party crates its target code links. *)
Inductive krate := Stylish | Core | StyleK | MacrosK | AnsiK | HtmlK | PlainK | WithBuiltin | Askama.
Inductive feature := Fdefault | Fstd | Falloc | Fmacros | Fansi | Fhtml | Fplain | Ftests.

(** An entry of a feature's list: ["f"], ["dep:d"], ["d/f"], ["d?/f"]. *)
Inductive value :=
  | VFeature (f : feature)
  | VDep (d : krate)
  | VDepFeature (d : krate) (f : feature)
  | VWeak (d : krate) (f : feature).
(** An entry of [dependencies]: [optional], [default-features], [features]. *)
Record dependency := mk_dep { d_name : krate; d_optional : bool; d_default : bool; d_features : list feature }.
Record manifest := mk_manifest {
  m_features : list (feature * list value);
  m_deps : list dependency;
  m_proc_macro : bool }.

(** Cargo.toml:10-53. *)
Definition m_stylish := mk_manifest
  [ (Fdefault, [VFeature Fstd; VFeature Fmacros]);
    (Fstd, [VFeature Falloc; VDepFeature Core Fstd; VWeak AnsiK Fstd; VWeak HtmlK Fstd; VWeak PlainK Fstd]);
    (Falloc, [VDepFeature Core Falloc; VWeak AnsiK Falloc; VWeak HtmlK Falloc; VWeak PlainK Falloc]);
    (Fmacros, [VDepFeature Core Fmacros; VWeak AnsiK Fmacros; VWeak HtmlK Fmacros; VWeak PlainK Fmacros;
               VDep MacrosK]);
    (Fansi, [VDep AnsiK]); (Fhtml, [VDep HtmlK]); (Fplain, [VDep PlainK]); (Ftests, []) ]
  [ mk_dep AnsiK true false []; mk_dep Core false false []; mk_dep HtmlK true false [];
    mk_dep MacrosK true false []; mk_dep PlainK true false [] ]
  false.
(** core/Cargo.toml:10-26. *)
Definition m_core := mk_manifest
  [ (Fdefault, [VFeature Fstd]); (Fstd, [VFeature Falloc]); (Falloc, []);
    (Fmacros, [VDep WithBuiltin; VDep MacrosK]) ]
  [ mk_dep WithBuiltin true false []; mk_dep MacrosK true false []; mk_dep StyleK false false [] ]
  false.
(** ansi/Cargo.toml:10-19. *)
Definition m_ansi := mk_manifest
  [ (Fdefault, [VFeature Fstd]); (Fstd, [VFeature Falloc; VDepFeature Core Fstd]);
    (Falloc, [VDepFeature Core Falloc]); (Fmacros, [VDepFeature Core Fmacros]) ]
  [ mk_dep Core false false [] ]
  false.
(** html/Cargo.toml:10-21. *)
Definition m_html := mk_manifest
  [ (Fdefault, [VFeature Fstd]); (Fstd, [VFeature Falloc; VDepFeature Core Fstd]);
    (Falloc, [VDepFeature Core Falloc]); (Fmacros, [VDepFeature Core Fmacros]) ]
  [ mk_dep Askama false false []; mk_dep Core false false [] ]
  false.
(** plain/Cargo.toml:10-20. *)
Definition m_plain := mk_manifest
  [ (Fdefault, [VFeature Fstd]); (Fstd, [VFeature Falloc; VDepFeature Core Fstd]);
    (Falloc, [VDepFeature Core Falloc]); (Fmacros, [VDepFeature Core Fmacros]); (Ftests, []) ]
  [ mk_dep Core false false [] ]
  false.
(** style/Cargo.toml:10-13. *)
Definition m_style := mk_manifest
  [ (Fdefault, [VFeature Fstd]); (Fstd, [VFeature Falloc]); (Falloc, []) ] [] false.
(** macros/Cargo.toml:10-31. Simplified: the third-party dependencies ([nom], [syn], ...), which have no
    features of this repository, are left out. *)
Definition m_macros := mk_manifest [] [ mk_dep StyleK false false [Falloc] ] true.

(** The third-party crates: leaves here ([with_builtin_macros] 0.0.3 and [askama_escape] 0.10.3 are built
    without default features, core/Cargo.toml:17-19, html/Cargo.toml:17-18). *)
Definition m_leaf := mk_manifest [] [] false.

(** The members of Cargo.toml, by crate. *)
Definition manifest_of (k : krate) : manifest :=
  match k with
  | Stylish => m_stylish | Core => m_core | StyleK => m_style | MacrosK => m_macros
  | AnsiK => m_ansi | HtmlK => m_html | PlainK => m_plain | WithBuiltin | Askama => m_leaf
  end.
Definition all_krates := [Stylish; Core; StyleK; MacrosK; AnsiK; HtmlK; PlainK; WithBuiltin; Askama].
Definition all_features := [Fdefault; Fstd; Falloc; Fmacros; Fansi; Fhtml; Fplain; Ftests].

(** * Cargo's resolution (std tool, from the Cargo book, "Features" and "Feature resolver version 2"). *)

(** With resolver 2 what a procedural macro (or a build script) needs is built separately for the host;
    with resolver 1 there is one set of features for both. *)
Inductive resolver := V1 | V2.
Inductive place := Target | Host.
Definition place_of (R : resolver) (p : place) (d : krate) : place :=
  match R with
  | V1 => Target
  | V2 => if m_proc_macro (manifest_of d) then Host else p
  end.

(** What resolution decides: a crate is built; a crate links a dependency; a feature is on. *)
Inductive atom :=
  | Built (p : place) (k : krate)
  | Links (p : place) (k d : krate)
  | On (p : place) (k : krate) (f : feature).

(** One rule: if everything in the list holds, so does the conclusion. *)
Definition rule := (list atom * atom)%type.
Definition dep_rules (R : resolver) (p : place) (k : krate) (d : dependency) : list rule :=
  let q := place_of R p (d_name d) in
  (if d_optional d then [] else [([Built p k], Links p k (d_name d))])
  ++ [([Links p k (d_name d)], Built q (d_name d))]
  ++ map (fun f => ([Links p k (d_name d)], On q (d_name d) f)) (d_features d)
  ++ (if d_default d then [([Links p k (d_name d)], On q (d_name d) Fdefault)] else []).
Definition value_rules (R : resolver) (p : place) (k : krate) (f : feature) (v : value) : list rule :=
  match v with
  | VFeature g => [([On p k f], On p k g)]
  | VDep d => [([On p k f], Links p k d)]
  | VDepFeature d g => [([On p k f], Links p k d); ([On p k f], On (place_of R p d) d g)]
  | VWeak d g => [([On p k f; Links p k d], On (place_of R p d) d g)]
  end.
Definition krate_rules (R : resolver) (p : place) (k : krate) : list rule :=
  flat_map (dep_rules R p k) (m_deps (manifest_of k))
  ++ flat_map (fun fv => flat_map (value_rules R p k (fst fv)) (snd fv)) (m_features (manifest_of k)).
Definition rules (R : resolver) : list rule :=
  flat_map (fun p => flat_map (krate_rules R p) all_krates) [Target; Host].

(** What the other crates of the build ask for: a crate, in some place, with some features (a dependency
    that keeps the default features asks for [Fdefault]). *)
Record request := mk_request { r_place : place; r_krate : krate; r_features : list feature }.
Inductive resolved (R : resolver) (reqs : list request) : atom -> Prop :=
  | res_built r : In r reqs -> resolved R reqs (Built (place_of R (r_place r) (r_krate r)) (r_krate r))
  | res_on r f : In r reqs -> In f (r_features r) ->
                 resolved R reqs (On (place_of R (r_place r) (r_krate r)) (r_krate r) f)
  | res_rule ps c : In (ps, c) (rules R) -> (forall a, In a ps -> resolved R reqs a) -> resolved R reqs c.

(** * Items *)

(** An item: the crate, the path under which it can be named there (macros end in [!]), the features its
    [cfg] (and the [cfg] of the modules around it) asks for, for a name imported in several namespaces the
    item it stands for (if that one does not exist, the name just is not there), the items its definition
    mentions, and for a macro the items its expansion mentions. *)
Record item := mk_item {
  i_krate : krate; i_path : string; i_public : bool; i_cfg : list feature;
  i_follows : option (krate * string);
  i_refs : list (krate * string);
  i_expands : list (krate * string) }.

Definition pub k p cfg refs := mk_item k p true cfg None refs [].
Definition priv k p cfg refs := mk_item k p false cfg None refs [].
Definition mac k p cfg expands := mk_item k p true cfg None [] expands.
Definition in_krate (k : krate) (ps : list string) : list (krate * string) := map (fun p => (k, p)) ps.

(** style/src/lib.rs. *)
Definition style_items : list item :=
  [ priv StyleK "extern crate alloc" [Falloc] [];                                  (* 10-11 *)
    pub StyleK "Color" [] []; pub StyleK "Intensity" [] [];
    pub StyleK "Style" [] (in_krate StyleK ["Color"; "Intensity"; "Restyle"; "StyleDiff"]);
    pub StyleK "StyleDiff" [] (in_krate StyleK ["Color"; "Intensity"]);
    pub StyleK "Foreground" [] (in_krate StyleK ["Color"; "Restyle"; "Style"]);
    pub StyleK "Background" [] (in_krate StyleK ["Color"; "Restyle"; "Style"]);
    pub StyleK "Restyle" [] (in_krate StyleK ["Style"]);
    pub StyleK "impl Restyle for Box" [Falloc] (in_krate StyleK ["extern crate alloc"; "Restyle"; "Style"]) ]. (* 223-228 *)

(** macros/src/lib.rs:225-245; macros/src/format.rs:12, 51, 67-80 (the attribute list is a slice of boxed
    restyles, which is applied with [Style::with]). *)
Definition macros_mention : list (krate * string) :=
  in_krate StyleK ["Background"; "Color"; "Foreground"; "Intensity"; "Restyle"; "Style"; "StyleDiff";
                   "impl Restyle for Box"].
Definition macros_items : list item :=
  [ pub MacrosK "format_args!" [] macros_mention;
    pub MacrosK "format_args_nl!" [] macros_mention ].

(** core/src/lib.rs:48-61, the names the expansion of the procedural macros uses (macros/src/lib.rs:107,
    138, 190-219; macros/src/to_tokens.rs). *)
Definition generated_mentions : list (krate * string) :=
  in_krate Core ["hidden::fmt"; "hidden::Option"; "hidden::Arguments"; "hidden::StdFmt"; "hidden::StdFmtDebug";
                 "hidden::StdFmtOther"; "hidden::Align"; "hidden::DebugHex"; "hidden::Formatter";
                 "hidden::FormatterArgs"; "hidden::Sign"; "hidden::Color"; "hidden::Display";
                 "hidden::Foreground"; "hidden::Intensity"; "hidden::StyleDiff"].

(** core/src/*.rs; [hidden] is the module with the hieroglyphic name (core/src/lib.rs:50). *)
Definition core_items : list item :=
  [ priv Core "extern crate alloc" [Falloc] [];                                            (* lib.rs:15-16 *)
    priv Core "extern crate std" [Fstd] [];                                                (* lib.rs:18-19 *)
    pub Core "io" [Fstd] (in_krate Core ["extern crate std"; "Arguments"; "Style"; "Write"; "Result"; "Error"]); (* lib.rs:21-22; io.rs *)
    pub Core "io::Write" [Fstd] (in_krate Core ["io"]);
    pub Core "io::Error" [Fstd] (in_krate Core ["io"]);
    pub Core "io::ErrorKind" [Fstd] (in_krate Core ["io"]);
    pub Core "io::Result" [Fstd] (in_krate Core ["io"]);
    pub Core "Error" [] []; pub Core "Result" [] [];                                       (* lib.rs:38 *)
    pub Core "Background" [] (in_krate StyleK ["Background"]);                                (* lib.rs:40 *)
    pub Core "Color" [] (in_krate StyleK ["Color"]);
    pub Core "Foreground" [] (in_krate StyleK ["Foreground"]);
    pub Core "Intensity" [] (in_krate StyleK ["Intensity"]);
    pub Core "Restyle" [] (in_krate StyleK ["Restyle"]);
    pub Core "Style" [] (in_krate StyleK ["Style"]);
    pub Core "StyleDiff" [] (in_krate StyleK ["StyleDiff"]);
    pub Core "ToStylishString" [Falloc; Fmacros] (in_krate Core ["format!"; "Display"; "String"]); (* lib.rs:34-35, 42-43; to_string.rs *)
    pub Core "Arguments" [] (in_krate Core ["Display"; "Formatter"; "Result"]);              (* lib.rs:27, 44; arguments.rs *)
    pub Core "Display" [] (in_krate Core ["Formatter"; "Result"]);                           (* lib.rs:28, 44; display.rs *)
    pub Core "Formatter" [] (in_krate Core ["Arguments"; "Display"; "Restyle"; "Result"; "Style"; "Write"]); (* lib.rs:31, 44; formatter.rs *)
    pub Core "Write" [] (in_krate Core ["Arguments"; "Formatter"; "Result"; "Style"]);       (* lib.rs:36, 44; write.rs *)
    pub Core "format" [Falloc] (in_krate Core ["Arguments"; "String"; "Write"]);             (* lib.rs:29-30, 45-46; format.rs *)
    pub Core "String" [Falloc] (in_krate Core ["extern crate alloc"; "Display"; "Formatter"; "Result"; "Style"; "Write"]); (* lib.rs:32-33, 45-46; string.rs *)
    mac Core "format!" [Falloc; Fmacros] (in_krate Core ["format"; "format_args!"]);         (* lib.rs:29-30; format.rs:3-24 *)
    mac Core "write!" [] (in_krate Core ["format_args!"]);                                   (* write.rs:135-140 *)
    mac Core "writeln!" [] (in_krate Core ["write!"; "hidden::format_args_nl!"]);            (* write.rs:161-169 *)
    mac Core "format_args!" [Fmacros] (in_krate Core ["_format_args!"]);                     (* lib.rs:63-98 *)
    mac Core "_format_args!" [Fmacros] (in_krate Core ["hidden::format_args!"; "hidden::with_builtin!"]); (* lib.rs:100-123 *)
    mk_item Core "hidden::format_args!" true [Fmacros] None [(MacrosK, "format_args!")] generated_mentions; (* lib.rs:53 *)
    mk_item Core "hidden::format_args_nl!" true [Fmacros] None [(MacrosK, "format_args_nl!")] generated_mentions;
    pub Core "hidden::with_builtin!" [Fmacros] [(WithBuiltin, "with_builtin!")];             (* lib.rs:54 *)
    pub Core "hidden::fmt" [Fmacros] []; pub Core "hidden::Option" [Fmacros] [];           (* lib.rs:51 *)
    pub Core "hidden::Arguments" [Fmacros] (in_krate Core ["Arguments"]);                    (* lib.rs:56-60 *)
    pub Core "hidden::StdFmt" [Fmacros] (in_krate Core ["Display"; "Formatter"; "Result"]);
    pub Core "hidden::StdFmtDebug" [Fmacros] (in_krate Core ["Display"; "Formatter"; "Result"]);
    pub Core "hidden::StdFmtOther" [Fmacros] (in_krate Core ["Display"; "Formatter"; "Result"]);
    pub Core "hidden::Align" [Fmacros] []; pub Core "hidden::DebugHex" [Fmacros] [];
    pub Core "hidden::Formatter" [Fmacros] (in_krate Core ["Formatter"]);
    pub Core "hidden::FormatterArgs" [Fmacros] []; pub Core "hidden::Sign" [Fmacros] [];
    pub Core "hidden::Background" [Fmacros] (in_krate Core ["Background"]);
    pub Core "hidden::Color" [Fmacros] (in_krate Core ["Color"]);
    pub Core "hidden::Display" [Fmacros] (in_krate Core ["Display"]);
    pub Core "hidden::Foreground" [Fmacros] (in_krate Core ["Foreground"]);
    pub Core "hidden::Intensity" [Fmacros] (in_krate Core ["Intensity"]);
    pub Core "hidden::StyleDiff" [Fmacros] (in_krate Core ["StyleDiff"]) ].

(** Third-party: the macro [with_builtin!] of [with_builtin_macros] and [askama_escape::escape], always there. *)
Definition third_party_items : list item :=
  [ pub WithBuiltin "with_builtin!" [] []; pub Askama "escape" [] []; pub Askama "Html" [] [] ].

(** ansi/src/*.rs. *)
Definition ansi_items : list item :=
  [ priv AnsiK "extern crate alloc" [Falloc] [];                                           (* lib.rs:11-12 *)
    priv AnsiK "extern crate std" [Fstd] [];                                               (* lib.rs:14-15 *)
    pub AnsiK "Ansi" [] (in_krate Core ["Style"; "Write"; "Arguments"; "Color"; "Intensity"]); (* ansi.rs; util.rs; lib.rs:32 *)
    pub AnsiK "format" [Falloc] ([(AnsiK, "extern crate alloc"); (Core, "Arguments"); (AnsiK, "Ansi")]); (* lib.rs:18-19, 33-34; format.rs *)
    mac AnsiK "format!" [Falloc; Fmacros] (in_krate AnsiK ["format"; "hidden::format_args!"]); (* lib.rs:18; format.rs:7-23 *)
    pub AnsiK "io::Ansi" [Fstd] ((AnsiK, "extern crate std") :: in_krate Core ["io::Result"; "io::Write"; "Style"; "Arguments"; "Color"; "Intensity"]); (* lib.rs:20-21; io.rs *)
    pub AnsiK "ToAnsiString" [Falloc; Fmacros] [(AnsiK, "extern crate alloc"); (Core, "Display"); (AnsiK, "format!")]; (* lib.rs:22-23, 35-36; to_string.rs *)
    pub AnsiK "hidden::format_args!" [Fmacros] [(Core, "format_args!")] ].                   (* lib.rs:26-30 *)

(** html/src/*.rs. *)
Definition html_items : list item :=
  [ priv HtmlK "extern crate alloc" [Falloc] [];                                           (* lib.rs:11-12 *)
    pub HtmlK "Html" [] (in_krate Core ["Style"; "Write"; "Arguments"; "Color"; "Intensity"]
                         ++ in_krate Askama ["escape"; "Html"]);                             (* html.rs; util.rs; lib.rs:29 *)
    pub HtmlK "format" [Falloc] ([(HtmlK, "extern crate alloc"); (Core, "Arguments"); (HtmlK, "Html")]); (* lib.rs:14-15, 27-28; format.rs *)
    mac HtmlK "format!" [Falloc; Fmacros] (in_krate HtmlK ["format"; "hidden::format_args!"]); (* lib.rs:14; format.rs:7-23 *)
    pub HtmlK "ToHtmlString" [Falloc; Fmacros] [(HtmlK, "extern crate alloc"); (Core, "Display"); (HtmlK, "format!")]; (* lib.rs:17-18, 30-31; to_string.rs *)
    pub HtmlK "hidden::format_args!" [Fmacros] [(Core, "format_args!")] ].                   (* lib.rs:21-25 *)

(** plain/src/*.rs. *)
Definition plain_items : list item :=
  [ priv PlainK "extern crate alloc" [Falloc] [];                                          (* lib.rs:11-12 *)
    priv PlainK "extern crate std" [Fstd] [];                                              (* lib.rs:14-15 *)
    pub PlainK "Plain" [] (in_krate Core ["Result"; "Style"; "Write"; "Arguments"]);         (* plain.rs; lib.rs:27 *)
    pub PlainK "format" [Falloc] ([(PlainK, "extern crate alloc"); (Core, "Arguments"); (PlainK, "Plain")]); (* lib.rs:17-18, 25-26; format.rs *)
    mac PlainK "format!" [Falloc; Fmacros] (in_krate PlainK ["format"; "hidden::format_args!"]); (* lib.rs:17; format.rs:7-22 *)
    pub PlainK "io::Plain" [Fstd] ((PlainK, "extern crate std") :: in_krate Core ["io::Result"; "io::Write"; "Style"; "Arguments"]); (* lib.rs:19-20; io.rs *)
    pub PlainK "ToPlainString" [Falloc; Fmacros] [(PlainK, "extern crate alloc"); (Core, "Display"); (PlainK, "format!")]; (* lib.rs:22-23, 28-29; to_string.rs *)
    pub PlainK "hidden::format_args!" [Fmacros] [(Core, "format_args!")] ].                  (* lib.rs:31-35 *)

(** A name re-exported as it is. *)
Definition reexport (cfg : list feature) (d : krate) (p : string) : item := pub Stylish p cfg [(d, p)].
(** src/lib.rs. *)
Definition stylish_items : list item :=
  [ priv Stylish "extern crate std" [Fstd] [];                                             (* 6-7 *)
    reexport [Falloc; Fmacros] Core "ToStylishString";                                       (* 20-21 *)
    reexport [Falloc] Core "format"; reexport [Falloc] Core "String";                        (* 22-23 *)
    mk_item Stylish "format!" true [Falloc] (Some (Core, "format!")) [] (in_krate Core ["format"; "format_args!"]);
    mk_item Stylish "format_args!" true [Fmacros] None [(Core, "format_args!")] [(Core, "_format_args!")]; (* 24-25 *)
    mk_item Stylish "write!" true [Fmacros] None [(Core, "write!")] [(Core, "format_args!")];
    mk_item Stylish "writeln!" true [Fmacros] None [(Core, "writeln!")] (in_krate Core ["write!"; "hidden::format_args_nl!"]) ]
  ++ map (reexport [] Core)                                                                  (* 26-29 *)
       ["Arguments"; "Background"; "Color"; "Display"; "Error"; "Foreground"; "Formatter"; "Intensity";
        "Restyle"; "Result"; "Style"; "StyleDiff"; "Write"]
  ++ [ pub Stylish "mod io" [Fstd] [];                                                     (* 31-68 *)
       reexport [Fstd; Fansi] AnsiK "io::Ansi";
       reexport [Fstd] Core "io::Error"; reexport [Fstd] Core "io::ErrorKind";
       reexport [Fstd] Core "io::Result"; reexport [Fstd] Core "io::Write";
       pub Stylish "io::ansi" [Fstd; Fansi] (in_krate Stylish ["extern crate std"; "io::Ansi"]);
       reexport [Fstd; Fplain] PlainK "io::Plain";
       pub Stylish "io::plain" [Fstd; Fplain] (in_krate Stylish ["extern crate std"; "io::Plain"]);
       pub Stylish "fn ansi" [Fansi] (in_krate Stylish ["Ansi"]);                            (* 70-81 *)
       pub Stylish "fn html" [Fhtml] (in_krate Stylish ["Html"]);                            (* 83-97 *)
       pub Stylish "fn plain" [Fplain] (in_krate Stylish ["Plain"]);                         (* 99-110 *)
       reexport [Fansi] AnsiK "Ansi";                                                        (* 112-122 *)
       reexport [Fansi; Falloc; Fmacros] AnsiK "ToAnsiString";
       pub Stylish "mod ansi" [Fansi] [];
       pub Stylish "ansi::format" [Fansi; Falloc] [(AnsiK, "format")];
       mk_item Stylish "ansi::format!" true [Fansi; Falloc] (Some (AnsiK, "format!")) []
         (in_krate AnsiK ["format"; "hidden::format_args!"]);
       reexport [Fhtml] HtmlK "Html";                                                        (* 124-134 *)
       reexport [Fhtml; Falloc; Fmacros] HtmlK "ToHtmlString";
       pub Stylish "mod html" [Fhtml] [];
       pub Stylish "html::format" [Fhtml; Falloc] [(HtmlK, "format")];
       mk_item Stylish "html::format!" true [Fhtml; Falloc] (Some (HtmlK, "format!")) []
         (in_krate HtmlK ["format"; "hidden::format_args!"]);
       reexport [Fplain] PlainK "Plain";                                                     (* 136-146 *)
       reexport [Fplain; Falloc; Fmacros] PlainK "ToPlainString";
       pub Stylish "mod plain" [Fplain] [];
       pub Stylish "plain::format" [Fplain; Falloc] [(PlainK, "format")];
       mk_item Stylish "plain::format!" true [Fplain; Falloc] (Some (PlainK, "format!")) []
         (in_krate PlainK ["format"; "hidden::format_args!"]) ].

Definition items : list item :=
  style_items ++ macros_items ++ core_items ++ third_party_items ++ ansi_items ++ html_items ++ plain_items
  ++ stylish_items.

(** rustc: an item is there if its crate is built and its [cfg] holds; a name imported in several namespaces
    only if what it stands for is there. *)
Inductive present (R : resolver) (reqs : list request) : place -> item -> Prop :=
  present_intro p it :
    In it items ->
    resolved R reqs (Built p (i_krate it)) ->
    (forall f, In f (i_cfg it) -> resolved R reqs (On p (i_krate it) f)) ->
    (forall d path, i_follows it = Some (d, path) -> nameable R reqs p (i_krate it) d path) ->
    present R reqs p it
(** ... and a path in crate [d] can be mentioned from crate [k] if [d] is [k] itself or a linked
    dependency, and an item of that path is there. *)
with nameable (R : resolver) (reqs : list request) : place -> krate -> krate -> string -> Prop :=
  | name_own p k path it :
      i_krate it = k -> i_path it = path -> present R reqs p it -> nameable R reqs p k k path
  | name_dep p k d path it :
      resolved R reqs (Links p k d) ->
      i_krate it = d -> i_path it = path -> i_public it = true ->
      present R reqs (place_of R p d) it -> nameable R reqs p k d path.
