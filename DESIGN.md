# Formal model of stylish-rs in Rocq (Coq 8.16.1)

The first version of this file was the plan written before the proofs; it is kept current.

`rocq/theories/` holds three kinds of files:

* **Model** (one definition per Rust item, each with a comment citing file and lines):
  `Base` `Style` `Fmt` `StdCompat` `SString` `Plain` `Ansi` `Html` `Io` `Format` `ToString` `Lib`
  `Nom` `Parse` `Codegen` `Macros`, and models of std behaviour the code relies on: `StdVal`
  (`Formatter::pad`, `pad_integral`), `StdIo` (`Vec<u8>`, `&mut [u8]` as `io::Write`).
* **Specifications**, written from the outside (standards, README, std documentation) and not using
  the model's helpers: `SpecText` (styled text, histories, what formatting code writes),
  `SpecTerminal`/`SpecSgr` (ECMA-48 terminal, xterm variant), `SpecHtml`/`SpecBrowser`/`SpecAmbient` (HTML viewer, CSS
  look, newline normalisation), `SpecUtf8` (RFC 3629 decoder), `SpecStd`/`SpecPad` (std format_spec,
  padding), `SpecGrammar`/`SpecMeaning`/`SpecCall` (format strings, what they mean, macro calls),
  `SpecSink`/`SpecIo` (logs of sink calls, contracts of sinks), `SpecSession` (sequences of calls).
* **Proofs**: `*Facts` are lemmas, `Props*` the property theorems `Cnn_*`, each followed by
  `Print Assumptions` and by a non-vacuity `Example` on a concrete non-trivial case.
  `Tests` replays the repository's own doc tests and unit tests against the model.

`tools/mkmanifest.py` derives MANIFEST.json from the theorem names in `Props*`.

## How things are modelled

* `str` = list of Unicode scalar values (N); byte offsets are computed with `len_utf8`; slicing is
  partial (None = panic). Bytes appear in the io layer through `utf8`.
* A `&mut` receiver becomes state returned next to the result. Panics are explicit outcomes; after a
  panic the state is what the Rust value would hold (relevant when the caller catches it).
* Traits are dictionaries (records) so that statements quantify over every implementor, including ones
  that override provided methods. A user `Display` implementation is an arbitrary tree
  `formatter -> wprog` of `write_str` calls that may branch on every returned `Result` and may panic
  (an interaction tree), so theorems quantify over arbitrary terminating user control flow, including
  code that swallows errors.
* Sinks (`core::fmt::Write`, `std::io::Write`) are arbitrary state machines that may accept, fail or
  panic on any call. Where a theorem needs the documented contract of a sink it says so (`honest`,
  `honest_fmt`, `atomic_fmt`) and shows that a sink with an arbitrary failure schedule meets it.
* The `write_all` loop takes fuel; running out is the explicit outcome `Diverge`, and C32 proves when
  some fuel is enough.
* The procedural macro is modelled from the token sequence of the macro call (with expressions, paths
  and string literals as single tokens; `Exprs` opens up the expressions, C97) through the `macro_rules` layer, argument-list parsing, the nom
  grammar of the format string, name resolution and code generation, to the evaluated `Arguments` value.

## Trusted base

* Coq's kernel (8.16.1), `coqc`, and `coqchk` as run by vcheck. `vm_compute` is used in some proofs.
* Axioms: none. `Print Assumptions` of every theorem listed in MANIFEST.json prints "Closed under the
  global context". (vcheck lists seven `Coq.ssr.ssrunder.*` items: they are module fields of a
  standard-library file that is loaded, no theorem depends on them.)
* That the model is the program. Specifically, modelled by hand from documentation or source, not in
  /repo: the nom combinators used (`Nom`), `askama_escape` (`Html.html_entity`, `escape_parts_from`),
  std's `Formatter::pad`/`pad_integral`, UTF-8 encoding, `Vec<u8>`/`&mut [u8]`/`String` as sinks,
  rustc's `format_args!` flags for a `core::fmt::Formatter` (`SpecStd`), the `unicode_ident` tables (an
  arbitrary pair of predicates that agree with Unicode on ASCII: `xid_ok`).
* That the specifications describe terminals, browsers and std correctly.

## What is modelled and what is not

| source | model | not modelled |
|---|---|---|
| */Cargo.toml, `cfg` attributes | `Features`: manifests, feature resolution, items and what they mention | versions, dev-dependencies, `cfg(doc)` |
| style/src/lib.rs | `Style`: all types, `with`, `diff_from`, every `Restyle` impl, `Default`, `PartialEq`; `Builders`: `Debug` derives | |
| core/src/formatter.rs | `Fmt`, `StdCompat`; `Builders`: `Debug for Formatter`, derived `Debug` | |
| core/src/write.rs, display.rs, arguments.rs | `Fmt`, `StdCompat`, `Codegen` | laziness of closures beyond evaluation order of arguments |
| core/src/std_compat.rs | `StdCompat`: the dispatch macro over all flag combinations | |
| core/src/string.rs, format.rs, to_string.rs | `SString`, `Format`, `ToString` | capacity/allocation failure |
| core/src/io.rs | `Io` | `write_all_vectored` etc. do not exist in the crate |
| core/src/lib.rs (macro_rules) | `Macros` | |
| plain/, ansi/, html/ | `Plain`, `Ansi`, `Html`, `Io`, `Format`, `ToString` | the unreachable catch-all arms of `util.rs` |
| macros/src/format.rs | `Nom`, `Parse`; `Located` (the same parsers with the position and code their errors carry) | spans, and the wording around the position and code in the parse error |
| macros/src/lib.rs, to_tokens.rs | `Macros`, `Codegen`, `Quote` (the generated expression with its identifiers), `Diagnose` (messages) | hygiene marks of macro_rules (not relied on); lifetimes of temporaries; syn's and rustc's expression parsing |
| src/lib.rs | `Lib` | re-exports |

General simplifications: a value's `fmt` code terminates except in C95, and is pure apart from its writes except in C84 and C95 (no interior
mutability, no reading of other state), while the macro's argument expressions are arbitrary functions of a
hidden state and may fail to complete (panic, early return: C48); rustc's NFC normalisation of identifiers
is not modelled, nor the `u16` limit that compilers from 1.87 on put on width and precision; except in C105 a sink does not override `fmt::Write::write_fmt`
with something inconsistent with its `write_str` (`write_char` is never called by the adaptors); `usize` is at least as large as any length (64-bit; literal widths above
`u64::MAX` are rejected as rustc does); user macros in format-string position are an arbitrary function
(C65); std's float and exponent formatting is an arbitrary function of the flags (C07, C08 cover its
forwarding; C59 is about strings, characters, booleans, integers and lists of bytes).

## Findings (properties false of the code, proved as `_refuted`)

C14 (bold/faint switch on xterm-like terminals), C15 (ESC in data), C21 (bright magenta and magenta etc.
coincide in CSS), C36 (error-swallowing Display hides an I/O error), C44 (empty attribute list and
trailing comma rejected), C45 (explicit default has no effect under an outer style), C52 (duplicate
named arguments accepted), C53 (Html retry after a failure), C55 (raw identifiers), C56
(`writeln!(concat!(..))`), C62 (CR and NUL in a browser), C64 (bright colors cannot be named), C74 (the generated code uses the
caller's `Some`), C76 (default-styled text takes the rendition the terminal was left in), C78 (`::x = v` and
`<T>::x = v` are read as the named argument x), C80 (a String ignores the attributes of its placeholder), C81
(a truncated HTML document shows remains of a tag or reference).
Not stated as refuted properties but found on the way: threads with own adaptors on one handle can tear escapes
and lose characters (C100); text written after a failure inside an HTML tag, or by another thread, can inject
attributes because the style attribute is unquoted and sent in several calls (C101); a clone of an `Html` (or
`Ansi`) adaptor over a shared handle, taken while a style is open, ends it a second time: a stray `</span>` (C103).
In each case the `_partial` theorem (or a companion) gives the exact condition under which the property
holds, or the exact behaviour instead. C29 holds for repeating the same write only
(`C29_only_the_same_write`).

## Per property

* **C01-C03** (`PropsStyle`): `Style`; case analysis, induction over lists of restyles.
* **C04, C25, C27, C38-C40** (`PropsFormat`, `PropsSession`): `Fmt`, `Format`, `ToString`; running code
  on an infallible writer is playing its events; UTF-8 against the RFC decoder.
* **C05, C06, C46-C51** (`PropsMacro`, `PropsParse`): the generated code against `SpecMeaning`, which
  says what each placeholder means; induction over pieces.
* **C07, C08, C59** (`PropsStd`, `PropsPad`): the dispatch builds all arms as the macro does; each arm's
  literal is parsed by the `SpecStd` grammar; sweep over flags lifted to all widths and precisions.
  Strings and integers against `SpecPad`.
* **C09, C10-C15, C28, C29** (`PropsFormat`, `PropsAnsi`): invariant "the terminal's rendition is the
  tracked style"; retries by simulation of arbitrary sinks.
* **C16-C21, C53, C60-C63** (`PropsHtml`, `PropsRetry`, `PropsMore`): invariant "open elements are those
  of the tracked style"; a reference rendering by maximal runs.
* **C22-C24** (`PropsString`, `PropsSession`): the table is the offsets of a list of runs; every String
  reachable by any sequence of calls is of this form.
* **C80** (`PropsStored`): displaying a String does not look at the formatter; `SpecMeaning` for both texts.
* **C26** (`PropsMacro`): propagation is preserved by generated code.
* **C30-C37, C57** (`PropsIo`, `PropsRetry`): logs of sink calls; fuel monotonicity.
* **C41-C45, C52, C54-C56, C64, C65, C78** (`PropsParse`, `PropsCall`, `PropsConfig`): soundness and
  completeness of the parsers against declarative grammars.
* **C58** (`PropsEndToEnd`): composition of all of the above for one macro call.
* **C66-C68** (`PropsSession`, `PropsBuffers`): sequences of calls; Vec and slice sinks.
* **C39, C69-C71** (`PropsNested`): a formatter used as a writer and as a sink inside user code; simulation
  between alike sinks.
* **C61, C72, C73** (`PropsRecover`): sessions with failing calls; an invariant relating tracked style, the
  styles tried since the last success, and the terminal's parser state and rendition.
* **C74** (`PropsHygiene`): `Quote` is the generated expression as a term with identifiers and binders and
  an evaluator in a scope; it is related to `Codegen` by induction over the statements.
* **C75, C76** (`PropsAmbient`): the viewers started in an arbitrary state (`SpecAmbient`); per attribute, an
  invariant over the text written so far.
* **C77** (`PropsHtmlSession`): three phases of the document (agrees with the adaptor; the element is lost;
  the start tag is torn), each preserved by every write or left in one direction only.

* **C79** (`PropsDropIn`): std's own grammar, argument rules and results (`SpecDropIn`); a supported std
  placeholder is one of stylish's grammar, an unsupported one is not readable by its parser (by the
  characters a stylish placeholder can contain and end with), so the two readings agree wherever both exist.

* **C81** (`PropsTruncated`): every prefix of a rendering is the rendering of a prefix of the text and part of
  the next escape sequence, tag or reference; what a browser does at the end of the file is in `SpecTruncated`.

* **C82** (`PropsDiagnose`): `Diagnose` is the macro with its messages, `SpecDiagnose` what they say; the first
  wrong placeholder by induction over the pieces; fill characters by an exact account of when the parser
  panics (`FillFacts`).

* **C83** (`PropsLines`): the output split into lines is the rendering of each line from the style of the
  newline before to that of the newline after; per attribute, an invariant over the line.

* **C84** (`PropsEffects`): `Effects` is the core and the evaluation of generated code with stateful values, `SpecEffects`
  the calls to be made; induction over the pieces; a resolution of stateful code to `wprog`.

* **C85** (`PropsBuilders`): `Builders` models std's `DebugStruct`, `DebugTuple`, `DebugInner`, `DebugMap` call by call over `PadAdapter`; a Debug implementation is a tree of builder calls with arbitrary std code at the leaves. `SpecBuilders` defines both layouts by recursion on the tree (`shift` moves a text four columns). Proof: the adaptor's output is a per-character function of text and newline state (`adapter_outcome`), then induction over the tree.

* **C86** (`PropsOwnDebug`): the derived Debug of `Color`, `Intensity`, `Style`, `StyleDiff`, `FormatterArgs` and the hand-written one of `Formatter` as trees of C85; `SpecOwnDebug` gives the texts of a style, a change of style and (on one line) a formatter. Distinctness by showing that each field's text can be read back whatever follows (`readable`), which indentation preserves (`unshift`).

* **C87** (`PropsShared`): model: Shared (ansi_group: the Ansi model with one shared String and one current style per adaptor; io_group_run for io::Ansi). Spec: SpecShared (own style, style in force, takes_effect, taking_turns). Proof: induction from the right over the events, with the rendition of the terminal as invariant; io by C33's per-call facts.

* **C88** (`PropsShared`): model: Shared (html_group). Spec: SpecShared (nested: stack of open elements). Proof: invariant that the stack has as many elements as adaptors have a non-default style, so a closing tag always finds one.

* **C89** (`PropsDocs`): model `Docs.v`: an inductive type of user-written Display implementations (text, std leaves, stored Strings, loops, `with`, macro calls), interpreted with the modelled macros and Formatter; specification `SpecDocs.v`: the characters with the settings around them, innermost first. Proof: induction over documents with C46/C47 for the macro calls and C22 for stored Strings.

* **C90** (`Located`, `LocatedFacts`, `SpecLocated`, `PropsLocated`): the parsers with the `nom::error::Error` payload, proved to forget to the parsers of C41; the result on every string is characterised by four equivalences against the grammar (`no_piece`, `bad_attribute`, `filled_placeholder`).

* **C91** (`SpecResume`, `PropsResume`): extends C72/C73 to sessions in which `write_all` and `write!` calls fail in the middle. `careful` is the caller's rule, `arrives` says which styled bytes a call with a given result may have delivered. Proof: a failed call leaves the terminal either in ground state with the tracked rendition or inside one torn style change to a style of the call's text (`call_fails`); an invariant (`sync`) says that every style the rule allows repairs it. In memory the same with panics; code that does not propagate errors is reduced to the log of its single writes (C77_calls) and C73.

* **C92** (`SpecAnyTerm`, `AnyTermFacts`, `ResumeFacts`, `PropsAnyTerm`): the terminal of `SpecTerminal` with an arbitrary rendition type and effect of SGR parameters. `understands sgr look allowed` says what is asked of it: only about the parameters for the attributes of a style and only for renditions that are the look of a style. Proof: a simulation of the ECMA-48 terminal (`esc_look`, `made_feed`), and the session invariant of C91 generalised to such terminals (`ResumeFacts`; C91 itself is now its instance for `sgr_style`).

* **C93** (`SpecCut`, `PropsCut`): strengthens C91/C92 to bytes that cut characters. A session is turned into a list of steps (style change and bytes, torn style change, nothing; `session_steps`), with the rule of `careful` reduced to a condition on torn changes (`fits`); `trail_shows` then follows the terminal with the bytes of an unfinished piece pending, by induction over the steps and inversion of `joined`.

* **C94** (`Buffered`, `SpecBuffered`, `BufferedFacts`, `PropsBuffered`): std's BufWriter and LineWriter (older and newer std) as sinks; `C94_contract` shows that they keep the `honest` contract with `held` = destination then buffer, which makes every theorem about honest sinks apply (also to nestings); size and line invariants over arbitrary sessions; witnesses for what does not hold (finish without flush, retries over a LineWriter).

* **C95** (`PropsEndless`): a third copy of the core (`Endless`: formatter, `write_fmt`, std proxy, generated code, io `write_fmt`) over coinductive code, run by a small-step relation; `SpecEndless` says what the moments of a run should be (`progress` of the parts of a format string). Proved: the moments of the generated code are exactly those of its parts; a part that never ends; every infallible backend has at each moment exactly the writes made so far (hence Ansi/Html/Plain/io statements for each moment); code that keeps writing and gives up on errors ends on each writer with limited room; agreement with `Effects` and `Fmt` for terminating code. Examples: an endless counter, shown in red, over a String and over a 15-byte buffer.

* **C96** (`PropsJoin`): joining two spelled format strings glues their syntax trees (adjacent literal texts become one), by induction on the grammar; the exception is computed by the parser (`C96_glued`). Meaning via `means` (C46): the joined parts mean the parts in sequence. `C96_factor` combines three joins with C05; `C96_numbered` compares the two runs of the code generator; `C96_captured` by `means_det`.

* **C97** (`Exprs`, `ExprFacts`, `SpecExprs`, `PropsExprs`): argument expressions as token sequences with Rust's operators; a relation for reading them (precedence climbing), syn's printing, the tuple `(&e0, &e1,)` of lib.rs:116/:125-127 and rustc's reading of it. Proved: printing is faithful, reading is deterministic and does not depend on what follows, and an ampersand in front of a readable expression is read as a reference to its leftmost operand; ranges may miss one end or both; types and meanings of operators are arbitrary tables.

* **C98** (`PropsFeatures`): the manifests as data, Cargo's resolution as Horn rules computed from them (least model `resolved`), the items of all crates with their cfg, mentions and macro expansions (`Features`); what the README documents in `SpecFeatures`. Mentions exist: the closure of an item's own conditions contains the conditions of what it mentions (checked by reflection, lifted to all builds by soundness of saturation). Documented names: saturation is also complete when closed, for every set of features. Unification: invariant over the rules.

* **C99** (`PropsFeatures`): invariants over the rules of `Features` (no rule concludes a std/alloc feature of a target crate without such a premise); exact tables by saturation for every feature set.

* **C100** (`PropsThreads`): `Threads` runs a thread's operations against a sink that records the calls, so a call is the unit of interleaving; a schedule is any list of (thread, call) whose restriction to each thread is that thread's calls. The terminal of `SpecTerminal` gets the calls in schedule order. Proof: simulation between the shared terminal and the thread's own one during a call (same parse state, same characters), and an invariant that the shared rendition is only non-default while some thread's own is, as the default is only reached by a reset. The memory model is that of a lock: calls are atomic and totally ordered.

* **C101** (`PropsInject`): `SpecTokens` is a tokenizer written from the HTML standard with tags, attributes and references, finer than the viewer of `SpecHtml`. The output equals the reference rendering (C20), whose tokens are computed run by run; tokens are only ever appended, so a prefix of the output has a prefix of the tokens, and C81 gives that a sink holds a prefix until the first failure. The two negative theorems run the adaptor (`flaky` sink; `Threads` with `html_sink_calls`) and compute the tokens for any attribute name and value.

* **C102** (`PropsCalls`): the calls are those logged by `logged` (C28); their number is that of the parts of a history (`SinkFacts`), counted by induction and compared with `SpecCalls`, which counts from the number of attributes that differ.

* **C103** (`PropsClones`): events write/finish/clone on numbered adaptors (`Clones`), over a String each and over handles to one place; the specification (`SpecClones`) gives each adaptor a history that a clone copies. Induction on the events; for Html a counting invariant: open elements + clones made in a style = adaptors in a style, unless a closing tag already had no element.

* **C104** (`PropsSearch`): stated with the terminal and viewer of `SpecTerminal`/`SpecHtml`: a place in the output is outside escapes (tags) if they are in their ground (data) state after the output before it. The output is unfolded over the styled text; two ground places with the same text before them coincide because a non-control character is always shown.

* **C105** (`PropsOverrides`): model `Overrides` (the two fmt adaptors over an implementation of both methods of `fmt::Write`; the same code as `Ansi`/`Html` with line 77/86 through `write_fmt`), spec `SpecOverrides` (sinks that keep what they are given, a recorder of calls, a sink that rewrites text). By induction over the history; for sinks with the provided method it is proved equal to the model used everywhere else.

* **C106** (`PropsTurns`, spec `SpecTurns`): threads with Html adaptors of their own on one document. A lockstep simulation between the shared page and the page of the thread that wrote last (same parser state, same new text, at least as many open elements) gives the text and the number of open elements for every schedule that tears no tag; if threads take turns the two pages also have the same stack of elements, so new cells have the same looks. Same for terminals. `C106_locked`: schedules made by a lock take turns.

## Testing the theorems

`seeded/mutations.py` lists wrong programs (edits of model definitions); `tools/mutate.py` applies each
to a scratch copy, replaces every proof that breaks by one using an axiom, and reports which theorems
then depend on it; results in `seeded/LOG.jsonl`.
