{
 "C14": {
  "note": "False as stated (C14_exclusive_refuted). C14_xterm_shows gives exactly what a terminal with independent bold and faint bits shows for every history; C14_exclusive_partial: the look is right if and only if no bold character directly follows a faint one or the reverse."
 },
 "C15": {
  "note": "False as stated (the adaptor does not filter ESC in data): C15_data_inert_refuted. Proved for data without ESC/CSI: C15_data_inert_partial."
 },
 "C21": {
  "note": "False as stated (C21_distinct_refuted exhibits two colors with the same CSS value). C21_distinct_partial gives the exact set of coinciding pairs."
 },
 "C36": {
  "note": "False as stated: a Display implementation that ignores a failed write hides the I/O error (C36_surfaced_refuted). Proved for Arguments that propagate errors, which all generated ones do when their values do (C26)."
 },
 "C44": {
  "note": "False as documented: the empty list and a trailing comma are compile errors (C44_documented_refuted). C44_documented_partial: exactly the other documented lists are accepted."
 },
 "C45": {
  "note": "False as stated: fg=default, bg=default and normal have no effect under an outer style (C45_default_refuted). C45_attributes_partial gives the exact condition under which the documented result is obtained."
 },
 "C52": {
  "note": "False: duplicates are accepted (C52_duplicates_refuted). C52_last_counts is the exact behaviour instead: an argument whose name is given again later is evaluated and ignored; with or without it the call is accepted alike and formats alike."
 },
 "C41": {
  "note": "For identifier tables that agree with Unicode on ASCII (xid_ok)."
 },
 "C33": {
  "note": "For sinks that meet the std::io::Write contract (honest), which every scripted schedule does; Arguments must propagate errors."
 },
 "C53": {
  "note": "False as stated: after a failure inside a start tag the repeated write leaves an unreadable document (C53_retry_refuted), after one inside the text the first part is shown twice (C53_text_twice_refuted). C53_failure_partial is the exact effect of any unsuccessful write on an all-or-nothing sink (errors and panics): either the document and adaptor still agree and a prefix of the text is shown, or the write stopped inside the tags and every successful repetition leaves a broken document. C53_clean_failure_partial: if no attempt delivered anything the text is shown exactly once."
 },
 "C55": {
  "note": "False: a raw named argument is always a compile error (C55_raw_refuted). C55_captured_partial: captured variables work for every identifier other than the excluded keywords."
 },
 "C56": {
  "note": "False for builtin macros such as concat! as format string (C56_builtin_refuted); C56_literal_partial proves it for string literals."
 },
 "C54": {
  "note": "At the level of expressions and paths as single tokens (syn's and rustc's expression parsing is not modelled)."
 },
 "C59": {
  "note": "std's Formatter::pad, pad_integral, DebugList and PadAdapter are modelled from the standard library (StdVal.v); exponent formats, floats and Debug of strings are not. Specification in SpecPad.v."
 },
 "C60": {
  "note": "html_faithful, ansi_faithful (no control characters; controls_needed shows the hypothesis is necessary), string_faithful."
 },
 "C61": {
  "note": "ansi_concat and html_concat for any number of outputs; finish_needed is the counterexample without finish."
 },
 "C62": {
  "note": "As stated false (C62_shown_refuted: CR, NUL). C62_browser_normalises gives exactly what a browser shows for every text; C62_shown_partial: without CR and NUL every character is shown."
 },
 "C63": {
  "note": "ansi_size, html_size; the constants are attained (C63_nonvacuous)."
 },
 "C64": {
  "note": "README claim false for bright colors (C64_bright_refuted, over all accepted format strings); C64_names_partial for the eight normal colors."
 },
 "C65": {
  "note": "conservative and write_writeln in a model of the configuration; user macros are an arbitrary function."
 },
 "C74": {
  "note": "The generated expression is modelled as the Rust expression it is (Quote), with its identifiers, evaluated in an arbitrary caller scope. C74_any_scope_partial: it does what the format string says (SpecMeaning) with the caller's variables, unless the caller redefines Some (only if a placeholder sets an attribute) or has a constant-like item with a reserved name. C74_some_refuted and C74_constant_refuted give the exact effect of the exceptions. No macro_rules hygiene marks are assumed."
 },
 "C75": {
  "note": "On the viewer of SpecHtml; look_within in SpecAmbient.v says what relative means."
 },
 "C76": {
  "note": "False (C76_ambient_refuted): Ansi assumes the default rendition and writes nothing for default-styled text. C76_ambient_partial says exactly what shows through, for every attribute of every character, and the rendition afterwards; C76_exact: it holds exactly if every attribute the first character leaves at the default is at the default on the terminal."
 },
 "C77": {
  "note": "C77_html_sessions for logs of writes, C77_calls: every session of calls amounts to such a log. For sinks that take all or nothing of each call (atomic_fmt); what holds for other sinks is C53. Three examples show that each way of ending occurs."
 },
 "C78": {
  "note": "False: `::x = v` and `<T>::x = v` name the argument x (C78_prefix_refuted: accepted and used for {x}, where std rejects the call). C78_prefix_ignored is the exact behaviour: all three macros ignore such prefixes. C78_names_partial: without them exactly `name = value` is named."
 },
 "C79": {
  "note": "Std's format string grammar, argument rules and result are specified in SpecDropIn without reference to stylish. C79_same_as_std: supported calls return what std returns. C79_others_rejected: all others are compile errors. C79_determined: the specification gives one result."
 },
 "C80": {
  "note": "False: a String keeps its own styles, Arguments compose with the style in force (C80_stored_refuted). C80_two_texts says exactly what each shows; C80_default_partial: they agree where the default style is in force, whatever the flags. C80_context_ignored: a String ignores style and flags of its placeholder."
 },
 "C81": {
  "note": "ANSI: true (C81_ansi, C81_ansi_sink; bytes: C81_bytes). HTML: false (C81_html_refuted): a document cut inside a character reference or right after the start of a tag shows its remains; C81_html_partial gives exactly what is shown; C81_html_sink for failing sinks."
 },
 "C82": {
  "note": "Diagnose refines the macro model with its messages; C82_rejected: forgetting them gives the model of the other properties. C82_message: exactly which message; C82_truthful: what each says is so; C82_calls: the argument list; C82_writeln. Texts of syn errors and of the format-string parse error are not modelled."
 },
 "C83": {
  "note": "SpecLines: lines of a stream and of styled text, and the style of the newline before. C83_lines: what every line shows alone, per attribute; C83_right_iff: when it is right; C83_select, C83_html_select: any selection of lines when newlines are in the default style. A style that spans a newline is lost on the second line (C83_nonvacuous)."
 },
 "C84": {
  "note": "Effects models the core and the generated code again over programs with a state and catchable panics. C84_calls, C84_write: the calls made, in order; C84_determined: they determine the result; C84_as_pure: reduction to code without effects; C84_backend; C84_conservative: agrees with the model of the other properties. Writers that share state with the values are not modelled."
 },
 "C85": {
  "note": "Builders models std's Debug builders (third-party; the version the repository's test file describes) on top of the proxied std formatter; SpecBuilders says the layouts. C85_layout, C85_failure, C85_errors, C85_map_calls. TestsBuilders replays /repo/tests/std/builders.rs."
 },
 "C86": {
  "note": "Derived and hand-written Debug implementations modelled as builder trees (Builders); C86_style, C86_distinct, C86_formatter. With a precision the claim would be false for formatters (C86_precision: {:.0?} shows booleans as nothing)."
 },
 "C87": {
  "note": "C87_exact is an if-and-only-if over all interleavings; the bad case (an error message in default style while standard output is in red shows red) is in C87_nonvacuous."
 },
 "C88": {
  "note": "C88_exact gives the exact look of every character through the stack of open elements."
 },
 "C89": {
  "note": "C89_exact is an equivalence between successful display and a relational specification (SpecDocs.drawn, innermost); C89_determined: that specification prescribes one text; C89_context, C89_format are the consequences for two surroundings and for format! calls."
 },
 "C90": {
  "note": "Located.v re-models the parser with nom's error payload; C90_same_verdict ties it to the parser of C41 and C43. C90_failure, C90_error, C90_panic and C90_accepted are equivalences, so together they determine the result for every string. C90_viable: what precedes the reported place extends to an accepted string."
 },
 "C91": {
  "note": "C91_retry (any honest sink), C91_fresh (sinks that stop short), C91_ascii (ASCII texts: what arrived is always displayable), C91_in_memory, C91_any_code (code that ignores write errors), C91_covers_C72, C91_rule_needed. For characters cut between calls see C93; a sink that panics is covered in memory only."
 },
 "C92": {
  "note": "C92_text, C92_concat, C92_select (lines), C92_shared (several adaptors), C92_failures and C92_in_memory (the sessions of C91) for every terminal that understands the styles used; C92_terminals lists terminals that do, C92_xterm_not_both says that xterm cannot understand both bold and faint (C14 says what it shows then)."
 },
 "C93": {
  "note": "C93_cut (any session), C93_write_loop (texts sent by repeated writes), C93_pieces_needed (an interrupted write in another style comes between two parts of a character)."
 },
 "C94": {
  "note": "BufWriter and LineWriter are modelled from std (not in the repository). A destination's write that panics is assumed to have delivered nothing."
 },
 "C95": {
  "note": "Coinductive model of formatting code; moments of a run are characterised exactly (iff), C95_conservative and C95_as_finite tie it to the terminating model of the other properties. The writers are functions, i.e. they return on each call, hang or panic."
 },
 "C96": {
  "note": "C96_concat: syntax; C96_join: meaning; C96_glued: the exception (found while proving C96_concat: `{:}` followed by an align character is taken for a fill character and panics); C96_factor, C96_numbered, C96_captured. 'What it writes' is stated for writers that accept everything (ok_outcome, produces)."
 },
 "C97": {
  "note": "Found while re-reading the generated tokens: `quote!((#(&#args,)*))` prints the argument's tokens behind `&` without a group, and syn's ToTokens adds no parentheses. C97_tuples: exactly what rustc reads; C97_whole: when that is a reference to the argument; C97_meant, C97_rejected, C97_parentheses: consequences. The reader of Rust expressions (precedence climbing) is part of the model and trusted to be Rust's for the fragment in Exprs.v (no attributes)."
 },
 "C98": {
  "note": "Model of Cargo's feature resolution and the cfg'd item tables. Findings: stylish_core::write!/writeln! lack cfg(feature=macros); format! macros leak through unification."
 },
 "C99": {
  "note": "Finding: stylish-core's alloc does not enable stylish-style/alloc, so impl Restyle for Box is unreachable through stylish (resolver 2)."
 },
 "C100": {
  "note": "C100_so_far: any streams, any moment: shared characters merge the own screens' characters. C100_merged/left_reset: threads run to the end. C100_torn: the excluded schedules exist for any styled text. C100_one_call: one call per finished output. C100_io: io::Ansi makes the same calls. C100_one_adaptor, C100_one_html_adaptor: one adaptor shared by all threads."
 },
 "C101": {
  "note": "C101_tokens: exact tokens of a finished output. C101_cut, C101_until_failure: cut anywhere / any honest sink up to the first failure. C101_one_call: one call per finished output. C101_after_failure, C101_threads: attribute injection when writing goes on after a failure inside a tag, or when calls interleave."
 },
 "C102": {
  "note": "C102_ansi/html/plain: any sink, exact on success. C102_bound: at most 8 (9 + 2 per escaped character) per non-empty write. C102_pieces: cutting. C102_io. The calls for escaped text are those of askama_escape as modelled in Html.escape_parts (it may also leave out empty pieces)."
 },
 "C103": {
  "note": "Clone and Default are derived; the model of the derive is field-wise cloning."
 },
 "C104": {
  "note": "Text, patterns and replacements without control characters for ANSI."
 },
 "C105": {
  "note": "The fmt::Arguments given to write_fmt is the list of strings it writes when formatted."
 },
 "C106": {
  "note": "Continues C100/C101, which give the ANSI text and the ways in which unrestricted schedules tear tags. Same model of threads (Threads.v): sinks that do not fail, one write_str call is atomic. C106_so_far is about arbitrary pages, C106_merged/C106_html_turns/C106_ansi_turns about schedules of the adaptors, C106_locked about lock holders, C106_bytes transfers all of it to io::Ansi."
 }
}