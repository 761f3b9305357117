{
 "claims": [
  {
   "property": "C01",
   "status": "proved",
   "theorems": [
    "C01_diff_round_trip",
    "C01_diff_empty_iff",
    "C01_style_eq"
   ],
   "note": ""
  },
  {
   "property": "C02",
   "status": "proved",
   "theorems": [
    "C02_diff_mentions",
    "C02_diff_minimal",
    "C02_apply_diff"
   ],
   "note": ""
  },
  {
   "property": "C03",
   "status": "proved",
   "theorems": [
    "C03_slice_left_to_right",
    "C03_wrappers",
    "C03_settings",
    "C03_last_wins",
    "C03_untouched"
   ],
   "note": ""
  },
  {
   "property": "C04",
   "status": "proved",
   "theorems": [
    "C04_backend_independent",
    "C04_formats_agree"
   ],
   "note": ""
  },
  {
   "property": "C05",
   "status": "proved",
   "theorems": [
    "C05_scoped",
    "C05_returns_ok",
    "C05_nested"
   ],
   "note": ""
  },
  {
   "property": "C06",
   "status": "proved",
   "theorems": [
    "C06_outer_flags",
    "C06_spelled_flags",
    "C06_with_keeps"
   ],
   "note": ""
  },
  {
   "property": "C07",
   "status": "proved",
   "theorems": [
    "C07_flags_forwarded",
    "C07_one_arm"
   ],
   "note": ""
  },
  {
   "property": "C08",
   "status": "proved",
   "theorems": [
    "C08_std_simulation",
    "C08_std_text"
   ],
   "note": ""
  },
  {
   "property": "C09",
   "status": "proved",
   "theorems": [
    "C09_plain_passthrough",
    "C09_plain_format"
   ],
   "note": ""
  },
  {
   "property": "C10",
   "status": "proved",
   "theorems": [
    "C10_terminal_shows"
   ],
   "note": ""
  },
  {
   "property": "C11",
   "status": "proved",
   "theorems": [
    "C11_finish_resets",
    "C11_finish_noop"
   ],
   "note": ""
  },
  {
   "property": "C12",
   "status": "proved",
   "theorems": [
    "C12_chunking"
   ],
   "note": ""
  },
  {
   "property": "C13",
   "status": "proved",
   "theorems": [
    "C13_write_shape",
    "C13_parameters_needed",
    "C13_escape_count",
    "C13_default_untouched"
   ],
   "note": ""
  },
  {
   "property": "C14",
   "status": "partial",
   "theorems": [
    "C14_exclusive_refuted",
    "C14_xterm_shows",
    "C14_exclusive_partial"
   ],
   "note": "False as stated (C14_exclusive_refuted). C14_xterm_shows gives exactly what a terminal with independent bold and faint bits shows for every history; C14_exclusive_partial: the look is right if and only if no bold character directly follows a faint one or the reverse."
  },
  {
   "property": "C15",
   "status": "partial",
   "theorems": [
    "C15_data_inert_refuted",
    "C15_data_inert_partial"
   ],
   "note": "False as stated (the adaptor does not filter ESC in data): C15_data_inert_refuted. Proved for data without ESC/CSI: C15_data_inert_partial."
  },
  {
   "property": "C16",
   "status": "proved",
   "theorems": [
    "C16_viewer_shows",
    "C16_look_injective"
   ],
   "note": ""
  },
  {
   "property": "C17",
   "status": "proved",
   "theorems": [
    "C17_well_formed"
   ],
   "note": ""
  },
  {
   "property": "C18",
   "status": "proved",
   "theorems": [
    "C18_injection_safe"
   ],
   "note": ""
  },
  {
   "property": "C19",
   "status": "proved",
   "theorems": [
    "C19_chunking"
   ],
   "note": ""
  },
  {
   "property": "C20",
   "status": "proved",
   "theorems": [
    "C20_reference",
    "C20_runs_maximal",
    "C20_attributes"
   ],
   "note": ""
  },
  {
   "property": "C21",
   "status": "partial",
   "theorems": [
    "C21_distinct_refuted",
    "C21_distinct_partial"
   ],
   "note": "False as stated (C21_distinct_refuted exhibits two colors with the same CSS value). C21_distinct_partial gives the exact set of coinciding pairs."
  },
  {
   "property": "C22",
   "status": "proved",
   "theorems": [
    "C22_any_session",
    "C22_session_replay",
    "C22_writes_succeed",
    "C22_replay",
    "C22_format_replay"
   ],
   "note": ""
  },
  {
   "property": "C23",
   "status": "proved",
   "theorems": [
    "C23_no_panic",
    "C23_returns"
   ],
   "note": ""
  },
  {
   "property": "C24",
   "status": "proved",
   "theorems": [
    "C24_table",
    "C24_copy",
    "C24_absolute",
    "C24_display_writes"
   ],
   "note": ""
  },
  {
   "property": "C25",
   "status": "proved",
   "theorems": [
    "C25_to_string",
    "C25_through_string"
   ],
   "note": ""
  },
  {
   "property": "C26",
   "status": "proved",
   "theorems": [
    "C26_first_error",
    "C26_write_str_propagates",
    "C26_write_fmt_propagates",
    "C26_write_fmt_ok",
    "C26_generated_propagates",
    "C26_std_values"
   ],
   "note": ""
  },
  {
   "property": "C27",
   "status": "proved",
   "theorems": [
    "C27_format_panics"
   ],
   "note": ""
  },
  {
   "property": "C28",
   "status": "proved",
   "theorems": [
    "C28_ansi_failures",
    "C28_ansi_log_transparent",
    "C28_html_failures"
   ],
   "note": ""
  },
  {
   "property": "C29",
   "status": "proved",
   "theorems": [
    "C29_retry",
    "C29_retry_any_sink",
    "C29_only_the_same_write"
   ],
   "note": ""
  },
  {
   "property": "C30",
   "status": "proved",
   "theorems": [
    "C30_exactly_once",
    "C30_log_faithful"
   ],
   "note": ""
  },
  {
   "property": "C31",
   "status": "proved",
   "theorems": [
    "C31_failure",
    "C31_empty",
    "C31_panic"
   ],
   "note": ""
  },
  {
   "property": "C32",
   "status": "proved",
   "theorems": [
    "C32_terminates",
    "C32_condition_needed",
    "C32_calls"
   ],
   "note": ""
  },
  {
   "property": "C33",
   "status": "proved",
   "theorems": [
    "C33_step",
    "C33_finish",
    "C33_same_bytes",
    "C33_prefix"
   ],
   "note": "For sinks that meet the std::io::Write contract (honest), which every scripted schedule does; Arguments must propagate errors."
  },
  {
   "property": "C34",
   "status": "proved",
   "theorems": [
    "C34_write_contract"
   ],
   "note": ""
  },
  {
   "property": "C35",
   "status": "proved",
   "theorems": [
    "C35_right_error",
    "C35_propagating"
   ],
   "note": ""
  },
  {
   "property": "C36",
   "status": "partial",
   "theorems": [
    "C36_surfaced_partial",
    "C36_surfaced_refuted"
   ],
   "note": "False as stated: a Display implementation that ignores a failed write hides the I/O error (C36_surfaced_refuted). Proved for Arguments that propagate errors, which all generated ones do when their values do (C26)."
  },
  {
   "property": "C37",
   "status": "proved",
   "theorems": [
    "C37_plain_bytes",
    "C37_plain_transparent"
   ],
   "note": ""
  },
  {
   "property": "C38",
   "status": "proved",
   "theorems": [
    "C38_utf8_round_trip",
    "C38_write_char",
    "C38_char_by_char"
   ],
   "note": ""
  },
  {
   "property": "C39",
   "status": "proved",
   "theorems": [
    "C39_forwarding",
    "C39_sessions"
   ],
   "note": ""
  },
  {
   "property": "C40",
   "status": "proved",
   "theorems": [
    "C40_formatter_as_write",
    "C40_write_starts_fresh"
   ],
   "note": ""
  },
  {
   "property": "C41",
   "status": "proved",
   "theorems": [
    "C41_grammar",
    "C41_unambiguous"
   ],
   "note": "For identifier tables that agree with Unicode on ASCII (xid_ok)."
  },
  {
   "property": "C42",
   "status": "proved",
   "theorems": [
    "C42_escaped_text"
   ],
   "note": ""
  },
  {
   "property": "C43",
   "status": "proved",
   "theorems": [
    "C43_verdict"
   ],
   "note": ""
  },
  {
   "property": "C44",
   "status": "partial",
   "theorems": [
    "C44_documented_partial",
    "C44_documented_refuted"
   ],
   "note": "False as documented: the empty list and a trailing comma are compile errors (C44_documented_refuted). C44_documented_partial: exactly the other documented lists are accepted."
  },
  {
   "property": "C45",
   "status": "partial",
   "theorems": [
    "C45_attributes_partial",
    "C45_default_refuted"
   ],
   "note": "False as stated: fg=default, bg=default and normal have no effect under an outer style (C45_default_refuted). C45_attributes_partial gives the exact condition under which the documented result is obtained."
  },
  {
   "property": "C46",
   "status": "proved",
   "theorems": [
    "C46_resolution",
    "C46_deterministic"
   ],
   "note": ""
  },
  {
   "property": "C47",
   "status": "proved",
   "theorems": [
    "C47_accepted",
    "C47_in_range",
    "C47_never_panics"
   ],
   "note": ""
  },
  {
   "property": "C48",
   "status": "proved",
   "theorems": [
    "C48_evaluated_once"
   ],
   "note": ""
  },
  {
   "property": "C49",
   "status": "proved",
   "theorems": [
    "C49_calls",
    "C49_bare",
    "C49_same_accepted",
    "C49_newline"
   ],
   "note": ""
  },
  {
   "property": "C50",
   "status": "proved",
   "theorems": [
    "C50_styles_known",
    "C50_color_names"
   ],
   "note": ""
  },
  {
   "property": "C51",
   "status": "proved",
   "theorems": [
    "C51_fill_rejected",
    "C51_counts_rejected"
   ],
   "note": ""
  },
  {
   "property": "C52",
   "status": "partial",
   "theorems": [
    "C52_duplicates_refuted",
    "C52_last_counts"
   ],
   "note": "False: duplicates are accepted (C52_duplicates_refuted). C52_last_counts is the exact behaviour instead: an argument whose name is given again later is evaluated and ignored; with or without it the call is accepted alike and formats alike."
  },
  {
   "property": "C53",
   "status": "partial",
   "theorems": [
    "C53_retry_refuted",
    "C53_text_twice_refuted",
    "C53_success",
    "C53_failure_partial",
    "C53_clean_failure_partial"
   ],
   "note": "False as stated: after a failure inside a start tag the repeated write leaves an unreadable document (C53_retry_refuted), after one inside the text the first part is shown twice (C53_text_twice_refuted). C53_failure_partial is the exact effect of any unsuccessful write on an all-or-nothing sink (errors and panics): either the document and adaptor still agree and a prefix of the text is shown, or the write stopped inside the tags and every successful repetition leaves a broken document. C53_clean_failure_partial: if no attempt delivered anything the text is shown exactly once."
  },
  {
   "property": "C54",
   "status": "proved",
   "theorems": [
    "C54_argument_list",
    "C54_deterministic",
    "C54_format_args",
    "C54_positional_after_named",
    "C54_direct"
   ],
   "note": "At the level of expressions and paths as single tokens (syn's and rustc's expression parsing is not modelled)."
  },
  {
   "property": "C55",
   "status": "partial",
   "theorems": [
    "C55_raw_refuted",
    "C55_captured_partial"
   ],
   "note": "False: a raw named argument is always a compile error (C55_raw_refuted). C55_captured_partial: captured variables work for every identifier other than the excluded keywords."
  },
  {
   "property": "C56",
   "status": "partial",
   "theorems": [
    "C56_builtin_refuted",
    "C56_literal_partial"
   ],
   "note": "False for builtin macros such as concat! as format string (C56_builtin_refuted); C56_literal_partial proves it for string literals."
  },
  {
   "property": "C57",
   "status": "proved",
   "theorems": [
    "C57_retry",
    "C57_flush"
   ],
   "note": ""
  },
  {
   "property": "C58",
   "status": "proved",
   "theorems": [
    "C58_determined",
    "C58_end_to_end"
   ],
   "note": ""
  },
  {
   "property": "C59",
   "status": "proved",
   "theorems": [
    "C59_string",
    "C59_integer",
    "C59_char",
    "C59_bool",
    "C59_bytes"
   ],
   "note": "std's Formatter::pad, pad_integral, DebugList and PadAdapter are modelled from the standard library (StdVal.v); exponent formats, floats and Debug of strings are not. Specification in SpecPad.v."
  },
  {
   "property": "C60",
   "status": "proved",
   "theorems": [
    "C60_html_faithful",
    "C60_ansi_faithful",
    "C60_ansi_controls_needed",
    "C60_string_faithful",
    "C60_io_faithful"
   ],
   "note": "html_faithful, ansi_faithful (no control characters; controls_needed shows the hypothesis is necessary), string_faithful."
  },
  {
   "property": "C61",
   "status": "proved",
   "theorems": [
    "C61_ansi_concat",
    "C61_html_concat",
    "C61_finish_needed",
    "C61_io_concat"
   ],
   "note": "ansi_concat and html_concat for any number of outputs; finish_needed is the counterexample without finish."
  },
  {
   "property": "C62",
   "status": "partial",
   "theorems": [
    "C62_browser_normalises",
    "C62_shown_refuted",
    "C62_shown_partial"
   ],
   "note": "As stated false (C62_shown_refuted: CR, NUL). C62_browser_normalises gives exactly what a browser shows for every text; C62_shown_partial: without CR and NUL every character is shown."
  },
  {
   "property": "C63",
   "status": "proved",
   "theorems": [
    "C63_ansi_size",
    "C63_html_size",
    "C63_io_size"
   ],
   "note": "ansi_size, html_size; the constants are attained (C63_nonvacuous)."
  },
  {
   "property": "C64",
   "status": "partial",
   "theorems": [
    "C64_bright_refuted",
    "C64_names_partial"
   ],
   "note": "README claim false for bright colors (C64_bright_refuted, over all accepted format strings); C64_names_partial for the eight normal colors."
  },
  {
   "property": "C65",
   "status": "proved",
   "theorems": [
    "C65_conservative",
    "C65_write_writeln"
   ],
   "note": "conservative and write_writeln in a model of the configuration; user macros are an arbitrary function."
  },
  {
   "property": "C66",
   "status": "proved",
   "theorems": [
    "C66_ansi",
    "C66_html",
    "C66_plain",
    "C66_io_ansi",
    "C66_io_plain"
   ],
   "note": ""
  },
  {
   "property": "C67",
   "status": "proved",
   "theorems": [
    "C67_vec_ansi",
    "C67_vec_plain",
    "C67_vec_as_format",
    "C67_vec_session"
   ],
   "note": ""
  },
  {
   "property": "C68",
   "status": "proved",
   "theorems": [
    "C68_slice_ansi",
    "C68_slice_finish",
    "C68_slice_plain"
   ],
   "note": ""
  },
  {
   "property": "C69",
   "status": "proved",
   "theorems": [
    "C69_call",
    "C69_session",
    "C69_fresh"
   ],
   "note": ""
  },
  {
   "property": "C70",
   "status": "proved",
   "theorems": [
    "C70_plain",
    "C70_plain_text",
    "C70_ansi",
    "C70_html"
   ],
   "note": ""
  },
  {
   "property": "C71",
   "status": "proved",
   "theorems": [
    "C71_ansi",
    "C71_html",
    "C71_plain",
    "C71_io_ansi",
    "C71_io_plain"
   ],
   "note": ""
  },
  {
   "property": "C72",
   "status": "proved",
   "theorems": [
    "C72_retry",
    "C72_fresh",
    "C72_rule_needed"
   ],
   "note": ""
  },
  {
   "property": "C73",
   "status": "proved",
   "theorems": [
    "C73_sessions"
   ],
   "note": ""
  },
  {
   "property": "C74",
   "status": "partial",
   "theorems": [
    "C74_any_scope_partial",
    "C74_some_refuted",
    "C74_constant_refuted"
   ],
   "note": "The generated expression is modelled as the Rust expression it is (Quote), with its identifiers, evaluated in an arbitrary caller scope. C74_any_scope_partial: it does what the format string says (SpecMeaning) with the caller's variables, unless the caller redefines Some (only if a placeholder sets an attribute) or has a constant-like item with a reserved name. C74_some_refuted and C74_constant_refuted give the exact effect of the exceptions. No macro_rules hygiene marks are assumed."
  },
  {
   "property": "C75",
   "status": "proved",
   "theorems": [
    "C75_any_surroundings",
    "C75_distinguishable"
   ],
   "note": "On the viewer of SpecHtml; look_within in SpecAmbient.v says what relative means."
  },
  {
   "property": "C76",
   "status": "partial",
   "theorems": [
    "C76_ambient_refuted",
    "C76_ambient_partial",
    "C76_exact"
   ],
   "note": "False (C76_ambient_refuted): Ansi assumes the default rendition and writes nothing for default-styled text. C76_ambient_partial says exactly what shows through, for every attribute of every character, and the rendition afterwards; C76_exact: it holds exactly if every attribute the first character leaves at the default is at the default on the terminal."
  },
  {
   "property": "C77",
   "status": "proved",
   "theorems": [
    "C77_html_sessions",
    "C77_calls"
   ],
   "note": "C77_html_sessions for logs of writes, C77_calls: every session of calls amounts to such a log. For sinks that take all or nothing of each call (atomic_fmt); what holds for other sinks is C53. Three examples show that each way of ending occurs."
  },
  {
   "property": "C78",
   "status": "partial",
   "theorems": [
    "C78_prefix_refuted",
    "C78_prefix_ignored",
    "C78_names_partial"
   ],
   "note": "False: `::x = v` and `<T>::x = v` name the argument x (C78_prefix_refuted: accepted and used for {x}, where std rejects the call). C78_prefix_ignored is the exact behaviour: all three macros ignore such prefixes. C78_names_partial: without them exactly `name = value` is named."
  },
  {
   "property": "C79",
   "status": "proved",
   "theorems": [
    "C79_same_as_std",
    "C79_others_rejected",
    "C79_determined"
   ],
   "note": "Std's format string grammar, argument rules and result are specified in SpecDropIn without reference to stylish. C79_same_as_std: supported calls return what std returns. C79_others_rejected: all others are compile errors. C79_determined: the specification gives one result."
  },
  {
   "property": "C80",
   "status": "partial",
   "theorems": [
    "C80_stored_refuted",
    "C80_context_ignored",
    "C80_two_texts",
    "C80_default_partial"
   ],
   "note": "False: a String keeps its own styles, Arguments compose with the style in force (C80_stored_refuted). C80_two_texts says exactly what each shows; C80_default_partial: they agree where the default style is in force, whatever the flags. C80_context_ignored: a String ignores style and flags of its placeholder."
  },
  {
   "property": "C81",
   "status": "partial",
   "theorems": [
    "C81_ansi",
    "C81_bytes",
    "C81_ansi_sink",
    "C81_html_refuted",
    "C81_html_partial",
    "C81_html_sink"
   ],
   "note": "ANSI: true (C81_ansi, C81_ansi_sink; bytes: C81_bytes). HTML: false (C81_html_refuted): a document cut inside a character reference or right after the start of a tag shows its remains; C81_html_partial gives exactly what is shown; C81_html_sink for failing sinks."
  },
  {
   "property": "C82",
   "status": "proved",
   "theorems": [
    "C82_rejected",
    "C82_message",
    "C82_truthful",
    "C82_calls",
    "C82_writeln"
   ],
   "note": "Diagnose refines the macro model with its messages; C82_rejected: forgetting them gives the model of the other properties. C82_message: exactly which message; C82_truthful: what each says is so; C82_calls: the argument list; C82_writeln. Texts of syn errors and of the format-string parse error are not modelled."
  },
  {
   "property": "C83",
   "status": "proved",
   "theorems": [
    "C83_lines",
    "C83_right_iff",
    "C83_select",
    "C83_html_select"
   ],
   "note": "SpecLines: lines of a stream and of styled text, and the style of the newline before. C83_lines: what every line shows alone, per attribute; C83_right_iff: when it is right; C83_select, C83_html_select: any selection of lines when newlines are in the default style. A style that spans a newline is lost on the second line (C83_nonvacuous)."
  },
  {
   "property": "C84",
   "status": "proved",
   "theorems": [
    "C84_calls",
    "C84_write",
    "C84_determined",
    "C84_as_pure",
    "C84_backend",
    "C84_conservative"
   ],
   "note": "Effects models the core and the generated code again over programs with a state and catchable panics. C84_calls, C84_write: the calls made, in order; C84_determined: they determine the result; C84_as_pure: reduction to code without effects; C84_backend; C84_conservative: agrees with the model of the other properties. Writers that share state with the values are not modelled."
  },
  {
   "property": "C85",
   "status": "proved",
   "theorems": [
    "C85_layout",
    "C85_failure",
    "C85_errors",
    "C85_map_calls"
   ],
   "note": "Builders models std's Debug builders (third-party; the version the repository's test file describes) on top of the proxied std formatter; SpecBuilders says the layouts. C85_layout, C85_failure, C85_errors, C85_map_calls. TestsBuilders replays /repo/tests/std/builders.rs."
  },
  {
   "property": "C86",
   "status": "proved",
   "theorems": [
    "C86_style",
    "C86_attributes",
    "C86_distinct",
    "C86_formatter",
    "C86_diff",
    "C86_formatter_text"
   ],
   "note": "Derived and hand-written Debug implementations modelled as builder trees (Builders); C86_style, C86_distinct, C86_formatter. With a precision the claim would be false for formatters (C86_precision: {:.0?} shows booleans as nothing)."
  },
  {
   "property": "C87",
   "status": "proved",
   "theorems": [
    "C87_exact",
    "C87_taking_turns",
    "C87_left_reset",
    "C87_io"
   ],
   "note": "C87_exact is an if-and-only-if over all interleavings; the bad case (an error message in default style while standard output is in red shows red) is in C87_nonvacuous."
  },
  {
   "property": "C88",
   "status": "proved",
   "theorems": [
    "C88_exact",
    "C88_well_formed",
    "C88_taking_turns"
   ],
   "note": "C88_exact gives the exact look of every character through the stack of open elements."
  },
  {
   "property": "C89",
   "status": "proved",
   "theorems": [
    "C89_determined",
    "C89_exact",
    "C89_context",
    "C89_format"
   ],
   "note": "C89_exact is an equivalence between successful display and a relational specification (SpecDocs.drawn, innermost); C89_determined: that specification prescribes one text; C89_context, C89_format are the consequences for two surroundings and for format! calls."
  },
  {
   "property": "C90",
   "status": "proved",
   "theorems": [
    "C90_same_verdict",
    "C90_accepted",
    "C90_failure",
    "C90_error",
    "C90_panic",
    "C90_suffix",
    "C90_viable"
   ],
   "note": "Located.v re-models the parser with nom's error payload; C90_same_verdict ties it to the parser of C41 and C43. C90_failure, C90_error, C90_panic and C90_accepted are equivalences, so together they determine the result for every string. C90_viable: what precedes the reported place extends to an accepted string."
  },
  {
   "property": "C91",
   "status": "proved",
   "theorems": [
    "C91_retry",
    "C91_fresh",
    "C91_ascii",
    "C91_covers_C72",
    "C91_rule_needed",
    "C91_in_memory",
    "C91_any_code"
   ],
   "note": "C91_retry (any honest sink), C91_fresh (sinks that stop short), C91_ascii (ASCII texts: what arrived is always displayable), C91_in_memory, C91_any_code (code that ignores write errors), C91_covers_C72, C91_rule_needed. For characters cut between calls see C93; a sink that panics is covered in memory only."
  },
  {
   "property": "C92",
   "status": "proved",
   "theorems": [
    "C92_text",
    "C92_concat",
    "C92_select",
    "C92_shared",
    "C92_failures",
    "C92_in_memory",
    "C92_terminals",
    "C92_xterm_not_both"
   ],
   "note": "C92_text, C92_concat, C92_select (lines), C92_shared (several adaptors), C92_failures and C92_in_memory (the sessions of C91) for every terminal that understands the styles used; C92_terminals lists terminals that do, C92_xterm_not_both says that xterm cannot understand both bold and faint (C14 says what it shows then)."
  },
  {
   "property": "C93",
   "status": "proved",
   "theorems": [
    "C93_cut",
    "C93_write_loop",
    "C93_pieces_needed"
   ],
   "note": "C93_cut (any session), C93_write_loop (texts sent by repeated writes), C93_pieces_needed (an interrupted write in another style comes between two parts of a character)."
  },
  {
   "property": "C94",
   "status": "proved",
   "theorems": [
    "C94_contract",
    "C94_bounded",
    "C94_ansi",
    "C94_flush",
    "C94_plain",
    "C94_meanwhile",
    "C94_lines",
    "C94_flush_needed",
    "C94_retry",
    "C94_line_retry"
   ],
   "note": "BufWriter and LineWriter are modelled from std (not in the repository). A destination's write that panics is assumed to have delivered nothing."
  },
  {
   "property": "C95",
   "status": "proved",
   "theorems": [
    "C95_moments",
    "C95_write",
    "C95_endless_part",
    "C95_backend",
    "C95_grows",
    "C95_ansi",
    "C95_html",
    "C95_plain",
    "C95_stops",
    "C95_write_stops",
    "C95_adaptors_limited",
    "C95_io_ansi",
    "C95_io_plain",
    "C95_io_slice",
    "C95_conservative",
    "C95_as_finite",
    "C95_io_slice_write"
   ],
   "note": "Coinductive model of formatting code; moments of a run are characterised exactly (iff), C95_conservative and C95_as_finite tie it to the terminating model of the other properties. The writers are functions, i.e. they return on each call, hang or panic."
  },
  {
   "property": "C96",
   "status": "proved",
   "theorems": [
    "C96_concat",
    "C96_glued",
    "C96_join",
    "C96_factor",
    "C96_numbered",
    "C96_captured"
   ],
   "note": "C96_concat: syntax; C96_join: meaning; C96_glued: the exception (found while proving C96_concat: `{:}` followed by an align character is taken for a fill character and panics); C96_factor, C96_numbered, C96_captured. 'What it writes' is stated for writers that accept everything (ok_outcome, produces)."
  },
  {
   "property": "C97",
   "status": "proved",
   "theorems": [
    "C97_tuples",
    "C97_whole",
    "C97_parentheses",
    "C97_meant",
    "C97_rejected"
   ],
   "note": "Found while re-reading the generated tokens: `quote!((#(&#args,)*))` prints the argument's tokens behind `&` without a group, and syn's ToTokens adds no parentheses. C97_tuples: exactly what rustc reads; C97_whole: when that is a reference to the argument; C97_meant, C97_rejected, C97_parentheses: consequences. The reader of Rust expressions (precedence climbing) is part of the model and trusted to be Rust's for the fragment in Exprs.v (no attributes)."
  },
  {
   "property": "C98",
   "status": "proved",
   "theorems": [
    "C98_definitions",
    "C98_expansions",
    "C98_additive",
    "C98_documented",
    "C98_unified",
    "C98_leak",
    "C98_bare_write",
    "C98_declared",
    "C98_std_implies_alloc"
   ],
   "note": "Model of Cargo's feature resolution and the cfg'd item tables. Findings: stylish_core::write!/writeln! lack cfg(feature=macros); format! macros leak through unification."
  },
  {
   "property": "C99",
   "status": "proved",
   "theorems": [
    "C99_no_heap",
    "C99_exactly",
    "C99_box_unavailable",
    "C99_box_resolver1"
   ],
   "note": "Finding: stylish-core's alloc does not enable stylish-style/alloc, so impl Restyle for Box is unreachable through stylish (resolver 2)."
  },
  {
   "property": "C100",
   "status": "proved",
   "theorems": [
    "C100_so_far",
    "C100_merged",
    "C100_left_reset",
    "C100_torn",
    "C100_one_call",
    "C100_one_adaptor",
    "C100_one_html_adaptor",
    "C100_io"
   ],
   "note": "C100_so_far: any streams, any moment: shared characters merge the own screens' characters. C100_merged/left_reset: threads run to the end. C100_torn: the excluded schedules exist for any styled text. C100_one_call: one call per finished output. C100_io: io::Ansi makes the same calls. C100_one_adaptor, C100_one_html_adaptor: one adaptor shared by all threads."
  },
  {
   "property": "C101",
   "status": "proved",
   "theorems": [
    "C101_tokens",
    "C101_cut",
    "C101_until_failure",
    "C101_after_failure",
    "C101_threads",
    "C101_one_call"
   ],
   "note": "C101_tokens: exact tokens of a finished output. C101_cut, C101_until_failure: cut anywhere / any honest sink up to the first failure. C101_one_call: one call per finished output. C101_after_failure, C101_threads: attribute injection when writing goes on after a failure inside a tag, or when calls interleave."
  },
  {
   "property": "C102",
   "status": "proved",
   "theorems": [
    "C102_ansi",
    "C102_html",
    "C102_plain",
    "C102_bound",
    "C102_pieces",
    "C102_io"
   ],
   "note": "C102_ansi/html/plain: any sink, exact on success. C102_bound: at most 8 (9 + 2 per escaped character) per non-empty write. C102_pieces: cutting. C102_io. The calls for escaped text are those of askama_escape as modelled in Html.escape_parts (it may also leave out empty pieces)."
  },
  {
   "property": "C103",
   "status": "proved",
   "theorems": [
    "C103_independent",
    "C103_default",
    "C103_terminal",
    "C103_exact",
    "C103_document",
    "C103_no_stray",
    "C103_handover",
    "C103_io"
   ],
   "note": "Clone and Default are derived; the model of the derive is field-wise cloning."
  },
  {
   "property": "C104",
   "status": "proved",
   "theorems": [
    "C104_found",
    "C104_only_there",
    "C104_replace",
    "C104_no_false_match",
    "C104_html_found",
    "C104_html_only_there",
    "C104_html_replace"
   ],
   "note": "Text, patterns and replacements without control characters for ANSI."
  },
  {
   "property": "C105",
   "status": "proved",
   "theorems": [
    "C105_provided",
    "C105_ansi",
    "C105_html",
    "C105_ansi_calls",
    "C105_html_calls",
    "C105_rewriting"
   ],
   "note": "The fmt::Arguments given to write_fmt is the list of strings it writes when formatted."
  },
  {
   "property": "C106",
   "status": "proved",
   "theorems": [
    "C106_so_far",
    "C106_merged",
    "C106_html_turns",
    "C106_ansi_turns",
    "C106_locked",
    "C106_bytes"
   ],
   "note": "Continues C100/C101, which give the ANSI text and the ways in which unrestricted schedules tear tags. Same model of threads (Threads.v): sinks that do not fail, one write_str call is atomic. C106_so_far is about arbitrary pages, C106_merged/C106_html_turns/C106_ansi_turns about schedules of the adaptors, C106_locked about lock holders, C106_bytes transfers all of it to io::Ansi."
  }
 ]
}