{"id": "C01", "title": "diff_from / with round trip", "statement": "For any two styles a and b, a.with(b.diff_from(a)) == b, and b.diff_from(a) is the empty diff exactly when a == b.", "quantifier": "all pairs of styles (every foreground, background, intensity)", "why_tests_cant": "A test compares a few literal pairs; the ANSI writer relies on the law for every transition that can occur.", "anchors": ["style/src/lib.rs: Style::diff_from, impl Restyle for StyleDiff, Style::with"]}
{"id": "C02", "title": "diff_from is minimal", "statement": "b.diff_from(a) mentions exactly the attributes in which a and b differ, each with b's value; any StyleDiff that turns a into b mentions at least those attributes; applying it to any other style leaves every unmentioned attribute alone.", "quantifier": "all pairs of styles, all StyleDiffs, all third styles", "why_tests_cant": "Minimality is a statement about every competing diff, not about one example.", "anchors": ["style/src/lib.rs: Style::diff_from, StyleDiff, impl Restyle for StyleDiff"]}
{"id": "C03", "title": "Restyle composition is left-to-right, last writer wins", "statement": "Applying a slice, tuple, Option, (), reference or Box of restyles is the same as applying the contained restyles one after another from left to right; for a sequence of attribute settings the resulting foreground is the last foreground set (or the original if none), likewise background and intensity; a Style used as a restyle replaces everything.", "quantifier": "all sequences of restyles of any length, all starting styles, user-defined Restyle implementations included", "why_tests_cant": "Sequences are unbounded and Restyle is an open trait.", "anchors": ["style/src/lib.rs: impl Restyle for [T], (T, U), (T, U, V), Option<T>, (), &T, Box<T>, Style, Foreground, Background, Intensity"]}
{"id": "C04", "title": "Styling is decoupled from the output backend", "statement": "For every value implementing Display and every Arguments, the sequence of (text, style) writes it performs does not depend on which infallible backend it is written to; consequently the plain output is exactly the text shown by the ANSI output on a terminal and by the HTML output in a browser, and ANSI, HTML and stylish::String all show every character with the same style.", "quantifier": "all user Display implementations (arbitrary control flow over the Formatter API), all backends that accept every write", "why_tests_cant": "The claim ranges over arbitrary user code and over pairs of backends.", "anchors": ["core/src/formatter.rs: Formatter", "core/src/write.rs: Write::write_fmt", "plain/src/plain.rs", "ansi/src/ansi.rs", "html/src/html.rs", "core/src/string.rs"]}
{"id": "C05", "title": "Placeholder attributes are scoped to their placeholder and compose with the outer style", "statement": "When a format string is written with a formatter whose style is S, every literal part is written with S; the argument of a placeholder is written by its trait with style S changed by exactly that placeholder's attributes; text after the placeholder is back to S. Nested Arguments compose outer first, inner last.", "quantifier": "all format strings, all arguments, all outer styles, any nesting depth", "why_tests_cant": "Leaks of style from one placeholder into following text depend on combinations of pieces and nesting.", "anchors": ["core/src/formatter.rs: Formatter::with, Formatter::with_args, Formatter::write_str", "macros/src/lib.rs: format_args_impl"]}
{"id": "C06", "title": "Formatting flags are scoped to their placeholder", "statement": "The argument of a placeholder sees exactly the align/sign/#/0/width/precision/debug-hex flags written in that placeholder, never flags inherited from the outer formatter; Formatter::with keeps the current flags.", "quantifier": "all format strings, arguments, outer flags", "why_tests_cant": "Interaction of outer and inner flags is a product space.", "anchors": ["core/src/formatter.rs: Formatter::with_args, Formatter::with", "macros/src/to_tokens.rs: impl ToTokens for Scoped<FormatterArgs>"]}
{"id": "C07", "title": "std formatting flags are forwarded without loss", "statement": "For every combination of flags, width and precision, the value's std::fmt trait is invoked with a core::fmt::Formatter carrying exactly these flags, width and precision and fill ' '; some match arm of the dispatch always applies.", "quantifier": "all flag combinations, all width and precision values, Debug and the eight other std traits", "why_tests_cant": "The dispatch macro expands to 192 (Debug: 576) arms built by token recursion; tests touch a handful.", "anchors": ["core/src/std_compat.rs: std_write!", "core/src/arguments.rs: StdFmtOther, StdFmtDebug"]}
{"id": "C08", "title": "std-formatted arguments keep std's text and carry one style", "statement": "The text written for an argument formatted through a std trait is exactly the text that std trait writes with those flags, in order, and every character carries the placeholder's style.", "quantifier": "all std trait implementations (arbitrary sequences of writes), all styles", "why_tests_cant": "Ranges over arbitrary std Display implementations.", "anchors": ["core/src/std_compat.rs: StdProxy", "core/src/arguments.rs"]}
{"id": "C09", "title": "Plain discards exactly the styling", "statement": "The plain adaptor hands every piece of text unchanged and in order to the underlying writer and nothing else; plain::format is the concatenation of the text.", "quantifier": "all write sequences, all styles, all underlying writers", "why_tests_cant": "Ranges over every write sequence and sink.", "anchors": ["plain/src/plain.rs: impl Write for Plain", "plain/src/format.rs: format"]}
{"id": "C10", "title": "ANSI output shows every character with its style", "statement": "A terminal following ECMA-48 SGR (intensity as one attribute) that receives the Ansi adaptor's output displays exactly the written characters, each with exactly the style it was written with, provided the text itself contains no ESC or CSI control character.", "quantifier": "all sequences of styled writes of any length, all style transitions", "why_tests_cant": "The escape emitted for a write depends on the whole history through the tracked current style.", "anchors": ["ansi/src/ansi.rs: impl Write for Ansi", "ansi/src/util.rs"]}
{"id": "C11", "title": "Ansi::finish leaves the terminal in the default style", "statement": "After any sequence of successful writes followed by finish, the terminal is in the default rendition and in its ground parsing state; without finish it is in the style of the last non-empty write.", "quantifier": "all write histories", "why_tests_cant": "Depends on the whole history.", "anchors": ["ansi/src/ansi.rs: Ansi::finish"]}
{"id": "C12", "title": "ANSI output does not depend on how text is split into writes", "statement": "Two write histories that denote the same sequence of styled characters produce byte-identical ANSI output; in particular empty writes have no effect and adjacent writes with equal styles can be merged or split anywhere.", "quantifier": "all pairs of histories with equal styled text", "why_tests_cant": "A relational property over pairs of unbounded histories.", "anchors": ["ansi/src/ansi.rs: impl Write for Ansi"]}
{"id": "C13", "title": "ANSI escapes are minimal", "statement": "A write emits no escape when the style does not change or the text is empty, otherwise exactly one SGR sequence; that sequence is the lone reset when going to the default style and otherwise holds one parameter per changed attribute. Text written only with the default style passes through with no escape at all.", "quantifier": "all write histories, all transitions", "why_tests_cant": "Ranges over every transition and history.", "anchors": ["ansi/src/ansi.rs: impl Write for Ansi", "style/src/lib.rs: Style::diff_from"]}
{"id": "C14", "title": "Bold and faint are exclusive on every terminal", "statement": "Text written with intensity Faint right after Bold text (or the reverse) is shown only faint (only bold), including on terminals such as xterm where bold and faint are independent attributes cleared together by SGR 22.", "quantifier": "all histories, terminals with independent bold and faint bits", "why_tests_cant": "Depends on transitions and on terminal semantics no unit test emulates.", "anchors": ["ansi/src/util.rs: intensity", "ansi/src/ansi.rs"]}
{"id": "C15", "title": "Data cannot alter the terminal's style", "statement": "Text passed as data cannot change how other text is displayed, whatever characters it contains.", "quantifier": "all text, ESC included", "why_tests_cant": "Adversarial inputs are unbounded.", "anchors": ["ansi/src/ansi.rs: impl Write for Ansi"]}
{"id": "C16", "title": "HTML output shows every character with its style", "statement": "A browser rendering the Html adaptor's output shows exactly the written characters (markup characters included), each with exactly the style it was written with.", "quantifier": "all sequences of styled writes, all text", "why_tests_cant": "Depends on the whole history and on all texts, including markup characters.", "anchors": ["html/src/html.rs: impl Write for Html", "html/src/util.rs"]}
{"id": "C17", "title": "HTML output is well formed after finish", "statement": "After finish every opened span is closed, spans never nest, and nothing but span elements with a style attribute is produced; attribute values contain no character that would end an unquoted value; no element is empty.", "quantifier": "all write histories", "why_tests_cant": "Balancedness is an invariant over histories.", "anchors": ["html/src/html.rs: impl Write for Html, Html::finish"]}
{"id": "C18", "title": "HTML output is injection safe", "statement": "No text passed as data can produce markup: outside the adaptor's own tags the output contains no <, >, double or single quote, every & starts one of the five known character references, and unescaping gives the data back.", "quantifier": "all text", "why_tests_cant": "Adversarial inputs are unbounded.", "anchors": ["html/src/html.rs: impl Write for Html (escape)"]}
{"id": "C19", "title": "HTML output does not depend on how text is split into writes", "statement": "Two write histories that denote the same sequence of styled characters produce identical HTML output.", "quantifier": "all pairs of histories with equal styled text", "why_tests_cant": "A relational property over pairs of unbounded histories.", "anchors": ["html/src/html.rs: impl Write for Html"]}
{"id": "C20", "title": "HTML styling is minimal", "statement": "Default-styled text gets no element; a span lists exactly the attributes that differ from the default, never an inherit value; a new span is opened only when the style changes.", "quantifier": "all write histories", "why_tests_cant": "Ranges over every transition.", "anchors": ["html/src/html.rs", "html/src/util.rs"]}
{"id": "C21", "title": "Distinct colors render distinctly in HTML", "statement": "Two different colors are shown as two different CSS colors, and a bright color is at least as bright as its normal counterpart.", "quantifier": "all pairs of colors", "why_tests_cant": "A pairwise claim over the table under CSS color semantics.", "anchors": ["html/src/util.rs: foreground, background"]}
{"id": "C22", "title": "stylish::String stores and replays styled text faithfully", "statement": "Displaying a stylish::String replays exactly the characters written to it, in order, each with the style it was written with.", "quantifier": "all write sequences (any length, any UTF-8 text, empty writes, repeated styles)", "why_tests_cant": "Byte offsets and run merging interact over unbounded histories.", "anchors": ["core/src/string.rs: impl Write for String, impl Display for String"]}
{"id": "C23", "title": "Displaying a stylish::String never panics", "statement": "The slicing by stored byte offsets is always in bounds, ordered and on character boundaries for every String a user can build.", "quantifier": "all write sequences with arbitrary multi-byte text", "why_tests_cant": "A panic needs a particular combination of byte lengths and styles.", "anchors": ["core/src/string.rs: impl Display for String"]}
{"id": "C24", "title": "stylish::String keeps maximal runs and copies exactly", "statement": "Neighbouring runs always have different styles, the first run starts at 0, there are never more runs than writes; re-formatting a String into a String yields an identical String; its styles are absolute, so displaying it with any outer style gives the same result.", "quantifier": "all write sequences, all outer formatter styles and flags", "why_tests_cant": "Representation invariant over histories.", "anchors": ["core/src/string.rs"]}
{"id": "C25", "title": "to_*_string / format with s equals displaying the value directly", "statement": "format!(brace colon s, v) and v.to_plain_string / to_ansi_string / to_html_string / to_stylish_string give what writing v directly with a fresh formatter gives; rendering v.to_stylish_string() in any backend equals rendering v.", "quantifier": "all Display values, all four backends", "why_tests_cant": "Ranges over arbitrary Display implementations.", "anchors": ["core/src/to_string.rs", "plain/src/to_string.rs", "ansi/src/to_string.rs", "html/src/to_string.rs", "core/src/format.rs: format"]}
{"id": "C26", "title": "Formatting stops at the first sink error and reports it", "statement": "If the sink fails on some write, no later write reaches it and the write! call returns Err, provided the Display implementations involved propagate errors; code generated by format_args! propagates errors.", "quantifier": "all sinks, all failure points, all error-propagating Display values", "why_tests_cant": "Ranges over every failure point.", "anchors": ["core/src/formatter.rs: write_str, write_fmt", "macros/src/lib.rs: format_args_impl (the ? on every statement)"]}
{"id": "C27", "title": "format! panics exactly when a formatting implementation fails", "statement": "stylish::format, plain::format, ansi::format and html::format return normally whenever the arguments' implementations return Ok on a sink that never fails, and panic when they return Err.", "quantifier": "all Arguments", "why_tests_cant": "Ranges over arbitrary Display implementations.", "anchors": ["core/src/format.rs", "plain/src/format.rs", "ansi/src/format.rs", "html/src/format.rs"]}
{"id": "C28", "title": "ANSI and HTML adaptors report sink failures and never lose order", "statement": "A styled write on the Ansi or Html adaptor returns Err exactly when some write to the underlying sink failed; what the sink accepted is a prefix of what it would have received without failure.", "quantifier": "all sinks and failure points, all histories", "why_tests_cant": "Ranges over every failure point inside multi-part escape sequences.", "anchors": ["ansi/src/ansi.rs", "html/src/html.rs"]}
{"id": "C29", "title": "An Ansi write can be retried after a sink failure", "statement": "If a write on the Ansi adaptor fails because the sink refused some part (accepting nothing of it), repeating the same write on a recovered sink shows that text with the requested style and leaves the terminal and the adaptor in agreement.", "quantifier": "all failure points inside a write, all histories before it", "why_tests_cant": "Needs every crash point inside the escape sequence.", "anchors": ["ansi/src/ansi.rs: impl Write for Ansi"]}
{"id": "C30", "title": "io write_all delivers every byte exactly once in order", "statement": "If write_all returns Ok the sink has received exactly the buffer, whatever short writes and Interrupted errors the sink produced.", "quantifier": "all schedules of short writes and interruptions, all buffers", "why_tests_cant": "Ranges over all schedules.", "anchors": ["core/src/io.rs: Write::write_all"]}
{"id": "C31", "title": "io write_all failure contract", "statement": "write_all never returns Interrupted, returns WriteZero when the sink accepts zero bytes, otherwise returns the sink's first other error; on failure the sink holds a proper prefix of the buffer; on an empty buffer the sink is not called; it panics only when a sink claims to have written more than it was given.", "quantifier": "all schedules, all buffers", "why_tests_cant": "Ranges over all schedules.", "anchors": ["core/src/io.rs: Write::write_all"]}
{"id": "C32", "title": "io write_all terminates", "statement": "write_all returns after finitely many calls whenever the sink does not return Interrupted forever without progress.", "quantifier": "all sinks whose interruptions are finite between progress", "why_tests_cant": "Termination ranges over unbounded schedules.", "anchors": ["core/src/io.rs: Write::write_all"]}
{"id": "C33", "title": "io::Ansi produces the same bytes as the in-memory Ansi under any schedule", "statement": "Formatting into io::Ansi over a sink with arbitrary short writes and interruptions delivers, when it returns Ok, exactly the UTF-8 bytes that formatting into Ansi over a String produces (finish included).", "quantifier": "all Arguments, all schedules", "why_tests_cant": "Escape state must survive partial writes under all schedules.", "anchors": ["ansi/src/io.rs: impl Write for Ansi", "core/src/io.rs"]}
{"id": "C34", "title": "io::Ansi::write contract", "statement": "One call either changes the style completely and then makes one write attempt whose result it returns, or fails while changing style with none of the buffer written and the tracked style unchanged; Interrupted is never returned for the style change part; Ok(n) has n at most the buffer length and exactly the first n bytes delivered.", "quantifier": "all histories, all sink behaviours within the io::Write contract", "why_tests_cant": "Ranges over all failure points.", "anchors": ["ansi/src/io.rs: Ansi::write"]}
{"id": "C35", "title": "io write_fmt reports the right error", "statement": "write_fmt returns Ok exactly when formatting returned Ok; when formatting failed it returns the I/O error of the write that failed if there was one and an Other error otherwise; for error-propagating Arguments Ok means all bytes were delivered.", "quantifier": "all Arguments, all sinks and schedules", "why_tests_cant": "Ranges over failure points and user Display code.", "anchors": ["core/src/io.rs: ErrorTrap, Write::write_fmt"]}
{"id": "C36", "title": "io write_fmt surfaces every I/O error", "statement": "If any write failed with an I/O error while formatting, write_fmt returns an error.", "quantifier": "all Display implementations, including ones that ignore errors", "why_tests_cant": "Needs Display implementations that swallow errors.", "anchors": ["core/src/io.rs: Write::write_fmt"]}
{"id": "C37", "title": "io::Plain is transparent", "statement": "io::Plain forwards write, flush and write_all unchanged to the sink whatever the style.", "quantifier": "all sinks, buffers and styles", "why_tests_cant": "Ranges over all sinks.", "anchors": ["plain/src/io.rs"]}
{"id": "C38", "title": "write_char and UTF-8", "statement": "write_char writes the one-character string; the bytes sent to an io sink for any text decode to that text.", "quantifier": "all Unicode scalar values, all text", "why_tests_cant": "More than a million characters, unbounded text.", "anchors": ["core/src/write.rs: Write::write_char", "core/src/io.rs: ErrorTrap::write_str"]}
{"id": "C39", "title": "Forwarding impls are transparent", "statement": "Using a writer through &mut W (stylish::Write and io::Write), by_ref, or a value through &T behaves exactly as using it directly, including overridden methods.", "quantifier": "all writers (with any overridden methods), all values", "why_tests_cant": "Traits are open.", "anchors": ["core/src/write.rs: impl Write for &mut W", "core/src/io.rs: impl Write for &mut W, by_ref", "core/src/display.rs: impl Display for &T"]}
{"id": "C40", "title": "A Formatter used as a Write", "statement": "Writing to a Formatter through the stylish Write trait uses the given style absolutely; write!(f, ..) inside a Display implementation starts from f's current style; using it as core::fmt::Write uses f's style.", "quantifier": "all formatters and texts", "why_tests_cant": "Ranges over all formatter states.", "anchors": ["core/src/formatter.rs: impl Write for Formatter, impl core::fmt::Write for Formatter"]}
{"id": "C41", "title": "The format-string parser accepts exactly the supported grammar", "statement": "A format string is accepted exactly when it is a sequence of literal text, doubled braces and placeholders of the supported grammar, and the parse result is the one described by the grammar.", "quantifier": "all strings", "why_tests_cant": "Strings are unbounded; acceptance of a wrong string or wrong reading of a right one needs all inputs.", "anchors": ["macros/src/format.rs"]}
{"id": "C42", "title": "Escaped literal text prints itself", "statement": "For any text, doubling its braces and using it as a format string without arguments prints that text.", "quantifier": "all text", "why_tests_cant": "All texts.", "anchors": ["macros/src/format.rs: Piece::parse_lit", "macros/src/lib.rs: Piece::Lit"]}
{"id": "C43", "title": "The parser always terminates with a verdict", "statement": "Parsing any string ends in acceptance or a compile-time error; it never loops.", "quantifier": "all strings", "why_tests_cant": "All strings.", "anchors": ["macros/src/format.rs: Format::parse"]}
{"id": "C44", "title": "The documented attribute grammar is accepted", "statement": "Every attribute list of the README grammar, empty list and trailing comma included, is accepted.", "quantifier": "all attribute lists", "why_tests_cant": "All attribute lists.", "anchors": ["README.md: Syntax change", "macros/src/format.rs: impl Parse for StyleDiff"]}
{"id": "C45", "title": "Format-string attributes set what they say", "statement": "A placeholder with attributes sets each listed attribute to the last listed value and leaves the others as in the outer style.", "quantifier": "all attribute lists, all outer styles", "why_tests_cant": "All lists and outer styles, nesting included.", "anchors": ["macros/src/format.rs: impl Parse for StyleDiff", "macros/src/to_tokens.rs: impl ToTokens for Scoped<StyleDiff>"]}
{"id": "C46", "title": "Arguments are resolved like std::fmt", "statement": "The n-th bare placeholder uses the n-th positional argument, an explicit index uses that argument and does not advance the counter, a name uses the named argument with that name and otherwise captures the variable in scope.", "quantifier": "all format strings and argument lists", "why_tests_cant": "All combinations of references.", "anchors": ["macros/src/lib.rs: format_args_impl"]}
{"id": "C47", "title": "Missing or unused arguments are compile errors", "statement": "Expansion succeeds exactly when every bare or indexed placeholder has its positional argument and every positional and named argument is used; generated code never indexes out of range.", "quantifier": "all format strings and argument lists", "why_tests_cant": "All combinations.", "anchors": ["macros/src/lib.rs: format_args_impl"]}
{"id": "C48", "title": "Arguments are evaluated exactly once, in order", "statement": "Each positional and named argument expression is evaluated exactly once, in source order, when the Arguments value is built, however often (or in whatever order) placeholders refer to it; if one panics or returns early, those before it have been evaluated once, those after it never, and nothing is formatted.", "quantifier": "all format strings, argument lists, side effects and points of interruption", "why_tests_cant": "All references patterns.", "anchors": ["macros/src/lib.rs: format_args_impl (match tuple)"]}
{"id": "C49", "title": "writeln! is write! plus a newline", "statement": "writeln! accepts exactly the format strings write! accepts and writes the same styled text followed by a newline in the formatter's style.", "quantifier": "all format strings, arguments and styles", "why_tests_cant": "Appending to the format string could change how it parses.", "anchors": ["macros/src/lib.rs: format_args_nl", "core/src/write.rs: writeln!"]}
{"id": "C50", "title": "Code generation never meets an unknown color or intensity", "statement": "Every style the parser can produce is representable in generated code; the accepted color names are exactly the eight normal colors and default.", "quantifier": "all strings", "why_tests_cant": "All strings.", "anchors": ["macros/src/to_tokens.rs: impl ToTokens for Scoped<Color>", "macros/src/format.rs: impl Parse for Color"]}
{"id": "C51", "title": "Unsupported std syntax is rejected, never misformatted", "statement": "A format string using a fill character other than space or a width/precision taken from an argument never compiles.", "quantifier": "all format strings and argument lists", "why_tests_cant": "All strings.", "anchors": ["macros/src/format.rs: FormatSpec::parse (todo!)", "macros/src/to_tokens.rs: impl ToTokens for Scoped<Count>"]}
{"id": "C52", "title": "Duplicate named arguments are rejected", "statement": "As with std::fmt, giving two named arguments the same name is a compile error.", "quantifier": "all argument lists", "why_tests_cant": "All argument lists.", "anchors": ["macros/src/lib.rs: format_args_impl (named_args_names HashMap)"]}
{"id": "C53", "title": "A failed Html write can be retried", "statement": "If a write to the Html adaptor fails because its sink failed, repeating the write once the sink recovered shows the text exactly once, in its style, in a well-formed document.", "quantifier": "all sinks, all failure points, all strings and styles", "why_tests_cant": "All failure points inside one write.", "anchors": ["html/src/html.rs: impl Write for Html, write_str"]}
{"id": "C54", "title": "Macro argument lists mean what they spell", "statement": "A formatting macro call is accepted only as `format, positional..., name = value...` with an optional trailing comma (what can stand for `name` is C78); the arguments reach the formatted output in exactly this order and under exactly these names, and a positional argument after a named one is a compile error.", "quantifier": "all macro calls (token sequences at the level of expressions)", "why_tests_cant": "All argument lists.", "anchors": ["macros/src/lib.rs: impl Parse for ArgsInput", "core/src/lib.rs: macro_rules format_args, _format_args"]}
{"id": "C55", "title": "Named arguments can be raw identifiers", "statement": "As with std::fmt, a named argument may be spelled as a raw identifier (r#type = ..) and referenced in the format string without the prefix.", "quantifier": "all names, format strings and argument lists", "why_tests_cant": "All format strings.", "anchors": ["macros/src/lib.rs: format_args_impl (name.to_string())", "macros/src/format.rs: identifier"]}
{"id": "C56", "title": "writeln! accepts the calls write! accepts", "statement": "Every argument list accepted by write! is accepted by writeln!, in particular those whose format string is a builtin macro such as concat!.", "quantifier": "all macro calls", "why_tests_cant": "All calls.", "anchors": ["core/src/write.rs: macro_rules write, writeln"]}
{"id": "C57", "title": "An io::Ansi write can be retried, and flush is transparent", "statement": "If a write to the io Ansi adaptor fails, at whatever byte of the style change or text, repeating it until it succeeds with n leaves the terminal in the requested style with exactly the first n bytes of the buffer added to the text; flush reaches the sink and changes nothing else.", "quantifier": "all sinks honouring the std::io::Write contract, all failure schedules, all buffers and styles", "why_tests_cant": "All failure schedules.", "anchors": ["ansi/src/io.rs: impl Write for Ansi, write, flush"]}
{"id": "C58", "title": "What a format! call shows, end to end", "statement": "For every accepted call of format! whose values format without error, there is exactly one styled text prescribed by the format string and arguments, and the plain string is its characters, a terminal shows the ansi string as it, a browser shows the html string as it, and the stylish String replays it; the arguments are evaluated once each in order.", "quantifier": "all macro calls, format strings, arguments and values", "why_tests_cant": "All calls and values.", "anchors": ["core/src/format.rs: format", "plain/src/format.rs: format", "ansi/src/format.rs: format", "html/src/format.rs: format", "macros/src/lib.rs: format_args_impl"]}
{"id": "C59", "title": "Width, precision, alignment, sign, # and 0 work for strings, characters, booleans, integers and lists of bytes as in std, in the placeholder's style", "statement": "A string, character, boolean, integer or (with Debug) list of bytes formatted through a placeholder with any literal flags shows the text the std::fmt documentation prescribes (truncation, padding, sign, prefix, letter case, zeros, list punctuation and indentation), and the padding carries the placeholder's style too.", "quantifier": "all strings, characters, booleans, integers, lists of 8-bit integers, all placeholder specs with literal counts", "why_tests_cant": "All flag combinations, widths and values.", "anchors": ["core/src/std_compat.rs: std_write!", "core/src/arguments.rs: StdFmtOther, StdFmtDebug", "macros/src/to_tokens.rs: impl ToTokens for Scoped<FormatterArgs>"]}
{"id": "C60", "title": "Different styled texts give different outputs", "statement": "Two finished (or two unfinished) HTML outputs are equal exactly when the styled texts written are equal, character by character with their styles; the same holds for ANSI output when the text has no control characters, and two equal stylish Strings replay equal styled texts.", "quantifier": "all pairs of write histories", "why_tests_cant": "All pairs of histories.", "anchors": ["html/src/html.rs: impl Write for Html", "ansi/src/ansi.rs: impl Write for Ansi", "core/src/string.rs: String"]}
{"id": "C61", "title": "Finished outputs can be concatenated", "statement": "Sending the outputs of any number of finished adaptors (or format! results) one after another to a terminal or placing them one after another in a page shows the concatenation of their styled texts and leaves no style or element open; without finish this fails.", "quantifier": "all lists of write histories", "why_tests_cant": "Any number of outputs, all histories.", "anchors": ["ansi/src/ansi.rs: Ansi::finish", "html/src/html.rs: Html::finish"]}
{"id": "C62", "title": "Every character is shown by a browser", "statement": "A browser showing the HTML output shows every written character (false for CR, which browsers turn into LF, and NUL, which they drop: the adaptor does not write character references for them; exactly this normalisation happens and nothing else).", "quantifier": "all write histories, including carriage returns and NUL", "why_tests_cant": "All texts.", "anchors": ["html/src/html.rs: impl Write for Html"]}
{"id": "C63", "title": "Output size is linear", "statement": "ANSI output is at most 12 characters per style change longer than the text, plus 4 for finish; HTML output is at most 6 characters per text character plus 78 per style change, plus 7 for finish.", "quantifier": "all write histories", "why_tests_cant": "All histories of any length.", "anchors": ["ansi/src/ansi.rs: impl Write for Ansi", "html/src/html.rs: impl Write for Html"]}
{"id": "C64", "title": "fg and bg take every Color value in lowercase", "statement": "As the README says, fg= and bg= take a Color value in lowercase and set it (false for the eight bright colors: they cannot be named in any accepted format string; true for the eight normal ones).", "quantifier": "all colors, all accepted format strings, all arguments and formatter styles", "why_tests_cant": "All format strings and formatter states.", "anchors": ["macros/src/format.rs: impl Parse for Color", "README.md: Style formatting parameters"]}
{"id": "C65", "title": "The stylish_proc_macro_expand configuration is conservative", "statement": "Compiling with stylish_proc_macro_expand accepts every macro call accepted without it with the same meaning; there, write! and writeln! accept the same calls for every format-string expression, including concat! and user macros.", "quantifier": "all token sequences of macro calls, all user macros", "why_tests_cant": "All calls.", "anchors": ["core/src/lib.rs: _format_args!", "macros/src/lib.rs: impl Parse for ArgsInput"]}
{"id": "C66", "title": "Any session of calls shows exactly what was written", "statement": "After any sequence of write_str, write_char and write!/write_fmt calls on one Ansi, Html or Plain adaptor over a String (created by ansi(), html(), plain()), made whatever each of them returned, including formatting code that fails or panics in the middle, each call has returned what the formatting code itself says, finish succeeds, and a terminal or HTML viewer shows exactly the concatenation of what the calls wrote, each character in its style, and is left reset; for io::Ansi and io::Plain the same holds for any sequence of successful write, write_all, flush and write! calls over any honest sink.", "quantifier": "all sequences of calls of any length, all texts, styles, arguments and formatting code, all honest io sinks", "why_tests_cant": "Unboundedly many interleavings of calls, failures and sink behaviours.", "anchors": ["core/src/write.rs: trait Write", "core/src/io.rs: trait Write", "ansi/src/ansi.rs: Ansi", "html/src/html.rs: Html", "plain/src/plain.rs: Plain", "ansi/src/io.rs: Ansi", "plain/src/io.rs: Plain", "src/lib.rs: ansi, html, plain, io::ansi, io::plain"]}
{"id": "C67", "title": "Writing to a Vec fails only if formatting does", "statement": "write! into io::ansi(Vec::new()) or io::plain(Vec::new()) returns Ok, an error of kind Other, or panics exactly as the formatting code succeeds, fails or panics; afterwards (after finish) the Vec holds exactly the UTF-8 bytes of the in-memory output for the same text, so it agrees with ansi::format! and plain::format!. In any sequence of calls, write takes its whole buffer and write_all and flush succeed.", "quantifier": "all arguments (propagating errors or not), all sequences of calls", "why_tests_cant": "All arguments and call sequences.", "anchors": ["ansi/src/io.rs: Ansi", "plain/src/io.rs: Plain", "core/src/io.rs: write_all, write_fmt", "src/lib.rs: io::ansi, io::plain"]}
{"id": "C68", "title": "Fixed-size buffers receive exactly what fits", "statement": "write! into io::Ansi or io::Plain over a &mut [u8] with n bytes left stores exactly the first n bytes of the full output (all of it if it fits) and nothing else; the result is an error of kind WriteZero exactly when the output does not fit, and otherwise that of the formatting code; likewise for finish.", "quantifier": "all arguments that propagate errors, all buffer sizes, all starting styles", "why_tests_cant": "All sizes, including ones that end inside an escape sequence or a character.", "anchors": ["ansi/src/io.rs: Ansi", "plain/src/io.rs: Plain", "core/src/io.rs: write_all, write_fmt, ErrorTrap"]}
{"id": "C69", "title": "A Formatter works as a writer for generic code", "statement": "Inside a Display implementation, any sequence of write_str, write_char and write! calls made through stylish::Write on the Formatter reaches the underlying writer in order and with its results: strings and characters in exactly the given style, write! starting from the formatter's own style and flags (not from the default style as on every other writer); on a fresh formatter the behaviour is that of any other writer.", "quantifier": "all writers (failing ones for single calls), formatters and call sequences", "why_tests_cant": "Generic code may make any sequence of calls under any outer style.", "anchors": ["core/src/formatter.rs: Write for Formatter", "core/src/write.rs: Write"]}
{"id": "C70", "title": "Adaptors can be created on a Formatter", "statement": "A Plain adaptor created on the Formatter inside a Display implementation removes the styling and nothing else: the same writes reach the underlying writer in the formatter's style, with the same results, on any writer. An Ansi or Html adaptor there passes exactly the text it would write to a String, markup included, as text in the formatter's style.", "quantifier": "all writers, formatters and formatting code or call sequences", "why_tests_cant": "Nesting of arbitrary code, styles and writers.", "anchors": ["core/src/formatter.rs: core::fmt::Write for Formatter", "plain/src/plain.rs", "ansi/src/ansi.rs", "html/src/html.rs"]}
{"id": "C71", "title": "Adaptors depend on their sink only through its interface", "statement": "If two sinks cannot be told apart by the results of their calls, any session of calls on an adaptor over one and over the other returns the same results, keeps the sinks indistinguishable, and so does finish; for in-memory and io adaptors.", "quantifier": "all pairs of sinks, relations between their states and call sequences", "why_tests_cant": "Relational property over all sinks.", "anchors": ["plain/src", "ansi/src", "html/src/html.rs", "core/src/io.rs: write_all, write_fmt"]}
{"id": "C72", "title": "io::Ansi sessions survive failed writes", "statement": "In any sequence of write, write_all, write! and flush calls on io::Ansi, write and flush calls may fail at any point: an interrupted write leaves the adaptor ready for any other call; after any other failed write, provided the caller next writes in the same style (or, on sinks whose write_all does not fail after delivering everything, in a style not used since the last success; finish counts as the default style), a terminal shows exactly what the successful calls accepted, and half-written style changes leave no trace. The proviso is needed.", "quantifier": "all honest sinks, error schedules, call sequences and styles", "why_tests_cant": "The failure points, partial escapes and continuations are unbounded.", "anchors": ["ansi/src/io.rs: write, flush, finish", "core/src/io.rs: Write::write (documentation of errors and Interrupted)"]}
{"id": "C73", "title": "Ansi sessions survive failed writes", "statement": "The same for the in-memory Ansi adaptor over a sink that takes all or nothing of each call: write_str and write_char calls may fail or panic at any point; if the caller next writes in the style of the failed call or in one not used since the last success, a terminal shows exactly what the successful calls wrote.", "quantifier": "all all-or-nothing sinks, failure schedules, call sequences and styles", "why_tests_cant": "The failure points, partial escapes and continuations are unbounded.", "anchors": ["ansi/src/ansi.rs: write_str, finish", "core/src/write.rs: Write"]}
{"id": "C74", "title": "Macro calls work in any scope", "statement": "A formatting macro call means the same whatever names are in scope where it is written: argument expressions and captured variables are evaluated in the caller's scope, also when the caller's variables are named like the macro's temporaries, and nothing the caller defines changes the effect of the placeholders (false for a caller's own Some when a placeholder sets an attribute, and for a constant or static named diff or like another temporary).", "quantifier": "all format strings, argument expressions, captured variables and scopes at the place of the call", "why_tests_cant": "Scopes and calls are unbounded; a capture bug only shows for names a test happens to use.", "anchors": ["macros/src/lib.rs: format_args_impl", "macros/src/to_tokens.rs: StyleDiff, StdFmt"]}
{"id": "C75", "title": "HTML output fits any surroundings", "statement": "Finished HTML output can be put anywhere in the text of a page, inside elements of any color and weight: every character is shown in its style relative to these surroundings (non-default colors override, bold and faint are relative weights), the surrounding elements stay open as they were, and two styles look alike only if the surroundings already have the color asked for or are at the end of the weight scale.", "quantifier": "all sequences of writes, all pages and nestings of elements with any computed style, all pairs of styles", "why_tests_cant": "Arbitrary surroundings and texts.", "anchors": ["html/src/html.rs: Html::write_str, Html::finish", "html/src/util.rs: foreground, background, intensity"]}
{"id": "C76", "title": "ANSI output on a terminal that is not in the default style", "statement": "ANSI output shows every character in its style whatever rendition the terminal was left in before.", "quantifier": "all sequences of writes without control characters, all renditions of the terminal before", "why_tests_cant": "Arbitrary histories of the terminal and texts; which attributes show through depends on all the text before a character.", "anchors": ["ansi/src/ansi.rs: Ansi::new, Ansi::write_str, Ansi::finish"]}
{"id": "C77", "title": "What an HTML document shows after failed writes", "statement": "After any sequence of writes on an Html adaptor, any of which may fail or panic and after any of which the caller may go on, the document shows exactly what arrived, every character in its style: all of the text of successful writes and a prefix of the text of failed ones; the only exception is a failure in the middle of a change to a non-default style, after which nothing more is shown in any style but (possibly) the text written in the style before it, unstyled, and a finished document is visibly broken.", "quantifier": "all sequences of write_str, write_char and write! calls with any formatting code, all all-or-nothing sinks with errors and panics at any point", "why_tests_cant": "Unboundedly many sequences of calls and failure points.", "anchors": ["html/src/html.rs: Html::write_str, Html::finish", "core/src/write.rs: Write::write_char, Write::write_fmt"]}
{"id": "C78", "title": "Only identifiers name arguments", "statement": "As in std's macros, an argument is read as named exactly if it is written as an identifier, `=` and a value; assignments to any other path or place are positional arguments.", "quantifier": "all argument expressions and macro calls", "why_tests_cant": "Left-hand sides are unbounded; the code looks at the parsed path only in part.", "anchors": ["macros/src/lib.rs: impl Parse for ArgsInput (Expr::Assign arm)"]}
{"id": "C79", "title": "std::format! calls keep their meaning or are rejected", "statement": "A call that std::format! accepts, written with stylish's macros, either gives exactly the string (or panic) std gives, in the plain and the ansi format!, or does not compile. It does not compile exactly if it uses a fill other than space, a width or precision from an argument, white space before a closing brace, a named argument by its position, or captures `self`.", "quantifier": "all format strings of std's grammar and all argument lists std accepts, all values and their fmt code", "why_tests_cant": "Format strings, arguments and formatting code are unbounded, and a silently different reading of one std string is enough to break it.", "anchors": ["README.md: Syntax change", "macros/src/format.rs", "macros/src/lib.rs: format_args_impl", "plain/src/format.rs: format", "ansi/src/format.rs: format"]}
{"id": "C80", "title": "Storing styled text in a String first makes no difference", "statement": "Using the stylish::String of format!(..) for an s placeholder shows the same as using the Arguments of format_args!(..) with the same string and arguments.", "quantifier": "all macro calls, all styles and flags in force where the result is used", "why_tests_cant": "All inner calls and all contexts; the existing tests only use the default style.", "anchors": ["core/src/string.rs: impl Display for String", "core/src/arguments.rs: impl Display for Arguments"]}
{"id": "C81", "title": "Output that stops in the middle shows a prefix of the text", "statement": "If the ANSI or HTML output stops after any byte (the process is killed, the connection is cut, the sink fails for good), what a terminal or browser shows of it is a prefix of the text, every character in its style: the longest prefix whose output arrived, and nothing else.", "quantifier": "all histories of styled writes, every point at which the output can be cut, all sinks that keep a prefix of what they are given", "why_tests_cant": "Every byte of every output is a crash point.", "anchors": ["ansi/src/ansi.rs: Ansi::write_str", "ansi/src/util.rs", "html/src/html.rs: Html::write_str, escape"]}
{"id": "C82", "title": "Error messages of the macros are true and name the first problem", "statement": "Every rejected format_args!, write! or writeln! call gets one message, and the message is true of the call: `missing argument` only if there are more bare placeholders than positional arguments, `missing positional argument i` only if the string refers to argument i and there is none, `unused formatting arguments` only if some argument is not referred to, `positional arg after named` exactly if one follows the other, and so on. With several problems the leftmost one is reported, unused arguments last; writeln! reports what write! reports.", "quantifier": "all macro calls: all token sequences, format strings and argument lists", "why_tests_cant": "All format strings and argument lists; a message about the wrong problem only shows on particular combinations of problems.", "anchors": ["macros/src/lib.rs: impl Parse for ArgsInput, format_args_impl", "macros/src/to_tokens.rs: Count", "macros/src/format.rs: FormatSpec"]}
{"id": "C83", "title": "Lines of output taken out of context (grep, head, sort)", "statement": "Finished output has exactly the lines of the text. A line of ANSI output sent on its own to a fresh terminal shows the characters of that line of the text, each attribute as written except those that have not changed since the newline before, which are shown as default; so a line shows right exactly if its first character shares no non-default attribute with that newline. In particular, if all newlines are written in the default style, any selection of lines in any order (grep, head, tail, sort) of the ANSI or the HTML output shows exactly those lines of the text and leaves the terminal in the default style and all elements closed.", "quantifier": "all histories of styled writes, all lines, all selections of lines", "why_tests_cant": "All texts and all selections of their lines; whether a line is right depends on the styles of what comes before it.", "anchors": ["ansi/src/ansi.rs: Ansi::write_str, Ansi::finish", "html/src/html.rs: Html::write_str, Html::finish"]}
{"id": "C84", "title": "Values with side effects are formatted once per placeholder, in order", "statement": "Formatting code may have side effects (counters, caches, I/O) and may catch panics. Building the Arguments evaluates the argument expressions once each, in order, and calls no formatting code; formatting calls the formatting code of each placeholder's value exactly once, left to right, each seeing the side effects of those before it, and stops at the first that does not succeed. Which side effects happen and what is written does not depend on the output backend, and towards a writer such code behaves like code without side effects, so all other properties apply to it.", "quantifier": "all macro calls, all values with arbitrary (terminating) stateful code, all initial states, all writers", "why_tests_cant": "All format strings, all stateful formatting code and all writers; a value formatted twice or out of order only shows for values with state.", "anchors": ["macros/src/lib.rs: format_args_impl", "macros/src/to_tokens.rs: FormatTrait", "core/src/arguments.rs: Arguments, StdFmtOther, StdFmtDebug", "core/src/write.rs: Write::write_fmt"]}
{"id": "C85", "title": "A structured value shown with a Debug placeholder has std's layout, with the placeholder's flags at every leaf and its style everywhere", "statement": "For every value whose Debug implementation is written with std's builders (debug_struct, debug_tuple, debug_list, debug_set, debug_map; every derived Debug is), nested to any depth, and for every Debug placeholder of the stylish macros with any flags and style attributes: the text shown is the documented one-line layout, or with '#' the layout with one indented line per field, of the texts its leaves give for exactly the placeholder's flags; every character of it, punctuation and indentation included, has the placeholder's style. If a leaf fails or panics, the value does what its first such leaf does; a sink's error stops it; a map builder panics exactly if key and value do not come in turns.", "quantifier": "all trees of builder calls (any depth, any names, leaves with any text including newlines), all Debug placeholders, all sequences of key/value calls", "why_tests_cant": "Depth, number of fields, flags and leaf texts are unbounded; the newline state of the indenting adaptor is only exercised by leaves that write newlines in unusual places.", "anchors": ["core/src/std_compat.rs", "core/src/arguments.rs", "core/src/formatter.rs:Debug for Formatter", "tests/std/builders.rs"]}
{"id": "C86", "title": "The Debug texts of styles, style changes and formatters identify them", "statement": "A Style shown with a Debug placeholder (any flags, any attributes) is the text `Style { foreground: .., background: .., intensity: .. }` with the names of its colors and its intensity (or the same on indented lines with '#'), unaffected by width, precision and alignment; likewise `Foreground(Red)` and `Background(Red)`, and a StyleDiff, whose attributes are `None` or `Some(..)`. A Formatter shown by a Debug placeholder without flags is `Formatter { style: .., format: FormatterArgs { align: .., sign: .., alternate: .., zero: .., width: .., precision: .., debug_hex: .. } }` with its style and the flags it was given. Two styles, or two StyleDiffs, with the same text are equal. Two Formatters shown by a Debug placeholder without width and precision have the same text if and only if they have the same style and the same flags (alignment, sign, '#', '0', width, precision, debug hex).", "quantifier": "all styles, style diffs, formatters (every flag combination, every usize width and precision), all Debug placeholders", "why_tests_cant": "Distinctness is about all pairs of an unbounded set (widths and precisions) under all placeholders.", "anchors": ["style/src/lib.rs:Style", "style/src/lib.rs:StyleDiff", "style/src/lib.rs:Color", "style/src/lib.rs:Intensity", "core/src/formatter.rs:Debug for Formatter", "core/src/formatter.rs:FormatterArgs"]}
{"id": "C87", "title": "Several Ansi adaptors on one terminal", "statement": "When several Ansi adaptors write to one terminal (standard output and standard error, clones of one handle), in any interleaving: every character is shown once and in order, and once every adaptor is finished or back in the default style the terminal is in the default style. The characters are shown in their styles exactly if every write finds those attributes already in force that its own adaptor does not change because it last wrote with them; in particular if adaptors take turns, that is, one is only used while all others are in the default style. The same bytes reach any sink through io::Ansi when all calls succeed.", "quantifier": "any number of adaptors, all interleavings of writes (any text without control characters, any styles) and finishes, all honest sinks and schedules of short writes for io", "why_tests_cant": "the adaptors' private states and the terminal's state drift apart only for particular interleavings of styles; tests try a few", "anchors": ["ansi/src/ansi.rs: Ansi::write_str, Ansi::finish, Ansi::new, derive(Clone)", "ansi/src/io.rs: Ansi"]}
{"id": "C88", "title": "Several Html adaptors in one document", "statement": "When several Html adaptors write into one document, in any interleaving: every character is shown once and in order, the document is well formed, it has as many open elements as there are adaptors in a non-default style (so none once all are finished); every style change closes the innermost element, whoever opened it, and text is shown in the combination of the styles of the open elements. If adaptors take turns every character is shown in its style.", "quantifier": "any number of adaptors, all interleavings of writes (any text, any styles) and finishes", "why_tests_cant": "well-formedness of all interleavings needs a counting invariant over all adaptors", "anchors": ["html/src/html.rs: Html::write_str, Html::finish, Html::new, derive(Clone)"]}
{"id": "C89", "title": "Nested documents: the innermost setting of each attribute counts", "statement": "User types that implement Display by write_str, by formatting their fields one after the other, by Formatter::with, by the macros with positional, named and captured fields, and stylish::Strings inside them, nested to any depth: displaying such a value shows the characters of its parts from left to right, each with, for every attribute, the value set by the innermost placeholder, with() or stored String around it that sets this attribute, and otherwise that of the formatter given from outside. Whether it can be displayed and its characters do not depend on the formatter; a format! call shows exactly that in all four formats.", "quantifier": "all documents (trees of any depth and width, any accepted format strings, any std values at the leaves), all formatters", "why_tests_cant": "The nesting depth and the combinations of settings at each level are unbounded.", "anchors": ["core/src/formatter.rs:Formatter::with", "core/src/formatter.rs:Formatter::with_args", "core/src/display.rs:Display", "core/src/arguments.rs:Arguments", "core/src/string.rs:Display for String", "macros/src/lib.rs:format_args_impl"]}
{"id": "C90", "title": "A rejected format string is reported at the place where it goes wrong", "statement": "When a format string is rejected, the input shown in the compile error is an end of the format string that is fixed by the grammar alone. A mistake in an attribute list is reported (as a Failure with code Tag) exactly at the place where an attribute name, an equals sign or a color name had to come, provided everything before is a sequence of complete pieces and a correctly begun placeholder. Every other mistake is reported (as an Error with code Eof) at the first brace where no piece of a format string starts, so for a bad placeholder at its opening brace, with the rest of the string. The parser panics on its own exactly when a placeholder reached this way has a fill character other than a space. No other codes occur. The text before the reported place can always be continued to an accepted string.", "quantifier": "all format strings, all identifier tables that agree with Unicode on ASCII", "why_tests_cant": "Which position and code the parser reports depends on backtracking through every alternative for every string; a test covers single strings.", "anchors": ["macros/src/format.rs: Format::parse, Piece::parse, FormatArg::parse, FormatSpec::parse, StyleDiff::parse", "macros/src/lib.rs: format_args_impl"]}
{"id": "C91", "title": "Ansi sessions survive failed write_all and write! calls too", "statement": "In any sequence of write, write_all, write! and flush calls on io::Ansi any call may fail at any point, also in the middle of the text of a write_all or of a multi-style write!. If after a failed call the caller goes on in the style of that call's text (or, on sinks whose write_all does not fail after delivering everything, in a style used neither by the last successful call nor by a failed one since; finish counts as the default style), a terminal shows exactly what arrived, every character in its style: all of the text of the successful calls and some first part of that of each failed one. The same holds for the in-memory Ansi adaptor over a sink that takes all or nothing of each call, where the sink and the formatting code may also panic, and, for formatting code that goes on after failed writes, in terms of the single writes it makes. The proviso is needed.", "quantifier": "all sequences of calls with any texts, styles and formatting code, all honest sinks and all points and kinds of failure", "why_tests_cant": "the failure can happen at every byte of every escape sequence and text of every call, in every session", "anchors": ["ansi/src/io.rs: Ansi::write, finish", "ansi/src/ansi.rs: Ansi::write_str, finish", "core/src/io.rs: Write::write_all, write_fmt, ErrorTrap"]}
{"id": "C92", "title": "ANSI output looks right on terminals of any kind", "statement": "Whatever a terminal's own notion of rendition is (independent bold and faint bits, underlining, no colors, no bright colors, ...): if each of the parameters for reset, bold, faint, normal intensity and the colors takes the look of one style to the look of the style with that attribute changed, for styles with certain intensities, then all output in styles with those intensities looks right on it: each character is shown as its style should look there and finish brings back the default look. The same holds for outputs sent one after another, selections of lines, several adaptors in turn, and sessions in which calls fail. A terminal with independent bold and faint (xterm) understands the styles without faint, and those without bold, but there is no look under which it understands all.", "quantifier": "all terminals (types of rendition and effects of parameters), looks, sets of intensities they understand, histories, interleavings, sessions, sinks and failures", "why_tests_cant": "A test looks at the bytes or at one terminal emulator; this ranges over every terminal that has the ECMA-48 attributes in any form, and every stream.", "anchors": ["ansi/src/ansi.rs: Ansi::write_str, Ansi::finish", "ansi/src/io.rs: io::Ansi", "ansi/src/util.rs: foreground, background, intensity", "style/src/lib.rs: Style::diff_from"]}
{"id": "C93", "title": "io::Ansi sessions survive short writes and failures that cut characters", "statement": "In any sequence of write, write_all, write! and flush calls on io::Ansi over any honest sink, write may accept any number of bytes, also parts of characters, and any call may fail at any point. If the caller goes on as in C91 and the bytes that arrived, taken together where adjacent calls wrote in the same style, are the UTF-8 encoding of a styled text, then a terminal of any kind that understands the styles shows exactly that text. In particular, texts offered to write again and again (after short writes, WouldBlock, Interrupted or any other error, with flushes in between) until all bytes are accepted are shown exactly once, each in its style. A failed write in another style does separate the bytes before and after it.", "quantifier": "all sequences of calls, texts and styles, all honest sinks, all points and kinds of failure and all ways of cutting the bytes, all terminals that understand the styles", "why_tests_cant": "every short write can cut every multi-byte character and every failure can tear every escape sequence; tests use sinks that take everything", "anchors": ["ansi/src/io.rs: io::Ansi::write, io::Ansi::finish", "core/src/io.rs: Write::write_all, Write::write_fmt"]}
{"id": "C94", "title": "io adaptors over std's buffered writers", "statement": "With std::io::BufWriter or LineWriter (as in Stdout) between io::Ansi or io::Plain and any honest destination, everything proved for honest sinks still holds of what the destination and the buffer hold together: after any session of successful calls and finish they hold an output that a terminal shows as exactly the styled text, ending in the default style; at most the buffer's capacity of it is missing at the destination; it is all there once flush or into_inner succeeds. In between, a terminal at the destination shows a beginning of the text, all but at most as many characters as the capacity, and with a LineWriter (on a destination that takes all it is offered) every complete line. finish alone delivers nothing more, and errors of the destination may appear only at the flush (dropping the writer loses them). After a failed call a BufWriter allows the same retries as its destination; a LineWriter does not.", "quantifier": "all destinations meeting the io::Write contract (short writes, interruptions, errors), all capacities, all sessions of write, write_all, write! and flush calls, both kinds of buffering and nestings of them", "why_tests_cant": "The buffer's contents depend on the lengths of all earlier writes, the capacity and the destination's answers; the guarantee is for every combination and at every moment.", "anchors": ["ansi/src/io.rs: Ansi::write, finish, flush", "plain/src/io.rs: Plain", "core/src/io.rs: Write::flush, Write::write_all"]}
{"id": "C95", "title": "Formatting code that may run forever is shown as it goes", "statement": "A value's formatting code may write without end (an endless sequence, a progress log). At every moment of a `write!` of such values, what has been done is exactly the literal texts and the code of the placeholders' values one after the other: everything the code has written so far has reached the inner writer, rendered as if it had just ended, nothing is held back and nothing is taken back later; pieces after a value whose code never ends are never begun. If the code keeps writing and gives up when a write fails (the usual `?`), then on a writer with limited room (a fixed-size buffer, any adaptor over one) the call returns, with an error (WriteZero for io::Ansi over a fixed-size buffer) unless the code ends of itself.", "quantifier": "every format string, every argument value with code of possibly infinitely many steps that reads and changes state and may catch panics, every writer, every moment of the run", "why_tests_cant": "an endless run cannot be tested to the end, and the claim is about every moment of every run of every such code", "anchors": ["core/src/formatter.rs: Formatter::write_str, Formatter::write_fmt", "core/src/write.rs: Write::write_fmt", "core/src/io.rs: write_fmt, ErrorTrap", "core/src/std_compat.rs: StdProxy", "macros/src/lib.rs: format_args_impl"]}
{"id": "C96", "title": "Format strings can be joined, split, factored, numbered and named", "statement": "Two format strings, each accepted with its own arguments, can be joined: the joined string is accepted with the arguments in the same order and writes what the first writes and then, if that succeeded, what the second writes (provided the first uses its positional arguments by bare placeholders, the second has no explicit indices and neither uses a name the other defines). Part of a format string can be moved with its arguments to a `format_args!` of its own, used with `{:s}` in its place: same text, same styles, same result. Numbering the bare placeholders explicitly, or passing a captured variable as an argument of its name, changes nothing. The one exception to joining: a first string that ends in `:}` (an empty spec) followed by one that begins with `<`, `^` or `>` is rejected at compile time.", "quantifier": "every pair or triple of format strings, every values of the arguments with any formatting code, every formatter", "why_tests_cant": "it is about all ways to cut all format strings; the exception shows that a sample of pairs is not enough", "anchors": ["macros/src/format.rs: Format::parse, FormatSpec::parse, Piece::parse", "macros/src/lib.rs: format_args_impl", "core/src/arguments.rs: Display for Arguments"]}
{"id": "C97", "title": "Which argument expressions are taken whole", "statement": "An argument of a formatting macro (positional or named) that is a literal, path, block, call, method call, field, index, reference, dereference, negation, closure, range without left end or any parenthesised expression is taken whole: the generated code, as the compiler reads it, evaluates exactly this expression and formats its value with the chosen trait, and type checks if the expression does. An argument whose outermost construct is a binary operator, range with a left end, cast or assignment is not: the generated `&` applies to its leftmost operand only (`format!(\"{}\", 1 + 2)` generates `&1 + 2`). With a std trait such a call is rejected by the compiler unless the operator happens to give a reference; with `{:s}` the operator is called with a reference as left operand. Parenthesising the argument makes it whole and does not change what it means.", "quantifier": "every token sequence that is a macro call, every argument expression of any nesting and any operators, every type assignment and every meaning of the operators", "why_tests_cant": "it quantifies over all expressions and all user-defined operators; the repository's tests contain no operator expression as an argument at all", "anchors": ["macros/src/lib.rs: ArgsInput::parse, format_args_impl (positional_args, named_args_values)", "macros/src/to_tokens.rs: Scoped<(FormatTrait, TokenStream)>"]}
{"id": "C98", "title": "Every combination of Cargo features compiles and gives the documented names", "statement": "Whatever features the crates of a build turn on in stylish and in the crates below it, every item that is compiled mentions only items that exist, every macro that exists expands to items that exist (except stylish_core::write! and writeln!, which exist without the macros feature), turning on more features never removes an item, std implies alloc in every crate, and the public names of stylish are exactly those documented for the features its users name. Features turned on in other crates do not change this, except that stylish::format! (and ansi::/html::/plain::format!) appears when somebody else turns on macros of the crate below.", "quantifier": "every list of requests (crate, place, features) of a build, every list of stylish features, both Cargo feature resolvers, every item", "why_tests_cant": "CI builds a few feature combinations of one workspace; unification with the requests of unknown downstream crates makes the set of combinations unbounded", "anchors": ["Cargo.toml [features]", "core/Cargo.toml", "ansi/Cargo.toml", "html/Cargo.toml", "plain/Cargo.toml", "style/Cargo.toml", "macros/Cargo.toml", "src/lib.rs", "core/src/lib.rs", "README.md Features"]}
{"id": "C99", "title": "A build that does not ask for std or alloc gets neither", "statement": "With Cargo's resolver 2, if nothing built for the target asks for std, alloc or default of the crates, no crate links alloc or std into the target, also with macros on. With stylish alone each crate links alloc and std exactly with the features alloc and std; the exceptions are stylish-style, which never links them in the target with resolver 2 (so impl Restyle for Box<T> is not available to users of stylish whatever features they turn on), and which with resolver 1 links alloc exactly when macros is on.", "quantifier": "every list of requests of a build, every list of stylish features, both resolvers, every crate of the repository", "why_tests_cant": "a test build on a host always has std; it depends on the requests of all crates of the build", "anchors": ["Cargo.toml [features]", "core/Cargo.toml", "macros/Cargo.toml stylish-style.features", "style/src/lib.rs impl Restyle for Box", "src/lib.rs extern crate std"]}
{"id": "C100", "title": "Threads that share a terminal", "statement": "When several threads each have an Ansi (or io::Ansi) of their own on a handle to one shared place that locks per call, such as stdout: if no thread gets in while another is in the middle of a control sequence, the characters shown are exactly those the threads wrote, every one once and each thread's in order, whatever the styles; the terminal is ready for text at the end, and in the default style if every thread finished its adaptor. Outputs that are finished first and sent in one call each are shown as they are, styles included. The adaptors do not give that exclusion: an escape is sent in several calls, so for any styled text and any text of another thread that starts with a letter there is a schedule that loses the letter and shows the rest of the escape as text. Threads that use one adaptor in turns (behind a lock) have every text shown in order and in its styles, in both formats, whatever the order of their writes.", "quantifier": "all programs of any number of threads, all texts without control characters, all styles, all schedules of their calls on the shared handle", "why_tests_cant": "the outcome depends on the schedule, and the schedules cannot be enumerated", "anchors": ["ansi/src/ansi.rs: Ansi::write_str, Ansi::finish", "ansi/src/io.rs: io::Ansi::write, finish"]}
{"id": "C101", "title": "Text is not taken for markup, unless writing goes on after a failure or threads interleave", "statement": "To an HTML tokenizer the finished output of the Html adaptor consists of exactly the characters of the text and, for each run of non-default style, a span with the style as its only attribute. If the output is cut anywhere, or a write fails at any point of any sink and nothing is written after that, there is still no tag other than such spans, no other attribute, and no character that is not of the text, in order. The same holds for any mix of finished outputs that threads send in one call each. If writing goes on after a write that failed inside a tag, or threads interleave their calls, the escaping does not protect: as the style attribute is unquoted, a text such as 'x onclick=... ' then sets any attribute to any value without white space.", "quantifier": "all histories of writes, all cut points, all sinks and failure schedules, all schedules of threads; all attribute names of lower case letters and all values without white space", "why_tests_cant": "the guarantee is about every text, cut point, failure and schedule", "anchors": ["html/src/html.rs: Html::write_str, Html::finish"]}
{"id": "C102", "title": "How often the sink is called", "statement": "Writing through the adaptors takes a bounded number of calls on the sink, whatever the sink does: Plain makes one call for each write; Ansi one for each non-empty write, one for a reset, and for another change of style two for each attribute that changes and one more, so at most eight for a write; Html one for each non-empty write and two for each escaped character, one for a closing tag, and for an opening tag two for each attribute set and one more. If all calls succeed it is exactly that number. Cutting text of one style into more writes costs one call for each further write and nothing else. io::Ansi makes as many calls as Ansi.", "quantifier": "all sequences of writes (texts and styles), all sinks including failing and panicking ones", "why_tests_cant": "a bound for all histories and sinks", "anchors": ["ansi/src/ansi.rs: Ansi::write_str", "html/src/html.rs: Html::write_str", "plain/src/plain.rs: Plain::write_str", "ansi/src/io.rs: io::Ansi::write"]}
{"id": "C103", "title": "Clones of adaptors", "statement": "A clone of an adaptor has a clone of the inner writer and goes on in the style the original was in. Over Strings the clones are independent: finishing any of them returns what a single adaptor returns that was given everything it and the adaptors it was cloned from were told to write, up to the cloning. Over handles to one place (Rc, Arc, a file reference): with Ansi every character is shown once and in order, everything is shown in its style exactly if each adaptor's change takes effect on what is in force, and once all clones are finished the terminal is in the default style; a clone that takes over from an original that is no longer used continues its output exactly. With Html the document is well formed once all are finished exactly if every clone was made of an adaptor in the default style: one clone made in another style, and a closing tag has no element to close. A default adaptor is a new one over a default writer.", "quantifier": "all sequences of writes, finishes and clonings of any number of adaptors; for io::Ansi all honest sinks and successful runs", "why_tests_cant": "the sequences and numbers of clones are unbounded, and the failure needs a clone at one particular kind of moment", "anchors": ["ansi/src/ansi.rs: derive(Clone, Default) for Ansi", "html/src/html.rs: derive(Clone, Default) for Html", "plain/src/plain.rs: derive(Clone, Default) for Plain", "ansi/src/io.rs: derive(Clone) for io::Ansi"]}
{"id": "C104", "title": "The output can be searched and edited as text", "statement": "A piece of text written in one style (in one or more writes) is in the ANSI output in one piece, and in the HTML output in one piece in its escaped form, so that searching finds it. Conversely, whatever is found in the output outside escape sequences and tags was written, in one style, at the place shown there; in ANSI output a search pattern that begins neither with ESC nor with one of the characters [ 0 to 9 ; m is never found inside an escape sequence. Replacing a text found this way by another one gives exactly the output the adaptor would have written for the other text; replacing it by nothing gives something that is shown as the text without it, and leaves the default style.", "quantifier": "all histories of writes, all search patterns and replacements, all places where they are found", "why_tests_cant": "the texts, styles, patterns and places are unbounded", "anchors": ["ansi/src/ansi.rs: Ansi::write_str, Ansi::finish", "html/src/html.rs: Html::write_str, Html::finish"]}
{"id": "C105", "title": "Sinks with their own write_fmt", "statement": "The adaptors send markup to the sink's write_str and text through the sink's write_fmt (write!), which a sink may override. Over a sink whose two methods agree it makes no difference. Over any sink both of whose methods keep what they are given (all on success, a prefix otherwise), in whatever way and failing wherever they like, the sink holds at each point a prefix of the output a String would get, all of it when the writes succeeded, and the finished output after a successful finish. write_fmt is called once for each non-empty write, with exactly its text (escaped, for HTML) and no markup; write_str gets only markup. Hence a sink that changes text in its write_fmt changes the text and leaves styles alone.", "quantifier": "all sinks (state, both methods, results, panics), all histories of writes", "why_tests_cant": "sinks and their failures are arbitrary code; histories are unbounded", "anchors": ["ansi/src/ansi.rs: Ansi::write_str (line 77), Ansi::finish", "html/src/html.rs: Html::write_str (line 86), Html::finish"]}
{"id": "C106", "title": "Threads with adaptors of their own on one document, or taking turns", "statement": "Several threads each have an Html adaptor of their own over one shared document, each write_str call of an adaptor being one uninterrupted addition to the document. If no thread gets in while another is in the middle of a tag or a character reference, then for every schedule the document is well formed at the end: it shows every character written by every thread exactly once, each thread's characters in the order it wrote them, and if all threads finished their adaptors no element is left open (the styles may be mixed up). If, moreover, another thread gets in only when the thread that wrote last has closed the elements it opened (for Html), or is back in the default rendition (for Ansi on a terminal), then every character is also shown in the style its own thread gave it. Threads that hold a lock from the creation of an adaptor to its finish take turns in this sense, in whatever order and however often they get the lock, and the result shows their texts one after the other in the order of the lock. For threads with io::Ansi adaptors, every schedule of the byte writes gives the UTF-8 encoding of what Ansi adaptors give under the same schedule.", "quantifier": "every number of threads, every list of writes and finishes per thread, every text and style, every schedule of the write_str calls that meets the stated condition; every sequence of lock holders", "why_tests_cant": "It ranges over all interleavings of all programs; a test observes one schedule.", "anchors": ["html/src/html.rs Html::write_str", "html/src/html.rs Html::finish", "ansi/src/ansi.rs Ansi::write_str", "ansi/src/ansi.rs Ansi::finish"]}
