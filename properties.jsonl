{"id": "C01", "title": "Numbers are always well formed", "statement": "Every Number a program can obtain from the constructors and the arithmetic operators (+ - * / % and unary -) is well formed: exactly one of is_i64/is_u64-style integer or is_f64 holds, an integer Number in the negative class is < 0, and a float Number is finite and has a fractional part.", "quantifier": "all finite sequences of Number constructions and arithmetic operations over all u64, i64 and f64 inputs", "why_tests_cant": "the operand space is 2^128 pairs and the failing cases are at boundary values reached only by chains of operations", "anchors": ["crates/hcl-primitives/src/number.rs: N, from_finite_f64, coerce, impl Neg/Add/Sub/Mul/Div/Rem, Number::from_f64"]}
{"id": "C02", "title": "Number equality, ordering and hashing agree with the mathematical value", "statement": "For well-formed Numbers, == holds exactly when the two Numbers denote the same real number, partial_cmp is total and is the order of the denoted real numbers, and equal Numbers hash equally; hence Number can be a map key.", "quantifier": "all pairs and triples of well-formed Numbers (mixed integer/float included)", "why_tests_cant": "mixed comparisons go through a lossy integer-to-f64 conversion; only a proof over all 2^64 integers and all doubles rules out a collision", "anchors": ["crates/hcl-primitives/src/number.rs: PartialEq, PartialOrd, Hash for N, coerce, to_f64"]}
{"id": "C03", "title": "Integer arithmetic on Numbers is exact", "statement": "If both operands and the exact mathematical result of +, -, *, unary - (and %) are integers of magnitude at most 2^53, the operator returns exactly the Number of that integer, whatever representation class the operands are in. Unary minus applied to a zero Number is the zero Number.", "quantifier": "all integer pairs in the range, all five operators", "why_tests_cant": "operators switch between u64, i64 and f64 paths depending on signs; a test can only sample pairs", "anchors": ["crates/hcl-primitives/src/number.rs: impl Neg/Add/Sub/Mul/Rem for N, from_finite_f64"]}
{"id": "C04", "title": "Number::from_f64 preserves the value and as_i64/as_u64/as_f64 are faithful", "statement": "Number::from_f64(x) is None exactly for non-finite x; otherwise it denotes exactly the real number x. as_i64/as_u64 return Some(n) exactly when the Number denotes the integer n and n is in range of the type.", "quantifier": "all 2^64 doubles, all Numbers", "why_tests_cant": "there are 2^64 doubles; the loss happens only outside the i64 range", "anchors": ["crates/hcl-primitives/src/number.rs: Number::from_f64, as_i64, as_u64, from_finite_f64"]}
{"id": "C05", "title": "Identifier construction only yields valid identifiers and sanitizing is idempotent", "statement": "Ident::try_new accepts s exactly when s is a non-empty string starting with an identifier-start character followed by identifier-continue characters. Ident::new_sanitized returns, for every s, an Ident that try_new accepts, leaves valid identifiers unchanged (so it is idempotent), keeps the length except for at most one added leading underscore, and maps the empty string to \"_\".", "quantifier": "all strings over all Unicode scalar values, for any XID tables with XID_Start included in XID_Continue", "why_tests_cant": "the set of strings is unbounded and depends on Unicode tables", "anchors": ["crates/hcl-primitives/src/ident.rs: Ident::try_new, Ident::new_sanitized, is_ident, is_id_start, is_id_continue"]}
{"id": "C06", "title": "Operator spelling and precedence are unambiguous", "statement": "Parsing the printed form of any unary or binary operator yields the operator again, no two operators share a spelling, and precedences are ordered || < && < ==,!= < relational < additive < multiplicative.", "quantifier": "all operators and all strings (every other string is rejected)", "why_tests_cant": "from_str ranges over all strings", "anchors": ["crates/hcl-primitives/src/expr.rs: UnaryOperator, BinaryOperator, as_str, from_str, precedence"]}
{"id": "C07", "title": "Template marker escaping round-trips", "statement": "For every string s, unescape_markers(escape_markers(s)) = s, and escape_markers(s) contains no unescaped ${ or %{ marker, so that a literal text is never turned into an interpolation by printing and parsing it.", "quantifier": "all strings", "why_tests_cant": "the property concerns arbitrary interleavings of $, % and { in arbitrarily long strings", "anchors": ["crates/hcl-primitives/src/template.rs: escape_markers, unescape_markers"]}
{"id": "C08", "title": "hcl-edit Body never holds two attributes with the same key", "statement": "Starting from an empty or parsed Body, after any sequence of push/try_push/insert/try_insert/remove/remove_attribute/remove_blocks/clear/extend operations, no two attributes of the Body have equal keys; a rejected insertion leaves the Body unchanged and hands the attribute back.", "quantifier": "all finite operation histories over all structures and indices", "why_tests_cant": "histories are unbounded", "anchors": ["crates/hcl-edit/src/structure/body.rs: Body::push, try_push, insert, try_insert, remove, remove_attribute, remove_blocks, extend"]}
{"id": "C09", "title": "hcl-edit Body behaves like an ordered sequence with keyed attribute lookup", "statement": "Each Body operation has exactly the effect of the corresponding list operation: insert puts the structure at the index and shifts the rest, remove returns and deletes the structure at the index, get_attribute finds the attribute iff present, get_blocks/remove_blocks select exactly the blocks with that identifier in order, and no operation reorders the remaining structures.", "quantifier": "all finite operation histories; observations after every step", "why_tests_cant": "needs a refinement argument over all histories", "anchors": ["crates/hcl-edit/src/structure/body.rs"]}
{"id": "C10", "title": "hcl-edit Object is an insertion-ordered map", "statement": "Object keys are unique; insert of a fresh key appends it, insert of an existing key replaces the value in place and returns the old one, remove deletes the entry and keeps the order of the others, get returns the last inserted value.", "quantifier": "all finite operation histories over all keys and values", "why_tests_cant": "histories are unbounded", "anchors": ["crates/hcl-edit/src/expr/object.rs: Object"]}
{"id": "C11", "title": "Block label matching is exact", "statement": "Block::has_labels(p) holds iff p is a prefix of the block's label strings, has_exact_labels(p) iff p equals the list of label strings; get_blocks and the labelled iterators return exactly the matching blocks.", "quantifier": "all label lists and patterns", "why_tests_cant": "lists of unbounded length", "anchors": ["crates/hcl-edit/src/structure/block.rs: has_labels, has_exact_labels, BlockLabel::as_str"]}
{"id": "C12", "title": "Resolving spans of parsed text restores exactly the source slices", "statement": "After parsing, every whitespace/comment decoration and representation that was recorded as a span is replaced by exactly the source text of that span, so that subsequently modifying or moving a node cannot change the text of other nodes.", "quantifier": "all parsed documents and all nodes", "why_tests_cant": "ranges over all syntax trees", "anchors": ["crates/hcl-edit/src/raw_string.rs: RawString::despan", "crates/hcl-edit/src/repr.rs: Decor::despan", "crates/hcl-edit/src/expr/operation.rs: BinaryOp::despan", "crates/hcl-edit/src/expr/traversal.rs"]}
{"id": "C13", "title": "Heredoc dedent removes exactly the common indentation", "statement": "Dedenting a heredoc template removes from every line the same number of leading whitespace characters, the largest number for which this is possible, removes nothing but whitespace, and leaves interpolations and directives untouched; indenting a multi-line string by n and dedenting it gives the original string back.", "quantifier": "all templates (any mix of literals and interpolations over any lines) and indentations", "why_tests_cant": "line structure is unbounded; lines may straddle several template elements", "anchors": ["crates/hcl-edit/src/template/mod.rs: HeredocTemplate::dedent", "crates/hcl-edit/src/util.rs: dedent_by, indent_by, min_leading_whitespace"]}
{"id": "C14", "title": "Parse error locations point into the input", "statement": "The line and column of a parse error are those of the error offset: line-1 newlines precede it, and column-1 characters separate it from the last newline (or the start), and the quoted source line is exactly that line of the input; the location computation cannot panic.", "quantifier": "all inputs and all error offsets", "why_tests_cant": "all strings and offsets", "anchors": ["crates/hcl-edit/src/parser/error.rs: Location, locate_error"]}
{"id": "C15", "title": "Parsing always terminates with a result or an error", "statement": "For every input text the expression, template and body parsers return a result or an error after finitely many steps; there is no input on which they loop.", "quantifier": "all strings", "why_tests_cant": "infinitely many inputs; non-termination cannot be observed by a test", "anchors": ["crates/hcl-edit/src/parser/*"]}
{"id": "C16", "title": "Parse-then-print is lossless", "statement": "Parsing a configuration and printing the resulting tree yields the original text, byte for byte, comments and whitespace included.", "quantifier": "all texts accepted by the parser", "why_tests_cant": "all texts; deviations occur only for rare combinations of trivia and constructs", "anchors": ["crates/hcl-edit/src/parser/*", "crates/hcl-edit/src/encode/*"]}
{"id": "C17", "title": "Operator expressions are grouped by precedence and no operand is dropped", "statement": "Parsing a chain of operands and binary operators yields the tree whose in-order traversal is exactly that chain, in which operators of higher precedence bind tighter and equal precedence associates to the left.", "quantifier": "all operator chains of any length", "why_tests_cant": "unbounded chains; the defect depends on the combination of operators", "anchors": ["crates/hcl-edit/src/parser/pratt.rs", "crates/hcl-primitives/src/expr.rs: precedence"]}
{"id": "C18", "title": "Parsed bodies have unique attribute keys", "statement": "Whenever parsing a body succeeds, no attribute key occurs twice at the same level, and a body with a repeated key is rejected with an error.", "quantifier": "all bodies at every nesting level", "why_tests_cant": "all documents", "anchors": ["crates/hcl-edit/src/parser/structure.rs", "crates/hcl-edit/src/structure/body.rs"]}
{"id": "C19", "title": "Quoted strings round-trip through printing and parsing", "statement": "Printing any string value as a quoted string and parsing it gives the same string value back and consumes exactly the printed text. A quoted string literal is read as the sequence of its characters and escapes, and a \\u or \\U escape whose code point is no Unicode scalar value is rejected.", "quantifier": "all strings over all Unicode scalar values", "why_tests_cant": "all strings, including control characters, quotes, backslashes and template markers", "anchors": ["crates/hcl-edit/src/encode/mod.rs: encode_escaped, encode_quoted_string", "crates/hcl-edit/src/parser/string.rs", "crates/hcl-primitives/src/template.rs"]}
{"id": "C20", "title": "Integer literals are read exactly", "statement": "Parsing the decimal digits of n yields the Number n for every n representable as u64, printing a Number that is an integer and parsing it yields it again, and larger literals are rejected or read as floats, never wrapped.", "quantifier": "all natural numbers / all digit strings", "why_tests_cant": "2^64 values and unbounded digit strings", "anchors": ["crates/hcl-edit/src/parser/number.rs: integer, number", "crates/hcl-primitives/src/number.rs: Display"]}
{"id": "C21", "title": "Formatting then parsing gives back the same document", "statement": "For every hcl-rs expression and body built from values, variables, traversals, calls, conditionals, parenthesised operations, for-expressions, quoted templates and heredocs, and for every template made of literals, interpolations and directives, formatting it (in any formatter configuration) and parsing the text yields an equal expression, body or template. (False for some trees that can be built or parsed, e.g. quoted templates with escape sequences.)", "quantifier": "all expressions/bodies/templates in the class, all formatter options", "why_tests_cant": "unbounded trees and combinations of options", "anchors": ["crates/hcl-rs/src/format/*", "crates/hcl-edit/src/parser/*", "crates/hcl-rs/src/expr/edit.rs", "crates/hcl-rs/src/template/edit.rs"]}
{"id": "C22", "title": "A Formatter can be reused", "statement": "Formatting a value with a Formatter that has already formatted other values gives the same text as with a fresh Formatter.", "quantifier": "all histories of format calls on one Formatter", "why_tests_cant": "history-dependent state", "anchors": ["crates/hcl-rs/src/format/mod.rs: Formatter, FormatState, format_vec, format_string"]}
{"id": "C23", "title": "Formatting only changes layout between configurations", "statement": "Two formatter configurations (indent, compact arrays/objects, dense, prefer_ident_keys) give texts that differ only in whitespace, and compact mode never emits a newline inside an expression without heredocs; indentation of nested elements equals nesting depth times the indent string.", "quantifier": "all expressions and all configurations", "why_tests_cant": "unbounded trees", "anchors": ["crates/hcl-rs/src/format/mod.rs", "crates/hcl-rs/src/format/impls.rs"]}
{"id": "C24", "title": "Literal values evaluate to themselves", "statement": "Converting any Value to an Expression and evaluating it in any context succeeds with the same Value, and from_value/into conversions Value -> Expression -> Value are the identity.", "quantifier": "all values, all contexts", "why_tests_cant": "values nest without bound; strings may contain template markers", "anchors": ["crates/hcl-rs/src/expr/mod.rs: From<Value> for Expression, From<Expression> for Value", "crates/hcl-rs/src/eval/impls.rs"]}
{"id": "C25", "title": "In-place evaluation agrees with evaluation", "statement": "If evaluate_in_place succeeds on an expression it replaces the expression by the literal for exactly the value evaluate returns in the same context, and evaluate succeeds too.", "quantifier": "all expressions, contexts and user functions", "why_tests_cant": "two separate recursive implementations must agree on all inputs", "anchors": ["crates/hcl-rs/src/eval/impls.rs: evaluate_in_place", "crates/hcl-rs/src/eval/mod.rs: Evaluate"]}
{"id": "C26", "title": "Partial (in-place) evaluation is sound for later evaluation", "statement": "If evaluate_in_place fails in a context (unknown variables), the partially simplified expression it leaves behind still evaluates, in any context that extends the first one and in which the original evaluates, to the same value as the original.", "quantifier": "all expressions, all contexts and all their extensions", "why_tests_cant": "quantifies over all extensions of a context", "anchors": ["crates/hcl-rs/src/eval/impls.rs: evaluate_in_place", "crates/hcl2json/src/main.rs: simplify"]}
{"id": "C27", "title": "Variable and function lookup is lexically scoped", "statement": "A variable evaluates to the innermost declaration on the context chain; declarations inside a child scope (e.g. a for expression's variables) shadow outer ones, and are not visible and leave outer declarations unchanged after the scope is left.", "quantifier": "all context chains and declaration histories", "why_tests_cant": "all chains", "anchors": ["crates/hcl-rs/src/eval/mod.rs: Context::lookup_var, lookup_func, declare_var, child"]}
{"id": "C28", "title": "For expressions compute the documented comprehension", "statement": "A for expression over an array or object evaluates to the list (or map) of the body evaluated for every element for which the condition holds, in collection order; object results group in order when grouping is requested and fail on duplicate keys otherwise; failure happens exactly if the collection, a condition, a key or a value fails.", "quantifier": "all collections, bodies, conditions, contexts", "why_tests_cant": "unbounded collections and arbitrary bodies", "anchors": ["crates/hcl-rs/src/eval/impls.rs: impl Evaluate for ForExpr", "crates/hcl-rs/src/eval/expr.rs: Collection"]}
{"id": "C29", "title": "Splat traversals map over arrays", "statement": "x[*].rest equals the array of rest applied to each element, x.*.a.b likewise for attribute paths only, a null operand gives the empty array, and any other operand is treated as a one-element array; indexing is in bounds or a reported error.", "quantifier": "all values and traversal operator chains", "why_tests_cant": "unbounded chains and values", "anchors": ["crates/hcl-rs/src/eval/expr.rs: evaluate_traversal, evaluate_splat, evaluate_attr_splat, evaluate_full_splat"]}
{"id": "C30", "title": "User functions are only called with arguments matching their signature", "statement": "A user function body is entered only if the number of arguments matches the declared parameters (at least when variadic) and every positional and variadic argument satisfies its declared parameter type; otherwise an error is reported and the body is not run. FuncArgs splits exactly into positional and variadic arguments.", "quantifier": "all function definitions, signatures, argument lists", "why_tests_cant": "all signatures and argument lists", "anchors": ["crates/hcl-rs/src/eval/func.rs: FuncDef::call, ParamType::is_satisfied_by, FuncArgs"]}
{"id": "C31", "title": "Template evaluation respects strip markers", "statement": "Evaluating a template yields the concatenation of its parts where a literal next to a ~ marker has lost, on that side, exactly the spaces up to and including one line break, and a template made of exactly one interpolation yields the unconverted value.", "quantifier": "all templates and contexts", "why_tests_cant": "all element sequences", "anchors": ["crates/hcl-rs/src/eval/template.rs: strip_literal, evaluate_template", "crates/hcl-rs/src/eval/impls.rs: TemplateExpr"]}
{"id": "C32", "title": "Evaluation never panics", "statement": "Evaluating any expression in any context returns a value or an error.", "quantifier": "all expressions and contexts", "why_tests_cant": "all inputs", "anchors": ["crates/hcl-rs/src/eval/*", "crates/hcl-primitives/src/number.rs"]}
{"id": "C33", "title": "Evaluation results are literal and evaluation is idempotent", "statement": "After a successful in-place evaluation of a body every attribute expression is a literal, block structure, order, identifiers and labels are unchanged, and evaluating again in any context changes nothing.", "quantifier": "all bodies and contexts", "why_tests_cant": "all bodies", "anchors": ["crates/hcl-rs/src/eval/impls.rs: Evaluate for Body/Structure/Attribute/Block"]}
{"id": "C34", "title": "The JSON mapping of bodies follows the HCL JSON specification", "statement": "Converting a body to its JSON form gives one object entry per attribute and per block type; blocks are nested by their labels, blocks with the same type and labels are collected in order, and no attribute or block is lost.", "quantifier": "all bodies (any number of attributes, blocks, labels, nesting)", "why_tests_cant": "unbounded documents; merge order matters", "anchors": ["crates/hcl-rs/src/structure/json_spec.rs: IntoJsonSpec, JsonNode::deep_merge"]}
{"id": "C35", "title": "Internal serialization state is balanced", "statement": "After a top-level serialization returns, the thread-local internal-serialization flag and the internal handle registry have the values they had before; handles are never reused while alive and each handle is taken exactly once.", "quantifier": "all nestings and sequences of serialization calls", "why_tests_cant": "all call trees", "anchors": ["crates/hcl-rs/src/ser/mod.rs: with_internal_serialization, InternalHandles"]}
{"id": "C36", "title": "hcl-rs and hcl-edit trees convert back and forth without change", "statement": "Converting an hcl-rs expression/template/body to its hcl-edit counterpart and back yields an equal tree.", "quantifier": "all trees", "why_tests_cant": "all trees", "anchors": ["crates/hcl-rs/src/expr/edit.rs", "crates/hcl-rs/src/structure/edit.rs", "crates/hcl-rs/src/template/edit.rs"]}
{"id": "C37", "title": "Values survive the serde data model", "statement": "to_value and from_value on Values are inverse: serializing any Value through the Value serializer and deserializing it gives the same Value; maps keep their order, integers keep their class.", "quantifier": "all values", "why_tests_cant": "values nest without bound", "anchors": ["crates/hcl-rs/src/value/ser.rs", "crates/hcl-rs/src/value/de.rs"]}
{"id": "C38", "title": "Visitors reach every node exactly once", "statement": "The default Visit traversal calls the visit hooks for each node of the tree exactly once in source order. VisitMut calls the hooks of the leaves exactly once each in source order and puts what they return in their place; with the default methods it leaves the tree unchanged, and whatever the hooks do, attribute names and object keys stay as they are.", "quantifier": "all trees", "why_tests_cant": "all trees", "anchors": ["crates/hcl-edit/src/visit.rs", "crates/hcl-edit/src/visit_mut.rs"]}
{"id": "C39", "title": "Equality of syntax trees ignores exactly formatting", "statement": "Two hcl-edit trees are equal iff they are the same after removing decorations and spans; in particular equal trees evaluate and print (after default decoration) identically, and equality is an equivalence relation.", "quantifier": "all pairs of trees", "why_tests_cant": "all pairs", "anchors": ["crates/hcl-edit/src/expr/*: PartialEq", "crates/hcl-edit/src/expr/func_call.rs: FuncArgs", "crates/hcl-edit/src/repr.rs: Decorated, Formatted"]}
{"id": "C40", "title": "hcl2json bulk conversion keeps the association of files and results", "statement": "The result of a bulk conversion contains, in path order, exactly one entry per successfully converted file; with continue_on_error a failing file removes only itself, without it any failure fails the run; results do not depend on the parallel schedule. The files converted are the paths given, with each directory replaced by the files in it that match the pattern; a directory that cannot be listed fails the run unless it is to continue.", "quantifier": "all file lists, conversion outcomes and schedules", "why_tests_cant": "all schedules", "anchors": ["crates/hcl2json/src/main.rs: bulk_convert, convert"]}
{"id": "C41", "title": "Declarations only add information", "statement": "If an expression evaluates successfully in a context, it evaluates to the same value in every context in which everything declared in the first is declared with the same value (in particular in a child scope).", "quantifier": "all expressions, contexts and their extensions", "why_tests_cant": "quantifies over all expressions and all pairs of contexts", "anchors": ["crates/hcl-rs/src/eval/mod.rs: Context", "crates/hcl-rs/src/eval/impls.rs"]}
{"id": "C42", "title": "Trees pass through the crate's serializers unchanged", "statement": "Serializing a Body with the HCL serializer (hcl::to_string and the like) formats exactly that body, and to_expression of an Expression is that expression; as a field of a struct an Expression becomes the value of the attribute. Serializers of other formats see an Expression as data.", "quantifier": "all bodies and expressions, in every state of the thread", "why_tests_cant": "quantifies over all trees; the trees take a detour through a thread-local registry", "anchors": ["crates/hcl-rs/src/ser/mod.rs: to_string, InternalHandles", "crates/hcl-rs/src/expr/ser/mod.rs", "crates/hcl-rs/src/structure/ser/mod.rs"]}
{"id": "C43", "title": "Values survive their HCL text", "statement": "If hcl::to_string of a Value succeeds, hcl::from_str of the text gives the same Value, with the entries of objects in the same order; it fails exactly for values which are not objects with identifiers for keys.", "quantifier": "all values", "why_tests_cant": "quantifies over all values: every string content, number and nesting", "anchors": ["crates/hcl-rs/src/ser/mod.rs: to_string", "crates/hcl-rs/src/de/mod.rs: from_str", "crates/hcl-rs/src/format/impls.rs", "crates/hcl-rs/src/expr/de.rs"]}
{"id": "C44", "title": "Operators, conditionals and collections compute their documented meaning", "statement": "Evaluating l op r evaluates both operands and applies the operator: && and || and ! are the boolean functions, comparisons are the order of the real numbers, == is equality of values with objects compared without regard to order, integer + - * % are exact and / is the rounded quotient. Operands of the wrong type are an error. A conditional is the branch its condition chooses, an array holds its elements in order, an object its keys in order of first occurrence with their last value.", "quantifier": "all expressions, contexts and values", "why_tests_cant": "quantifies over all operand values, nestings and contexts", "anchors": ["crates/hcl-rs/src/eval/impls.rs: Operation, UnaryOp, BinaryOp, Conditional, Vec, Object", "crates/hcl-rs/src/value/mod.rs: PartialEq", "crates/hcl-primitives/src/number.rs"]}
{"id": "C45", "title": "Spans of parsed nodes are the byte ranges of their source text", "statement": "Every node of a parsed body, expression or template which carries a span reports the byte range of exactly its own text, without surrounding whitespace and comments: the text at an identifier's, keyword's, operator's or number's span is that token, strings, arrays, objects, parentheses, calls and blocks begin and end with their delimiters. Spans of the parts of a node lie inside the span of the node, and the parts follow each other in the order of the text without overlapping.", "quantifier": "all texts accepted by the parser, all nodes of the resulting tree", "why_tests_cant": "quantifies over all texts and all nesting depths; the offsets are computed from mutable parser state at several places (token parsers, operator precedence, traversals, templates)", "anchors": ["crates/hcl-edit/src/repr.rs: Span::span", "crates/hcl-edit/src/parser/repr.rs: spanned, decorated", "crates/hcl-edit/src/parser/pratt.rs", "crates/hcl-edit/src/parser/expr.rs", "crates/hcl-edit/src/parser/template.rs"]}
{"id": "C46", "title": "Trees built by programs are read back from the text they print", "statement": "For a body, expression or template of hcl-edit, however it was built and with whatever white space and comments as decor, parsing the text it prints succeeds and gives an equal tree (==); consequently two trees which print the same text are equal; and what was read prints the same text again, so that reading and printing does not change a document any more.", "quantifier": "all syntax trees whose decor consists of white space and comments", "why_tests_cant": "quantifies over all trees, all nestings of templates, heredocs, operators and collections, and all decor", "anchors": ["crates/hcl-edit/src/encode/mod.rs: EncodeDecorated, EncodeState", "crates/hcl-edit/src/encode/expr.rs", "crates/hcl-edit/src/encode/structure.rs", "crates/hcl-edit/src/encode/template.rs", "crates/hcl-edit/src/parser/mod.rs: parse_body, parse_expr, parse_template"]}
{"id": "C47", "title": "Typed data survives conversion to a value or an expression and back", "statement": "For a type with serde's usual implementations (derived or of the standard library), hcl::to_value followed by hcl::from_value gives back the data it started with, and so does hcl::to_expression followed by deserializing the expression. Neither leaves anything behind in the state of the thread.", "quantifier": "all types built from scalars, options, sequences, tuples, maps, structs, newtypes, enums, Block, LabeledBlock and Value, and all their data", "why_tests_cant": "quantifies over all types and all nestings of them, and over all their data", "anchors": ["crates/hcl-rs/src/value/mod.rs: to_value, from_value", "crates/hcl-rs/src/value/ser.rs", "crates/hcl-rs/src/value/de.rs: ValueDeserializer", "crates/hcl-rs/src/expr/ser/mod.rs", "crates/hcl-rs/src/expr/de.rs: Deserializer for Expression, ObjectKey"]}
{"id": "C48", "title": "Typed data survives being written as HCL and read back", "statement": "For a type with serde's usual implementations whose data makes up a document, hcl::to_string succeeds and hcl::from_str of the text gives back the data: structs and maps become bodies, fields wrapped in Block become one or several blocks, those in LabeledBlock become blocks whose labels are the keys of the maps below, other fields become attributes. The same holds for hcl::to_body and hcl::from_body.", "quantifier": "all types built from scalars, options, sequences, tuples, maps, structs, newtypes, enums, Block, LabeledBlock and Value, all their data, all formatter settings which keep quoted keys", "why_tests_cant": "quantifies over all types and all nestings of blocks, labels and attributes, and over all their data", "anchors": ["crates/hcl-rs/src/ser/mod.rs: to_string", "crates/hcl-rs/src/ser/blocks.rs: Block, LabeledBlock", "crates/hcl-rs/src/structure/ser/mod.rs", "crates/hcl-rs/src/structure/json_spec.rs: into_json_spec", "crates/hcl-rs/src/de/mod.rs: from_str, from_body"]}
{"id": "C49", "title": "Edits change the edited text only", "statement": "When a part of a parsed document is changed through hcl-edit's API (a value is replaced, structures are inserted into or removed from a body at any depth, items of an object or labels of a block are added, removed or replaced) and the document is printed, the text before and after the changed part is the text that was read; inserting or removing a structure inserts or removes exactly its own lines.", "quantifier": "all documents, all places in them, whatever their depth, and everything that can be put there", "why_tests_cant": "quantifies over all documents, all nestings and all replacements", "anchors": ["crates/hcl-edit/src/encode/structure.rs", "crates/hcl-edit/src/encode/expr.rs", "crates/hcl-edit/src/encode/template.rs", "crates/hcl-edit/src/encode/mod.rs: EncodeState", "crates/hcl-edit/src/structure/body.rs: insert, remove, push, get_attribute_mut, get_blocks_mut"]}
{"id": "C50", "title": "The crate's own types deserialize to themselves", "statement": "Deserializing an Expression from an Expression, a Structure from a Structure, a BlockLabel from a BlockLabel or a Body from a Body yields the same tree; from_body::<Body> returns its argument, from_str::<Body> returns what parse returns, and from_body::<Expression> returns the expression which stands for the body in the HCL JSON representation. The contents of an expression can be deserialized as a value of the type of its variant (Conditional, FuncCall, Traversal, Operation, ForExpr, Object, TemplateExpr, Number, Variable), the contents of a structure as Attribute or Block.", "quantifier": "all expressions, structures and bodies that satisfy the invariants of their types; all documents", "why_tests_cant": "quantifies over all trees, whatever their depth, and over all documents", "anchors": ["crates/hcl-rs/src/expr/de.rs: Deserialize for Expression, Deserializer for Expression, ObjectKey, TraversalOperator, Operation, TemplateExpr", "crates/hcl-rs/src/structure/de.rs", "crates/hcl-rs/src/de/mod.rs: from_body, from_str, Deserializer, NewtypeStructDeserializer, OptionDeserializer, EnumAccess, VariantAccess", "crates/hcl-rs/src/value/de.rs: ValueDeserializer", "crates/hcl-primitives/src/number.rs: Deserialize for Number"]}
{"id": "C51", "title": "Edited documents stay readable", "statement": "If a document is parsed, edited any number of times through hcl-edit's API (lines, labels, values and parts of values inserted, replaced or removed at any depth) and printed, then parsing the printed text succeeds and yields a document equal (==) to the edited one; in particular this holds for a parsed document which is printed without edits, also where its text is not kept exactly.", "quantifier": "all documents that parse, all sequences of edits", "why_tests_cant": "quantifies over all documents, with any white space and comments, and all histories of edits", "anchors": ["crates/hcl-edit/src/parser/mod.rs: parse_body, parse_expr, parse_template", "crates/hcl-edit/src/encode/structure.rs", "crates/hcl-edit/src/encode/expr.rs", "crates/hcl-edit/src/encode/template.rs", "crates/hcl-edit/src/structure/body.rs: insert, remove, push, get_attribute_mut", "crates/hcl-edit/src/expr/array.rs", "crates/hcl-edit/src/expr/object.rs"]}
{"id": "C52", "title": "Iterators and builders of bodies", "statement": "Iterating over the structures, the attributes or the blocks of an hcl::Body, by reference, by value or mutably, from the front, from the back or both in any order, yields each matching element exactly once: from the front in document order, from the back in reverse order, and None exactly when nothing is left, from then on forever; len() is the number of structures that are left. Writing through a mutable iterator changes the yielded elements in their places and nothing else. Builders, extend and collect produce the structures and labels that were added, in the order of the calls.", "quantifier": "all bodies, all interleavings of next and next_back, all writes, all sequences of builder calls", "why_tests_cant": "quantifies over all histories of calls from both ends", "anchors": ["crates/hcl-rs/src/structure/iter.rs: impl_find_map_iterator, impl_exact_size_iterator, Extend, FromIterator", "crates/hcl-rs/src/structure/body.rs: Body::iter, attributes_mut, blocks_mut, BodyBuilder", "crates/hcl-rs/src/structure/block.rs: BlockBuilder", "crates/hcl-rs/src/structure/mod.rs: as_attribute, as_block"]}
{"id": "C53", "title": "Shown parse errors", "statement": "Displaying a parse error never panics and shows the line of the error with its number and, in the line below it, a caret under the character at which the error occurred; the message names the label of the innermost context, all expected things in order (separated by commas, the last by \"or\") and the cause.", "quantifier": "all inputs, all error positions, all error contexts", "why_tests_cant": "quantifies over all inputs and positions", "anchors": ["crates/hcl-edit/src/parser/error.rs: Display for ErrorInner, spacing, from_parse_error, format_context_error, locate_error"]}
{"id": "C54", "title": "Evaluation errors name the expression at fault", "statement": "The expression an evaluation error carries is the evaluated expression or one inside of it (at any depth, inside of templates as well), evaluating it in the scope it stands in fails with the same error, and the error was raised by an expression directly inside of it or by itself; it is itself only if it is all of what was evaluated or the error came up in its own loop. An error carries no expression only if the text of a template does not parse, or if a directive of a template that was evaluated by itself got an unusable value. Errors of bodies are errors of their attributes. Every error evaluation in place reports is that of what it left of some expression inside, and names that, a part of it, or the original expression directly around it.", "quantifier": "all expressions, templates and bodies, all contexts, all error kinds", "why_tests_cant": "quantifies over all syntax trees, contexts and places of failure", "anchors": ["crates/hcl-rs/src/eval/mod.rs: Context::error, expr, parent_expr, child, child_with_expr", "crates/hcl-rs/src/eval/error.rs: Error::expr, Error::kind", "crates/hcl-rs/src/eval/impls.rs: Evaluate::evaluate, evaluate_in_place, evaluate_nested_exprs", "crates/hcl-rs/src/eval/expr.rs", "crates/hcl-rs/src/eval/template.rs"]}
{"id": "C55", "title": "The construction macros build the tree that is written", "statement": "For every input in the documented syntax, expression! and value! build the expression or value whose arrays, objects (entries in order, a repeated key replaces the value), words null, true and false and Rust expressions are those written, with or without trailing commas; attribute!, block!, structure! and body! build the attributes and blocks that are written, with their keys, labels and bodies in order, whether or not the input is put in braces.", "quantifier": "all documents of the macro syntax, all Rust expressions in them", "why_tests_cant": "quantifies over all inputs of a recursive rewriting system", "anchors": ["crates/hcl-rs/src/macros.rs: body, structure, attribute, block, expression, value", "crates/hcl-rs/src/macros.rs: body_internal, structure_internal, attribute_internal, block_internal, block_label, object_key, expression_internal, value_internal"]}
{"id": "C56", "title": "Texts of evaluation errors are unambiguous", "statement": "A function call with the wrong number of arguments fails with a message giving the required and the actual number; otherwise a call with arguments of wrong types fails with a message that names the first of them, its position and the type of its parameter; otherwise the function is called. Parameter types that are shown alike accept the same values. The kind of an evaluation error, the names, values, operators and keys in it and the expression it names can all be told from its text: different errors have different texts. Collecting errors from several places yields all of them in order, or none exactly if no place has any; the text of several errors starts with their number, lists each on a line of its own, and different lists have different texts.", "quantifier": "all signatures, all arguments, all errors of all kinds, all lists of errors", "why_tests_cant": "quantifies over all values, expressions and types that can be shown in a message", "anchors": ["crates/hcl-rs/src/eval/error.rs: Display for Error, ErrorKind, Errors; EvalResultExt::add_errors", "crates/hcl-rs/src/eval/func.rs: FuncDef::call, Display for ParamType, ParamType::is_satisfied_by"]}
{"id": "C57", "title": "Arrays, function arguments and templates are edited like lists", "statement": "Every sequence of calls of the list methods of hcl-edit's Array, FuncArgs and Template (clear, insert, push, pop, remove, get_mut, iter_mut, extend, collecting, and the setters for trailing text, trailing comma and expansion) leaves exactly the elements that the same calls leave in an abstract list, and returns the same elements; it panics exactly if some insert or remove is out of bounds; calls about elements do not change the settings, and a setting is the one made last. After every such sequence of calls the printed text is read back as an array, call or template with these elements, whatever comments and white space the elements and the place before the closing bracket carry; neighbouring literals of a template are read as one.", "quantifier": "all lists, all finite sequences of calls with all arguments, all elements that are themselves read back from their text", "why_tests_cant": "quantifies over all histories of calls and all combinations of decor, trailing text, trailing comma and expansion", "anchors": ["crates/hcl-edit/src/expr/array.rs: Array", "crates/hcl-edit/src/expr/func_call.rs: FuncArgs", "crates/hcl-edit/src/template/mod.rs: Template", "crates/hcl-edit/src/encode/expr.rs: Encode for Array, FuncArgs"]}
{"id": "C58", "title": "Documents built and edited through the API print what they hold", "statement": "After every sequence of calls of the Body API of hcl-edit that does not panic (push, try_push, insert, try_insert, pop, remove, remove_attribute, remove_blocks, clear, extend, writing values and blocks), starting from an empty, built or parsed body, the printed text parses, and the parsed body has exactly the structures that the calls leave according to the list specification, in the same order; likewise the text of an Object after every sequence of insert, remove, remove_entry, clear, extend, get_mut and iter_mut has exactly its entries. Attributes rejected because of their key do not appear; no structure swallows or cuts its neighbours, whatever comments they carry.", "quantifier": "all bodies and objects, all finite sequences of API calls, all structures, keys and values that are themselves read back from their text", "why_tests_cant": "quantifies over all histories of calls and all documents", "anchors": ["crates/hcl-edit/src/structure/body.rs: Body", "crates/hcl-edit/src/expr/object.rs: Object", "crates/hcl-edit/src/encode/structure.rs: Encode for Body", "crates/hcl-edit/src/parser/mod.rs: parse_body"]}
{"id": "C59", "title": "Rust values put into HCL values and expressions are kept and read back", "statement": "Value::from / collect of a Rust value (unit, bool, every integer type, f32, f64, Number, strings, nested vectors, slices, iterators and key-value pairs) never panics and gives the HCL value that says the same: integers and floats keep their exact value, NaN and infinities become null, elements keep their order, of several pairs with one key the last counts at the place of the first. Expression::from of the same Rust value is the expression of that Value, and Value::from gives it back; to_value and to_expression (serde) of the same Rust value give the same results. Every Value has exactly one kind: as_null, as_bool, as_number, as_str, as_array and as_object answer exactly on their kind with the content, the is_ methods guarantee it, as_i64/as_u64/as_f64 answer exactly the number put in, and is_i64 (is_f64) holds of every integer in the range of i64 (every number that an f64 represents).", "quantifier": "all Rust values with a conversion, of any nesting and size, all 2^64 integers and doubles, all 2^32 floats, debug and release builds", "why_tests_cant": "quantifies over nested values of any size and over all floats", "anchors": ["crates/hcl-rs/src/value/from.rs: From and FromIterator for Value", "crates/hcl-rs/src/expr/mod.rs: From and FromIterator for Expression", "crates/hcl-rs/src/value/mod.rs: Value::as_i64, is_i64, take and the other accessors", "crates/hcl-rs/src/value/ser.rs: ValueSerializer", "crates/hcl-rs/src/expr/ser/mod.rs: ExpressionSerializer"]}
