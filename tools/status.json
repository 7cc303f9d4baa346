{
 "C01": {
  "note": "The exact set of operations that leave the well-formed numbers is characterised (C01_neg_wf_iff, C01_arith_wf_iff); the unrestricted claim is refuted: -0, -(u64::MAX), release-build division by zero."
 },
 "C02": {
  "note": "Full statement."
 },
 "C03": {
  "note": "Exactness is proved in the stated range for all classes except the two refuted cases (operands of different signs above the float range, -0)."
 },
 "C04": {
  "note": "Proved except for integral floats outside the i64 range, where from_f64 saturates (refuted)."
 },
 "C05": {
  "note": "Full statement, for any Unicode tables."
 },
 "C06": {
  "note": "Full statement."
 },
 "C07": {
  "note": "C07_escape_reads_back_iff gives the exact set of strings that survive; the unrestricted claim is refuted (adjacent markers)."
 },
 "C08": {
  "note": "Proved for all histories of the listed operations; refuted when an attribute is stored through get_mut."
 },
 "C09": {
  "note": "Full statement: the model refines a list specification for all histories, panics included."
 },
 "C10": {
  "note": "Full statement."
 },
 "C11": {
  "note": "Full statement."
 },
 "C12": {
  "note": "Proved for everything except the decor of binary operators, which keeps spans (refuted)."
 },
 "C13": {
  "note": "Proved; text without indentation is left alone (C13_flat); refuted for an unindented first line with an interpolation, blank lines and carriage returns."
 },
 "C14": {
  "note": "Proved for the line, the byte column and the message; refuted for multi-byte columns and an error after the last line break."
 },
 "C15": {
  "note": "Termination and absence of panics in release builds are proved for all texts; in debug builds exactly the literal -(2^63) family panics (refuted)."
 },
 "C16": {
  "note": "Proved for all accepted texts without the listed constructs; each exception is refuted by a witness."
 },
 "C17": {
  "note": "Proved for all chains in which comparisons are not chained; chained comparisons drop operands (refuted)."
 },
 "C18": {
  "note": "Uniqueness is proved for all texts. Rejection of repeated keys is proved at any depth and whatever follows, for texts whose preceding lines are printed by hcl-edit (partial)."
 },
 "C19": {
  "note": "Reading of literals is proved against a separate lexical specification for all texts; printing and reading is proved for strings that satisfy escape_ok; unknown escapes and adjacent markers are refuted."
 },
 "C20": {
  "note": "Proved; refuted for negative literals below i64::MIN, which wrap."
 },
 "C21": {
  "note": "Proved for all configurations and all readable expressions, bodies, values and templates, with quoted templates and heredocs inside of expressions (not in keys; <<- heredocs with no indentation left come back as << heredocs with the same text; quoted templates whose text needs no escape sequences); excluded trees and strings are refuted by witnesses. Values: the strings which are read back are described without the formatter's own test (marked, FmtReadSpec.v)."
 },
 "C22": {
  "note": "Proved for expressions and for the dense formatter; refuted for bodies (blank line)."
 },
 "C23": {
  "note": "Proved up to the refuted exceptions (commas, quotes around keys, empty blocks)."
 },
 "C24": {
  "note": "Full statement."
 },
 "C25": {
  "note": "Proved for objects without equal simplified keys; refuted otherwise."
 },
 "C26": {
  "note": "Proved for expressions without template loop variables that clash with outer variables; refuted otherwise."
 },
 "C27": {
  "note": "Full statement."
 },
 "C28": {
  "note": "Full statement."
 },
 "C29": {
  "note": "Full statement."
 },
 "C30": {
  "note": "Proved; refuted for the type OneOf([])."
 },
 "C31": {
  "note": "Full statement."
 },
 "C32": {
  "note": "Proved: panics come only from arithmetic (debug overflow, remainder by zero); the latter is refuted."
 },
 "C33": {
  "note": "Proved; in-place evaluation as in C25."
 },
 "C34": {
  "note": "Proved for bodies without conflicting names; refuted otherwise."
 },
 "C35": {
  "note": "Proved for values that use the crate's types at their places; refuted for the listed misuses."
 },
 "C36": {
  "note": "Proved in both directions (C36_from_edit for all trees); the losses on the way to hcl-edit are refuted."
 },
 "C37": {
  "note": "Proved for well-formed numbers; refuted for the others."
 },
 "C38": {
  "note": "Proved for trees without for directives, whose collection is not visited (refuted); VisitMut is proved for all trees."
 },
 "C39": {
  "note": "Proved for well-formed trees; expand_final is ignored, layout inside nodes is compared, reflexivity and transitivity fail for ill-formed trees (refuted)."
 },
 "C40": {
  "note": "Proved for every schedule; a panicking file ends the whole run (refuted)."
 },
 "C41": {
  "note": "Full statement."
 },
 "C42": {
  "note": "Proved; to_value of non-empty objects fails (refuted)."
 },
 "C43": {
  "note": "Proved for strings that survive escaping (C07); refuted otherwise."
 },
 "C44": {
  "note": "Proved; exactness of arithmetic as in C03."
 },
 "C45": {
  "note": "Proved for all accepted texts, except that some nodes carry no span and repeated object keys are out of order (refuted)."
 },
 "C46": {
  "note": "Proved for the trees described by ok/body_ok (BackSpec.v, BackBodySpec.v); the other trees are covered by refutations, one per cause, or lie outside the stated decor. Same text again: except for decor of operators (C46_operator_decor_refuted) and after the dots of grouped for expressions (settled, lone: SameSpec.v)."
 },
 "C47": {
  "note": "Proved for the data described by kept (TySpec.v): keys, newtypes, nested options and floats outside of it are covered by refutations. serde's implementations for user types are modelled after its documentation."
 },
 "C48": {
  "note": "Proved for the data described by fits (TySpec.v); what it excludes is covered by refutations or is what C21 and C43 exclude (strings for which escaping goes wrong, numbers that are not read back)."
 },
 "C49": {
  "note": "The text around a place does not depend on what is put there (C49_place), for all places outside quoted templates and indented heredocs, where edits are shown not to be local. That the text around the place is the text which was read needs C16's condition on the document."
 },
 "C50": {
  "note": "Proved for all trees with valid identifiers, well-formed numbers and distinct object keys; parsed documents are such trees. Refuted: a Variable cannot be read from Expression::Variable; for \"-0\" from_str::<Body> and parse return numbers which are equal but report different types; an Expression cannot be read from a Value. Documents with such literals are excluded from C50_from_str_partial."
 },
 "C51": {
  "note": "Proved for parsed documents whose tree is regular (AgainSpec.v) and edits which put in parts that satisfy C46's conditions (AgainEdits.v). Refuted for objects with repeated keys and for literals that need escapes inside directives or behind nested templates; missing: indented heredocs, a minus sign directly behind its left operand."
 },
 "C52": {
  "note": "Mutable iterators: a reference is a position in the body; the client writes when it gets the element."
 },
 "C53": {
  "note": "Refuted for errors at characters that are not ASCII (the column counts bytes of the line then, see C14). The texts of expected values and causes come from winnow and are parameters."
 },
 "C54": {
  "note": "Full statement, for the evaluator with named expressions, which is proved to have the results of the evaluator of C24-C33. For evaluation in place the named expression need not itself fail with the reported error: with several errors below it, it fails with the first."
 },
 "C55": {
  "note": "Proved for all documents of the macro syntax (MacroSpec.v). Excluded and refuted by witnesses: a last object value of several tokens without a comma, an attribute value of several tokens in body!, a parenthesised key behind a Rust expression without a comma, raw identifiers. Negative literal keys and labels are modelled but not part of the syntax in MacroSpec.v."
 },
 "C56": {
  "note": "Calls, parameter types, collecting and counting are proved in full (OneOf without alternatives refuted). That different errors have different texts is proved for values and expressions whose text is read back as they are (C21), keys and messages of functions without grave accents (or the messages of calls themselves) and, for lists, errors of one line; keys and messages with grave accents and errors with a text only are refuted by witnesses."
 },
 "C57": {
  "note": "Histories, panics, settings, reading access and collecting are proved in full. That the text is read back is proved for elements which satisfy the conditions of C46 and white space and comments as trailing text; for templates the joined literals have no adjacent $ or % and no marker arises where literals meet (the latter is refuted by a witness: pushing \"$\" and \"{x}\" prints an interpolation). A call without arguments does not keep expand_final (refuted)."
 },
 "C58": {
  "note": "Proved for structures, keys and values which satisfy the conditions of C46 (also parsed ones, C51); object values end with a line break or a comma, and keys do not start with - ! [ ( or <. Writing a whole structure through get_mut(index) is left out: it can repeat a key, and then the text is refused (refuted)."
 },
 "C59": {
  "note": "Proved in full except that floats without a fraction must lie in the range of i64 (otherwise they are clamped, refuted by 2^64; same defect as C04) and that is_i64 and is_f64 do not test what their documentation says (refuted by 5; C59_number_tests states what they test). Agreement with serde assumes that Numbers inside satisfy their invariant (C01)."
 }
}