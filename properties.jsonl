{"id": "C01", "title": "Write/load round trip for every well-formed Obj", "statement": "For every Obj whose field names are legal and distinct, whose Arrs carry the most specific common type of their elements, and whose containers are nested at most 63 deep, `Obj::from_str(&o.write_to_string())` succeeds and returns an Obj that is == o.", "quantifier": "all well-formed Objs of any size, any field names, strings, integers, fractions, parents; any starting state of the id counter", "why_tests_cant": "The set of Objs is infinite and recursive; the formatter and the parser are separate pieces of code that must agree on every escape, digit, bracket and indentation.", "anchors": ["src/parse/format.rs: Format impls", "src/parse/parser.rs: parse_obj_str, parse_value", "src/obj.rs: write_to_string, from_str"]}
{"id": "C02", "title": "Whatever was loaded can be written and re-loaded, exactly up to the depth limit", "statement": "If a load returned Ok(o), then re-loading `o.write_to_string()` returns an Obj == o when the containers of o (values and parents) are nested at most 63 deep, and otherwise fails with the maximum-recursion-depth error. (Variables and includes can build Objs deeper than any text the parser accepts, so the unconditional round trip the fuzz target asserts is false.)", "quantifier": "all input texts, all file systems, all successful loads", "why_tests_cant": "The fuzz target samples inputs; the failing inputs need 64 levels of nesting reached through variables.", "anchors": ["fuzz/fuzz_targets/fuzz_target_write.rs", "src/parse/mod.rs: MAX_DEPTH", "src/parse/parser.rs: parse_arr, parse_tup, parse_obj", "src/parse/format.rs"]}
{"id": "C03", "title": "Loading never panics", "statement": "`Obj::from_str` and `Obj::from_file` return Ok or Err for every input: no unwrap on None, failed assertion, arithmetic underflow, zero denominator or 'Logic error' panic is reachable, provided the file being parsed has a canonical path that is valid UTF-8 whenever it performs an include.", "quantifier": "all input texts, all contents of included files, all file systems", "why_tests_cant": "Unit tests and fuzzing exercise finitely many inputs; there are over thirty panic sites.", "anchors": ["src/parse/parser.rs (all unwrap/assert/panic sites)", "fuzz/fuzz_targets/fuzz_target_1.rs"]}
{"id": "C04", "title": "Loading always terminates", "statement": "Loading finishes for every input text and every finite set of files, including files that include one another in any pattern.", "quantifier": "all input texts and all finite file systems, including cyclic include graphs", "why_tests_cant": "Termination is a statement about all executions; a non-terminating input is not found by running finitely many.", "anchors": ["src/parse/parser.rs: parse_value, parse_include, find_char, all loops"]}
{"id": "C05", "title": "Every parse error says where it happened", "statement": "If loading fails with anything other than an I/O error, the error text contains the word 'line' followed by a line number; I/O errors are the only exception, they cannot occur unless an included or top-level file is unreadable, and a big-integer parse error can never occur.", "quantifier": "all input texts and file systems", "why_tests_cant": "The fuzz target asserts it on samples only; a rarely-taken branch can lose the position.", "anchors": ["src/parse/error.rs: Display for ParseError", "src/error.rs: From<ParseError>", "fuzz/fuzz_targets/fuzz_target_1.rs"]}
{"id": "C06", "title": "Reported error positions are real positions", "statement": "Every error that carries a line and a column names a position of the text of the file the error names (or of the string being loaded): there is a prefix of that text whose end is at that line and column (line = 1 + newlines so far, column = 1 + characters since the last newline); 'Invalid character' errors for values name exactly the offending character. The one exception is an offending newline in a field name or after a backslash, which is reported one line too low at column 0.", "quantifier": "all input texts, all error kinds, all included files", "why_tests_cant": "Position bookkeeping is spread over every consuming function; tests check about sixty fixed positions.", "anchors": ["src/parse/char_stream.rs: next", "src/parse/parser.rs: every parse_err call", "src/parse/error.rs"]}
{"id": "C07", "title": "Loaded Objs are well formed", "statement": "In every Obj that a load returns, and in every Obj nested in it (including parents), field names are pairwise distinct, non-empty, start with a letter or '_', continue with letters, digits or '_', and are not reserved words; every Tup's type vector lists the types of its elements; every Frac is in lowest terms with positive denominator.", "quantifier": "all input texts and file systems; all nested values of the result", "why_tests_cant": "Requires an invariant over every parsing path, including variables, globals, arithmetic and includes.", "anchors": ["src/parse/parser.rs: parse_field, parse_field_value_pair, binary_op_on_values", "src/obj.rs", "src/tup.rs"]}
{"id": "C08", "title": "Arrays are homogeneous with the least common type", "statement": "In every loaded value, every Arr's inner type is the most specific type that all its elements' types can be specialised to (replacing Any), so all elements of an Arr agree in type. Value::get_type, Arr::inner_type and Tup::inner_type_vec of everything loaded report the type read off its contents (a Tup: the types of its elements in order).", "quantifier": "all input texts and file systems; all nested Arrs, including results of + and of includes", "why_tests_cant": "Type inference is incremental (has_any shortcut) and duplicated in three places; the claim is about every element list.", "anchors": ["src/parse/parser.rs: parse_arr, parse_arr_file, binary_op_on_values", "src/types.rs: most_specific", "src/value.rs: get_type"]}
{"id": "C09", "title": "Arr::from_values accepts exactly the homogeneous vectors", "statement": "`Arr::from_values(vs)` succeeds iff the types of vs have a common specialisation; on success the Arr holds exactly vs and its inner type is the least such type; acceptance and inner type do not depend on the order of vs. get_type of what the constructors build is the type read off its contents.", "quantifier": "all vectors of values, all permutations", "why_tests_cant": "Unbounded vectors and types; the code's shortcut once the type contains no Any must be equivalent to the full check.", "anchors": ["src/arr.rs: from_values", "src/types.rs: most_specific, eq"]}
{"id": "C10", "title": "Type::most_specific is the least upper bound", "statement": "`Type::most_specific(a,b)` returns Some((t,f)) iff a and b have a common specialisation, and then t is the least one and f says whether t contains Any; hence it is commutative, associative and idempotent with Any as neutral element.", "quantifier": "all pairs and triples of types", "why_tests_cant": "Types are an infinite recursive family.", "anchors": ["src/types.rs: most_specific, has_any"]}
{"id": "C11", "title": "Type equality is compatibility, `is` is identity", "statement": "`a == b` holds iff a and b have a common specialisation; it is reflexive and symmetric but not transitive (although Type implements Eq); `a.is(b)` holds iff a and b are the same type.", "quantifier": "all types", "why_tests_cant": "Infinite recursive family; the missing transitivity needs a proof/witness over triples.", "anchors": ["src/types.rs: is, impl PartialEq/Eq for Type"]}
{"id": "C12", "title": "Value equality is an equivalence that ignores identity", "statement": "On values built by the parser or the checked constructors, == is reflexive, symmetric and transitive, equal values have the same type and the same textual form, and == does not depend on ids. With Arr::from_values_unchecked transitivity can fail.", "quantifier": "all well-formed values; all triples", "why_tests_cant": "Equality is recursive over unbounded values and uses the non-transitive type equality internally.", "anchors": ["src/value.rs: derive(PartialEq)", "src/arr.rs: eq", "src/tup.rs: eq", "src/obj.rs: eq"]}
{"id": "C13", "title": "Ids are unique under every schedule", "statement": "Whatever the interleaving of threads creating Arrs, Tups and Objs, no two of the first 2^64 instances get the same id and ids are handed out 0,1,2,...; after that ids repeat.", "quantifier": "all numbers of threads, all interleavings, all histories", "why_tests_cant": "Schedules cannot be enumerated by tests.", "anchors": ["src/lib.rs: gen_id, CUR_ID", "src/obj.rs, src/arr.rs, src/tup.rs: constructors"]}
{"id": "C14", "title": "Field lookup follows the parent chain, nearest first", "statement": "`o.get(f)` returns the value of f in the first Obj of the chain o, parent, grandparent... that has f, and None iff none has it; `get_with_source` returns the same value together with that Obj; `contains`, `len`, `is_empty`, iteration consider o only.", "quantifier": "all Objs with parent chains of any length, all field names", "why_tests_cant": "Chains of unbounded length.", "anchors": ["src/obj.rs: get, get_with_source, contains, len, with_each"]}
{"id": "C15", "title": "Typed getters return the stored value or a precise error", "statement": "Each typed getter on an Obj returns the value looked up if it has the requested type, FieldNotFound(f) iff the lookup fails, and TypeMismatch(expected, actual) otherwise; get_frac also accepts an Int and converts it exactly.", "quantifier": "all Objs, fields and value types", "why_tests_cant": "Ranges over all values and fields.", "anchors": ["src/obj.rs: get_fn!", "src/value.rs: get_fn!, get_frac, get_arr, get_tup"]}
{"id": "C16", "title": "Arithmetic follows the documented precedence, left to right", "statement": "A chain v0 op1 v1 ... opn vn evaluates to the value of the expression in which *, /, % bind tighter than + and - and operators of equal precedence associate to the left; unary + and - bind tightest.", "quantifier": "all operator chains of any length over any operands", "why_tests_cant": "Chains are unbounded; the deque algorithm differs from a textbook precedence parser.", "anchors": ["src/parse/parser.rs: parse_value (deque loop), parse_unary_op"]}
{"id": "C17", "title": "Arithmetic is exact and total", "statement": "On Ints and Fracs, +, -, * and / compute the exact mathematical result (mixed operands promote to Frac, / always yields a Frac in lowest terms), % on Ints is the truncated remainder, division or remainder by zero is an error, and every other type combination is an operator error (except Str+Str and Arr+Arr).", "quantifier": "all integers and fractions of any magnitude", "why_tests_cant": "Unbounded integers.", "anchors": ["src/parse/parser.rs: binary_op_on_values, unary_op_on_value"]}
{"id": "C18", "title": "Numeric literals denote their exact decimal value", "statement": "A numeric literal without '.' or ',' is the integer its digits spell; with one, it is the Frac (all digits)/10^(digits after the point) exactly; single underscores are ignored; two underscores in a row, a second point, or no digit at all is an error.", "quantifier": "all literals of any length", "why_tests_cant": "Unbounded literals; trailing-zero trimming and underscore state are easy to get wrong.", "anchors": ["src/parse/parser.rs: parse_numeric", "src/parse/util.rs: frac_from_whole_and_dec"]}
{"id": "C19", "title": "Every string survives quoting", "statement": "For every string s, the quoted text the formatter writes for s is parsed back to exactly s, and a string literal denotes the text between the quotes with exactly the seven escapes replaced; any other escape is an error.", "quantifier": "all Unicode strings", "why_tests_cant": "Infinite domain; two separate escape tables must agree.", "anchors": ["src/parse/format.rs: replace_all, get_char_map", "src/parse/util.rs: get_escape_char", "src/parse/parser.rs: parse_str"]}
{"id": "C20", "title": "Scoping: an object literal sees only its own earlier fields and globals", "statement": "The value of an object literal does not depend on the fields of the enclosing object; an unqualified variable denotes the value of the field of that name defined earlier in the same object; a variable that was not defined earlier is an error.", "quantifier": "all texts and all scopes", "why_tests_cant": "Quantifies over all enclosing scopes.", "anchors": ["src/parse/parser.rs: parse_obj, parse_variable, parse_field_value_pair"]}
{"id": "C21", "title": "Globals never appear in the data and never cross files", "statement": "No field of any loaded Obj starts with '@'; an included file sees no global of the including file and defines none for it; a global stays visible in nested objects once defined. A second definition of a global is rejected, except when the first definition is nested inside the value of the second, which silently overwrites it.", "quantifier": "all texts, all file systems", "why_tests_cant": "Quantifies over all texts and all globals in scope.", "anchors": ["src/parse/parser.rs: parse_field_value_pair, parse_obj_stream, parse_arr_file, parse_tup_file"]}
{"id": "C22", "title": "Cyclic includes are always rejected", "statement": "A file is never opened for an include while it is itself being parsed (directly or through a chain of includes, whatever paths or aliases are used); such an include fails with the cyclic-include error.", "quantifier": "all finite file systems, all include graphs and path spellings", "why_tests_cant": "Include graphs are unbounded.", "anchors": ["src/parse/parser.rs: parse_include (included.1)"]}
{"id": "C23", "title": "Each included file is read at most once per load and shared", "statement": "During one load, no file is opened twice; a second include of the same file yields the very same value (ptr_eq) as the first.", "quantifier": "all texts and file systems", "why_tests_cant": "Property of the whole history of a load.", "anchors": ["src/parse/parser.rs: parse_include (included.0)"]}
{"id": "C24", "title": "The kind of an include is honoured on first use only", "statement": "The first include of a file as Str, Arr, Tup or Obj yields a value of that kind (Str: the file's text verbatim); a later include of the same file with another keyword yields the first value, whatever keyword is written.", "quantifier": "all file systems and texts", "why_tests_cant": "History dependent.", "anchors": ["src/parse/parser.rs: parse_include, parse_str_file, parse_arr_file, parse_tup_file"]}
{"id": "C25", "title": "The nesting limit is exactly 63 containers inside the root, for literals only", "statement": "A text with n nested brackets is accepted iff n <= 63 and otherwise rejected with the maximum-depth error; in no accepted text of any kind are more than 63 brackets open at once; unary operators are not limited: any number of signs is accepted and the recursion grows with it.", "quantifier": "all n, all texts", "why_tests_cant": "Boundary for all n; unbounded recursion cannot be tested.", "anchors": ["src/parse/mod.rs: MAX_DEPTH", "src/parse/parser.rs: parse_obj, parse_arr, parse_tup, parse_include, parse_unary_op"]}
{"id": "C26", "title": "Whitespace and comments between tokens are insignificant", "statement": "In any text, at any place outside strings and comments, a non-empty sequence of whitespace characters and #-comments may be replaced by any other without changing the loaded Obj (or both texts are rejected). Whitespace may also be added or left out at the start of a text, and added after it; two layouts of the same items load to the same Obj. The same holds when the file that is loaded is laid out anew.", "quantifier": "all texts, all whitespace/comment sequences", "why_tests_cant": "Infinite family of layouts.", "anchors": ["src/parse/parser.rs: find_char, check_value_end", "src/parse/util.rs: is_whitespace"]}
{"id": "C27", "title": "Field order is preserved", "statement": "The fields of a loaded Obj are the names before the colons outside all brackets, strings and comments of the text, in the order of the text (names of globals and ^ left out; no name is written twice; there is a parent iff ^ is written), the same for nested Objs, and write_to_string writes them in that order.", "quantifier": "all Objs and texts", "why_tests_cant": "Unbounded field lists.", "anchors": ["src/obj.rs: with_each, iter, pairs_ref", "src/parse/parser.rs: parse_field_value_pair", "src/parse/format.rs"]}
{"id": "C28", "title": "Concatenation of Arrs and Strs", "statement": "Arr+Arr yields the elements of the first followed by those of the second, with the least common type, and is an operator error iff the types are incompatible; Str+Str is string concatenation; both are associative up to ==, with [] and \"\" neutral.", "quantifier": "all Arrs and Strs", "why_tests_cant": "Unbounded operands; result uses from_values_unchecked so its type must be right for every input.", "anchors": ["src/parse/parser.rs: binary_op_on_values"]}
{"id": "C29", "title": "Indexing is bounds checked", "statement": "Arr::get and Tup::get return element i iff i < len and the OutOfBounds(i) error otherwise; dot-indexing with an Int does the same, and an index outside 0..2^64-1 is an invalid-index error.", "quantifier": "all containers and indices", "why_tests_cant": "All indices including 2^64 boundary.", "anchors": ["src/arr.rs: get", "src/tup.rs: get", "src/parse/parser.rs: parse_variable"]}
{"id": "C30", "title": "Dot access sees an Obj's own fields only", "statement": "obj.f denotes the value of f among the Obj's own fields; a field that the Obj only inherits from its parent is not found by dot access although Obj::get finds it.", "quantifier": "all Objs with parents", "why_tests_cant": "Quantifies over all objects in scope.", "anchors": ["src/parse/parser.rs: parse_variable (obj.pairs_ref())", "src/obj.rs: get"]}
{"id": "C31", "title": "from_pairs / obj! / try_obj! validation", "statement": "Obj::from_pairs succeeds iff every field name is accepted by is_valid_field and then keeps exactly the given pairs and parent; the error names the first bad field. is_valid_field also accepts the empty name, names beginning with '^', reserved words and repeated names, none of which the parser accepts. try_obj! takes the last '^' entry as the parent and fails if it is not an Obj.", "quantifier": "all pair lists and parents", "why_tests_cant": "All strings.", "anchors": ["src/obj.rs: from_pairs, is_valid_field, is_valid_field_char", "src/macros.rs: try_obj!, obj!"]}
{"id": "C32", "title": "Comparison with native integers is exact", "statement": "A Value compares equal to a native integer n of any supported width iff it is the Int n; never by truncation.", "quantifier": "all values, all native integer types", "why_tests_cant": "All integers of any size.", "anchors": ["src/value.rs: impl_eq_int!, impl_eq!, impl_from!"]}
{"id": "C33", "title": "Writing is stable", "statement": "Writing is a function of the == class and determines it: two well-formed Objs are written to the same text iff they are ==, at any depth; re-writing a re-loaded Obj reproduces the text exactly; writing never panics.", "quantifier": "all well-formed Objs", "why_tests_cant": "Infinite domain; the indent arithmetic can underflow.", "anchors": ["src/parse/format.rs", "src/obj.rs: write_to_string"]}
{"id": "C34", "title": "Loading is deterministic and history independent", "statement": "The result of a load (up to ids) depends only on the text and the file contents, not on what was loaded or created before in the process.", "quantifier": "all prior histories", "why_tests_cant": "The parser uses process-global lazily-initialised sentinel objects compared by identity.", "anchors": ["src/parse/parser.rs: OBJ_SENTINEL etc.", "src/lib.rs: gen_id"]}
{"id": "C35", "title": "write_to_file / from_file", "statement": "Without a crash, write_to_file(p) followed by from_file(p) returns an Obj == the original (well-formed, depth <= 63). A crash during write_to_file can leave the file holding any prefix of the new text: the old contents are lost and the write is not atomic. If the file is then loaded and that succeeds, the result is empty or has the first k fields of the Obj (and its parent) for some k, followed at most by the next field with a possibly different value if that field is a Null, Bool, Int or Frac; strings and containers are never damaged silently. Every k occurs, and numbers do lose digits.", "quantifier": "all well-formed Objs, all crash points", "why_tests_cant": "Crash points cannot be enumerated by unit tests.", "anchors": ["src/util.rs: write_file_str", "src/obj.rs: write_to_file, from_file"]}
{"id": "C36", "title": "Display output is a value literal", "statement": "The Display text of any well-formed value of nesting depth at most 63 is accepted as a value by the parser and denotes an equal value. Two well-formed values (of any depth) have the same Display text iff they are ==.", "quantifier": "all well-formed values", "why_tests_cant": "Infinite domain.", "anchors": ["src/value.rs, src/arr.rs, src/tup.rs, src/obj.rs: Display", "src/parse/format.rs"]}
{"id": "C37", "title": "Include keywords leak as values", "statement": "The words Obj, Str, Arr and Tup used as a value denote an empty Obj; a variable holding one acts as the include keyword inside < >, and an ordinary empty Obj never does.", "quantifier": "all texts and histories", "why_tests_cant": "Needs identity reasoning over all histories.", "anchors": ["src/parse/parser.rs: parse_variable, parse_include"]}
{"id": "C38", "title": "Reference counts equal the number of live handles", "statement": "num_references equals the number of live handles (owned variables plus containers holding the instance), is at least one while a handle exists, and ptr_eq holds iff two handles denote the same instance, for every history of clones and drops.", "quantifier": "all histories of create/clone/drop", "why_tests_cant": "Histories are unbounded.", "anchors": ["src/lib.rs: ReferenceType", "src/obj.rs, src/arr.rs, src/tup.rs: num_references, ptr_eq"]}
{"id": "C39", "title": "A text of the documented grammar loads to exactly its meaning", "statement": "For every text of the documented grammar (items, values, operators, variables, dot access, includes, arbitrary white space and comments), Obj::from_str and Obj::from_file return Ok(o) iff the document has a meaning under the documented evaluation rules and o is that meaning, and return an error iff it has none.", "quantifier": "all documents of the grammar, all renderings of them as text, all file systems, all prior histories", "why_tests_cant": "infinitely many documents and renderings; the parser is a character-level state machine with look-ahead, so agreement with the grammar needs induction over its structure", "anchors": ["src/parse/parser.rs: parse_obj_str, parse_obj_stream, parse_field_value_pair, parse_value, parse_variable, parse_numeric, parse_str, parse_include", "README.md"]}
{"id": "C40", "title": "Whatever a load returns is new", "statement": "Every Arr, Tup and Obj inside the result of Obj::from_str or Obj::from_file was created by that very load: it is ptr_eq to nothing that existed before, except that a value written as one of the words Obj, Str, Arr, Tup is the process-wide keyword Obj. So two loads never share instances (editing or dropping one result cannot affect the other), although inside one load a file included twice is shared.", "quantifier": "all texts, file systems, and process histories before and between the loads", "why_tests_cant": "A test can compare only a few instances of a few loads; the claim covers every instance at every depth (elements, fields, parents, included files) in every process history.", "anchors": ["src/lib.rs: gen_id", "src/parse/parser.rs: OBJ_SENTINEL, STR_SENTINEL, ARR_SENTINEL, TUP_SENTINEL, parse_include", "src/obj.rs: Obj::from_pairs_unchecked, ptr_eq"]}
{"id": "C41", "title": "Exactly the documented language is accepted", "statement": "Obj::from_str returns Ok(o) iff the text is a text of the documented grammar and o is its meaning; every text outside the grammar (misplaced brackets or delimiters, missing white space between items or elements, stray characters, unfinished strings or containers, ...) and every text without a meaning is an error. The same holds for Obj::from_file, and a file included as Obj, Arr or Tup must be a text of that kind. In particular the brackets of an accepted text are closed in the right order and by the right kind, and it does not end inside a string.", "quantifier": "all texts (any characters), file systems and process histories", "why_tests_cant": "A test can try only some malformed texts; that nothing outside the grammar slips through needs an induction over every path of the parser.", "anchors": ["src/parse/parser.rs: parse_obj_stream, parse_field_value_pair, parse_value, check_value_end, find_char, parse_field, parse_variable, parse_include, parse_arr_file, parse_tup_file", "src/parse/util.rs: is_value_end_char, is_end_delimiter, is_valid_field_char"]}
{"id": "C42", "title": "A text has one reading", "statement": "A text is the text of at most one document: which items, operators, variables, literals and includes it consists of is determined by its characters. So the meaning of a text (C39, C41) is well defined.", "quantifier": "all texts and all documents", "why_tests_cant": "Ambiguity would show only on some particular text; uniqueness is a statement about all pairs of readings of all texts.", "anchors": ["src/parse/parser.rs: parse_value, parse_variable, parse_numeric, parse_include", "README.md"]}
{"id": "C43", "title": "An include means its file", "statement": "Obj::from_str(text) (and from_file) returns Ok(o) iff o is the value of the text when every include in it stands for its file: the path is taken relative to the including file; the first include of a file reads it as the kind asked for (the text itself, or the value of the text as an Obj, Arr or Tup document whose own includes mean their files in turn); any later include of the same file, by whatever path and kind, gives the same value; a file that is being loaded cannot be included; the globals of the including file are neither seen nor changed. Any other load is an error. So the value of a load is a function of the texts of the files and the process, described without parser, stack or cache bookkeeping.", "quantifier": "all texts, file systems (any include graph, aliases, cycles, unreadable files) and process states", "why_tests_cant": "Include graphs are unbounded in depth, width and shape; a test sees only a few. The statement is an equivalence between the implementation and an inductive definition, for every graph.", "anchors": ["src/parse/parser.rs: parse_include, parse_obj_file_includes, parse_arr_file, parse_tup_file, parse_str_file, IncludedMap", "src/obj.rs: Obj::from_str, Obj::from_file"]}
{"id": "C44", "title": "Native values convert and compare exactly", "statement": "For every native n of the types a Value can be compared with and converted from (bool, the nine integer types, BigInt, BigRational, String, &str, Arr, Tup, Obj) and every Value v: v == n and n == v agree, and both say the same as v == Value::from(n); for values of checked constructors that is: same data. Value::from(n) gives n back from the getter of its class. Integers of any two native types are equal as values iff they are the same number. No value equals natives of two classes (Int 1 is not Frac 1).", "quantifier": "all values and all native values", "why_tests_cant": "All widths, signs and magnitudes of integers and all values are compared; boundary cases between widths are easily missed.", "anchors": ["src/value.rs: impl_eq!, impl_eq_int!, impl_from!, get_*"]}
{"id": "C45", "title": "All views of a container agree", "statement": "For every Arr and Tup, with_each calls its closure on exactly the elements in order, the i-th being get(i), and len, is_empty, iter say the same; get is out of bounds exactly from len on. For every Obj, with_each, iter, len, is_empty and contains range over the object's own fields (not its parent's), get and get_with_source return the first field of the name that is visited and only otherwise ask the parent. Any interleaving of next and next_back on the iterators yields every element once, in order, and then None for ever.", "quantifier": "all containers, closures with state, and sequences of next/next_back calls", "why_tests_cant": "Quantifies over arbitrary closures and arbitrary call sequences on containers of any size.", "anchors": ["src/arr.rs: with_each, get, len, is_empty, iter", "src/tup.rs: with_each, get, len, is_empty, iter", "src/obj.rs: with_each, get, get_with_source, contains, len, is_empty, iter"]}
{"id": "C46", "title": "Macros panic exactly when they must", "statement": "arr! panics iff its elements have no common type, and otherwise holds the converted elements in order with their least common type; tup! never panics; obj! panics iff the last \"^\" entry is not an Obj or another entry has an invalid name, and otherwise has the other entries as fields in order and that Obj as parent; frac!(a, b) panics iff b is 0, and otherwise is a/b in lowest terms, equal as a Value to frac!(c, d) iff a*d = c*b.", "quantifier": "all lists of arguments", "why_tests_cant": "Argument lists are unbounded and the exact panic condition is an equivalence over all of them.", "anchors": ["src/macros.rs: arr!, try_arr!, tup!, obj!, try_obj!, frac!"]}
{"id": "C47", "title": "The unsafe character stream is memory safe and exact", "statement": "Whatever sequence of creating (from a string or from the bytes of a file), cloning, dropping, peeking and reading character streams is executed: no read of freed memory or outside a buffer, no unchecked UTF-8 decoding past the end, no invalid char, no double free, no RefCell borrowed twice; every peek and next gives the next character of the text, line and column are those of the position; a file is accepted iff its bytes are the UTF-8 of a text; a buffer is freed exactly when the last handle to its stream is dropped. The parser's view of its input (C03, C05, ...) is this one.", "quantifier": "all sequences of operations on any number of streams and handles, all texts and file bytes", "why_tests_cant": "Undefined behaviour is not observable by tests in general, and the property ranges over all interleavings of handle operations and all texts (all UTF-8 widths at all offsets).", "anchors": ["src/parse/char_stream.rs: CharStream, Inner, from_string_impl (unsafe transmute), peek, next, from_file"]}
{"id": "C48", "title": "A load is not affected by other threads, and does not leak into them", "statement": "While Obj::from_str or Obj::from_file runs, other threads of the process may create values and load files. The outcome is the one the load has alone: the same error, or an Obj that is == , is written alike and has the same sharing. No Arr, Tup or Obj in the result is ptr_eq to one another thread has made, before, meanwhile or later, except the process-wide keyword Objs, of which there is still one per keyword.", "quantifier": "all texts, file systems, process histories, and all interleavings of id draws and keyword creations by any number of other threads", "why_tests_cant": "A test runs a few schedules; the id counter and the lazily created keyword Objs are shared by all threads at every point of the parse.", "anchors": ["src/lib.rs: CUR_ID, gen_id", "src/parse/parser.rs: OBJ_SENTINEL, STR_SENTINEL, ARR_SENTINEL, TUP_SENTINEL"]}
{"id": "C49", "title": "An include path is relative to the directory of the including file", "statement": "An include <\"p\"> in a file opened as f reads the file that p names: p itself if it is absolute, otherwise what p leads to from the directory in which f was found, however f was written (relative or absolute, with repeated separators, dots, trailing separators, ..). An include in a string is relative to the current directory. Taking the directory of the file being read never panics.", "quantifier": "all paths f and p, all directory trees (links followed by the operating system's lookup)", "why_tests_cant": "Paths are arbitrary strings; a test fixes a few files in one directory.", "anchors": ["src/parse/parser.rs: parse_include (1094-1105)", "std::path: Path::parent, Path::join"]}
{"id": "C50", "title": "Appending to a document keeps what was there", "statement": "If a text that is a document is continued on a new line, in whatever way, and the whole is accepted, then the text alone is accepted, its fields are the first fields of the whole (identical down to the identity of containers), its parent (if any) is the parent of the whole, and what was appended is itself a document. So no continuation on a new line repairs a document that is rejected or changes a field it defines. One document after another, on a new line, is a document. The same when a file is continued.", "quantifier": "all texts, continuations, file systems and process states", "why_tests_cant": "The continuation is arbitrary text; the claim excludes every way a later line could be read as part of an earlier value or comment.", "anchors": ["src/parse/parser.rs: parse_obj_stream, parse_field_value_pair, find_char"]}
{"id": "C51", "title": "The error message names the fault and its place", "statement": "When everything up to some point of a text was read and evaluated without error and what follows there is wrong in one of the ways the error messages describe (an unknown or duplicate name, a bracket that does not match, an unclosed bracket or string, a bad character or escape, a malformed number, an operator on the wrong types, division by zero, an index out of bounds, a dot on a value without fields, an Arr without a common type, nesting that is too deep, a parent that is not an Obj, an include that names no file, ...), loading fails with exactly that error: its kind, the names, types, characters and numbers in it, and the line and column of the offending place. A text has at most one such fault; what comes after the fault does not matter. For a file the message starts with its path.", "quantifier": "all texts, file systems, process states, and all places in a text (any nesting)", "why_tests_cant": "The place can be at any depth of nesting, after any text; tests/errors.rs checks some fifty literal texts, mostly on the first line.", "anchors": ["src/parse/error.rs: ParseErrorKind, Display", "src/parse/parser.rs: all functions", "tests/errors.rs"]}
{"id": "C52", "title": "A load fails exactly when there is a fault, and says which", "statement": "A text is refused exactly when it, or a file that it includes (directly or through other files), has one of the faults of C51 or such a file cannot be read; the error returned is the one of that fault, with the path, line and column of the place where it is. There is never more than one: the first in reading order. A text without such a fault loads. So no error is ever reported for a text that has no fault, and none is reported at another place or as another kind.", "quantifier": "all texts, file systems (with any include graph), process states", "why_tests_cant": "It speaks of all errors the parser can report, for every text: that the list of faults is complete can only be seen by going through every place a reader can be at.", "anchors": ["src/parse/parser.rs: all functions", "src/parse/error.rs: ParseErrorKind, Display", "src/parse/mod.rs: load_from_str, load_from_file", "tests/errors.rs"]}
{"id": "C53", "title": "Messages and type names are unambiguous", "statement": "Two different types never print the same name, and two different API errors never print the same message. Two texts (or two versions of a file) that are refused for a fault of their own with the same message have the same fault: same kind, same line and column, same names, types and characters. Since a failed load is only reported as a String (OverError::ParseError), this is what makes that String a faithful report. The words of every message are fixed.", "quantifier": "all types, all API errors, all pairs of texts, file systems and process states", "why_tests_cant": "It compares the messages of all pairs of refused texts, with arbitrary names, paths, nested types and positions inside the message.", "anchors": ["src/parse/error.rs: Display for ParseError, ParseError::from_over", "src/error.rs: Display for OverError", "src/types.rs: Display for Type", "src/parse/mod.rs: Display for UnaryOp, BinaryOp"]}
{"id": "C54", "title": "Layout of written text", "statement": "write_to_string gives one line per field, the parent (^) first and then the fields in order; each level of nesting is indented by four blanks; an Arr or Tup with no or one element stays on its line, one with more has one line per element (and the bracket on a line of its own); an empty Obj is {}. Strings are escaped, so for Objs with legal names the text has exactly these lines, none of which contains a tab, carriage return or newline or begins or ends with a blank beyond its indentation. Every line ends with a newline; only an empty Obj is written as the empty text. Display shows the same lines.", "quantifier": "all values and Objs, of any size and nesting", "why_tests_cant": "Indentation and line breaks are produced by recursion with an amount passed down; an error shows only at some depth, for some combination of one-element and many-element containers, or for some string content.", "anchors": ["src/parse/format.rs: Format for Value, Arr, Tup, Obj, String, BigRational; indent; get_char_map", "src/obj.rs: write_to_string, Display", "src/lib.rs: INDENT_STEP", "src/value.rs: Display"]}
{"id": "C55", "title": "Loading needs a bounded call stack", "statement": "However long a text is, however many fields, elements and operators it has, well formed or not, Obj::from_str needs at most 261 frames of the crate's own recursive functions, two for every sign or dot in the longest stretch of the text without white space, brackets, quotes, colons and comments, and one for every opening bracket or parenthesis (types of Arrs and Tups are computed, compared and joined by functions that call themselves once per level); with includes at most that many (plus one) for the text and for every file. So with that much stack the result is the same as with an unbounded one, and with any stack the process either dies or the result is the same. Signs and types do need their frames: no load survives whose result has a part with a type more than frames + 1 levels deep, and for every size of the stack there is a valid text (a long run of signs; or Arrs of Arrs built with variables, a: [] aa: [a] aaa: [aa] ..., nested once each) on which the process dies. (Dropping, comparing or writing an Obj recurses along its nesting as well: not counted here.)", "quantifier": "all texts, file systems and sizes of the call stack", "why_tests_cant": "A stack overflow depends on the size and shape of the input; a test tries a few sizes. The bound is about every text, and the absence of other sources of recursion cannot be observed by running.", "anchors": ["src/parse/parser.rs: parse_value, parse_unary_op, parse_variable, parse_obj, parse_arr, parse_tup, parse_include, parse_field_value_pair", "src/parse/mod.rs: MAX_DEPTH", "src/types.rs: most_specific, has_any, Clone, PartialEq of Type; src/value.rs: get_type; src/arr.rs: from_vec_inner; src/tup.rs: from_vec"]}
{"id": "C56", "title": "A load depends on the files it opens and on no others", "statement": "If the contents of files that a load does not open are changed in any way, the load does exactly the same (result, error, files opened, identity of containers). More files do not change a load that succeeds. The file given to from_file is read once: of its contents only what they mean matters, so if it is replaced by another text with the same items (and all other files stay), the same Obj is loaded.", "quantifier": "all texts, file systems, changes of files outside those opened, and processes", "why_tests_cant": "Non-interference is about two runs and every possible change of every other file.", "anchors": ["src/parse/parser.rs: parse_obj_file, parse_obj_str, parse_include", "src/parse/char_stream.rs: from_file", "src/parse/util.rs: read_file_str", "src/obj.rs: Obj::from_file, Obj::from_str"]}
{"id": "C57", "title": "The name of a global means nothing", "statement": "If the names of two globals @x and @y are exchanged everywhere in the code of a text (not in its strings and comments), the same Obj is loaded, identical down to the identity of its containers, or both texts are rejected; the same for a file. So a global can be renamed to any unused name without any effect: names of globals do not reach the Obj, other files, or fields.", "quantifier": "all texts (well formed or not), all pairs of names, file systems, processes", "why_tests_cant": "A statement about pairs of arbitrary texts and every position of a name in them.", "anchors": ["src/parse/parser.rs: parse_field_value_pair, parse_variable, parse_field", "src/parse/util.rs: is_valid_field_char"]}
{"id": "C58", "title": "The work of loading is linear in the characters read", "statement": "Loading a text makes at most 5 steps for each character of the text and of the files that are opened, plus 4 for each file and 3: steps are calls of the parsing functions, turns of their loops and characters taken from a stream. Every file is read at most once, so the work is linear in the text and the disk, however the includes are nested and repeated, whether the load succeeds or fails; there is no backtracking. The same for from_file. The data has no such bound: for every k there is a text of fewer than 2(k+2)^2 characters that loads to an Obj with a Str of 2^k characters.", "quantifier": "all texts (well formed or not), paths, file systems, processes", "why_tests_cant": "A bound on the number of steps for every input; tests measure a few inputs and miss the bad family.", "anchors": ["src/parse/parser.rs: parse_value, parse_obj, parse_field_value_pair, parse_arr, parse_tup, parse_variable, parse_include, parse_unary_op, parse_obj_stream", "src/obj.rs: Obj::from_str, Obj::from_file"]}
{"id": "C59", "title": "Writing, comparing and looking up need as much stack as the data is deep", "statement": "Obj::write_to_string, Display and == need at least as many frames of the crate's recursive functions as the Obj is nested (Objs, Arrs, Tups and parents; == when the two sides are equal), and twice that number always suffices; with any stack the process either dies or the answer is the right one. Obj::get needs one frame per generation searched, get_type one per level of the type. So an Obj whose written text loads back can be written and compared with 128 frames; but for every size of the stack there is a text that loads whose Obj can be neither written nor shown nor compared with itself.", "quantifier": "all Objs and values, all sizes of the call stack", "why_tests_cant": "A stack overflow depends on the depth of the data; a test tries a few depths on one machine. The bounds are about every value.", "anchors": ["src/parse/format.rs: Format for Value, Arr, Tup, Obj", "src/arr.rs, src/tup.rs, src/obj.rs, src/types.rs: PartialEq", "src/obj.rs: get, write_to_string", "src/value.rs: get_type"]}
{"id": "C60", "title": "One instance is one value; literals are new instances, names are not", "statement": "In a loaded Obj, two Arrs, Tups or Objs for which ptr_eq holds are equal: same fields, elements, parent, and these are the same instances again. No container contains itself, at any depth (so no reference cycle is ever loaded). Instances of two loads of one process are the same only for the empty keyword Objs. A line h: [...], h: (...), h: {...} or the sum of two Arrs makes an instance that occurs nowhere among the values loaded before it; a line h: f gives the very instance of f.", "quantifier": "all texts, files, file systems, process histories and schedules of id draws by other threads; all parts of the results", "why_tests_cant": "Whether two handles share data depends on how often ids were drawn before, by which thread, in which include; a test sees one history. Aliasing mistakes show up only for the combination that reuses an id.", "anchors": ["src/arr.rs, src/tup.rs, src/obj.rs: ptr_eq, from_values_unchecked, from_map_unchecked", "src/lib.rs, src/obj.rs: ids", "src/parse/parser.rs: parse_obj, parse_arr, parse_tup, parse_variable, binary_op_on_values, parse_include"]}
{"id": "C61", "title": "A literal and a file with the same contents are interchangeable", "statement": "Take a document without includes in which an item's value is a literal {...}, [...], (...) or \"...\" that reads no name from outside and defines no global. Write the contents of the literal into a file (in any layout; for a string, its characters) and replace the literal by <\"file\">, <Obj \"file\">, <Arr \"file\">, <Tup \"file\"> or <Str \"file\">. The new document loads whenever the old one does, to an Obj that is ==. Conversely, a document with such an include can be replaced by one with the literal, provided the nesting stays below the limit (a file starts counting afresh). The same when the document is itself a file (paths are relative to it, and the included file is another file).", "quantifier": "all documents, literals, layouts of the documents and of the file, paths, file systems and process states", "why_tests_cant": "It equates two different code paths (reading inline, reading through an include with its own stream, globals, depth and cache) for every value the language can express.", "anchors": ["src/parse/parser.rs: parse_include, parse_obj, parse_arr, parse_tup, parse_obj_file, parse_arr_file, parse_tup_file, parse_str_file"]}
{"id": "C62", "title": "Independent lines can change places", "statement": "Take a document in which two neighbouring items are independent: neither defines a name (its field, its global, or a global defined inside its value) that the other uses, and at least one of the two contains no include (the rest of the document may include any files, also the same ones). Then the document with the two items exchanged loads whenever the first one does. If at least one of the two is not a field, the two Objs are ==; if both are fields, the second Obj is the first with these two pairs exchanged: not ==, but every get gives equal data. The same when the document is a file.", "quantifier": "all documents (any items before and after, with includes), all texts and layouts of both, all file systems and process states", "why_tests_cant": "Which names an expression reads or defines is spread over the whole document; a hidden dependency on order (of ids, globals, cache) appears only for particular combinations of items.", "anchors": ["src/parse/parser.rs: parse_obj_stream, parse_field_value_pair, parse_variable, parse_obj", "src/obj.rs: get, PartialEq"]}
{"id": "C63", "title": "What nobody reads can be deleted", "statement": "Take a document with an item whose name, and the globals defined inside its value, no later item reads (and either the item or everything after it contains no include). Without the item the document still loads whenever it did with it: if the item is a global the two Objs are ==; if it is a field, the Obj lacks exactly that pair and is otherwise the same data. The same when the document is a file.", "quantifier": "all documents, positions of the item, values of the item (also with includes), layouts, file systems and process states", "why_tests_cant": "An unused definition could still matter through ids, the table of included files, the nesting count or name checks; the claim is about every context.", "anchors": ["src/parse/parser.rs: parse_obj_stream, parse_field_value_pair, parse_variable"]}
{"id": "C64", "title": "A name means the expression it was defined with", "statement": "Let a document define f: e (a field or a global), where e has no includes and defines no globals and, if f is a global, reads only globals. In any choice of the later items (which may include any files), replacing the name f by e where it stands as a whole value or, if e is a single operand, as an operand (in Arrs, Tups, parents, includes and, for a global f, inside object literals at any depth) gives a document that loads to an Obj == to the first, provided the nesting stays below the limit; and in the other direction (e replaced by the name) without proviso. The same when the document is a file. Without the condition on e the claim is false: with a: 1 and @g: a, the name @g inside {a: 2 ...} is not a.", "quantifier": "all documents, definitions, choices of occurrences, layouts, file systems and process states", "why_tests_cant": "It is the substitution law of the language: it quantifies over all expressions and all contexts, where evaluation twice must give what sharing gave.", "anchors": ["src/parse/parser.rs: parse_variable, parse_value, parse_value_frag, parse_obj, parse_field_value_pair"]}
{"id": "C65", "title": "Dropping needs as much stack as the data is deep", "statement": "Dropping a handle takes one reference; dropping the last one destroys the instance and drops everything it holds, recursively. The outcome is that of the single steps of C38 in that order and does not depend on the stack; as many frames as the data is nested deep suffice, and that many are needed when every instance of a chain has a single handle. Dropping the only handle of an Obj frees everything reachable from it and nothing else. Every Obj that can be loaded can be in memory with one handle, and for every stack size there is a text that loads and whose Obj, when its last handle is dropped, overflows the stack and kills the process.", "quantifier": "all heaps reachable by any history of new/clone/drop, all handles, all stack sizes, all loaded Objs", "why_tests_cant": "The recursion is in compiler generated drop code; the depth at which it dies depends on the stack, and a test sees one stack and one depth.", "anchors": ["src/arr.rs: Arr, ArrInner", "src/tup.rs: Tup, TupInner", "src/obj.rs: Obj, ObjInner", "src/value.rs: Value"]}
{"id": "C66", "title": "Errors compare by kind and data, types up to compatibility", "statement": "Two errors are == exactly if they are of the same kind and say the same thing, where mismatched types need only be compatible (one may leave Any where the other has a type). == on errors is reflexive and symmetric but not transitive (although OverError implements Eq); errors that mention no Any are == only if they are identical, and errors with the same message are ==, but not conversely. The errors of two loads are == exactly if their messages are the same. Pairs are == exactly if they have the same name and equal values.", "quantifier": "all pairs of errors, all pairs of failing loads of texts or files, all pairs of fields with well-formed values", "why_tests_cant": "A test that compares an error with == accepts every error with compatible types; whether that is an equivalence is a statement about all types, which nest without bound.", "anchors": ["src/error.rs: OverError (derive PartialEq, Eq)", "src/types.rs: PartialEq for Type", "src/obj.rs: Pair"]}
{"id": "C67", "title": "A project of several files means what it says, file by file", "statement": "Remembering the values of included files cannot be seen in the data. Let every file be included as one kind only (Obj, Str, Arr or Tup), and let the paths of a file lead to the same files beside it. Evaluate a text, or a file, by reading every include afresh, as often as it occurs and however deep includes are nested, without a cache and without an include stack. If that gives an Obj, from_str / from_file load the text, including every file as its kind, and give an Obj that is ==; and conversely, whenever a load succeeds that includes every file as its kind, evaluating afresh gives that data, with no more includes inside each other than there are files. What an include means does not depend on the place, the globals or the process. With two kinds the claim is false: after <Str \"b\"> the include <\"b\"> is a Str.", "quantifier": "all file systems, all contents of files as syntax, all texts that spell them, all nestings of includes, all process states", "why_tests_cant": "A test fixes one project. That a cache is invisible is a statement about all projects, orders and nestings of includes, and about two different ways to evaluate them.", "anchors": ["src/parse/parser.rs:parse_include", "src/parse/parser.rs:parse_obj_file_includes", "src/parse/parser.rs:parse_arr_file", "src/parse/parser.rs:parse_tup_file", "src/parse/parser.rs:IncludedMap", "src/obj.rs:Obj::from_file"]}
{"id": "C68", "title": "Files that change during a load: each is seen as at one moment", "statement": "While a load runs, other programs may rewrite files (also the ones being loaded), make them unreadable or readable, any number of times and at any time. As long as paths and links stay, there is a fixed file system - each opened file with what was in it when the load opened it, every other file as at the beginning - on which the load does exactly the same: result or error, files opened, identity of containers. Only what is in a file at the moment it is opened counts, and no file is opened twice, so a file never appears in two versions in one Obj. The load never panics from this. If names change it can: a load panics if the file it is parsing is removed before an include in it is reached.", "quantifier": "all histories of the contents of all files, all texts and paths, all process states", "why_tests_cant": "Concurrent writers cannot be scheduled by a unit test: the claim is about every history of every file between the steps of a load.", "anchors": ["src/parse/char_stream.rs:CharStream::from_file", "src/parse/util.rs:read_file_str", "src/parse/parser.rs:parse_include", "src/obj.rs:Obj::from_file"]}
{"id": "C69", "title": "A file can be replaced by any other with the same data", "statement": "In a project in which every file is included as one kind, replace any number of files by others of the same kind whose own data is the same (each, loaded on its own, gives the same data before and after), however they are written and whatever they include. Every file and every text of the project that loaded still loads, to an Obj that is ==, and none loads that did not load before. In particular a file may be replaced by the output of write_to_file for the Obj it loads to (up to the nesting limit), after which it includes nothing. The data of the replaced files must not contain an include keyword as a value: written, it is {} and no keyword any more, and the claim is false.", "quantifier": "all projects (file systems, contents, nestings of includes), all sets of replaced files, all texts, all process states", "why_tests_cant": "A test compares two given projects. This is a congruence: for every project around the replaced files, every new contents of them and every place where they are included.", "anchors": ["src/parse/parser.rs:parse_include", "src/parse/parser.rs:parse_obj_file_includes", "src/obj.rs:Obj::from_file", "src/obj.rs:Obj::write_to_file", "src/parse/format.rs"]}
{"id": "C70", "title": "Reorganizing a project keeps its data", "statement": "Take a project in which every file is included as one kind, and reorganize it: rename, move, duplicate or merge files and adapt the paths of the includes; move literals (Obj, Arr, Tup, Str) out into files of their own and include those instead; move files in, as literals at the places where they were included. All this at any number of places at once, in the texts of all files, also inside literals that are moved. Every file and every text that loaded before then loads, to an Obj that is ==. A literal that is moved must not use names from around it or define globals (otherwise the claim is false: [@g] in a file of its own is an error), and texts must not become nested deeper than the limit. Any number of such steps, and of replacements as in C69, may follow each other. In particular a whole project can be moved to another directory unchanged.", "quantifier": "all pairs of projects (file systems, contents, nestings of includes) of which the second is reorganized from the first, all paths and texts, all process states", "why_tests_cant": "A test compares two given projects. This is a simulation between any two projects related by any number of rearrangements in all files, with different sharing of the included values and different nesting.", "anchors": ["src/parse/parser.rs:parse_include", "src/parse/parser.rs:parse_obj_file_includes", "src/parse/parser.rs:parse_arr_file", "src/parse/parser.rs:parse_tup_file", "src/parse/parser.rs:parse_obj", "src/parse/parser.rs:parse_arr", "src/parse/parser.rs:parse_tup", "src/obj.rs:Obj::from_file"]}
{"id": "C71", "title": "Files that come and go during a load", "statement": "While Obj::from_str or Obj::from_file runs, other programs may create, delete and rewrite files at any time, also between two questions that the load asks about the same file (is there a file at the path, what is its canonical path, open it), as long as a path, whenever there is a file at it, leads to the same file. Then the load does exactly what it does (result, error, files opened) on one file system on which nothing changes: each file that it opened has what was in it when it was opened, all others are as if they had always been there. The only exception is a load that ends because a file was missing when it was needed: it gives the error InvalidIncludePath at the include of that file, or the system's error for a file that cannot be opened, or it panics if the file that contains the include is gone. So if it succeeds, what it returns is the Obj of files that it has really read, everything known about loads holds for it, every file is opened at most once, and the load always ends. If a path may lead to different files in the course of a load (a link that is changed) this is false: a file that includes itself through such a link can be read without end.", "quantifier": "all histories of the file system during the load (one file system for every question the load asks), all texts, paths, contents and process states", "why_tests_cant": "The outcome depends on the order of the steps of the load and of all other programs; a test can force a few interleavings, this is about every one of them and about every nesting of includes.", "anchors": ["src/parse/parser.rs:parse_include", "src/parse/parser.rs:parse_obj_file_includes", "src/parse/char_stream.rs:CharStream::from_file", "src/parse/util.rs:read_file_str", "src/obj.rs:Obj::from_file", "src/obj.rs:Obj::from_str"]}
{"id": "C72", "title": "Lines put before a text move the reported lines and nothing else", "statement": "Put whole lines that are blank or comments (a licence header, say) before a text, and before any files of the project that it is loaded in, as long as none of these files is included as a Str. Then Obj::from_str and Obj::from_file give the same Obj (the same data, instances and ids, and the same files opened in the same order), or the same error: the same fault in the same file, its line further down by exactly the number of lines put before that file, its column and all other words of the message unchanged. Errors without a position (a file that cannot be read, ...) stay as they are, and so do errors in files that got no lines.", "quantifier": "all texts, all projects, all choices of headers (any number of lines with any characters in the comments) for any of the files, all process states", "why_tests_cant": "Positions are passed through every parsing function, remembered in operator queues and used much later; a test sees one error at one place after one header, while a position computed from the start of the file, or taken from the including file, shows only for some errors in some files.", "anchors": ["src/parse/char_stream.rs: CharStream::next, line, col", "src/parse/parser.rs: find_char, parse_value, parse_field_value_pair, parse_variable, parse_include, parse_obj_stream, parse_arr_file, parse_tup_file", "src/parse/error.rs: ParseError, from_over", "src/obj.rs: Obj::from_str, Obj::from_file"]}
{"id": "C73", "title": "The first fault is the one reported; what follows it does not matter", "statement": "If a text of whole lines (ending with a line break) is refused by Obj::from_str, and not because the text ended too early, then every text that starts with it is refused with the very same error (same fault, same position, same words), after opening the same files and drawing the same ids. The same holds for Obj::from_file when more text is appended to the file. Hence writing more text never repairs a fault that was found: a text of whole lines that can be continued to one that loads either loads itself or ends too early.", "quantifier": "all texts of whole lines, all continuations (any characters), all projects, all process states", "why_tests_cant": "It quantifies over every refused text and every continuation; a parser that looks ahead further than needed, collects errors, or reports the last of several faults passes tests with one fault each.", "anchors": ["src/parse/parser.rs: all parsing functions", "src/parse/char_stream.rs: CharStream::next, peek", "src/obj.rs: Obj::from_str, Obj::from_file"]}
{"id": "C74", "title": "The name of a field means nothing", "statement": "If two names of fields (any two legal, unreserved names) are exchanged everywhere in the code of a text (where fields are defined, used as variables or reached with a dot; not in strings, comments, numbers or names of globals), the text loads iff it loaded before, and gives the same Obj with the two names exchanged, in nested Objs and parents too, down to the identity of its containers. In a project the names are exchanged in all files that are included as Obj, Arr or Tup, and not in those included as Str: then the project loads to an Obj that is == the earlier one with the names exchanged. Renaming to a name that is already used is not enough: the text may then define a field twice.", "quantifier": "all texts, all pairs of legal field names, all projects whose files are included as one kind each, all process states", "why_tests_cant": "A parser may treat a name specially (a constant, a prefix, a length, the order of names in a map) for some of infinitely many names and places; the claim is about all of them at once.", "anchors": ["src/parse/parser.rs: parse_field_value_pair, parse_value, parse_variable, parse_obj, parse_include", "src/parse/util.rs: is_reserved", "src/obj.rs: Obj::is_valid_field_char, Obj::get, Obj::from_str, Obj::from_file"]}
{"id": "C75", "title": "An edit reaches only what uses it", "statement": "Take two versions of a document that both load: items kept, changed, removed or added in any number. Call reached the names that the edited items define (as fields, globals, or globals inside their literals) and, going down the text, those of every kept item that uses a reached name. Then the two Objs have the same fields with the same data in the same order, but for the reached ones, and the same parent unless ^ is reached. This holds for strings and for a file of a project whose other files are unchanged, in whatever process state and layout the two versions are loaded. The edited items alone would not be enough: a kept field may change through a field or a global it uses.", "quantifier": "all pairs of versions of a document, all texts of them, all projects whose files are included as one kind each, all pairs of process states", "why_tests_cant": "Hidden dependencies (a cache shared between items, a scope that leaks, a global seen too early or too late) show only in particular combinations of items; the claim is about every edit of every document.", "anchors": ["src/parse/parser.rs: parse_obj_stream, parse_field_value_pair, parse_value, parse_variable, parse_obj, parse_include", "src/obj.rs: Obj::from_str, Obj::from_file, Obj::get"]}
{"id": "C76", "title": "Constants may be written in any way", "statement": "A number may be spelled in any way with the same value and kind (1_000 or 1000, .5 or 0.50, with signs), a string with escapes or without, and an operation on two constants may be replaced by its result (a product where it is not preceded by another * / %, a sum at the beginning of an expression where no * / % follows): anywhere in a text, inside literals, paths of includes, indices and operands, any number of times and in both directions. The text then loads to exactly the same Obj, down to the identity of its containers, and is rejected iff it was before; the same holds for a file. If this is done in all files of a project, the data is the same. 1 + 2 * a is not 3 * a, and 1.0 is not 1.", "quantifier": "all texts and pairs of rewritten texts, all files and projects, all process states", "why_tests_cant": "Spellings and operations are infinitely many, and each can stand in every context; a rounding, an overflow or a wrong precedence shows only for particular numbers and places.", "anchors": ["src/parse/parser.rs: parse_value, parse_numeric, parse_str, parse_unary_op, binary_op_on_values, unary_op_on_value", "src/parse/util.rs: frac_from_whole_and_dec, is_numeric_char", "src/obj.rs: Obj::from_str, Obj::from_file"]}
{"id": "C77", "title": "How large loaded data can get", "statement": "Let n be the number of characters of a text and of the files that are opened when it is loaded. Then no Str in the loaded data, at any depth and parents included, has more than 2^n characters, no Arr or Tup more than 2^n elements, no Obj more than 2^n fields, and no Int, numerator or denominator is larger than 16^(4^n), i.e. has more than about 4^n hexadecimal digits. A file counts once, however often it is included, so text and disk bound the data. The same holds for from_file. This cannot be improved to anything polynomial: for every k there is a text of fewer than 2(k+2)^2 characters with a Str of 2^k characters, and one with the Int 16^(2^k).", "quantifier": "all texts, files, file systems and process states, all parts of the loaded Obj; all k", "why_tests_cant": "A bound on everything that any text can make; tests see only the sizes that their texts produce.", "anchors": ["src/parse/parser.rs: parse_value, binary_op_on_values, unary_op_on_value, parse_numeric, parse_str, parse_include", "src/obj.rs: Obj::from_str, Obj::from_file"]}
{"id": "C78", "title": "Equal values cannot be told apart except by identity", "statement": "A program that uses the library through its API (literals, checked constructors and try_obj!, every getter and typed getter, len, contains, iteration, parents, ==, comparison with native scalars, Display, write_to_string, and loading of texts and files), choosing every next call by all it has learned before, learns exactly the same when some of its values are replaced by equal (==) ones, for however long it runs, and also in another process with another past; every value it is given in the one run is equal to the one it is given in the other. Conversely values that are not equal are told apart by some such program. Only id, ptr_eq and num_references, and values made by the _unchecked constructors with a type of the caller's choice, go beyond ==.", "quantifier": "all programs of such calls, all numbers of steps, all tuples of pairwise equal values, all file systems (changing between calls) and all pairs of process histories", "why_tests_cant": "Contextual equivalence: it ranges over all programs that use the API, not over calls of one function.", "anchors": ["src/value.rs: PartialEq for Value, typed getters, Display", "src/obj.rs: Obj::get, get_with_source, from_pairs, write_to_string, PartialEq", "src/arr.rs: from_values, get, inner_type, PartialEq", "src/tup.rs: from_values, get, inner_type_vec, PartialEq", "src/types.rs: PartialEq for Type"]}
{"id": "C79", "title": "Loading takes at most linearly many ids, so they do not run out", "statement": "Loading a text of n characters that opens f files with m characters in all takes at most 5(n+m)+4f+3 ids from the process-wide counter, plus one for each of the four keyword Objs (Obj, Str, Arr, Tup) that is used for the first time, whether the load succeeds or fails and whatever other threads draw meanwhile; every file counts once. Conversely it takes at least one id, besides those that other threads take, for each different Arr, Tup and Obj in the result (keyword Objs that there were before excepted). The same for from_file. So over the whole history of a process the counter is at most what its loads cost, plus the containers made by the program and by other threads, plus 4; as long as this is below 2^64 the 64-bit counter never wraps around, and every Arr, Tup and Obj ever loaded has an id that no other one has.", "quantifier": "all texts, files, file systems, interleavings with other threads, and histories of a process", "why_tests_cant": "A bound over all inputs and histories; reaching the wrap-around of a 64-bit counter in a test is impossible.", "anchors": ["src/lib.rs: gen_id, CUR_ID", "src/obj.rs: from_pairs_unchecked", "src/arr.rs: from_values_unchecked", "src/tup.rs: from_values", "src/parse/parser.rs: parse_obj, parse_arr, parse_tup, binary_op_on_values, parse_obj_stream, parse_include"]}
{"id": "C80", "title": "Other texts, fractions and truth values do not change the structure", "statement": "Take a text and write other strings, other fractions and other truth values in it, anywhere (included paths are left as they are). If both texts load, the two Objs have the same structure: every path of field reads (inherited ones too), element reads and parents leads somewhere in both or in neither, and then to values of the same type, with the same field names in the same order, the same number if they are Ints, and the same identity if they are containers, so the same containers are shared. If the text has no division, the one loads exactly if the other does; also for a file of a project. The same, up to identity, if all files of a project are so edited at once, its text files in any way. So a program that reads values of known types from a file keeps working when only such settings are edited.", "quantifier": "all texts, all such edits, all file systems and all paths", "why_tests_cant": "It relates every pair of texts in an infinite relation; a test compares a few.", "anchors": ["src/parse/parser.rs: parse_value, parse_numeric, parse_str, parse_variable, binary_op_on_values, unary_op_on_value, parse_arr, parse_tup, parse_obj", "src/obj.rs: Obj::get", "src/arr.rs: Arr::get", "src/tup.rs: Tup::get"]}
{"id": "C81", "title": "How long the written text is", "statement": "write_to_string of an Obj with legal names has exactly as many lines as its data needs (one per atom, none more for a list of at most one element, two more for a longer list and for an Obj with fields), at most two for each value in it, and its length is the number of characters of names, literals and brackets plus the indentation: at most four blanks per line and level. So an Obj nested at most 63 deep (that can be loaded again) is written in linearly many characters: the characters of its names and literals and at most 506 per value. An Int has as many digits as its size requires, and a Str two characters more than itself plus one for each escaped one. Loading that text again takes linearly many steps too. The same bounds on the length hold for Display. Deeper Objs may need quadratically many. There is no such bound in terms of the text that was loaded: what is shared is written as often as it occurs, and a text of about 2k^2 characters can be written out as 2^k.", "quantifier": "all Objs and values, of any size and depth", "why_tests_cant": "It bounds the text of every Obj, of any size and depth; a test measures a few.", "anchors": ["src/obj.rs: Obj::write_to_string", "src/parse/format.rs: Format impls", "src/value.rs: Display"]}
{"id": "C82", "title": "Inheritance can be written out", "statement": "Give every Obj of some data the fields that it inherits (after its own, the parent's order kept) and drop the parents. Then get finds the same for every name: nothing where nothing was found, and otherwise the value found before, itself treated this way: of the same type, the same if it is no container, with its elements in the same places. The fields of the new Obj are exactly the names that can be read from the old one, its own first. Data that is legal stays legal and does not get deeper, so if it can be written and loaded, so can this, and the Obj loaded has no parent and answers get for every name with an equal value. Only ==, len and contains, which do not look into parents, tell the two apart.", "quantifier": "all Objs with any chain of parents, any nesting of Objs with parents inside, and all field names", "why_tests_cant": "It holds for all data and all names, at any depth of nesting and inheritance.", "anchors": ["src/obj.rs: Obj::get, contains, len, write_to_string, PartialEq", "src/parse: load_from_str"]}
