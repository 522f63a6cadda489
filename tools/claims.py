CLAIMS = {
 'C09': ('proved', 'Arr::from_values: acceptance, inner type, order independence; get_type (PropType.v).'),
 'C10': ('proved', 'most_specific = least common specialisation; algebraic laws.'),
 'C11': ('proved', 'Type ==/is characterised; transitivity refuted with a witness (and shown to hold without Any).'),
 'C12': ('proved', 'Value == on well-formed values is equality of data modulo ids; transitivity refuted for from_values_unchecked.'),
 'C14': ('proved', 'Lookup along the parent chain.'),
 'C15': ('proved', 'All seven typed getters.'),
 'C31': ('proved', 'from_pairs, is_valid_field, try_obj!.'),
 'C32': ('proved', 'Comparison with native integers, any range.'),
 'C03': ('proved', 'from_str unconditional; from_file if the top file has a canonical UTF-8 path (needed: C03_no_canonical_path_panics).'),
 'C04': ('proved', 'No load exhausts the recursion budget, and a larger budget gives the same result.'),
 'C05': ('proved', 'Message level.'),
 'C06': ('proved', 'Every error kind; the newline exception is in the specification located and refuted as a position.'),
 'C07': ('proved', 'For every part of a loaded Obj.'),
 'C08': ('proved', 'For every Arr inside a loaded Obj; get_type against an independent relation (PropType.v). The _line theorems: one more line after any text that loads (PropStep.v).'),
 'C22': ('proved', 'Over the event log of a load.'),
 'C23': ('proved', 'Over the event log of a load; includes of one file give the same instance.'),
 'C24': ('proved', 'First include has its kind, later ones the first value; witness that the keyword is ignored.'),
 'C16': ('proved', 'Text level: f: e loads to the value of the unique parenthesis-free tree of the chain. The _line theorems: one more line after any text that loads (PropStep.v).'),
 'C17': ('proved', 'Exact arithmetic specified by the relation arith; errors and other types. The _line theorems: one more line after any text that loads (PropStep.v).'),
 'C39': ('proved', 'Parser = specification of Syntax.v on every rendered text.'),
 'C18': ('proved', 'Text level, for every text that is lexically a numeral; value specified as a relation on digit lists.'),
 'C19': ('proved', 'Text level: quoting inverse, escapes, invalid escapes.'),
 'C20': ('proved', 'On every rendered text (Syntax.v); scoping specified by the relation scoped. The _line theorems: one more line after any text that loads (PropStep.v).'),
 'C21': ('proved', 'No @ field in any load; isolation of includes; redefinition; the hole refuted with a witness.'),
 'C26': ('proved', 'Any two layouts of the same items load alike; any text, stated with a four-state scanner (LexSpec.v) instead of the grammar: white space in the code can be exchanged.'),
 'C27': ('proved', 'Loading (root and nested) and writing; for every text by a scanner (LexSpec.v).'),
 'C30': ('proved', 'Own fields only; witness that inherited fields are not found. The _line theorems: one more line after any text that loads (PropStep.v).'),
 'C37': ('proved', 'Keywords as values; variable acts as keyword; ordinary empty Obj never does, in every process state.'),
 'C01': ('proved', 'For every well-formed Obj, any process state; exact depth bound; names accepted by from_pairs but not legal refuted.'),
 'C02': ('proved', 'For every loaded Obj; loads of any depth exist, so the unconditional round trip is refuted.'),
 'C33': ('proved', 'Total, text determines data up to == and conversely (any depth), stable under re-loading.'),
 'C36': ('proved', 'Display of a value as the right-hand side of a field; exact depth bound; text determines the value.'),
 'C25': ('proved', 'Bracket depth of every accepted text by a scanner; exact bound for every rendered text and for every mix of brackets; any number of signs accepted, recursion at least two calls per sign.'),
 'C28': ('proved', 'Elements, least common type, error iff none; associative up to ==; neutral elements. The _line theorems: one more line after any text that loads (PropStep.v).'),
 'C29': ('proved', 'API getters, the parser after a dot (all error kinds), and texts h: f.w and h: f.k appended to a loaded document. The _line theorems: one more line after any text that loads (PropStep.v).'),
 'C13': ('proved', 'Every schedule of the two-step creations (fetch_add, allocate) of any number of threads.'),
 'C35': ('proved', 'Byte-level model of create/truncate/write_all with UTF-8; every crash point and I/O error; what from_file makes of each crash state (Prefix.v).'),
 'C38': ('proved', 'Every history of new/clone/drop with drops in single steps, address reuse; also no dangling handle, no leak, drops finish.'),
 'C34': ('proved', 'For every two processes (any history of creations and loads, successful or failing, from any files) the same text or file gives the same error or Objs that are equal by ==, written alike, and related by a one-to-one renaming of ids. Two-run (relational) proof over the whole parser and includes, History.v.'),
 'C40': ('proved', 'Every Arr, Tup, Obj inside a loaded Obj has an id drawn during that load, keyword Objs excepted; loads share nothing else.'),
 'C41': ('proved', 'Induction over the whole parser (Complete.v): accepted iff a text of the grammar with a meaning; every other text is an error; also for files and for first includes; bracket matching by a scanner.'),
 'C42': ('proved', 'The grammar is unambiguous: documents, lists and values (Unique.v).'),
 'C43': ('proved', 'Inductive relation includes (IncSem.v, no parser, fuel, stack or event log); equivalence with from_str and from_file in both directions (IncSemProofs.v: simulation of two evaluations, induction over fuel one way and over the relation the other way).'),
 'C44': ('proved', 'Case analysis over natives and values; ranges of all nine integer types.'),
 'C45': ('proved', 'Closures as state transformers; double-ended iteration by induction over the calls.'),
 'C46': ('proved', 'Exact panic conditions and results.'),
 'C47': ('proved', 'Byte-level heap with explicit undefined behaviour, reference counts and borrow flags (Stream.v); invariant over all operation sequences; refinement of the character-list stream of Parser.v.'),
 'C48': ('proved', 'The other threads\' draws of ids and creations of keyword Objs are an arbitrary parameter of the process state, executed between any two uses the load makes of it; so every theorem about loads holds under interference, and C48 compares the run with interference to the run alone. Files that change during a load: C68.'),
 'C49': ('proved', 'Path::parent and Path::join modelled as in std (Unix); specified by walking an arbitrary tree of directories segment by segment. The unwrap on the parent is in the model (C03 covers it).'),
 'C50': ('proved', 'Grammar of prefixes (Prefix.v) and C41/C42; results equal including ids.'),
 'C51': ('proved', 'Places and faults are specified in Spot.v by inductive relations over texts and values, without the parser; soundness proved backwards along the places (FaultBase.v, FaultSound.v, FaultKinds.v, FaultVal.v). The _line theorems state it for one more line after any text that loads, without places.'),
 'C52': ('proved', 'Both directions, for from_str and from_file: soundness (FaultBlame.v) and completeness, by strong induction on the steps of the parser with one lemma per place of Spot.v (FaultDone, FaultSeq, FaultAtom, FaultName, FaultChain, FaultItems, FaultAll), then by induction on the nesting of files. Also: uniqueness; a text without fault loads; without files the fault is in the text itself.'),
 'C53': ('proved', 'Type names form a prefix code (induction on types); every message can be decoded from its ends. C53_texts and C53_api_texts pin the words of all messages to a table. Assumes that Debug of a char is injective (stated as a hypothesis). Messages of included files carry their path: compared for equal paths.'),
 'C54': ('proved', 'The layout is specified as a list of lines with levels (PropLayout.v), without the formatter; equality by induction on values. For Objs with legal names the lines are the lines of the text and are tidy.'),
 'C55': ('proved', 'The parser functions with a frame counter (Stack.v, generated from Parser.v by tools/gen_eq.py); equality with the unbounded parser by induction, frames needed as a function of the nesting, of the chain of signs and dots ahead and of the depth of the types met, which the brackets read bound. Lower bounds: the types in the result, and two families of texts.'),
 'C56': ('proved', 'Two runs of the parser on two file systems (Locality.v): equal unless the first opens a file that differs; by induction over the parsing functions. Successful loads: transfer of the meaning of includes (IncSem.v) between file systems.'),
 'C57': ('proved', 'The exchange is a one-pass scanner over the text (AlphaSpec.v). It commutes with the grammar (induction over texts, Alpha.v) and with evaluation (simulation of two evaluations); it is its own inverse on every text.'),
 'C58': ('proved', 'The parser functions with a meter (Count.v, generated from Parser.v by tools/gen_eq.py); the meter is erased without effect; potential argument by induction over the functions (CountProofs.v); files counted once by C23. Not counted: arithmetic, map look-ups, copying.'),
 'C59': ('proved', 'The functions with a frame counter (Walk.v), compared with the plain ones by induction on the counter. Overflow family: the deep Objs of C02_loads_any_depth. Drop is C65. Not counted: Debug, functions of the standard library.'),
 'C60': ('proved', 'Share.v: a heap assigns to each id the container created with it; every value of an evaluation, of the globals and of the cache of included files agrees with the heap, and ids are drawn upwards (induction over the syntax, and over the fuel for includes). In the model the identity of an Arc is the id drawn when it was created; that two live Arcs have different addresses is the standard library\'s. That acyclic data is freed is C38 (reference counts).'),
 'C61': ('proved', 'Simulation of two evaluations (Refactor.v): the literal at depth 2 against the contents of the file at depth 1; the include by the specification of C43; both directions, for from_str and from_file.'),
 'C62': ('proved', 'Two evaluations of the same items from states that agree on the names read are simulated (Relate.v, induction over the syntax; the values correspond instance by instance, so includes do the same in both); each item changes only the names it writes (frame). Texts enter through the grammar (C39, C42), files through C43 and C56.'),
 'C63': ('proved', 'As C62: the state without the item agrees on all names read later.'),
 'C64': ('proved', 'Substitution on the syntax (sub in Refactor.v) and a simulation in which the name is bound to the value of the expression; evaluating the expression again gives the same data because no name is ever rebound. C64_any_definition_refuted shows that the condition on e is needed.'),
 'C65': ('proved', 'Drop.v: the compiler generated recursive drop over the reference-counted heap of Runtime.v, with a frame counter; compared with the single steps of C38 by induction on the counter; layout of any loaded Obj in a reachable heap by induction on values; overflow family by induction on the stack size. A drop of locals inside a load that fails is not modelled.'),
 'C66': ('proved', 'Derived == of OverError and Pair (Api.v) against an inductive relation; uses the compatibility of types of C11 and the decodability of messages of C53.'),
 'C67': ('proved', 'Afresh.v: the specification, a recursive function on how deep includes are nested. Two evaluations afresh in different states correspond (Relate.v); the least depth at which a file has a value decreases along includes, so no file includes itself; every value in the cache corresponds to an evaluation afresh; the cached evaluation is one of C43. The converse: an evaluation whose log respects the kinds took only such steps (Back.v); the levels of files are at most as many as there are files (AfreshConv.v). C67_str_iff, C67_file_iff: both directions as an equivalence (AfreshOp.v: the load itself respects the kinds). C67_two_kinds_refuted shows that one kind per file is needed.'),
 'C68': ('proved', 'Changing.v: the loading functions of Parser.v with a file system per moment. Two runs, one on a changing and one on a fixed file system, are equal or part at the opening of a file that has other contents (Locality.v, by induction over the parsing functions); in the snapshot no such opening exists, because no file is opened twice (C23). Names and links must not change (C68_removed_file_panics).'),
 'C69': ('proved', 'Replace.v: what it means that files have the same data. Simulation of the two projects, evaluated afresh (C67, both directions), by induction on the nesting; at a replaced file all instances that are no keywords correspond. The written form by C01. C69_file_iff, C69_str_iff: the two projects load the same files and texts to the same data. C69_keyword_refuted shows that the condition on keywords is needed.'),
 'C70': ('proved', 'Reorg.v: the relation between the two projects (specification). Simulation of the two projects, evaluated afresh (C67, both directions), by mutual induction over the relation and strong induction on the nesting of includes; the literal and the file are evaluated in different surroundings at different depths. C70_unchanged: unchanged texts are covered if paths lead to twins. C70_moved: a whole project at another place. C70_steps: any number of steps of C69 and C70. C70_alone_refuted shows that a moved literal must not use names around it.'),
 'C71': ('proved', 'Amid.v: the loading functions with a file system per question (is_file, canonicalize twice, open); AnyInc.v: the parsing functions of Parser.v with a parameter for parser.rs:1083-1155 (generated, checked by C71_nothing_changes). Two runs, one amid changes and one on a fixed file system, are equal, or the first lost a file, or they part at the opening of a file with other contents (AmidProofs.v); in the file system made of what was seen no such opening exists. C71_changing_link_refuted shows that a path must not lead to two different files.'),
 'C72': ('proved', 'Header.v: a run at a position and the same run n lines further down are simulated through all parsing functions (induction on the budget; positions that are passed along are moved too); an included file is run with the number of lines put before it; the header itself is skipped by the first search for a character; the larger budget of the longer text by Fuel.v. The error that was moved is the one of C52. C72_ex_text shows that a file that is included as a Str must not get a header.'),
 'C73': ('proved', 'FirstFault.v: a run and the same run with more text behind are simulated through all parsing functions (induction on the budget), as long as the first has a line break ahead; at the top level the first may also end well. The faults are those of C52. C73_file: other files are not touched, the file itself is opened only once (C23), so the two runs open the same files (Locality.v). C73_text_repair, C73_file_repair: what can be completed to a text that loads, loads or ends too early. C73_ex_short and C73_ex_lines show that both conditions are needed.'),
 'C74': ('proved', 'FieldNames.v: the exchange in data, in texts (a scanner of five token states on top of the modes of LexSpec.v) and in files (specification). Evaluation commutes with the exchange, by mutual induction over the syntax (FieldEval.v); a text of the grammar with the names exchanged is a text of the items with the names exchanged, and exchanging twice changes nothing (FieldText.v). C74_alone: exact, identities included, for loads that include nothing; C74_no_files: with errors; C74_str, C74_file: projects, by evaluation afresh (C67, both directions). C74_exchanged: what the exchange does, by accessors. C74_rename_refuted: renaming to a name in use is not enough.'),
 'C75': ('proved', 'Edits.v: two versions of a document as a list of kept, changed, removed and added items, and the names an edit reaches (specification). Induction over the edit: the two evaluations agree on everything outside the names reached so far; an item that uses none of these has corresponding values (Relate.v), any other defines only names that are reached (frames of Refactor.v). Includes by evaluation afresh (C67); C75_file: the edited file itself cannot be included, since it has a least depth. C75_plain: without includes, in any two file systems. C75_get, C75_none: what it means for get, and for edits that reach nothing. C75_edited_only_refuted: the edited items alone are not enough.'),
 'C76': ('proved', 'Constants.v: one rewriting step anywhere in the syntax, and its closure in both directions (specification). Each step leaves the evaluation of the expression unchanged as a function of its surroundings, identities included, by mutual induction over the step (ConstEval.v). C76_str, C76_error, C76_file: exactly the same Obj; C76_project_str, C76_project_file: constants rewritten in all files, by evaluation afresh (C67). C76_sum_before_product_refuted and C76_kind_refuted show that the conditions are needed.'),
 'C77': ('proved', 'Sizes.v: the levels (specification). Values at a level and one operation more are at the next level; a waiting operand costs the operator that was read for it (SizeProofs.v, SizeLoad.v: a triple over the metered parser of C58, by induction over its functions, the included files paid for when they are opened, once each by C23). C77_str, C77_file: in the characters really read; C77_str_disk, C77_file_disk: in text and disk; C77_text: no includes. C77_ints_get_this_large and C58_data_not_linear: both exponentials are reached.'),
 'C78': ('proved', 'Clients.v: programs as functions from all they have learned to their next API call (specification). C78_calls: one call on equal values shows the same and gives equal values; C78_clients: by induction the whole run is the same, whatever the program, the files, and the pasts of the two processes. C78_equal_iff_not_told_apart: for values with names that can be loaded, == is exactly being indistinguishable. C78_identity_refuted, C78_unchecked_refuted: ptr_eq, and inner_type of Arrs from from_values_unchecked, do tell equal values apart; calls of the _unchecked constructors, of num_references and of write_to_file are not among the calls.'),
 'C79': ('proved', 'IdCount.v: every metered function of C58 draws at most as many ids as it makes steps (induction over the functions; ids of other threads and of keyword Objs are told apart by the state); with C58 the bound in characters. C79_str, C79_file, C79_str_disk: one load, successful or not, under every interference; C79_process: a whole history, with its price; C79_no_wrap, C79_data: until that price reaches 2^64 the 64-bit counter does not wrap, so the unbounded counter of the model is the real one. C79_keywords: at most 4 keyword Objs. C79_at_least: the lower bound (C40, C60, pigeonhole).'),
 'C80': ('proved', 'Revalue.v: [other_items] relates documents that differ only in which texts, fractions and truth values are written in them; [structure] blanks these in a value. A relational evaluation (same ids, same Ints, related globals and scopes) by induction over the syntax; C80_str for any two such texts, C80_loads(_iff), C80_file without divisions; C80_paths says what a reader sees. C80_project, C80_project_loads: the same in all files of a project at once (through reading afresh, C67), up to the identity of containers.'),
 'C81': ('proved', 'PropWritten.v: characters, lines and values counted by three small recursive functions; the layout of C54 has exactly these lines and characters (induction on values), and no level beyond the depth. C81_not_linear_in_the_source uses the doubling texts of C58.'),
 'C82': ('proved', 'PropFlat.v: [flatten]/[flat] give every Obj the inherited fields and no parent. The fields read are the same (C82_get, induction on Objs), the data stays legal and no deeper, so it is written and loads to equal answers (with C01). C82_told_apart: ==, len and contains do tell them apart.'),
}
