# Formal model of m-cat/over in Coq 8.16.1 -- design

## 1. Approach

The code is modelled function by function as total Gallina functions (standard library only), and the
properties of `properties.jsonl` are proved about those functions.

* A `char` is a code point (`N`), a `String` is `list N`; `BigInt` is `Z`; `BigRational` is a reduced
  `Q`; an `Arc<ArrInner>` etc. is its contents plus the `id` the constructor gave it.
* `&mut self` becomes state passing in a state/error monad (`M A = pstate -> outcome A * pstate`) with
  outcomes `Ok`, `Err`, `Panic` and `NoFuel`. Every `unwrap`, `expect`, `assert!`, checked subtraction,
  zero denominator and explicit `panic!` of the Rust code is a `Panic` in the model; C03 proves them
  unreachable.
* The parser's recursion (values, includes) is bounded by a fuel argument. The entry points compute
  a budget from the length of the text and of the files; C04 proves that no load from the entry points
  ends in `NoFuel` and that a larger budget gives the same result. So the fuel is not a bound on sizes.
* The file system is a record (`fsys`): a finite list of files (text or read error, canonical path), an arbitrary
  resolution of paths to files (aliases, links), an arbitrary join of directory and path. It does
  not change during a load. Everything is proved for every such record.
* The tables behind `char::is_alphabetic` (beyond ASCII) and the `Debug` escaping of chars are a type class
  `Unicode` (an argument of the theorems, not an axiom): any two functions are an instance; the examples use one.

### Files (rocq/theories, in build order)

| file | contents |
|---|---|
| Base.v | characters, strings, decimal text, character classes (parse/util.rs) |
| Types.v | types.rs: Type, is, has_any, ==, most_specific, Display |
| Values.v | value.rs, arr.rs, tup.rs, obj.rs, macros.rs (data part) |
| Errors.v | error.rs, parse/error.rs, operators of parse/mod.rs, with all Display texts |
| Format.v | parse/format.rs |
| Parser.v | parse/char_stream.rs, parse/parser.rs (every function), parse/mod.rs, reading of parse/util.rs |
| TypeSpec.v, ValueSpec.v | specifications of types and values; theory of Types.v and Values.v |
| FormatProofs.v | `fmt` (pure printer) = the model of format.rs; writing never panics |
| Wp.v, Scan.v, Induct.v | weakest-precondition induction over the parser: panics, positions, values, logs |
| PosSpec.v, IncSpec.v | specifications of error positions and of the include event log |
| Include.v | invariants of include stack, cache, log |
| ParserEq.v | unfolding equations of the parser (generated by tools/gen_eq.py from Parser.v) |
| Stack.v, StackSpec.v, StackProofs.v | the parser with a bounded call stack (generated like ParserEq.v); chains of signs and dots, brackets; equality with Parser.v |
| Levels.v, LevelsProofs.v, LevelsBound.v | how deep types are nested; the types a load meets are at most as deep as the brackets read, and every type in the result was met |
| Walk.v, PropWalk.v | formatting, ==, get, get_type with a bounded call stack; C59 |
| Share.v, PropShare.v | which instances an evaluation creates and shares; C60 |
| Refactor.v, Relate.v, PropRefactor.v, PropMove.v | two evaluations from states that agree on the names read (Relate.v: instance by instance, so that includes do the same); moving literals to files, changing the order of items, deleting items, replacing names by their definitions; C61 to C64 |
| Afresh.v, AfreshProofs.v, PropAfresh.v | the meaning of a project without a cache (specification); cached and fresh evaluations correspond; C67 |
| Back.v, AfreshConv.v, AfreshOp.v | the converse of C67: a load that respects the kinds of the files gives what evaluating afresh gives; and the loads of C67 respect the kinds, so both directions are one equivalence (C67_str_iff, C67_file_iff) |
| Replace.v, ReplaceProofs.v, PropReplace.v | files with the same data (specification); projects that differ in such files correspond; C69 |
| Reorg.v, ReorgProofs.v, PropReorg.v | projects with files renamed, moved out, moved in (specification); such projects correspond; C70 |
| Changing.v, PropChanging.v | loading while files are rewritten (a file system per moment); the snapshot a load sees; C68 |
| AnyInc.v (generated), Amid.v, AmidProofs.v, PropAmid.v | loading while files are created, deleted and rewritten (a file system per question the load asks); C71 |
| Header.v, PropHeader.v | texts and files with lines put before them; C72 |
| FirstFault.v, PropFirst.v | texts with more text behind them; C73 |
| FieldNames.v, FieldEval.v, FieldText.v, PropFieldNames.v | exchanging the names of two fields in data, texts and files; C74 |
| Edits.v, EditEval.v, PropEdit.v | two versions of a document and the names an edit reaches; C75 |
| Constants.v, ConstEval.v, PropConstants.v | other spellings of constants, and operations on constants computed in advance; C76 |
| Sizes.v, SizeProofs.v, SizeLoad.v, PropSize.v | levels of size of values, and the level of everything the metered parser makes; C77 |
| Clients.v, PropClient.v | programs that use the API, and what they learn; C78 |
| IdCount.v, PropIds.v, PropAtLeast.v | ids drawn per step of the metered parser, and histories with their price; C79 |
| Revalue.v, PropRevalue.v | documents with other texts, fractions and truth values; the structure of values; C80 |
| PropWritten.v | lines, characters and values counted; C81 |
| PropFlat.v | Objs with the inherited fields in place of parents; C82 |
| PropCases.v | more concrete cases for theorems of other files |
| Drop.v, PropDrop.v | the recursive drop with a frame counter over the heap of Runtime.v; C65 |
| Api.v (over_error_eqb), PropErrEq.v | derived == of OverError and Pair; C66 |
| PropType.v | an independent relation between a value and its type; `get_type`, `inner_type`, `inner_type_vec` (C08, C09) |
| Locality.v, PropFiles.v | two runs of the parser on two file systems; C56, and C25, C26, C27, C41, C50 for files |
| Count.v, CountProofs.v, PropWork.v | the parser with a meter (generated like Stack.v); number of steps of a load; C58 |
| AlphaSpec.v, Alpha.v, PropAlpha.v | exchanging names of globals in a text; C57 |
| Fuel.v | fuel: sufficiency and monotonicity |
| Syntax.v | the language as a specification: abstract documents, the texts that render them, evaluation |
| Agree*.v | parser = Syntax.v on every rendered text |
| LangSpec.v, EvalProofs.v | small specifications used by the language properties, facts about evaluation |
| Render.v | every legal abstract document has a text |
| Roundtrip.v | text written by format.rs renders the document whose value is the Obj written |
| Runtime.v | id counter under schedules; Arc counts under histories |
| Disk.v | UTF-8, write_file_str byte by byte with I/O errors and crashes |
| History.v | two runs of the parser in two process states, related step by step |
| Complete.v | whatever the parser accepts is a text of the grammar |
| Unique.v | the grammar is unambiguous |
| Prefix.v | documents that are prefixes of documents: appending, cutting |
| LexSpec.v, Lex.v, PropLex.v | scanners over the characters of a text (modes, brackets, names), specifications independent of the grammar; C25, C26, C27, C41 for every text |
| PropStep.v | one more line: what a field `h: ...` appended to any loaded text evaluates to, in terms of texts and loaded values only; C08, C16, C17, C20, C28, C29, C30 |
| PropText.v | C33/C36 (text determines data), C50, C35 (loading after a crash) |
| IncSem.v | the meaning of includes as an inductive relation, without parser, fuel or bookkeeping |
| IncSemProofs.v | the parser gives includes exactly that meaning |
| Api.v, PropApi.v | native conversions and comparisons, iteration, macros |
| Spot.v | specification of C51: places in a text, faults, the error of each |
| Keeps.v, FaultBase.v, FaultSound.v, FaultKinds.v, FaultVal.v, PropFault.v | C51: the parser reports the fault |
| FaultBlame.v, FaultDone.v, FaultSeq.v, FaultAtom.v, FaultName.v, FaultChain.v, FaultItems.v, FaultAll.v, PropBlame.v | C52: every error of the parser is the fault of the text or of an included file |
| Path.v, PropPath.v | std::path (Unix): segments, parent, join; walking a directory tree |
| Stream.v, PropStream.v | CharStream at the level of bytes, pointers, reference counts and borrow flags |
| Prop*.v | the property theorems `Cnn_*`, each with an example `Cnn_ex*` |
| Assumptions.v | generated: `Print Assumptions` for all theorems of MANIFEST.json |

## 2. Trusted base

* Coq 8.16.1's kernel (checked again by `coqchk` in `vcheck`). No plugin, no native compiler, no
  extraction. Some concrete examples use `vm_compute`.
* **Axioms: none.** `rocq/theories/Assumptions.v` (generated from the list of theorems in MANIFEST.json) runs
  `Print Assumptions` over every theorem named there and prints `Closed under the global context` for each file. `coqchk` lists `Coq.ssr.ssrunder.Under_rel.*`: module
  parameters of the standard library that get loaded with ssreflect's files (by `Lia`/`Program`
  dependencies); no theorem depends on them.
* No axioms, `Admitted`, functors, module types of our own. `Variable`/`Context` only inside sections.
* That the Gallina definitions describe the Rust code: by reading. Every definition cites file and
  lines. `tools/conformance.py` replays the literals of /repo/tests and /repo/src/tests.rs (as text)
  against the model (a test of the model, not a proof).

### Modelled

All of src/types.rs, value.rs, arr.rs, tup.rs, obj.rs, error.rs, parse/{char_stream, error, format, mod,
parser, util}.rs, lib.rs (`gen_id`), util.rs (`write_file_str`), and macros.rs.

### Not modelled, or simplified

* **Ids.** In Parser.v the id counter is an unbounded `N` (exact for the first 2^64 instances of a
  process); its wrap-around and its interleaving between threads are in Runtime.v (C13). C79 says how much must be read before that. `usize` is 64 bit.
* **Arc.** In Parser.v sharing is visible through ids only. Counts, clones, drops, frees and address reuse are
  in Runtime.v (C38). Overflow of an Arc count (2^63 clones) is ignored.
* **Threads during a load.** A load reads and writes shared state only through the id counter and the
  four lazily created keyword Objs.  What other threads do to them is part of the model: the process state carries
  an arbitrary list of blocks of foreign actions (draw an id, create a keyword Obj), and one block runs after each
  use the load makes of the shared state (`g_others`, `interfere` in Parser.v).  All theorems about loads quantify over
  the process state and so hold under every interference; C48 states what that means.  Atomicity of
  `fetch_add` and of `lazy_static` initialisation is assumed.
* **Unicode.** `is_alphabetic` beyond ASCII and `Debug` escapes are arbitrary (class `Unicode`).
  `char::is_whitespace` is the explicit list of White_Space code points, `is_digit` is ASCII; the model records
  that no White_Space character is Alphabetic.
* **Files.** Constant during a load in Parser.v; Changing.v lets their contents change at every opening (C68), but not their names; Amid.v lets files appear, vanish and change between any two questions of the load (C71), but a path never leads to two different files (C71_changing_link_refuted: needed). In Amid.v the canonical path that is noted when a file is opened (an instrument) is the one of that moment. The texts of OS errors are an arbitrary string. A file that is not UTF-8 is
  an I/O error (as in `read_to_string`). Paths are strings (Path.v: Unix rules of std::path); the empty path and the root are no regular files; a path that is not UTF-8 has no canonical
  path in the model (then the code panics: C03_no_canonical_path_panics).
* **Disk.** A crash leaves what was written so far (no reordering or delayed writes: the real guarantee is weaker).
* **Resources.** Memory, time, the stack outside the parsing functions (C55 counts their frames and those of the recursion on types; C59 those of formatting, comparing and looking up; C65 those of dropping a handle from outside; other leaf functions, and the drop of fields and globals inside a load that fails, are not counted); line and column counters beyond 2^64.
* CharStream is a list of characters in Parser.v; its buffer, raw pointers, `unsafe { transmute }`, Rc and RefCell are
  in Stream.v, and C47 relates the two. std's `Chars`, `Peekable`, `Rc`, `RefCell` are modelled by their documented
  implementation (`next_code_point`).
* The derived `Debug` output of Objs, Arrs and Tups; an iterator is the list of elements between its two ends (Api.v).

## 3. Properties: what is proved and how

"Rendered text" below means a text `t` with `r_doc d t` in Syntax.v: the text of a document of the documented
grammar in any layout.

| id | statement proved | method |
|---|---|---|
| C01, C02, C33, C36 | `write_to_string` then `from_str` gives an Obj `==` the original iff nesting <= 63 (else MaxDepth) | the written text renders a document (Roundtrip.v) whose meaning is computed by induction on values; then parser = meaning (Agree) |
| C03 | no panic | wp induction over the parser (Induct.v), all text, all file systems |
| C04 | no NoFuel; more fuel, same result | fuel measure: rest of the text, files not on the stack (Fuel.v, Include.v) |
| C05, C06 | every error is located | invariant consumed ++ rest = text, line/col = position, carried through every error exit |
| C07, C08 | loaded values are well formed | value invariant in the wp induction |
| C09 - C12 | types and values | order theory with Any as bottom; induction on types/values |
| C13, C38 | schedules, histories | invariants of transition systems with unbounded threads, instances, steps |
| C14, C15, C29, C31, C32 | Obj/Arr/Tup API | induction on the parent chain; case analysis against relational specs |
| C16, C17, C28 | operators | operator trees: unique parenthesis-free tree of a chain; relation `arith` on rationals |
| C18, C19 | literals | relations on digit lists / escape lists, at the level of whole texts |
| C20, C21, C30, C37 | names | relation `scoped`; evaluation facts transported to texts by C39 |
| C22 - C24 | includes | invariants of the event log of one load |
| C25 | depth limit | exact bound for every rendered text; families of bracket texts and sign texts |
| C26, C27 | layout, order | corollaries of the agreement theorem plus printing; for every text: a text of the grammar is a list of tokens and gaps (Lex.v), white space found by a scanner in the code lies in a gap |
| C34, C40 | history independence, freshness | two-run relational induction over the whole parser with a growing one-to-one renaming of ids |
| C35 | write_to_file | all crash points and I/O errors of a byte-level model |
| C41 | exactly the grammar is accepted | partial-correctness induction over the whole parser (Complete.v): what a parsing function consumed is a text of its kind; with C39 an equivalence |
| C42 | one reading | mutual induction over the grammar with follow sets (Unique.v) |
| C43 | load = inductive meaning of includes | soundness by induction on fuel, completeness by induction on the relation; simulation of two evaluations under related include functions |
| C44 - C46 | natives, iteration, macros | case analysis; induction over lists and call sequences |
| C47 | memory safety of CharStream | invariant relating heap, cells and handles to texts, over all operation sequences |
| C48 | interference by other threads | corollary of the two-run relation, foreign actions being part of the process state; ghost set of ids taken by others |
| C49 | include paths | Path::parent/join on strings against walking a directory tree (any lookup function) |
| C50 | appending to a document | the items of a document followed by a newline are the first items of any document starting so (Prefix.v); then the meaning of the first items |
| C51 | error names the fault | places (where the reader can be, with the fields, depth and operands there) and faults as inductive relations over texts and values; by induction on the place, the code at each place can only end with the error of the fault |
| C52 | exactly the faults | the relation `blame` (Spot.v): the fault of a text, or of a file it includes, or a file that cannot be read; the parser's error is related by `blame` (completeness, induction on steps, one lemma per place) and conversely; corollaries: uniqueness, no fault iff it loads |
| C53 | messages and type names are unambiguous | prefix code / decoding from the end; table of texts (PropMsg.v) |
| C54 | written text is exactly the specified lines | lines with levels (PropLayout.v); induction on values |
| C55 | call stack of a load | parser functions with a frame counter (Stack.v, generated from Parser.v) equal the unbounded ones when the frames suffice, or die; lower bounds by texts with signs and by Arrs of Arrs |
| C56 | which files matter | two runs on two file systems, equal unless an edited file is opened (Locality.v); transfer of the meaning of includes for successful loads (PropFiles.v) |
| C57 | names of globals are exchangeable | scanner on texts (AlphaSpec.v) commutes with grammar and evaluation (Alpha.v); involution |
| C58 | work of a load | parser functions with a meter (Count.v, generated) equal the plain ones; steps bounded by a potential (5 per character); a doubling family shows that the data has no such bound |
| C59 | call stack of writing, comparing, looking up | the functions with a frame counter (Walk.v); induction on the counter; deep Objs from C02 |
| C60 | one instance is one value | a heap invariant for evaluations (Share.v): ids are drawn upwards, every container is the one its id was drawn for; new lines as in C20 |
| C61 | a literal and a file with the same contents | simulation of the literal and the contents of the file (Refactor.v, PropMove.v), include by C43 |
| C62 | independent lines can change places | simulation of two evaluations (Relate.v: values correspond instance by instance, as in C33, so includes are covered) and a frame rule, lifted to texts by the grammar and to files by C43/C56 |
| C63 | what nobody reads can be deleted | as C62 |
| C64 | a name means its definition | substitution on the syntax, simulation with the invariant that the name is bound to the value of its definition |
| C65 | dropping: outcome, frames, what is freed, overflow | recursive drop with a frame counter against the single steps of C38; every loaded Obj laid out in a reachable heap; family of texts |
| C66 | errors and pairs compare | derived `==` as a function; inductive relation; refutations with witnesses; load errors via over_from_parse |
| C67 | the cache of included files is invisible | simulation of the evaluation without a cache by the one of C43, correspondences between instances composed; induction on the least depth of a file |
| C68 | a load under concurrent writes is a load of a snapshot | two runs agree or part at an opening with other contents (Locality.v); the snapshot is built from the first openings; no file is opened twice |
| C69 | a file can be replaced by any other with the same data | simulation of two projects evaluated afresh (C67 in both directions); all instances without keywords may correspond; written form by C01 |
| C70 | reorganizing a project keeps its data | simulation of two projects evaluated afresh, by mutual induction over the relation between their texts and on the nesting of includes |
| C71 | a load while files come and go is a load of what it saw, or ends at a missing file | as C68, with a second way to part: the load amid changes lost a file; stable under sequencing because it then ends with an error or panic |
| C72 | headers move the reported lines and change nothing else | simulation of a run and the run n lines further down through all parsing functions; per file its own n; errors related by a table of positions |
| C73 | the first fault is the one reported, whatever follows it | simulation of a run and the run with more text behind, as long as a line break is ahead; Locality.v with what is known of the events so far (the file is opened once) |
| C74 | the name of a field means nothing | the exchange on data, texts and syntax (FieldNames.v); evaluation commutes with it (FieldEval.v); texts of the grammar go to texts of the exchanged items, and the exchange is its own inverse (FieldText.v); projects by C67 |
| C75 | an edit reaches only what uses it | edits and reached names (Edits.v); the two evaluations agree outside the reached names, by induction over the edit (EditEval.v); includes by C67, for a file with the edited file taken out of the project |
| C76 | constants may be written in any way | rewriting of constants in the syntax (Constants.v); every step leaves evaluation unchanged, identities included (ConstEval.v); projects by C67 |
| C77 | how large loaded data can get | levels of size (Sizes.v); each operation raises the level by one, each operator and literal is paid for by its characters (SizeLoad.v, over the metered parser of C58); lower bounds by iterated doubling and squaring |
| C78 | equal values cannot be told apart except by identity | clients (Clients.v) as strategies over API calls; a logical relation (equal, well formed) preserved by every call, then induction on the steps; the converse by the Display of C36 |
| C79 | loading takes at most linearly many ids | ids per step of the metered parser of C58 by induction over its functions (IdCount.v); histories of a process with their price |
| C80 | other texts, fractions and truth values do not change the structure | relational evaluation of the two documents (same ids, same Ints, scopes and globals with the same structure), by induction over the relation of the syntax; loading is evaluation (C16, C17) |
| C81 | length of written text | counting functions; the lines of C54 counted by induction on values; levels bounded by depth; C58 for the family of texts |
| C82 | inheritance written out | flattening by recursion on data; induction on Objs for get, legality and depth; C01 for writing and loading |
| C39 | parser = documented meaning | mutual induction over documents against the parser with fuel (Agree*.v) |

Every English property is expressible in the model. Where the English property as one would like it is false of
the code, the statement in properties.jsonl says what is true and a theorem with the suffix `_refuted` (or
naming the failure) proves the counterexample.

## 4. What was found in the code

1. The round trip asserted by fuzz_target_write fails with MaxDepth for Objs nested deeper than 63, which a load
   can build with variables (C02_unconditional_refuted).
2. Unary operators and dot chains are not depth-limited: recursion grows with the text (C25_signs_*).
3. `InvalidFieldChar`/`InvalidEscapeChar` for a newline report line+1, column 0 (C06_newline_position_refuted).
4. `@a: {@a: 1}`: a global defined inside its own definition is silently overwritten (C21_definition_inside_itself_is_lost).
5. The include cache is keyed by path only: `<Str f>` after `<Obj f>` gives the Obj (C24_later_keyword_ignored).
6. `Type ==` is not transitive although `Eq` is implemented; `Value ==` is not either with
   `from_values_unchecked` (C11, C12 `_refuted`).
7. `is_valid_field` accepts "", "^", "^x", reserved words; `from_pairs` accepts duplicates: such Objs do not
   survive write/load (C31_api_accepts_unparseable, C01_from_pairs_names_refuted).
8. Dot access ignores inherited fields (C30); `t.0.1` is always an error; `o.null` gives null.
9. The keywords Obj/Str/Arr/Tup are values: an empty Obj shared by all loads of the process (C37, C40).
10. I/O errors inside included files carry no line (C05_io_error_in_include_has_no_line).
11. Panic if the current file's canonical path is not UTF-8 (C03_no_canonical_path_panics).
12. `write_to_file` truncates first: a crash can leave any prefix; an empty file loads silently as an empty Obj (C35_silent_loss); a crash between fields loses the rest silently (C35_crash_between_fields), a crash inside a number changes it silently (C35_crash_inside_number), strings and containers are never damaged silently (C35_crash_load).
13. Removing or renaming a file while it is being parsed makes the load panic at its next include (C68_removed_file_panics, C71_ex_lost).
14. A file that includes itself through a link that is being changed can be read without end, until the stack overflows (C71_changing_link_refuted).
15. Globals named `@^` or `@^a` can be defined but not read.

## 5. Seeded bugs

`tools/mutants.py` lists edits of the model that imitate realistic bugs; `tools/seed.py` applies each in a
scratch copy, rebuilds, replaces every broken proof by `Admitted`, and asks `Print Assumptions` which manifest
theorems no longer have a proof. Results: `seeded/LOG.jsonl`.
