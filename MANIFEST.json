{
 "claims": [
  {
   "property": "C01",
   "status": "proved",
   "theorems": [
    "C01_write_load",
    "C01_too_deep",
    "C01_from_pairs_names_refuted"
   ],
   "note": "For every well-formed Obj, any process state; exact depth bound; names accepted by from_pairs but not legal refuted."
  },
  {
   "property": "C02",
   "status": "proved",
   "theorems": [
    "C02_reload",
    "C02_loads_any_depth",
    "C02_unconditional_refuted"
   ],
   "note": "For every loaded Obj; loads of any depth exist, so the unconditional round trip is refuted."
  },
  {
   "property": "C03",
   "status": "proved",
   "theorems": [
    "C03_from_str_returns",
    "C03_from_file_returns",
    "C03_no_canonical_path_panics"
   ],
   "note": "from_str unconditional; from_file if the top file has a canonical UTF-8 path (needed: C03_no_canonical_path_panics)."
  },
  {
   "property": "C04",
   "status": "proved",
   "theorems": [
    "C04_loading_terminates",
    "C04_larger_budget_same_result"
   ],
   "note": "No load exhausts the recursion budget, and a larger budget gives the same result."
  },
  {
   "property": "C05",
   "status": "proved",
   "theorems": [
    "C05_from_str_error_names_line",
    "C05_from_file_error_names_line",
    "C05_no_bigint_error",
    "C05_io_error_in_include_has_no_line"
   ],
   "note": "Message level."
  },
  {
   "property": "C06",
   "status": "proved",
   "theorems": [
    "C06_from_str_error_located",
    "C06_from_file_error_located",
    "C06_newline_position_refuted"
   ],
   "note": "Every error kind; the newline exception is in the specification located and refuted as a position."
  },
  {
   "property": "C07",
   "status": "proved",
   "theorems": [
    "C07_loaded_field_names",
    "C07_loaded_tups_and_fracs"
   ],
   "note": "For every part of a loaded Obj."
  },
  {
   "property": "C08",
   "status": "proved",
   "theorems": [
    "C08_loaded_arrays",
    "C08_line",
    "C08_get_type",
    "C08_inner_types"
   ],
   "note": "For every Arr inside a loaded Obj; get_type against an independent relation (PropType.v). The _line theorems: one more line after any text that loads (PropStep.v)."
  },
  {
   "property": "C09",
   "status": "proved",
   "theorems": [
    "C09_from_values_accepts_iff",
    "C09_from_values_result",
    "C09_from_values_error",
    "C09_from_values_order_irrelevant",
    "C09_get_type"
   ],
   "note": "Arr::from_values: acceptance, inner type, order independence; get_type (PropType.v)."
  },
  {
   "property": "C10",
   "status": "proved",
   "theorems": [
    "C10_most_specific_is_lub",
    "C10_most_specific_comm",
    "C10_most_specific_idem",
    "C10_most_specific_any_neutral",
    "C10_most_specific_assoc"
   ],
   "note": "most_specific = least common specialisation; algebraic laws."
  },
  {
   "property": "C11",
   "status": "proved",
   "theorems": [
    "C11_type_eq_is_compatibility",
    "C11_type_eq_refl_sym",
    "C11_type_eq_transitive_refuted",
    "C11_type_eq_without_any",
    "C11_is_is_identity"
   ],
   "note": "Type ==/is characterised; transitivity refuted with a witness (and shown to hold without Any)."
  },
  {
   "property": "C12",
   "status": "proved",
   "theorems": [
    "C12_eq_is_same_data",
    "C12_eq_equivalence",
    "C12_eq_same_type_and_text",
    "C12_checked_constructors_wf",
    "C12_unchecked_transitive_refuted"
   ],
   "note": "Value == on well-formed values is equality of data modulo ids; transitivity refuted for from_values_unchecked."
  },
  {
   "property": "C13",
   "status": "proved",
   "theorems": [
    "C13_ids_in_order",
    "C13_unique",
    "C13_each_id_used_once",
    "C13_wraps",
    "C13_wrap_reached"
   ],
   "note": "Every schedule of the two-step creations (fetch_add, allocate) of any number of threads."
  },
  {
   "property": "C14",
   "status": "proved",
   "theorems": [
    "C14_get_nearest_in_chain",
    "C14_get_none_iff",
    "C14_get_with_source_agrees",
    "C14_own_fields_only"
   ],
   "note": "Lookup along the parent chain."
  },
  {
   "property": "C15",
   "status": "proved",
   "theorems": [
    "C15_typed_getters",
    "C15_is_null",
    "C15_get_frac"
   ],
   "note": "All seven typed getters."
  },
  {
   "property": "C16",
   "status": "proved",
   "theorems": [
    "C16_operator_chars",
    "C16_one_reading",
    "C16_precedence",
    "C16_unary",
    "C16_line_sign"
   ],
   "note": "Text level: f: e loads to the value of the unique parenthesis-free tree of the chain. The _line theorems: one more line after any text that loads (PropStep.v)."
  },
  {
   "property": "C17",
   "status": "proved",
   "theorems": [
    "C17_exact",
    "C17_number_errors",
    "C17_other_types",
    "C17_in_documents",
    "C17_line",
    "C17_line_other_types"
   ],
   "note": "Exact arithmetic specified by the relation arith; errors and other types. The _line theorems: one more line after any text that loads (PropStep.v)."
  },
  {
   "property": "C18",
   "status": "proved",
   "theorems": [
    "C18_literal",
    "C18_load",
    "C18_errors"
   ],
   "note": "Text level, for every text that is lexically a numeral; value specified as a relation on digit lists."
  },
  {
   "property": "C19",
   "status": "proved",
   "theorems": [
    "C19_escapes",
    "C19_load",
    "C19_errors",
    "C19_quoting_inverse",
    "C19_round_trip"
   ],
   "note": "Text level: quoting inverse, escapes, invalid escapes."
  },
  {
   "property": "C20",
   "status": "proved",
   "theorems": [
    "C20_letters",
    "C20_accepted",
    "C20_names_in_scope",
    "C20_undefined_is_error",
    "C20_names_in_scope_file",
    "C20_literal_is_closed",
    "C20_variable_is_earlier_field_nested",
    "C20_variable_is_earlier_field",
    "C20_line",
    "C20_line_inside"
   ],
   "note": "On every rendered text (Syntax.v); scoping specified by the relation scoped. The _line theorems: one more line after any text that loads (PropStep.v)."
  },
  {
   "property": "C21",
   "status": "proved",
   "theorems": [
    "C21_no_global_field",
    "C21_include_isolated",
    "C21_global_stays",
    "C21_redefinition_is_error",
    "C21_nested_redefinition_is_error",
    "C21_visible_once_defined",
    "C21_definition_inside_itself_is_lost"
   ],
   "note": "No @ field in any load; isolation of includes; redefinition; the hole refuted with a witness."
  },
  {
   "property": "C22",
   "status": "proved",
   "theorems": [
    "C22_cyclic_include_rejected",
    "C22_never_reopened_in_progress"
   ],
   "note": "Over the event log of a load."
  },
  {
   "property": "C23",
   "status": "proved",
   "theorems": [
    "C23_each_file_opened_once",
    "C23_includes_share",
    "C23_include_is_logged"
   ],
   "note": "Over the event log of a load; includes of one file give the same instance."
  },
  {
   "property": "C24",
   "status": "proved",
   "theorems": [
    "C24_first_include_kind",
    "C24_later_include_keeps_first_value",
    "C24_later_keyword_ignored"
   ],
   "note": "First include has its kind, later ones the first value; witness that the keyword is ignored."
  },
  {
   "property": "C25",
   "status": "proved",
   "theorems": [
    "C25_every_file",
    "C25_every_text",
    "C25_limit",
    "C25_never_deeper",
    "C25_brackets",
    "C25_signs_not_limited",
    "C25_signs_recursion"
   ],
   "note": "Bracket depth of every accepted text by a scanner; exact bound for every rendered text and for every mix of brackets; any number of signs accepted, recursion at least two calls per sign."
  },
  {
   "property": "C26",
   "status": "proved",
   "theorems": [
    "C26_white_space",
    "C26_gaps",
    "C26_file",
    "C26_replace",
    "C26_start",
    "C26_end",
    "C26_layout_irrelevant"
   ],
   "note": "Any two layouts of the same items load alike; any text, stated with a four-state scanner (LexSpec.v) instead of the grammar: white space in the code can be exchanged."
  },
  {
   "property": "C27",
   "status": "proved",
   "theorems": [
    "C27_every_file",
    "C27_every_text",
    "C27_no_name_twice",
    "C27_written_in_order",
    "C27_field_order",
    "C27_field_order_nested"
   ],
   "note": "Loading (root and nested) and writing; for every text by a scanner (LexSpec.v)."
  },
  {
   "property": "C28",
   "status": "proved",
   "theorems": [
    "C28_arrays",
    "C28_strings",
    "C28_in_documents",
    "C28_well_formed",
    "C28_associative",
    "C28_neutral",
    "C28_line"
   ],
   "note": "Elements, least common type, error iff none; associative up to ==; neutral elements. The _line theorems: one more line after any text that loads (PropStep.v)."
  },
  {
   "property": "C29",
   "status": "proved",
   "theorems": [
    "C29_index_bounds_checked",
    "C29_dot_index",
    "C29_dot_in_texts",
    "C29_dot_by_field",
    "C29_line",
    "C29_line_by_field"
   ],
   "note": "API getters, the parser after a dot (all error kinds), and texts h: f.w and h: f.k appended to a loaded document. The _line theorems: one more line after any text that loads (PropStep.v)."
  },
  {
   "property": "C30",
   "status": "proved",
   "theorems": [
    "C30_dot_is_own_field",
    "C30_dot_in_texts",
    "C30_inherited_field_not_found",
    "C30_line",
    "C30_line_path"
   ],
   "note": "Own fields only; witness that inherited fields are not found. The _line theorems: one more line after any text that loads (PropStep.v)."
  },
  {
   "property": "C31",
   "status": "proved",
   "theorems": [
    "C31_is_valid_field_iff",
    "C31_from_pairs",
    "C31_api_accepts_unparseable",
    "C31_legal_is_api",
    "C31_try_obj"
   ],
   "note": "from_pairs, is_valid_field, try_obj!."
  },
  {
   "property": "C32",
   "status": "proved",
   "theorems": [
    "C32_native_int_comparison_exact"
   ],
   "note": "Comparison with native integers, any range."
  },
  {
   "property": "C33",
   "status": "proved",
   "theorems": [
    "C33_writing_never_panics",
    "C33_equal_objs_same_text",
    "C33_rewriting_is_stable",
    "C33_text_determines_obj"
   ],
   "note": "Total, text determines data up to == and conversely (any depth), stable under re-loading."
  },
  {
   "property": "C34",
   "status": "proved",
   "theorems": [
    "C34_from_str",
    "C34_from_file"
   ],
   "note": "For every two processes (any history of creations and loads, successful or failing, from any files) the same text or file gives the same error or Objs that are equal by ==, written alike, and related by a one-to-one renaming of ids. Two-run (relational) proof over the whole parser and includes, History.v."
  },
  {
   "property": "C35",
   "status": "proved",
   "theorems": [
    "C35_write_then_load",
    "C35_crash",
    "C35_crash_contents",
    "C35_every_prefix",
    "C35_silent_loss",
    "C35_error_not_atomic",
    "C35_can_succeed",
    "C35_crash_load",
    "C35_crash_between_fields",
    "C35_crash_inside_number"
   ],
   "note": "Byte-level model of create/truncate/write_all with UTF-8; every crash point and I/O error; what from_file makes of each crash state (Prefix.v)."
  },
  {
   "property": "C36",
   "status": "proved",
   "theorems": [
    "C36_display_is_value_literal",
    "C36_too_deep",
    "C36_text_determines_value"
   ],
   "note": "Display of a value as the right-hand side of a field; exact depth bound; text determines the value."
  },
  {
   "property": "C37",
   "status": "proved",
   "theorems": [
    "C37_keyword_is_empty_obj",
    "C37_variable_acts_as_keyword",
    "C37_ordinary_obj_is_no_keyword",
    "C37_process_ok"
   ],
   "note": "Keywords as values; variable acts as keyword; ordinary empty Obj never does, in every process state."
  },
  {
   "property": "C38",
   "status": "proved",
   "theorems": [
    "C38_num_references",
    "C38_quiescent",
    "C38_no_dangling",
    "C38_freed",
    "C38_ptr_eq",
    "C38_no_leak",
    "C38_drops_finish"
   ],
   "note": "Every history of new/clone/drop with drops in single steps, address reuse; also no dangling handle, no leak, drops finish."
  },
  {
   "property": "C39",
   "status": "proved",
   "theorems": [
    "C39_load_is_meaning",
    "C39_load_file_is_meaning"
   ],
   "note": "Parser = specification of Syntax.v on every rendered text."
  },
  {
   "property": "C40",
   "status": "proved",
   "theorems": [
    "C40_result_is_new",
    "C40_loads_share_nothing"
   ],
   "note": "Every Arr, Tup, Obj inside a loaded Obj has an id drawn during that load, keyword Objs excepted; loads share nothing else."
  },
  {
   "property": "C41",
   "status": "proved",
   "theorems": [
    "C41_accepted_iff",
    "C41_rejected_iff",
    "C41_not_in_grammar",
    "C41_accepted_file_iff",
    "C41_included",
    "C41_file_brackets",
    "C41_brackets_closed",
    "C41_unclosed_rejected"
   ],
   "note": "Induction over the whole parser (Complete.v): accepted iff a text of the grammar with a meaning; every other text is an error; also for files and for first includes; bracket matching by a scanner."
  },
  {
   "property": "C42",
   "status": "proved",
   "theorems": [
    "C42_one_reading",
    "C42_one_reading_of_lists",
    "C42_one_reading_of_values",
    "C42_accepted"
   ],
   "note": "The grammar is unambiguous: documents, lists and values (Unique.v)."
  },
  {
   "property": "C43",
   "status": "proved",
   "theorems": [
    "C43_str",
    "C43_file",
    "C43_one_value",
    "C43_error",
    "C43_not_itself",
    "C43_no_file",
    "C43_globals"
   ],
   "note": "Inductive relation includes (IncSem.v, no parser, fuel, stack or event log); equivalence with from_str and from_file in both directions (IncSemProofs.v: simulation of two evaluations, induction over fuel one way and over the relation the other way)."
  },
  {
   "property": "C44",
   "status": "proved",
   "theorems": [
    "C44_native_eq_is_value_eq",
    "C44_native_eq_same_data",
    "C44_conversion_keeps_the_data",
    "C44_integers_across_widths",
    "C44_native_ranges",
    "C44_one_class"
   ],
   "note": "Case analysis over natives and values; ranges of all nine integer types."
  },
  {
   "property": "C45",
   "status": "proved",
   "theorems": [
    "C45_with_each_is_fold",
    "C45_arr_views",
    "C45_tup_views",
    "C45_obj_views",
    "C45_double_ended_iteration",
    "C45_from_vec",
    "C45_empty_containers"
   ],
   "note": "Closures as state transformers; double-ended iteration by induction over the calls."
  },
  {
   "property": "C46",
   "status": "proved",
   "theorems": [
    "C46_arr_macro",
    "C46_tup_macro",
    "C46_int_macro",
    "C46_obj_macro",
    "C46_frac_macro"
   ],
   "note": "Exact panic conditions and results."
  },
  {
   "property": "C47",
   "status": "proved",
   "theorems": [
    "C47_streams_are_safe_and_exact",
    "C47_buffers_live_as_long_as_handles",
    "C47_spec_deterministic",
    "C47_parser_reads_the_stream"
   ],
   "note": "Byte-level heap with explicit undefined behaviour, reference counts and borrow flags (Stream.v); invariant over all operation sequences; refinement of the character-list stream of Parser.v."
  },
  {
   "property": "C48",
   "status": "proved",
   "theorems": [
    "C48_interference_invisible",
    "C48_load_is_interference",
    "C48_shares_nothing"
   ],
   "note": "The other threads' draws of ids and creations of keyword Objs are an arbitrary parameter of the process state, executed between any two uses the load makes of it; so every theorem about loads holds under interference, and C48 compares the run with interference to the run alone. Files that change during a load: C68."
  },
  {
   "property": "C49",
   "status": "proved",
   "theorems": [
    "C49_segments",
    "C49_absolute",
    "C49_relative",
    "C49_same_directory",
    "C49_no_parent",
    "C49_included_file"
   ],
   "note": "Path::parent and Path::join modelled as in std (Unix); specified by walking an arbitrary tree of directories segment by segment. The unwrap on the parent is in the model (C03 covers it)."
  },
  {
   "property": "C50",
   "status": "proved",
   "theorems": [
    "C50_file",
    "C50_appending_extends",
    "C50_accepted_prefix",
    "C50_error_stays",
    "C50_fields_stay",
    "C50_two_documents"
   ],
   "note": "Grammar of prefixes (Prefix.v) and C41/C42; results equal including ids."
  },
  {
   "property": "C51",
   "status": "proved",
   "theorems": [
    "C51_blank_chars",
    "C51_closing_chars",
    "C51_end_chars",
    "C51_digit_chars",
    "C51_number_chars",
    "C51_error_names_the_fault",
    "C51_file",
    "C51_one_fault",
    "C51_line_bracket",
    "C51_line_duplicate",
    "C51_line_no_value",
    "C51_line_bad_char",
    "C51_line_unclosed",
    "C51_line_unknown",
    "C51_line_dot",
    "C51_line_member",
    "C51_line_index",
    "C51_line_by_zero",
    "C51_line_types",
    "C51_line_mod",
    "C51_line_sign",
    "C51_line_array",
    "C51_line_parent",
    "C51_line_include"
   ],
   "note": "Places and faults are specified in Spot.v by inductive relations over texts and values, without the parser; soundness proved backwards along the places (FaultBase.v, FaultSound.v, FaultKinds.v, FaultVal.v). The _line theorems state it for one more line after any text that loads, without places."
  },
  {
   "property": "C52",
   "status": "proved",
   "theorems": [
    "C52_refused_iff_fault",
    "C52_file_refused_iff_fault",
    "C52_one_fault",
    "C52_accepted_iff_no_fault",
    "C52_no_files"
   ],
   "note": "Both directions, for from_str and from_file: soundness (FaultBlame.v) and completeness, by strong induction on the steps of the parser with one lemma per place of Spot.v (FaultDone, FaultSeq, FaultAtom, FaultName, FaultChain, FaultItems, FaultAll), then by induction on the nesting of files. Also: uniqueness; a text without fault loads; without files the fault is in the text itself."
  },
  {
   "property": "C53",
   "status": "proved",
   "theorems": [
    "C53_type_names",
    "C53_type_words",
    "C53_decimal",
    "C53_api_messages",
    "C53_same_message_same_fault",
    "C53_file",
    "C53_message_determines_fault",
    "C53_texts",
    "C53_api_texts"
   ],
   "note": "Type names form a prefix code (induction on types); every message can be decoded from its ends. C53_texts and C53_api_texts pin the words of all messages to a table. Assumes that Debug of a char is injective (stated as a hypothesis). Messages of included files carry their path: compared for equal paths."
  },
  {
   "property": "C54",
   "status": "proved",
   "theorems": [
    "C54_written_lines",
    "C54_display",
    "C54_obj_display",
    "C54_arr_tup_display",
    "C54_lines_are_lines",
    "C54_empty"
   ],
   "note": "The layout is specified as a list of lines with levels (PropLayout.v), without the formatter; equality by induction on values. For Objs with legal names the lines are the lines of the text and are tidy."
  },
  {
   "property": "C55",
   "status": "proved",
   "theorems": [
    "C55_bounded",
    "C55_includes",
    "C55_file",
    "C55_dies_or_agrees",
    "C55_any_text",
    "C55_types_needed",
    "C55_types_overflow",
    "C55_signs_overflow"
   ],
   "note": "The parser functions with a frame counter (Stack.v, generated from Parser.v by tools/gen_eq.py); equality with the unbounded parser by induction, frames needed as a function of the nesting, of the chain of signs and dots ahead and of the depth of the types met, which the brackets read bound. Lower bounds: the types in the result, and two families of texts."
  },
  {
   "property": "C56",
   "status": "proved",
   "theorems": [
    "C56_more_files",
    "C56_edit",
    "C56_same_text",
    "C56_only_opened",
    "C56_only_opened_results"
   ],
   "note": "Two runs of the parser on two file systems (Locality.v): equal unless the first opens a file that differs; by induction over the parsing functions. Successful loads: transfer of the meaning of includes (IncSem.v) between file systems."
  },
  {
   "property": "C57",
   "status": "proved",
   "theorems": [
    "C57_str",
    "C57_file"
   ],
   "note": "The exchange is a one-pass scanner over the text (AlphaSpec.v). It commutes with the grammar (induction over texts, Alpha.v) and with evaluation (simulation of two evaluations); it is its own inverse on every text."
  },
  {
   "property": "C58",
   "status": "proved",
   "theorems": [
    "C58_meter_is_loading",
    "C58_reads_are_the_opens",
    "C58_str",
    "C58_file",
    "C58_reads_once",
    "C58_str_disk",
    "C58_file_disk",
    "C58_no_includes",
    "C58_data_not_linear"
   ],
   "note": "The parser functions with a meter (Count.v, generated from Parser.v by tools/gen_eq.py); the meter is erased without effect; potential argument by induction over the functions (CountProofs.v); files counted once by C23. Not counted: arithmetic, map look-ups, copying."
  },
  {
   "property": "C59",
   "status": "proved",
   "theorems": [
    "C59_write",
    "C59_display",
    "C59_eq",
    "C59_value_eq",
    "C59_dies_or_agrees",
    "C59_get",
    "C59_get_type",
    "C59_reloadable",
    "C59_overflow"
   ],
   "note": "The functions with a frame counter (Walk.v), compared with the plain ones by induction on the counter. Overflow family: the deep Objs of C02_loads_any_depth. Drop is C65. Not counted: Debug, functions of the standard library."
  },
  {
   "property": "C60",
   "status": "proved",
   "theorems": [
    "C60_same_instance",
    "C60_kinds_apart",
    "C60_no_cycles",
    "C60_two_loads",
    "C60_literal_is_new",
    "C60_name_is_shared",
    "C60_sum_is_new"
   ],
   "note": "Share.v: a heap assigns to each id the container created with it; every value of an evaluation, of the globals and of the cache of included files agrees with the heap, and ids are drawn upwards (induction over the syntax, and over the fuel for includes). In the model the identity of an Arc is the id drawn when it was created; that two live Arcs have different addresses is the standard library's. That acyclic data is freed is C38 (reference counts)."
  },
  {
   "property": "C61",
   "status": "proved",
   "theorems": [
    "C61_to_file_str",
    "C61_from_file_str",
    "C61_to_file_file",
    "C61_from_file_file"
   ],
   "note": "Simulation of two evaluations (Refactor.v): the literal at depth 2 against the contents of the file at depth 1; the include by the specification of C43; both directions, for from_str and from_file."
  },
  {
   "property": "C62",
   "status": "proved",
   "theorems": [
    "C62_str",
    "C62_file",
    "C62_get",
    "C62_eq"
   ],
   "note": "Two evaluations of the same items from states that agree on the names read are simulated (Relate.v, induction over the syntax; the values correspond instance by instance, so includes do the same in both); each item changes only the names it writes (frame). Texts enter through the grammar (C39, C42), files through C43 and C56."
  },
  {
   "property": "C63",
   "status": "proved",
   "theorems": [
    "C63_global_str",
    "C63_field_str",
    "C63_file"
   ],
   "note": "As C62: the state without the item agrees on all names read later."
  },
  {
   "property": "C64",
   "status": "proved",
   "theorems": [
    "C64_name_str",
    "C64_inline_str",
    "C64_name_file",
    "C64_inline_file",
    "C64_any_definition_refuted"
   ],
   "note": "Substitution on the syntax (sub in Refactor.v) and a simulation in which the name is bound to the value of the expression; evaluating the expression again gives the same data because no name is ever rebound. C64_any_definition_refuted shows that the condition on e is needed."
  },
  {
   "property": "C65",
   "status": "proved",
   "theorems": [
    "C65_drop_is_right",
    "C65_enough",
    "C65_needed",
    "C65_loaded",
    "C65_in_memory",
    "C65_overflow"
   ],
   "note": "Drop.v: the compiler generated recursive drop over the reference-counted heap of Runtime.v, with a frame counter; compared with the single steps of C38 by induction on the counter; layout of any loaded Obj in a reachable heap by induction on values; overflow family by induction on the stack size. A drop of locals inside a load that fails is not modelled."
  },
  {
   "property": "C66",
   "status": "proved",
   "theorems": [
    "C66_error_eq",
    "C66_refl_sym",
    "C66_transitive_refuted",
    "C66_exact_without_any",
    "C66_same_message",
    "C66_equal_but_other_message_refuted",
    "C66_load_errors",
    "C66_pair_eq"
   ],
   "note": "Derived == of OverError and Pair (Api.v) against an inductive relation; uses the compatibility of types of C11 and the decodability of messages of C53."
  },
  {
   "property": "C67",
   "status": "proved",
   "theorems": [
    "C67_str",
    "C67_file",
    "C67_str_back",
    "C67_file_back",
    "C67_str_iff",
    "C67_file_iff",
    "C67_depth",
    "C67_anywhere",
    "C67_two_kinds_refuted"
   ],
   "note": "Afresh.v: the specification, a recursive function on how deep includes are nested. Two evaluations afresh in different states correspond (Relate.v); the least depth at which a file has a value decreases along includes, so no file includes itself; every value in the cache corresponds to an evaluation afresh; the cached evaluation is one of C43. The converse: an evaluation whose log respects the kinds took only such steps (Back.v); the levels of files are at most as many as there are files (AfreshConv.v). C67_str_iff, C67_file_iff: both directions as an equivalence (AfreshOp.v: the load itself respects the kinds). C67_two_kinds_refuted shows that one kind per file is needed."
  },
  {
   "property": "C68",
   "status": "proved",
   "theorems": [
    "C68_snapshot_exists",
    "C68_only_that_moment_counts",
    "C68_returns",
    "C68_results",
    "C68_opened_once",
    "C68_unnoticed",
    "C68_nothing_changes",
    "C68_removed_file_panics"
   ],
   "note": "Changing.v: the loading functions of Parser.v with a file system per moment. Two runs, one on a changing and one on a fixed file system, are equal or part at the opening of a file that has other contents (Locality.v, by induction over the parsing functions); in the snapshot no such opening exists, because no file is opened twice (C23). Names and links must not change (C68_removed_file_panics)."
  },
  {
   "property": "C69",
   "status": "proved",
   "theorems": [
    "C69_file",
    "C69_str",
    "C69_file_iff",
    "C69_str_iff",
    "C69_same_data",
    "C69_written",
    "C69_keyword_refuted"
   ],
   "note": "Replace.v: what it means that files have the same data. Simulation of the two projects, evaluated afresh (C67, both directions), by induction on the nesting; at a replaced file all instances that are no keywords correspond. The written form by C01. C69_file_iff, C69_str_iff: the two projects load the same files and texts to the same data. C69_keyword_refuted shows that the condition on keywords is needed."
  },
  {
   "property": "C70",
   "status": "proved",
   "theorems": [
    "C70_file",
    "C70_str",
    "C70_unchanged",
    "C70_moved",
    "C70_steps",
    "C70_alone_refuted"
   ],
   "note": "Reorg.v: the relation between the two projects (specification). Simulation of the two projects, evaluated afresh (C67, both directions), by mutual induction over the relation and strong induction on the nesting of includes; the literal and the file are evaluated in different surroundings at different depths. C70_unchanged: unchanged texts are covered if paths lead to twins. C70_moved: a whole project at another place. C70_steps: any number of steps of C69 and C70. C70_alone_refuted shows that a moved literal must not use names around it."
  },
  {
   "property": "C71",
   "status": "proved",
   "theorems": [
    "C71_as_seen",
    "C71_loaded",
    "C71_ends",
    "C71_always_there",
    "C71_nothing_changes",
    "C71_changing_link_refuted"
   ],
   "note": "Amid.v: the loading functions with a file system per question (is_file, canonicalize twice, open); AnyInc.v: the parsing functions of Parser.v with a parameter for parser.rs:1083-1155 (generated, checked by C71_nothing_changes). Two runs, one amid changes and one on a fixed file system, are equal, or the first lost a file, or they part at the opening of a file with other contents (AmidProofs.v); in the file system made of what was seen no such opening exists. C71_changing_link_refuted shows that a path must not lead to two different files."
  },
  {
   "property": "C72",
   "status": "proved",
   "theorems": [
    "C72_text",
    "C72_file",
    "C72_top"
   ],
   "note": "Header.v: a run at a position and the same run n lines further down are simulated through all parsing functions (induction on the budget; positions that are passed along are moved too); an included file is run with the number of lines put before it; the header itself is skipped by the first search for a character; the larger budget of the longer text by Fuel.v. The error that was moved is the one of C52. C72_ex_text shows that a file that is included as a Str must not get a header."
  },
  {
   "property": "C73",
   "status": "proved",
   "theorems": [
    "C73_text",
    "C73_text_repair",
    "C73_file",
    "C73_file_repair"
   ],
   "note": "FirstFault.v: a run and the same run with more text behind are simulated through all parsing functions (induction on the budget), as long as the first has a line break ahead; at the top level the first may also end well. The faults are those of C52. C73_file: other files are not touched, the file itself is opened only once (C23), so the two runs open the same files (Locality.v). C73_text_repair, C73_file_repair: what can be completed to a text that loads, loads or ends too early. C73_ex_short and C73_ex_lines show that both conditions are needed."
  },
  {
   "property": "C74",
   "status": "proved",
   "theorems": [
    "C74_exchanged",
    "C74_alone",
    "C74_no_files",
    "C74_str",
    "C74_file",
    "C74_rename_refuted"
   ],
   "note": "FieldNames.v: the exchange in data, in texts (a scanner of five token states on top of the modes of LexSpec.v) and in files (specification). Evaluation commutes with the exchange, by mutual induction over the syntax (FieldEval.v); a text of the grammar with the names exchanged is a text of the items with the names exchanged, and exchanging twice changes nothing (FieldText.v). C74_alone: exact, identities included, for loads that include nothing; C74_no_files: with errors; C74_str, C74_file: projects, by evaluation afresh (C67, both directions). C74_exchanged: what the exchange does, by accessors. C74_rename_refuted: renaming to a name in use is not enough."
  },
  {
   "property": "C75",
   "status": "proved",
   "theorems": [
    "C75_str",
    "C75_plain",
    "C75_file",
    "C75_get",
    "C75_none",
    "C75_edited_only_refuted"
   ],
   "note": "Edits.v: two versions of a document as a list of kept, changed, removed and added items, and the names an edit reaches (specification). Induction over the edit: the two evaluations agree on everything outside the names reached so far; an item that uses none of these has corresponding values (Relate.v), any other defines only names that are reached (frames of Refactor.v). Includes by evaluation afresh (C67); C75_file: the edited file itself cannot be included, since it has a least depth. C75_plain: without includes, in any two file systems. C75_get, C75_none: what it means for get, and for edits that reach nothing. C75_edited_only_refuted: the edited items alone are not enough."
  },
  {
   "property": "C76",
   "status": "proved",
   "theorems": [
    "C76_str",
    "C76_error",
    "C76_file",
    "C76_project_str",
    "C76_project_file",
    "C76_sum_before_product_refuted",
    "C76_kind_refuted"
   ],
   "note": "Constants.v: one rewriting step anywhere in the syntax, and its closure in both directions (specification). Each step leaves the evaluation of the expression unchanged as a function of its surroundings, identities included, by mutual induction over the step (ConstEval.v). C76_str, C76_error, C76_file: exactly the same Obj; C76_project_str, C76_project_file: constants rewritten in all files, by evaluation afresh (C67). C76_sum_before_product_refuted and C76_kind_refuted show that the conditions are needed."
  },
  {
   "property": "C77",
   "status": "proved",
   "theorems": [
    "C77_str",
    "C77_file",
    "C77_str_disk",
    "C77_file_disk",
    "C77_text",
    "C77_ints_get_this_large"
   ],
   "note": "Sizes.v: the levels (specification). Values at a level and one operation more are at the next level; a waiting operand costs the operator that was read for it (SizeProofs.v, SizeLoad.v: a triple over the metered parser of C58, by induction over its functions, the included files paid for when they are opened, once each by C23). C77_str, C77_file: in the characters really read; C77_str_disk, C77_file_disk: in text and disk; C77_text: no includes. C77_ints_get_this_large and C58_data_not_linear: both exponentials are reached."
  },
  {
   "property": "C78",
   "status": "proved",
   "theorems": [
    "C78_clients",
    "C78_equal_iff_not_told_apart",
    "C78_calls",
    "C78_identity_refuted",
    "C78_unchecked_refuted",
    "C78_eq_containers"
   ],
   "note": "Clients.v: programs as functions from all they have learned to their next API call (specification). C78_calls: one call on equal values shows the same and gives equal values; C78_clients: by induction the whole run is the same, whatever the program, the files, and the pasts of the two processes. C78_equal_iff_not_told_apart: for values with names that can be loaded, == is exactly being indistinguishable. C78_identity_refuted, C78_unchecked_refuted: ptr_eq, and inner_type of Arrs from from_values_unchecked, do tell equal values apart; calls of the _unchecked constructors, of num_references and of write_to_file are not among the calls."
  },
  {
   "property": "C79",
   "status": "proved",
   "theorems": [
    "C79_at_least",
    "C79_str",
    "C79_file",
    "C79_str_disk",
    "C79_keywords",
    "C79_process",
    "C79_no_wrap",
    "C79_data"
   ],
   "note": "IdCount.v: every metered function of C58 draws at most as many ids as it makes steps (induction over the functions; ids of other threads and of keyword Objs are told apart by the state); with C58 the bound in characters. C79_str, C79_file, C79_str_disk: one load, successful or not, under every interference; C79_process: a whole history, with its price; C79_no_wrap, C79_data: until that price reaches 2^64 the 64-bit counter does not wrap, so the unbounded counter of the model is the real one. C79_keywords: at most 4 keyword Objs. C79_at_least: the lower bound (C40, C60, pigeonhole)."
  },
  {
   "property": "C80",
   "status": "proved",
   "theorems": [
    "C80_paths",
    "C80_str",
    "C80_loads",
    "C80_loads_iff",
    "C80_file",
    "C80_project_loads",
    "C80_project",
    "C80_division_refuted",
    "C80_int_refuted"
   ],
   "note": "Revalue.v: [other_items] relates documents that differ only in which texts, fractions and truth values are written in them; [structure] blanks these in a value. A relational evaluation (same ids, same Ints, related globals and scopes) by induction over the syntax; C80_str for any two such texts, C80_loads(_iff), C80_file without divisions; C80_paths says what a reader sees. C80_project, C80_project_loads: the same in all files of a project at once (through reading afresh, C67), up to the identity of containers."
  },
  {
   "property": "C81",
   "status": "proved",
   "theorems": [
    "C81_length",
    "C81_display",
    "C81_lines",
    "C81_two_lines_each",
    "C81_loadable",
    "C81_deep",
    "C81_not_linear_in_the_source",
    "C81_ints",
    "C81_reading_back"
   ],
   "note": "PropWritten.v: characters, lines and values counted by three small recursive functions; the layout of C54 has exactly these lines and characters (induction on values), and no level beyond the depth. C81_not_linear_in_the_source uses the doubling texts of C58."
  },
  {
   "property": "C82",
   "status": "proved",
   "theorems": [
    "C82_get",
    "C82_values",
    "C82_names",
    "C82_no_parents",
    "C82_legal",
    "C82_written",
    "C82_told_apart"
   ],
   "note": "PropFlat.v: [flatten]/[flat] give every Obj the inherited fields and no parent. The fields read are the same (C82_get, induction on Objs), the data stays legal and no deeper, so it is written and loads to equal answers (with C01). C82_told_apart: ==, len and contains do tell them apart."
  }
 ]
}