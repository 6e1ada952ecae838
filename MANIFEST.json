{
 "claims": [
  {
   "property": "C01",
   "status": "proved",
   "theorems": [
    "escape_unescape_roundtrip",
    "escape_denotes_string",
    "escape_embeddable",
    "unescape_exact",
    "unescape_rejects_exactly"
   ],
   "note": ""
  },
  {
   "property": "C02",
   "status": "proved",
   "theorems": [
    "lex_total_and_tiles",
    "lex_exact"
   ],
   "note": "u32 offsets are unbounded in the model; lex_exact additionally fixes every token to an independent lexical grammar"
  },
  {
   "property": "C03",
   "status": "proved",
   "theorems": [
    "lex_string_literal",
    "lex_char_literal"
   ],
   "note": ""
  },
  {
   "property": "C04",
   "status": "proved",
   "theorems": [
    "parse_text_total_and_exact",
    "parse_exact",
    "parse_reports_every_error",
    "grammar_unambiguous",
    "parse_total_any_tokens_refuted"
   ],
   "note": "token sequences holding the internal end-of-file marker (never produced by the lexer) are excluded: on those the recovery loop does not terminate, which is the refuted theorem"
  },
  {
   "property": "C05",
   "status": "proved",
   "theorems": [
    "print_then_parse",
    "print_nested_try_refuted",
    "print_try_quote_refuted",
    "print_signed_zero_refuted"
   ],
   "note": "floats: assumes the printed text of the float is its literal; the refuted theorems show parser-produced S-expressions outside the printable fragment that do not read back"
  },
  {
   "property": "C06",
   "status": "proved",
   "theorems": [
    "parse_path_exact",
    "show_then_parse_path",
    "parse_then_show_path",
    "show_path_injective"
   ],
   "note": ""
  },
  {
   "property": "C07",
   "status": "proved",
   "theorems": [
    "interning_is_exact"
   ],
   "note": "up to 2^32 requests (the handle is a u32)"
  },
  {
   "property": "C08",
   "status": "proved",
   "theorems": [
    "topological_sort_correct",
    "topological_sort_any_keys_refuted"
   ],
   "note": "keys must be distinct, as at all call sites; the refuted theorem shows the panic otherwise"
  },
  {
   "property": "C09",
   "status": "proved",
   "theorems": [
    "kind_unify_exact",
    "kind_contexts_solvable",
    "kind_resolve_exact",
    "kind_default_vars_exact",
    "kind_constructors_exact",
    "kind_export_exact",
    "kind_import_then_export"
   ],
   "note": "default_vars is proved for the five basic kinds as the default (the only ones used)"
  },
  {
   "property": "C10",
   "status": "proved",
   "theorems": [
    "type_unify_exact",
    "type_contexts_solvable",
    "type_resolve_exact",
    "type_kind_exact",
    "type_match_exact",
    "type_match_one_sided_refuted",
    "type_failed_unify_levels_refuted",
    "type_equal_exact",
    "type_levels_exact",
    "type_default_vars_exact",
    "type_constructors_exact",
    "type_subst_exact",
    "type_export_exact",
    "type_import_then_export"
   ],
   "note": "matching is complete for right sides without variables; the refuted theorems show that it may bind a right-side variable when the left side repeats one, and that a failed unification is not rolled back; equal_on_subst is not modelled"
  },
  {
   "property": "C11",
   "status": "proved",
   "theorems": [
    "match_check_exact",
    "match_check_uninhabited_refuted",
    "match_check_finite_constants_refuted"
   ],
   "note": "soundness holds for all types; exactness needs inhabited types and unboundedly many constants, and the refuted theorems show both are needed; the order of the reported missing patterns is not modelled"
  },
  {
   "property": "C12",
   "status": "partial",
   "theorems": [
    "preprocess_is_lexical",
    "preprocess_plain_unchanged",
    "preprocess_duplicate_names_refuted"
   ],
   "note": "false as stated when one $let or $for binds a name twice (the refuted theorem); proved for all other programs; the wording of errors is not modelled"
  },
  {
   "property": "C13",
   "status": "proved",
   "theorems": [
    "local_scopes_exact"
   ],
   "note": "sessions end at the first error, as every caller propagates it; the state a scope is left in after an error is not specified"
  },
  {
   "property": "C14",
   "status": "proved",
   "theorems": [
    "import_exact",
    "export_exact",
    "export_conflict_name_refuted"
   ],
   "note": "the instances made available by an import (importer.rs:128-135) are not modelled; the refuted theorem shows the name in a conflicting-exports error can be the text matched by the wildcard"
  },
  {
   "property": "C15",
   "status": "proved",
   "theorems": [
    "parallel_build_safe",
    "parallel_build_results",
    "parallel_build_deterministic",
    "parallel_build_terminates"
   ],
   "note": "builders are programs that consult only modules they depend on; the per-task cache of dependencies, macro execution and the cache of the builtin module are not modelled"
  },
  {
   "property": "C16",
   "status": "proved",
   "theorems": [
    "dependencies_exact",
    "collect_safe",
    "collect_exact",
    "collect_terminates",
    "dependencies_order_exact",
    "collected_program_builds"
   ],
   "note": "loading, parsing and preprocessing are one function from paths to code and errors, which therefore gives the same answer whenever it is asked; each lock-protected section of a task is one atomic step"
  },
  {
   "property": "C17",
   "status": "partial",
   "theorems": [
    "match_expansion_exact_partial",
    "and_or_expansion_exact",
    "match_expansion_exact_refuted"
   ],
   "note": "false as stated (two spellings of one constant); proved for clauses whose constants differ as values; one match at a time, with big-step evaluation, so divergence is not covered; the names that the earlier passes make distinct are a hypothesis; patterns on quoted S-expressions are refused by the code with a panic and excluded"
  },
  {
   "property": "C18",
   "status": "proved",
   "theorems": [
    "data_representation_total",
    "data_build_match_exact",
    "data_definitions_agree",
    "data_types_replaced"
   ],
   "note": "at most 2^64 constructors; the rounded-up logarithm that sizes the tag is exact in the model (the code goes through f64); the traversal that applies the replacement inside expressions is not modelled, only the replacement of each constructor application, pattern and type"
  },
  {
   "property": "C19",
   "status": "proved",
   "theorems": [
    "layout_sizes_exact",
    "layout_base_exact",
    "layout_struct_exact",
    "layout_union_exact",
    "layout_eightbytes_exact",
    "layout_register_exact",
    "layout_order_irrelevant",
    "layout_stable",
    "layout_stack_exact"
   ],
   "note": "usize is unbounded; the order in which the hash map of definitions is visited is any permutation; fields are also shown to be packed as in the C ABI and registration to succeed exactly for types of finite size"
  },
  {
   "property": "C20",
   "status": "proved",
   "theorems": [
    "frame_variables_separate",
    "frame_locals_reserved",
    "frame_arguments_exact",
    "frame_return_pointer_exact",
    "frame_allocations_separate",
    "frame_exists_exactly"
   ],
   "note": "variables are alive together as the relation live of Frame/Spec.v says; variables have distinct names, as the earlier passes ensure; continuations of one form do not jump to each other, which branch expansion never produces; i32 does not overflow"
  },
  {
   "property": "C21",
   "status": "proved",
   "theorems": [
    "instruction_read_back",
    "instruction_refused_exactly"
   ],
   "note": "all 1366 implementations of WriteInst, transcribed by a script, each beside the encoding the project lists for it (the listed encodings of PMINSB and JECXZ are not those of the manual, see C41); an RSP index, which no encoding has, is excluded; arithmetic on address values (adding to a displacement) is not modelled"
  },
  {
   "property": "C22",
   "status": "proved",
   "theorems": [
    "label_uses_resolved",
    "written_bytes_kept",
    "object_produced_exactly",
    "object_symbols_exact",
    "labels_distinct",
    "calls_refused_exactly"
   ],
   "note": "the linked memory is any that meets the relocation rules of the ABI (Obj/Spec.v), the fields being apart and inside the sections; positions are unbounded integers; the order of symbols is not modelled"
  },
  {
   "property": "C23",
   "status": "proved",
   "theorems": [
    "segment_allocations",
    "engine_segments_apart"
   ],
   "note": "the operating system is any that gives pages nobody has, or fails; addresses are unbounded integers; alignment follows from the sizes asked for, which the engine rounds to 16"
  },
  {
   "property": "C24",
   "status": "partial",
   "theorems": [
    "add_object_loads_partial",
    "add_object_keeps",
    "loaded_object_stays",
    "written_then_added",
    "offset_rejected_refuted",
    "local_entry_refuted",
    "failed_add_refuted"
   ],
   "note": "false as stated: an offset that does not fit is never rejected; fields hold the required value modulo their width; objects have relocations inside their sections, apart from each other; mprotect is taken to succeed and the resolver to be a function"
  },
  {
   "property": "C25",
   "status": "proved",
   "theorems": [
    "elf_sections_read",
    "elf_object_read",
    "elf_refused_exactly",
    "elf_links_same",
    "written_then_linked"
   ],
   "note": "for sizes the fields of the format can hold; the reader in Elf/Spec.v is written from the ELF-64 format, not from the writer"
  },
  {
   "property": "C26",
   "status": "partial",
   "theorems": [
    "encode_utf8_partial",
    "encode_scalar_refuted",
    "decode_encoded",
    "valid_sequence_exact_partial",
    "valid_sequence_refuted",
    "chars_exact",
    "char_indices_exact",
    "chars_put",
    "encoding_unambiguous",
    "char_boundary_exact",
    "from_unicode_scalar_exact_partial",
    "utf8_length_exact"
   ],
   "note": "false as stated above 111411 (a misspelt bound); everything is proved up to there"
  },
  {
   "property": "C27",
   "status": "proved",
   "theorems": [
    "ordered_map_answers",
    "entries_increasing",
    "lookup_after_put",
    "lookup_after_del",
    "lookup_finds"
   ],
   "note": "every list of calls, any lawful order on keys, including one where different keys are equal; iteration while the map is changed is not modelled"
  },
  {
   "property": "C28",
   "status": "proved",
   "theorems": [
    "persistent_map_answers",
    "persistent_entries_increasing",
    "union_lookup",
    "intersection_lookup",
    "difference_lookup",
    "persistent_map_equality"
   ],
   "note": "every history of versions; difference is the symmetric difference, as the tests of the library have it"
  },
  {
   "property": "C29",
   "status": "partial",
   "theorems": [
    "hash_map_answers_partial",
    "hash_map_keys_distinct",
    "hash_map_value_put",
    "hash_map_value_del",
    "hash_map_equality",
    "hash_map_zero_capacity_refuted"
   ],
   "note": "all histories of calls on any number of maps, for every hash function; a map made with capacity zero reads outside its arrays when searched before an insertion"
  },
  {
   "property": "C30",
   "status": "partial",
   "theorems": [
    "persistent_hash_map_answers_partial",
    "persistent_hash_map_keys_distinct",
    "persistent_hash_map_tight_partial",
    "persistent_hash_map_crowd_refuted"
   ],
   "note": "every history of versions, for every hash function; missing: versions with 2^64 entries or more than 2^32 entries of one hash, for which it is refuted"
  },
  {
   "property": "C31",
   "status": "partial",
   "theorems": [
    "hashers_stream",
    "hashers_are_xxh64_partial",
    "hashers_are_xxh64_refuted"
   ],
   "note": "every sequence of writes, digests and resets, every seed; false as stated for XXH64: the step for four bytes extends them by their sign; proved equal to XXH64 when the highest of those bits is clear"
  },
  {
   "property": "C32",
   "status": "proved",
   "theorems": [
    "vectors_are_sequences",
    "arrays_are_sequences_partial",
    "update_empty_array_refuted",
    "reference_past_end_refuted"
   ],
   "note": "every history of calls on arrays, vectors and iterators by a program that writes nothing it shares and never asks for 2^63 elements; array/update of an empty array and array/ref at the length are not refused, which is refuted separately"
  },
  {
   "property": "C33",
   "status": "partial",
   "theorems": [
    "find_first",
    "contains_exact",
    "starts_with_exact",
    "ends_with_exact",
    "substring_exact",
    "take_exact",
    "skip_exact",
    "split_exact",
    "pieces_unique",
    "split_by_nothing",
    "join_exact",
    "split_then_join",
    "join_then_split",
    "replace_exact",
    "with_between_valid",
    "replace_nothing_exact",
    "split_lines_exact",
    "remove_start_exact_partial",
    "remove_end_exact_partial",
    "remove_nothing_refuted",
    "reverse_exact_partial",
    "reverse_refuted",
    "compare_exact",
    "string_eq_exact",
    "from_chars_exact",
    "from_bytes_exact",
    "consume_exact"
   ],
   "note": "find, contains, split, join, replace, substring, lines and comparison proved for all strings of characters the library knows; removing the empty string does not end, and reverse is only right for ASCII"
  },
  {
   "property": "C34",
   "status": "partial",
   "theorems": [
    "components_exact",
    "base_name_exact",
    "dir_name_exact",
    "dir_and_base_joined",
    "join_leads_partial",
    "join_leads_refuted",
    "canonicalize_exact",
    "canonicalize_canonical_partial",
    "canonicalize_canonical_refuted",
    "joined_then_canonicalized",
    "last_name_located",
    "extension_exact",
    "with_extension_exact",
    "default_extension_exact",
    "extension_set_again",
    "extension_set_partial",
    "extension_set_refuted"
   ],
   "note": "every path that is a string of the library; false as stated in three corners: joining to the empty path, the canonical path of the root, and the extension of a path without a name; the current directory is a parameter"
  },
  {
   "property": "C35",
   "status": "proved",
   "theorems": [
    "locations_resolve",
    "begin_locate_refuses_duplicates",
    "from_range_is_exact"
   ],
   "note": "up to 2^32 requests; locators from SourceLocator::temporary are outside a table and not covered"
  },
  {
   "property": "C36",
   "status": "proved",
   "theorems": [
    "heap2stack_preserves",
    "heap2stack_only_moves"
   ],
   "note": "Simulation between a run in which nothing is released and one in which each stack object is gone when its binding ends. Assumes opaque operations cannot reach cells they are given no reference to (prims_local), as stated."
  },
  {
   "property": "C37",
   "status": "partial",
   "theorems": [
    "let_var_exact",
    "seq_exact",
    "let_cont_exact",
    "evaluation_deterministic",
    "computed_type_exact_partial",
    "computed_type_exact_refuted"
   ],
   "note": "false as stated for >= of floating-point numbers; operands that never produce a value are not covered by the typing rules; opaque operations are assumed to keep to the signatures written in the code"
  },
  {
   "property": "C38",
   "status": "proved",
   "theorems": [
    "match_sexp_exact",
    "list_like_exact",
    "cons_exact"
   ],
   "note": "matchers are values of a small language: the primitive ones, lists, tuples with and without rest, either, and the annotatable and parameterizable ones of syntax.rs; the wording of expectations is not modelled"
  },
  {
   "property": "C39",
   "status": "partial",
   "theorems": [
    "load_exact",
    "module_file_injective_partial",
    "module_file_injective_refuted"
   ],
   "note": "false as stated: a dot in the last part of the module name collides with the extension; proved for names without such a dot; load_exact gives what every registration history loads"
  },
  {
   "property": "C40",
   "status": "proved",
   "theorems": [
    "call_stack_aligned",
    "call_result_separate",
    "call_leaves_result",
    "call_arguments_found",
    "frame_arguments_exact",
    "c_call_stack_aligned",
    "c_call_result_separate",
    "c_call_leaves_result",
    "c_call_arguments_passed"
   ],
   "note": "every list of layouts, result and depth, for functions of the program and for C functions; compiled_call_computes_partial of C45 composes these with the code of whole functions"
  },
  {
   "property": "C41",
   "status": "partial",
   "theorems": [
    "instruction_unambiguous_partial",
    "jecxz_encoding_refuted",
    "pminsb_encoding_refuted"
   ],
   "note": "false as stated for PMINSB and JECXZ, whose encodings are wrong; proved for every other pair"
  },
  {
   "property": "C42",
   "status": "partial",
   "theorems": [
    "label_instruction_partial",
    "store_immediate_refuted"
   ],
   "note": "false as stated for movq label, imm32; proved for every other instruction that takes a label"
  },
  {
   "property": "C43",
   "status": "partial",
   "theorems": [
    "float_free_keys_lawful",
    "float_keys_refuted"
   ],
   "note": "false as stated for floats (the two zeros are equal and hash differently); proved for all values without floats; Rc and user-written instances are not modelled; the lawful of the hash map theorems"
  },
  {
   "property": "C44",
   "status": "partial",
   "theorems": [
    "value_push_exact",
    "value_pop_exact",
    "value_load_exact",
    "value_store_exact",
    "value_discard_exact",
    "value_slide_exact",
    "struct_elem_exact_partial",
    "struct_elem_exact_refuted",
    "reinterpret_exact"
   ],
   "note": "every reachable type layout and machine state, addresses without wrap-around; false as stated for the first element of a structure with as many eightbytes of other classes"
  },
  {
   "property": "C45",
   "status": "partial",
   "theorems": [
    "compiled_call_computes_partial",
    "call_of_return_refuted",
    "loop_left_in_call_refuted",
    "nested_jump_refuted",
    "c_arguments_in_order_refuted",
    "float_comparison_refuted",
    "float_to_unsigned_refuted"
   ],
   "note": "every program of the modelled forms: calls, calls of C functions by name and by address, integer and floating-point arithmetic, comparisons and conversions, arrays, strings and mathematical functions; string and floating-point constants, syntax objects, panics, the conversion of unsigned integers of 8 bytes to floating-point numbers and the main and macro functions are not modelled; excluded are the forms of which the refuted theorems show that the code is wrong: calls of something that never gives a value, jumps within the arguments of jumps and loops of which the body leaves a different depth of the stack"
  },
  {
   "property": "C46",
   "status": "proved",
   "theorems": [
    "initialization_in_order",
    "initialization_any_schedule"
   ],
   "note": "every well-formed history of requests; that modules arrive after those they need is what C15 proves of the build"
  },
  {
   "property": "C47",
   "status": "proved",
   "theorems": [
    "argument_shown",
    "shown_read_back",
    "macro_called",
    "embedded_data_stored",
    "constant_shown",
    "layouts_agree"
   ],
   "note": "every S-expression whose native values are uses, which are the only ones that compiled code can be given; the compiled macro is any function of the heap, and the allocator any that gives separate blocks or reports the end of memory"
  },
  {
   "property": "C48",
   "status": "proved",
   "theorems": [
    "conversion_ends",
    "no_local_functions_left",
    "converted_calls_agree",
    "converted_program_same",
    "meaning_unique"
   ],
   "note": "generic local functions are not modelled; evaluations that do not end are not in the property"
  },
  {
   "property": "C49",
   "status": "partial",
   "theorems": [
    "transparent_call_partial",
    "transparent_argument_refuted",
    "transparent_unused_refuted",
    "transparent_return_refuted",
    "transparent_definition_refuted",
    "transparent_local_functions_refuted",
    "transparent_recursion_refuted"
   ],
   "note": "proved for every body without local functions and returns and for arguments that are variables; the refuted theorems show that it does not hold for other arguments, bodies that return, bodies with local functions that call each other, and functions that call themselves"
  },
  {
   "property": "C50",
   "status": "partial",
   "theorems": [
    "kinds_decided",
    "kinds_fit",
    "kinds_rejected",
    "kinds_most_general",
    "kinds_order_irrelevant",
    "module_kinds_decided",
    "module_kinds_fit",
    "module_kinds_rejected_partial",
    "module_kinds_order_partial",
    "kinds_table_order_refuted"
   ],
   "note": "termination and soundness hold for every module; that errors are justified and that the order of the hash maps makes no difference is proved for modules in which the default bodies of a class have in their constraints only classes which the interface of the class needs; kinds_table_order_refuted shows that this is necessary"
  },
  {
   "property": "C51",
   "status": "partial",
   "theorems": [
    "premise_exact",
    "evidence_sound",
    "evidence_complete",
    "evidence_found",
    "overlap_reported",
    "overlap_check_exact",
    "instance_superclasses_sound",
    "class_hierarchy_exact",
    "class_hierarchy_well_founded",
    "class_hierarchy_refuted",
    "failed_search_binds_refuted"
   ],
   "note": "soundness and termination hold for every constraint; completeness for constraints on known types (by evidence nested at most 21 deep, the recursion limit); class_hierarchy_refuted shows that a class above itself is not rejected, failed_search_binds_refuted that a failed search can bind type variables; deferring constraints and defaulting are not modelled"
  },
  {
   "property": "C52",
   "status": "proved",
   "theorems": [
    "name_resolution_exact",
    "names_all_resolved",
    "name_resolution_order_irrelevant",
    "name_errors_true"
   ],
   "note": "for modules as the builder leaves them: the names of instance targets and of their methods not resolved yet, and every class with a known list of differently named methods"
  },
  {
   "property": "C53",
   "status": "proved",
   "theorems": [
    "module_matches_checked",
    "module_matches_order_irrelevant"
   ],
   "note": "the types of the patterns are a hypothesis (type inference ran before); the two known differences of the check of one match, over types without values and types with finitely many constants, are under C11"
  },
  {
   "property": "C54",
   "status": "proved",
   "theorems": [
    "kinds_follow_grammar",
    "refused_kinds_have_no_reading",
    "reading_kinds_decided",
    "types_follow_grammar",
    "refused_types_have_no_reading",
    "reading_types_decided",
    "patterns_follow_grammar",
    "refused_patterns_have_no_reading",
    "reading_patterns_decided",
    "expressions_follow_grammar",
    "refused_expressions_have_no_reading",
    "reading_expressions_decided",
    "kinds_unambiguous",
    "types_unambiguous",
    "patterns_unambiguous",
    "expressions_unambiguous",
    "declarations_follow_grammar",
    "refused_declarations_have_no_reading",
    "reading_declarations_decided",
    "declarations_unambiguous",
    "large_tuple_refuted"
   ],
   "note": "macros are a parameter; the decision procedure is total for S-expressions without macro calls whose lists have at most seventeen elements (expansion of macros need not end); large_tuple_refuted shows that a tuple of more than sixteen elements has a reading but makes the compiler panic; the targets of imports and exports are kept unread"
  }
 ]
}