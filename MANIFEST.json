{
 "claims": [
  {
   "property": "C01",
   "status": "proved",
   "theorems": [
    "C01_instr_roundtrip",
    "C01_unassigned_opcode_rejected"
   ],
   "note": "All 104 instructions; jump-target markers (never written to files) excluded."
  },
  {
   "property": "C02",
   "status": "proved",
   "theorems": [
    "C02_code_roundtrip_iff",
    "C02_trailing_marker_refuted",
    "C02_reader_terminates"
   ],
   "note": "Exact condition for a body to be read back; the marker witness shows the condition is necessary."
  },
  {
   "property": "C03",
   "status": "proved",
   "theorems": [
    "C03_decode_encode_stable",
    "C03_code_decode_encode_stable"
   ],
   "note": "Whole bodies up to the size where the u32 length cannot overflow."
  },
  {
   "property": "C04",
   "status": "proved",
   "theorems": [
    "C04_definition_roundtrip",
    "C04_definition_unchanged_iff",
    "C04_missing_source_refuted"
   ],
   "note": "Exact condition for identity; presence flags follow the content when saved; a non-native function without source cannot be saved (panic), shown by a witness."
  },
  {
   "property": "C05",
   "status": "proved",
   "theorems": [
    "C05_bundle_roundtrip",
    "C05_empty_definitions_refuted"
   ],
   "note": "Bundles whose definition list has the reserved slot 0 (every loaded bundle); false for an empty definition list, shown by a witness."
  },
  {
   "property": "C06",
   "status": "proved",
   "theorems": [
    "C06_layout_self_describing"
   ],
   "note": "Output starting empty, file below 4 GiB."
  },
  {
   "property": "C07",
   "status": "proved",
   "theorems": [
    "C07_string_pool_stable",
    "C07_empty_name_pool_refuted"
   ],
   "note": "Name pools must hold the default string at index 0 (shipped bundles do); false for an empty name pool, shown by a witness."
  },
  {
   "property": "C08",
   "status": "proved",
   "theorems": [
    "C08_strings_stored_once",
    "C08_equal_strings_share_offset"
   ],
   "note": ""
  },
  {
   "property": "C09",
   "status": "partial",
   "theorems": [
    "C09_wrong_magic_rejected",
    "C09_short_file_rejected",
    "C09_altered_content_refuted"
   ],
   "note": "Magic part proved; the checksum part is false of the code: checksums are written but never read."
  },
  {
   "property": "C10",
   "status": "proved",
   "theorems": [
    "C10_repr_roundtrip",
    "C10_from_repr_exact",
    "C10_repr_injective",
    "C10_several_arguments_refuted"
   ],
   "note": "For type names whose identifiers contain no separator and whose constructors take at most one argument; the several-argument case is refuted (the parser accepts such names, the representation drops to one)."
  },
  {
   "property": "C11",
   "status": "partial",
   "theorems": [
    "C11_signature_refuted",
    "C11_mangled_name_iff",
    "C11_signature_identifies_partial",
    "C11_cast_signature_partial",
    "C11_signature_name"
   ],
   "note": "Full statement refuted: parameter names are joined without a separator. Proved for separator-unambiguous parameter names and for casts."
  },
  {
   "property": "C12",
   "status": "proved",
   "theorems": [
    "C12_seek_exact",
    "C12_seek_error",
    "C12_range_exact"
   ],
   "note": ""
  },
  {
   "property": "C13",
   "status": "proved",
   "theorems": [
    "C13_relative_inverts",
    "C13_absolute_inverts"
   ],
   "note": ""
  },
  {
   "property": "C14",
   "status": "proved",
   "theorems": [
    "C14_jumps_land_on_labels"
   ],
   "note": ""
  },
  {
   "property": "C15",
   "status": "partial",
   "theorems": [
    "C15_labels_placed_once_partial",
    "C15_no_jump_to_start_partial",
    "C15_empty_last_case_refuted"
   ],
   "note": "Full statement refuted: a switch whose last case has no statement leaves a label unplaced, and its jump goes to position 0. Proved for all bodies in which the last case of every switch has a statement."
  },
  {
   "property": "C16",
   "status": "proved",
   "theorems": [
    "C16_break_outside_is_error",
    "C16_breaks_jump_to_target",
    "C16_while_is_the_break_target",
    "C16_switch_is_the_break_target"
   ],
   "note": "For every statement and expression, break target and assembler state."
  },
  {
   "property": "C17",
   "status": "partial",
   "theorems": [
    "C17_code_does_what_source_does_partial",
    "C17_source_does_what_code_does_partial",
    "C17_same_divergence_partial",
    "C17_empty_last_case_refuted"
   ],
   "note": "Proved in both directions, with divergence, for every runtime: the assembled code of a body and the body itself have the same final state and result. Missing from the full statement: switches whose last case has no statements (refuted: the code jumps to its start), struct constructors with 256 or more arguments (the count is stored in a byte), cases that fall through (reported by the compiler), code of 64 KiB or more."
  },
  {
   "property": "C18",
   "status": "partial",
   "theorems": [
    "C18_decompile_recovers_partial",
    "C18_normal_form_means_the_same",
    "C18_after_loop_lost_refuted",
    "C18_unreachable_becomes_reachable_refuted",
    "C18_super_becomes_this_refuted",
    "C18_long_conditional_refuted"
   ],
   "note": "For every body of the fragment (no super, no switch, no loop whose body never ends normally, nothing unreachable in an else-part unless the then-part never ends normally, code below 32768 bytes) the decompiled statements, empty ones dropped, are the source statements in the normal form of RecoverSpec.v; that form has the meaning of the body. Missing: switch; super and the other exclusions are refuted with witnesses."
  },
  {
   "property": "C19",
   "status": "partial",
   "theorems": [
    "printed_expression_reads_back_partial",
    "operator_tree_reads_back_iff",
    "operator_tree_text_keeps_order",
    "printed_expression_reads_back_refuted",
    "printed_constants_refuted",
    "printed_receivers_refuted",
    "printed_conversion_refuted",
    "printed_comparisons_refuted"
   ],
   "note": "The full statement is false (six causes, each refuted). Proved: operator trees are read back exactly if no right operand has the precedence of an associative operator above it; their operands and operators always stay in order; every expression of the fragment levels_ok (calls, methods, casts, conditionals, ...) is read back. Missing: array literals and interpolated strings (the printer panics on them), floats."
  },
  {
   "property": "C20",
   "status": "proved",
   "theorems": [
    "C20_conversion_exact",
    "C20_conversion_unique",
    "C20_converted_type",
    "C20_conversion_inserted"
   ],
   "note": "Upcasts and implicit conversions: found iff the declarative relation holds, unique, and the inserted conversion produces the wanted type."
  },
  {
   "property": "C21",
   "status": "proved",
   "theorems": [
    "C21_least_common_type",
    "C21_commutative",
    "C21_below_converts",
    "C21_nested_null_refuted"
   ],
   "note": "Proved for types without a null nested inside a type constructor (the only ones the checker builds); C21_nested_null_refuted shows the unrestricted statement is false."
  },
  {
   "property": "C22",
   "status": "proved",
   "theorems": [
    "C22_selected_first_applicable",
    "C22_resolves_iff_applicable",
    "C22_permissive"
   ],
   "note": "For every argument checker: the chosen candidate is the first applicable one; under known types, resolution succeeds exactly if an applicable candidate exists, otherwise NoMatchingOverload."
  },
  {
   "property": "C23",
   "status": "proved",
   "theorems": [
    "C23_nearest_field",
    "C23_methods"
   ],
   "note": "Fields: nearest class on the base chain. Methods: all visible overloads along the chain, nearest first."
  },
  {
   "property": "C24",
   "status": "proved",
   "theorems": [
    "C24_classes_after_bases",
    "C24_cyclic_never_ends"
   ],
   "note": "For every pool with an acyclic hierarchy (every class has a finite chain of bases that are classes) the reordering ends, moves only classes, takes every class reference along and puts each class after its base; a pool already in order is unchanged. Cyclic hierarchies, which the compiler does not reject, make it run forever (C24_cyclic_never_ends)."
  },
  {
   "property": "C25",
   "status": "proved",
   "theorems": [
    "wrapper_wraps_previous",
    "first_wrapper_wraps_original",
    "wrapped_call_reaches",
    "wrapped_call_code",
    "method_calls_last_wrapper",
    "others_unchanged",
    "dispatch_unchanged"
   ],
   "note": "for every sequence of registrations, interleaved with other declarations, and every order of the hash maps; what a call reaches is WrapSpec.dispatch"
  },
  {
   "property": "C26",
   "status": "proved",
   "theorems": [
    "C26_report",
    "C26_stopped"
   ],
   "note": "For every list of diagnostics; a diagnostic whose position is in no source file makes logging panic, so positions are assumed known."
  },
  {
   "property": "C27",
   "status": "proved",
   "theorems": [
    "C27_value",
    "C27_otherwise_error",
    "C27_kept"
   ],
   "note": "Conditions are evaluated as formulas over the existence of modules; anything else is a CteError; ?: leaves the branch not taken unevaluated, so that branch may be anything. Kept exactly if all conditions are true."
  },
  {
   "property": "C28",
   "status": "proved",
   "theorems": [
    "C28_for_in_visits_each"
   ],
   "note": "Proved for each loop against run_for (array evaluated once, body once per element in order) over runtimes with the two temporaries; the runtime laws are the record temporaries, met by the runtime in SugarDemo.v."
  },
  {
   "property": "C29",
   "status": "partial",
   "theorems": [
    "C29_literals_evaluate_in_place_partial",
    "C29_literals_evaluate_in_place_refuted"
   ],
   "note": "Full statement: evaluates_in_place for every body; it is false of the code (refuted with four bodies). Proved for all bodies in which every literal precedes every effect of its statement (tame), for every runtime with temporaries."
  },
  {
   "property": "C30",
   "status": "proved",
   "theorems": [
    "C30_no_sugar_left",
    "C30_assembler_never_rejects"
   ],
   "note": "Desugaring as modelled in Desugar.v leaves no sugar anywhere in the body, so the assembler never rejects sugar."
  },
  {
   "property": "C31",
   "status": "partial",
   "theorems": [
    "C31_always_returns_partial",
    "C31_switch_without_default_refuted",
    "C31_break_refuted"
   ],
   "note": "The full statement is false: a switch without a default counts as returning, and so does a case that breaks before its return. Proved for bodies in which the switches the check relies on have a default and no break."
  },
  {
   "property": "C32",
   "status": "proved",
   "theorems": [
    "C32_case_leaves",
    "C32_no_fallthrough"
   ],
   "note": "For every body without a fallthrough diagnostic, every runtime and every execution."
  },
  {
   "property": "C33",
   "status": "proved",
   "theorems": [
    "C33_unused_exact",
    "C33_only_unused"
   ],
   "note": "For every typed body: a warning at a span exactly if a local is declared there and no expression of the body mentions it."
  },
  {
   "property": "C34",
   "status": "proved",
   "theorems": [
    "C34_lookup",
    "C34_lookup_span",
    "C34_disjoint",
    "C34_outside"
   ],
   "note": "For all files of UTF-8 characters with less than 2^32 bytes together; positions are 32 bit numbers and wrap beyond."
  },
  {
   "property": "C35",
   "status": "partial",
   "theorems": [
    "C35_backup_preserved_partial",
    "C35_never_on_a_compiled_cache",
    "C35_interrupted_while_saving_refuted",
    "C35_update_after_failed_run_refuted"
   ],
   "note": "For every history of successful, failed and interrupted scc runs and game updates, the backup stays the pristine cache, except for: a custom cache path, an interruption while the cache is being saved in place, and an update that follows a run which made a backup and did not finish. Two of the exceptions are shown to be real by witnesses. In every state of the file system and for all settings, nothing is ever compiled against a cache that the compiler wrote, or a part of one."
  },
  {
   "property": "C36",
   "status": "proved",
   "theorems": [
    "C36_write_read",
    "C36_read"
   ],
   "note": "Timestamp file round trip for every value, also over an existing longer or shorter file, and reading any file content."
  },
  {
   "property": "C37",
   "status": "proved",
   "theorems": [
    "C37_within_buffer",
    "C37_success",
    "C37_empty_buffer_refuted"
   ],
   "note": "For every message, buffer and buffer size of at least 1; with size 0 the code writes one byte outside of the buffer, shown by a witness."
  },
  {
   "property": "C38",
   "status": "proved",
   "theorems": [
    "C38_round_trip",
    "C38_injective",
    "C38_function_path",
    "C38_empty_path_refuted"
   ],
   "note": "For all non-empty paths of parts without '.' and ';' (those identifiers allow); the empty path is the exception, shown by a witness."
  },
  {
   "property": "C39",
   "status": "proved",
   "theorems": [
    "C39_import_exact",
    "C39_monotone",
    "C39_import_fails",
    "C39_table_of_bundle"
   ],
   "note": "For every table the compiler can build, every import form, visibility and scope, and every visiting order of the children."
  },
  {
   "property": "C40",
   "status": "proved",
   "theorems": [
    "C40_initial_scope",
    "C40_same_index_again",
    "C40_index_denotes_type",
    "C40_name_denotes_type",
    "C40_total",
    "C40_static_array_of_references_refuted",
    "C40_shadowed_class_refuted",
    "C40_sibling_scopes_refuted"
   ],
   "note": "Stability and canonicity hold for every type and history within a scope; the index denotes the type for types whose base names are unambiguous. Three refutations record where the full statement fails: static arrays of prefixed types, classes shadowed by last name component, and sibling scopes. A type name resolves to the type it stands for, known before or not."
  },
  {
   "property": "C41",
   "status": "partial",
   "theorems": [
    "C41_locals_declared_once",
    "C41_declared_before_use_partial",
    "C41_declared_before_use_refuted"
   ],
   "note": "Statements are kept in order, every local is declared exactly once with its type and nothing else is declared (proved for decompiled functions). Declared before any other use holds exactly if, in the run of assignments the body starts with, the first assignment to each local precedes other mentions of it; in general it is refuted (y = x; x = 1;)."
  },
  {
   "property": "C42",
   "status": "proved",
   "theorems": [
    "C42_flag_set_get",
    "C42_flag_set_other",
    "C42_flag_word_width",
    "C42_flag_bits_survive",
    "C42_named_flags_distinct"
   ],
   "note": ""
  },
  {
   "property": "C43",
   "status": "proved",
   "theorems": [
    "C43_first_match",
    "C43_no_match",
    "C43_registered"
   ],
   "note": "First matching registered hint is returned, in order of registration."
  },
  {
   "property": "C44",
   "status": "partial",
   "theorems": [
    "expression_parser_ends_partial",
    "expression_parser_never_aborts_refuted"
   ],
   "note": "Never loops; consumes a prefix; aborts only on an escape that names no character, where the full statement is refuted. Statements, declarations and modules: C53."
  },
  {
   "property": "C45",
   "status": "proved",
   "theorems": [
    "quoted_text_reads_back"
   ],
   "note": "For all valid UTF-8 strings and all continuations."
  },
  {
   "property": "C46",
   "status": "partial",
   "theorems": [
    "C46_forward_code_ends_partial",
    "C46_compiled_code_is_forward",
    "C46_compiled_code_ends_partial",
    "C46_jump_to_itself_refuted",
    "C46_compiled_code_never_ends_refuted"
   ],
   "note": "Proved for code in which conditional jumps do not lead to themselves and switches and case labels lead ahead; what the compiler emits is of that kind if the last case of every switch has a statement. Both conditions are needed: a conditional jump to itself, and a compiled switch with an empty last case, are decompiled for ever."
  },
  {
   "property": "C47",
   "status": "proved",
   "theorems": [
    "C47_accepted_is_well_typed",
    "C47_accepted_body_is_well_typed",
    "C47_case_type_refuted",
    "C47_assigned_place_refuted",
    "C47_required_argument_refuted"
   ],
   "note": "Both modes, any fuel, any start state; the rules are in WellTypedSpec.v. Not rules (with counterexamples): the types of cases in a switch, assignable left sides, and that every required parameter gets an argument."
  },
  {
   "property": "C48",
   "status": "proved",
   "theorems": [
    "C48_only_named_changes",
    "C48_unnamed_is_unchanged"
   ],
   "note": "For every bundle in which everything is named and listed functions belong to their class. C48_only_named_changes: the bundle before its classes are ordered has everything in place (frame) and the output is that bundle ordered. C48_unnamed_is_unchanged follows an unnamed definition into the output, if the classes have finite chains of bases. Indices are assumed to fit 32 bits."
  },
  {
   "property": "C49",
   "status": "proved",
   "theorems": [
    "C49_disabled_has_no_effect",
    "C49_nothing_enabled"
   ],
   "note": "compile gives the same result for modules and for the modules without what is disabled, errors and diagnostics included; with nothing enabled the bundle comes back (bases before classes, bounded fuel only for the ordering of classes)."
  },
  {
   "property": "C50",
   "status": "partial",
   "theorems": [
    "C50_reproducible_partial",
    "C50_reproducible_refuted",
    "C50_statement_refuted"
   ],
   "note": "False in general (two wrapped methods give different numbers); proved for scripts that wrap no method, with the order of imported members the same in both runs."
  },
  {
   "property": "C51",
   "status": "proved",
   "theorems": [
    "C51_declarations_take_effect",
    "C51_member_visibility_refuted",
    "C51_overriding_member_refuted"
   ],
   "note": "For bundles in which everything is named, modules that wrap no method and an output with harmless warnings at most, indices fitting 32 bits. takes_effect (EffectSpec.v) describes the definition of each kind of declaration in the bundle before its classes are ordered (C24). Not so, and refuted: members with a visibility of their own, and base methods of methods declared in classes."
  },
  {
   "property": "C52",
   "status": "proved",
   "theorems": [
    "C52_rules_are_enforced",
    "C52_conflicts_are_reported",
    "C52_duplicates_refuted"
   ],
   "note": "all rules for declarations in compilations without fatal diagnostics, conflicts of added and replaced methods and added fields; duplicates without annotations are not always reported: C52_duplicates_refuted"
  },
  {
   "property": "C53",
   "status": "proved",
   "theorems": [
    "C53_module_parser_ends",
    "C53_statement_parser_ends",
    "C53_module_parser_never_aborts_refuted"
   ],
   "note": "Grammar.v models the rules for statements, declarations and modules on top of Parser.v. The exception for escapes is in the theorem's statement (bad_escape); without it the claim is refuted."
  },
  {
   "property": "C54",
   "status": "partial",
   "theorems": [
    "C54_printed_bodies_read_back_partial",
    "C54_goto_refuted",
    "C54_statement_words_refuted"
   ],
   "note": "Proved for bodies whose expressions are in the fragment of C19, without goto, nested blocks without a head, expression statements that start with a statement word, or case values that start with an operator or parenthesis. False in general (two refutations)."
  },
  {
   "property": "C55",
   "status": "proved",
   "theorems": [
    "C55_names_are_lexical",
    "C55_declarations_make_variables",
    "C55_code_names_own_variables",
    "C55_function_names_own_variables"
   ],
   "note": "for the mode the compiler uses; that declarations make variables of their own assumes fewer than 2^32 definitions"
  },
  {
   "property": "C56",
   "status": "partial",
   "theorems": [
    "C56_printed_bundles_read_back_partial",
    "C56_field_words_refuted",
    "C56_default_values_refuted",
    "C56_property_texts_refuted",
    "C56_static_arrays_refuted",
    "C56_derived_structs_refuted",
    "C56_parameter_names_refuted",
    "C56_enum_values_refuted",
    "C56_failed_methods_refuted"
   ],
   "note": "Proved for all bundles whose root definitions are readable (DumpSpec.v): names and types the grammar can write, plain property texts, no default values or inline/replicated/editable fields, structs without a base, 32-bit enum values, bodies that C54 covers. Eight refutations show what is left out and that it does not hold there."
  },
  {
   "property": "C57",
   "status": "proved",
   "theorems": [
    "C57_caller_is_told",
    "C57_where",
    "C57_nowhere"
   ],
   "note": "kind, name, class, native flag and position of every reference, in order, for compilations in which no method is wrapped; path and line of a position by C57_where"
  },
  {
   "property": "C58",
   "status": "partial",
   "theorems": [
    "C58_entries",
    "C58_no_panic",
    "C58_nothing_is_lost_partial",
    "C58_loaded_has_sources",
    "C58_files_read_back",
    "C58_inside",
    "C58_same_path_refuted",
    "C58_orphans_refuted",
    "C58_once_refuted",
    "C58_outside_refuted",
    "C58_upwards_refuted"
   ],
   "note": "Which definitions go into which file, in which order, that nothing is lost, that files read back and that they stay in the directory are proved under conditions on the paths; without them the statement is refuted (same path, orphans.script, a class in two files, absolute and upward paths)."
  },
  {
   "property": "C59",
   "status": "proved",
   "theorems": [
    "C59_place_of_a_part",
    "C59_all_reported",
    "C59_never_lost",
    "C59_shown_on_line",
    "C59_shown_over_lines",
    "C59_above_the_carets"
   ],
   "note": "Places of the parts of modules are assumed to be places in the loaded files between characters: the positions given by the parser are not modelled. An error that stops the compilation may also have the start of the first file as its place."
  },
  {
   "property": "C60",
   "status": "partial",
   "theorems": [
    "C60_arguments_recovered_partial",
    "C60_one_directory",
    "C60_total",
    "C60_kept",
    "C60_two_directories_refuted",
    "C60_two_spaces_refuted"
   ],
   "note": "Proved for all command lines in which between two directories that end with a backslash some path has a space, and paths after such a directory have single spaces; without that the statement is refuted. How Windows splits a command line is part of the model. The parser of the options (bpaf) is not modelled."
  },
  {
   "property": "C61",
   "status": "proved",
   "theorems": [
    "C61_temporaries_exact",
    "C61_only_temporaries",
    "C61_fallthrough_exact",
    "C61_only_fallthrough",
    "C61_code_takes_parts_of_what_stays",
    "C61_accepted_code"
   ],
   "note": "Stated for the code before labels become offsets, which changes no instruction (C14); the unit-level theorem is for functions that take effect in the sense of C51, which excludes wrapped methods."
  },
  {
   "property": "C62",
   "status": "partial",
   "theorems": [
    "C62_message",
    "C62_errors_blamed",
    "C62_stop_blamed",
    "C62_unparsed_partial",
    "C62_syntax_hints_refuted"
   ],
   "note": "Without hints for SYNTAX_ERR and CTE_ERR, which are never shown (refuted): C62_unparsed_partial says what is shown instead. Paths are cut into components by the environment and taken to be UTF-8. Places of parsed parts are assumed to be places in the loaded files, as in C59."
  },
  {
   "property": "C63",
   "status": "partial",
   "theorems": [
    "C63_reads_the_same",
    "C63_parser_ends",
    "C63_places_partial",
    "C63_places_known",
    "C63_files_reported",
    "C63_files_blamed",
    "C63_every_file",
    "C63_operators_refuted"
   ],
   "note": "The last sentence on expressions read on their own is refuted (prefix operators, parentheses at the ends). Places of syntax errors are not modelled."
  },
  {
   "property": "C64",
   "status": "proved",
   "theorems": [
    "C64_interpolation",
    "C64_no_void",
    "C64_read_as_written"
   ],
   "note": "The parts are those after desugaring; what is inside of them is the subject of C28 to C30. The behaviour of strings in the game is assumed (InterpolationSpec.texts). How such a string is read from the text, with escapes, blanks and comments, is C64_read_as_written, for any rule that reads the expressions."
  },
  {
   "property": "C65",
   "status": "partial",
   "theorems": [
    "C65_loads_exactly",
    "C65_fails_exactly",
    "C65_succeeds_partial",
    "C65_once_partial",
    "C65_in_order",
    "C65_directories_refuted",
    "C65_overlapping_refuted"
   ],
   "note": "Exactness of what is loaded and when loading fails is proved for all trees; no duplicates under paths that are not inside of each other; the full statement is refuted for directories called like scripts and for overlapping paths."
  },
  {
   "property": "C66",
   "status": "proved",
   "theorems": [
    "C66_integer_literals_are_read_as_their_value",
    "C66_number_literals_keep_their_value",
    "C66_second_branch_takes_the_type_of_the_first",
    "C66_literals_take_the_type_that_is_given",
    "C66_small_integers_are_floats",
    "C66_large_integers_keep_their_value_refuted"
   ],
   "note": "Integer literals are read exactly; the conversions of constants to the needed type keep the value (Int32 to Float rounds to nearest, exact up to 2^24); the compiled code loads the constant; an initial value, an assigned value, a returned value and the second branch of a conditional take the type of their place. Floating-point texts are read by an abstract function. The real-number axioms of the standard library are used."
  },
  {
   "property": "C67",
   "status": "proved",
   "theorems": [
    "C67_output_is_what_was_compiled",
    "C67_written_if_compiled",
    "C67_untouched_otherwise",
    "C67_lint_logs_the_same",
    "C67_functions_have_sources",
    "C67_failure_is_visible_refuted",
    "C67_lint_reports_refuted",
    "C67_strings_are_kept_refuted"
   ],
   "note": "The whole commands, from bytes to bytes, composed of the models of loading, reading, parsing, compiling, reporting and saving. That the strings have no character 0 and the definitions fit the format (pool_fits) is a hypothesis; it does not hold for strings with the character 0, see C67_strings_are_kept_refuted. That functions have sources is proved."
  },
  {
   "property": "C68",
   "status": "proved",
   "theorems": [
    "C68_passes_change_nothing",
    "C68_only_the_mark_is_added",
    "C68_output_is_what_was_compiled",
    "C68_written_if_compiled",
    "C68_success_means_written",
    "C68_agree",
    "C68_game_builds_what_the_tool_builds",
    "C68_difference_is_reported",
    "C68_marked_is_refused",
    "C68_output_is_refused",
    "C68_same_scripts_refuted",
    "C68_tool_output_is_refused_refuted"
   ],
   "note": "Both commands from bytes to bytes. That the strings have no character 0 and the definitions fit the format (pool_fits) is a hypothesis where files are written, as for C67."
  },
  {
   "property": "C69",
   "status": "partial",
   "theorems": [
    "C69_load_ends",
    "C69_abort_has_a_cause_partial",
    "C69_answer_without_cause_partial",
    "C69_cause_is_never_loaded",
    "C69_never_aborts_refuted"
   ],
   "note": "The full statement is refuted (C69_never_aborts_refuted): one unknown kind or visibility byte makes loading panic. Proved: loading always ends; it can abort only because of such a byte, located by positions in the file; a file with one is never loaded. Running out of memory for a stated size is not modelled."
  },
  {
   "property": "C70",
   "status": "proved",
   "theorems": [
    "C70_texts_are_read_as_spelled",
    "C70_one_meaning",
    "C70_every_text_can_be_spelled",
    "C70_constants_are_read_as_spelled",
    "C70_nothing_else_is_a_text",
    "C70_compiled_as_written"
   ],
   "note": "For the parser's rules, the type checker's and assembler's treatment of constants and the tables of the bundle. A number escape that is no character spells nothing; that the parser aborts on it is C44."
  },
  {
   "property": "C71",
   "status": "proved",
   "theorems": [
    "C71_gaps_make_no_difference",
    "C71_only_gaps_are_skipped",
    "C71_comments_end_once",
    "C71_names_are_read_as_written",
    "C71_keywords_are_whole_words",
    "C71_gaps_end_names",
    "C71_files_may_start_with_comments"
   ],
   "note": "For the lexical rules of the grammar: the rule for blanks with any rule that follows it, names and keywords."
  },
  {
   "property": "C72",
   "status": "proved",
   "theorems": [
    "C72_types_are_read_as_written",
    "C72_nothing_else_is_a_type",
    "C72_one_meaning"
   ],
   "note": "For the grammar's rule for types, wherever it is used."
  },
  {
   "property": "C73",
   "status": "proved",
   "theorems": [
    "C73_parameters_are_read_as_written",
    "C73_nothing_else_is_a_parameter"
   ],
   "note": "For the grammar's rules for parameters and qualifiers."
  },
  {
   "property": "C74",
   "status": "proved",
   "theorems": [
    "C74_imports_are_read_as_written",
    "C74_module_names_are_read_as_written",
    "C74_one_meaning"
   ],
   "note": "imports without annotations and with at least one name in the path; positions are not modelled"
  },
  {
   "property": "C75",
   "status": "proved",
   "theorems": [
    "C75_enums_are_read_as_written",
    "C75_one_meaning"
   ],
   "note": "enums without annotations and with at least one member; positions are not modelled"
  },
  {
   "property": "C76",
   "status": "proved",
   "theorems": [
    "C76_fields_are_read_as_written",
    "C76_signatures_are_read_as_written",
    "C76_one_meaning"
   ],
   "note": "declarations without annotations; positions are not modelled"
  }
 ]
}