{
 "claims": [
  {
   "property": "C01",
   "status": "proved",
   "theorems": [
    "struct_value_roundtrip",
    "built_data_reads_back"
   ],
   "note": ""
  },
  {
   "property": "C02",
   "status": "proved",
   "theorems": [
    "union_value_roundtrip",
    "enum_value_roundtrip",
    "built_data_reads_back"
   ],
   "note": ""
  },
  {
   "property": "C03",
   "status": "proved",
   "theorems": [
    "packed_words_canonical"
   ],
   "note": ""
  },
  {
   "property": "C04",
   "status": "partial",
   "theorems": [
    "packing_shifts_defined_refuted",
    "packing_shifts_defined_partial",
    "union_shifts_defined"
   ],
   "note": "The property is false of the code: an enum value with tag 60 uses all 64 bits and putting it in a struct shifts by 64 (undefined behaviour, harmless on the usual hardware as the result is discarded; C01 is proved for any result of that shift). Proved to be the only source."
  },
  {
   "property": "C05",
   "status": "proved",
   "theorems": [
    "list_value_elements",
    "literal_value_letters"
   ],
   "note": ""
  },
  {
   "property": "C06",
   "status": "proved",
   "theorems": [
    "int_value_roundtrip",
    "int_value_min_refuted"
   ],
   "note": ""
  },
  {
   "property": "C07",
   "status": "proved",
   "theorems": [
    "string_value_roundtrip",
    "supported_string_roundtrip"
   ],
   "note": ""
  },
  {
   "property": "C08",
   "status": "partial",
   "theorems": [
    "stack_blocks_in_bounds_partial",
    "stack_blocks_disjoint_partial",
    "new_value_returns_its_block",
    "pop_defined_partial",
    "stack_blocks_in_bounds_refuted"
   ],
   "note": "Proved for every history whose objects take at most (2^20-8)/2 bytes each; refuted beyond: StackAlloc adds the size twice when it starts a new chunk, so an object of 600000 bytes ends past the chunk."
  },
  {
   "property": "C09",
   "status": "partial",
   "theorems": [
    "heap_init_complete_refuted",
    "stack_memory_released_once_repaired"
   ],
   "note": "The property is false: FbleNewValueHeap never sets the base frame's chunks field and FbleFreeValueHeap always reads it. With the field initialised, every block is freed exactly once."
  },
  {
   "property": "C10",
   "status": "partial",
   "theorems": [
    "values_in_use_intact_repaired",
    "calls_defined_repaired",
    "values_in_use_intact_partial",
    "calls_defined_partial",
    "values_in_use_intact_refuted"
   ],
   "note": "The property is false of the code as it is (values_in_use_intact_refuted: FblePopFrame updates max_gen only when the returned value belongs to the frame, and a later collection frees an object that is in use). Proved for every history of the code with that update moved out of the test (_repaired) and for every history of the code as it is in which each popped frame passes the ownership test or is not the one being collected (_partial)."
  },
  {
   "property": "C11",
   "status": "partial",
   "theorems": [
    "pop_preserves_meaning_partial",
    "compact_preserves_meaning_partial",
    "calls_preserve_values_partial",
    "assign_stores_value_partial"
   ],
   "note": "Proved for the same histories as C10 (safe_repaired, safe_owned)."
  },
  {
   "property": "C12",
   "status": "proved",
   "theorems": [
    "each_allocation_released_once",
    "nothing_released_early_or_leaked"
   ],
   "note": "For every history, even those outside the client contract."
  },
  {
   "property": "C13",
   "status": "partial",
   "theorems": [
    "full_gc_terminates_partial",
    "full_gc_terminates_repaired"
   ],
   "note": "Like C10: all histories of the repaired code, and the histories of the code as it is whose pops pass the ownership test."
  },
  {
   "property": "C14",
   "status": "partial",
   "theorems": [
    "full_gc_complete_refuted"
   ],
   "note": "The property is false: FbleValueFullGc leaves the garbage of the last cycle on the collector's free list."
  },
  {
   "property": "C15",
   "status": "proved",
   "theorems": [
    "dereference_terminates",
    "assign_ref_refuses_exactly_cycles",
    "accessors_see_through_refs"
   ],
   "note": ""
  },
  {
   "property": "C16",
   "status": "proved",
   "theorems": [
    "get_takes_first",
    "get_empty",
    "is_empty_spec",
    "clear_fresh",
    "move_to_other_list",
    "move_to_same_list",
    "move_to_from_none",
    "move_all_moves_all",
    "move_to_refines",
    "move_to_refines_free",
    "get_refines",
    "move_all_refines",
    "clear_value_refines",
    "clear_head_refines"
   ],
   "note": ""
  },
  {
   "property": "C17",
   "status": "proved",
   "theorems": [
    "interpreted_call_split",
    "call_split",
    "call_eqv",
    "returns_wf",
    "interpret_good"
   ],
   "note": "Generic in what functions run (good_run), instantiated with the interpreter; results equal up to the grouping of arguments in partial applications, which no call can tell apart (call_eqv)."
  },
  {
   "property": "C18",
   "status": "proved",
   "theorems": [
    "interpreted_call_frames",
    "interpreted_abort",
    "call_frames",
    "call_abort_strict",
    "interpret_abort_strict"
   ],
   "note": "Frames as a counter (their contents: GcFrames); aborts: a run that returns is unchanged if every aborted nested call were to diverge."
  },
  {
   "property": "C19",
   "status": "proved",
   "theorems": [
    "compiler_faithful",
    "program_compiles",
    "program_meaning_unique",
    "complete_calls",
    "sound_calls"
   ],
   "note": "A big-step semantics of type checked code (TcSpec.v) that has no instructions, registers, merged functions or tail calls; compiled code run by the interpreter gives results indistinguishable from it, including by any later calls of returned functions, in both directions. Ill-typed code (Crash) is left open. Names and locations are not modelled."
  },
  {
   "property": "C20",
   "status": "proved",
   "theorems": [
    "slots_in_use_kept",
    "variables_kept",
    "function_start",
    "compile_slots"
   ],
   "note": "No instruction emitted while a local slot is referenced writes that slot, for every expression and compiler state."
  },
  {
   "property": "C21",
   "status": "partial",
   "theorems": [
    "select_target_correct",
    "select_empty_crashes"
   ],
   "note": "Proved for every sorted non-empty table; the empty table, which the type checker makes for one-field unions, fails an assertion in the interpreter (finding)."
  },
  {
   "property": "C22",
   "status": "proved",
   "theorems": [
    "blocks_balance",
    "calls_balance",
    "module_calls_balance"
   ],
   "note": "For every program that compiles: the block stack at each instruction is the same on every path, ids are within the module's blocks and exactly the function's own block is left at a return or tail call; any call that returns makes balanced profile events. A call that aborts leaves the stack unbalanced (finding)."
  },
  {
   "property": "C23",
   "status": "partial",
   "theorems": [
    "profile_is_exact_partial",
    "root_is_exact",
    "root_charged_twice",
    "random_samples_account",
    "random_sample_divides",
    "disabled_does_nothing"
   ],
   "note": "For every allowed history of enter/replace/exit/sample/add-block on any well-formed profile: no undefined behaviour, and self, block and call times and counts (mod 2^64) are the sums the history gives. Missing: the root block's time while a call to the root block is in progress, where the code charges it twice (root_charged_twice; reachable through LinkInterpreted, which passes block 0)."
  },
  {
   "property": "C24",
   "status": "proved",
   "theorems": [
    "balanced_restores"
   ],
   "note": "Call stack chunks are modelled with uninitialised entries; includes that no chunk is lost and all are freed."
  },
  {
   "property": "C25",
   "status": "proved",
   "theorems": [
    "lookup_is_map",
    "get_call_data_ok",
    "new_profile_wf"
   ],
   "note": ""
  },
  {
   "property": "C26",
   "status": "proved",
   "theorems": [
    "report_ok",
    "sort_ok",
    "sort_scratch"
   ],
   "note": "The report's numbers and blocks, in order; not the text layout and percentages."
  },
  {
   "property": "C27",
   "status": "proved",
   "theorems": [
    "held_types_survive",
    "new_type_fresh"
   ],
   "note": "TypeHeapModel.v models lib/type-heap.c with explicit generations, lists and a free list; any access to a freed type or generation, failed assertion or endless loop is excluded, and everything reachable from a retained type is alive with its count and references, at every point of every legal history."
  },
  {
   "property": "C28",
   "status": "proved",
   "theorems": [
    "full_collection_exact",
    "freed_stays_freed",
    "free_heap_exact",
    "free_heap_frees_all"
   ],
   "note": "After a full collection the types alive are exactly the held ones; freeing the heap frees every generation and all but held types."
  },
  {
   "property": "C29",
   "status": "proved",
   "theorems": [
    "kinds_equal_exact",
    "kinds_equal_equivalence",
    "level_adjusted_exact",
    "level_adjusted_compose",
    "level_adjusted_inverse",
    "kind_of_typeof",
    "kind_of_poly"
   ],
   "note": "KindModel.v; levels are assumed small enough for int arithmetic."
  },
  {
   "property": "C30",
   "status": "proved",
   "theorems": [
    "loaded_program_in_order"
   ],
   "note": "LoadModel.v models Load's stack walk; LoadProps.v."
  },
  {
   "property": "C31",
   "status": "proved",
   "theorems": [
    "load_terminates",
    "load_fails_exactly_for_bad",
    "load_defined"
   ],
   "note": "Any finite dependency graph, cyclic or not, with missing or unparsable modules."
  },
  {
   "property": "C32",
   "status": "proved",
   "theorems": [
    "linked_program_runs",
    "linked_program_call",
    "generated_modules_in_order",
    "generated_program_runs",
    "loaded_programs_link"
   ],
   "note": "Interpreted and generated programs; [evaluates] is the specification. Loaded programs (C30) meet the hypotheses."
  },
  {
   "property": "C33",
   "status": "proved",
   "theorems": [
    "module_paths_equal_exact",
    "belongs_to_package_exact"
   ],
   "note": "PathModel.v; strings are byte lists without NUL."
  },
  {
   "property": "C34",
   "status": "proved",
   "theorems": [
    "printed_name_reads_back",
    "printed_word_reads_back",
    "empty_name_reads_back_refuted"
   ],
   "note": "Proved for every non-empty name, for any result of isspace on the negative chars that FbleIsPlainWord passes to it; the empty name, which the property leaves out, prints as nothing."
  },
  {
   "property": "C35",
   "status": "proved",
   "theorems": [
    "vector_append_in_bounds",
    "vector_contents"
   ],
   "note": "BaseModel.v models lib/vector.c and the init/append macros of fble-vector.h; history of any appends and last-element drops, sizes below the address-space bound."
  },
  {
   "property": "C36",
   "status": "proved",
   "theorems": [
    "max_bytes_is_watermark",
    "leak_check_exact"
   ],
   "note": "BaseModel.v models lib/alloc.c with size_t wraparound; leaks of size zero are not seen by the exit check, which leak_check_exact states."
  },
  {
   "property": "C37",
   "status": "proved",
   "theorems": [
    "string_alive_iff_referenced",
    "string_ops_defined"
   ],
   "note": "BaseModel.v models lib/string.c."
  },
  {
   "property": "C38",
   "status": "proved",
   "theorems": [
    "unused_warnings_exact",
    "unused_argument"
   ],
   "note": "UnusedModel.v models every case of lib/unused.c; UnusedSpec.v defines use by scoping rules only. Any expression whose lets bind something (the grammar's rule)."
  },
  {
   "property": "C39",
   "status": "proved",
   "theorems": [
    "command_line_exact",
    "command_line_total",
    "options_do_not_share",
    "compiled_program_args",
    "compile_table",
    "deps_table",
    "disassemble_table",
    "stdio_table",
    "app_table",
    "perf_profile_args_terminate_refuted",
    "flag_twice_refuted"
   ],
   "note": "Every command line of fble-compile, fble-deps, fble-disassemble, fble-stdio and fble-app is a list of options followed by an end (command_line_total), and is read exactly so (command_line_exact). Findings: fble-perf-profile loops forever on an unknown argument; repeated flags are accepted although documented otherwise."
  },
  {
   "property": "C40",
   "status": "partial",
   "theorems": [
    "types_equal_exact_partial",
    "types_equal_refl_partial",
    "types_equal_sym_partial",
    "types_equal_trans_partial",
    "self_abstract_not_transitive",
    "rebound_found_equal",
    "eta_captures_parameter",
    "eta_result_not_normal"
   ],
   "note": "TypeModel.v models Normal, HasParam, Subst, TypesEqual and FbleTypeInfer. Proved for graphs (with any cycles) in which only type parameters are applied to arguments: the comparison terminates and answers true exactly when a coinductive specification cannot tell the types apart, so it is reflexive and symmetric; transitive without poly types and self-containing abstract types. Missing: poly types applied to arguments (there the comparison need not terminate) and inference variables. TypeExamples.v refutes transitivity outside these hypotheses and shows three defects of the code."
  },
  {
   "property": "C41",
   "status": "proved",
   "theorems": [
    "token_locations_exact",
    "lex_total"
   ],
   "note": ""
  },
  {
   "property": "C42",
   "status": "partial",
   "theorems": [
    "printed_module_path_reads_back",
    "printed_module_path_refuted",
    "module_path_error_is_null_refuted",
    "module_path_name_fits"
   ],
   "note": "Proved for paths of plain words; false for names with special characters (FblePrintModulePath does not quote), and FbleParseModulePath returns a path for /A%B although it reports an error, as it ignores the result of yyparse."
  },
  {
   "property": "C43",
   "status": "proved",
   "theorems": [
    "filename_fits",
    "lookup_files_distinct",
    "find_first",
    "find_package_first"
   ],
   "note": ""
  },
  {
   "property": "C44",
   "status": "proved",
   "theorems": [
    "printed_kinds_unambiguous",
    "printed_kind_injective"
   ],
   "note": ""
  },
  {
   "property": "C45",
   "status": "proved",
   "theorems": [
    "kinds_alive_iff_reachable",
    "kind_calls_defined",
    "kinds_all_freed"
   ],
   "note": "KindHeap.v models lib/kind.c with reference counts in memory."
  },
  {
   "property": "C46",
   "status": "proved",
   "theorems": [
    "accepted_in_scope",
    "accepted_compiles",
    "single_field_select"
   ],
   "note": "CheckModel.v models all of lib/typecheck.c except the text of messages and the memory management; CheckSpec.v defines readability by position only. single_field_select: a select over a one-field union has no branch, and the interpreter fails on it."
  },
  {
   "property": "C47",
   "status": "partial",
   "theorems": [
    "accepted_programs_safe_partial",
    "cast_program_runs",
    "unfounded_cast_unsound",
    "single_field_select"
   ],
   "note": "Proved for programs without poly expressions (packages, abstract types and casts, recursive types, values and functions, all modules, compilation and linking included). CheckSafeSpec.v says what a value of a type is by what can be done with it. Missing: polymorphism. Two hypotheses are needed because the code is wrong without them: no type is nothing but itself made abstract (unfounded_cast_unsound: the checker accepts a program that then applies a struct), and each select has a branch (single_field_select)."
  },
  {
   "property": "C48",
   "status": "proved",
   "theorems": [
    "generated_program_same",
    "generated_calls",
    "accepted_programs_safe_generated_partial",
    "cast_program_through_c"
   ],
   "note": "GenModel.v models lib/c.c and the meaning of the statements it prints; for all programs of compiled modules, unless the interpreted program crashes, which accepted monomorphic programs do not (accepted_programs_safe_generated_partial, partial in the same way as C47). The C compiler itself is not modelled."
  },
  {
   "property": "C49",
   "status": "proved",
   "theorems": [
    "generation_succeeds",
    "generated_c_is_valid",
    "generated_globals_distinct",
    "symbols_distinct",
    "symbol_identifier",
    "sanitize_size",
    "sanitize_inj",
    "label_size_exact",
    "label_identifier",
    "labels_distinct",
    "labels_clash",
    "label_overflow",
    "string_literal_reads_back",
    "string_literal_trigraph_refuted",
    "abort_reported",
    "abort_reported_refuted"
   ],
   "note": "The exceptions in the property (non-ASCII names, slashes, file names) are shown to be needed by the counterexamples."
  },
  {
   "property": "C50",
   "status": "proved",
   "theorems": [
    "accepted_names_resolve",
    "shadow_accepted",
    "shadow_only_inner"
   ],
   "note": "For all programs, polymorphic ones included. ResolveSpec.v relates expressions and code by names alone. Which field a name of a field, choice or letter stands for is not part of it (C47 has it for monomorphic programs as far as safety needs it)."
  },
  {
   "property": "C51",
   "status": "proved",
   "theorems": [
    "asm_program_same",
    "asm_calls",
    "asm_generation_succeeds",
    "search_like_interpreter",
    "search_correct",
    "accepted_programs_safe_assembled_partial",
    "cast_program_through_assembly",
    "ex_asm_hypotheses",
    "ex_asm_runs"
   ],
   "note": "AsmModel.v models lib/aarch64.c and a machine for the A64 instructions it prints: for all programs of compiled modules and all 16-byte aligned stacks, unless the interpreted program crashes, which accepted monomorphic programs do not (partial in the same way as C47). The machine faults on unaligned SP, accesses outside the frame, undefined registers, and a return that does not restore SP and the callee-saved registers. Run with a profile; the assembler is not modelled."
  },
  {
   "property": "C52",
   "status": "proved",
   "theorems": [
    "generated_asm_is_valid",
    "label_text_inj",
    "asm_symbols_distinct",
    "conditional_branches_reach",
    "small_functions_encodable",
    "stack_space_encodable",
    "many_locals_not_encodable",
    "wide_list_not_assembled",
    "cast_encodable"
   ],
   "note": "The size conditions are needed: many_locals_not_encodable, wide_list_not_assembled. Immediates of mov are shown to have the MOVZ encoding."
  },
  {
   "property": "C53",
   "status": "proved",
   "theorems": [
    "eval_memory_safe",
    "eval_document_safe",
    "alloc_ok"
   ],
   "note": "For every heap with exact counts and every number of steps. Two failures remain possible, both in the code: a NULL dereference of TailOf or MapPlain after an error has been reported (ex_null in FbldProps.v), and the assertion of fbld/markup.c:159 (ex_assert). Freedom from leaks is stated by the counts; that the counts free everything (no cycles) is not proved."
  },
  {
   "property": "C54",
   "status": "proved",
   "theorems": [
    "head_first",
    "tail_rest",
    "eq_strings",
    "plain_applies",
    "text_of_document"
   ],
   "note": "A text that starts with two empty texts fails an assertion (text_of_document says exactly when)."
  },
  {
   "property": "C55",
   "status": "proved",
   "theorems": [
    "eval_value",
    "eval_error",
    "eval_assert",
    "eval_endless",
    "eval_complete",
    "eval_document",
    "eval_deeper",
    "plain_document",
    "unknown_command",
    "call_static",
    "params_words",
    "text_eqb_iff"
   ],
   "note": "FbldSpec.v has the meaning of a document as a recursive function; it is related to the command stack for all documents, both ways. After an error the remaining commands are still evaluated, so that FbldEval may also not end or crash (C53) then; it never returns a document."
  },
  {
   "property": "C56",
   "status": "proved",
   "theorems": [
    "parse_finishes",
    "files_concatenate",
    "parse_one_text"
   ],
   "note": "The three conditions on the files are needed: no_newline, no_newline_between and first_line in FbldParseProps.v. Opening of files is assumed to succeed."
  },
  {
   "property": "C57",
   "status": "proved",
   "theorems": [
    "written_is_read",
    "writing_unambiguous"
   ],
   "note": "The grammar covers inline markup, literal and bracketed arguments, arguments on the line of a command, lines of text after a lone @, indented arguments, more rounds of arguments after @, the last argument after @@, and paragraphs with text and commands. Not in the grammar: commands without a name outside of brackets and paragraphs, and a first line that starts with a space."
  },
  {
   "property": "C58",
   "status": "proved",
   "theorems": [
    "block_argument_alone"
   ],
   "note": ""
  },
  {
   "property": "C59",
   "status": "proved",
   "theorems": [
    "main_safe",
    "main_document",
    "main_written",
    "main_bad_syntax",
    "main_error",
    "main_endless",
    "main_complete"
   ],
   "note": "Of the output only the standard output; opening files is assumed to succeed; that the counts free everything (no cycles) is not proved (C53); a NULL pointer or an assertion can end the program where C53 and C55 say so."
  },
  {
   "property": "C60",
   "status": "proved",
   "theorems": [
    "free_exact",
    "copy_exact",
    "no_leak",
    "all_freed",
    "rewrite_exact",
    "func_value_exact",
    "compile_exact",
    "modules_freed"
   ],
   "note": "Locations and names of nodes are left out; function values have one argument, as in C19. That the type checker itself releases each reference it takes is not modelled."
  }
 ]
}