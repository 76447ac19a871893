{
 "claims": [
  {
   "property": "C01",
   "status": "partial",
   "theorems": [
    "boxed_pointer_roundtrip",
    "oversized_pointer_traps",
    "boxed_pointer_injective",
    "number_is_not_an_object",
    "immediates_distinct",
    "vector_predicate_safe_partial",
    "vector_predicate_right",
    "vector_predicate_safe_refuted"
   ],
   "note": "Boxing is unambiguous; the one predicate that inspects the heap before checking the NaN box (vector?) is refuted on the number 31."
  },
  {
   "property": "C02",
   "status": "partial",
   "theorems": [
    "integer_roundtrip",
    "integer_representation_injective",
    "integer_roundtrip_beyond_2_53_refuted",
    "int64_max_unreadable_refuted"
   ],
   "note": "Exact for |v| <= 2^53; beyond that refuted."
  },
  {
   "property": "C03",
   "status": "partial",
   "theorems": [
    "add_exact",
    "sub_exact",
    "mul_exact",
    "primMul_exact",
    "compare_exact",
    "fixnum_traps",
    "no_number_no_arithmetic",
    "primAdd_exact_refuted"
   ],
   "note": "Exact while the result stays within 2^53; refuted without the bound."
  },
  {
   "property": "C04",
   "status": "partial",
   "theorems": [
    "primAdd_is_word_sum",
    "primSub_is_word_difference",
    "not_right",
    "division_refuted",
    "division_on_positive_integers",
    "division_quotient_partial",
    "division_by_zero_is_ub"
   ],
   "note": "Division works on raw bits: refuted in general; what it does compute is characterised."
  },
  {
   "property": "C05",
   "status": "proved",
   "theorems": [
    "eq_is_structural",
    "eq_is_equivalence",
    "build_denotes"
   ],
   "note": ""
  },
  {
   "property": "C06",
   "status": "partial",
   "theorems": [
    "buffer_histories",
    "buffer_negative_shrink_refuted"
   ],
   "note": "Histories of buffer operations with legal arguments; a negative shrink is refuted."
  },
  {
   "property": "C07",
   "status": "proved",
   "theorems": [
    "search_finds_first",
    "contain_iff",
    "strChr_first",
    "strRchr_last"
   ],
   "note": ""
  },
  {
   "property": "C08",
   "status": "proved",
   "theorems": [
    "compare_zero_iff_equal",
    "compare_sign",
    "compare_total_order"
   ],
   "note": ""
  },
  {
   "property": "C09",
   "status": "partial",
   "theorems": [
    "slice_spec",
    "sub_spec",
    "string_list_right",
    "has_prefix_iff",
    "string_index_in_range_partial",
    "string_index_in_range_refuted",
    "byte_ref_checked"
   ],
   "note": "string-index with an out of range start is refuted."
  },
  {
   "property": "C10",
   "status": "proved",
   "theorems": [
    "replace_first_occurrence",
    "replace_absent"
   ],
   "note": ""
  },
  {
   "property": "C11",
   "status": "partial",
   "theorems": [
    "split_join",
    "split_pieces_separator_free_partial",
    "split_pieces_separator_free_refuted"
   ],
   "note": "join inverts split; the last piece can still contain the separator (refuted)."
  },
  {
   "property": "C12",
   "status": "partial",
   "theorems": [
    "string_append_partial",
    "string_append_refuted"
   ],
   "note": "Concatenation when the result is non-empty; (\"\" \"\") aborts (refuted)."
  },
  {
   "property": "C13",
   "status": "proved",
   "theorems": [
    "trie_is_map",
    "trie_string_map"
   ],
   "note": ""
  },
  {
   "property": "C14",
   "status": "partial",
   "theorems": [
    "intern_same_iff",
    "intern_in_steps",
    "intern_race",
    "intern_full_name_refuted",
    "symbol_name_any_length_refuted",
    "intern_race_refuted"
   ],
   "note": "Same object iff same C-string name, when no two procs intern at once; names with NUL bytes collapse, names of 255 bytes and more cannot be read back, and procs that intern at once can get two symbols for one name (refuted)."
  },
  {
   "property": "C15",
   "status": "proved",
   "theorems": [
    "globals_are_a_store",
    "cached_binding_stays_valid"
   ],
   "note": ""
  },
  {
   "property": "C16",
   "status": "partial",
   "theorems": [
    "vectors_are_arrays",
    "vector_told",
    "vector_index_checked_refuted",
    "vector_size_checked_refuted"
   ],
   "note": "Arrays with checked bounds for int indices and sizes; indices beyond 32 bits wrap and negative sizes corrupt memory (refuted)."
  },
  {
   "property": "C17",
   "status": "partial",
   "theorems": [
    "append_preserves",
    "edits_preserve",
    "append_to_empty_refuted"
   ],
   "note": "For vectors of positive capacity up to 2^27 elements; appending to a vector of capacity 0 aborts (refuted)."
  },
  {
   "property": "C18",
   "status": "partial",
   "theorems": [
    "print_read_roundtrip_partial",
    "dotted_pair_refuted",
    "quoted_string_refuted",
    "large_number_refuted",
    "byte_255_refuted",
    "long_string_refuted",
    "long_symbol_aborts"
   ],
   "note": "Round trip for every proper list structure over int numbers, writable symbols and plain strings; the other data are refuted one by one."
  },
  {
   "property": "C19",
   "status": "partial",
   "theorems": [
    "reader_follows_grammar",
    "reader_spelling",
    "layout_irrelevant",
    "layout_in_empty_list_refuted"
   ],
   "note": "The reader implements a layout-insensitive grammar; the single exception, \"( )\", is refuted."
  },
  {
   "property": "C20",
   "status": "partial",
   "theorems": [
    "reader_memory_safe_partial",
    "reader_terminates_partial",
    "reader_terminates_refuted",
    "reader_memory_safe_refuted"
   ],
   "note": "Safe when tokens fit their buffers, terminating when no parenthesis is left open; both provisos are necessary (refuted without)."
  },
  {
   "property": "C21",
   "status": "proved",
   "theorems": [
    "partial_application_returns_closure",
    "grouping_is_irrelevant",
    "over_application_partial"
   ],
   "note": "Any grouping reaches the machine state of the full call, cell for cell, from any state. Over-application additionally follows the specification where the stack layout allows (see C22)."
  },
  {
   "property": "C22",
   "status": "partial",
   "theorems": [
    "stay_on_stack_partial",
    "stay_on_stack_refuted",
    "machine_implements_spec_partial",
    "spec_stuck_only_for_a_reason"
   ],
   "note": "Full for calls, tail calls, returns and partial applications of any depth and frame sizes; a call with too many arguments near a segment end aborts (refuted)."
  },
  {
   "property": "C23",
   "status": "partial",
   "theorems": [
    "tail_calls_constant_space_partial",
    "tail_apply_constant_space_refuted",
    "tail_apply_return_refuted"
   ],
   "note": "Constant space for tail calls with the exact number of arguments (and through partial applications); tail calls of apply grow the stack and finally abort (refuted)."
  },
  {
   "property": "C24",
   "status": "partial",
   "theorems": [
    "throw_reaches_innermost_handler_partial",
    "try_at_segment_end_refuted",
    "throw_at_segment_end_refuted",
    "throw_across_over_application_refuted",
    "throw_without_try_refuted"
   ],
   "note": "Any nesting and depth, when try was entered with its caller frame in the current segment and no over-application lies between; the remaining layouts are refuted one by one."
  },
  {
   "property": "C25",
   "status": "partial",
   "theorems": [
    "resume_continues_partial",
    "resume_at_segment_end_refuted",
    "resume_twice_refuted"
   ],
   "note": "Any captured context; the resume must happen with its caller frame in the current segment, and once (both refuted otherwise)."
  },
  {
   "property": "C26",
   "status": "proved",
   "theorems": [
    "version_order",
    "version_antisym"
   ],
   "note": ""
  },
  {
   "property": "C27",
   "status": "proved",
   "theorems": [
    "survivor_version"
   ],
   "note": ""
  },
  {
   "property": "C28",
   "status": "proved",
   "theorems": [
    "gc_safety",
    "gc_contents"
   ],
   "note": "Every interleaving of mutator and collector steps in the model; slots abstract from addresses, stack words may be stale (junk)."
  },
  {
   "property": "C29",
   "status": "partial",
   "theorems": [
    "full_collection_reclaims",
    "full_collection_recurs",
    "marking_terminates",
    "large_garbage_stays_free_refuted"
   ],
   "note": "Small objects of any age and large objects of current version are reclaimed by the next full collection; large objects that died earlier come back to life when versions wrap (refuted)."
  },
  {
   "property": "C30",
   "status": "partial",
   "theorems": [
    "allocator_never_fails",
    "alloc_fresh",
    "step_keeps_live",
    "sweep_complete",
    "mark_agrees",
    "sweep_reads_past",
    "sweep_past_array_refuted"
   ],
   "note": "Refuted: the step that ends a sweep reads gc->sizeClass[19], one past the array; what it reads is never used, and the model behind the other theorems takes it as NULL. Otherwise every history of small allocations, markings, scans, sweep steps and flips over an unbounded pool of blocks; payload bytes are not represented."
  },
  {
   "property": "C31",
   "status": "partial",
   "theorems": [
    "large_extents_tile",
    "large_alloc_fresh",
    "large_sweep_keeps",
    "large_alloc_fresh_arena",
    "large_alloc_always_served_refuted"
   ],
   "note": "Tiling and freshness hold for every history of one arena, for arbitrary version changes between steps; requests of the last 4095 bytes below 64 MB are never served although the assertion admits them (refuted)."
  },
  {
   "property": "C32",
   "status": "proved",
   "theorems": [
    "size_class_fits",
    "size_class_exact"
   ],
   "note": ""
  },
  {
   "property": "C33",
   "status": "proved",
   "theorems": [
    "gray_queue_fifo"
   ],
   "note": "Queue of any length, interleaved with allocations that take blocks from the same pool."
  },
  {
   "property": "C34",
   "status": "partial",
   "theorems": [
    "compile_correct_partial",
    "compile_on_vm_partial",
    "late_global_refuted",
    "primitive_name_refuted",
    "partial_primitive_refuted",
    "rebound_capture_refuted",
    "leaking_let_refuted",
    "top_frame_refuted"
   ],
   "note": "All terminating evaluations of legal programs: primitives fully applied, no local named like a primitive, no let rebinding a visible local or a name of another let of its function, no quoted list, and no global set between being read as an operand and the use of the operand. Each condition is needed: six refutations. On the machine of VmModel.v for runs without over-application."
  },
  {
   "property": "C35",
   "status": "partial",
   "theorems": [
    "closure_convert_partial",
    "closure_convert_refuted",
    "rebound_capture_refuted"
   ],
   "note": "All closed expressions in which no let inside a function rebinds a variable the function captures; with such a let the statement is false of the code (refuted at the pass and for a whole program)."
  },
  {
   "property": "C36",
   "status": "proved",
   "theorems": [
    "saved_frames",
    "saved_in_run",
    "top_frame_refuted"
   ],
   "note": "Every program that compiles, every run. The frame of the top level itself has to be large enough: load-so gives it three slots, which is too small for a legal program (refuted, outside the statement about functions)."
  },
  {
   "property": "C37",
   "status": "partial",
   "theorems": [
    "expansion_partial",
    "expansion_packages_partial",
    "compile_program_partial",
    "pattern_sound",
    "pattern_complete",
    "match_first",
    "match_capture_refuted",
    "match_twice_refuted",
    "match_global_refuted",
    "match_def_refuted"
   ],
   "note": "The source language with match and func has its own evaluator, in which a match is the body of its first clause not passed over (match_first) and a pattern matches exactly the values it describes (pattern_sound, pattern_complete). What the macro expander of init.cora makes of such a program computes the same value and globals, before and after the renaming of packages and the compiler. Missing: what is matched when it is written with cons from anything but constants and unshadowed locals, for which the statement is refuted four times; programs that add their own macros; runs of the source that do not end or fail."
  },
  {
   "property": "C38",
   "status": "partial",
   "theorems": [
    "fold_apply_right",
    "expansion_partial",
    "expansion_packages_partial",
    "compile_program_partial",
    "or_literal_refuted",
    "and_literal_refuted",
    "macro_shadow_refuted",
    "local_cons_refuted",
    "backquote_improper_refuted",
    "lambda_body_dropped",
    "begin_empty_refuted"
   ],
   "note": "let, cond, and, or, begin, list, list-rest, backquote, defun, func and match are evaluated directly by an evaluator of the source language; the expander delivers, for every such program meeting the stated conditions, an expression with the same value and globals, also through packages and compiler. Missing: the cases refuted beside it (a literal true in or and false in and, locals named like macros or like the functions expansions use, improper backquotes), begin with one expression, programs that add macros, and runs that do not end or fail."
  },
  {
   "property": "C39",
   "status": "partial",
   "theorems": [
    "local_untouched",
    "quoted_untouched",
    "free_name_resolved",
    "namespaces_partial",
    "compile_packages_partial",
    "qualified_local_refuted",
    "local_set_refuted",
    "own_definition_hidden"
   ],
   "note": "The renaming of names inside packages (cora/init#parse): every local and quoted datum is left alone and every free name resolves to the built-in, the first exporting import, or the package itself (all expressions, imports and scopes); a renamed program computes the same value and globals as an evaluator that looks names up by package, and so do its compiled functions. Missing: locals with a # in their name or called set, for which the statement is refuted, and (ns ...) in operator position; runs of the source that do not end."
  },
  {
   "property": "C40",
   "status": "partial",
   "theorems": [
    "string_constant_exact",
    "string_constant_partial",
    "string_constant_refuted",
    "string_constant_unterminated_refuted",
    "string_constant_nul_refuted",
    "symbol_name_partial",
    "symbol_name_refuted"
   ],
   "note": "The full property is false. string_constant_exact characterises it: the emitted literal denotes the string if and only if the string has no backslash and no NUL. The names of globals are emitted with no escaping at all (symbol_name_*)."
  },
  {
   "property": "C41",
   "status": "partial",
   "theorems": [
    "distinct_names_partial",
    "emits_identifier",
    "distinct_names_refuted",
    "distinct_names_bytes_refuted",
    "reserved_names_refuted"
   ],
   "note": "Proved for names of printable ASCII characters up to the one collision between a name that starts with a digit and the same name after the letter v. Refuted for that collision, for bytes outside ASCII, and against the identifiers the generated function uses itself."
  },
  {
   "property": "C42",
   "status": "partial",
   "theorems": [
    "peval_partial",
    "peval_global_refuted",
    "peval_tvar_refuted",
    "peval_capture_refuted",
    "peval_capture_function_refuted",
    "peval_effect_refuted",
    "peval_effect_cons_refuted",
    "peval_local_primitive_refuted",
    "peval_second_pass_refuted"
   ],
   "note": "False of the code: seven kinds of expression get another value, each with a witness. Proved for every expression whose simplification is careful (nothing captured, no global substituted, no effect dropped, no local with a primitive name): the model of peval gives that very result and it has the same value and globals."
  },
  {
   "property": "C43",
   "status": "proved",
   "theorems": [
    "reverse_reverses",
    "map_calls_each_once_in_order",
    "map_pure",
    "filter_keeps_true",
    "filter_pure",
    "length_counts",
    "append_appends",
    "elem_iff_in",
    "member_iff_in",
    "assq_first_pair",
    "assq_absent",
    "foldl_folds",
    "for_each_calls",
    "index_first_position",
    "index_absent",
    "union_in",
    "diff_in",
    "tls_get_set",
    "tls_get_unset",
    "improper_lists",
    "length_improper_refuted"
   ],
   "note": "All proper lists and all (effectful) functions; length of an improper list is undefined behaviour (refuted, outside the statement)."
  },
  {
   "property": "C44",
   "status": "proved",
   "theorems": [
    "queue_is_fifo",
    "fifo_order",
    "dequeue_empty_refuted"
   ],
   "note": "Every history that does not dequeue an empty queue; dequeue of an empty queue dereferences the empty list (refuted)."
  },
  {
   "property": "C45",
   "status": "partial",
   "theorems": [
    "hash_table_is_map_partial",
    "ascii_keys_ok",
    "hash_delete_refuted",
    "hash_negative_key_refuted",
    "hash_utf8_key_refuted",
    "hash_capacity_zero_refuted"
   ],
   "note": "Every history with keys of non-negative hash and deletions not colliding with another present key; the rest of the statement is false of the code (four refutations)."
  },
  {
   "property": "C46",
   "status": "partial",
   "theorems": [
    "linked_queue_is_fifo",
    "mailbox_fifo_partial",
    "mailbox_never_stuck",
    "woken_receiver_gets_undef",
    "message_lost_refuted",
    "false_message_lost_refuted"
   ],
   "note": "the queue of pending messages is FIFO; a message sent to a mailbox whose receiver is asleep is lost in this commit, as is the value false, so full delivery is refuted"
  },
  {
   "property": "C47",
   "status": "partial",
   "theorems": [
    "lost_wakeup_refuted",
    "no_sleep_with_message_partial",
    "false_message_sleep_refuted"
   ],
   "note": "the wake-up protocol loses wake-ups in this commit"
  },
  {
   "property": "C48",
   "status": "proved",
   "theorems": [
    "resolve_after_publish",
    "publish_new_name",
    "publish_has_room",
    "publish_find_store",
    "publish_race",
    "resolve_race",
    "registry_room_refuted",
    "republish_refuted",
    "publish_race_refuted",
    "resolve_race_refuted"
   ],
   "note": "for new names, one publication at a time, while the registry has room; the 256th publication, re-publication, and publications that overlap (no lock is taken) are refuted"
  },
  {
   "property": "C49",
   "status": "partial",
   "theorems": [
    "channels_deliver_in_order_partial",
    "deliveries_once",
    "channel_false_lost_refuted",
    "choice_resumed_twice_refuted",
    "choice_false_refuted"
   ],
   "note": "for all schedules of plain sends and receives of values other than false; false is lost and choices may commit twice"
  },
  {
   "property": "C50",
   "status": "proved",
   "theorems": [
    "import_at_most_once",
    "reimport_is_noop",
    "first_import_starts",
    "import_spec",
    "imports_run",
    "failed_import_sticks_refuted",
    "import_alias_refuted",
    "empty_corapath_refuted"
   ],
   "note": "a package is its name; one file under two names runs twice, and a failed load is not retried"
  },
  {
   "property": "C51",
   "status": "partial",
   "theorems": [
    "sxml_text",
    "escape_no_markup",
    "escape_ampersands",
    "markup_independent_of_strings",
    "escape_round_trip_partial",
    "escape_round_trip_refuted",
    "apostrophe_raw_refuted"
   ],
   "note": "round trip for strings without a backslash, which is written as an apostrophe"
  },
  {
   "property": "C52",
   "status": "partial",
   "theorems": [
    "car_cdr_of_cons",
    "c_car_checks_partial",
    "car_of_non_pair_aborts_refuted"
   ],
   "note": "The C functions check, the macros used by compiled code do not (refuted)."
  },
  {
   "property": "C53",
   "status": "partial",
   "theorems": [
    "unify_exact",
    "answers_hold",
    "answers_complete_partial",
    "walk_ends",
    "answers_built",
    "walk_star_exact",
    "reify_state_right",
    "reified_answers_hold",
    "reify_open_refuted",
    "trivial_equation_refuted",
    "answer_without_solution_refuted",
    "unify_ends_refuted",
    "delayed_answers_refuted",
    "delayed_first_refuted"
   ],
   "note": "Unification describes exactly the valuations that make two terms equal; every answer is sound, and every solution is covered when the state already binds a variable and the stream is not suspended. Missing: the empty state, where an equation that binds nothing fails (refuted), suspended streams, which the library cannot continue (refuted), termination of unification without occurs check (refuted), and reifying an answer with a free variable, which ends the process (refuted)."
  },
  {
   "property": "C54",
   "status": "partial",
   "theorems": [
    "peg_sound_partial",
    "peg_complete_partial",
    "peg_error",
    "or_backtrack_refuted",
    "or_accepts_refuted",
    "star_loses_refuted",
    "maybe_loses_refuted",
    "string_error_refuted"
   ],
   "note": "Proved in both directions for parsers, recursive ones included, in which only parsers that reject without consuming are repeated, optional, tested, or the first of a choice; an error means that the input ends inside a string the parser asks for (peg_error). For other parsers the statement is false: five witnesses. Missing: tokens other than numbers, predicates with effects."
  },
  {
   "property": "C55",
   "status": "partial",
   "theorems": [
    "interpreter_partial",
    "interpreter_runs_partial",
    "careful_is_run",
    "prompt_short_call_refuted",
    "prompt_long_call_refuted",
    "prompt_integer_refuted",
    "prompt_package_refuted",
    "prompt_redefined_refuted",
    "prompt_doubled_refuted"
   ],
   "note": "Proved in both directions for expressions without package forms and doubled parameters: what the interpreter computes is what the language gives when no primitive has been redefined, and every run of the language in which calls have exactly the arguments they need is carried out. Without the conditions the statement is false: six witnesses. Missing: imports made by the expression itself, macros, calls of compiled functions."
  },
  {
   "property": "C56",
   "status": "partial",
   "theorems": [
    "unify_mgu_partial",
    "types_unify_exact",
    "unify_decides_partial",
    "apply_subst_correct",
    "unify_cyclic_refuted",
    "unify_cyclic_thunk_refuted"
   ],
   "note": "Whenever two types have a common instance it is found, with exactly the right solutions; for types built from functions and base types unification always ends and is a decision. False with lists and functions of no argument: the occurs check does not look into them, and a cyclic equation is made on which apply-subst never ends. Missing: tuple, maybe, monad and user-defined types, which the library never instantiates."
  },
  {
   "property": "C57",
   "status": "partial",
   "theorems": [
    "well_typed_accepted_partial",
    "accepted_typed_partial",
    "accepted_typable_partial",
    "accepted_forget_refuted",
    "accepted_do_refuted",
    "accepted_nil_refuted",
    "accepted_unbound_refuted",
    "do_nil_refuted",
    "checker_ends_refuted"
   ],
   "note": "Every simply typed expression is accepted, with a solution at the expected type, except for (do e ()) and locals named cons. The converse is proved for first-order expressions, where only declared names with a type without variables are called, without do and (); in general it is false: equations about a function are forgotten after each call, a do drops what its first expression taught, the empty list and unknown names have every type, and on one expression the checker never answers. Missing: set, deftype."
  },
  {
   "property": "C58",
   "status": "partial",
   "theorems": [
    "send_exact_partial",
    "recv_exact_partial",
    "send_prefix_partial",
    "resumed_once_partial",
    "send_completes",
    "send_error_refuted",
    "send_skips_refuted",
    "recv_error_refuted",
    "recv_closed_refuted",
    "two_sends_refuted"
   ],
   "note": "Exact transfer and single resumption for all histories in which no system call fails. Refuted otherwise: an error is taken for a position; a closed peer makes net-recv loop; of two waiting sends the first is forgotten. dial, listen and time-outs are not modelled."
  },
  {
   "property": "C59",
   "status": "partial",
   "theorems": [
    "event_loop_list",
    "event_loop_add_exact",
    "conn_close_exact",
    "blocked_queue_exact",
    "read_wakeup",
    "write_wakeup_partial",
    "write_wakeup_refuted",
    "close_abandons_refuted",
    "closed_returns_refuted"
   ],
   "note": "The list and the registration with the system are exact for all histories; a waiting receive is always registered. A waiting send is registered until the first waiting send on the connection has ended; afterwards refuted."
  },
  {
   "property": "C60",
   "status": "partial",
   "theorems": [
    "trace_roundtrip_partial",
    "trace_in_bounds",
    "traced_same",
    "traced_enters",
    "untrace_trace",
    "untrace_plain",
    "trace_long_name_refuted",
    "trace_overflow_refuted",
    "trace_enable_twice_refuted"
   ],
   "note": "Round trip for all sessions that are opened once and closed, and events that fit the format. Refuted outside: names of 256 bytes or more, names as long as the buffer, trace-enable while tracing. One thread; the clock is any number."
  },
  {
   "property": "C61",
   "status": "partial",
   "theorems": [
    "record_expands",
    "record_make",
    "record_set",
    "record_pred",
    "record_types_apart",
    "record_same_name_refuted",
    "record_unset_refuted",
    "record_getter_unchecked_refuted",
    "record_capture_refuted",
    "record_unknown_init_refuted"
   ],
   "note": "Proved for all record types with distinct names none of which is a primitive the expansion calls. Refuted: the predicate accepts a record of another type with the same name and size; a field the constructor does not set reads as garbage; getters do not check the type; a parameter called vector captures the primitive; a parameter that is no field stops the expansion."
  },
  {
   "property": "C62",
   "status": "partial",
   "theorems": [
    "shuffle_rounds",
    "shuffle_permutation",
    "shuffle_any_first",
    "shuffle_all_orders_refuted",
    "choice_commits",
    "choice_waits",
    "queues_never_stale",
    "reached_clean"
   ],
   "note": "Proved for all choices among sends and receives, all coin tosses and all reachable channel states. Refuted: that every order can occur."
  },
  {
   "property": "C63",
   "status": "partial",
   "theorems": [
    "let_loop_enters",
    "let_loop_again",
    "let_loop_scope",
    "let_loop_no_variables_refuted",
    "let_loop_hidden_refuted"
   ],
   "note": "Proved as equivalences with evaluation of the body, for all loops with at least one variable. Refuted: a loop without variables never gets to its body; a variable with the name of the loop is hidden by it."
  },
  {
   "property": "C64",
   "status": "partial",
   "theorems": [
    "open_creates_path",
    "open_long_path_refuted",
    "open_nul_refuted",
    "open_nul_dir_refuted",
    "read_all_exact",
    "read_all_prefix",
    "copy_exact",
    "copy_answer",
    "copy_result_refuted",
    "copy_full_refuted",
    "write_bytes_exact",
    "write_bytes_full_refuted"
   ],
   "note": "Exact for usable paths and streams with room. Refuted: a directory part of 1024 bytes or more is cut; a NUL byte in the path empties another file or reads uninitialised memory; copy answers a word that is no value of the language and hides a full target; write-bytes never returns when the target gets full."
  },
  {
   "property": "C65",
   "status": "partial",
   "theorems": [
    "exec_words",
    "exec_quoting_refuted",
    "exec_nul_refuted",
    "exec_status",
    "pclose_zero",
    "pclose_status_refuted",
    "randN_range",
    "randN_onto",
    "randN_zero_refuted"
   ],
   "note": "Proved for words of characters without a meaning to the shell, all statuses of exec and all positive n. Refuted: arguments are not quoted and are cut at a NUL byte; the status of pclose, unless 0, comes back as a word that is no number; (randN 0) is undefined."
  },
  {
   "property": "C66",
   "status": "partial",
   "theorems": [
    "written_file_runs",
    "compile_to_c_partial",
    "source_writable_partial",
    "source_to_c_partial",
    "local_named_nil_refuted",
    "local_named_true_refuted",
    "local_named_int_refuted",
    "local_named_co_refuted",
    "local_named_gensym_refuted",
    "quote_in_symbol_refuted",
    "quoted_number_refuted"
   ],
   "note": "From the text of the file, through a lexer, a parser and a semantics of the C subset, to the machine of C34, for every list of functions that meets a decidable condition on names and constants; from source programs under the conditions of C34 and conditions on the literals and names that occur in the source (source_to_c_partial). Refuted without the condition: a local named like the text of a gensym, locals named Nil or True are silently miscompiled, locals named co or like a keyword and symbols with a quote give no valid C, (quote 5) stops the compiler."
  },
  {
   "property": "C67",
   "status": "partial",
   "theorems": [
    "forms_prepared",
    "package_prepared",
    "single_prepared",
    "package_expands",
    "file_to_c_partial",
    "unfinished_file_refuted",
    "empty_file_refuted",
    "two_exports_refuted"
   ],
   "note": "From the text of a file (the grammar of C19) to the forms that are compiled, with type checking on and off, and to the text of the C file and its run, for programs that meet the conditions of C37, C39, C34 and C66. Refuted: a file that ends in an unfinished quote is compiled without it, a file without forms is undefined, the second of two export forms replaces the first."
  },
  {
   "property": "C68",
   "status": "partial",
   "theorems": [
    "legal_compiles",
    "compile_deterministic",
    "symbol_table",
    "legal_to_c_partial",
    "form_local_refuted",
    "too_many_refuted"
   ],
   "note": "Proved for legal programs (C34) without partial application of primitives and without quoted lists; the symbol table is characterised as a set without repetition. Refuted without the conditions: a local variable called like a form of the compiler, and a primitive with too many arguments."
  },
  {
   "property": "C69",
   "status": "partial",
   "theorems": [
    "neat_file_to_c_partial",
    "neat_compiled",
    "shadowing_let_refuted",
    "rebinding_let_refuted",
    "sibling_lets_refuted",
    "two_wildcards_refuted"
   ],
   "note": "Proved from conditions on the source program only (ok, tidy, neat), with the partial evaluator hook of init.cora in its initial state, the identity. Missing: user macros, runs in which a global operand is reassigned before its use. Refuted without neatness: a let that shadows or repeats a variable, two lets of one name side by side, and two wildcards in a pattern are declared twice in one C block."
  },
  {
   "property": "C70",
   "status": "partial",
   "theorems": [
    "hooked_file_to_c_partial",
    "calm_program",
    "hooked_operand_refuted",
    "hooked_shadowing_refuted",
    "hooked_match_refuted",
    "unsteady_operand_refuted"
   ],
   "note": "Proved for files whose simplification is careful (C42) and leaves the values and patterns of match unchanged, and whose simplified form meets the conditions of the compiler; calm_program shows from the text of a program that no operand is assigned before its use, which C34 to C69 had to assume of the run. Missing: user macros. Refuted without the conditions, each with a witness."
  },
  {
   "property": "C71",
   "status": "partial",
   "theorems": [
    "script_partial",
    "full_line_refuted",
    "uninitialised_refuted",
    "long_line_refuted",
    "imported_name_refuted",
    "unclosed_refuted"
   ],
   "note": "Proved for scripts whose first line has at most 253 bytes, whose forms are in the documented language without eager imports, whose simplification is careful (C42) and whose evaluation neither calls gensym nor assigns a primitive or an imported name. Missing: imports and macros defined in the script. Refuted without the conditions, for every script with a first line of exactly 254 bytes and for every buffer with a newline at byte 254."
  },
  {
   "property": "C72",
   "status": "proved",
   "theorems": [
    "monad_loads",
    "sys_loads",
    "state_return_right",
    "state_bind_right",
    "does_curried",
    "state_chain_right",
    "cont_return_right",
    "cont_bind_right",
    "run_cc_right",
    "reset_right",
    "reset_delivers",
    "shift_right",
    "call_with_values_right",
    "let_values_right",
    "values_twice_refuted",
    "values_delayed_refuted",
    "let_values_count_refuted",
    "cont_not_exported_refuted"
   ],
   "note": "Proved for all values of the language as actions, functions and continuations; does_curried for functions of one to three arguments. The functions are obtained from the text of the library by the models of reader, expander and renaming. Refuted: that values evaluates its expressions when it is evaluated (it does so each time they are received), that receiving more values than given is an error, and that importing the library gives the continuation monad."
  },
  {
   "property": "C73",
   "status": "partial",
   "theorems": [
    "append_safety_partial",
    "append_grow_safe",
    "append_contents",
    "append_in_place_refuted"
   ],
   "note": "Contents: all cases. Safety: all histories in which a vector that has been aged by collections is not given a younger object in place (growing is always safe). Without that condition false: vectorAppend has no generation barrier, and a reachable object is reclaimed."
  },
  {
   "property": "C74",
   "status": "partial",
   "theorems": [
    "vector_is_list_partial",
    "zeroed_is_list_partial",
    "growth_is_amortised",
    "packages_right_partial",
    "free_right",
    "fresh_arrays_refuted",
    "init_failure_refuted",
    "bounds_refuted",
    "growth_overflow_refuted"
   ],
   "note": "Proved for all histories of at most 2^30 elements whose initial allocation succeeded. Refuted outside: coraNew leaves two arrays unassigned, a failed initial allocation is not noticed, there are no bounds checks, and the doubling overflows at 2^30."
  },
  {
   "property": "C75",
   "status": "partial",
   "theorems": [
    "split_right",
    "listen_right_partial",
    "listen_lenient",
    "dial_right",
    "accept_right",
    "listen_host_refuted",
    "listen_port_refuted",
    "listen_leak_refuted",
    "listen_huge_port_refuted",
    "dial_leak_refuted"
   ],
   "note": "net-dial and the splitting of addresses are proved for all answers of the system. net-listen is proved for numerals below 65536, on all interfaces. Refuted: the host is ignored, other ports wrap or become 0, failures leave the descriptor open, and net-dial never frees the addresses when none can be reached."
  },
  {
   "property": "C76",
   "status": "partial",
   "theorems": [
    "epoll_mod_exact",
    "kqueue_agrees_partial",
    "poll_list_exact",
    "kqueue_mod_refuted",
    "poll_error_refuted"
   ],
   "note": "Exact with epoll. With kqueue the same for histories that never take a mode away by net-poll-mod and delete only what is registered for reading; refuted outside. Reports of errors alone are dropped (refuted)."
  },
  {
   "property": "C77",
   "status": "partial",
   "theorems": [
    "kinds_right",
    "others_right",
    "values_right_partial",
    "integer_of_other",
    "sizes_right",
    "path_right_partial",
    "path_missing",
    "elements_right",
    "load_right",
    "index_cut_refuted",
    "key_cut_refuted",
    "integer_refuted",
    "string_of_other_refuted",
    "foreign_refuted"
   ],
   "note": "Proved for all documents and paths with indexes of a C int and keys without NUL, integers up to 2^53. Refuted outside: index 2^32 is element 0, keys are cut at NUL, larger integers are rounded, json-string-value of other kinds copies from NULL, and other C objects and some numbers (9) are read as documents. The parser of jansson is not modelled."
  },
  {
   "property": "C78",
   "status": "partial",
   "theorems": [
    "externals_right",
    "tasks_in_order",
    "turns_come",
    "end_is_complete",
    "next_starts",
    "depth_without_yield",
    "shown_right",
    "yield_stack_refuted",
    "deadlock_refuted",
    "two_externals_refuted"
   ],
   "note": "Order, fairness and completeness are proved for all programs and all external schedulers that enqueue nothing when they report no work; what is shown agrees in both directions with tasks that take turns. Refuted: each yield leaves a frame on the stack; cml-entry returns while tasks are blocked; with two external schedulers the thread can wait for one although the other has a task."
  },
  {
   "property": "C79",
   "status": "partial",
   "theorems": [
    "usable_found_partial",
    "all_found_partial",
    "waiting_argument_refuted"
   ],
   "note": "Proved for the executions of C21-C25 (permitted_along) in every state in which a function runs: everything usable is found, but for what can only be had from arguments waiting in an over-application. For those it is false: coraDispatch keeps them in a C array the collector does not look at, so a collection during the first call can reclaim them (waiting_argument_refuted)."
  },
  {
   "property": "C80",
   "status": "partial",
   "theorems": [
    "stack_read_partial",
    "used_continuation_refuted"
   ],
   "note": "Proved for the frames of the machine and for continuations not yet used, for the executions of C21-C25. Refuted for a continuation that has been used (once, as intended) and is still held: the collector reads its frames, which lie in freed segments."
  },
  {
   "property": "C81",
   "status": "partial",
   "theorems": [
    "defmacro_right",
    "expand_right",
    "expand_fuel",
    "newest_wins",
    "expand_all_partial",
    "expand_twice_partial",
    "unused_macro",
    "expand_twice_refuted",
    "dotted_refuted",
    "no_end_refuted"
   ],
   "note": "The expander agrees in both directions with a set of rules, for arbitrary macros with state. That nothing is left to expand, and that expanding again changes nothing, is proved for macros that do not return the bare name of a macro, the protecting symbol or their own call, and refuted without that; an expansion need not end; what follows a dot is lost."
  },
  {
   "property": "C82",
   "status": "proved",
   "theorems": [
    "module_registered",
    "unnamed_registered",
    "one_by_one",
    "start_of_a_program",
    "second_module_refuted",
    "nul_package_refuted",
    "empty_package_refuted",
    "loaded_again_refuted"
   ],
   "note": "For package names without a NUL byte and modules with no function called *ns-export*, on the table of global variables of C15. Refuted beyond that: a second module under the same package hides the exports of the first, a NUL byte in the package name overwrites a variable of the program, an empty package name means two things, loading again exports twice."
  },
  {
   "property": "C83",
   "status": "partial",
   "theorems": [
    "markdown_text_partial",
    "file_converted_partial",
    "too_many_ends",
    "code_language_refuted",
    "entity_in_address_refuted",
    "empty_address_refuted",
    "image_title_refuted",
    "entity_in_text_refuted",
    "zero_byte_refuted"
   ],
   "note": "Proved for documents whose code blocks name no language, whose addresses and titles are one non-empty piece of text, whose images have no title and whose text has no entities and no zero bytes; in each of these cases the full statement is refuted. The parser md4c itself (third party) is represented by its calls."
  },
  {
   "property": "C84",
   "status": "proved",
   "theorems": [
    "trigger_at_least_a_block",
    "trigger_grows_by_half",
    "collection_starts",
    "trigger_bounded",
    "trigger_follows_heap",
    "generation_measured",
    "first_collection",
    "two_gigabytes_refuted"
   ],
   "note": "The doubles 0.4, 0.6 and 1.5 are modelled with IEEE rounding on integers. The bounds hold for 3L+A below 2^31; beyond that the last claim is refuted: with two gigabytes alive the total wraps to a negative int and the conversion of the next allowance is undefined."
  },
  {
   "property": "C85",
   "status": "proved",
   "theorems": [
    "load_package",
    "load_elsewhere",
    "load_beside",
    "import_then_load",
    "loads_apart",
    "relative_name_refuted",
    "extension_refuted",
    "short_name_refuted",
    "space_refuted",
    "long_name_refuted",
    "processes_refuted"
   ],
   "note": "For names of characters that the shell takes literally and commands that fit 511 bytes. Refuted beyond that: relative names give load-so a name without a slash, extensions of other lengths make libraries collide, names of one or two characters fail an assertion, names are not quoted, long commands are cut, two processes use the same names in /tmp."
  },
  {
   "property": "C86",
   "status": "proved",
   "theorems": [
    "seq_of_many",
    "seq_of_one_refuted"
   ],
   "note": "For macros that do not redefine @seq. A sequence of one parser is an error."
  },
  {
   "property": "C87",
   "status": "partial",
   "theorems": [
    "host_number",
    "host_reads_number",
    "host_no_number",
    "host_string",
    "host_cstring",
    "host_string_back",
    "host_globals",
    "host_wide_number_refuted"
   ],
   "note": "Numbers of the language are read right exactly when they are ints; 2^32 is read as 0 (refuted). Everything else is proved for all inputs and histories."
  },
  {
   "property": "C88",
   "status": "partial",
   "theorems": [
    "machines_apart",
    "package_race",
    "package_race_refuted"
   ],
   "note": "Proved for all histories in which no two libraries are entered at once; refuted for two that are, which can get one number."
  }
 ]
}