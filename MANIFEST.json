{
 "claims": [
  {
   "property": "C01",
   "status": "proved",
   "theorems": [
    "mem_calls_defined",
    "mem_no_overlap"
   ],
   "note": ""
  },
  {
   "property": "C02",
   "status": "proved",
   "theorems": [
    "mem_alloc_iff_hole",
    "mem_alloc_reserve"
   ],
   "note": ""
  },
  {
   "property": "C03",
   "status": "proved",
   "theorems": [
    "mem_free_count_exact"
   ],
   "note": ""
  },
  {
   "property": "C04",
   "status": "proved",
   "theorems": [
    "mem_free_live_succeeds",
    "mem_shrink_result",
    "mem_all_freed_is_whole"
   ],
   "note": ""
  },
  {
   "property": "C05",
   "status": "proved",
   "theorems": [
    "mem_longest_free_correct",
    "mem_longest_free_below_reserve_refuted"
   ],
   "note": "proved under free words >= reserve; the wrap-around below the reserve is exhibited by a witness"
  },
  {
   "property": "C06",
   "status": "proved",
   "theorems": [
    "mem_bad_free_harmless_refuted"
   ],
   "note": "the property is false of the code: the theorem is a witness history (finding)"
  },
  {
   "property": "C07",
   "status": "proved",
   "theorems": [
    "enc_i_roundtrip",
    "enc_i_wraps",
    "enc_u_roundtrip",
    "enc_char_roundtrip",
    "enc_sym_roundtrip",
    "enc_kinds_disjoint",
    "enc_ptr_roundtrip",
    "set_ptr_type_keeps_index",
    "enc_i32_64_roundtrip",
    "enc_u32_64_roundtrip"
   ],
   "note": "Both the 32-bit and the 64-bit word layouts (typeclass Arch); floats are carried as raw bits and not modelled here."
  },
  {
   "property": "C08",
   "status": "proved",
   "theorems": [
    "list_alloc_all_or_nothing",
    "cell_alloc_all_or_nothing",
    "cell_alloc_fresh",
    "list_alloc_fresh",
    "heap_accounts",
    "alloc_total"
   ],
   "note": "Histories of cell and list allocation, stores into cells in use and completed garbage collections from heap initialisation of any size."
  },
  {
   "property": "C09",
   "status": "proved",
   "theorems": [
    "gc_keeps_reachable",
    "gc_keeps_without_arrays",
    "gc_safe",
    "gc_keeps_reachable_refuted"
   ],
   "note": "Holds whenever marking completes and no unchecked push of a lisp array was refused; in general the property is false of the code (finding: the result of that push is ignored)."
  },
  {
   "property": "C10",
   "status": "proved",
   "theorems": [
    "gc_frees_unreachable",
    "gc_counts_add_up_refuted"
   ],
   "note": "Same condition as C09. The part about the reported marked count is false of the code (finding: environment cells are counted again for every context that shares them); the recovered count is exact."
  },
  {
   "property": "C11",
   "status": "proved",
   "theorems": [
    "mark_terminates",
    "gc_terminates",
    "gc_bounded",
    "array_ring_never_ends"
   ],
   "note": "Termination with an explicit bound when arrays do not contain each other in a cycle (cycles through cons cells and channels allowed); arrays whose first elements form a ring of arrays only never finish (finding)."
  },
  {
   "property": "C12",
   "status": "proved",
   "theorems": [
    "flat_round_trip",
    "flat_retry"
   ],
   "note": "every value whose tree is flattenable; symbols of any reachable symbol table; the hypotheses name the memory needed"
  },
  {
   "property": "C13",
   "status": "proved",
   "theorems": [
    "flat_size_exact",
    "flat_writer_inside",
    "flat_size_refuted",
    "flat_size_empty_refuted"
   ],
   "note": "Exact for every flattenable value, and the writer never leaves its buffer. The second half of the claim is false of the code and settled by the refuted theorems: a lisp array with a part that cannot be flattened, and an empty byte array, get a positive size and the writer then runs out of buffer."
  },
  {
   "property": "C14",
   "status": "proved",
   "theorems": [
    "unflatten_inside",
    "byte_array_overread_refuted",
    "symbol_overread_refuted",
    "lisp_array_no_memory_refuted",
    "lisp_array_overflow_refuted"
   ],
   "note": "The property is false of the code: the refuted theorems show every buffer of the offending forms reads or writes out of bounds. unflatten_inside proves it for all other buffers."
  },
  {
   "property": "C15",
   "status": "proved",
   "theorems": [
    "env_lookup_correct",
    "env_set_correct",
    "env_set_lookup",
    "env_set_lookup_refuted",
    "env_modify_correct",
    "env_set_functional_correct",
    "env_drop_correct",
    "env_copy_spine_correct"
   ],
   "note": "Proved for every environment in RAM with distinct cells. False for one value: setting a local variable to the placeholder symbol makes it unbound (env_set_lookup_refuted)."
  },
  {
   "property": "C16",
   "status": "proved",
   "theorems": [
    "global_env_is_a_map",
    "global_define_succeeds",
    "setvar_unbound_loses_bucket",
    "cdefine_full_loses_bucket",
    "global_env_refuted"
   ],
   "note": "Every history of define, setq of bound variables and undefine behaves as one map. The property is false of the code: a failing setq of an unbound variable overwrites the bucket's root and unbinds every variable of the bucket (setvar_unbound_loses_bucket, global_env_refuted), and so does lbm_define when the heap is full."
  },
  {
   "property": "C17",
   "status": "proved",
   "theorems": [
    "tables_safe",
    "symbol_created",
    "symbol_stable",
    "symbol_injective",
    "symbol_name",
    "symbol_injective_refuted"
   ],
   "note": "Holds for run-time symbols over all creation histories; false for the fixed table, where several names share one symbol (car and first, ...): symbol_injective_refuted."
  },
  {
   "property": "C18",
   "status": "proved",
   "theorems": [
    "channel_is_fifo",
    "channel_order",
    "channel_peek_far_refuted"
   ],
   "note": "The buffered channel refines a bounded queue of characters for all operation sequences; a peek beyond the buffer size does not fail but aliases an earlier character: channel_peek_far_refuted."
  },
  {
   "property": "C19",
   "status": "proved",
   "theorems": [
    "queue_behaves_as_list"
   ],
   "note": ""
  },
  {
   "property": "C20",
   "status": "proved",
   "theorems": [
    "sched_ops_defined",
    "sched_one_place",
    "sched_threads_survive",
    "sched_exit_ends"
   ],
   "note": "mailbox resize restricted to sizes that hold the pending mail (see C23)"
  },
  {
   "property": "C21",
   "status": "proved",
   "theorems": [
    "sched_fifo",
    "exit_outside_atomic"
   ],
   "note": ""
  },
  {
   "property": "C22",
   "status": "proved",
   "theorems": [
    "mailbox_is_bounded_list",
    "mailbox_keeps_newest",
    "send_delivers",
    "send_to_nobody",
    "send_wakes_receiver"
   ],
   "note": ""
  },
  {
   "property": "C23",
   "status": "proved",
   "theorems": [
    "mailbox_resize_keeps",
    "mailbox_resize_overflows",
    "mailbox_resize_safe_refuted"
   ],
   "note": "the property is false of the code: shrinking below the pending mail always overruns the new box (finding); it holds for larger sizes"
  },
  {
   "property": "C24",
   "status": "proved",
   "theorems": [
    "receive_correct",
    "receive_leaks_binding_refuted",
    "receive_full_heap_refuted"
   ],
   "note": "The choice of message and case, the bindings on top and the order of the remaining mail hold when there is room for the bindings of every attempt. Two parts are false of the code and settled by refutations: bindings of a failed case remain in the environment of the body, and with a full heap a matching message is not taken and no collection is run."
  },
  {
   "property": "C25",
   "status": "proved",
   "theorems": [
    "match_correct",
    "inst_fun",
    "match_form_correct"
   ],
   "note": "For trees of numbers, symbols, pairs, byte arrays and arrays; room for the bindings is a hypothesis."
  },
  {
   "property": "C26",
   "status": "proved",
   "theorems": [
    "sleep_not_early",
    "sleep_wakes"
   ],
   "note": ""
  },
  {
   "property": "C27",
   "status": "proved",
   "theorems": [
    "event_fifo",
    "event_accept_iff_room",
    "event_pop_oldest",
    "process_events_drains",
    "event_no_memory"
   ],
   "note": "Any interleaving of pushes and pops, any ring size."
  },
  {
   "property": "C28",
   "status": "proved",
   "theorems": [
    "atomic_exit_hangs",
    "atomic_error_isolated_refuted"
   ],
   "note": "the property is false of the code: a thread that ends inside an atomic block stops the scheduler for ever (finding)"
  },
  {
   "property": "C29",
   "status": "proved",
   "theorems": [
    "arith_exact",
    "arith_strict",
    "arith_variadic",
    "arith_functions",
    "arith_exact_refuted"
   ],
   "note": "Exact modulo the promoted type for all integer type pairs in both builds when signed overflow wraps (arith_exact). In standard C signed overflow is undefined: arith_strict says exactly when, arith_exact_refuted gives ordinary inputs (100000*100000 in the 32-bit build). Float operands are not modelled."
  },
  {
   "property": "C30",
   "status": "proved",
   "theorems": [
    "div_exact",
    "mod_exact",
    "div64_refuted",
    "div_zero_refuted",
    "div_overflow_refuted"
   ],
   "note": "False of the code as stated: div2 cuts a 64-bit dividend to 32 bits (div64_refuted), the 64-bit build treats a u divisor with 32 low zero bits as zero (div_zero_refuted), and least / -1 is undefined (div_overflow_refuted). Outside these cases exactness is proved for all operands that fit the promoted type."
  },
  {
   "property": "C31",
   "status": "proved",
   "theorems": [
    "compare_exact",
    "comparisons_exact",
    "compare_mixed_refuted"
   ],
   "note": "All integers of all type pairs that fit the promoted type; compare_mixed_refuted shows the condition is needed. Float operands are not modelled."
  },
  {
   "property": "C32",
   "status": "proved",
   "theorems": [
    "comparisons_exact",
    "lt_two",
    "lt_variadic_refuted"
   ],
   "note": "False of the code: (< 1 0 2) is true (lt_variadic_refuted). What the code computes is proved for all argument lists: < holds when some later argument is greater; <= and >= are as expected; with two arguments < is right."
  },
  {
   "property": "C33",
   "status": "proved",
   "theorems": [
    "list_length_correct",
    "list_drop_correct",
    "index_list_front",
    "index_list_back",
    "list_reverse_correct",
    "destructive_reverse_correct",
    "list_copy_correct",
    "list_append_correct"
   ],
   "note": "Against Coq's list functions, for lists of any length in the cons heap; cells outside the input list and the allocated cells are untouched."
  },
  {
   "property": "C34",
   "status": "proved",
   "theorems": [
    "sort_correct",
    "sort_strict_unstable_refuted"
   ],
   "note": "For every list: terminates, sorted permutation in new cells for 'less or equal' and 'strictly less' comparators, stable for 'less or equal'. With a strict comparator equivalent elements are reversed (sort_strict_unstable_refuted)."
  },
  {
   "property": "C35",
   "status": "proved",
   "theorems": [
    "merge_correct"
   ],
   "note": "For every pair of lists, sorted results for every comparator that means 'less or equal' or 'strictly less' in a preorder, stable for 'less or equal'. The comparator's body is a pure function of its two parameters; no element is the symbol used as a placeholder."
  },
  {
   "property": "C36",
   "status": "proved",
   "theorems": [
    "rotate_correct",
    "rotate_refuted",
    "rotate_min_refuted"
   ],
   "note": "Proved for every list that does not have exactly one element and every distance except the smallest int. The property is false for one-element lists (the element is lost) and for the smallest int (signed overflow); both are settled by _refuted theorems."
  },
  {
   "property": "C37",
   "status": "proved",
   "theorems": [
    "packet_send_defined",
    "packet_send_refuses",
    "packets_arrive",
    "receiver_safe"
   ],
   "note": "Packets sent with arbitrary bytes that start no frame in between are each delivered once, unchanged and in order; on any byte stream the receiver stays inside its buffer."
  },
  {
   "property": "C38",
   "status": "proved",
   "theorems": [
    "crc16_is_ccitt",
    "crc16_is_remainder",
    "crc16_detects_bursts",
    "crc16_detects_odd",
    "crc16_chunks",
    "crc32_chunks"
   ],
   "note": "The table-driven CRC-16 equals bitwise CRC-CCITT, is the polynomial remainder, and detects all bursts up to 16 bits and all odd-weight errors over data plus checksum. Both checksums can be computed in chunks."
  },
  {
   "property": "C39",
   "status": "proved",
   "theorems": [
    "int16_round_trip",
    "uint16_round_trip",
    "uint32_round_trip",
    "int64_round_trip",
    "uint64_round_trip",
    "fields_round_trip",
    "int32_round_trip_nonneg",
    "int32_round_trip_refuted"
   ],
   "note": "Holds for every integer codec except buffer_get_int32, which shifts a byte of 128 or more into the sign bit of an int: undefined for every negative number (int32_round_trip_refuted). The float codecs are not modelled."
  },
  {
   "property": "C40",
   "status": "proved",
   "theorems": [
    "dm_intact",
    "dm_defined"
   ],
   "note": "Defrag_Props.v, for every history of allocations (with their compactions), sweeps, writes and other heap activity. Assumes that the block lies in the address space and not within its own size of address 0."
  },
  {
   "property": "C41",
   "status": "proved",
   "theorems": [
    "dm_alloc_complete",
    "dm_alloc_last_cell_refuted"
   ],
   "note": "Holds with two free heap cells; false of the code with one free cell (dm_alloc_last_cell_refuted): the failed first attempt uses the cell up."
  },
  {
   "property": "C42",
   "status": "proved",
   "theorems": [
    "member_correct",
    "set_insert_correct",
    "set_insert_keeps_distinct",
    "set_union_correct",
    "assoc_lookup_correct"
   ],
   "note": "member, set-insert and set-union on proper lists of finite data, with sameness as decided by eq: membership, no duplicates introduced, exactly the datum added, no cell in use changed, merror only when the free cells run out. assoc on association lists is included."
  },
  {
   "property": "C43",
   "status": "proved",
   "theorems": [
    "tok_integer_decimal",
    "tok_integer_hex",
    "int_literal_value",
    "hex_without_digits_refuted"
   ],
   "note": "Digits, sign, suffix and the conversion to the type of the token. One deviation is settled by a refutation: 0x without digits is read as the number 0."
  },
  {
   "property": "C44",
   "status": "proved",
   "theorems": [
    "const_safe",
    "const_append_only",
    "const_alloc_keeps",
    "const_write_reads_back",
    "const_array_reads_back",
    "const_cell_reads_back",
    "const_last_word_refuted",
    "repl64_flash_refuted"
   ],
   "note": "All histories of allocations and writes over any memory contents, with the REPL's write function as the device. Findings: the last word can never be allocated raw (const_last_word_refuted); in a 64-bit REPL the erased test compares with 32 ones, so nothing is ever written (repl64_flash_refuted)."
  },
  {
   "property": "C45",
   "status": "proved",
   "theorems": [
    "stack_is_lifo",
    "pop_needs_element",
    "max_stack_exact"
   ],
   "note": "LIFO refinement for all push/pop sequences; pops on an empty stack are undefined (the code has no underflow check): pop_needs_element."
  },
  {
   "property": "C46",
   "status": "proved",
   "theorems": [
    "same_refl",
    "same_sym",
    "same_trans",
    "same_is_equal",
    "struct_eq_correct",
    "struct_eq_other_false",
    "struct_eq_cyclic",
    "eq_reflexive_refuted",
    "eq_total_refuted"
   ],
   "note": "struct_eq decides sameness of the data denoted by two values, for every heap and every finite tree of atoms, lists, byte arrays and lisp arrays; sameness is an equivalence apart from NaN floats. Reflexivity is false of channels and other unlisted types, and the recursion does not end on circular lists; both are settled by _refuted theorems."
  },
  {
   "property": "C47",
   "status": "proved",
   "theorems": [
    "qq_correct",
    "qq_splice_error"
   ],
   "note": "qq_correct: the continuations QQ_EXPAND_START, QQ_EXPAND, QQ_EXPAND_LIST, QQ_APPEND and QQ_LIST, run on any heap form that is a tree of RAM cells (as the reader makes it), terminate and leave an expression in r; under every evaluator with state that gives quote, list, append and the self-evaluating symbols their meaning, that expression evaluates to the form with unquoted expressions replaced by their values and spliced ones by the elements of theirs, each evaluated once and from left to right. The destructive list append of the expander is modelled on the heap. Collections inside cons_with_gc are not modelled: six free cells per cell or leaf of the form are asked for. The evaluator is a parameter of the theorem, described by the record evaluator."
  },
  {
   "property": "C48",
   "status": "proved",
   "theorems": [
    "recv_to_retry_refuted"
   ],
   "note": "False of the code: the second wait is computed from the encoded word. Shown for the integer timeouts 1 to 16 on both word sizes, where the first wait is exact in float arithmetic."
  },
  {
   "property": "C49",
   "status": "proved",
   "theorems": [
    "dsw_correct",
    "dsw_channel_refuted",
    "dsw_continuation_refuted",
    "dsw_no_stack_refuted"
   ],
   "note": "For every heap graph, cyclic or shared, marking ends with all cars and cdrs as before and exactly the reachable cells marked, without any stack if no lisp array is reachable (dsw_correct). The claim as stated is false of the code in three ways, each proved: the dependency of a channel is not marked, a continuation value in a captured stack makes reachable cells be missed, and nested lisp arrays take one nested C call each."
  },
  {
   "property": "C50",
   "status": "proved",
   "theorems": [
    "extension_added",
    "extension_cleared",
    "clear_other_symbol_refuted",
    "cleared_slot_lost_refuted"
   ],
   "note": "Registration is correct for all histories. Clearing is not: lbm_clr_extension looks only at the low 16 bits of the symbol (clear_other_symbol_refuted), and a cleared slot is never reused (cleared_slot_lost_refuted)."
  },
  {
   "property": "C51",
   "status": "proved",
   "theorems": [
    "string_channel_presents",
    "string_drop_is_reads",
    "string_write_safe",
    "string_write_empty_refuted"
   ],
   "note": "Proved for every string and operation sequence. Writing to a channel made from an empty array is out of bounds because length-1 wraps: string_write_empty_refuted."
  },
  {
   "property": "C52",
   "status": "proved",
   "theorems": [
    "bitwise_exact",
    "bitwise_not_exact",
    "shl_exact",
    "shr_exact",
    "shift_refuted"
   ],
   "note": "Proved for all operands and for shift amounts below the width; a larger or negative amount is undefined behaviour, and byte operands give a type error: shift_refuted."
  },
  {
   "property": "C53",
   "status": "proved",
   "theorems": [
    "sort_clobbers_captured_refuted"
   ],
   "note": "False of the code, settled by a counterexample: the captured binding is overwritten. sort_correct states what does hold: no cell in use outside the comparator's environment changes."
  },
  {
   "property": "C54",
   "status": "proved",
   "theorems": [
    "match_form_correct",
    "match_guard_env_refuted"
   ],
   "note": "Holds for forms without guards. False of the code with guards: after two failed guards the bindings of the first failed case remain."
  },
  {
   "property": "C55",
   "status": "proved",
   "theorems": [
    "tokenizer_streaming",
    "whitespace_streaming",
    "whitespace_dropped"
   ],
   "note": ""
  },
  {
   "property": "C56",
   "status": "proved",
   "theorems": [
    "next_token_safe",
    "parts_safe",
    "next_token_consumes",
    "long_number_refuted",
    "lone_quote_refuted",
    "escaped_end_refuted"
   ],
   "note": "Holds for up to 128 characters and for every part but tok_double in general. False of the code otherwise, settled by refutations: any 129 digits overrun the buffer of tok_double; a string at the end of the input may take one character more than there is."
  },
  {
   "property": "C57",
   "status": "proved",
   "theorems": [
    "tok_string_quoted",
    "tok_symbol_name",
    "long_symbol_error"
   ],
   "note": ""
  },
  {
   "property": "C58",
   "status": "proved",
   "theorems": [
    "flatten_failure_leaks",
    "flat_size_refuted",
    "flat_size_empty_refuted",
    "flat_list_nil_refuted"
   ],
   "note": "The property is false of the code: whenever the size is positive but writing fails, nil is returned and two blocks leak; a list with a part that cannot be flattened gives nil."
  },
  {
   "property": "C59",
   "status": "proved",
   "theorems": [
    "dm_destroyed"
   ],
   "note": "Defrag_Props.v."
  },
  {
   "property": "C60",
   "status": "proved",
   "theorems": [
    "eval_correct",
    "program_correct",
    "fundamental_basic"
   ],
   "note": "Eval_Props.v. eval_correct is for every table of built-in functions that implements its specification, every number of free cells and every set of other contexts; collections happen wherever the code runs them. program_correct is the whole run from heap initialisation and an empty global environment, with the functions of Prim_Model (fundamental_basic). The hypothesis clean_stack excludes C64. Loops are excluded, see C62."
  },
  {
   "property": "C61",
   "status": "proved",
   "theorems": [
    "tail_calls",
    "count_constant_stack"
   ],
   "note": "Eval_Props.v. tail_calls: chains of tail positions of any length; count_constant_stack: a recursive countdown from every number k runs in the same twelve words."
  },
  {
   "property": "C62",
   "status": "proved",
   "theorems": [
    "loop_environment_refuted",
    "loop_call_refuted"
   ],
   "note": "False of the code, proved by two programs: the body's last expression leaves its own environment in curr_env, and the condition is then evaluated in it. A let at the end of the body shadows the loop variable; a function call at the end makes the loop variable unbound."
  },
  {
   "property": "C63",
   "status": "proved",
   "theorems": [
    "collection_invisible",
    "heap_size_invisible"
   ],
   "note": "Eval_Props.v. For every state reached by the evaluator's invariant (srel) and all other contexts; the collector's own stack may overflow, which the model reports as out of memory."
  },
  {
   "property": "C64",
   "status": "proved",
   "theorems": [
    "stale_stack_refuted"
   ],
   "note": "False of the code: three of the four words reserved for a call with rest arguments are roots of the collection in allocate_binding before they are written. Proved by one program whose outcome is its value, undefined behaviour or out of memory, according to what the stack held before. What earlier computation leaves the word is not modelled: the word is a parameter. eval_correct says what holds if the words are harmless."
  },
  {
   "property": "C65",
   "status": "proved",
   "theorems": [
    "out_of_memory_refuted"
   ],
   "note": "False of the code for the symbol out_of_memory, proved by two programs that stop with an error in a heap with plenty of free cells."
  },
  {
   "property": "C66",
   "status": "proved",
   "theorems": [
    "print_correct",
    "print_whole"
   ],
   "note": "Print_Props.v. The text is the relation shows of Print_Spec.v. What snprintf does to floats is a parameter. Byte arrays of two or more bytes must start with a visible character, arrays must not be empty and symbols must have a name: see C67."
  },
  {
   "property": "C67",
   "status": "proved",
   "theorems": [
    "print_bytes_refuted",
    "print_empty_array_refuted",
    "print_unnamed_refuted"
   ],
   "note": "False of the code, each proved: an empty byte array, or one of two or more bytes whose first is not a visible character, makes is_printable_string read the byte before the array; an empty lisp array is printed as [) ; a symbol without a name is printed as nothing, with success. C66 says what holds for all other values."
  },
  {
   "property": "C68",
   "status": "proved",
   "theorems": [
    "read_correct",
    "read_program_correct"
   ],
   "note": "Read_Props.v. The spellings are the relation spell of Read_Spec.v. Floats (strtod) and backquote (see the quasi-quotation property) are in the model but not in spell. The conditions on the state are the record ready: cells, blocks, symbol numbers, and a bound on the array reserved while an array is read."
  },
  {
   "property": "C69",
   "status": "proved",
   "theorems": [
    "read_open_list",
    "read_dot_more",
    "spell_balanced",
    "read_brackets_refuted",
    "read_dot_refuted",
    "read_program_rest_refuted",
    "read_double_refuted"
   ],
   "note": "False of the code for all but unclosed lists and dotted lists with more than one tail: read_open_list and read_dot_more show that those are refused; the other theorems give accepted texts that are no expression (their brackets do not match, see spell_balanced), a program cut off at a stray parenthesis, and a double that becomes the symbol out_of_memory."
  },
  {
   "property": "C70",
   "status": "proved",
   "theorems": [
    "text_read",
    "print_read",
    "print_read_equal",
    "print_ambiguous_refuted",
    "print_capitals_refuted"
   ],
   "note": "Proved for the values of the relation readable: pairs, integers, characters, byte arrays, strings of up to 256 characters, symbols whose name is a symbol of small letters. False for all values: an array of values has the text of a byte array, and a symbol with capitals is read as another."
  },
  {
   "property": "C71",
   "status": "proved",
   "theorems": [
    "bufset_correct",
    "bufset_const",
    "bufget_correct",
    "bufset_bufget",
    "bufset_bufget_fits",
    "bufget_i32_refuted"
   ],
   "note": "ArrExt_Props.v. Every offset, value, width of 1 to 4 bytes and byte order. One deviation on 32 bits, settled by a refutation: bufget-i32 returns only the low 28 bits. The float variants are not modelled."
  },
  {
   "property": "C72",
   "status": "proved",
   "theorems": [
    "bufset_safe",
    "bufget_safe",
    "index_fits",
    "bufset_index_refuted"
   ],
   "note": "ArrExt_Props.v. Holds on 64 bits, and on 32 bits for indices whose last byte has an index below 2^32. False on 32 bits otherwise: index -1 passes the check and reads and writes the byte before the array. Arguments that are floats are excluded because their conversion is not modelled."
  },
  {
   "property": "C73",
   "status": "proved",
   "theorems": [
    "bufclear_correct",
    "bufcpy_correct",
    "bufset_bit_correct",
    "buflen_correct",
    "free_correct",
    "bufcpy_overlap_refuted"
   ],
   "note": "ArrExt_Props2.v. bufcpy with overlapping ranges of one array is undefined (memcpy), settled by a refutation."
  },
  {
   "property": "C74",
   "status": "proved",
   "theorems": [
    "str_len_correct",
    "str_part_correct",
    "str_part_outside",
    "str_case_correct",
    "str_replicate_correct",
    "str_join_correct",
    "str_replicate_refuted",
    "str_join_refuted",
    "str_case_refuted"
   ],
   "note": "StrExt_Props.v, StrExt_Props3.v, StrExt_Props5.v. Proved for counts of 0 to 2^32-2, delimiters that contain a 0, and letters that toupper and tolower accept. False of the code outside of that, settled by refutations: (str-replicate -1 97) writes 4294967295 bytes into nothing, strlen of a delimiter without a 0 reads on after the array, toupper of a negative char is undefined. str-from-n and to-str are not modelled."
  },
  {
   "property": "C75",
   "status": "proved",
   "theorems": [
    "str_split_size",
    "str_split_chars"
   ],
   "note": "StrExt_Props2.v. Both forms of str-split, also when memory runs out on the way. Delimiters and text contain a 0."
  },
  {
   "property": "C76",
   "status": "proved",
   "theorems": [
    "str_replace_correct",
    "str_replace_empty"
   ],
   "note": "StrExt_Props3.v. Text and pattern contain a 0."
  },
  {
   "property": "C77",
   "status": "proved",
   "theorems": [
    "str_find_correct",
    "str_find_first"
   ],
   "note": "StrExt_Props4.v. All combinations of start, occurrence, direction and case; for searches without regard of case on platforms with signed char, the bytes are below 128 or 255."
  },
  {
   "property": "C78",
   "status": "proved",
   "theorems": [
    "str_cmp_correct"
   ],
   "note": "StrExt_Props.v. Without a length both byte arrays contain a 0; with a length, a 0 or as many bytes."
  },
  {
   "property": "C79",
   "status": "proved",
   "theorems": [
    "list_correct",
    "append_correct",
    "append_list",
    "append_one_arg",
    "append_not_list"
   ],
   "note": "Fund_Props.v. Lists of fewer than 2^31 elements."
  },
  {
   "property": "C80",
   "status": "proved",
   "theorems": [
    "ix_list",
    "ix_array",
    "set_ix_list",
    "set_ix_ix",
    "set_ix_array",
    "set_ix_ix_array"
   ],
   "note": "Fund_Props.v. Indices of an int for lists; an index into an array is taken modulo 2^32. setix on the empty list is a type error."
  },
  {
   "property": "C81",
   "status": "proved",
   "theorems": [
    "length_list",
    "length_bytes",
    "length_array",
    "take_correct",
    "drop_correct",
    "range_correct",
    "range_one",
    "range_overflow_refuted",
    "range_wraps_refuted"
   ],
   "note": "Fund_Props2.v, Fund_Props6.v. Proved for numbers of up to 28 bits. False of the code beyond: on 64 bits (range -2147483648 -2147483646) overflows an int, on 32 bits the range from 134217728 starts at -134217728; both settled by refutations."
  },
  {
   "property": "C82",
   "status": "proved",
   "theorems": [
    "mkarray_correct",
    "list_to_array_correct",
    "array_to_list_correct",
    "list_array_list",
    "mkarray_refuted"
   ],
   "note": "Fund_Props3.v, Fund_Props6.v. False of the code when the size in bytes exceeds the word: on 32 bits mkarray of 2^30+1 elements returns an array of one, settled by a refutation. list-to-array of the empty list is nil."
  },
  {
   "property": "C83",
   "status": "proved",
   "theorems": [
    "assoc_correct",
    "cossa_correct",
    "acons_correct",
    "acons_entries",
    "set_assoc_correct",
    "set_assoc_pair",
    "set_assoc_string_refuted"
   ],
   "note": "Fund_Props4.v, Fund_Props6.v. A stored value no_match is returned as nil. setassoc is proved for keys that are symbols or integers. It compares words where assoc compares values, so an entry with a string as key is not updated: settled by a refutation."
  },
  {
   "property": "C84",
   "status": "proved",
   "theorems": [
    "convert_correct",
    "convert_same"
   ],
   "note": "Fund_Props5.v. All pairs of the integer types and char, both word sizes. Conversions to and from floats are not modelled."
  },
  {
   "property": "C85",
   "status": "proved",
   "theorems": [
    "stack_discipline",
    "var_leaks_refuted"
   ],
   "note": "Ctl_Props.v. For every evaluation on a stack whose top word is not that of a progn; steps that raise an error or apply a continuation are C86 and C87. False of the code on top of a progn: a var at the end of an inner progn or of a closure without parameters writes the environment into the frame of the outer progn, so that its variable is visible there, settled by a refutation."
  },
  {
   "property": "C86",
   "status": "proved",
   "theorems": [
    "trap_begins",
    "trap_error",
    "trap_returns",
    "trap_survives",
    "trap_spawn_trap_refuted",
    "trap_atomic_refuted",
    "trap_stale_handler_refuted"
   ],
   "note": "Ctl_Props.v. trap_survives: any number of steps after the trap, no step ends the context but with fatal_error. trap_error: an error on a stack with no other handler word on top of the handler. What words an error leaves above the frames (junk) and how far it has changed the heap (torn) are parameters, so hold for all; the result cells of the trap are assumed intact in that heap. False of the code in three cases, each settled by a refutation: in a context of spawn-trap the error ends the context; an error inside atomic leaves the context atomic; a stale handler word in stack memory that was reserved but not written is taken for the handler."
  },
  {
   "property": "C87",
   "status": "proved",
   "theorems": [
    "callcc_captures",
    "callcc_restores",
    "callcc_argument_refuted",
    "callcc_flags_refuted",
    "callcc_small_stack_refuted"
   ],
   "note": "Ctl_Props2.v. callcc_captures: with three free cells and two blocks of memory. False of the code: the argument is evaluated in the environment left by the evaluation of the function; the flags of the context are not restored, so that traps are missed or errors end the context; on a smaller stack the copy is out of bounds. Each settled by a refutation."
  },
  {
   "property": "C88",
   "status": "proved",
   "theorems": [
    "getpixel_correct",
    "putpixel_correct",
    "putpixel_inside",
    "put_get",
    "put_get_exact",
    "put_get_332",
    "red_lost_refuted",
    "index_spills_refuted",
    "far_point_refuted"
   ],
   "note": "Disp_Props.v. Proved for indices that the format has, and for coordinates from -32768 to 65535 in images of up to 32768 by 32768, or inside of any image. False of the code, settled by refutations: with 16 bits per pixel the red is lost; an index too large for 2 or 4 bits changes the neighbours; only 16 bits of a coordinate are used, so that a point far outside is drawn inside. The decoding of the arguments is not modelled."
  },
  {
   "property": "C89",
   "status": "proved",
   "theorems": [
    "image_buffer_correct",
    "image_buffer_refuses",
    "image_valid",
    "valid_rounds_refuted",
    "valid_wraps_refuted"
   ],
   "note": "Disp_Props.v. Pixel data of at most 2^31 bytes. False of the code for arrays made otherwise, settled by refutations: the check rounds the size down, so that the last pixels can lie behind the array, and computes it modulo 2^32. That an array accepted is an image is proved when the pixels fill whole bytes and their bits are fewer than 2^32."
  },
  {
   "property": "C90",
   "status": "proved",
   "theorems": [
    "clear_correct",
    "clear_get",
    "clear_565",
    "clear_565_refuted"
   ],
   "note": "Disp_Props.v. All formats but rgb565. False of the code for rgb565, settled by a refutation: only a quarter of the pixels are cleared; clear_565 says which."
  },
  {
   "property": "C91",
   "status": "proved",
   "theorems": [
    "rectangle_filled",
    "rectangle_outline",
    "outline_corner_refuted",
    "triangle_filled",
    "triangle_overflow_refuted",
    "circle_filled",
    "line_correct",
    "line_end_refuted"
   ],
   "note": "Disp_Props2.v. Coordinates from -32768 to 65535, images of up to 32768 by 32768, triangles that are not flat and at most 32767 wide and high, radii up to 32767. False of the code, settled by refutations: the outline of a rectangle lacks its lower right corner; a line with |dy| < |dx| <= 2|dy| lacks its last point (line_correct says exactly when); larger triangles overflow an int. Filled circles of radius up to 4 are centered on the corner of a pixel, larger ones on a pixel. Lines that are thick or dotted, outlines of circles, arcs, rounded corners, text and copying are not modelled."
  },
  {
   "property": "C92",
   "status": "proved",
   "theorems": [
    "atomic_throughout",
    "atomic_ends",
    "atomic_nested",
    "atomic_rest_refuted"
   ],
   "note": "Ctl_Props3.v. For runs without errors and jumps out of the block (steps that apply a continuation set is_atomic to what it was at the call-cc, C87). False of the code when the error of a nested block is caught inside the outer one: that clears is_atomic, and the rest of the outer block is run without; settled by the refutation. Errors that leave is_atomic set are trap_atomic_refuted of C86 and C28."
  },
  {
   "property": "C93",
   "status": "proved",
   "theorems": [
    "map_correct",
    "map_cells",
    "map_nil",
    "map_refuses",
    "map_shares_refuted"
   ],
   "note": "Map_Props.v, Map_Props2.v. For every way to evaluate the applications that neither changes nor frees what the stack holds and leaves a free cell; with five free cells at the beginning; map_cells says what happens with fewer. False of the code as far as values that contain a part of the expression are concerned, settled by a refutation: (map quote '(1 2 3)) is ((quote 3) (quote 3) (quote 3))."
  },
  {
   "property": "C94",
   "status": "proved",
   "theorems": [
    "reverse_correct",
    "reverse_refuses"
   ],
   "note": "Map_Props.v. With as many free cells as there are elements."
  },
  {
   "property": "C95",
   "status": "proved",
   "theorems": [
    "loopfor_expands",
    "loopwhile_expands",
    "looprange_expands",
    "loopforeach_expands",
    "loop_macros_refuse",
    "loop_macros_end",
    "loopforeach_refuted"
   ],
   "note": "Loop_Props.v, Loop_Props2.v. For every order in which a C compiler may make the nested calls; with too few cells the result is the memory error, never an expression with a memory error inside. That loopforeach runs its body for every element and evaluates the list once is false of the code, settled by a refutation that runs the expansion: it ends at an element that is nil, and evaluates the list expression twice. That the other expansions loop as they should is shown by examples only."
  },
  {
   "property": "C96",
   "status": "proved",
   "theorems": [
    "decode_accepts",
    "decode_refuses",
    "decode_nine_numbers_refuted",
    "decode_four_numbers_refuted"
   ],
   "note": "DispArg_Props.v. That nothing is written outside is false of the code, settled by two refutations: a ninth number is written behind the eight places, and the fourth number of an attribute behind its three, for (resolution 1 2 3 4) behind the whole structure on the C stack; both tests come after the write."
  },
  {
   "property": "C97",
   "status": "proved",
   "theorems": [
    "random_range",
    "random_64",
    "random_period_64",
    "random_stuck_refuted",
    "random_short_refuted",
    "seed_correct"
   ],
   "note": "Rand_Props.v. Range and encoding for both word sizes; the congruence and its period for 64 bit. False of the code for 32 bit, settled by a refutation: the product is cut to 32 bits, and from the first seed the numbers repeat every 18535 calls. For 64 bit one seed, 194187152, is returned for ever. That seed takes a number is proved for unsigned ones and refused for everything that is no number."
  }
 ]
}