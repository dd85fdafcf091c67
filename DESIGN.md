# LispBM formal model: design

Source modelled: `/repo` (svenssonjoel/lispBM, pinned commit), read as text; never built or run.
Prover: Coq 8.16.1. Project: `rocq/`, with `theories/` mapped to `Verif`.

## Layout

For each area `X` there are up to four kinds of file in `rocq/theories`:

* `X_Model.v`   executable Gallina transcription of the C functions; no proofs. Definitions cite file and lines in `/repo`.
* `X_Spec.v`    (where useful) the small independent specification used by theorem statements.
* `X_Proofs*.v` lemmas.
* `X_Props.v`   the property theorems, their non-vacuity `Example`s, and `Print Assumptions`.

`Base.v` has the outcome type (`Ok`, `UB`, `Fuel`), list reads and writes that fail out of bounds, and word wrap.

## Conventions

* Undefined behaviour (out-of-bounds access, NULL or wild dereference, over-wide shift, signed overflow) is the outcome `UB`, never a default value.
* Loops and recursions without a structural bound take fuel; running out is the outcome `Fuel`. Theorems exclude it or prove it cannot happen (from a stated bound on).
* Unsigned wrap-around is explicit (`wrap W`), two's complement reading is `sgn W`.
* Both builds, 32 bit and 64 bit (`LBM64`), are covered by the class `Arch`; a theorem about `A : Arch` holds for both.
* An error that leaves the evaluator by `longjmp` (`error_ctx`) is a value of the model's result (`None` or a constructor), not `UB`.
* Mutexes: each function that holds one throughout is an atomic step, so any interleaving of threads is a sequence of steps.
* A property that is false of the code is claimed as settled by a theorem with suffix `_refuted`: a concrete or general counterexample in the model. Next to it stand the theorems that say what does hold. The claim's note in `MANIFEST.json` says so.

## Properties

| id | property | status | files | how it is proved | theorems |
|---|---|---|---|---|---|
| C01 | Live memory blocks never overlap | proved | `Mem_Props.v` | the status array is always the layout of a list of segments; ledger of live blocks kept from call results only; induction over call histories | `mem_calls_defined`, `mem_no_overlap` |
| C02 | Allocation succeeds exactly when a hole exists | proved | `Mem_Props.v` | same invariant; next-fit search visits every segment | `mem_alloc_iff_hole`, `mem_alloc_reserve` |
| C03 | Free-word counter is exact | proved | `Mem_Props.v` | same invariant; free words of a layout | `mem_free_count_exact` |
| C04 | Freeing everything restores the whole memory | proved | `Mem_Props.v` | same invariant; freeing merges the layout back | `mem_free_live_succeeds`, `mem_shrink_result`, `mem_all_freed_is_whole` |
| C05 | longest_free is the largest request that can succeed | proved | `Mem_Props.v` | induction over the layout; witness for the unsigned wrap below the reserve | `mem_longest_free_correct`, `mem_longest_free_below_reserve_refuted` |
| C06 | A rejected free does no harm | proved | `Mem_Props.v` | refuted by a witness history | `mem_bad_free_harmless_refuted` |
| C07 | Immediate values survive encoding | proved | `Value_Props.v` | bit-field arithmetic on words for both builds, all values | `enc_i_roundtrip`, `enc_i_wraps`, `enc_u_roundtrip`, `enc_char_roundtrip`, `enc_sym_roundtrip`, `enc_kinds_disjoint`, `enc_ptr_roundtrip`, `set_ptr_type_keeps_index`, `enc_i32_64_roundtrip`, `enc_u32_64_roundtrip` |
| C08 | Heap allocation never hands out a cell twice | proved | `Heap_Props.v` | invariant over histories: the free list is a duplicate-free chain of exactly the recovered cells | `list_alloc_all_or_nothing`, `cell_alloc_all_or_nothing`, `cell_alloc_fresh`, `list_alloc_fresh`, `heap_accounts`, `alloc_total` |
| C09 | Garbage collection keeps everything reachable | proved | `GC_Props.v` | marking invariant (closure of marks and stack) and sweep by induction on the index; refuted in general by a witness | `gc_keeps_reachable`, `gc_keeps_without_arrays`, `gc_safe`, `gc_keeps_reachable_refuted` |
| C10 | Garbage collection frees everything unreachable | proved | `GC_Props.v` | as C09, marks imply reachability | `gc_frees_unreachable`, `gc_counts_add_up_refuted` |
| C11 | Marking terminates | proved | `GC_TermProps.v` | measure on unmarked cells, array positions and stack; the ring of arrays by an invariant of all its steps | `mark_terminates`, `gc_terminates`, `gc_bounded`, `array_ring_never_ends` |
| C12 | Flatten then unflatten gives back the value | proved | `Flat_Props.v` | induction over the tree of the value | `flat_round_trip`, `flat_retry` |
| C13 | Predicted flat size is exact and never overrun | proved | `Flat_Props.v` | induction over the tree; refutations by witnesses | `flat_size_exact`, `flat_writer_inside`, `flat_size_refuted`, `flat_size_empty_refuted` |
| C14 | Unflatten stays inside its buffer | proved | `Flat_Props.v` | induction over the bytes read; refutations for every buffer of the offending shape | `unflatten_inside`, `byte_array_overread_refuted`, `symbol_overread_refuted`, `lisp_array_no_memory_refuted`, `lisp_array_overflow_refuted` |
| C15 | Environment update and lookup | proved | `Env_Props.v` | induction over the association list on heap cells with a frame | `env_lookup_correct`, `env_set_correct`, `env_set_lookup`, `env_set_lookup_refuted`, `env_modify_correct`, `env_set_functional_correct`, `env_drop_correct`, `env_copy_spine_correct` |
| C16 | Global environment behaves as one map | proved | `Env_Props.v` | bucket argument; refinement of the 32 lists to one map over histories | `global_env_is_a_map`, `global_define_succeeds`, `setvar_unbound_loses_bucket`, `cdefine_full_loses_bucket`, `global_env_refuted` |
| C17 | Symbol interning is a bijection | proved | `Sym_Props.v` | invariant over creation histories | `tables_safe`, `symbol_created`, `symbol_stable`, `symbol_injective`, `symbol_name`, `symbol_injective_refuted` |
| C18 | Buffered channel is a bounded FIFO | proved | `Chan_Props.v` | refinement of the ring to a list, over operation sequences | `channel_is_fifo`, `channel_order`, `channel_peek_far_refuted` |
| C19 | Context queues behave as lists | proved | `Sched_Props.v` | refinement of the doubly linked nodes to a list | `queue_behaves_as_list` |
| C20 | No thread is lost or duplicated | proved | `Sched_Props.v` | invariant over all scheduler steps: every context in exactly one place | `sched_ops_defined`, `sched_one_place`, `sched_threads_survive`, `sched_exit_ends` |
| C21 | Ready threads run in FIFO order | proved | `Sched_Props.v` | position in the ready queue decreases with every dispatch | `sched_fifo`, `exit_outside_atomic` |
| C22 | Mailbox delivers in order and drops the oldest when full | proved | `Sched_Props.v` | refinement of mailbox to bounded list | `mailbox_is_bounded_list`, `mailbox_keeps_newest`, `send_delivers`, `send_to_nobody`, `send_wakes_receiver` |
| C23 | Changing the mailbox size is safe | proved | `Sched_Props.v` | refuted for every shrink below the pending mail | `mailbox_resize_keeps`, `mailbox_resize_overflows`, `mailbox_resize_safe_refuted` |
| C24 | Selective receive picks the first matching message | proved | `Match_Props.v` | induction over mailbox and cases; refutations by witnesses | `receive_correct`, `receive_leaks_binding_refuted`, `receive_full_heap_refuted` |
| C25 | Pattern matching is sound and complete | proved | `Match_Props.v` | induction over the pattern against an inductive instance relation | `match_correct`, `inst_fun`, `match_form_correct` |
| C26 | Sleeping threads do not wake early | proved | `Sched_Props.v` | invariant over steps; time arithmetic modulo 2^32 | `sleep_not_early`, `sleep_wakes` |
| C27 | Event queue is a bounded FIFO | proved | `Event_Props.v` | refinement of the ring to a list under any interleaving | `event_fifo`, `event_accept_iff_room`, `event_pop_oldest`, `process_events_drains`, `event_no_memory` |
| C28 | An error inside atomic does not stop other threads | proved | `Sched_Props.v` | refuted: from every state with an ended atomic thread no step ever runs another thread | `atomic_exit_hangs`, `atomic_error_isolated_refuted` |
| C29 | Integer arithmetic is exact modulo the type width | proved | `Arith_Props.v` | arithmetic modulo the promoted type, for all type pairs | `arith_exact`, `arith_strict`, `arith_variadic`, `arith_functions`, `arith_exact_refuted` |
| C30 | Division agrees with mathematics | proved | `Arith_Props.v` | arithmetic; refutations by witnesses | `div_exact`, `mod_exact`, `div64_refuted`, `div_zero_refuted`, `div_overflow_refuted` |
| C31 | Numeric comparison is a total order within a type | proved | `Arith_Props.v` | arithmetic | `compare_exact`, `comparisons_exact`, `compare_mixed_refuted` |
| C32 | Variadic comparison | proved | `Arith_Props.v` | induction over the arguments; refuted by a witness | `comparisons_exact`, `lt_two`, `lt_variadic_refuted` |
| C33 | List operations agree with sequence algebra | proved | `List_Props.v` | heap list predicate and induction | `list_length_correct`, `list_drop_correct`, `index_list_front`, `index_list_back`, `list_reverse_correct`, `destructive_reverse_correct`, `list_copy_correct`, `list_append_correct` |
| C34 | Sort sorts | proved | `Sort_Props.v` | the merge continuations refine a functional bottom-up merge sort, which is proved a stable sort | `sort_correct`, `sort_strict_unstable_refuted` |
| C35 | Merge merges | proved | `Sort_Props.v` | loop invariant over the two input lists | `merge_correct` |
| C36 | Rotate rotates | proved | `Rotate_Props.v` | heap list predicate; refutations by witnesses | `rotate_correct`, `rotate_refuted`, `rotate_min_refuted` |
| C37 | Packets arrive intact | proved | `Packet_Props.v` | induction over the byte stream with the receiver invariant | `packet_send_defined`, `packet_send_refuses`, `packets_arrive`, `receiver_safe` |
| C38 | CRC detects burst errors | proved | `Crc_Props.v` | linearity of the CRC over GF(2) and division of polynomials over bits | `crc16_is_ccitt`, `crc16_is_remainder`, `crc16_detects_bursts`, `crc16_detects_odd`, `crc16_chunks`, `crc32_chunks` |
| C39 | Buffer integer codecs round trip | proved | `Buffer_Props.v` | shift arithmetic for all values; refutation for every negative number | `int16_round_trip`, `uint16_round_trip`, `uint32_round_trip`, `int64_round_trip`, `uint64_round_trip`, `fields_round_trip`, `int32_round_trip_nonneg`, `int32_round_trip_refuted` |
| C40 | Defragmentable memory keeps live arrays intact | proved | `Defrag_Props.v` | layout invariant (live blocks in address order, owners) over histories; compaction loop invariant | `dm_intact`, `dm_defined` |
| C41 | Defragmentable memory allocation is complete | proved | `Defrag_Props.v` | same invariant; free words of the layout; refuted by a witness with one free cell | `dm_alloc_complete`, `dm_alloc_last_cell_refuted` |
| C42 | Set operations | proved | `Set_Props.v` | induction over lists with sameness as specification | `member_correct`, `set_insert_correct`, `set_insert_keeps_distinct`, `set_union_correct`, `assoc_lookup_correct` |
| C43 | Integer tokens mean their digits | proved | `Tok_Props.v` | induction over digits | `tok_integer_decimal`, `tok_integer_hex`, `int_literal_value`, `hex_without_digits_refuted` |
| C44 | Constant heap is append only | proved | `Const_Props.v` | invariant over write histories | `const_safe`, `const_append_only`, `const_alloc_keeps`, `const_write_reads_back`, `const_array_reads_back`, `const_cell_reads_back`, `const_last_word_refuted`, `repl64_flash_refuted` |
| C45 | Evaluation stack is LIFO and bounded | proved | `Stack_Props.v` | refinement to a list | `stack_is_lifo`, `pop_needs_element`, `max_stack_exact` |
| C46 | Structural equality is an equivalence | proved | `Eq_Props.v` | induction over data trees; divergence on cycles by an invariant | `same_refl`, `same_sym`, `same_trans`, `same_is_equal`, `struct_eq_correct`, `struct_eq_other_false`, `struct_eq_cyclic`, `eq_reflexive_refuted`, `eq_total_refuted` |
| C47 | Quasi-quotation expansion is correct | proved | `QQ_Props.v` | induction over the form; ownership of cells by frames; every evaluator satisfying the laws of quote, list and append gives the value of the template | `qq_correct`, `qq_splice_error` |
| C48 | Receive timeout is kept across unrelated messages | proved | `Match_Props.v` | refuted by arithmetic on the encoded word | `recv_to_retry_refuted` |
| C49 | Pointer-reversal marking restores the heap | proved | `DSW_Props.v` | Schorr-Waite graph invariant with the reversed path as ghost list, and a measure | `dsw_correct`, `dsw_channel_refuted`, `dsw_continuation_refuted`, `dsw_no_stack_refuted` |
| C50 | Extension table | proved | `Sym_Props.v` | invariant over histories; refutations by witnesses | `extension_added`, `extension_cleared`, `clear_other_symbol_refuted`, `cleared_slot_lost_refuted` |
| C51 | String channel presents its string | proved | `Chan_Props.v` | induction over operation sequences | `string_channel_presents`, `string_drop_is_reads`, `string_write_safe`, `string_write_empty_refuted` |
| C52 | Bitwise operations act bit by bit | proved | `Arith_Props.v` | bitwise extensionality | `bitwise_exact`, `bitwise_not_exact`, `shl_exact`, `shr_exact`, `shift_refuted` |
| C53 | Sort leaves the comparator's captured variables alone | proved | `Sort_Props.v` | refuted by a witness | `sort_clobbers_captured_refuted` |
| C54 | Guards and bodies of a match form run in the form's environment | proved | `Match_Props.v` | induction over the cases; refuted by a witness | `match_form_correct`, `match_guard_env_refuted` |
| C55 | Tokenizing is independent of how the input arrives | proved | `Tok_Props.v` | every part of the tokenizer is monotone in the available characters | `tokenizer_streaming`, `whitespace_streaming`, `whitespace_dropped` |
| C56 | The tokenizer stays in its buffers and in its input | proved | `Tok_Props.v` | induction over the characters; refutations for every input of the offending shape | `next_token_safe`, `parts_safe`, `next_token_consumes`, `long_number_refuted`, `lone_quote_refuted`, `escaped_end_refuted` |
| C57 | String and symbol tokens mean what is written | proved | `Tok_Props.v` | induction over the characters | `tok_string_quoted`, `tok_symbol_name`, `long_symbol_error` |
| C58 | Failing to flatten is reported and leaks nothing | proved | `Flat_Props.v` | induction over the tree; refutations | `flatten_failure_leaks`, `flat_size_refuted`, `flat_size_empty_refuted`, `flat_list_nil_refuted` |
| C59 | Destroying a defragmentable memory leaves nothing pointing into it | proved | `Defrag_Props.v` | layout invariant | `dm_destroyed` |
| C60 | The evaluator computes what a reference interpreter computes | proved | `Eval_Proofs6.v`, `Eval_Props.v` | forward simulation of a reference interpreter with locations, by induction over its fuel; a representation relation between heap words and values that is kept by heap growth and by collections | `eval_correct`, `program_correct`, `fundamental_basic` |
| C61 | Tail calls use no stack | proved | `Eval_Props.v` | the same simulation for each kind of tail position, and induction over the chain | `tail_calls`, `count_constant_stack` |
| C62 | A loop evaluates its condition and body in the environment of its bindings | proved | `Eval_Props.v` | refuted by two programs | `loop_environment_refuted`, `loop_call_refuted` |
| C63 | A garbage collection in the middle of an evaluation changes nothing the program can see | proved | `Eval_Props.v` | the invariant of the evaluator gives the preconditions of the collector theorems (C09 to C11); everything the relation reads from a rooted word is live, so it is kept | `collection_invisible`, `heap_size_invisible` |
| C64 | The words of the stack that the collector takes for roots have been written | proved | `Eval_Props.v` | refuted by a program with three possible outcomes | `stale_stack_refuted` |
| C65 | A value is not taken for a failure | proved | `Eval_Props.v` | refuted by two programs | `out_of_memory_refuted` |
| C66 | Printing a value writes its text | proved | `Print_Props.v` | induction over the value; each instruction on the print stack is run to its end with the rest of the stack arbitrary | `print_correct`, `print_whole` |
| C67 | Every value can be printed | proved | `Print_Props.v` | refuted: for every byte array of the offending form, for the empty array, and by a witness | `print_bytes_refuted`, `print_empty_array_refuted`, `print_unnamed_refuted` |
| C68 | Reading gives the value the text denotes | proved | `Read_Props.v` | mutual induction over the spelling of expressions and of the rest of a list; the continuation stack, the resources left over and the text behind are arbitrary | `read_correct`, `read_program_correct` |
| C69 | Text that is no expression is refused | proved | `Read_Props.v`, `Read_Props3.v` | unclosed lists by the same induction; refuted for the rest by witnesses, whose texts no expression has because a text without strings and comments has balanced brackets (induction) | `read_open_list`, `read_dot_more`, `spell_balanced`, `read_brackets_refuted`, `read_dot_refuted`, `read_program_rest_refuted`, `read_double_refuted` |
| C70 | Printing and reading back gives an equal value | proved | `Read_Props2.v` | induction over the value: what the printer shows is a spelling of it; then C66 and C68. Refuted outside of the readable values by two values with one text | `text_read`, `print_read`, `print_read_equal`, `print_ambiguous_refuted`, `print_capitals_refuted` |
| C71 | Numbers in byte arrays are written and read back | proved | `ArrExt_Props.v`, `ArrExt_Props2.v` | every argument is taken as the integer its word denotes; the stores and loads are computed on the array split at the offset; two's complement by arithmetic on base 256 | `bufset_correct`, `bufset_const`, `bufget_correct`, `bufset_bufget`, `bufset_bufget_fits`, `bufget_i32_refuted` |
| C72 | Array accesses stay inside the array | proved | `ArrExt_Props.v`, `ArrExt_Props2.v` | case analysis over all values an argument can denote; refuted on 32 bits by a witness | `bufset_safe`, `bufget_safe`, `index_fits`, `bufset_index_refuted` |
| C73 | Clearing, copying, bits and freeing | proved | `ArrExt_Props2.v` | on the array split at the ends of the range; the bit by bitwise extensionality; overlap refuted by a witness | `bufclear_correct`, `bufcpy_correct`, `bufset_bit_correct`, `buflen_correct`, `free_correct`, `bufcpy_overlap_refuted` |
| C74 | Strings are taken apart and put together | proved | `StrExt_Props.v`, `StrExt_Props3.v`, `StrExt_Props5.v` | the loops by induction over the string or list, with the part of the block already filled in explicit; the block has exactly the size the spec asks for, and a write beyond it is undefined in the model | `str_len_correct`, `str_part_correct`, `str_part_outside`, `str_case_correct`, `str_replicate_correct`, `str_join_correct`, `str_replicate_refuted`, `str_join_refuted`, `str_case_refuted` |
| C75 | Splitting a string | proved | `StrExt_Props2.v` | induction over the text left; the list built so far is a value over cells taken from the free list, and reversing it in place is the theorem on lists | `str_split_size`, `str_split_chars` |
| C76 | Replacing in a string | proved | `StrExt_Props3.v` | strstr finds the leftmost occurrence; one induction gives the count, the text and its length; the wrapping size is equal to that length modulo the word | `str_replace_correct`, `str_replace_empty` |
| C77 | Searching in a string | proved | `StrExt_Props4.v` | a search at one position, then induction over the positions; the positions beyond the shortest string, which the code does not look at, have no hits | `str_find_correct`, `str_find_first` |
| C78 | Comparing strings | proved | `StrExt_Props.v` | induction over the two strings; dictionary order is stated with the common prefix | `str_cmp_correct` |
| C79 | Building and joining lists | proved | `Fund_Props.v` | induction over the arguments from the last to the first; each copied list by induction from its last element; the list built so far is a path over cells taken from the free list | `list_correct`, `append_correct`, `append_list`, `append_one_arg`, `append_not_list` |
| C80 | Reading and writing by index | proved | `Fund_Props.v` | induction over the list for the walk; the write changes one cell, whose place in the list gives the new elements | `ix_list`, `ix_array`, `set_ix_list`, `set_ix_ix`, `set_ix_array`, `set_ix_ix_array` |
| C81 | Lengths, parts and ranges of lists | proved | `Fund_Props2.v`, `Fund_Props6.v` | induction over the list or the range counted down; signed and unsigned views of the number by arithmetic | `length_list`, `length_bytes`, `length_array`, `take_correct`, `drop_correct`, `range_correct`, `range_one`, `range_overflow_refuted`, `range_wraps_refuted` |
| C82 | Arrays of values and lists | proved | `Fund_Props3.v`, `Fund_Props6.v` | the fresh array by the allocator of values; the two copying loops by induction, with the part already filled explicit | `mkarray_correct`, `list_to_array_correct`, `array_to_list_correct`, `list_array_list`, `mkarray_refuted` |
| C83 | Association lists | proved | `Fund_Props4.v`, `Fund_Props6.v` | the lookups by induction over the list and the theorem on structural equality; setassoc by the theorem on environments, which it shares | `assoc_correct`, `cossa_correct`, `acons_correct`, `acons_entries`, `set_assoc_correct`, `set_assoc_pair`, `set_assoc_string_refuted` |
| C84 | Conversions between integer types | proved | `Fund_Props5.v` | case analysis over the seven targets; the casts are compositions of reductions modulo powers of two | `convert_correct`, `convert_same` |
| C85 | Evaluation keeps the stack below it | proved | `Ctl_Props.v` | invariant over the steps: the stack is a list of frames on the old stack, with the table of frame sizes in Ctl_Spec.v; one lemma per continuation | `stack_discipline`, `var_leaks_refuted` |
| C86 | trap catches errors | proved | `Ctl_Props.v` | the same invariant with the flags in the frames of traps, so that the handler is found by every unwinding; the two ends by calculation | `trap_begins`, `trap_error`, `trap_returns`, `trap_survives`, `trap_spawn_trap_refuted`, `trap_atomic_refuted`, `trap_stale_handler_refuted` |
| C87 | Continuations are complete | proved | `Ctl_Props2.v` | calculation in the two steps; the continuation is specified by the words of the stack, so that capture and jump compose | `callcc_captures`, `callcc_restores`, `callcc_argument_refuted`, `callcc_flags_refuted`, `callcc_small_stack_refuted` |
| C88 | A pixel is set and read back | proved | `Disp_Props.v` | the bytes with several pixels by an exhaustive check of all bytes, places and values, lifted to all images by arithmetic; positions by division | `getpixel_correct`, `putpixel_correct`, `putpixel_inside`, `put_get`, `put_get_exact`, `put_get_332`, `red_lost_refuted`, `index_spills_refuted`, `far_point_refuted` |
| C89 | An image has the bytes of all its pixels | proved | `Disp_Props.v` | arithmetic on sizes | `image_buffer_correct`, `image_buffer_refuses`, `image_valid`, `valid_rounds_refuted`, `valid_wraps_refuted` |
| C90 | Clearing an image | proved | `Disp_Props.v` | induction over the bytes written, then the value of each pixel by arithmetic | `clear_correct`, `clear_get`, `clear_565`, `clear_565_refuted` |
| C91 | Shapes cover their points | proved | `Disp_Props2.v` | sets of points, closed under sequencing; induction over rows and columns; triangles by barycentric coordinates, discs by the convexity of a row, lines by an invariant on the error term | `rectangle_filled`, `rectangle_outline`, `outline_corner_refuted`, `triangle_filled`, `triangle_overflow_refuted`, `circle_filled`, `line_correct`, `line_end_refuted` |
| C92 | An atomic block is atomic throughout | proved | `Ctl_Props3.v` | the frames of C85 with the additional information that there is none of EXIT_ATOMIC among them while is_atomic is set | `atomic_throughout`, `atomic_ends`, `atomic_nested`, `atomic_rest_refuted` |
| C93 | map applies the function to each element | proved | `Map_Props.v`, `Map_Props2.v` | invariant between the rounds on the cells of the application, the results and the rest of the list; the evaluator in between is any relation that keeps what the stack holds | `map_correct`, `map_cells`, `map_nil`, `map_refuses`, `map_shares_refuted` |
| C94 | reverse reverses | proved | `Map_Props.v` | induction over the list | `reverse_correct`, `reverse_refuses` |
| C95 | The loop macros expand to loops | proved | `Loop_Props.v`, `Loop_Props2.v` | the nested calls as a nondeterministic reduction; invariant that fewer cells are left than the remaining calls ask for, which survives a failing call because no call asks for more cells than those around it together | `loopfor_expands`, `loopwhile_expands`, `looprange_expands`, `loopforeach_expands`, `loop_macros_refuse`, `loop_macros_end`, `loopforeach_refuted` |
| C96 | Drawing arguments are decoded | proved | `DispArg_Props.v` | induction over the arguments, with the decoded structure related to what was given so far; the overruns by computation | `decode_accepts`, `decode_refuses`, `decode_nine_numbers_refuted`, `decode_four_numbers_refuted` |
| C97 | random is the linear congruence it names | proved | `Rand_Props.v` | the modulus is proved prime by trial division inside Coq; the order of the multiplier by the prime factors of the modulus less one; the short cycle by computation and then induction over the calls | `random_range`, `random_64`, `random_period_64`, `random_stuck_refuted`, `random_short_refuted`, `seed_correct` |

## What is modelled, per C file

| file | modelled | not modelled |
|---|---|---|
| `src/lbm_memory.c` | init, status bits, allocate (next fit), free, shrink, longest_free, num_free, reserve | `memory_min_free`, `lbm_memory_ptr_inside` beyond the check in free |
| `include/lbm_defines.h`, `include/heap.h` | tags, masks, encoders, decoders, predicates, symbol ids | |
| `src/heap.c` | init, free list, cell and list allocation, car/cdr/cons/set, list functions, array allocation, stack-based and pointer-reversal marking, sweep, constant heap, boxed encoders | `lbm_perform_gc` timing, visualisation, statistics that no function reads |
| `src/stack.c` | all | |
| `src/env.c` | all | |
| `src/symrepr.c`, `src/extensions.c` | symbol table, fixed symbols, extension table | linked blocks of the symbol list (kept as a list) |
| `src/lbm_channel.c` | buffered and string channels | |
| `src/print.c` | all | `%f`/`%lf` of `snprintf`, descriptors of custom types (parameters) |
| `src/tokpar.c` | all tokenizer functions; floats up to their text | `strtod`/`strtof` |
| `src/fundamental.c` | integer arithmetic, comparison, bit operations, `struct_eq`, mailbox size, global environment operations; `list`, `append`, `length`, `range`, `take`, `drop`, `ix`, `setix`, `acons`, `assoc`, `cossa`, `setassoc`, `mkarray`, `array-to-list`, `list-to-array`; conversions between the integer types | float operands, conversions to and from floats, the symbol conversions, `type-of`, `dm-create`, `dm-alloc` |
| `src/extensions/set_extensions.c` | all | |
| `src/extensions/array_extensions.c` | all but the float functions | `bufset-f32`, `bufget-f32` |
| `src/extensions/string_extensions.c` | `str-len`, `str-part`, `str-to-upper`, `str-to-lower`, `str-replicate`, `str-join`, `str-split`, `str-replace`, `str-find`, `str-cmp` | `str-from-n`, `str-to-i`, `str-to-f`, `to-str`, `to-str-delim` |
| `src/extensions/loop_extensions.c` | all | |
| `src/lbm_flat_value.c` | all of flatten and unflatten | `lbm_get_max_flatten_depth` setters |
| `src/lbm_defrag_mem.c` | all | |
| `src/eval_cps.c` | contexts and queues, mailboxes, blocking, sleep, events, atomic, kill, gc driver, global variables, `match`/`recv`/`recv-to`, sort/merge/rotate, quasi-quotation expansion; the reader; the evaluator and its continuations for quote, define, progn, var, lambda, if, cond, let, and, or, setq, loop, eval, application, trap, atomic, call-cc, map, reverse | incremental evaluation while reading, row and column of read errors, move-to-flash, dynamic loading, profiling |
| `repl/packet.c`, `repl/crc.c`, `repl/buffer.c` | all but the float codecs of `buffer.c` and the timeout of `packet.c` | |
| `repl/repl.c` | the flash write function | the rest |
| `src/extensions/display_extensions.c`, `include/extensions/display_extensions.h` | decoding of the arguments, images and their sizes, pixels, clearing, rectangles, filled triangles and circles, thin lines | thick and dotted lines, outlines of circles and triangles, arcs, rounded rectangles, text, blit, rendering |
| `src/extensions/random_extensions.c` | random, seed | the registration |
| `tjpgd.c`, `ttf`, `matvec`, `math`, `platform/*`, `repl/repl_exts.c`, `repl/lbm_sdl.c` | | all |

Each model file starts with the list of its simplifications.

## Garbage collection in the evaluator

The evaluator of `Eval_Model.v` calls the collector of `GC_Model.v` wherever the C code does, with the roots it has at that point: words marked beforehand, registers, stack, the other contexts and the global environment. Two things are left open by the class `Host`: the roots of the other contexts, and the words that stack slots hold before they are written. The hypothesis `clean_stack` of the theorems of C60, C61 and C63 says that the latter are not pointers into the heap; C64 shows that the code does not ensure it. The collector gets a fixed amount of fuel (`gc_fuel`), which `gc_bounded` (C11) and the invariant show to suffice. The other subsystems (match, sort, quasi-quotation, sets, environments, flat values) are modelled between collections: their theorems ask for enough free cells.

## Floats

Floats are raw bit patterns where they are only moved or compared (flat values, equality); float arithmetic is not modelled.

## Findings

Ways in which the code does not do what the property asks, each a theorem:

* `lbm_memory_free` of a pointer into a block, or of a freed one, can free words of another block (C06); `longest_free` wraps below the reserve (C05).
* Marking ignores a refused push of a lisp array: its contents are then freed while reachable (C09). Cells of shared environments are counted once per context (C10). Arrays that contain each other in a ring make marking run for ever (C11).
* Unflatten reads past its buffer for byte arrays and symbols, writes through NULL when memory is out, and its 32-bit element count wraps (C14). Failing to flatten leaks both blocks and returns nil (C58); predicted sizes are positive for values that cannot be flattened (C13).
* `setq` of an unbound variable and `lbm_define` on a full heap overwrite the whole bucket of the global environment (C16). A local variable set to the placeholder symbol is unbound (C15).
* Fixed symbols with two names (C17); a peek beyond the buffer of a channel aliases (C18); a write to a string channel over an empty array is out of bounds (C51).
* Shrinking a mailbox below the pending mail overruns it (C23). Bindings of a failed `recv` case stay; a full heap makes `recv` block (C24). `recv-to` computes its second wait from the encoded word (C48).
* A thread that ends inside `atomic` stops the scheduler (C28).
* Signed overflow is undefined for ordinary operands (C29). 64-bit division truncates its dividend; a divisor with 32 low zero bits counts as zero; least / -1 (C30). Mixed signed and unsigned comparison (C31). `(< 1 0 2)` is true (C32). Shifts by large amounts (C52).
* `sort` with a strict comparator is not stable (C34) and overwrites the variables captured by the comparator (C53). `rotate` loses a single element (C36). Guards leak bindings (C54).
* `buffer_get_int32` is undefined for negative numbers (C39).
* One free cell is not enough for a defragmentable allocation after a failed first attempt (C41).
* `0x` reads as 0 (C43); 129 digits overrun a buffer; a quote at the end of input takes one character too many (C56).
* The last word of the constant heap can never be allocated; the 64-bit REPL compares with 32 ones (C44).
* Equality is not reflexive on channels, and does not end on cycles (C46). Clearing an extension takes the low 16 bits of the symbol (C50).
* Pointer-reversal marking does not mark a channel's dependency, loses cells for continuation values in arrays, and uses the C stack for nested arrays (C49).
* A loop evaluates its condition in whatever environment its body left: a `let` at the end of the body shadows the loop variable, a call makes it unbound (C62).
* A call with rest arguments collects garbage with three stack words as roots that were not written yet: whatever the stack held before decides between the right value, undefined behaviour and out of memory (C64).
* The symbol `out_of_memory` as the value of `setq` or `car` is taken for a failed allocation (C65).
* The reader accepts `(1 2}`, `{1)`, `(1 ] 2)`, `(1 . ])`, `')` and `'.`; the brackets become symbols of the value. A program ends silently at a closing parenthesis too many. A double for which there is no memory is read as the symbol out_of_memory, without a collection and without an error (C69).
* An array of values is printed like a byte array, and a symbol with capitals is read as another symbol (C70).
* Printing an empty byte array, or binary data whose first byte is not a visible character, reads the byte before the array; an empty lisp array is printed as `[)`; a symbol without name as nothing (C67).
* `(str-replicate -1 97)` writes 4294967295 bytes into a block of none; `str-join` reads behind a delimiter without a 0; the case conversions are undefined for characters from 128 on where char is signed (C74).
* `range` overflows an int when it counts down to the smallest one, and wraps on 32 bits (C81). `mkarray` of 2^30+1 elements returns an array of one on 32 bits (C82). `setassoc` compares keys by word and does not find an entry with an equal string as key (C83).
* On 32 bits the range check of `bufset` and `bufget` wraps: index -1 accesses the byte before the array (C72). `bufget-i32` loses the upper four bits (C71). `bufcpy` inside one array copies overlapping ranges with `memcpy` (C73).
* A `var` at the end of a `progn`, or of a closure without parameters, binds its variable in an enclosing `progn` too (C85).
* `trap` does not catch anything in a context made by `spawn-trap`; an error inside `atomic`, caught or not, leaves the system atomic; calling a closure without its arguments can make the error handler take a stale word of the stack for a trap (C86).
* The argument of a continuation is evaluated in the environment left by the expression of the function; the trap flag of the context is not restored, which ends contexts; a context with a smaller stack overruns it (C87).
* With 16 bits per pixel images lose the red of every color (C88), and `img-clear` clears a quarter of them (C90). An index too large for the format changes the pixels beside it, and coordinates are cut to 16 bits (C88). The check that an array is large enough for its image rounds down and wraps (C89). The outline of a rectangle has no lower right corner, a line with |dy| < |dx| <= 2|dy| no last point, and large triangles overflow an int (C91).
* If the error of an atomic block within an atomic block is caught there, the rest of the outer block is not atomic (C92). `map` uses one expression for all elements: `(map quote '(1 2 3))` is `((quote 3) (quote 3) (quote 3))` (C93).
* `loopforeach` ends at the first element that is nil, and evaluates its list expression twice (C95).
* `decode_args` of the drawing functions writes a ninth number behind `args[8]`, and the fourth number of an attribute behind its `args[3]`; for `(resolution 1 2 3 4)` that is behind the whole structure on the C stack (C96).
* On 32 bit `random` repeats every 18535 calls; on 64 bit it returns 194187152 for ever after `(seed 194187152)` (C97).

## Trusted base

* Coq's kernel. `vm_compute` is used for closed computations; no other kernel extension and no flag.
* The fidelity of the transcription to the C text, with the simplifications listed at the head of each model file and in the table above; that the C compiler implements C with the implementation-defined choices all supported compilers make (two's complement, arithmetic right shift of signed numbers, 8-bit bytes).
* `Print Assumptions` of each of the 381 theorems named in `MANIFEST.json` prints "Closed under the global context": no axiom, own or of the standard library, is used. `coqchk` on the whole project lists the axioms of the loaded standard library file `Coq.ssr.ssrunder` only, which no theorem depends on.

## Testing the theorems

`seeded/LOG.jsonl` records wrong programs: edits to the model as a realistic bug would make them, what then fails to check, and the theorems that were tightened because a wrong program passed. The edits are made in a scratch copy, rebuilt, and discarded. `proof_stopped_at` is the proof that Coq rejected. `theorems_failed` are the claimed theorems that are this proof or use it, directly or through lemmas, by the current `.glob` files; that they are false of the wrong program is not proved. `theorems_not_reached` are claimed theorems that only come later in a file that did not compile, and say nothing about the edit. Until commit 1012484 the log did not make this difference, and fifteen of its lines had the description of another edit because ids had been used twice; both have been corrected from the recorded results.
