{"id": "C01", "title": "Live memory blocks never overlap", "statement": "If a program only frees or shrinks pointers it got from the allocator and has not freed, then at every moment all blocks it holds lie inside the managed memory and no two of them share a word.", "quantifier": "every sequence of allocate / malloc / free / shrink calls with any sizes, any reserve level, any memory size, on 32 and 64 bit words", "why_tests_cant": "overlap needs a particular fragmentation history and a particular position of the next-fit cursor; tests only sample a few histories", "anchors": ["src/lbm_memory.c:lbm_memory_allocate", "src/lbm_memory.c:lbm_memory_allocate_internal", "src/lbm_memory.c:lbm_memory_free", "src/lbm_memory.c:lbm_memory_shrink"]}
{"id": "C02", "title": "Allocation succeeds exactly when a hole exists", "statement": "After any valid history, a request for n >= 1 words that passes the reserve check returns a pointer if and only if there are n adjacent words not covered by any live block; the returned words were all free.", "quantifier": "every valid call history and every n", "why_tests_cant": "the cursor-based search must not miss a hole for any cursor position or fragmentation pattern", "anchors": ["src/lbm_memory.c:lbm_memory_allocate_internal"]}
{"id": "C03", "title": "Free-word counter is exact", "statement": "After any valid history lbm_memory_num_free equals the number of managed words minus the sum of the sizes of the live blocks.", "quantifier": "every valid call history", "why_tests_cant": "a drift of one word only shows after a specific mix of shrink and free calls", "anchors": ["src/lbm_memory.c:lbm_memory_num_free", "src/lbm_memory.c:lbm_memory_free", "src/lbm_memory.c:lbm_memory_shrink"]}
{"id": "C04", "title": "Freeing everything restores the whole memory", "statement": "After any valid history in which every block has been freed, one request for the whole memory (with no reserve) succeeds: no fragmentation or leak remains.", "quantifier": "every valid call history that ends with no live blocks", "why_tests_cant": "leaks of single status marks appear only after specific histories", "anchors": ["src/lbm_memory.c:lbm_memory_free", "src/lbm_memory.c:lbm_memory_allocate_internal"]}
{"id": "C05", "title": "longest_free is the largest request that can succeed", "statement": "When the number of free words is at least the reserve, lbm_memory_longest_free returns the largest n for which lbm_memory_allocate(n) would succeed (0 if none). When it is below the reserve the returned value is not usable: it wraps around.", "quantifier": "every valid call history and every reserve level", "why_tests_cant": "the reserve correction and the scan interact for all fragmentations", "anchors": ["src/lbm_memory.c:lbm_memory_longest_free"]}
{"id": "C06", "title": "A rejected free does no harm", "statement": "A call of lbm_memory_free on a pointer that is not the start of a live block returns 0 and has no effect on later allocations (no later block overlaps a live one).", "quantifier": "every valid history followed by one bad free and one allocation", "why_tests_cant": "the damage needs a bad free followed by an allocation of a matching size", "anchors": ["src/lbm_memory.c:lbm_memory_free"]}
{"id": "C07", "title": "Immediate values survive encoding", "statement": "Integers, unsigned integers, characters, symbols and cell pointers within their documented ranges decode to what was encoded, and values of two different immediate kinds are never equal; integers outside the range wrap modulo 2^28 (32 bit) or 2^56 (64 bit).", "quantifier": "every value of each kind, both word sizes", "why_tests_cant": "the domain has 2^32 / 2^64 elements per kind", "anchors": ["include/heap.h:lbm_enc_i", "include/heap.h:lbm_dec_i", "include/heap.h:lbm_enc_cons_ptr", "include/heap.h:lbm_type_of", "include/lbm_defines.h"]}
{"id": "C08", "title": "Heap allocation never hands out a cell twice", "statement": "A cell returned by cons or by list allocation is a cell that was on the free list, is not returned again before it is recovered by garbage collection, and the number of allocated plus free cells is always the heap size; list allocation either returns exactly n linked cells or fails and changes nothing.", "quantifier": "every sequence of cell and list allocations from any well formed heap of any size", "why_tests_cant": "aliasing depends on the free list shape which depends on the whole history", "anchors": ["src/heap.c:lbm_heap_allocate_cell", "src/heap.c:lbm_heap_allocate_list", "src/heap.c:generate_freelist"]}
{"id": "C09", "title": "Garbage collection keeps everything reachable", "statement": "After mark and sweep, every cell reachable from the roots still exists with the same car and cdr as before the collection and is not on the free list.", "quantifier": "every heap graph (shared, cyclic, any size) and every set of roots for which marking completes", "why_tests_cant": "heap graphs are unbounded; losing a cell needs a special sharing pattern", "anchors": ["src/heap.c:lbm_gc_mark_phase", "src/heap.c:lbm_gc_sweep_phase"]}
{"id": "C10", "title": "Garbage collection frees everything unreachable", "statement": "After mark and sweep, every cell not reachable from the roots is on the free list exactly once, the free list contains nothing else, all mark bits are clear, and the reported number of recovered and marked cells adds up to the heap size.", "quantifier": "every heap graph and every set of roots for which marking completes", "why_tests_cant": "a leak shows only on specific graphs and after many collections", "anchors": ["src/heap.c:lbm_gc_sweep_phase", "src/heap.c:lbm_gc_mark_phase"]}
{"id": "C11", "title": "Marking terminates", "statement": "Marking always terminates: for heaps whose lisp arrays do not form a cycle made of arrays only, it stops after a number of steps bounded by the heap contents, or reports that the GC stack is full. For a lisp array that contains itself the marking loop never terminates.", "quantifier": "every heap graph, every GC stack size", "why_tests_cant": "non-termination cannot be observed by a finite test", "anchors": ["src/heap.c:lbm_gc_mark_phase"]}
{"id": "C12", "title": "Flatten then unflatten gives back the value", "statement": "For every flattenable value, unflattening the flattened bytes yields a structurally equal value when enough heap and memory is available.", "quantifier": "every nested value of conses, numbers of every type, symbols, byte arrays and lisp arrays, any depth up to the limit", "why_tests_cant": "values are unbounded trees over 2^64 numbers", "anchors": ["src/lbm_flat_value.c:flatten_value_c", "src/lbm_flat_value.c:lbm_unflatten_value"]}
{"id": "C13", "title": "Predicted flat size is exact and never overrun", "statement": "The size computed before flattening is exactly the number of bytes that flattening writes, so the writer never runs out of buffer on values the size function accepts.", "quantifier": "every flattenable value", "why_tests_cant": "size and writer are two recursive functions that must agree on all trees", "anchors": ["src/lbm_flat_value.c:flatten_value_size_internal", "src/lbm_flat_value.c:flatten_value_c"]}
{"id": "C14", "title": "Unflatten stays inside its buffer", "statement": "Unflattening arbitrary bytes either yields a value or an error and never reads beyond the given buffer.", "quantifier": "every byte string", "why_tests_cant": "only specific malformed inputs read out of bounds", "anchors": ["src/lbm_flat_value.c:lbm_unflatten_value_internal"]}
{"id": "C15", "title": "Environment update and lookup", "statement": "After setting a key to a value in an environment, looking the key up gives the value and looking any other key up gives what it gave before; setting never fails except for lack of memory; keys are unique if they were.", "quantifier": "every environment, key and value", "why_tests_cant": "environments are unbounded lists", "anchors": ["src/env.c:lbm_env_set", "src/env.c:lbm_env_lookup_b", "src/env.c:lbm_env_set_functional", "src/env.c:lbm_env_modify_binding", "src/env.c:lbm_env_drop_binding"]}
{"id": "C16", "title": "Global environment behaves as one map", "statement": "The 32-bucket global environment is observably a single finite map from symbols to values: define, set and undefine of one symbol never affect another symbol.", "quantifier": "every sequence of global definitions, updates and removals", "why_tests_cant": "bucket interference needs colliding symbols", "anchors": ["src/env.c:lbm_get_global_env", "src/env.c:lbm_global_env_lookup"]}
{"id": "C17", "title": "Symbol interning is a bijection", "statement": "Two names get the same symbol if and only if they are the same name, the symbol of a name never changes once assigned, and the name of a symbol is the name it was created with.", "quantifier": "every sequence of symbol creations with any names", "why_tests_cant": "needs all pairs of names over all histories", "anchors": ["src/symrepr.c:lbm_add_symbol_base", "src/symrepr.c:lbm_get_symbol_by_name", "src/symrepr.c:lbm_get_name_by_symbol"]}
{"id": "C18", "title": "Buffered channel is a bounded FIFO", "statement": "Characters come out of a buffered character channel exactly once, in the order written; a write is refused exactly when the buffer holds its capacity; peek(n) for n smaller than the fill shows the n-th pending character.", "quantifier": "every interleaving of reads, writes, peeks and drops", "why_tests_cant": "ring index wrap-around combines with every fill level", "anchors": ["src/lbm_channel.c:buffered_write", "src/lbm_channel.c:buffered_read", "src/lbm_channel.c:buffered_peek", "src/lbm_channel.c:buffered_drop"]}
{"id": "C19", "title": "Context queues behave as lists", "statement": "The doubly linked ready and blocked queues behave as plain lists: enqueue appends, dequeue takes the oldest, dropping a context removes just that one, forward and backward links stay consistent.", "quantifier": "every sequence of queue operations", "why_tests_cant": "pointer mistakes show only for particular positions (first, last, only, middle)", "anchors": ["src/eval_cps.c:enqueue_ctx_nm", "src/eval_cps.c:drop_ctx_nm", "src/eval_cps.c:dequeue_ctx_nm"]}
{"id": "C20", "title": "No thread is lost or duplicated", "statement": "At every moment each living thread is in exactly one place: running, ready queue or blocked queue; it leaves only by finishing or being killed.", "quantifier": "every sequence of scheduler steps: spawn, yield, block, unblock, send, wake up, finish, error", "why_tests_cant": "needs every interleaving of scheduling events", "anchors": ["src/eval_cps.c:enqueue_ctx_nm", "src/eval_cps.c:wake_up_ctxs_nm", "src/eval_cps.c:lbm_unblock_ctx_r", "src/eval_cps.c:block_current_ctx", "src/eval_cps.c:yield_ctx", "src/eval_cps.c:find_receiver_and_send"]}
{"id": "C21", "title": "Ready threads run in FIFO order", "statement": "A thread in the ready queue with k threads before it is running after at most k+1 scheduler dispatches, whatever the other threads do, as long as no thread is killed and no event reorders the queue.", "quantifier": "every queue length and every behaviour of the other threads", "why_tests_cant": "starvation is a property of infinite runs", "anchors": ["src/eval_cps.c:lbm_run_eval", "src/eval_cps.c:dequeue_ctx_nm", "src/eval_cps.c:enqueue_ctx_nm"]}
{"id": "C22", "title": "Mailbox delivers in order and drops the oldest when full", "statement": "Messages are stored in arrival order; when the mailbox is full the oldest message is dropped; removing a message keeps the order of the others.", "quantifier": "every sequence of sends and receives, any mailbox size", "why_tests_cant": "combination of overflow and selective receive over all histories", "anchors": ["src/eval_cps.c:mailbox_add_mail", "src/eval_cps.c:mailbox_remove_mail"]}
{"id": "C23", "title": "Changing the mailbox size is safe", "statement": "Setting the mailbox size keeps pending messages and never writes outside the new mailbox.", "quantifier": "every number of pending messages and every new size", "why_tests_cant": "the overflow depends on pending mail versus size", "anchors": ["src/eval_cps.c:mailbox_change_size", "src/fundamental.c:fundamental_set_mailbox_size"]}
{"id": "C24", "title": "Selective receive picks the first matching message", "statement": "recv takes the oldest message that matches some pattern and, for that message, the first matching pattern; the message is removed exactly when it is handled and all others stay in order.", "quantifier": "every mailbox content and every pattern list", "why_tests_cant": "unbounded mailboxes and patterns", "anchors": ["src/eval_cps.c:find_match", "src/eval_cps.c:cont_recv", "src/eval_cps.c:receive_base"]}
{"id": "C25", "title": "Pattern matching is sound and complete", "statement": "A pattern matches a value exactly when the value is an instance of the pattern, and the bindings produced are those of the variables in the pattern.", "quantifier": "every pattern and every value", "why_tests_cant": "unbounded trees", "anchors": ["src/eval_cps.c:match"]}
{"id": "C26", "title": "Sleeping threads do not wake early", "statement": "A sleeping thread is moved to the ready queue only when at least its sleep time has passed on the clock, also across clock wrap-around on 32 bit.", "quantifier": "every timestamp, sleep time and current time", "why_tests_cant": "wrap-around happens once in 71 minutes", "anchors": ["src/eval_cps.c:wake_up_ctxs_nm"]}
{"id": "C27", "title": "Event queue is a bounded FIFO", "statement": "Events are handled in the order in which they were accepted, each once; an event is rejected exactly when the queue is full.", "quantifier": "every interleaving of event submissions and pops and any queue size", "why_tests_cant": "ring wrap-around with every fill level", "anchors": ["src/eval_cps.c:event_internal", "src/eval_cps.c:lbm_event_pop"]}
{"id": "C28", "title": "An error inside atomic does not stop other threads", "statement": "If a thread that is executing an atomic block ends with an error, is killed or finishes, other ready threads continue to be scheduled.", "quantifier": "every scheduler state", "why_tests_cant": "a hang cannot be observed by a finite test and needs the error inside atomic", "anchors": ["src/eval_cps.c:eval_atomic", "src/eval_cps.c:error_ctx_base", "src/eval_cps.c:lbm_run_eval"]}
{"id": "C29", "title": "Integer arithmetic is exact modulo the type width", "statement": "Addition, subtraction and multiplication of integers give the mathematical result reduced to the width of the wider operand type; the result type is the promoted type.", "quantifier": "all operand values and all pairs of integer types, both word sizes", "why_tests_cant": "2^128 operand pairs", "anchors": ["src/fundamental.c:add2", "src/fundamental.c:sub2", "src/fundamental.c:mul2"]}
{"id": "C30", "title": "Division agrees with mathematics", "statement": "Division and modulo of integers give truncated quotient and remainder of the operands, and signal division by zero exactly when the divisor is zero.", "quantifier": "all operand values and all pairs of integer types", "why_tests_cant": "failures only for operands above 2^32 or special divisors", "anchors": ["src/fundamental.c:div2", "src/fundamental.c:mod2"]}
{"id": "C31", "title": "Numeric comparison is a total order within a type", "statement": "For numbers of the same type the comparisons =, <, >, <=, >= agree with the mathematical order; for mixed types they agree when both fit in the promoted type.", "quantifier": "all pairs of integers and all type pairs", "why_tests_cant": "2^128 pairs", "anchors": ["src/fundamental.c:compare_num", "src/fundamental.c:fundamental_lt", "src/fundamental.c:fundamental_leq"]}
{"id": "C32", "title": "Variadic comparison", "statement": "(< a b1 .. bn) holds exactly when a is less than every bi.", "quantifier": "all argument lists", "why_tests_cant": "unbounded argument lists", "anchors": ["src/fundamental.c:fundamental_lt", "src/fundamental.c:fundamental_geq"]}
{"id": "C33", "title": "List operations agree with sequence algebra", "statement": "length, reverse, destructive reverse, copy, append, drop, take and index on heap lists compute the corresponding operation on sequences, and the non-destructive ones leave existing cells untouched.", "quantifier": "every proper list on every heap, every index", "why_tests_cant": "unbounded lists, aliasing with other data", "anchors": ["src/heap.c:lbm_list_length", "src/heap.c:lbm_list_reverse", "src/heap.c:lbm_list_destructive_reverse", "src/heap.c:lbm_list_copy", "src/heap.c:lbm_list_append", "src/heap.c:lbm_list_drop", "src/heap.c:lbm_index_list"]}
{"id": "C34", "title": "Sort sorts", "statement": "sort returns a stable sorted permutation of the input list with respect to the comparator, for every list length.", "quantifier": "every list and every total preorder comparator", "why_tests_cant": "unbounded lists and comparators", "anchors": ["src/eval_cps.c:apply_sort", "src/eval_cps.c:cont_merge_rest", "src/eval_cps.c:cont_merge_layer"]}
{"id": "C35", "title": "Merge merges", "statement": "merge of two sorted lists is the sorted, stable merge of both.", "quantifier": "every pair of sorted lists", "why_tests_cant": "unbounded lists", "anchors": ["src/eval_cps.c:apply_merge", "src/eval_cps.c:cont_merge_rest"]}
{"id": "C36", "title": "Rotate rotates", "statement": "rotate by k returns the list rotated by k modulo its length in the direction of the sign.", "quantifier": "every list and every integer k", "why_tests_cant": "unbounded lists and shifts", "anchors": ["src/eval_cps.c:apply_rotate"]}
{"id": "C37", "title": "Packets arrive intact", "statement": "The bytes produced by sending a payload, fed in any chunking to the receiver, deliver exactly that payload, and sequences of packets are delivered in order.", "quantifier": "every payload up to the maximum length and every sequence of packets", "why_tests_cant": "2^(8*512) payloads and all sequences", "anchors": ["repl/packet.c:packet_send_packet", "repl/packet.c:packet_process_byte", "repl/packet.c:try_decode_packet"]}
{"id": "C38", "title": "CRC detects burst errors", "statement": "The table driven crc16 equals the bitwise CCITT polynomial CRC and detects every burst error confined to 16 consecutive bits in a message of any length.", "quantifier": "every message length, every burst", "why_tests_cant": "all messages of all lengths", "anchors": ["repl/crc.c:crc16", "repl/crc.c:crc16_with_init"]}
{"id": "C39", "title": "Buffer integer codecs round trip", "statement": "Reading back a number appended to a buffer gives the number, advances the index by the width and leaves other bytes alone.", "quantifier": "every number and every offset", "why_tests_cant": "2^64 values", "anchors": ["repl/buffer.c"]}
{"id": "C40", "title": "Defragmentable memory keeps live arrays intact", "statement": "Allocation, freeing and compaction in a defragmentable memory never change the contents of a live array, never make two live arrays overlap and keep each array header pointing at its own data.", "quantifier": "every history of allocations and frees", "why_tests_cant": "compaction moves data in a layout dependent way", "anchors": ["src/lbm_defrag_mem.c:lbm_defrag_mem_alloc", "src/lbm_defrag_mem.c:lbm_defrag_mem_defrag", "src/lbm_defrag_mem.c:lbm_defrag_mem_free"]}
{"id": "C41", "title": "Defragmentable memory allocation is complete", "statement": "An allocation in a defragmentable memory succeeds whenever the total free space is enough (compaction happens as needed).", "quantifier": "every history", "why_tests_cant": "needs all layouts", "anchors": ["src/lbm_defrag_mem.c:lbm_defrag_mem_alloc"]}
{"id": "C42", "title": "Set operations", "statement": "member, set-insert and set-union compute membership, insertion and union of list-represented sets, and set-insert keeps the list duplicate free.", "quantifier": "every list and element", "why_tests_cant": "unbounded lists", "anchors": ["src/extensions/set_extensions.c"]}
{"id": "C43", "title": "Integer tokens mean their digits", "statement": "Reading a decimal or hexadecimal integer token gives the number written, modulo 2^64, and consumes exactly the digits (and suffix).", "quantifier": "every digit string", "why_tests_cant": "unbounded strings", "anchors": ["src/tokpar.c:tok_integer"]}
{"id": "C44", "title": "Constant heap is append only", "statement": "Writes to the constant heap never overwrite an earlier write and a successful write returns the address from which the value can be read back.", "quantifier": "every sequence of constant heap writes", "why_tests_cant": "needs all histories", "anchors": ["src/heap.c:lbm_allocate_const_cell", "src/heap.c:lbm_write_const_raw", "src/heap.c:write_const_cdr"]}
{"id": "C45", "title": "Evaluation stack is LIFO and bounded", "statement": "Pushing then popping returns the value; pushes beyond the capacity are refused and change nothing; stored continuation frames are popped in reverse order.", "quantifier": "every sequence of stack operations", "why_tests_cant": "all histories", "anchors": ["src/stack.c"]}
{"id": "C46", "title": "Structural equality is an equivalence", "statement": "eq on values is reflexive (for finite data without NaN), symmetric and transitive and holds exactly when both values denote the same tree.", "quantifier": "every pair of values", "why_tests_cant": "unbounded trees", "anchors": ["src/fundamental.c:struct_eq"]}
{"id": "C47", "title": "Quasi-quotation expansion is correct", "statement": "Evaluating the expansion of a quasi-quoted form gives the form with every unquoted expression replaced by its value and every spliced expression replaced by the elements of its value.", "quantifier": "every quasi-quoted form and every value of the unquoted expressions", "why_tests_cant": "unbounded nested forms", "anchors": ["src/eval_cps.c:cont_qq_append", "src/eval_cps.c:cont_qq_expand", "src/eval_cps.c:cont_qq_expand_list"]}
{"id": "C48", "title": "Receive timeout is kept across unrelated messages", "statement": "A thread waiting with (recv-to t ..) that is woken by a message matching no pattern waits again for a time that is derived from t.", "quantifier": "every timeout value", "why_tests_cant": "depends on encoding of the value, which a test with one value does not separate", "anchors": ["src/eval_cps.c:cont_recv_to_retry"]}
{"id": "C49", "title": "Pointer-reversal marking restores the heap", "statement": "The pointer reversing marking phase leaves every car and cdr as it was and marks exactly the reachable cells, using no stack.", "quantifier": "every heap graph", "why_tests_cant": "pointer reversal errors need special graph shapes", "anchors": ["src/heap.c:lbm_gc_mark_phase (USE_GC_PTR_REV)"]}
{"id": "C50", "title": "Extension table", "statement": "Registering a function under a new name makes it callable under a symbol whose name is that name, re-registering replaces it under the same symbol, and clearing one removes only that one.", "quantifier": "every sequence of registrations", "why_tests_cant": "all histories", "anchors": ["src/extensions.c:lbm_add_extension", "src/extensions.c:lbm_clr_extension"]}
{"id": "C51", "title": "String channel presents its string", "statement": "A string character channel delivers the characters of its string in order, answers END once they are exhausted, drops as many characters as reading them would, counts rows at newlines, and never reads outside the array it was given.", "quantifier": "every string, array length and sequence of reads, peeks and drops", "why_tests_cant": "unbounded strings and operation sequences", "anchors": ["src/lbm_channel.c:string_read", "src/lbm_channel.c:string_peek", "src/lbm_channel.c:string_drop", "src/lbm_channel.c:string_write"]}
{"id": "C52", "title": "Bitwise operations act bit by bit", "statement": "bitwise-and, -or, -xor and -not give, in the type of the first operand, the bit by bit result; shl and shr by n multiply and divide (rounding down) by two to the n modulo the type, for every n.", "quantifier": "all integers of all types, both word sizes, all shift amounts", "why_tests_cant": "2^64 operand pairs and type combinations", "anchors": ["src/fundamental.c:fundamental_shl", "src/fundamental.c:fundamental_shr", "src/fundamental.c:fundamental_bitwise_and", "src/fundamental.c:fundamental_bitwise_not"]}
{"id": "C53", "title": "Sort leaves the comparator's captured variables alone", "statement": "Sorting a list with a closure as comparator leaves every variable that the closure captured with the value it had, whatever names the closure's parameters have.", "quantifier": "every closure environment, parameter names and list", "why_tests_cant": "all environments and names; tests rarely shadow a captured variable with a comparator parameter", "anchors": ["src/eval_cps.c:apply_merge", "src/eval_cps.c:apply_sort", "src/eval_cps.c:cont_merge_rest", "src/env.c:lbm_env_set"]}
{"id": "C54", "title": "Guards and bodies of a match form run in the form's environment", "statement": "Each guard and the body of a match form is evaluated in the environment of the form extended by the bindings of its own case only, also when guards of earlier cases failed.", "quantifier": "every list of cases, with and without guards, every value matched", "why_tests_cant": "depends on how many earlier guards failed and on shadowed names", "anchors": ["src/eval_cps.c:cont_match", "src/eval_cps.c:cont_match_guard"]}
{"id": "C55", "title": "Tokenizing is independent of how the input arrives", "statement": "If the tokenizer decides on a token or an error while more characters may come, it decides the same when any further characters have come, and the same for dropping white space and comments.", "quantifier": "every prefix of input, every continuation", "why_tests_cant": "every split of every input", "anchors": ["src/tokpar.c", "src/eval_cps.c:cont_read_next_token"]}
{"id": "C56", "title": "The tokenizer stays in its buffers and in its input", "statement": "Reading a token ends, stores only inside the fixed size token buffers and takes at least one and at most all of the characters present.", "quantifier": "every input, of any length", "why_tests_cant": "overruns need particular long inputs", "anchors": ["src/tokpar.c:tok_double", "src/tokpar.c:tok_string", "src/tokpar.c:tok_symbol", "src/tokpar.c:tok_integer"]}
{"id": "C57", "title": "String and symbol tokens mean what is written", "statement": "A string of up to 256 characters written with quotes and escapes is read back exactly; a symbol of up to 255 characters is read as its characters in lower case.", "quantifier": "every string, every symbol name, whatever follows", "why_tests_cant": "unbounded strings with every mix of escapes", "anchors": ["src/tokpar.c:tok_string", "src/tokpar.c:tok_symbol"]}
{"id": "C58", "title": "Failing to flatten is reported and leaks nothing", "statement": "When a value cannot be flattened, flatten answers with an error symbol and every memory block it allocated is released.", "quantifier": "every value that cannot be flattened, every heap", "why_tests_cant": "the leak only shows after many failures, and only for some nestings", "anchors": ["src/lbm_flat_value.c:flatten_value", "src/lbm_flat_value.c:flatten_value_size_internal"]}
{"id": "C59", "title": "Destroying a defragmentable memory leaves nothing pointing into it", "statement": "When a defragmentable memory is destroyed, the cell of every array that lives in it becomes a pair of nils with its collector mark kept, the whole block is cleared, and no other heap cell is touched.", "quantifier": "every history of allocations, frees, compactions and writes", "why_tests_cant": "the walk over the block depends on the layout that the whole history left behind", "anchors": ["src/lbm_defrag_mem.c:lbm_defrag_mem_destroy", "src/lbm_defrag_mem.c:free_defrag_allocation"]}
{"id": "C60", "title": "The evaluator computes what a reference interpreter computes", "statement": "If a direct, recursive, environment-passing interpreter gives an expression a value, then the continuation machine of eval_cps.c, started on the expression in the heap, with garbage collected whenever the evaluator collects it, returns a representation of that value to the continuation it was started with, with the stack as it was, and with the same changes to variables and global definitions; or it stops with out_of_memory, which it does only if fewer cells are free at the start than a number that depends on the program alone.", "quantifier": "every expression of quote, define, progn, var, lambda, if, cond, let, and, or, setq, applications of closures, macros and built-in functions; every environment, every stack below, every heap, full or not, every set of other contexts", "why_tests_cant": "programs nest to any depth and the machine interleaves evaluation with stack frames of different layouts; a test sees one program", "anchors": ["src/eval_cps.c:evaluation_step", "src/eval_cps.c:cont_application_args", "src/eval_cps.c:cont_closure_application_args", "src/eval_cps.c:cont_progn_rest", "src/eval_cps.c:cont_bind_to_key_rest", "src/fundamental.c:fundamental_add"]}
{"id": "C61", "title": "Tail calls use no stack", "statement": "However long a chain of tail calls is, the stack needed is the largest need of any single step, and the last expression is evaluated with the stack of the first.", "quantifier": "every chain of tail positions of calls, if, cond, let, progn, macros and eval, of any length", "why_tests_cant": "a test can only run a finite number of rounds with a finite stack", "anchors": ["src/eval_cps.c:cont_closure_application_args", "src/eval_cps.c:cont_if", "src/eval_cps.c:cont_progn_rest", "src/eval_cps.c:cont_cond", "src/eval_cps.c:cont_bind_to_key_rest"]}
{"id": "C62", "title": "A loop evaluates its condition and body in the environment of its bindings", "statement": "Every evaluation of the condition and of the body of a loop happens in the environment made by the bindings of the loop.", "quantifier": "every loop, every number of rounds", "why_tests_cant": "it depends on what the last expression of the body left in the environment register", "anchors": ["src/eval_cps.c:eval_loop", "src/eval_cps.c:cont_loop", "src/eval_cps.c:cont_loop_condition"]}
{"id": "C63", "title": "A garbage collection in the middle of an evaluation changes nothing the program can see", "statement": "After every collection that the evaluator starts, whatever the words in its registers, on its stack and in the roots marked beforehand stood for, they still stand for, and variables and global definitions are as before. So an expression has the same value in heaps of all sizes in which it does not run out of memory.", "quantifier": "every state of the evaluator, every allocation site, every heap size and every number of free cells", "why_tests_cant": "a collection can fall on any allocation, and a missing root shows only if the collection falls there and the cell is reused afterwards", "anchors": ["src/eval_cps.c:gc", "src/eval_cps.c:cons_with_gc", "src/eval_cps.c:allocate_binding", "src/eval_cps.c:allocate_closure", "src/eval_cps.c:mark_context"]}
{"id": "C64", "title": "The words of the stack that the collector takes for roots have been written", "statement": "When garbage is collected, every word of the stack below the stack pointer was written since the stack pointer last passed it; so the outcome of a run depends on the program and the heap only.", "quantifier": "every state in which the evaluator collects garbage", "why_tests_cant": "it needs a collection between the reservation of stack words and their initialisation, and a harmful word left over in them", "anchors": ["src/eval_cps.c:cont_application_start", "src/eval_cps.c:stack_reserve", "src/eval_cps.c:allocate_binding"]}
{"id": "C65", "title": "A value is not taken for a failure", "statement": "setq assigns whatever value its argument has, and car returns whatever the first of a pair is; an error is raised only if something failed.", "quantifier": "every value, every amount of free memory", "why_tests_cant": "only a few of all symbols are affected", "anchors": ["src/eval_cps.c:cont_setq", "src/eval_cps.c:perform_setvar", "src/eval_cps.c:call_fundamental", "src/fundamental.c:fundamental_car"]}
{"id": "C66", "title": "Printing a value writes its text", "statement": "lbm_print_value leaves in the buffer the text of the value, cut off after one character less than the buffer has, and a zero after it. The answer is 1 exactly if the whole text is there. The text of a list is its elements between parentheses with single spaces, with a dot before a tail that is not nil; numbers are decimal with the suffix of their type; a byte array that holds a text is shown as a string with escapes, any other as numbers between brackets.", "quantifier": "every finite value built from pairs, arrays, byte arrays, numbers and named symbols, of any depth and length; every buffer size from 1 on; every print stack of more than four words per level and two; both word sizes", "why_tests_cant": "the printer is a loop with an explicit stack of instructions; nesting of lists, arrays and dotted tails in each other gives unboundedly many stack shapes", "anchors": ["src/print.c:lbm_print_internal", "src/print.c:lbm_print_value", "src/print.c:push_n", "src/print.c:is_printable_string"]}
{"id": "C67", "title": "Every value can be printed", "statement": "Printing any value reads only the memory of that value, and different kinds of value stay recognisable in the text: brackets match, and every element appears.", "quantifier": "every value, including empty arrays, binary data and symbols without a name", "why_tests_cant": "binary data in arrays is arbitrary, and an empty array is a corner case", "anchors": ["src/print.c:is_printable_string", "src/print.c:emit_bytearray", "src/print.c:lbm_print_internal", "src/print.c:emit_symbol"]}
{"id": "C68", "title": "Reading gives the value the text denotes", "statement": "read, on a string or a channel, returns the value of the first expression of the text and leaves the characters behind it; read-program returns the list of all expressions. White space and comments between expressions are skipped. Lists, dotted lists, { } blocks, quotes, strings with escapes, byte arrays, characters, symbols in any case and integers of all types in decimal and hexadecimal are read as what they stand for. All values built before keep their meaning, and known symbols their number.", "quantifier": "every expression of any size and nesting, every spelling of it with any blanks and comments, any text behind it; every heap with cells and memory enough, every reachable symbol table; both word sizes", "why_tests_cant": "the reader is a set of continuations on a stack; nesting makes unboundedly many stack shapes, and the blanks, comments and spellings that may stand between two tokens are endless", "anchors": ["src/eval_cps.c:cont_read_next_token", "src/eval_cps.c:cont_read_append_continue", "src/eval_cps.c:cont_read_dot_terminate", "src/eval_cps.c:cont_read_expect_closepar", "src/eval_cps.c:cont_read_append_array", "src/eval_cps.c:cont_wrap_result", "src/eval_cps.c:cont_read_done", "src/eval_cps.c:read_finish"]}
{"id": "C69", "title": "Text that is no expression is refused", "statement": "Reading a text that does not start with an expression, or a program that is not a sequence of expressions, is an error: a list that is not closed, brackets that do not match, a stray closing bracket or dot. Reading a number without memory for it is an error too.", "quantifier": "every text; every state of the heap", "why_tests_cant": "malformed texts are endless; the tests check a few unclosed lists", "anchors": ["src/eval_cps.c:cont_read_next_token", "src/eval_cps.c:read_finish", "src/eval_cps.c:cont_wrap_result", "src/eval_cps.c:cont_read_append_continue"]}
{"id": "C70", "title": "Printing and reading back gives an equal value", "statement": "If a value is printed and the whole text fits into the buffer, then reading that text gives a value equal to it.", "quantifier": "every finite value of any depth; every print stack and buffer large enough; every heap and symbol table", "why_tests_cant": "values are unbounded trees, and printer and reader are separate programs with separate tables of escapes, suffixes and brackets", "anchors": ["src/print.c:lbm_print_internal", "src/eval_cps.c:cont_read_next_token", "src/tokpar.c:tok_string", "src/tokpar.c:tok_integer"]}
{"id": "C71", "title": "Numbers in byte arrays are written and read back", "statement": "bufset-i8 to bufset-u32 replace exactly the bytes of the number at the given offset, in the given byte order, and change nothing else; bufget-i8 to bufget-u32 return the number those bytes stand for, signed or not. What is written is read back modulo the width, and a number that fits is read back unchanged. An access that does not lie inside the array is an error and changes nothing.", "quantifier": "every array, offset, value, width and byte order; values of every integer type", "why_tests_cant": "offset, width, sign and byte order multiply, and values range over 2^64", "anchors": ["src/extensions/array_extensions.c:buffer_append_bytes", "src/extensions/array_extensions.c:buffer_get_uint"]}
{"id": "C72", "title": "Array accesses stay inside the array", "statement": "Whatever arguments bufset and bufget get, in number and type, they access only bytes of the array, and if they fail nothing is changed.", "quantifier": "all argument lists; all indices, also negative and large ones", "why_tests_cant": "the offending indices are single points at the end of the 32 bit range", "anchors": ["src/extensions/array_extensions.c:decode_append_args", "src/extensions/array_extensions.c:decode_get_args", "src/extensions/array_extensions.c:buffer_append_bytes"]}
{"id": "C73", "title": "Clearing, copying, bits and freeing", "statement": "bufclear sets the given range, cut to the array; bufcpy copies the given range, cut to both arrays, also within one array; bufset-bit changes exactly the given bit; buflen is the number of bytes; after free the array is refused by all of them and its two memory blocks are freed once.", "quantifier": "every array, range and bit; arguments of every integer type", "why_tests_cant": "ranges and their overlaps are unbounded", "anchors": ["src/extensions/array_extensions.c:array_extensions_bufclear", "src/extensions/array_extensions.c:array_extensions_bufcpy", "src/extensions/array_extensions.c:array_extensions_bufset_bit", "src/heap.c:lbm_heap_explicit_free_array"]}
{"id": "C74", "title": "Strings are taken apart and put together", "statement": "str-len is the number of characters before the first 0; str-part returns the characters from an index on, at most as many as asked for, and refuses an index outside of the string; str-to-upper and str-to-lower change the letters and nothing else; str-replicate repeats a character; str-join puts the strings of a list after each other with the delimiter between them. The result is a new string, ended by a 0; if there is no memory for it the answer is out_of_memory. All other values keep their meaning.", "quantifier": "every string, index, length, count and list of strings; every state of heap and memory", "why_tests_cant": "lengths, offsets and sizes are computed in several passes that have to agree for all strings; an off by one shows only in the byte after the block", "anchors": ["src/extensions/string_extensions.c:strlen_max", "src/extensions/string_extensions.c:ext_str_join", "src/extensions/string_extensions.c:ext_str_part", "src/extensions/string_extensions.c:change_case", "src/extensions/string_extensions.c:ext_str_replicate", "src/extensions/string_extensions.c:ext_str_len"]}
{"id": "C75", "title": "Splitting a string", "statement": "str-split with a number cuts the string into pieces of that many characters, the last one shorter if need be; with a string it returns the maximal pieces without any of its characters, in order. The result is a list of new strings. If memory or heap runs out on the way the answer is out_of_memory and no other value changes.", "quantifier": "every string, set of delimiters and piece length; every state of heap and memory, so every point at which an allocation may fail", "why_tests_cant": "the number of pieces is unbounded, and so are the points at which memory can run out", "anchors": ["src/extensions/string_extensions.c:ext_str_split"]}
{"id": "C76", "title": "Replacing in a string", "statement": "str-replace returns the string with every occurrence of the pattern replaced, found from the left without overlap; without a replacement the occurrences are removed; with an empty pattern the string itself is returned.", "quantifier": "every string, pattern and replacement", "why_tests_cant": "the size of the result is computed with wrapping arithmetic from a first pass, and filled in by a second", "anchors": ["src/extensions/string_extensions.c:ext_str_replace"]}
{"id": "C77", "title": "Searching in a string", "statement": "str-find returns the position of the occurrence asked for: positions are tried from the start position to the right or to the left, at each position the strings of the list in their order, with or without regard of case; so many occurrences are skipped as asked for; -1 if there are not enough. A negative start counts from the end. Without options the result is the first position where the string occurs, or -1.", "quantifier": "every string, list of strings, start position, number of occurrences to skip, direction and case", "why_tests_cant": "start, direction, case, occurrence and the shortest of the strings interact", "anchors": ["src/extensions/string_extensions.c:ext_str_find", "src/extensions/string_extensions.c:ci_strncmp"]}
{"id": "C78", "title": "Comparing strings", "statement": "str-cmp is negative, zero or positive as the first string comes before the second in dictionary order, is equal to it, or comes after it; with a length, only so many characters count.", "quantifier": "every pair of strings; every length", "why_tests_cant": "the order is a property of all pairs of strings", "anchors": ["src/extensions/string_extensions.c:ext_str_cmp"]}
{"id": "C79", "title": "Building and joining lists", "statement": "list returns a new list of its arguments. append returns the elements of all its list arguments in order, followed by its last argument: a list if that is one; the cells of the earlier lists are copied and no existing cell is changed. With too few free cells the result is a memory error; an argument before the last that is not a list is a type error.", "quantifier": "every number of arguments, every list, every heap, so also every point at which the free list can run out", "why_tests_cant": "the number and lengths of the lists are unbounded; that the copied lists are left unchanged is a statement on all cells", "anchors": ["src/fundamental.c:fundamental_list", "src/fundamental.c:fundamental_append", "src/heap.c:lbm_index_list"]}
{"id": "C80", "title": "Reading and writing by index", "statement": "ix returns the element at the index of a list, counted from the end for a negative index, or of an array; nil outside of a list and an error outside of an array. setix replaces that element in place: ix then returns the new element at that index, the old ones everywhere else, and nothing else in the heap has changed. Outside nothing is changed.", "quantifier": "every list, array, index and element", "why_tests_cant": "a write to a wrong cell shows only in the cells not looked at", "anchors": ["src/fundamental.c:fundamental_ix", "src/fundamental.c:fundamental_set_ix"]}
{"id": "C81", "title": "Lengths, parts and ranges of lists", "statement": "length returns the number of elements of a list, an array or a byte array. take returns a fresh list of the first n elements or all, drop the list without them. range returns the integers from its first argument to before its second in order, from the back when the first is larger; from 0 with one argument.", "quantifier": "every list and array, every number; ranges of every size", "why_tests_cant": "the lists are unbounded, the conversions between signed and unsigned numbers matter only for some", "anchors": ["src/fundamental.c:fundamental_list_length", "src/fundamental.c:fundamental_take", "src/fundamental.c:fundamental_drop", "src/fundamental.c:fundamental_range"]}
{"id": "C82", "title": "Arrays of values and lists", "statement": "mkarray returns a new array of n elements, all nil. list-to-array returns a new array with the elements of the list, array-to-list a new list with the elements of the array, so that a list turned into an array and back has the same elements. With too little room the result is a memory error and the heap is as usable as before.", "quantifier": "every size, list and array, every state of heap and memory", "why_tests_cant": "the sizes are unbounded and are multiplied by the word size; allocations can fail at every step", "anchors": ["src/fundamental.c:fundamental_mkarray", "src/fundamental.c:fundamental_array_to_list", "src/fundamental.c:fundamental_list_to_array", "src/heap.c:lbm_heap_allocate_lisp_array"]}
{"id": "C83", "title": "Association lists", "statement": "assoc returns the value of the first entry whose key is equal to the key, cossa the key of the first entry whose value is equal to it, nil when there is none. acons adds an entry in front. After setassoc, given a key and a value or a pair of them, assoc returns the new value for this key and the old one for every other.", "quantifier": "every association list and key", "why_tests_cant": "the lists are unbounded; the updated list must agree with the old one on all other keys", "anchors": ["src/fundamental.c:fundamental_assoc", "src/fundamental.c:fundamental_cossa", "src/fundamental.c:fundamental_acons", "src/fundamental.c:fundamental_set_assoc", "src/fundamental.c:cossa_lookup"]}
{"id": "C84", "title": "Conversions between integer types", "statement": "to-i, to-u, to-i32, to-u32, to-i64, to-u64 and to-byte return the number of that type which agrees with the argument in the bits of the type: the same number whenever the type has it. With no room for the box the result is a memory error.", "quantifier": "every integer of every type, every state of heap and memory", "why_tests_cant": "2^64 numbers for each of 49 pairs of types", "anchors": ["src/fundamental.c:fundamental_to_i", "src/fundamental.c:fundamental_to_u", "src/fundamental.c:fundamental_to_i32", "src/fundamental.c:fundamental_to_u32", "src/fundamental.c:fundamental_to_i64", "src/fundamental.c:fundamental_to_u64", "src/fundamental.c:fundamental_to_byte"]}
{"id": "C85", "title": "Evaluation keeps the stack below it", "statement": "While an expression is evaluated, everything that was on the stack of continuations when it began stays there unchanged, and what lies on top of it consists of whole frames: a continuation and exactly the words that belong to it. When the value is returned the stack is the one from the beginning.", "quantifier": "every expression, environment, heap and stack; any number of steps, with any collections in between; every built-in function; both word sizes", "why_tests_cant": "each of the continuations pops what another function has pushed; a word too many or too few goes wrong only later, and the stacks are unbounded", "anchors": ["src/eval_cps.c:evaluation_step", "src/eval_cps.c:cont_application_args", "src/eval_cps.c:cont_closure_application_args", "src/eval_cps.c:cont_progn_rest", "src/eval_cps.c:cont_progn_var"]}
{"id": "C86", "title": "trap catches errors", "statement": "(trap e) evaluates e. If it has the value v the result is (exit-ok v); if an error is raised, however deep, the result is (exit-error err) on the stack of the trap with the flags of the context as before. No error but fatal_error ends the context while e is evaluated.", "quantifier": "every expression, stack depth, heap, kind and place of the error", "why_tests_cant": "errors can be raised in every step of every evaluation, and are thrown through stacks of any shape", "anchors": ["src/eval_cps.c:eval_trap", "src/eval_cps.c:cont_exception_handler", "src/eval_cps.c:error_ctx_base", "src/eval_cps.c:eval_atomic"]}
{"id": "C87", "title": "Continuations are complete", "statement": "(call-cc f) applies f to the continuation of the call: applying that to an expression, at any time and on whatever stack, evaluates the argument where it stands and goes on with its value from the stack at the time of the call-cc.", "quantifier": "every stack at the time of the call and at the time of the jump; every argument; both word sizes", "why_tests_cant": "the two stacks are arbitrary and unrelated; what the continuation does not hold shows only if it has changed in between", "anchors": ["src/eval_cps.c:eval_callcc", "src/eval_cps.c:cont_application_start"]}
{"id": "C88", "title": "A pixel is set and read back", "statement": "img-setpix changes the one pixel at the given coordinates to the given color, as precisely as the format of the image can hold it, and nothing else; outside of the image it changes nothing. img-getpix returns the color of the pixel at the coordinates. So a pixel that is set is read back, and all others are as before.", "quantifier": "every image of any width and height in each of the six formats; every point and color", "why_tests_cant": "pixels share bytes in three of the formats, and a wrong mask shows only in neighbours; the colors are 2^24", "anchors": ["src/extensions/display_extensions.c:putpixel", "src/extensions/display_extensions.c:getpixel", "src/extensions/display_extensions.c:rgb888to332", "src/extensions/display_extensions.c:rgb888to565", "src/extensions/display_extensions.c:rgb332to888", "src/extensions/display_extensions.c:rgb565to888"]}
{"id": "C89", "title": "An image has the bytes of all its pixels", "statement": "img-buffer returns a byte array with width, height and format in its header and exactly as many bytes as the pixels need, rounded up. An array is accepted as an image only if it has a byte for every pixel, so that no drawing function accesses memory outside of the array.", "quantifier": "every width, height and format; every byte array given as an image", "why_tests_cant": "the size is computed in 32 bits in three places with different rounding", "anchors": ["src/extensions/display_extensions.c:image_dims_to_size_bytes", "src/extensions/display_extensions.c:image_buffer_allocate", "src/extensions/display_extensions.c:ext_image_buffer", "include/extensions/display_extensions.h:image_buffer_size_bytes", "include/extensions/display_extensions.h:image_buffer_is_valid"]}
{"id": "C90", "title": "Clearing an image", "statement": "img-clear gives every pixel of the image the color, and changes neither the header nor the bytes after the pixels.", "quantifier": "every image in each of the six formats; every color", "why_tests_cant": "the number of bytes depends on the format, and the last byte may hold fewer pixels", "anchors": ["src/extensions/display_extensions.c:image_buffer_clear"]}
{"id": "C91", "title": "Shapes cover their points", "statement": "The drawing functions give the color to exactly the points of the shape that lie in the image and to no others: a filled rectangle the points inside, an outline the four lines, a filled triangle the points between its corners, a filled circle the points within the radius, a line a connected sequence of points from one end to the other along the straight line. They end, and no number overflows.", "quantifier": "all coordinates and sizes, also partly or wholly outside of the image; every image and format", "why_tests_cant": "the points of a shape are unboundedly many, and rounding errors depend on slopes and radii", "anchors": ["src/extensions/display_extensions.c:h_line", "src/extensions/display_extensions.c:v_line", "src/extensions/display_extensions.c:rectangle", "src/extensions/display_extensions.c:fill_triangle", "src/extensions/display_extensions.c:point_past_line", "src/extensions/display_extensions.c:fill_circle", "src/extensions/display_extensions.c:line"]}
{"id": "C92", "title": "An atomic block is atomic throughout", "statement": "From the first step of the body of (atomic ...) until its value is there, whatever the body calls, is_atomic is set, so that no other context is scheduled; the step after that clears it and hands the value on to the stack from the beginning. An atomic block within an atomic block is an error.", "quantifier": "every body, environment, heap and stack; any number of steps; every built-in function; both word sizes", "why_tests_cant": "the switch to another context can come between any two steps; a test sees only the schedules it happens to have", "anchors": ["src/eval_cps.c:eval_atomic", "src/eval_cps.c:cont_exit_atomic", "src/eval_cps.c:atomic_error"]}
{"id": "C93", "title": "map applies the function to each element", "statement": "(map f lst) evaluates (f (quote x)) for each element x of lst, in order and in the environment of the call, and its value is a new list of the values, on the stack and in the environment of the call. The empty list gives nil; anything else is an error.", "quantifier": "every list, function, environment and stack, any number of elements; any evaluation of the applications that leaves alone what the stack holds, with collections in between", "why_tests_cant": "the frame is read and written again in each round, and the evaluations between the rounds are arbitrary", "anchors": ["src/eval_cps.c:apply_map", "src/eval_cps.c:cont_map"]}
{"id": "C94", "title": "reverse reverses", "statement": "(reverse lst) is a new list of the elements of lst in the opposite order; lst and everything else is as before. Other arguments are an error.", "quantifier": "every list of any length, in RAM or constant", "why_tests_cant": "lists are unbounded", "anchors": ["src/eval_cps.c:apply_reverse"]}
{"id": "C95", "title": "The loop macros expand to loops", "statement": "me-loopfor, me-loopwhile, me-looprange and me-loopforeach return the expressions given in the comments of the code, in new cells; if there are too few free cells the result is the memory error, so that the evaluator collects garbage and tries again, and never an expression that contains a memory error. loopforeach evaluates its list once and its body for every element.", "quantifier": "all arguments and heaps, every number of free cells, every order of evaluation of the arguments of the nested C calls", "why_tests_cant": "which of the nested calls fails first depends on the compiler and on the number of free cells", "anchors": ["src/extensions/loop_extensions.c:ext_me_loopfor", "src/extensions/loop_extensions.c:ext_me_loopwhile", "src/extensions/loop_extensions.c:ext_me_looprange", "src/extensions/loop_extensions.c:ext_me_loopforeach", "src/heap.c:lbm_heap_allocate_list_init_va"]}
{"id": "C96", "title": "Drawing arguments are decoded", "statement": "The arguments of a drawing function are accepted exactly if they are an image, as many numbers as the function expects and attributes with the right number of numbers; the numbers are then stored in order and each attribute with the numbers of its last occurrence. Nothing is written outside of the decoded arguments.", "quantifier": "all argument lists of any length; every number of expected numbers; all attributes in any order and number", "why_tests_cant": "which array is overrun, and what lies behind it, depends on the number of arguments", "anchors": ["src/extensions/display_extensions.c:decode_args"]}
{"id": "C97", "title": "random is the linear congruence it names", "statement": "(random) returns (268435043 s + 268434949) mod 268435183 for the number s returned last or given to seed, so that its numbers are in range, encoded without loss, and return to the first only after all 268435182 others but one have been drawn. seed takes one number.", "quantifier": "every seed; any number of calls; both word sizes", "why_tests_cant": "the period is too long to run for every seed, and differs between word sizes", "anchors": ["src/extensions/random_extensions.c:ext_random", "src/extensions/random_extensions.c:ext_seed"]}
