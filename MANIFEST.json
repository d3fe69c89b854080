{
 "claims": [
  {
   "property": "C01",
   "status": "proved",
   "theorems": [
    "C01_longest_prefix_match",
    "C01_lpm_table_lookup"
   ],
   "note": "Trie histories and whole LPM tables (match unit + trie + handles)."
  },
  {
   "property": "C02",
   "status": "proved",
   "theorems": [
    "C02_handle_allocator",
    "C02_handle_allocator_with_set",
    "C02_set_handle_refuted"
   ],
   "note": "set_handle is safe except at the first never-used handle with all lower ones live; the refuted theorem shows the failure"
  },
  {
   "property": "C03",
   "status": "proved",
   "theorems": [
    "C03_best_priority",
    "C03_lookup_answer"
   ],
   "note": "All histories of the match unit API for ternary and range tables of at most 2^24 entries; keys are in the internal form produced by the key builder (C08/C09)."
  },
  {
   "property": "C04",
   "status": "proved",
   "theorems": [
    "C04_cache_invisible",
    "C04_cache_invisible_concurrent"
   ],
   "note": "Sequential: equal answers with and without cache. Concurrent: every interleaving of probe and scan steps linearises to the cache-less specification."
  },
  {
   "property": "C05",
   "status": "proved",
   "theorems": [
    "C05_exact_match",
    "C05_lookup_answer"
   ],
   "note": ""
  },
  {
   "property": "C06",
   "status": "proved",
   "theorems": [
    "C06_handle_denotes_entry",
    "C06_deleted_handle_refused",
    "C06_handle_was_issued",
    "C06_unbounded_reuse_refuted",
    "C06_reset_reissues_refuted",
    "C06_stale_handle_metadata_refuted"
   ],
   "note": "The _refuted theorems are counterexamples showing the bound on re-use is needed, that reset re-issues handles, and that timeout/counter calls ignore the generation."
  },
  {
   "property": "C07",
   "status": "proved",
   "theorems": [
    "C07_capacity",
    "C07_error_changes_nothing",
    "C07_full"
   ],
   "note": "Table size at most 2^24 (larger sizes are not clamped by the constructor)."
  },
  {
   "property": "C08",
   "status": "proved",
   "theorems": [
    "C08_field_semantics",
    "C08_installed_entry_hit",
    "C08_bad_keys_refused",
    "C08_unaligned_prefix_refuted",
    "C08_prefix_any_width"
   ],
   "note": "Holds for every layout whose prefix fields are a whole number of bytes wide; for other widths the code compares fewer bits (refuted theorem, exact characterisation in C08_prefix_any_width)."
  },
  {
   "property": "C09",
   "status": "proved",
   "theorems": [
    "C09_params_round_trip",
    "C09_canonical_same_packets",
    "C09_reinstall_fixpoint",
    "C09_key_to_fields"
   ],
   "note": "For every key layout and parameter list."
  },
  {
   "property": "C10",
   "status": "proved",
   "theorems": [
    "C10_table_history",
    "C10_apply",
    "C10_const_default_entry",
    "C10_const_default_action",
    "C10_immutable_rows_stay",
    "C10_immutable_cleared_refuted"
   ],
   "note": "Direct tables, every history of API calls and packets. Finding: clearing a table ignores immutability (refuted theorem)."
  },
  {
   "property": "C11",
   "status": "proved",
   "theorems": [
    "C11_history",
    "C11_delete_iff_unused",
    "C11_refused_add_leaks_refuted",
    "C11_refused_modify_frees_refuted",
    "C11_clear_leaks_refuted",
    "C11_profile_reset_refuted"
   ],
   "note": "All histories of profile and indirect-table calls; guard: until the first refused add / refused-target modify / bulk reset, after which the code's counts are off (four refuted theorems give the failing histories)."
  },
  {
   "property": "C12",
   "status": "proved",
   "theorems": [
    "C12_current_member",
    "C12_only_hash_and_members",
    "C12_fair",
    "C12_table_through_group"
   ],
   "note": "Default group selector (GroupMgr); hash_t is 32 bits in the code; custom selectors are not modelled."
  },
  {
   "property": "C13",
   "status": "proved",
   "theorems": [
    "C13_meter_history",
    "C13_token_bound",
    "C13_never_below_precolor",
    "C13_precolor_unconfigured_refuted",
    "C13_refused_set_changes_rates_refuted",
    "C13_save_load_recolours_refuted",
    "C13_clock_order_refuted"
   ],
   "note": "Exact token-bucket reference for every history; sliding-window bound per rate. Rates are abstract (any monotone accrual function below 2^63). Findings: unconfigured meter lowers the pre-colour; refused set_rates overwrites; save/load renumbers colours; clock read outside the lock can trip the assertion."
  },
  {
   "property": "C14",
   "status": "proved",
   "theorems": [
    "C14_each_count_linearizable",
    "C14_no_increment_lost",
    "C14_joint_atomicity_refuted",
    "C14_reset_is_torn_refuted",
    "C10_table_history"
   ],
   "note": "Atomic-operation granularity, any interleaving: each count is linearizable. Findings: the byte and packet counts are not read, reset or written together. Direct counters of tables: C10_table_history."
  },
  {
   "property": "C15",
   "status": "proved",
   "theorems": [
    "C15_history",
    "C15_fifo",
    "C15_push_refused_exactly_when_full",
    "C15_blocking_history",
    "C15_blocking_fifo"
   ],
   "note": "QueueingLogicPriRL in full; QueueingLogicRL is the one-priority instance; QueueingLogic (blocking) in BlockQ*. Clocks are arbitrary. At most 32 priorities."
  },
  {
   "property": "C16",
   "status": "proved",
   "theorems": [
    "C16_rate_respected",
    "C16_first_element_immediate_refuted"
   ],
   "note": "Any clock; rate changes of other queues allowed in the window. Finding: the first element of a rate-limited queue waits one delay from the creation of the queue."
  },
  {
   "property": "C17",
   "status": "proved",
   "theorems": [
    "C17_pop_choice",
    "C17_strict_priority",
    "C17_more_than_32_priorities_refuted"
   ],
   "note": "General form in terms of send times; observable form without rate limits. Finding: more than 32 priorities are accepted and index out of the array."
  },
  {
   "property": "C18",
   "status": "proved",
   "theorems": [
    "C18_fifo_exactly_once",
    "C18_bounded",
    "C18_blocked_only_if_needed",
    "C18_raised_capacity_leaves_producer_blocked_refuted"
   ],
   "note": "Small-step model with condition variables, spurious wake-ups and arbitrary interleavings. Finding: set_capacity does not wake blocked producers."
  },
  {
   "property": "C19",
   "status": "proved",
   "theorems": [
    "C19_replicate_exact"
   ],
   "note": "McSimplePre::replicate after any history; the LAG variant is covered by C21."
  },
  {
   "property": "C20",
   "status": "proved",
   "theorems": [
    "C20_history",
    "C20_at_most_one_group",
    "C20_listed_exactly_when_associated",
    "C20_refused_calls_have_no_effect",
    "C20_destroyed_group_strands_nodes_refuted"
   ],
   "note": "Finding: destroying a group with associated nodes strands the nodes (destroy throws, associate refused)."
  },
  {
   "property": "C21",
   "status": "proved",
   "theorems": [
    "C21_one_copy_per_lag",
    "C21_every_lag_can_have_members_refuted"
   ],
   "note": "For any hash value. LAG ids 257..511 fit in the LAG map but cannot be given members."
  },
  {
   "property": "C22",
   "status": "proved",
   "theorems": [
    "C22_history",
    "C22_out_of_bounds_refused",
    "C22_push_write",
    "C22_pop",
    "C22_clone_independent",
    "C22_save_restore"
   ],
   "note": "Heap-level model of PacketBuffer (blocks, head pointers, saved states) refined to independent zippers of bytes for every history on any number of buffers; consequences for push, pop, clone, save/restore."
  },
  {
   "property": "C23",
   "status": "proved",
   "theorems": [
    "C23_history",
    "C23_storing",
    "C23_bytes_always_right",
    "C23_signed_wraps_refuted",
    "C23_reset_varbit_assign_refuted",
    "C23_write_invalid_zero_refuted"
   ],
   "note": "Every history of set/arith/extract/swap/copy/varbit operations on fields of any width, signedness and saturation refines fields as bounded integers. Exact guard for wrapping signed fields (results in the upper half of the unsigned range are NOT wrapped: refuted). Findings: varbit reset then assign crashes; zero-on-invalid-read option desynchronises bytes and value."
  },
  {
   "property": "C24",
   "status": "proved",
   "theorems": [
    "C24_operations",
    "C24_refuses",
    "C24_hexstring",
    "C24_get_string",
    "C24_any_shift_amount_refuted",
    "C24_zero_width_cast_refuted"
   ],
   "note": "All operations on all operands in their domain; refusals; hexadecimal parsing; get_string. Findings: shift amounts are truncated to 32 bits, casts to width 0 are not refused."
  },
  {
   "property": "C25",
   "status": "proved",
   "theorems": [
    "C25_extract",
    "C25_deparse",
    "C25_header_extract",
    "C25_header_deparse",
    "C25_header_roundtrip",
    "C25_encoding_holds",
    "C25_typed_roundtrip",
    "C25_empty_field_unaligned_refuted"
   ],
   "note": "generic_extract/generic_deparse at every bit offset, width and buffer, whole headers, and typed (signed and unsigned) fields. Finding: an empty field at an unaligned bit offset accesses a byte that does not exist (the refuted theorem); the positive theorems require positive widths for extraction."
  },
  {
   "property": "C26",
   "status": "proved",
   "theorems": [
    "C26_push_front",
    "C26_pop_front",
    "C26_legacy_push_front",
    "C26_legacy_pop_front",
    "C26_union_stack_shift",
    "C26_union_stack_pop_invalidates_refuted",
    "C26_push_on_empty_stack_refuted"
   ],
   "note": "Both stack implementations, every size, index and count, on every reachable header vector. Findings: popping a stack of unions leaves the popped union valid at the other end; pushing on a stack without elements underflows."
  },
  {
   "property": "C27",
   "status": "proved",
   "theorems": [
    "C27_union_at_most_one"
   ],
   "note": "For every sequence of type-correct header operations (19 kinds)."
  },
  {
   "property": "C28",
   "status": "proved",
   "theorems": [
    "C28_validity_agrees",
    "C28_effects",
    "C28_sibling_assignment_refuted",
    "C28_assignment_from_metadata_refuted",
    "C28_reset_headers_refuted"
   ],
   "note": "Agreement for every history without the two forms of header assignment shown to break it (findings)."
  },
  {
   "property": "C29",
   "status": "proved",
   "theorems": [
    "C29_accounts",
    "C29_extraction",
    "C29_extract_next",
    "C29_set",
    "C29_never_out_of_bounds",
    "C29_extract_too_short",
    "C29_extract_with_length",
    "C29_skip_too_short",
    "C29_stack_full",
    "C29_lookahead_offset_refuted",
    "C29_select_lookahead_refuted",
    "C29_select_empty_stack_refuted",
    "C29_legacy_varbit_refuted",
    "C29_negative_length_refuted",
    "C29_extract_again_refuted"
   ],
   "note": "For every parse graph and packet: pieces of the events concatenated with the payload give the packet, no crash for guarded programs, exact error conditions. Unguarded cases that read out of the packet are findings (_refuted)."
  },
  {
   "property": "C30",
   "status": "proved",
   "theorems": [
    "C30_key",
    "C30_select_first_match",
    "C30_value_set",
    "C30_value_set_exact",
    "C30_value_set_readback",
    "C30_value_set_updates_succeed",
    "C30_masked_removal_refuted"
   ],
   "note": "First match over exact, masked and value-set cases; value-set contents for every update history; removal with a mask is a finding."
  },
  {
   "property": "C31",
   "status": "proved",
   "theorems": [
    "C31_terminates",
    "C31_idle_cycle_refuted"
   ],
   "note": "Bound on states visited when each cycle of the parse graph consumes; counterexample otherwise."
  },
  {
   "property": "C32",
   "status": "proved",
   "theorems": [
    "C32_encodings",
    "C32_deparse",
    "C32_methods",
    "C32_reachable",
    "C32_parse_deparse",
    "C32_length",
    "C32_methods_refuted"
   ],
   "note": "Output = encodings of the valid headers in order ++ payload; parse then deparse is the identity. Finding: the size is computed before the deparser's method calls, so a call that changes validity corrupts the packet."
  },
  {
   "property": "C33",
   "status": "proved",
   "theorems": [
    "C33_rfc1071",
    "C33_receiver",
    "C33_ip_verify",
    "C33_ip_update",
    "C33_ip_invalid",
    "C33_calc_update_verifies",
    "C33_calc_update",
    "C33_long_header_refuted",
    "C33_wide_result_refuted"
   ],
   "note": "Both implementations equal RFC 1071 for every buffer; update then verify. Findings: IPv4 header over 60 bytes overruns the stack buffer; a result wider than the field never verifies."
  },
  {
   "property": "C34",
   "status": "proved",
   "theorems": [
    "C34_unique",
    "C34_custom",
    "C34_tables",
    "C34_builtin",
    "C34_reconfigured"
   ],
   "note": "CRC defined as remainder of GF(2) polynomial division; custom CRC proved for every width >= 8, every configuration and buffer; built-in tables checked equal to computed tables"
  },
  {
   "property": "C35",
   "status": "proved",
   "theorems": [
    "C35_toeplitz",
    "C35_history",
    "C35_linear",
    "C35_wrong_type"
   ],
   "note": "all keys of legal size, all buffers, all histories of key updates"
  },
  {
   "property": "C36",
   "status": "proved",
   "theorems": [
    "C36_expressions",
    "C36_built_by_api",
    "C36_empty",
    "C36_resolved",
    "C36_header_equality",
    "C36_invalid_headers_equal_refuted",
    "C36_varbit_equality_refuted",
    "C36_access_union_header_refuted",
    "C36_short_circuit_refuted"
   ],
   "note": "Every well-typed JSON tree compiles, and the instructions with their registers evaluate to the value of the tree (or fail with it) in every environment and with any previous contents of the thread's temporaries; assignable trees evaluate to the right reference. Excluded for JSON: access_union_header, which is translated wrongly (finding). Also findings on header equality and and/or."
  },
  {
   "property": "C37",
   "status": "proved",
   "theorems": [
    "C37_accepted",
    "C37_actions",
    "C37_one_result",
    "C37_forward_jumps_end",
    "C37_conditionals",
    "C37_pipeline",
    "C37_one_path",
    "C37_acyclic_ends",
    "C37_exit_is_last",
    "C37_argument_order_refuted",
    "C37_vector_overwrites_argument_refuted",
    "C37_loop_refuted"
   ],
   "note": "Every action program built from JSON and every pipeline graph, for any primitives; argument evaluation order either way (left to right only up to three expressions: beyond that the refuted theorem applies)."
  },
  {
   "property": "C38",
   "status": "proved",
   "theorems": [
    "C38_sweeps",
    "C38_consecutive",
    "C38_first",
    "C38_buffer_ids",
    "C38_reported_once_refuted",
    "C38_clock_race_refuted",
    "C38_fresh_entry_has_no_timeout_refuted"
   ],
   "note": "Every history of table operations, sweeps and resets; the second of two consecutive sweeps reports exactly the idle entries the first did not. Refuted: idle entries are re-reported every other sweep; a packet stamped between the clock read and the scan aborts; a new entry inherits the old timeout of its slot."
  },
  {
   "property": "C39",
   "status": "proved",
   "theorems": [
    "C39_learning",
    "C39_exactly_once",
    "C39_all_delivered",
    "C39_learn_again",
    "C39_consecutive_ids",
    "C39_not_early",
    "C39_one_producer_not_stranded",
    "C39_consecutive_ids_refuted",
    "C39_several_producers_stranded_refuted",
    "C39_reset_strands_producer_refuted",
    "C39_reset_loses_samples_refuted",
    "C39_acks_refuted"
   ],
   "note": "One learn list under every schedule of producers, transmit thread, acknowledgements and resets. Refuted without guards: consecutive ids after a blocked producer, lost wake-ups with several producers, resets during transmission, repeated acknowledgements (undefined behaviour)."
  },
  {
   "property": "C40",
   "status": "proved",
   "theorems": [
    "C40_registers",
    "C40_read_back",
    "C40_action_locks",
    "C40_action_is_covered",
    "C40_state_locks",
    "C40_serial",
    "C40_exclusive",
    "C40_no_deadlock",
    "C40_header_expression_refuted",
    "C40_condition_refuted",
    "C40_reset_refuted"
   ],
   "note": "Values modulo width over every history of calls; the locked arrays are exactly those occurring in the action, each once; every schedule of threads is equivalent to a serial one and never deadlocks (contract of boost::lock). Refuted: registers in header expressions, conditions, advance/verify/VL lengths are read unlocked; reset takes no lock."
  },
  {
   "property": "C41",
   "status": "proved",
   "theorems": [
    "C41_distinct",
    "C41_distinct_uninterrupted",
    "C41_clone_is_new",
    "C41_shared_slot_refuted",
    "C41_counter_restarts_refuted",
    "C41_few_copies_each_refuted"
   ],
   "note": "Any schedule of threads with failed exchanges: live packets distinct if a counter serves one packet id at a time and counts at most 65535 copies; if calls do not overlap the bound is per packet and the counters return to zero. Findings: two live packets whose ids differ by 4096; a retried remove_one stores a stale count, so counters are not reset and ids can wrap although each packet is copied 300 times only."
  },
  {
   "property": "C42",
   "status": "proved",
   "theorems": [
    "C42_independent",
    "C42_clear_keeps_length",
    "C42_uninitialised"
   ],
   "note": "Six independent attributes from any initial register contents, for every sequence of reads, writes and clears; without a clear an unwritten attribute can have any value."
  },
  {
   "property": "C43",
   "status": "proved",
   "theorems": [
    "C43_ingress",
    "C43_clone_is_the_parsed_packet",
    "C43_egress_begins",
    "C43_egress",
    "C43_clone_request",
    "C43_resubmit_request",
    "C43_recirculate_request",
    "C43_sessions",
    "C43_group_and_port_refuted",
    "C43_clone_depends_on_pool_refuted",
    "C43_truncated_multicast_refuted",
    "C43_resubmit_id_refuted",
    "C43_session_id_refuted"
   ],
   "note": "For every program (parser, pipelines, deparser, field lists, groups, sessions arbitrary), every packet after ingress and after egress has exactly the documented effects. Guard: a session does not use both a non-empty group and a port (refuted otherwise). Findings: clones are parsed with stale pool metadata; truncation is lost on replicas; ids are truncated to 16/15 bits. Timestamps and queueing metadata are not modelled."
  },
  {
   "property": "C44",
   "status": "proved",
   "theorems": [
    "C44_linearizable",
    "C44_fifo",
    "C44_reinsertion_never_blocks",
    "C44_received_never_dropped",
    "C44_waits_only_if_needed",
    "C44_received_packets_are_served_refuted"
   ],
   "note": "For every number of threads, every schedule, every choice of woken threads and spurious wake-ups. Finding: received packets can starve (the code says it assumes otherwise)."
  },
  {
   "property": "C45",
   "status": "proved",
   "theorems": [
    "C45_unit",
    "C45_table",
    "C45_switch",
    "C45_wrong_program",
    "C45_wrong_version",
    "C45_add_after_restore_refuted",
    "C45_ternary_refuted",
    "C45_stale_handle_refuted",
    "C45_default_data_refuted",
    "C45_default_next_refuted",
    "C45_constant_entries_refuted",
    "C45_group_gap_refuted"
   ],
   "note": "Exact and LPM entry stores, direct tables and switches of indirect tables with a profile: save succeeds, restore into a fresh switch consumes exactly the file and gives the same rows, members, groups and defaults, and any later history without new entries (or any history when slot 0 was free) follows the same specification. The guards are exact: each refuted theorem shows what fails outside them (ternary tables lost, first add overwrites slot 0, stale handles, default data appended, constant entries, gaps in group numbers). Meters' save and restore is C13."
  },
  {
   "property": "C46",
   "status": "proved",
   "theorems": [
    "C46_port_monitor",
    "C46_callbacks",
    "C46_only_steps_deliver",
    "C46_one_thread",
    "C46_concurrent_order_refuted"
   ],
   "note": "Every interleaving of notifications, polls and registrations from any number of threads: the status changes follow the protocol, each is delivered to the callbacks exactly once by the thread that made it, in order, before its call returns; with one thread per port the callbacks follow the protocol. Refuted: with a polling thread, callbacks of one port can come out of order (up before added, down after removed)."
  },
  {
   "property": "C47",
   "status": "proved",
   "theorems": [
    "C47_replay",
    "C47_exactly_once",
    "C47_time_order",
    "C47_port_added_while_running_refuted",
    "C47_writer",
    "C47_written_replays"
   ],
   "note": "Every set of files and clock: the packets handed over are those of a greedy merge in time order (ties to the first file), up to the first bad record; all good records means every packet exactly once in file order; sorted files give a sorted replay; with timing, exact sleeps. The writer's files hold exactly the packets sent and replay completely. Refuted: a port added during the replay ends the process."
  },
  {
   "property": "C48",
   "status": "proved",
   "theorems": [
    "C48_errors",
    "C48_core_defined",
    "C48_enums",
    "C48_core_overflow_refuted",
    "C48_invalid_code_distinct_refuted",
    "C48_dotted_names_refuted"
   ],
   "note": "Guards: explicit error codes leave room for the seven core errors below INT_MAX; no dots in entry names or none in enum names. Each guard is shown necessary by a refuted theorem."
  },
  {
   "property": "C49",
   "status": "proved",
   "theorems": [
    "C49_clone_equal",
    "C49_recycled",
    "C49_recycled_like_new",
    "C49_readded_varbit_refuted"
   ],
   "note": "Clone and recycled vector are indistinguishable from original / new one under every later operation that does not read an invalid header. Independence is structural: the model's vectors are values."
  },
  {
   "property": "C50",
   "status": "proved",
   "theorems": [
    "C50_protocol",
    "C50_calls",
    "C50_bad_config_refused_refuted",
    "C50_concurrent_swaps_refuted",
    "C50_cross_context_copy_refuted",
    "C50_refused_swap_changes_nothing_refuted"
   ],
   "note": "Any number of contexts, threads and packets, any interleaving. Packets are not copied between contexts in the positive theorems; that case, overlapping swap calls, rejected configurations and a swap racing a load are the _refuted findings."
  },
  {
   "property": "C51",
   "status": "proved",
   "theorems": [
    "C51_build",
    "C51_inputs",
    "C51_misaligned_header",
    "C51_short_constant_refuted",
    "C51_long_constant_refuted"
   ],
   "note": "Bit-exact buffer assembly for every input list, header vector and payload. Findings: constant width not checked against its bytes."
  },
  {
   "property": "C52",
   "status": "proved",
   "theorems": [
    "C52_assign_header",
    "C52_assign_union",
    "C52_assign_stack",
    "C52_assign_union_stack"
   ],
   "note": "Exact copy, element-wise for unions, stacks and stacks of unions."
  },
  {
   "property": "C53",
   "status": "proved",
   "theorems": [
    "C53_xor",
    "C53_identity",
    "C53_round_robin",
    "C53_consistent",
    "C53_offset",
    "C53_offset_onto"
   ],
   "note": "xxh64 not modelled"
  },
  {
   "property": "C54",
   "status": "proved",
   "theorems": [
    "C54_attributes",
    "C54_no_failure",
    "C54_header_vectors",
    "C54_all_released",
    "C54_move_keeps_everything_refuted",
    "C54_assignment_between_contexts_refuted",
    "C54_in_use_after_assignment_refuted",
    "C54_copies_after_assignment_refuted",
    "C54_clone_signature_refuted"
   ],
   "note": "Attributes: for moves of packets that are not truncated and have no entry index, error or checksum error (otherwise refuted). Header vectors and copy counts: for assignments to empty variables or packets of the same context and id (otherwise refuted)."
  },
  {
   "property": "C55",
   "status": "proved",
   "theorems": [
    "C55_atomic",
    "C55_specification",
    "C55_no_deadlock",
    "C55_iterator_refuted"
   ],
   "note": "Every interleaving of table and profile calls is linearisable with respect to the code run alone and to the C11/C12 specification; no deadlock even with writer preference. Finding: comparing table iterators with != locks twice and can deadlock."
  },
  {
   "property": "C56",
   "status": "proved",
   "theorems": [
    "C56_receive",
    "C56_ingress",
    "C56_egress",
    "C56_egress_parses_afresh",
    "C56_history",
    "C56_resubmit_refuted",
    "C56_egress_stacks_refuted",
    "C56_clone_instance_refuted"
   ],
   "note": "Full for every program and packet, for sessions that do not name both a group and a port; three deviations are proved as findings (resubmitted packets lose their ingress port and keep header validity; stack levels survive into egress; clones of mixed sessions carry the last replica's instance)."
  },
  {
   "property": "C57",
   "status": "proved",
   "theorems": [
    "C57_receive",
    "C57_main",
    "C57_no_port",
    "C57_no_port_refuted"
   ],
   "note": "Full; a packet the program sends nowhere leaves through port 0 (finding)."
  },
  {
   "property": "C58",
   "status": "proved",
   "theorems": [
    "C58_history",
    "C58_additions",
    "C58_any_order",
    "C58_rfc1071",
    "C58_incremental",
    "C58_subtract_zero_refuted",
    "C58_negative_hangs",
    "C58_signed_refuted"
   ],
   "note": "Full for bit<W> fields, with the choice between the two zeros pinned down except after subtracting a multiple of 65535 from 0 (finding). Negative int<W> fields make the call loop for ever (finding)."
  },
  {
   "property": "C59",
   "status": "proved",
   "theorems": [
    "C59_hash",
    "C59_zero_modulus_refuted"
   ],
   "note": "Full for base + max below 2^64; a modulus of 0 is a division by zero (finding)."
  },
  {
   "property": "C60",
   "status": "proved",
   "theorems": [
    "C60_calls",
    "C60_only_registered",
    "C60_not_early",
    "C60_early_refuted",
    "C60_awake",
    "C60_fair",
    "C60_nested_deadlocks",
    "C60_freed_reference_refuted"
   ],
   "note": "Every schedule of the task list and its thread. Findings: a task can run early if the awaited one is removed as its time comes; the loop waits with a reference into a task that may be destroyed; a task function that constructs or destroys a task deadlocks."
  },
  {
   "property": "C61",
   "status": "proved",
   "theorems": [
    "C61_length",
    "C61_deparsed",
    "C61_copy_refuted",
    "C61_add_fast_refuted",
    "C61_pop_refuted",
    "C61_push_refuted",
    "C61_union_refuted",
    "C61_metadata_refuted"
   ],
   "note": "Holds for add_header, remove_header and field writes, outside unions with another valid member. Findings: copies, add_header_fast, push, pop, adding a union member over another and removing metadata leave the length wrong."
  },
  {
   "property": "C62",
   "status": "proved",
   "theorems": [
    "C62_log_msg",
    "C62_unfinished",
    "C62_terminates",
    "C62_first_refuted",
    "C62_adjacent_refuted"
   ],
   "note": "Findings: a placeholder at the beginning of the format string, or right after another one, is not seen, and the switch exits. Double backslashes before braces are outside the specification."
  },
  {
   "property": "C63",
   "status": "proved",
   "theorems": [
    "C63_answers",
    "C63_callbacks",
    "C63_progress",
    "C63_meanings",
    "C63_short_refuted",
    "C63_length_refuted",
    "C63_failed_call_refuted",
    "C63_is_up_refuted"
   ],
   "note": "Packets, queries and replies for every interleaving; callbacks for every interleaving without port_add/port_remove calls. Findings: message size and announced packet length are not checked; a failing port_add/port_remove call still notifies; port_is_up ignores the ports without enforcement."
  },
  {
   "property": "C64",
   "status": "proved",
   "theorems": [
    "C64_manager",
    "C64_info",
    "C64_destroy",
    "C64_destroy_refuted",
    "C64_stats_refuted",
    "C64_failed_add_refuted",
    "C64_fdset_refuted"
   ],
   "note": "For every history in which the operating system hands out unused descriptors below 1024. Findings: destroying the manager closes only every other port; statistics of a missing port are uninitialised; a failed port_add is announced; descriptors are not checked against FD_SETSIZE."
  },
  {
   "property": "C65",
   "status": "proved",
   "theorems": [
    "C65_handled",
    "C65_closed",
    "C65_remove",
    "C65_deadlock_refuted",
    "C65_not_started_refuted",
    "C65_low_refuted",
    "C65_reuse_refuted"
   ],
   "note": "Small-step model of the rwlock, the socket pair and select; any schedule. Findings: a remove deadlocks with the receiving thread when that is about to take the lock, before bmi_start_mgr, and when every port's descriptor is below the socket's; a port added after select returned can be received from when it reuses a descriptor. Termination of the thread is not modelled."
  },
  {
   "property": "C66",
   "status": "proved",
   "theorems": [
    "C66_ports",
    "C66_map",
    "C66_history",
    "C66_order_refuted",
    "C66_shift_refuted"
   ],
   "note": "Exact characterisation of convert_map for every list of ports. Findings: a port followed by a smaller one is dropped; a port of 512 or more shifts all ports instead of being ignored; port 2^32-1 writes outside of the string. The replication engine is that of C19-C21; the assertions on handle sizes are not modelled."
  },
  {
   "property": "C67",
   "status": "proved",
   "theorems": [
    "C67_history",
    "C67_reset",
    "C67_none_on_refuted",
    "C67_install_refuted",
    "C67_wide_handle_refuted"
   ],
   "note": "GroupSelection driven by the action profile model: simulation against a spec of members switched off; every active member reachable by a hash. Findings: no active member divides by zero; selector installed late does not know existing members; wide handles truncated."
  },
  {
   "property": "C68",
   "status": "proved",
   "theorems": [
    "C68_history",
    "C68_key",
    "C68_canonical",
    "C68_fetch_priority_refuted",
    "C68_wide_handle_refuted"
   ],
   "note": "history refinement over the match units; known exceptions stated as refuted claims"
  },
  {
   "property": "C69",
   "status": "proved",
   "theorems": [
    "C69_history",
    "C69_write_both",
    "C69_write_packets",
    "C69_write_bytes",
    "C69_kept_unit_refuted",
    "C69_refused_add_refuted",
    "C69_fresh_meter_refuted",
    "C69_time_left_refuted",
    "C69_short_ttl_refuted",
    "C69_modify_counter_refuted",
    "C69_refused_meter_refuted"
   ],
   "note": "rates are abstract here (see C70 for their conversion); known exceptions stated as refuted claims"
  },
  {
   "property": "C70",
   "status": "proved",
   "theorems": [
    "C70_history",
    "C70_rate_bound",
    "C70_sorted_accepted",
    "C70_read_back",
    "C70_accrual",
    "C70_read_back_refuted",
    "C70_drift_refuted",
    "C70_largest_rate_refuted",
    "C70_unlimited_refuted",
    "C70_order_unseen_refuted"
   ],
   "note": "Doubles are Flocq binary64; the theorems use the axioms of the standard library's real numbers (listed in DESIGN.md). Findings: rates can read back one lower, again and lower each time; the largest rates read back by an undefined cast and stop working after a second; above 2^51 the order check can miss."
  },
  {
   "property": "C71",
   "status": "proved",
   "theorems": [
    "C71_delay_exact",
    "C71_rate",
    "C71_rate_exceeded_refuted",
    "C71_high_rate_refuted"
   ],
   "note": "Doubles are Flocq binary64; the theorems use the axioms of the standard library's real numbers (listed in DESIGN.md). The queues are those of C15-C17. Findings: rates that do not divide 10^9 are exceeded; above 10^9 there is no limit."
  },
  {
   "property": "C72",
   "status": "proved",
   "theorems": [
    "C72_six_digits",
    "C72_close",
    "C72_pi_six_digits",
    "C72_pi_close",
    "C72_all_digits_refuted"
   ],
   "note": "Doubles are Flocq binary64, printing with 6 significant digits and reading are correctly rounded (glibc); the theorems use the axioms of the standard library's real numbers (listed in DESIGN.md). Finding: rates with more than six significant digits are not restored. That restored meters colour packets differently is the finding of C13."
  },
  {
   "property": "C73",
   "status": "proved",
   "theorems": [
    "C73_counters",
    "C73_meters",
    "C73_registers",
    "C73_packets",
    "C73_values",
    "C73_debug_runs",
    "C73_release_same",
    "C73_release_runs_refuted",
    "C73_wide_index_refuted",
    "C73_wide_length_refuted"
   ],
   "note": "Packets run one after the other on the same arrays; the meter is any state machine. Findings: an index of 2^32 or more aliases to a low position (get_uint cuts it), a length of 2^64 or more is cut to 64 bits, and the build with NDEBUG has undefined behaviour for an index past the end."
  },
  {
   "property": "C74",
   "status": "proved",
   "theorems": [
    "C74_numbers",
    "C74_bytes_back",
    "C74_saved",
    "C74_survives",
    "C74_zero_width_refuted",
    "C74_negative_refuted",
    "C74_negative_save_refuted",
    "C74_savable"
   ],
   "note": "The text is modelled character by character (C45 models the saved state word by word). Restoring into an entry that already has parameters appends to them: that is the finding of C45. Findings: parameters of width 0 cannot be read back; negative parameters lose their sign and cannot be saved."
  },
  {
   "property": "C75",
   "status": "proved",
   "theorems": [
    "C75_histories",
    "C75_on_time",
    "C75_no_wake_up_lost",
    "C75_full_at_once",
    "C75_all_delivered",
    "C75_setting_does_not_wake",
    "C75_timeout_while_pending_refuted"
   ],
   "note": "Waits and notifications of the transmit thread on top of the learn list of C39. Finding: set_timeout does not notify the transmit thread."
  },
  {
   "property": "C76",
   "status": "proved",
   "theorems": [
    "C76_configured",
    "C76_defined",
    "C76_sent_in_time",
    "C76_short_timeout_refuted",
    "C76_long_timeout_refuted",
    "C76_disabled_refuted"
   ],
   "note": "Configuration of a digest through PI with IEEE doubles, composed with C75."
  },
  {
   "property": "C77",
   "status": "proved",
   "theorems": [
    "C77_updates",
    "C77_staged",
    "C77_committed",
    "C77_starts_empty",
    "C77_disabled",
    "C77_digest_staged_refuted",
    "C77_digest_isolated_refuted",
    "C77_sessions_and_groups_dropped_refuted",
    "C77_reset_clones_refuted",
    "C77_reset_entries_refuted",
    "C77_reset"
   ],
   "note": "Which configuration runtime calls and packets use during a pipeline update; calls are atomic (C50 has the concurrency)."
  },
  {
   "property": "C78",
   "status": "proved",
   "theorems": [
    "C78_in_order",
    "C78_alone",
    "C78_bounded",
    "C78_all_delivered",
    "C78_abort",
    "C78_alone_refuted"
   ],
   "note": "C78_in_order and C78_alone are about states in which the pipeline thread is between packets; C78_all_delivered extends every other state. Control-plane changes to tables and groups while packets flow are not modelled. C78_alone_refuted is the finding on left-over metadata; C78_alone holds for programs that set the fields they use. Ten of sixteen planned mutations were run; the two on queue capacities failed first on the shape of a proof pattern, before reaching C78_bounded."
  }
 ]
}
