{"id": "C01", "title": "Longest-prefix-match lookup returns the longest installed prefix", "statement": "After any sequence of prefix insertions, overwrites and deletions, an LPM lookup of a key returns the value of the longest installed prefix that matches the leading bits of the key, and misses exactly when no installed prefix matches; deletion succeeds exactly when that prefix is installed and forgets only that prefix.", "quantifier": "every key width in bytes, every history of insert/delete/clear with prefixes of any length up to the key width, every lookup key", "why_tests_cant": "the answer depends on the whole history (including node pruning on delete) and on 2^width keys", "anchors": ["src/bm_sim/lpm_trie.cpp: LPMTrie insert_prefix/delete_prefix/lookup", "src/bm_sim/lookup_structures.cpp: LPMTrieStructure"]}
{"id": "C02", "title": "Live handles are unique and exactly the handed-out, not yet released ones", "statement": "A handle returned by the allocator is not already live, is the lowest free one, stays live until it is released, and releasing/validity checks/iteration/size see exactly the live handles; after any history of get/release.", "quantifier": "every history of get_handle, release_handle, clear of any length (set_handle is covered with the exact side condition under which uniqueness survives)", "why_tests_cant": "uniqueness is an invariant over unbounded histories; the word-scanning bitset code has carries at every 64-bit boundary", "anchors": ["include/bm/bm_sim/handle_mgr.h: HandleMgr", "include/bm/bm_sim/dynamic_bitset.h: DynamicBitset"]}
{"id": "C03", "title": "Ternary and range tables return the best-priority matching entry", "statement": "A lookup in a ternary or range table returns the entry with the numerically smallest priority among the entries whose key matches, breaking ties towards the lowest handle, and misses exactly when nothing matches, after any history of insertions, modifications and deletions through the table API.", "quantifier": "every key, every entry set, every priority assignment and every history of table operations", "why_tests_cant": "exponentially many key/mask combinations; linked-list surgery depends on the history", "anchors": ["src/bm_sim/lookup_structures.cpp: EntryList, TernaryMap, RangeMap"]}
{"id": "C04", "title": "The ternary lookup cache is invisible", "statement": "Enabling the 64-entry LRU lookup cache never changes the result of any lookup, whatever lookups and updates happened before.", "quantifier": "every interleaving of lookups, insertions and deletions of any length, every cache content reachable", "why_tests_cant": "stale-cache bugs only show up for particular interleavings of lookups and updates", "anchors": ["src/bm_sim/lookup_structures.cpp: TernaryCache, EntryList::lookup"]}
{"id": "C05", "title": "Exact-match tables return the entry whose key equals the lookup key", "statement": "After any history of adds and deletes an exact-match lookup returns exactly the entry installed under that key, and there is never more than one entry per match key (a second add is refused with DUPLICATE_ENTRY and changes nothing).", "quantifier": "every history of add/delete/modify, every key", "why_tests_cant": "requires all histories and all keys", "anchors": ["src/bm_sim/lookup_structures.cpp: ExactMap", "src/bm_sim/match_units.cpp: MatchUnitGeneric::add_entry_"]}
{"id": "C06", "title": "Entry handles denote the entry they were issued for until it is deleted", "statement": "The handle returned by a successful table add gives access (get, modify, delete) to exactly that entry until it is deleted; every other operation sequence leaves it in place; operations with never-issued or deleted handles are refused and change nothing, as long as the slot has been re-used fewer than 256 times since.", "quantifier": "every history of add/modify/delete/lookup operations, every issued handle", "why_tests_cant": "handle aliasing through slot re-use and the 8-bit version needs unbounded histories", "anchors": ["src/bm_sim/match_units.cpp: HANDLE_SET, MatchUnitGeneric::{add,delete,modify}_entry_"]}
{"id": "C07", "title": "Table capacity is never exceeded and refused operations leave the table unchanged", "statement": "A table never holds more entries than its size; an add on a full table answers TABLE_FULL; any table operation that returns an error leaves all entries, handles and lookup results as they were; the reported entry count equals the number of live entries.", "quantifier": "every history of operations and every table size", "why_tests_cant": "invariant over all histories including all error paths", "anchors": ["src/bm_sim/match_units.cpp: MatchUnitAbstract_::get_and_set_handle, add_entry"]}
{"id": "C08", "title": "A packet matches an entry iff every key field matches per its declared match kind", "statement": "For a table key made of any mix of exact, LPM (at most one), ternary, range and valid fields, in any declaration order and with any bit widths, the byte-level key built from the packet matches the byte-level entry built from the API match parameters iff each field value satisfies its own parameter (equality, prefix, masked equality, interval).", "quantifier": "every list of key fields, every field value, every list of well-formed match parameters", "why_tests_cant": "combinatorial explosion of field orders, widths and values", "anchors": ["src/bm_sim/match_units.cpp: MatchKeyBuilder, build_entry_from_match_key, match_params_to_entry"]}
{"id": "C09", "title": "Reading an entry back returns the match parameters it was installed with", "statement": "Installing an entry with match parameters and reading it back yields the same parameters up to the documented canonical form (bits outside the field width and don't-care bits cleared).", "quantifier": "every key layout and every list of well-formed match parameters", "why_tests_cant": "a codec round-trip over all layouts and values", "anchors": ["src/bm_sim/match_units.cpp: MatchKeyBuilder::match_params_to_entry, entry_to_match_params"]}
{"id": "C10", "title": "Table apply runs the matched entry's action or the default, and default/constness rules hold", "statement": "Applying a direct match table executes the action and data of the entry selected by the lookup, or the current default entry on a miss; setting the default action obeys the const-default rules and table entries cannot change once marked immutable.", "quantifier": "every history of entry and default-action operations, every packet key", "why_tests_cant": "needs all histories of control-plane calls", "anchors": ["src/bm_sim/match_tables.cpp: MatchTable, MatchTableAbstract::apply_action"]}
{"id": "C11", "title": "Action-profile members and groups in use cannot be deleted, and no table entry ever refers to a missing one", "statement": "Deleting a member that is referenced by a table entry or group is refused (MBR_STILL_USED), deleting a group referenced by an entry is refused (GRP_STILL_USED), and every live reference held by entries or groups designates a live member/group.", "quantifier": "every history of member, group and indirect-table operations in which every operation is valid (see findings for the failing-operation histories)", "why_tests_cant": "reference counting invariants over all histories", "anchors": ["src/bm_sim/action_profile.cpp: ActionProfile", "src/bm_sim/match_tables.cpp: MatchTableIndirect, MatchTableIndirectWS"]}
{"id": "C12", "title": "Group selection always picks a current member and can reach every member", "statement": "Selecting from a non-empty group by hash returns a member currently in that group; the choice depends only on hash and current membership; and each member is selected by some hash value; over all hash values in a full period each member is selected equally often.", "quantifier": "every group content reachable by add/remove member, every 64-bit hash", "why_tests_cant": "all group histories and all hashes", "anchors": ["src/bm_sim/action_profile.cpp: GroupInfo, GroupMgr, choose_from_group", "include/bm/bm_sim/ras.h"]}
{"id": "C13", "title": "Meters enforce the token-bucket bound", "statement": "For every meter, packet arrival sequence and clock readings, the amount of traffic coloured below a rate's colour in any window is at most the burst plus the tokens that accrued in the window; bucket level never exceeds the burst; and the returned colour is never lower than the pre-colour once the meter is configured.", "quantifier": "every sequence of packets (size, pre-colour, arrival time) and every rate/burst configuration, non-decreasing clock", "why_tests_cant": "quantifies over all arrival schedules", "anchors": ["src/bm_sim/meters.cpp: Meter::execute, set_rate"]}
{"id": "C14", "title": "Counters equal the exact sum of the traffic counted", "statement": "A counter read returns the number of packets and the sum of packet bytes counted since the last reset/write, modulo 2^64, whatever the interleaving of increments, writes, resets and reads.", "quantifier": "every interleaving of concurrent increments/queries/resets/writes at atomic-operation granularity", "why_tests_cant": "requires all thread interleavings", "anchors": ["include/bm/bm_sim/counters.h: Counter", "src/bm_sim/counters.cpp"]}
{"id": "C15", "title": "Egress queues are FIFO, bounded, lossless and duplicate-free", "statement": "For each queue the elements popped are exactly the accepted elements in acceptance order; a push is refused exactly when the queue is at capacity; popped elements were accepted before and are never delivered twice.", "quantifier": "every interleaving of pushes, pops and configuration changes on any number of queues and every clock behaviour", "why_tests_cant": "schedule and clock dependent", "anchors": ["include/bm/bm_sim/queueing.h: QueueingLogic, QueueingLogicRL, QueueingLogicPriRL"]}
{"id": "C16", "title": "Rate-limited queues respect the configured packet rate", "statement": "In a rate-limited queue with a fixed rate, no packet is delivered before its send time and scheduled send times of consecutive packets are at least the configured inter-packet delay apart, for every clock behaviour.", "quantifier": "every push/pop schedule and every clock", "why_tests_cant": "quantifies over all timings", "anchors": ["include/bm/bm_sim/queueing.h: QueueingLogicRL::push_front, pop_back"]}
{"id": "C17", "title": "Strict priority queueing", "statement": "With priority queues, the element popped for an egress worker always has the highest priority among the elements that are eligible to be sent at that time; within one priority of one queue order is FIFO.", "quantifier": "every push/pop schedule, every clock, every number of priorities within the supported limit", "why_tests_cant": "quantifies over all schedules", "anchors": ["include/bm/bm_sim/queueing.h: QueueingLogicPriRL"]}
{"id": "C18", "title": "Bounded hand-off queue is FIFO, never exceeds capacity and never loses an accepted element", "statement": "The blocking/returning bounded queue between threads delivers accepted elements in order, exactly once, never holds more than its capacity, and a producer blocks/returns only when full, a consumer only when empty.", "quantifier": "every interleaving of producers and consumers", "why_tests_cant": "all thread schedules", "anchors": ["include/bm/bm_sim/queue.h: Queue"]}
{"id": "C19", "title": "Multicast replication produces exactly one copy per (node, port) of the group", "statement": "Replicating to a multicast group yields, for each L1 node associated with the group and each port in its L2 port map, exactly one (rid, egress port) copy, and nothing else; unknown groups give no copies.", "quantifier": "every history of create/associate/update/dissociate operations and every group", "why_tests_cant": "all control-plane histories and 2^512 port maps", "anchors": ["src/bm_sim/simple_pre.cpp: McSimplePre"]}
{"id": "C20", "title": "Multicast node and group life cycle", "statement": "A node belongs to at most one group, appears in a group's replication list exactly when it is associated with it, and node operations with invalid handles are refused without effect; histories that never destroy a group with associated nodes never get stuck.", "quantifier": "every history of PRE operations", "why_tests_cant": "invariant over all histories", "anchors": ["src/bm_sim/simple_pre.cpp: mc_mgrp_destroy, mc_node_associate, mc_node_dissociate, mc_node_destroy"]}
{"id": "C21", "title": "LAG replication selects exactly one member port per LAG", "statement": "With LAG-aware replication, each node yields one copy for each plain port and, for each LAG in its LAG map with at least one member, exactly one copy to a current member port of that LAG.", "quantifier": "every LAG membership and node configuration", "why_tests_cant": "all port maps and memberships", "anchors": ["src/bm_sim/simple_pre_lag.cpp: McSimplePreLAG"]}
{"id": "C22", "title": "Packet buffer edits never disturb the payload", "statement": "Pushing and popping headers at the front of a packet buffer, saving/restoring state and cloning preserve all bytes that were not popped, in order; clones are independent of the original.", "quantifier": "every sequence of push/pop/truncate operations and every content", "why_tests_cant": "all histories", "anchors": ["include/bm/bm_sim/packet_buffer.h: PacketBuffer"]}
{"id": "C23", "title": "Field values are always stored modulo 2^width (or saturated), and bytes agree with values", "statement": "After any assignment or arithmetic operation an unsigned field holds the mathematical result modulo 2^width, a saturating field the clamped result, and the field's byte representation is the big-endian encoding of that value; a signed field holds the two's-complement representative for results in the documented range.", "quantifier": "every field width, signedness, saturation flag and every integer result", "why_tests_cant": "unbounded integers and widths", "anchors": ["include/bm/bm_sim/fields.h: Field::export_bytes, sync_value", "src/bm_sim/fields.cpp"]}
{"id": "C24", "title": "Arithmetic primitives implement their mathematical specification", "statement": "two_comp_mod, sat_cast, usat_cast, shifts and bit operations on arbitrary-precision data equal their mathematical definition for all operands, and refuse (rather than mis-compute) operands outside their domain.", "quantifier": "every pair of integer operands and widths", "why_tests_cant": "unbounded integer domain", "anchors": ["include/bm/bm_sim/data.h: Data"]}
{"id": "C25", "title": "Field extract/deparse is a bit-exact codec at any bit offset", "statement": "Extracting a field of any width from any bit offset reads exactly those bits; deparsing writes exactly those bits without changing preceding bits; deparse followed by extract returns the value; deparsing a header's fields left to right and re-extracting gives back the same fields.", "quantifier": "every bit offset 0..7, every width, every buffer content, every header layout", "why_tests_cant": "all widths, offsets and contents", "anchors": ["src/bm_sim/extract.h: generic_extract, generic_deparse", "src/bm_sim/headers.cpp: Header::extract, Header::deparse"]}
{"id": "C26", "title": "Header stacks: push/pop shift semantics", "statement": "push_front(n) moves element i to i+n, drops the last n, makes the first n invalid; pop_front(n) moves element i+n to i and makes the last n invalid; the next index is adjusted by n with saturation at 0 and at the size; any number n is handled.", "quantifier": "every stack size, content, next index and count n", "why_tests_cant": "all sizes and counts", "anchors": ["src/bm_sim/stacks.cpp: StackP4_16, Stack"]}
{"id": "C27", "title": "At most one header of a header union is valid", "statement": "After any sequence of header validity changes, unions have at most one valid member, and the union reports exactly that member as its valid header.", "quantifier": "every history of mark_valid/mark_invalid/assignment on members of the union", "why_tests_cant": "invariant over all histories", "anchors": ["include/bm/bm_sim/header_unions.h: HeaderUnion", "src/bm_sim/headers.cpp: mark_valid, mark_invalid"]}
{"id": "C28", "title": "Header validity seen by the pipeline and by table keys/expressions agree", "statement": "The validity flag used by the deparser and the hidden validity field used by match keys and expressions agree after every operation of the packet-processing API (extract, add/remove header, copy, stack push/pop, reset between packets).", "quantifier": "every history of header operations exposed to P4 programs", "why_tests_cant": "two copies of one fact kept in sync across all histories", "anchors": ["src/bm_sim/headers.cpp", "src/bm_sim/phv.cpp"]}
{"id": "C29", "title": "Parser never consumes more than the packet and accounts for every byte", "statement": "For every parser program and packet, the extracted headers' bytes followed by the remaining payload reconstruct the packet; a packet too short is reported as PacketTooShort without reading past its end (for the op kinds with a complete bounds check; exact guards stated for the others).", "quantifier": "every parser program over the supported operations, every packet", "why_tests_cant": "all programs, all packets; out-of-bounds reads may not crash a test", "anchors": ["src/bm_sim/parser.cpp: Parser::parse, ParserOpExtract, ParserOpExtractVL, ParserOpAdvance"]}
{"id": "C30", "title": "Parser transitions follow first-match select semantics, including masks and value sets", "statement": "The next parse state is the one of the first select case, in declaration order, whose value/mask/value-set matches the key, else the default; value sets reflect exactly the values added and not removed.", "quantifier": "every case list, key, and history of value-set updates", "why_tests_cant": "all case lists and keys", "anchors": ["src/bm_sim/parser.cpp: ParseState::find_next_state, ParseSwitchCase, ParseVSet"]}
{"id": "C31", "title": "Parser terminates whenever every state on a cycle consumes data", "statement": "Parsing terminates for every packet when every cycle of the parse graph contains an operation that consumes at least one byte; the number of steps is bounded by the packet length times the longest non-consuming path.", "quantifier": "every parse graph with that property, every packet", "why_tests_cant": "termination for all inputs", "anchors": ["src/bm_sim/parser.cpp: Parser::parse"]}
{"id": "C32", "title": "Deparser output is the valid headers in order followed by the payload", "statement": "The deparsed packet equals the concatenation of the encodings of the valid headers in deparser order followed by the unparsed payload, its length is the sum of the sizes; parse followed by deparse with no change is the identity on the packet.", "quantifier": "every header set, validity assignment and payload", "why_tests_cant": "all packets and header stacks", "anchors": ["src/bm_sim/deparser.cpp: Deparser::deparse"]}
{"id": "C33", "title": "Internet checksum code computes the RFC 1071 checksum for every buffer", "statement": "The word-at-a-time checksum (both implementations) equals the 16-bit one's-complement of the one's-complement sum of the big-endian 16-bit words, for every buffer length and content; and a header whose checksum was updated verifies.", "quantifier": "every byte buffer of any length", "why_tests_cant": "carry propagation depends on all contents and lengths", "anchors": ["src/bm_sim/checksums.cpp: cksum16, IPv4Checksum", "src/bm_sim/calculations.cpp: cksum16"]}
{"id": "C34", "title": "CRC hash functions compute the defined polynomial CRC", "statement": "crc16, crc32, crcCCITT and the configurable CRC equal bitwise polynomial division with the configured polynomial, initial value, final xor and reflection settings, for every buffer; the built-in table constants are right.", "quantifier": "every buffer, every polynomial and configuration", "why_tests_cant": "all inputs and configurations", "anchors": ["src/bm_sim/calculations.cpp: crc16, crc32, crcCCITT, crc_custom", "src/bm_sim/crc_tables.h"]}
{"id": "C35", "title": "Toeplitz hash computes the defined key-window XOR and is linear", "statement": "The Toeplitz hash of a buffer is the XOR, over the set bits of the input, of the 32-bit window of the (circular) key starting at that bit position; hence it is linear in the input.", "quantifier": "every key of legal size and every buffer", "why_tests_cant": "all keys and inputs", "anchors": ["src/bm_sim/calculations.cpp: toeplitz"]}
{"id": "C36", "title": "Compiled expressions evaluate like the source expression tree", "statement": "Evaluating the flattened instruction list with its temporary-register assignment gives the value of the expression tree, for every tree (arithmetic, comparisons, boolean, ternary conditional) and every packet state; temporaries in use are never overwritten.", "quantifier": "every expression tree and every environment", "why_tests_cant": "all trees of unbounded depth", "anchors": ["src/bm_sim/expressions.cpp: push_back_*, append_expression, eval_, assign_dest_registers"]}
{"id": "C37", "title": "Action bodies and pipelines follow their control flow exactly", "statement": "An action executes its primitives in order with jumps honoured and each primitive sees its own arguments; a pipeline executes the chain of nodes starting from the first until none remains or the packet is marked for exit.", "quantifier": "every action body, every pipeline graph", "why_tests_cant": "all programs", "anchors": ["src/bm_sim/actions.cpp: ActionFnEntry::execute, ActionFn::push_back_primitive", "src/bm_sim/pipeline.cpp: Pipeline::apply"]}
{"id": "C38", "title": "Idle-timeout notifications: only genuinely idle entries are reported, never in two consecutive sweeps", "statement": "A sweep reports an entry only if it exists, has a non-zero timeout and was not hit for at least the timeout; an entry that is idle and was not in the previous report is reported; an entry reported in one sweep is not reported in the next.", "quantifier": "every sequence of sweeps, hits, adds, deletes and TTL updates with any clock", "why_tests_cant": "time- and schedule-dependent", "anchors": ["src/bm_sim/ageing.cpp: AgeingMonitor::do_sweep", "src/bm_sim/match_units.cpp: sweep_entries"]}
{"id": "C39", "title": "Learning (digest) delivery: each sample is delivered, and de-duplicated until acknowledged", "statement": "Every accepted sample is put in exactly one notification, notifications carry consecutive buffer ids and the samples in order; a sample equal to a delivered, unacknowledged one is suppressed; after the whole buffer is acknowledged the same sample can be learned again.", "quantifier": "every interleaving of packets, timer expiries, transmissions and acknowledgements of whole buffers", "why_tests_cant": "all thread interleavings and histories", "anchors": ["src/bm_sim/learning.cpp: LearnEngine::LearnList"]}
{"id": "C40", "title": "Registers keep values modulo their width and every action has exclusive access to the register arrays it uses", "statement": "Register reads return the last value written modulo 2^width; the set of register arrays locked for an action contains every array it references, each exactly once.", "quantifier": "every sequence of writes/reads; every action body", "why_tests_cant": "all histories, all programs", "anchors": ["src/bm_sim/stateful.cpp: Register, RegisterSync", "src/bm_sim/actions.cpp"]}
{"id": "C41", "title": "Live copies of a packet have distinct copy ids", "statement": "Two live packets with the same packet id never have the same copy id, in any history of clone/destroy in which no more than 2^16-1 copies are made and no other packet id shares the slot.", "quantifier": "every history of new/clone/destroy events", "why_tests_cant": "all histories", "anchors": ["src/bm_sim/packet.cpp: CopyIdGenerator"]}
{"id": "C42", "title": "Packed per-packet intrinsic registers do not interfere", "statement": "Each of the simple_switch per-packet attributes (clone session, clone field list, learn list, resubmit flag, recirculate flag, packet length) reads back the last value written, regardless of writes to the others.", "quantifier": "every sequence of set/clear operations and all 16-bit values", "why_tests_cant": "all histories and values", "anchors": ["targets/simple_switch/register_access.h"]}
{"id": "C43", "title": "simple_switch ingress fate: every packet gets exactly the outcome the architecture defines", "statement": "After ingress, a packet is resubmitted, else multicast, else dropped, else unicast to its egress port, in that order of precedence; clones and digests happen independently of the outcome; no other copies are produced.", "quantifier": "every combination of metadata set by a program and every mirroring/multicast configuration", "why_tests_cant": "combinatorial metadata space", "anchors": ["targets/simple_switch/simple_switch.cpp: ingress_thread, egress_thread, multicast, enqueue"]}
{"id": "C44", "title": "Resubmit/recirculate input buffer: priority, boundedness and non-blocking", "statement": "High-priority (resubmit/recirculate) packets are served before received packets, each class is FIFO and bounded; the switch's own threads never block when re-inserting, and a received packet is never dropped but makes the receiver wait.", "quantifier": "every interleaving of producers and the consumer", "why_tests_cant": "all schedules", "anchors": ["targets/simple_switch/simple_switch.cpp: InputBuffer"]}
{"id": "C45", "title": "State save/restore round trip", "statement": "Serialising a table, an action profile or meters and deserialising into a freshly configured switch of the same program gives the same observable behaviour, for states reachable from the API (under the exact guards listed in the findings).", "quantifier": "every reachable state", "why_tests_cant": "all states", "anchors": ["src/bm_sim/match_units.cpp: serialize_, deserialize_", "src/bm_sim/action_profile.cpp: serialize, deserialize", "src/bm_sim/meters.cpp: serialize, deserialize"]}
{"id": "C46", "title": "Port status callbacks alternate and reflect the monitored state", "statement": "For every port, registered callbacks see added, then alternating up/down events starting with up, then removed; an event that contradicts the current state is ignored; the tracked status equals the last reported event.", "quantifier": "every sequence of notifications", "why_tests_cant": "all event histories", "anchors": ["src/bm_sim/port_monitor.cpp: PortMonitorPassive, PortMonitorActive"]}
{"id": "C47", "title": "Pcap replay merges the input files in time order, delivering each packet exactly once", "statement": "Replaying packet capture files delivers every packet of every file exactly once, preserving the order within each file, and always the earliest pending packet first (ties to the first file).", "quantifier": "every set of files and every packet timestamps", "why_tests_cant": "all file contents", "anchors": ["src/bm_sim/pcap_file.cpp: PcapFilesReader::scan, start"]}
{"id": "C48", "title": "Error-code and enum maps are bijective", "statement": "After any sequence of additions, error names and codes (and enum entry names and values within an enum) are in one-to-one correspondence, refused additions change nothing, and all core parser errors are defined after initialisation.", "quantifier": "every sequence of additions", "why_tests_cant": "all histories", "anchors": ["src/bm_sim/parser_error.cpp: ErrorCodeMap", "src/bm_sim/enums.cpp: EnumMap"]}
{"id": "C49", "title": "A cloned packet header vector equals the original and is independent of it", "statement": "Cloning a packet with its headers yields headers, validity, stacks and unions equal to the original's, later changes to one do not affect the other, and recycling a packet header vector leaves no header valid.", "quantifier": "every packet header state reachable", "why_tests_cant": "all states", "anchors": ["src/bm_sim/phv.cpp: copy_headers, reset", "src/bm_sim/packet.cpp: clone_with_phv"]}
{"id": "C50", "title": "Configuration swap protocol", "statement": "A new configuration can only be loaded when no swap is ongoing, a swap can only be requested after a load, runtime operations go to the newest loaded configuration while packets use the old one until the swap is carried out, and a swap switches packets to exactly that configuration.", "quantifier": "every history of load/swap/process calls", "why_tests_cant": "all histories", "anchors": ["src/bm_sim/context.cpp: load_new_config, swap_configs, do_swap", "src/bm_sim/switch.cpp"]}
{"id": "C51", "title": "Hash input buffer assembly packs fields bit-exactly and in order", "statement": "The buffer handed to a hash/checksum calculation is the bit-concatenation of the listed fields, constants and valid headers in order, padded with zero bits to a byte boundary, then the payload when requested; fields of invalid headers contribute nothing.", "quantifier": "every list of calculation inputs, every packet", "why_tests_cant": "all layouts and values", "anchors": ["src/bm_sim/calculations.cpp: BufBuilder"]}
{"id": "C52", "title": "Header copy primitives", "statement": "assign_header makes the destination an exact copy of the source (invalid source invalidates the destination); stack and union assignments do so element-wise and preserve the union and validity invariants.", "quantifier": "every source and destination state", "why_tests_cant": "all states", "anchors": ["src/bm_sim/core/primitives.cpp"]}
{"id": "C53", "title": "XOR, identity, round-robin and offset hashes compute what they define", "statement": "The XOR hashes fold the buffer, zero-padded at its end, into 16 or 32 bits; the identity hash is the value of the first eight bytes; round robin returns the number of earlier calls modulo 2^64; consistent round robin gives equal values exactly to equal inputs and numbers new inputs consecutively; a hash-based offset always lies in [base, base+max(size,1)) and every value of the interval is reachable.", "quantifier": "every buffer, and every history of calls", "why_tests_cant": "all buffers, lengths and call histories", "anchors": ["src/bm_sim/calculations.cpp: xor_hash, emitAsInteger, identity, round_robin, round_robin_consistent", "targets/simple_switch/primitives.cpp: modify_field_with_hash_based_offset"]}
{"id": "C54", "title": "Packets keep their attributes and header vectors through copies and moves", "statement": "Every attribute of a packet reads as last written; a clone is a new packet with the bytes, ids, port and length of the original and initial values otherwise, independent of it; moving or assigning a packet moves all of it; each header vector taken from a context's pool was built for that context, is held by one packet, and is given back exactly once, so that when all packets are gone none is in use and copies of each id were given back as often as made.", "quantifier": "every sequence of packet creations, clones, moves, assignments, context changes, reads, writes and destructions, any number of contexts", "why_tests_cant": "the sequences are unbounded and the accounting errors show only after later operations", "anchors": ["src/bm_sim/packet.cpp: Packet, clone_with_phv, clone_choose_context, operator=, change_context", "include/bm/bm_sim/packet.h", "src/bm_sim/phv_source.cpp"]}
{"id": "C55", "title": "Concurrent table and action profile calls are atomic and cannot deadlock", "statement": "When any number of threads call match tables and the action profile they share (adding, modifying, deleting and reading members, groups, entries and defaults, applying tables to packets), every call appears to take effect at one instant between its call and its return: no call and no packet sees a half-made change, and what they see follows the sequential behaviour of action profiles and indirect tables. As long as some call is under way some thread can go on, even if readers queue behind waiting writers.", "quantifier": "every number of threads, calls and tables, every interleaving of their steps, every history", "why_tests_cant": "the interleavings are unbounded and the wrong ones depend on timing", "anchors": ["include/bm/bm_sim/match_tables.h: lock_read, lock_write, lock_impl_read, lock_impl_write, handle_iterator", "src/bm_sim/match_tables.cpp: MatchTableIndirect, MatchTableIndirectWS, apply_action", "src/bm_sim/action_profile.cpp: ActionProfile"]}
{"id": "C56", "title": "psa_switch packet paths: every packet gets exactly the outcome the PSA defines", "statement": "A packet received by psa_switch is parsed, presented to the ingress program with its port, path, time and parser error and marked for dropping; after ingress, clones of the packet as it came are sent where the session says, and then the packet is dropped, resubmitted with its original bytes, replicated to its multicast group or sent to one port. In egress it is parsed again with no header valid, and after egress, clones of the packet as it leaves are made and it is dropped, recirculated or transmitted out of the port it was queued for. No packet is on any other path.", "quantifier": "every program (parsers, pipelines, deparsers), configuration, packet and history of packets", "why_tests_cant": "programs, configurations and packet histories are unbounded", "anchors": ["targets/psa_switch/psa_switch.cpp: receive_, ingress_thread, egress_thread, multicast, enqueue", "targets/psa_switch/psa_switch.h"]}
{"id": "C57", "title": "pna_nic: every packet goes through the main control once and leaves out of the port it was sent to", "statement": "A packet received by pna_nic is parsed, presented to the main control with its port, time and parser error, and leaves as exactly one packet, deparsed and truncated as the program says, out of the port of the last send_to_port.", "quantifier": "every program and packet", "why_tests_cant": "programs and packets are unbounded", "anchors": ["targets/pna_nic/pna_nic.cpp: receive_, main_thread", "targets/pna_nic/primitives.cpp: send_to_port"]}
{"id": "C58", "title": "The InternetChecksum extern computes ones'-complement sums over any history of calls", "statement": "Every sequence of add, subtract, get, get_state, set_state, get_verify and clear on whole 16-bit words of bit<W> fields returns, and gives the sums the PSA defines: add is exact for data of any length and any order; clear, add and get give the RFC 1071 checksum of the bytes; subtracting the old and adding the new words of data gives the sum of the new data.", "quantifier": "every sequence of calls, every list of fields of any widths and values", "why_tests_cant": "field lists, values and call histories are unbounded; the two ones'-complement zeros and wrapping of the 16-bit bit counter need rare inputs", "anchors": ["targets/psa_switch/externs/psa_internet_checksum.cpp: concatenate_fields, ones_complement_sum, PSA_InternetChecksum", "targets/pna_nic/externs/pna_internet_checksum.cpp"]}
{"id": "C59", "title": "The Hash extern hashes exactly the bits of its fields and stays in its range", "statement": "get_hash applies the algorithm to the bits of the fields in order, preceded by zeros up to a whole number of bytes; with a base and a modulus the result lies in [base, base+max) and is congruent to the hash.", "quantifier": "every algorithm, list of fields, base and modulus", "why_tests_cant": "fields can have any widths and alignments", "anchors": ["targets/psa_switch/externs/psa_hash.cpp: build_buffer, get_hash, get_hash_mod", "targets/pna_nic/externs/pna_hash.cpp"]}
{"id": "C60", "title": "Periodic tasks run while they are registered, not early, and are neither forgotten nor starved", "statement": "A periodic task runs only between its registration and its unregistration or destruction; it does not run before one interval has passed since it was constructed or last ran, provided no task the loop waits for is taken off the list during the wait; whenever a registered task is due the loop is not asleep; from then until it runs every other task runs at most once.", "quantifier": "every set of tasks and intervals, every schedule of constructions, registrations, destructions, start, join, wake-ups and passing time", "why_tests_cant": "it depends on how registration and destruction interleave with the waits of the loop, and on spurious wake-ups", "anchors": ["src/bm_sim/periodic_task.cpp: PeriodicTask, PeriodicTaskList::register_task, unregister_task, start, join, loop", "include/bm/bm_sim/periodic_task.h"]}
{"id": "C61", "title": "The packet length simple_switch reports follows the headers added and removed", "statement": "The packet length kept for a packet, which egress sees as standard_metadata.packet_length, changes by exactly the size of the headers added and removed by actions, so that a length that was right after parsing is the length of the packet the deparser would emit.", "quantifier": "every program layout, reachable header vector and sequence of header additions, removals and field writes", "why_tests_cant": "any sequence of actions on any header layout, including headers of variable length and unions", "anchors": ["targets/simple_switch/primitives.cpp: add_header, remove_header, add_header_fast, copy_header", "targets/simple_switch/simple_switch.cpp: PACKET_LENGTH_REG_IDX", "src/bm_sim/core/primitives.cpp: assign_header, push, pop"]}
{"id": "C62", "title": "log_msg prints the format string with its placeholders filled in", "statement": "log_msg replaces the placeholders of the format string by the arguments in order, keeps the rest and turns escaped braces into braces; it ends the switch when a placeholder is not closed or when the numbers of placeholders and arguments differ; it always terminates.", "quantifier": "every format string in which no placeholder is first or directly follows another one, and every list of arguments", "why_tests_cant": "format strings and values are unbounded; positions shift as values of different lengths are inserted", "anchors": ["src/bm_sim/core/primitives.cpp: log_msg::operator()", "include/bm/bm_sim/data.h: get_string_repr"]}
{"id": "C63", "title": "Packet-in device manager follows its messages", "statement": "Over the packet-in socket, for every interleaving of received messages with calls from other threads: a packet message reaches the packet handler with exactly its bytes and its port iff a handler is set and, when ports are enforced, the port has been added and not been set down or removed since; port_is_up and get_port_info answer according to the messages received so far; an information request gets one NOT_SUPPORTED reply echoing its port; unknown messages change nothing; a transmitted packet is sent as one PACKET_OUT message with its port, length and bytes; and, as long as port_add and port_remove are not called (they are unsupported here), the callbacks made are in order exactly those the messages call for (added and up, up/down on a change of status, removed), with none without enforcement. Nothing blocks.", "quantifier": "all sequences of messages of any content, all interleavings with queries, transmissions and notifications, with and without enforcement and handler", "why_tests_cant": "the status of a port depends on the whole history of messages and callbacks are made outside the lock, so that queries fall between a message and its callbacks", "anchors": ["src/bm_sim/dev_mgr_packet_in.cpp: PacketInDevMgrImp::handle_msg, do_port_add, do_port_remove, do_port_set_status, transmit_fn_, handle_info_req_msg", "src/bm_sim/dev_mgr.cpp: DevMgrIface::port_add, DevMgrIface::port_remove"]}
{"id": "C64", "title": "BMI port manager is a set of ports", "statement": "For every history of calls to the BMI port manager: adding a port succeeds iff its number is free, the maximum is not reached and its interface opens; removing succeeds iff the port exists; sending goes to the interface of the port named; after each select every existing port whose descriptor was reported and that has a packet gives it to the handler, with its port number and in ascending order, and no other port does; the statistics of a port are the counts and octets of the packets received and successfully sent since it was added or cleared; the descriptors watched are those of the existing ports; no call accesses the port array out of bounds. In the device manager on top, get_port_info lists in ascending order exactly the ports that exist with their interface names.", "quantifier": "all maxima, all histories of add, remove, send, receive and statistics calls with any port numbers and any answers of pcap", "why_tests_cant": "the sorted array with binary search and block moves must be right for every insertion and removal order and every size", "anchors": ["src/BMI/bmi_port.c: get_port, insert_port, delete_port, run_select, bmi_port_send, bmi_port_interface_add, bmi_port_interface_remove, bmi_port_get_stats, bmi_port_clear_stats, bmi_port_destroy_mgr", "src/bm_sim/dev_mgr_bmi.cpp: BmiDevMgrImp"]}
{"id": "C65", "title": "Receiving and port calls of the BMI exclude each other", "statement": "For every interleaving of the receiving thread with any number of threads adding, removing and querying ports: the packet handler is called only for a port that is there and whose descriptor select reported in the last call; no port is added or removed and no descriptor closed while a packet is being handled; no descriptor is closed while the receiving thread waits for it in select. A remove that waits for the receiving thread's answer can still return exactly when that thread is in select with the internal socket among the descriptors, or has been told of it there; otherwise no call returns ever again (deadlock: remove holds the lock the receiving thread needs).", "quantifier": "every schedule of the receiving thread and any number of calling threads, every sequence of calls, every descriptor number and every answer of select within its contract", "why_tests_cant": "the deadlock and the exclusion depend on the exact interleaving of lock, select and socket operations; a test sees one schedule", "anchors": ["src/BMI/bmi_port.c: run_select, _bmi_port_interface_remove, bmi_port_interface_add, bmi_port_interface_remove, bmi_port_send"]}
{"id": "C66", "title": "Multicast nodes set through P4Runtime get the ports given", "statement": "A multicast node created or modified through the P4Runtime (PI) interface with ports below 512 in ascending order replicates to exactly these ports, and every history of such calls acts on the replication engine as the calls meant. For any list of ports below 512 this holds exactly when each port is given at a place after which no smaller port follows; with a port of 512 or more all ports are shifted by the excess of the last one; with port 2^32-1 the behaviour is undefined.", "quantifier": "all lists of 32-bit ports, all histories of calls and packets, all sizes of the replication engine", "why_tests_cant": "whether ports are lost depends on the order of the list and on the relation of all its elements; tests give sorted small ports", "anchors": ["PI/src/pi_mc_imp.cpp: convert_map, _pi_mc_grp_create, _pi_mc_grp_delete, _pi_mc_node_create, _pi_mc_node_modify, _pi_mc_node_delete, _pi_mc_grp_attach_node, _pi_mc_grp_detach_node", "include/bm/bm_sim/pre.h: Set"]}
{"id": "C67", "title": "PI group selection serves packets only from active members", "statement": "When the PI library drives an action profile, a member that joins a group is on; deactivating it stops it from serving the group's packets and activating it brings it back; leaving the group or deleting the group forgets the deactivation. Activate and deactivate answer success, 'not in group' or error exactly as the member's state says. A packet for a group is served by an active member of the group, chosen by the hash over the active members in increasing order, and every active member serves the packets of some hash. Known exceptions: a group with members but none active kills the process at the next packet; a selector installed while groups have members does not know them; handles wider than 32 bits are truncated and act on another member.", "quantifier": "every history of profile calls, table calls, activations, deactivations, packets and hashes, over any tables and any number of members and groups", "why_tests_cant": "two books (profile and selector) must stay in step through every interleaving of join, leave, delete, activate and deactivate; tests follow a few sequences", "anchors": ["PI/src/group_selection.cpp: GroupSelection", "PI/src/pi_act_prof_imp.cpp: _pi_act_prof_grp_activate_mbr, _pi_act_prof_grp_deactivate_mbr", "PI/src/common.h: IndirectHMgr", "src/bm_sim/action_profile.cpp: add_member_to_group, remove_member_from_group, delete_group, set_group_selector, reset_state, choose_from_group"]}
{"id": "C68", "title": "PI table calls keep the client's match keys and priorities", "statement": "A table driven through the PI calls behaves as a map from match keys (with priorities where the table ranks entries) to actions. Adding an entry is refused for a nonsensical key, a priority above the limit, a duplicate or a full table, and otherwise yields a handle no live entry has. Modify, delete and fetch by handle or by key act on exactly that entry. A packet is served by the entry of highest PI priority (longest prefix for LPM tables) among those whose every match holds. A fetched entry gives back the handle, the priority and a key that asks the same of packets. Known exceptions: fetching by key with a priority above the limit stops the process; a handle wider than 32 bits is cut down and acts on another entry.", "quantifier": "every sequence of add, modify, delete, fetch and packets on a table with any number of fields of any match kinds and widths whose P4Info description agrees with the switch's", "why_tests_cant": "the byte encoding, the priority inversion and the entry numbering must agree for every key, width, priority and history; tests try a few keys", "anchors": ["PI/src/pi_tables_imp.cpp: build_key, PriorityInverter, emit_match_key, emit_entries, _pi_table_entry_add, _pi_table_entry_modify, _pi_table_entry_delete, _pi_table_entry_fetch_one", "src/bm_sim/match_units.cpp: MatchKeyBuilder, MatchUnitGeneric"]}
{"id": "C69", "title": "PI time to live, direct counters and direct meters follow their entry", "statement": "Through the PI calls, an entry's time to live, counter and meter are set by add and modify and by the direct calls, and read back: a counter reads as the values written plus the packets counted since; a counter write that gives one unit keeps the other; a meter reads as the configuration last accepted, or as unset; the remaining time is the timeout less the idle time, up to 4294 ms; errors name the feature that is off, the entry that is missing or the bad configuration; the default entry has no direct resources. With packets counted during a partial counter write, the kept unit misses exactly the packets counted between its read and its store. Known exceptions: an add refused for its resources leaves the entry in place; a new entry finds the meter (and timeout) of the entry it replaces; a remaining time above 4294 ms is wrong; a time to live below 1 ms means none; modify with one unit of a counter clears the other; a refused meter configuration changes the meter; a partial counter write loses packets.", "quantifier": "every history of adds, modifies, deletes, packets and resource calls on a table of any kind and size, with each feature on or off and any representation of rates; every interleaving of a counter write with any packets", "why_tests_cant": "the state of an entry is spread over four structures that outlive it; the failures need a particular history or a packet at a particular instant", "anchors": ["PI/src/pi_tables_imp.cpp: set_ttl, set_direct_resources, _pi_table_entry_add, _pi_table_entry_modify, _pi_table_entry_get_remaining_ttl", "PI/src/pi_counter_imp.cpp: _pi_counter_write, _pi_counter_read_direct, _pi_counter_write_direct", "PI/src/pi_meter_imp.cpp: _pi_meter_read_direct, _pi_meter_set_direct", "PI/src/direct_res_spec.cpp", "src/bm_sim/match_tables.cpp: query_counters, write_counters, set_meter_rates, get_meter_rates, reset_meter_rates, set_entry_ttl, set_entry_common_info"]}
{"id": "C70", "title": "Meter rates set through the PI, with the real double arithmetic", "statement": "A meter set through the PI to a committed and a peak rate (64-bit integers, per second) and two bursts refuses the call exactly when the committed rate exceeds the peak rate, reads back the same bursts and each rate or one unit less, and treats all ones as no configuration. From then on the packets it colours green in any window total at most the committed burst plus the committed rate times the length of the window plus three (green and yellow: the same for the peak rate), whatever happens on other meters. No conversion between doubles and integers is undefined. All this is proved for the IEEE 754 arithmetic that the code does, for rates below 2^51 that accrue at most 2^50 tokens; outside that range the limits are proved to be real.", "quantifier": "all sequences of set, read and packet calls on an array of meters, all 64-bit rates, 32-bit bursts, packet sizes and times", "why_tests_cant": "Rounding errors depend on the rate and the time: 249 per second reads back as 248, most values do not change; a bound on every window of every history needs a proof about rounding.", "anchors": ["PI/src/direct_res_spec.cpp: convert_from_meter_spec, convert_to_meter_spec", "PI/src/pi_meter_imp.cpp: _pi_meter_set, _pi_meter_read", "src/bm_sim/meters.cpp: Meter::execute, Meter::set_rate, Meter::get_rates", "src/bm_sim/context.cpp: meter_set_rates, meter_get_rates, meter_reset_rates"]}
{"id": "C71", "title": "A queue's rate in packets per second, with the real double arithmetic", "statement": "For every 64-bit rate the delay between packets that the switch computes with doubles is exactly 10^9 divided by the rate, in whole nanoseconds rounded down (0, no limit, for rate 0). So from the moment the rate of a queue is set to p packets per second, and until it is set again, n packets after a given one leave only after n/p seconds, up to the rounding of the delay; a rate that divides 10^9 is met exactly. Rates that do not divide 10^9 are exceeded (600 million lets 1000 million through) and rates above 10^9 set no limit.", "quantifier": "all 64-bit rates, all sequences of pushes, pops and configuration calls, all clock readings", "why_tests_cant": "A rounding error for a single one of 2^64 rates would change the delay; the bound is for every history and clock.", "anchors": ["include/bm/bm_sim/queueing.h: rate_to_ticks, set_rate, push_front, pop_back"]}
{"id": "C72", "title": "Meter rates survive a save and restore up to the digits that are printed", "statement": "Saving an array of meters and restoring it into a freshly configured switch of the same program gives back every configuration exactly if its rates have at most six significant digits; other rates come back changed by at most one part in 199999, and a second save and restore changes nothing more. For meters set through P4Runtime, after any sequence of calls and packets, the rates read back after the restart are the same integers if they have at most six significant digits, and otherwise the same up to one part in 199990 and one unit per second; 1234567 units per second come back as 1234570. Meters without a configuration stay so, and the restore consumes exactly what the save wrote.", "quantifier": "all arrays of meters and all rates (doubles), all sequences of PI calls and packets before the save", "why_tests_cant": "Printing and reading round doubles; the claim is for every double and every decimal of six digits.", "anchors": ["src/bm_sim/meters.cpp: Meter::serialize, Meter::deserialize, MeterArray::serialize, MeterArray::deserialize", "PI/src/direct_res_spec.cpp: convert_from_meter_spec, convert_to_meter_spec"]}
{"id": "C73", "title": "Indexed primitives touch exactly the element named by their index", "statement": "For every history of packets through simple_switch that runs execute_meter, count, register_read, register_write, truncate, random and hash primitives with operands taken from constants or from fields earlier primitives wrote: each counter counts exactly the packets whose index is its position, each meter is in the state its own calls lead to and hands out its own colors, each register holds and returns the last value written at its position cut to its width; an index past the end (below 2^32) changes nothing and leaves the destination field alone; random values lie between the bounds and an empty range writes nothing; the hash primitive writes base plus hash modulo size; a packet's size is the smallest length asked for. The build with assertions never stops on an index; the build without does the same when every index is in range and is undefined otherwise. Findings: an index of 2^32 or more updates the element at the index modulo 2^32, and a length of 2^64 truncates to nothing.", "quantifier": "all array sizes and contents, all meters, all packets, all lists of primitives and operands, all clocks, draws and hashes", "why_tests_cant": "Isolation between elements and the last-write property quantify over all histories; the aliasing appears only for indices of 2^32 and more.", "anchors": ["targets/simple_switch/primitives.cpp: execute_meter, count, register_read, register_write, truncate_, modify_field_rng_uniform, modify_field_with_hash_based_offset", "include/bm/bm_sim/data.h: get_uint, get_uint64, get", "include/bm/bm_sim/packet.h: truncate, get_data_size"]}
{"id": "C74", "title": "Action parameters come back as the client wrote them, live and after a restore", "statement": "For an action with parameters of any widths of at least one bit, written through PI as bytes: each parameter becomes the big-endian number of its own bytes, and reading the entry back gives the same bytes, including the leading zeros that the switch does not store. Saving any list of such entries as text and restoring them into a fresh switch gives the same entries, leaves the following text for the next reader, and reading them back through PI again gives the client's bytes. Findings: an action with a parameter of width 0 can be written but reading it back fails an assertion; a negative parameter, which only a program's default entry can have, is read back without its sign and makes saving the state throw.", "quantifier": "all numbers and widths of parameters, all bytes, all lists of entries, all text that follows", "why_tests_cant": "The switch drops leading zeros and the reader must restore them for every value and width; the text must parse back for every number and every sequence of entries.", "anchors": ["PI/src/action_helpers.cpp: build_action_data, dump_action_data", "src/bm_sim/actions.cpp: ActionFnEntry::serialize, ActionFnEntry::deserialize", "include/bm/bm_sim/data.h: set, get_string, operator<<"]}
{"id": "C75", "title": "Digests are sent on time: the transmit thread never sleeps through a full buffer or an expired timeout", "statement": "Whatever samples, acknowledgements, changes of the maximum, resets and transmissions came before, and as long as the timeout of a digest is only switched off or made longer while samples are pending: once the timeout has elapsed since the last sample, or once the buffer is full, the transmit thread takes the samples without needing a spurious wake-up, and by itself delivers all pending samples. A timeout switched on or shortened while samples are pending does not apply to them (finding).", "quantifier": "every interleaving of producers, API calls and the transmit thread, every sleeping state, time and timeout", "why_tests_cant": "lost wake-ups depend on the interleaving and on what the thread was waiting for; tests see a few schedules", "anchors": ["src/bm_sim/learning.cpp: LearnEngine::LearnList::add_sample, set_timeout, set_max_samples, process_full_buffer, buffer_transmit"]}
{"id": "C76", "title": "A digest configured through PI is sent within the timeout asked for", "statement": "For every timeout below 2^32 ms the configuration is defined and sets exactly the whole milliseconds of the nanoseconds asked for, and the maximum number of samples (1024 for 0); for a timeout of at least 1 ms, pending samples are taken once the nanoseconds asked for have elapsed since the last sample, whatever happens before and after. Findings: a positive timeout below 1 ms means no timeout; a timeout from 2^32 ms on is undefined behaviour; a null configuration does not disable the digest.", "quantifier": "all timeouts and sizes, every history before and after the configuration", "why_tests_cant": "the conversion goes through a rounded double for every 64-bit value; the delivery depends on all schedules", "anchors": ["PI/src/pi_learn_imp.cpp: _pi_learn_config_set", "src/bm_sim/learning.cpp: LearnEngine::LearnList::set_timeout, buffer_transmit"]}
{"id": "C77", "title": "A pipeline update is staged and takes effect at once: packets see the old entries until it ends, then exactly those written for the new pipeline", "statement": "Between the start and the end of an update, entry writes, reads and resets concern the pipeline being prepared, which starts empty; packets use the entries written before the start, whatever is called; when the update ends, packets use exactly what the client could read just before. A second start and an end without a start are refused. Findings: digest parameters set during an update go to the old pipeline and are lost; clone sessions and multicast groups survive an update, clone sessions survive a reset; a reset during an update leaves the entries packets use.", "quantifier": "every sequence of update calls, resets, settings, reads and packets", "why_tests_cant": "histories of any length mixing the two pipelines", "anchors": ["PI/src/pi_imp.cpp: _pi_update_device_start, _pi_update_device_end", "src/bm_sim/context.cpp: Context::load_new_config, swap_configs, do_swap, get_learn_engine", "src/bm_sim/switch.cpp: SwitchWContexts::reset_state", "targets/simple_switch/simple_switch.cpp: SimpleSwitch::reset_target_state_"]}
{"id": "C78", "title": "l2_switch sends, under every schedule, what processing its packets one at a time in order gives", "statement": "Whatever the interleaving of the receiving, pipeline and transmit threads, the packets sent or waiting to be sent are those of sequential processing in the order received, each with the header vector it got: dropped when the port is 511 and there is no group, sent once to its port, or once to every port of group 1 except the one it came from; learn events likewise. The queues keep their bounds, and the threads by themselves deliver everything received, unless a packet asks for a group other than 1, which is exactly when the program ends in its assertion. Finding: header vectors are used again without clearing the metadata, so a packet is not processed as if it were alone unless the program sets every field it uses.", "quantifier": "every program (parser, pipelines, deparser, groups), queue capacities, packets and schedule of the threads", "why_tests_cant": "interleavings and histories of any length; the left-over metadata depends on which header vector the pool hands out", "anchors": ["targets/l2_switch/l2_switch.cpp: SimpleSwitch::receive_, pipeline_thread, transmit_thread", "src/bm_sim/phv_source.cpp: PHVPool::get, release", "src/bm_sim/packet.cpp: Packet::~Packet, clone_with_phv"]}
