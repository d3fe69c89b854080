# Formal model of p4lang/behavioral-model in Rocq

## Approach

The code is modelled function by function as total, computable Gallina functions over
`list`, `nat`, `N`, `Z`, `option` and records. For every area there are up to four files in
`rocq/theories/`:

* `<Area>Model.v`  – the model; each definition cites the file and lines of /repo it models;
* `<Area>Spec.v`   – the small independent specification used in theorem statements;
* `<Area>Proofs.v` – lemmas;
* `<Area>Props.v`  – the property theorems only (each `exact`s a lemma), with
  `Print Assumptions` and a concrete non-vacuity `Example` beside each.

Undefined behaviour, assertion failures and thrown exceptions are explicit outcomes in the
models (`None`, or an error/`UB` constructor), never a default value. Machine arithmetic wraps
explicitly (`mod 2^w`). Concurrency is modelled as a transition system whose steps are the
critical sections/atomic operations of the code, and properties quantify over all step
sequences. Clocks, hashes and floating-point conversions are universally quantified
parameters of theorems.

If a property is false of the code, the file contains a theorem with suffix `_refuted`
exhibiting a reachable counter-example and a positive theorem under the exact guard that
makes it true. These are listed under *Findings*.

## Plan per property

| id | modelled | method |
|----|----------|--------|
| C01 | `lpm_trie.cpp` as inductive byte-stride trie | refinement to a finite map prefix→value by induction over histories |
| C02 | `DynamicBitset` words, `HandleMgr` | refinement bitset words → bool list; invariant over op lists |
| C03 | `EntryList` linked list over vector, ternary/range compare | invariant (list sorted by handle, links consistent), refinement to "best entry" spec |
| C04 | `TernaryCache` LRU + `EntryList::lookup` | invariant: each cached pair is a correct answer |
| C05 | `ExactMap`, `MatchUnitGeneric` | refinement to finite map |
| C06, C07 | `MatchUnitAbstract_`, `MatchUnitGeneric` | invariant over histories, ghost log of issued handles |
| C08, C09 | `MatchKeyBuilder` | induction on the list of key fields |
| C10 | `MatchTable`, default entries | state machine invariants |
| C11, C12 | `ActionProfile`, `MatchTableIndirect(WS)`, `RandAccessUIntSet` | invariant ref-count = number of references |
| C13 | `Meter` with exact rational/integer token accounting, `double→int` conversion abstract | telescoping sum over arrival sequence |
| C14 | counters as atomic 64-bit words, threads as step sequences | linearizability by atomic steps |
| C15–C17 | `QueueingLogic*` with arbitrary clock | refinement to per-queue FIFO lists |
| C18 | `Queue` monitor | transition system, ghost history |
| C19–C21 | `McSimplePre`, `McSimplePreLAG` | invariants over op lists |
| C22 | `PacketBuffer` | refinement to byte list |
| C23, C24 | `Data`, `Field` | integer arithmetic |
| C25 | `extract.h`, `Header::extract/deparse` | bit-level reasoning through N/`bits_of` |
| C26–C28 | stacks, unions, headers, PHV reset | list algebra, invariants |
| C29–C31 | parser ops, switch, value sets, parse loop | invariants over fuelled big-step execution; well-founded measure for termination |
| C32 | deparser | composition of C25 and C22 |
| C33 | `cksum16` (two implementations) | arithmetic modulo 2^16-1 |
| C34 | crc functions and tables | equality of table-driven and bitwise, table sweep |
| C35 | toeplitz | xor algebra |
| C36 | expression compiler/evaluator | simulation by structural induction on trees |
| C37 | action execute loop, pipeline apply | induction on program |
| C38 | ageing sweep | state machine |
| C39 | learn list | LTS with all interleavings |
| C40 | registers, RegisterSync | induction on histories |
| C41 | CopyIdGenerator | LTS over clone/destroy |
| C42 | register_access packing | bit algebra |
| C43, C44 | simple_switch ingress/egress decision, InputBuffer | case analysis, LTS |
| C45 | (de)serialisation of match units, action profile, meters | round-trip |
| C46 | port monitor | invariants over event histories |
| C47 | pcap merge | induction on number of pending packets |
| C48 | ErrorCodeMap, EnumMap | invariant |
| C49 | PHV copy/reset | field-wise equality |
| C50 | Context/Switch swap protocol | state machine |
| C51 | BufBuilder | refinement to bit-list concatenation |
| C52 | assign primitives | case analysis |
| C53 | xor, identity, round-robin hashes and the hash primitive | induction on the buffer and on call histories |
| C54 | Packet objects and header vector pools | refinement to value semantics, permutation invariant over histories |
| C55 | Shared mutexes, lock order and mode of every call on indirect tables and action profiles, bodies cut into reads and writes of shared state, any number of threads | two-phase-locking simulation: linearisation at the first body step, per-mutex agreement invariant between the interleaved and the sequential world; progress by lock order |
| C56 | psa_switch receive, ingress and egress threads on one packet, multicast, cloning sessions; parsers, pipelines, deparsers and configuration arbitrary | per-stage specification of fields and content; invariant over all packets that wait, by mutual induction on the life of the switch |
| C57 | pna_nic receive and main thread, send_to_port | per-stage specification as for C56 |
| C58 | InternetChecksum extern: concatenation on unbounded integers with a wrapping 16-bit counter, the two summing loops on fuel, all methods | invariant: residue mod 65535 plus zero-ness determines the sum; 2^16 = 1 mod 65535 |
| C59 | Hash extern: buffer construction with the real bit-level deparse, base and modulus | reduction to the proved deparser of headers (C25) |
| C60 | The list of periodic tasks, its mutex and condition variable, and the thread of the loop as a small-step system over arbitrary schedules, with a log of observable events. | Invariant over all runs tying the queue to the log; a second invariant for the fairness bound; counterexamples for the early run and for the dangling reference. |
| C61 | The length register of a packet next to the header vector of C26-C28, updated by add_header and remove_header. | Invariant over runs: register and size of the valid headers differ by a constant modulo 2^64; composed with C32 for the deparsed length; counterexamples for the other primitives. |
| C62 | log_msg on lists of characters with explicit positions, as std::string::find and replace use them. | Specification by pieces of a format string; induction over the pieces with the position of the search; a measure for termination; counterexamples. |
| C63 | The packet-in device manager on byte messages, with the receive thread, its notifications and the calls of other threads as interleaved steps; the passive port monitor. | Per-port automaton over the messages as specification; invariant that the port table is that automaton and that the monitor, after the pending notifications, agrees with it; counterexamples. |
| C64 | The BMI port manager: array of ports, binary search, memmove, fd_set, statistics, the receive loop, destruction; the BMI device manager. | Specification as an unordered set of ports with packet logs; invariant that the live part of the array is sorted and a permutation of it; search and move lemmas; counterexamples. |
| C65 | The receiving thread and calling threads as small-step programs over a rwlock, a socket pair and select | invariant over arbitrary schedules; exact characterisation of when a waiting remove can return; findings as refuted theorems |
| C66 | convert_map character by character (resize, assignment, reverse, bitset constructor) and the PI multicast calls over the replication engine of C19 | induction over the list from its end; exact characterisation, refuted theorems for the general claim |
| C67 | GroupSelection (members, activated members), the hooks of ActionProfile into its selector, the PI activate/deactivate calls, over ProfileModel.v | simulation against a spec that records only which members are switched off; reachability of every active member; three refuted claims |
| C68 | the PI match-key encoding, priority inversion and table calls, over MatchUnitModel.v and KeyBuilderModel.v | per-field decode/emit/match lemmas, whole-key lemma, then simulation of every history against a map from keys to actions; two refuted claims |
| C69 | the PI calls for time to live, direct counters and direct meters, over MatchUnitModel.v and MeterModel.v; a counter write interleaved with packets | simulation of every history against numbered places with a meter each; exact accounting of the packets a partial write loses; seven refuted claims |
| C70 | Array of meters with IEEE 754 doubles (Flocq): conversions, set, read, packets | Rounding-error analysis gives an integer-only specification by invariant over all histories; the token bound of C13 instantiated with the real accrual |
| C71 | rate_to_ticks with IEEE 754 doubles (Flocq), in the queues of C16 | Rounding-error analysis, and computation for the 100 divisors of 10^9; composed with the pacing theorem of C16 |
| C72 | Saving and restoring arrays of meters: decimal printing with six digits and reading of doubles (Flocq), the text, PI histories | Rounding-error analysis of decimal and binary rounding; invariant over PI calls |
| C73 | The primitives of simple_switch with an index, a length or a range, over histories of packets on shared arrays | Refinement of each element to the sub-history of its position; invariants over packets |
| C74 | PI action data: bytes to numbers and back; the text of saved action entries, character by character | Induction over parameters and entries; positional number systems; refuted claims for width 0 and negative numbers |
| C75 | The waits on b_can_send with deadlines, and the notifications, as a layer over the events of the learn list (C39) | Invariant: a sleeping thread was notified, or nothing is ready and its deadline is not after the timeout; lifted to the specification of C39 |
| C76 | _pi_learn_config_set with the division of doubles of the code, as events of the learn list | The quotient by 10^6 below 2^32 is never rounded up to an integer (relative error of Flocq); composed with C75 |
| C77 | The two configurations of a context during a pipeline update, with maps of settings, and the switch-wide clone sessions and groups | Simulation with a specification read off the history of calls; the properties follow from it |
| C78 | The three threads of l2_switch, its two bounded queues and the pool of header vectors, for an arbitrary program | Invariant relating every state to sequential processing of the packets received; draining by induction on the queues; a concrete run for the finding |

## Trusted base

* The Coq 8.16.1 kernel (`coqc`; vcheck re-checks the compiled files with `coqchk`).
* `Print Assumptions` says "Closed under the global context" for every one of the 470 theorems named
  in MANIFEST.json except those named `C70_...`, `C71_...`, `C72_...` and `C76_...`, which are about `double` arithmetic on the real
  numbers of the standard library. For each of those it lists axioms of Coq's standard library
  only: `ClassicalDedekindReals.sig_forall_dec`, `ClassicalDedekindReals.sig_not_dec`,
  `FunctionalExtensionality.functional_extensionality_dep` and `Classical_Prop.classic`.
  The files `PiRate*.v`, `QRate*.v`, `MSave*.v` and `PiLcfg*.v` require Flocq (IEEE 754 binary64), which adds no axiom; all other files
  require Coq's standard library only. There are no functors, module types, plugins, or disabled
  checks.
* The transcription from C++ to Gallina. Every model file and definition cites the lines it models
  and says what it leaves out; the list below collects the model files.
* The behaviour assumed of things outside the code: the C++ abstract machine (sequentially
  consistent atomics and mutexes, no allocation failure), `std` containers, GMP integers,
  libpcap and Thrift. Clocks, random numbers, hash functions and the scheduler are
  arbitrary: theorems quantify over them. So is `double` arithmetic, except in C70 to C72 and C76, where it is IEEE 754
  binary64 with rounding to nearest (no extended precision, no contraction).
* Undefined behaviour, a failed assertion, `std::exit` and an escaping exception are outcomes of the
  models (`None`, or an abort event), so a theorem that a run gives `Some` says they do not happen.

## What is modelled

| model | what it covers |
|-------|----------------|
| `HandleMgrModel.v` | include/bm/bm_sim/dynamic_bitset.h and include/bm/bm_sim/handle_mgr.h. |
| `LpmModel.v` | src/bm_sim/lpm_trie.cpp (LPMTrie). |
| `EntryListModel.v` | EntryList and TernaryCache, src/bm_sim/lookup_structures.cpp:136-378, and of the comparison functions of TernaryMap and RangeMap (387-393, 432-450). |
| `MatchUnitModel.v` | MatchUnitAbstract_ / MatchUnitGeneric<K, V>: src/bm_sim/match_units.cpp:621-1060, include/bm/bm_sim/match_units.h, over the lookup structures of src/bm_sim/lookup_structures.cpp. |
| `KeyBuilderModel.v` | MatchKeyBuilder: src/bm_sim/match_units.cpp:91-600, and of MatchUnitGeneric::build_entry_from_match_key (911-937). |
| `TableModel.v` | direct match tables: MatchTableAbstract and MatchTable, src/bm_sim/match_tables.cpp:75-360 and 352-640, over the match units of MatchUnitModel.v and the key builder of KeyBuilderModel.v. |
| `ProfileModel.v` | action profiles (src/bm_sim/action_profile.cpp, include/bm/bm_sim/action_profile.h, include/bm/bm_sim/ras.h) and of the indirect match tables that share one (MatchTableIndirect, MatchTableIndirectWS: src/bm_sim/match_tables.cpp:650-1130), over the match units of MatchUnitModel.v. |
| `MeterModel.v` | meters (include/bm/bm_sim/meters.h:60-190, src/bm_sim/meters.cpp). |
| `CounterModel.v` | counters (include/bm/bm_sim/counters.h:40-145, src/bm_sim/counters.cpp) at the granularity of single atomic operations. |
| `QueueModel.v` | bounded queue between threads (include/bm/bm_sim/queue.h:40-145), at the granularity of critical sections, waits and notifications. |
| `QueueingModel.v` | egress queueing logics (include/bm/bm_sim/queueing.h). |
| `BlockQModel.v` | blocking egress queueing logic QueueingLogic (include/bm/bm_sim/queueing.h 74-229). |
| `PreModel.v` | packet replication engine: src/bm_sim/simple_pre.cpp (McSimplePre) and src/bm_sim/simple_pre_lag.cpp (McSimplePreLAG), with include/bm/bm_sim/pre.h (Set, a bitset). |
| `PktBufModel.v` | PacketBuffer (include/bm/bm_sim/packet_buffer.h 40-124). |
| `DataModel.v` | arbitrary-precision values of include/bm/bm_sim/data.h and include/bm/bm_sim/bignum.h. |
| `FieldModel.v` | Field (include/bm/bm_sim/fields.h 38-230, src/bm_sim/fields.cpp 26-142). |
| `ExtractModel.v` | bit-level codec of src/bm_sim/extract.h and of Header::extract / Header::deparse (src/bm_sim/headers.cpp 216-226, 267-277). |
| `PhvModel.v` | packet header vector: headers, header unions, header stacks and stacks of unions (src/bm_sim/headers.cpp, include/bm/bm_sim/header_unions.h, src/bm_sim/stacks.cpp, src/bm_sim/phv.cpp) and of the primitives acting on them (src/bm_sim/core/primitives.cpp 48-97, targets/simple_switch/primitives.cpp 217-261). |
| `ParserModel.v` | parser: parse operations, select, value sets and the parse loop (src/bm_sim/parser.cpp). |
| `BufModel.v` | BufBuilder, which assembles the input of a hash or checksum calculation (src/bm_sim/calculations.cpp 29-117). |
| `CksumModel.v` | Internet checksum and of checksum update / verification: src/bm_sim/checksums.cpp and cksum16 of src/bm_sim/calculations.cpp 301-345. |
| `DeparseModel.v` | deparser (src/bm_sim/deparser.cpp 43-97). |
| `CrcModel.v` | CRC calculations: src/bm_sim/calculations.cpp 131-299 and 536-568. |
| `HashModel.v` | remaining hash functions: src/bm_sim/calculations.cpp 352-504 (emitAsInteger, xor16, xor32, toeplitz, identity, round_robin, round_robin_consistent), ToeplitzMgr::update_key 577-594, and the hash primitive of targets/simple_switch/primitives.cpp 318-336. |
| `ExprModel.v` | expressions: src/bm_sim/expressions.cpp, and of their construction from the JSON tree, src/bm_sim/P4Objects.cpp 155-280 (build_expression). |
| `ActionModel.v` | actions (src/bm_sim/actions.cpp, include/bm/bm_sim/actions.h), of the part of the JSON reader that fills them (src/bm_sim/P4Objects.cpp 283-440), and of pipelines (src/bm_sim/pipeline.cpp, conditionals.cpp, control_action.cpp). |
| `AgeModel.v` | ageing monitor, src/bm_sim/ageing.cpp, over the match units of MatchUnitModel.v (whose [mu_sweep] is sweep_entries, match_units.cpp 719-732). |
| `LearnModel.v` | one learn list, src/bm_sim/learning.cpp (LearnEngine::LearnList). |
| `RegModel.v` | register arrays (src/bm_sim/stateful.cpp, include/bm/bm_sim/stateful.h), of their runtime interface (src/bm_sim/context.cpp 594-656), of the register arrays an action, a parse state or a deparser locks, and of what threads do while they hold these locks. |
| `CopyModel.v` | copy ids: CopyIdGenerator (src/bm_sim/packet.cpp 26-68, include/bm/bm_sim/packet.h 52-75) and its callers, the clone_* functions 138-200 and ~Packet 94-110. |
| `AccessModel.v` | RegisterAccess (targets/simple_switch/register_access.h) on a packet's general purpose registers (include/bm/bm_sim/packet.h 104-105, 232-235, 379-381). |
| `SwitchModel.v` | what simple_switch does with a packet around ingress and egress: one iteration of ingress_thread and of egress_thread (targets/simple_switch/simple_switch.cpp 473-636, 639-764), enqueue 398-419, copy_field_list_and_set_type 422-433, multicast 454-470, the mirroring sessions 68-107, the clone, resubmit and recirculate primitives (primitives.cpp 265-318), and the clone_* functions of Packet (packet.cpp 138-200). |
| `InBufModel.v` | simple_switch's input buffer (targets/simple_switch/simple_switch.cpp 116-190), at the granularity of critical sections, waits and notifications. |
| `SerialModel.v` | saving and restoring the state of the switch: serialize / deserialize in src/bm_sim/match_units.cpp:1070-1160, match_tables.cpp:58-77, 158-180, 624-634, 951-963, actions.cpp:460-486, action_profile.cpp:24-52, 84-97, 539-580, switch.cpp:388-420, P4Objects.cpp:2349-2372, with ByteContainer's hexadecimal form (bytecontainer.h:62-98, utils.h:44-54). |
| `PortMonModel.v` | port monitors, src/bm_sim/port_monitor.cpp, under concurrent calls. |
| `PcapModel.v` | packet capture replay, src/bm_sim/pcap_file.cpp. libpcap is a list of records per file; reading one that is damaged (pcap_next_ex = -1) and any call of pcap_fatal_error end the process ([Exited]). |
| `NameMapModel.v` | error-code map, src/bm_sim/parser_error.cpp:22-100, and of the enum map, src/bm_sim/enums.cpp. |
| `SwapModel.v` | loading and swapping configurations: src/bm_sim/switch.cpp:333-369 and 435-478, src/bm_sim/context.cpp:803-825 and 855-864, the packet constructors switch.cpp:531-551 and the pools of header vectors, src/bm_sim/phv_source.cpp. |
| `PacketModel.v` | life of Packet objects: constructors, clones, moves, change_context and the accessors, src/bm_sim/packet.cpp:70-245 and include/bm/bm_sim/packet.h:95-400, with the pools of header vectors, src/bm_sim/phv_source.cpp:27-66. |
| `LockModel.v` | locks of match tables and action profiles: which shared mutexes each call takes, in which order and mode, and what it does while it holds them (src/bm_sim/match_tables.cpp: 84-131, 650-1160, include/bm/bm_sim/match_tables.h:196-280, src/bm_sim/action_profile.cpp: 160-536, include/bm/bm_sim/action_profile.h:255-290). |
| `PsaModel.v` | what psa_switch and pna_nic do with a packet: receive_, one iteration of ingress_thread and of egress_thread, multicast and enqueue (targets/psa_switch/psa_switch.cpp 184-211, 320-361, 363-508, 510-617), and one iteration of main_thread (targets/pna_nic/pna_nic.cpp 75-100, 160-199). |
| `PsaExtModel.v` | InternetChecksum and Hash externs of psa_switch and pna_nic (targets/psa_switch/externs/psa_internet_checksum.cpp, psa_hash.cpp; the files of pna_nic are the same up to names). |
| `PeriodicModel.v` | periodic tasks (src/bm_sim/periodic_task.cpp, include/bm/bm_sim/periodic_task.h): the tasks, the list they are registered with and the thread that executes them, under every schedule. |
| `LenModel.v` | packet length simple_switch keeps (register 0 of a packet) while actions run: targets/simple_switch/primitives.cpp 217-261. |
| `LogMsgModel.v` | primitive log_msg (src/bm_sim/core/primitives.cpp 130-194). |
| `DevMgrModel.v` | packet-in device manager, src/bm_sim/dev_mgr_packet_in.cpp, and of the calls of DevMgrIface (src/bm_sim/dev_mgr.cpp) on it. |
| `BmiModel.v` | BMI port manager, src/BMI/bmi_port.c, and of the device manager on top of it, src/bm_sim/dev_mgr_bmi.cpp. |
| `BmiLockModel.v` | locking between the receiving thread and the calls of the BMI port manager, src/BMI/bmi_port.c. |
| `PiMcModel.v` | multicast calls of the P4Runtime back end, PI/src/pi_mc_imp.cpp. |
| `PiSelModel.v` | PI group selection with activated and deactivated members (PI/src/group_selection.cpp and .h), as driven by an action profile (src/bm_sim/action_profile.cpp) and by the two PI calls that activate or deactivate a member (PI/src/pi_act_prof_imp.cpp:245-275). |
| `PiTblModel.v` | PI calls on match tables (PI/src/pi_tables_imp.cpp): the encoding of match keys, the inversion of priorities, and adding, modifying, deleting and fetching entries by handle or by key. |
| `PiResModel.v` | properties and direct resources of table entries in the PI layer: time to live (set_ttl, _pi_table_entry_get_remaining_ttl), direct counters and direct meters (PI/src/pi_tables_imp.cpp, pi_counter_imp.cpp, pi_meter_imp.cpp, direct_res_spec.cpp). |
| `PiRateModel.v` | meter rates in the PI layer, with the arithmetic on doubles that the code does: the conversions of PI/src/direct_res_spec.cpp:39-106, the tokens that a rate accrues (src/bm_sim/meters.cpp:75-77), and _pi_meter_set and _pi_meter_read (PI/src/pi_meter_imp.cpp:44-85) on an array of the meters of MeterModel.v. |
| `QRateModel.v` | conversion of a queue's rate to a delay, rate_to_ticks (include/bm/bm_sim/queueing.h:383-388 and 694-699), with the arithmetic on doubles that the code does. |
| `MSaveModel.v` | saving and restoring an array of meters as text, with the digits of the rates that are written: Meter and MeterArray serialize and deserialize, src/bm_sim/meters.cpp:96-117 and 167-175. |
| `StfModel.v` | primitives of simple_switch that use an index, a length or a range (targets/simple_switch/primitives.cpp 49-77, 319-338, 347-440, 458-464): execute_meter, count, register_read, register_write, truncate, modify_field_rng_uniform, modify_field_with_hash_based_offset and modify_field, run for packet after packet on the same arrays. |
| `PiAdModel.v` | parameters of actions on their way through the PI implementation and through a saved state (PI/src/action_helpers.cpp 25-70; ActionFnEntry::serialize, deserialize, actions.cpp 459-487): bytes to numbers, numbers to bytes, numbers to text and back. |
| `LWakeModel.v` | when the transmit thread of a learn list is awake, src/bm_sim/learning.cpp:333-424: the waits on [b_can_send], with or without a deadline, and the notifications. |
| `PiLcfgModel.v` | configuration of a digest through the PI layer, _pi_learn_config_set (PI/src/pi_learn_imp.cpp:38-68), on the learn list of LearnModel.v and LWakeModel.v, with times in milliseconds, and with the arithmetic on doubles of the code (PiRateModel.v). |
| `PiUpdModel.v` | which configuration the runtime calls and the packets use while a P4Runtime client updates the pipeline: _pi_update_device_start and _pi_update_device_end (PI/src/pi_imp.cpp:83-107), SwitchWContexts::load_new_config, swap_configs and reset_state (src/bm_sim/switch.cpp:335-379), Context (src/bm_sim/context.cpp:746-754, 803-833, 855-864), reset_target_state_ of simple_switch (targets/simple_switch/simple_switch.cpp:302-305). |
| `L2Model.v` | l2_switch target, targets/l2_switch/l2_switch.cpp:40-157: the receiving thread, the pipeline thread and the transmit thread with the two bounded queues between them, and the pool its header vectors come from. |

The header comment of each of these files goes on with its simplifications.

## What is not modelled

* The JSON reader `P4Objects.cpp`, except the parts cited by `ExprModel.v` and `ActionModel.v`, where the translation
  has semantics of its own, and object lookup by name; models start from the objects it builds.
* Transport and processes: Thrift servers and their generated types, nanomsg notifications, event logger, debugger,
  CLI, `bmi` and other device managers beyond the port monitors, options parsing, logging.
* The PI adapter (`PI/`), `psa_switch`, `pna_nic`, `simple_router`, `l2_switch`, and `tools/`, except where a model names them.
* Time: that a thread is eventually scheduled, how long anything takes. Concurrency theorems are about
  every finite schedule; where progress is claimed it is that no reachable state is stuck.
* Weak memory orders, memory exhaustion, integer overflow of counts that would need 2^31 or more objects unless the
  model says otherwise.

## Findings

Claims one would expect of the code that are false of it. Each is proved in the form `~ (forall ...)`, or as an
explicit counter-example, from a reachable state; beside it is a positive theorem with the condition that excludes it.

* `C02_set_handle_refuted` — After the bad call the allocator hands out a handle that is already live.
* `C06_unbounded_reuse_refuted` — After 256 deletions in a slot the 8-bit generation number comes round, and a handle of a deleted entry is accepted again.
* `C06_reset_reissues_refuted` — Resetting the table forgets the generations: a handle issued before the reset is accepted after it and denotes another entry, with no re-use cycle.
* `C06_stale_handle_metadata_refuted` — Set-timeout and direct-counter calls do not check the generation: a deleted handle still works on whatever entry re-used the slot.
* `C08_unaligned_prefix_refuted` — Finding: with a prefix field whose width is not a multiple of 8 the property fails. A 12-bit field, parameter 0xABC/12: a packet carrying 0xABD hits the entry.
* `C10_immutable_cleared_refuted` — The entries of a table made immutable can be removed all the same, by clearing the table.
* `C11_refused_add_leaks_refuted` — An add refused by the key leaves a reference behind: the member can never be deleted.
* `C11_refused_modify_frees_refuted` — A modify refused because of its target drops the reference of the entry it leaves in place: the member can then be deleted although the entry still designates it.
* `C11_clear_leaks_refuted` — Clearing a table does not release what its entries designated.
* `C11_profile_reset_refuted` — Resetting a profile that had a group: the next group creation kills the process (the group handles are not cleared with the groups).
* `C13_precolor_unconfigured_refuted` — Finding: an unconfigured meter does.
* `C13_refused_set_changes_rates_refuted` — Finding: a refused [set_rates] changes a configured meter: the rates read back are not those that were in force (meters.h:117-121 writes before it checks).
* `C13_save_load_recolours_refuted` — Saving a freshly configured meter and loading it into an identical new meter changes the colours.
* `C13_clock_order_refuted` — Finding: the clock is read before the lock is taken, so two packets of two threads can reach a meter in the order opposite to their clock readings: the assertion of line 78 then fails.
* `C14_joint_atomicity_refuted` — Finding: the two counts are not updated or read together. A query overlapping an increment can return bytes without a packet; and a reset overlapping an increment can leave a packet with no bytes for good, which no order of the two calls explains.
* `C14_reset_is_torn_refuted` — A reset overlapping an increment can leave a packet with no bytes for good.
* `C16_first_element_immediate_refuted` — The first element of a rate-limited queue waits one delay even if the queue was never used: "the time of the last packet" starts at the creation of the queue.
* `C17_more_than_32_priorities_refuted` — More than 32 priorities: the constructor accepts any number, the array of queues has 32 entries.
* `C18_raised_capacity_leaves_producer_blocked_refuted` — Finding: raising the capacity does not wake a blocked producer (set_capacity notifies nobody): it stays blocked with room in the queue until somebody pops.
* `C20_destroyed_group_strands_nodes_refuted` — Destroying a group leaves its nodes marked as associated: such a node can then be neither associated with another group nor dissociated nor destroyed (the latter throws).
* `C21_every_lag_can_have_members_refuted` — LAG 300 fits in the LAG map of a node (512 bits) but can never be given members.
* `C23_signed_wraps_refuted` — Finding: a wrapping signed field does not wrap results in the upper half of the unsigned range: storing 200 in an int<8> field leaves 200 in it.
* `C23_reset_varbit_assign_refuted` — Finding: a reset variable-length field keeps its old value and gets mask 1, so that assigning from it (here the 8-bit value 1 of an earlier packet) makes the number exporter run with a word size of 0.
* `C23_write_invalid_zero_refuted` — Finding: with the option that makes reads of invalid headers return zero, a write to a field of an invalid header leaves bytes and value in disagreement.
* `C24_any_shift_amount_refuted` — Finding: shift amounts of 2^32 and more are neither honoured nor refused; the amount is taken modulo 2^32, so that shifting 1 right by 2^32 gives 1.
* `C24_zero_width_cast_refuted` — Finding: a signed cast to width 0 is neither refused nor 0.
* `C25_empty_field_unaligned_refuted` — Finding: extracting a field of width zero at a bit offset that is not a multiple of 8 (an empty varbit after a 4-bit field) writes to, and reads from, a byte that does not exist.
* `C26_union_stack_pop_invalidates_refuted` — Popping a stack of unions does not invalidate the members of the unions that fall free at its end.
* `C26_push_on_empty_stack_refuted` — Pushing on a stack of size 0 reads out of bounds.
* `C28_sibling_assignment_refuted` — Finding: copying between two members of one union, and copying from metadata, leave the two flags in disagreement; so does PHV::reset_headers.
* `C28_assignment_from_metadata_refuted` — Copying a metadata header into a header leaves the two validity flags in disagreement.
* `C28_reset_headers_refuted` — PHV::reset_headers leaves the two validity flags in disagreement.
* `C29_lookahead_offset_refuted` — A lookahead assignment checks for the width of the lookahead but not for its offset.
* `C29_select_lookahead_refuted` — A lookahead in a select expression is not checked at all.
* `C29_select_empty_stack_refuted` — A select on the last element of an empty stack reads the element before the first one.
* `C29_legacy_varbit_refuted` — With the length expression attached to the header type (P4_14) only the fixed-width part is checked.
* `C29_negative_length_refuted` — A negative length passes the checks.
* `C29_extract_again_refuted` — Extracting again a header whose variable-length field is not empty asks for the bytes of the old field too: a packet with enough bytes is refused.
* `C30_masked_removal_refuted` — Finding: with a mask, removing one of two values that are equal under the mask removes the match for both, although one of them is still in the set.
* `C31_idle_cycle_refuted` — Without the condition the parser may run for ever.
* `C32_methods_refuted` — The room for headers is computed before the deparser methods run: a method that changes which headers are valid makes the deparser send bytes that belong to no header.
* `C33_long_header_refuted` — Findings. A header of more than 60 bytes overruns the buffer on the stack.
* `C33_wide_result_refuted` — A calculation with a result wider than the field is stored truncated and compared in full: the packet it was updated in does not verify.
* `C36_invalid_headers_equal_refuted` — Finding: P4-16 says that two invalid headers are equal (8.17); here they are not.
* `C36_varbit_equality_refuted` — Two headers whose variable-length fields have different lengths can compare equal.
* `C36_access_union_header_refuted` — The JSON operator access_union_header is translated to a field access, which takes its operand from the wrong stack.
* `C36_short_circuit_refuted` — "and" and "or" evaluate both operands: a guard does not protect what follows it.
* `C37_argument_order_refuted` — With a compiler that evaluates arguments from left to right, a fourth expression makes the vector of temporaries reallocate between the evaluation of two arguments, and the primitive reads freed memory.
* `C37_vector_overwrites_argument_refuted` — Expressions inside a vector argument are numbered apart but use the same temporaries: an expression passed by value in the same call is overwritten.
* `C37_loop_refuted` — Nothing ensures that an action, or a pipeline with a cycle, ends
* `C38_fresh_entry_has_no_timeout_refuted` — A fresh entry inherits the timeout of the previous occupant of its slot.
* `C38_reported_once_refuted` — An idle entry is not reported only once: with nothing happening to it, it is reported again two sweeps later.
* `C38_clock_race_refuted` — A sweep reads the clock before it scans the table; lookups do not exclude the scan. A packet stamped between the two makes the scan's assertion fail.
* `C39_consecutive_ids_refuted` — Ids are not consecutive: a producer blocked on a full buffer, which the timeout sent in the meantime, swaps an empty buffer when it resumes, and uses up an id.
* `C39_several_producers_stranded_refuted` — With several producers a wake-up is lost: one notification per sent buffer, but several producers can be waiting for the same one. The last of them waits although there is nothing left to send.
* `C39_reset_strands_producer_refuted` — A reset strands a blocked producer.
* `C39_reset_loses_samples_refuted` — A reset between the end of a transmission and the transmit thread taking the lock again loses samples: the new samples are cleared without being sent.
* `C39_acks_refuted` — Acknowledging is undefined behaviour when a sample is acknowledged twice, when a list of samples goes on after the last sample of its buffer, and when a buffer is acknowledged after some of its samples.
* `C40_header_expression_refuted` — A register used in an expression that denotes a header (hdr.stack[r]) is not locked
* `C40_condition_refuted` — A condition, and in a parser an advance, a verify or the length of a variable-length header, reads registers without any lock
* `C40_reset_refuted` — Resetting an array does not lock it: an action in progress can write back what the reset erased. No order of the two explains the result.
* `C41_shared_slot_refuted` — Two packets whose ids differ by 4096 share a counter: two live packets can have the same packet id and copy id.
* `C41_counter_restarts_refuted` — Three copies destroyed at once, one of the destructors retrying: no packet is left but the counter still counts one.
* `C41_few_copies_each_refuted` — Over many lives of a slot these leaks add up, so that two live copies of a packet can have the same id although no packet was copied more than 300 times.
* `C43_group_and_port_refuted` — Findings. The clone a session sends to its port has the rid of the session's last multicast replica: the condition on sessions is needed.
* `C43_clone_depends_on_pool_refuted` — An ingress clone is parsed with metadata left behind by an earlier packet: it depends on more than the packet and the configuration
* `C43_truncated_multicast_refuted` — The truncation requested in ingress holds for the unicast packet only: replicas are sent whole
* `C43_resubmit_id_refuted` — Ids are kept in 16 bits, or in 15 for sessions
* `C43_session_id_refuted` — Session ids are kept in 15 bits: a clone asked of session 32773 is served by session 5.
* `C44_received_packets_are_served_refuted` — A received packet can wait for ever: nothing bounds how many recirculated and resubmitted packets are served before it.
* `C45_add_after_restore_refuted` — Adding an entry after a restore overwrites the entry in slot 0: the handle returned is in use.
* `C45_ternary_refuted` — After restoring a ternary (or range) table, a lookup kills the process.
* `C45_stale_handle_refuted` — The generation number of a free slot is not saved: a handle of an entry deleted before the save designates whatever is put there after the restore.
* `C45_default_data_refuted` — A default entry with action data: the saved data are appended to those of the program.
* `C45_default_next_refuted` — A default entry without a next node: the program's next node is kept.
* `C45_constant_entries_refuted` — A table whose entries are part of the program cannot be restored: the freshly configured table already has them, and the process dies.
* `C45_group_gap_refuted` — A gap in the group numbers: the process dies while restoring.
* `C46_concurrent_order_refuted` — With two threads, as soon as the switch polls its ports, callbacks can contradict the protocol: here a port is reported up before it is reported added, and then down after it is removed.
* `C47_port_added_while_running_refuted` — A file added while the replay is running (port_add after start) ends the process.
* `C48_core_overflow_refuted` — Without room for them, adding the core errors overflows an int.
* `C48_invalid_code_distinct_refuted` — And an error can be given the code that stands for an invalid error.
* `C48_dotted_names_refuted` — With dots, different entries of different enums can have the same full name; the second is refused although its enum has neither the name nor the value.
* `C49_readded_varbit_refuted` — Finding: a header with a variable-length field that is removed and added again keeps its old length in the original, but not in a clone.
* `C50_bad_config_refused_refuted` — A configuration that init_objects rejects is nevertheless loaded, with success, and packets can be made to use it.
* `C50_concurrent_swaps_refuted` — When two swap calls overlap, the assertion that the second one swaps something can fail.
* `C50_cross_context_copy_refuted` — When a packet of one context is copied into another during a swap, the pool's assertion that no header vector is in use can fail, although calls are made one at a time.
* `C50_refused_swap_changes_nothing_refuted` — While a load is going on, a swap call can be refused and yet leave a request behind, which the target then carries out for one context only.
* `C51_short_constant_refuted` — Finding: the width of a constant is not checked against its number of bytes; a constant with fewer bytes is read out of bounds, of one with more bytes the first ones are used.
* `C51_long_constant_refuted` — Of a constant with more bytes than its width needs, the first ones are used.
* `C54_move_keeps_everything_refuted` — The move constructor and the move assignment forget that a packet was truncated; also its entry index, error code and checksum error.
* `C54_assignment_between_contexts_refuted` — Assigning to a packet of another context: its old header vector ends up in the wrong pool, where a later packet finds it; and the pools' numbers in use are wrong for good (one of them negative).
* `C54_in_use_after_assignment_refuted` — 
* `C54_copies_after_assignment_refuted` — Assigning to a packet with another id: the copies of one id are given back twice, those of the other never.
* `C54_clone_signature_refuted` — The signature, documented as the hash of the incoming packet data, and the time of arrival: a clone made after the headers were removed has others.
* `C55_iterator_refuted` — Comparing two table iterators with != takes the table's read lock twice; if a writer comes in between, with readers queueing behind waiting writers, neither thread ever goes on.
* `C56_resubmit_refuted` — A resubmitted packet loses its ingress port (it reads 0) and is parsed with the headers of the first pass still valid.
* `C56_egress_stacks_refuted` — A packet sent from ingress to egress keeps the fill levels of its header stacks, so egress parses it with stacks that are not empty.
* `C56_clone_instance_refuted` — When a session has both a multicast group and a port, the clone for the port carries the instance of the last replica.
* `C57_no_port_refuted` — A packet the program sends nowhere is not dropped: it leaves through port 0.
* `C58_subtract_zero_refuted` — Subtracting zero words from a sum of 0 leaves it at 0, where the PSA says 65535; the checksum read is 0xffff instead of 0.
* `C58_signed_refuted` — Calls with fields of type int<W> need not return.
* `C59_zero_modulus_refuted` — A modulus of 0 is a division by zero.
* `C60_early_refuted` — If a task is taken off the list just as its time comes, another one is run in its place although it is not due.
* `C60_freed_reference_refuted` — The loop waits with a reference to the time of a task, and the task may be destroyed during the wait.
* `C61_copy_refuted` — copy_header and assign_header leave the length as it was when they make a header valid or invalid.
* `C61_add_fast_refuted` — add_header_fast leaves the length as it was.
* `C61_pop_refuted` — Popping a header off a stack leaves the length as it was.
* `C61_push_refuted` — Pushing headers onto a full stack loses headers and leaves the length as it was.
* `C61_union_refuted` — Adding a member of a union removes the other members and does not subtract their length.
* `C61_metadata_refuted` — Removing a metadata header subtracts its length, every time.
* `C62_first_refuted` — A placeholder at the beginning of the format string is not seen, and the switch exits: "{}" with one argument.
* `C62_adjacent_refuted` — A placeholder right after another one is not seen, and the switch exits: "a{}{}" with two arguments.
* `C63_short_refuted` — A message shorter than its header is read beyond its end.
* `C63_length_refuted` — The length a PACKET_IN message announces is not checked against the bytes received: the packet is read beyond the end of the message.
* `C63_failed_call_refuted` — A call of port_remove fails with UNSUPPORTED and yet tells the callbacks that the port is gone, while its packets are still handled.
* `C63_is_up_refuted` — Without enforce_ports, port_is_up answers true for ports that get_port_info does not list, and for those it lists as down.
* `C64_destroy_refuted` — Destroying a manager with more than one port does not close them all.
* `C64_stats_refuted` — The statistics of a port that does not exist are read from an uninitialised variable.
* `C64_failed_add_refuted` — A port that could not be added is announced as added, and a later successful add is not.
* `C64_fdset_refuted` — A descriptor of 1024 or more is stored outside the fd_set.
* `C65_deadlock_refuted` — A remove holds the lock for writing while it waits for the answer; when the receiving thread is about to take that lock to copy the fd_set, both wait for ever.
* `C65_not_started_refuted` — Before bmi_start_mgr a remove of an existing port never returns.
* `C65_low_refuted` — The socket is not counted in the highest descriptor given to select: when every port has a lower one, a remove never returns although the receiving thread waits in select.
* `C65_reuse_refuted` — A port added after select returned can be received from although select has never reported it: it has the descriptor of a port removed in between.
* `C66_order_refuted` — A port given before a smaller one is dropped from the node.
* `C66_shift_refuted` — A port of 512 or more is not ignored: all the ports of the node are shifted, and packets go out of ports that were not given.
* `C67_none_on_refuted` — A packet for a group that has members but none of them on: the process divides by zero.
* `C67_install_refuted` — A selector installed while a group has members does not know them: the next packet for the group kills the process.
* `C67_wide_handle_refuted` — A member handle of more than 32 bits, which no member has, deactivates the member that has its low 32 bits.
* `C68_fetch_priority_refuted` — Fetching by key does not refuse a priority above the limit, as the other calls do: it stops the process.
* `C68_wide_handle_refuted` — A handle of more than 32 bits is cut down: it is taken for another entry's handle.
* `C69_kept_unit_refuted` — Writing one unit of a counter loses packets of the other unit counted meanwhile.
* `C69_refused_add_refuted` — An add that answers with an error may leave the entry in the table.
* `C69_fresh_meter_refuted` — A new entry for which no meter was given has the meter of the entry it replaced.
* `C69_time_left_refuted` — The remaining time of an entry with more than 4294 ms left is wrong.
* `C69_short_ttl_refuted` — A time to live of less than a millisecond means that the entry never times out.
* `C69_modify_counter_refuted` — Modifying an entry with one unit of its counter given clears the other unit.
* `C69_refused_meter_refuted` — A refused meter configuration changes the meter.
* `C70_read_back_refuted` — What is read back is not always what was written: a rate of 249 per second reads back as 248.
* `C70_drift_refuted` — Writing back what was read can lose rate again: 3919 reads back as 3918, which reads back as 3917.
* `C70_largest_rate_refuted` — The largest rate is accepted, but reading it back casts 2^64 to a 64-bit integer.
* `C70_unlimited_refuted` — A meter with the largest rate works for one second only: at the first packet after that, the cast of the accrued tokens is undefined.
* `C70_order_unseen_refuted` — Above 2^51 a committed rate that exceeds the peak rate can be accepted.
* `C71_rate_exceeded_refuted` — A rate that does not divide 10^9 is exceeded: at 600 million packets per second, the delay is one nanosecond, and 1000 million leave.
* `C71_high_rate_refuted` — A rate above 10^9 packets per second sets no limit at all.
* `C72_all_digits_refuted` — A rate with more digits is not restored: 1234567 units per second become 1234570.
* `C73_release_runs_refuted` — Built without assertions, the switch does not survive every index.
* `C73_wide_index_refuted` — An index of 2^32 or more, which a P4 program can give, is not past the end: it counts at another position.
* `C73_wide_length_refuted` — A length of 2^64 or more is cut to 64 bits: it can leave nothing of the packet.
* `C74_zero_width_refuted` — An action with a parameter of width 0 can be written but not read back: the switch fails an assertion.
* `C74_negative_refuted` — A negative parameter, which the default entry of a program can have, is read back without its sign.
* `C74_negative_save_refuted` — ... and makes saving the state fail.
* `C75_timeout_while_pending_refuted` — A timeout switched on, or made shorter, while samples are pending does not apply to them: the sleeping thread is not notified.
* `C76_short_timeout_refuted` — A positive timeout below one millisecond becomes none at all: the samples wait until the buffer is full.
* `C76_long_timeout_refuted` — A timeout of 2^32 milliseconds or more is undefined behaviour.
* `C76_disabled_refuted` — A null configuration, meant to disable the digest, does not: samples are accepted and sent as before.
* `C77_digest_staged_refuted` — The parameters of a digest set between the start and the end of an update go to the old pipeline, and are lost when the update ends.
* `C77_digest_isolated_refuted` — Until the update ends they change what the packets of the old pipeline do.
* `C77_sessions_and_groups_dropped_refuted` — Clone sessions and multicast groups are not part of a pipeline: those of the old program are used by the new one.
* `C77_reset_clones_refuted` — Resetting the state does not remove the clone sessions.
* `C77_reset_entries_refuted` — While an update is open, resetting the state clears the pipeline being prepared and leaves the entries that packets use.
* `C78_alone_refuted` — A packet is not processed as if it were alone: header vectors are used again without clearing the metadata, so a packet for which the program does not set the port goes where an earlier packet went.
