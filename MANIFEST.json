{
 "claims": [
  {
   "property": "C01",
   "status": "proved",
   "theorems": [
    "C01_bitmap_is_a_set",
    "C01_refused_quick_set_is_noop",
    "C01_answer_unique"
   ],
   "note": "All histories of Set/QuickSet/Grow/Zeroes/FirstUnused on a fresh bitmap refine an abstract set; FirstUnused is a uint32 (wraps to 0 only if all 2^32 numbers are set)."
  },
  {
   "property": "C02",
   "status": "proved",
   "theorems": [
    "C02_grow_reserves_refuted",
    "C02_grow_reserves_exactly",
    "C02_set_reserves"
   ],
   "note": "The plain statement is false in the code (off by one in Grow); refuted with a witness and the exact condition proved."
  },
  {
   "property": "C03",
   "status": "proved",
   "theorems": [
    "C03_round_up_pow_least_power",
    "C03_round_up_pow_otherwise_zero"
   ],
   "note": "All 64-bit inputs."
  },
  {
   "property": "C04",
   "status": "proved",
   "theorems": [
    "C04_pq_is_a_min_bag",
    "C04_pop_all_sorts"
   ],
   "note": "PQ Init/Push/Pop/Fix refine a bag with minimum extraction, for every Less that is a strict weak order."
  },
  {
   "property": "C05",
   "status": "proved",
   "theorems": [
    "C05_binary_search_boundary",
    "C05_binary_search_sorted"
   ],
   "note": ""
  },
  {
   "property": "C06",
   "status": "proved",
   "theorems": [
    "C06_top_n_correct",
    "C06_top_zero_panics"
   ],
   "note": "Floats are exact and NaN-free; topCount = 0 with a non-empty array panics (proved)."
  },
  {
   "property": "C07",
   "status": "proved",
   "theorems": [
    "C07_deque_refines_list",
    "C07_fifo_and_lifo",
    "C07_zero_value_panics"
   ],
   "note": "Refinement to a list for every operation sequence after Init, including block growth and reuse. Zero value (no Init) panics characterised."
  },
  {
   "property": "C08",
   "status": "proved",
   "theorems": [
    "C08_fast_fields",
    "C08_to_int"
   ],
   "note": "Entries beyond the words keep stale contents; more than MAX_ELEMS_PER_EDGE words panic (both in the theorem)."
  },
  {
   "property": "C09",
   "status": "proved",
   "theorems": [
    "C09_lines_independent_of_chunks"
   ],
   "note": "The loop of EdgeEnqueueToEmitter with FastFileLines.Scan."
  },
  {
   "property": "C10",
   "status": "proved",
   "theorems": [
    "C10_linearizable",
    "C10_fifo_no_loss",
    "C10_progress"
   ],
   "note": "Every interleaving of single word accesses; the log in linearization order is a bounded FIFO run, answers follow program order, no blocking when there is space/an item."
  },
  {
   "property": "C11",
   "status": "proved",
   "theorems": [
    "C11_spsc_closed_exactly",
    "C11_spsc_drained_if_closed_before_check",
    "C11_spsc_refuted",
    "C11_mpsc_closed_exactly",
    "C11_mpsc_refuted",
    "C11_growable_closed_drained"
   ],
   "note": "False as the comment in the code intends for the single- and multi-producer queues (refuted with concrete schedules); the _closed_exactly theorems say precisely what can be lost (items that became visible between the consumer's last look at its slot and its look at the status), and drained_if_closed_before_check is the condition under which it holds. For the growable queue it holds under every schedule."
  },
  {
   "property": "C12",
   "status": "proved",
   "theorems": [
    "C12_ticket_queue",
    "C12_fifo_no_loss",
    "C12_empty_means_drained",
    "C12_progress",
    "C12_size_one_refuted"
   ],
   "note": "Any number of producers, every schedule; size 1 refuted (RoundUpPow(1)=1)."
  },
  {
   "property": "C13",
   "status": "proved",
   "theorems": [
    "C13_growing_fifo",
    "C13_delivered_prefix",
    "C13_delivers_unless_lost",
    "C13_put_completes",
    "C13_lost_is_forever",
    "C13_lost_needs_put_and_growth",
    "C13_refuted"
   ],
   "note": "Safety for every schedule; progress exactly when the unlucky schedule (a put into the old buffer and a growth between the consumer's slot check and its look at the grown flag) has not happened; once it has, the consumer is stuck forever, and C13_refuted exhibits it. Sizes >= 2; counters unbounded (no 64-bit wrap-around)."
  },
  {
   "property": "C14",
   "status": "proved",
   "theorems": [
    "C14_stopwatch_results",
    "C14_elapsed_bounds"
   ],
   "note": "The clock is an input of each call."
  },
  {
   "property": "C15",
   "status": "proved",
   "theorems": [
    "C15_rbo_is_the_formula",
    "C15_rbo_laws",
    "C15_empty_ranking_nan"
   ],
   "note": "Exact rational arithmetic for float64; an empty ranking yields NaN (proved)."
  },
  {
   "property": "C16",
   "status": "proved",
   "theorems": [
    "C16_cas_loops_linearizable",
    "C16_completion_order_append_only",
    "C16_atomic_min_result",
    "C16_atomic_max_result",
    "C16_atomic_add_result"
   ],
   "note": "Sequentially consistent interleaving of single loads and CASes, any number of goroutines."
  },
  {
   "property": "C17",
   "status": "proved",
   "theorems": [
    "C17_median_refuted",
    "C17_median_characterised",
    "C17_median_between"
   ],
   "note": "The statement is false of the code (refuted with a witness); the exact returned element is proved for every slice."
  },
  {
   "property": "C18",
   "status": "proved",
   "theorems": [
    "C18_pack_expand",
    "C18_expand_pack",
    "C18_injective_and_same_thread"
   ],
   "note": ""
  },
  {
   "property": "C19",
   "status": "proved",
   "theorems": [
    "C19_for_each_enumerates",
    "C19_parallel_for_partitions",
    "C19_parallel_sum",
    "C19_vertex_creation"
   ],
   "note": ""
  },
  {
   "property": "C20",
   "status": "proved",
   "theorems": [
    "C20_emitted_in_file_order",
    "C20_complete",
    "C20_last_line_lost_refuted",
    "C20_empty_line_refuted"
   ],
   "note": "Order for every schedule; completeness under the stated stopping condition; two refuted corner cases (last line lost by the close race, panic on an empty line)."
  },
  {
   "property": "C21",
   "status": "proved",
   "theorems": [
    "C21_numbering",
    "C21_logical_time",
    "C21_packing"
   ],
   "note": "Fewer than 2^61 lines."
  },
  {
   "property": "C22",
   "status": "proved",
   "theorems": [
    "C22_per_thread_order",
    "C22_complete",
    "C22_per_source",
    "C22_zero_event_refuted"
   ],
   "note": "Proved for every schedule in which the Remitter is not answered 'closed' by a ToRemitQueue; the other schedules exist and deliver a zero event (refuted theorem)."
  },
  {
   "property": "C23",
   "status": "proved",
   "theorems": [
    "C23_positions_dense",
    "C23_position_reserved"
   ],
   "note": "Dense up to 2^32 additions per destination; same proviso as C22."
  },
  {
   "property": "C24",
   "status": "proved",
   "theorems": [
    "C24_groups",
    "C24_every_event_once",
    "C24_clean_kept",
    "C24_clean_start"
   ],
   "note": "Grouping of a batch: one group per source in order of first appearance, places increasing, every place exactly once; state ready for the next batch."
  },
  {
   "property": "C25",
   "status": "proved",
   "theorems": [
    "C25_additions_append",
    "C25_batching_is_irrelevant",
    "C25_in_mixed_batch"
   ],
   "note": "Histories of additions append in stream order for every cut into batches; additions of a vertex in a mixed batch likewise."
  },
  {
   "property": "C26",
   "status": "proved",
   "theorems": [
    "C26_panics_iff",
    "C26_counts_and_order",
    "C26_orderly_fifo",
    "C26_single_deletions",
    "C26_no_parallel_edges",
    "C26_oldest_first",
    "C26_fifo_refuted",
    "C26_batching_matters_refuted"
   ],
   "note": "FIFO deletion is false in general (fast path), refuted with a witness; proved: multiset per destination and order always right, panic exactly on a missing edge, FIFO for orderly runs, in particular single deletions, no parallel edges, oldest-first deletions. Positions below 2^31; if edges are sorted by timestamp, timestamps sorted and below 2^63."
  },
  {
   "property": "C27",
   "status": "proved",
   "theorems": [
    "C27_accounting"
   ],
   "note": "Stored edges + DELs = ADDs over any history from the empty graph; NumEdges, NumOutAdds, NumOutDels agree mod 2^32."
  },
  {
   "property": "C28",
   "status": "proved",
   "theorems": [
    "C28_final_structure",
    "C28_fifo",
    "C28_certain_deletion_never_ends",
    "C28_can_end",
    "C28_parallel_properties_refuted"
   ],
   "note": "Playable stream with the input multiset as net effect for every outcome of the random choices; endpoints multiset also under the graph's FIFO deletion; with parallel edges of different properties FIFO deletion does not retain the properties (witness); chance 1 never ends."
  },
  {
   "property": "C29",
   "status": "proved",
   "theorems": [
    "C29_window",
    "C29_mixed_batch_panics",
    "C29_deletions_refuted"
   ],
   "note": "Add-only streams with non-decreasing timestamps: lists are exactly the in-window additions in order. With DEL events in the stream the queue index is misaligned: panics / wrong expiry shown."
  },
  {
   "property": "C30",
   "status": "proved",
   "theorems": [
    "C30_sound_when_vote_goes_first",
    "C30_sound_without_torn_reads",
    "C30_early_yes_refuted"
   ],
   "note": "The code can answer yes too early (162-step schedule of two threads); sound for every number of threads and schedule without a vote read between lines 44 and 45, and for all schedules once these writes are exchanged. Sequentially consistent memory, unbounded counters."
  },
  {
   "property": "C31",
   "status": "proved",
   "theorems": [
    "C31_no_lost_wakeup",
    "C31_wakeup_pending",
    "C31_one_notification"
   ],
   "note": "For every algorithm (abstract merge/retrieve/update functions), thread ownership, graph change and schedule of single shared-memory steps. Memory sequentially consistent; queue puts are single steps (their own correctness is C12-C20)."
  },
  {
   "property": "C32",
   "status": "proved",
   "theorems": [
    "C32_activity_counts",
    "C32_told_what_remains",
    "C32_zero_is_last"
   ],
   "note": "For every algorithm, thread ownership and schedule of single shared-memory steps (sequentially consistent). The counter also includes notifications taken from the queue and not yet decremented, as in the code."
  },
  {
   "property": "C33",
   "status": "proved",
   "theorems": [
    "C33_fifo",
    "C33_check",
    "C33_round",
    "C33_all_handed"
   ],
   "note": "ReceiveMessages/ProcessMessages with the deque of Deque_Model and an abstract queue with arbitrary arrivals and failing Accepts; the fill-level test is an arbitrary boolean"
  },
  {
   "property": "C34",
   "status": "proved",
   "theorems": [
    "C34_stop",
    "C34_rounds",
    "C34_strict_stop",
    "C34_strict_rounds"
   ],
   "note": "Both ConvergeSync and ConvergeSyncPrevOnly, for mailbox algorithms (unique notifications); active-notification algorithms are excluded, as the code comment says. C34_leftover_notification shows that a stale entry may stay in a queue."
  },
  {
   "property": "C35",
   "status": "proved",
   "theorems": [
    "C35_components",
    "C35_same_label"
   ],
   "note": "For every graph present at the start and grown during the run, every number of threads and every schedule of single shared-memory steps; edges in both directions once quiet, raw ids below 2^32. No deletions (the code panics on them)."
  },
  {
   "property": "C36",
   "status": "proved",
   "theorems": [
    "C36_rounded",
    "C36_shortest_paths"
   ],
   "note": "Non-negative weights, every monotone rounding of the additions (C36_rounded), exact sums (C36_shortest_paths). Values that reach EMPTY_VAL count as unreachable, as in the code."
  },
  {
   "property": "C37",
   "status": "proved",
   "theorems": [
    "C37_rounded",
    "C37_same_as_mailbox",
    "C37_shortest_paths"
   ],
   "note": "Insert-only (OnEdgeDel panics in the code). Floating-point addition is any monotone rounding of the exact sum that does not take EMPTY_VAL below itself; non-negative weights."
  },
  {
   "property": "C38",
   "status": "proved",
   "theorems": [
    "C38_proper"
   ],
   "note": "All graphs, changes, thread counts and schedules. Positions are unique per destination (Enact model C27) and fewer than 2^31-1; the bound counts positions ever used, since slots of deleted edges stay. MailMerge is one atomic step."
  },
  {
   "property": "C39",
   "status": "proved",
   "theorems": [
    "C39_greedy",
    "C39_same"
   ],
   "note": "Wait-count colouring on the asynchronous engine with the four shared accesses of MailMerge as separate steps; any undirected multigraph, any threads and schedule; at quiescence the colours are the greedy ones by priority, hence unique. Needs fewer than 2^31-1 in-edges per vertex."
  },
  {
   "property": "C40",
   "status": "proved",
   "theorems": [
    "C40_balance",
    "C40_quiet"
   ],
   "note": "Asynchronous engine, exact rationals instead of floats; every schedule, edge additions and deletions in any order; in-transit amounts accounted for at every point."
  },
  {
   "property": "C41",
   "status": "proved",
   "theorems": [
    "C41_total",
    "C41_defined",
    "C41_exact",
    "C41_checked",
    "C41_close"
   ],
   "note": "exact rationals; division by zero is None; proves the stronger fact that scores equal PageRank of the graph with sinks joined to all others"
  },
  {
   "property": "C42",
   "status": "proved",
   "theorems": [
    "C42_refuted",
    "C42_heard",
    "C42_quiet"
   ],
   "note": "Refuted as stated: a hub with 255 parallel edges fills an inbox to exactly the threshold and the wake-up is lost (the same coincidence happens in float64). Proved for runs in which no inbox ever holds exactly the threshold."
  },
  {
   "property": "C43",
   "status": "proved",
   "theorems": [
    "C43_stream",
    "C43_static"
   ],
   "note": "Every run of the model (active-notification engine plus tc.go) that is at rest with all edges added has counters summing to the triangles of the simple undirected graph; stream and static loading. Raw ids below 2^31-1 (2^31-1 flagged equals EMPTY, shown by Example C43_largest_id); counters are nat."
  },
  {
   "property": "C44",
   "status": "proved",
   "theorems": [
    "C44_exact",
    "C44_returns",
    "C44_unique",
    "C44_source",
    "C44_offer"
   ],
   "note": "MailRetrieve on any slots: what it returns is apart and covers exactly the offers (both as half-open intervals and as sets of edge times that can pass); with offers ordered by start it never aborts and 'changed' is exact; pushWindows offers an edge iff a window is open at its time. Unordered offers abort: C44_unordered_aborts (finding). A source that already had windows keeps stale ones: C44_late_source (finding)."
  },
  {
   "property": "C45",
   "status": "proved",
   "theorems": [
    "C45_no_abort",
    "C45_exact",
    "C45_agree",
    "C45_before"
   ],
   "note": "On the engine of Engine_Model (any number of threads, any schedule, edges added and ended during the run). Conditions on the stream (sound): slots unique, timestamps of a vertex's edges and of a destination's slots non-decreasing, below INFINITY, an edge does not end before it begins. One source. Hop counts are not claimed."
  },
  {
   "property": "C46",
   "status": "proved",
   "theorems": [
    "C46_count_points",
    "C46_time_points"
   ],
   "note": "Interval at least 1 for counts; no uint64 overflow."
  },
  {
   "property": "C47",
   "status": "proved",
   "theorems": [
    "C47_shuffle_permutes",
    "C47_shuffle_reaches_every_permutation",
    "C47_remove_random"
   ],
   "note": "rand.Intn results are universally quantified inputs."
  },
  {
   "property": "C48",
   "status": "proved",
   "theorems": [
    "C48_inserted_value_never_indexed"
   ],
   "note": "Finding: refuted in general form."
  },
  {
   "property": "C49",
   "status": "proved",
   "theorems": [
    "C49_result_compare_panics_exactly",
    "C49_unsigned_difference_one_sided",
    "C49_unsigned_difference_refuted"
   ],
   "note": ""
  },
  {
   "property": "C50",
   "status": "proved",
   "theorems": [
    "C50_spare_bounded",
    "C50_spare_bound_refuted"
   ],
   "note": "Bound and counter equality proved for PushFront-free histories; refuted in general with a concrete history (counter -5, later 15 spare blocks)."
  },
  {
   "property": "C51",
   "status": "proved",
   "theorems": [
    "C51_check_range_discipline"
   ],
   "note": "ESpace value characterised in fifo_step (C10_linearizable); discipline of checkToRemit never refused."
  },
  {
   "property": "C52",
   "status": "proved",
   "theorems": [
    "C52_didx_denotes_destination"
   ],
   "note": "At most 32 threads, at most 2^27 vertices per thread; same proviso as C22."
  },
  {
   "property": "C53",
   "status": "proved",
   "theorems": [
    "C53_time_range_refines",
    "C53_accounting",
    "C53_ended_edges_are_final",
    "C53_one_deletion",
    "C53_zero_end_time_refuted"
   ],
   "note": "TimeRange path refines a per-vertex specification independent of batching; a DEL with EndTime 0 leaves the edge un-ended (witness)."
  },
  {
   "property": "C54",
   "status": "proved",
   "theorems": [
    "C54_calls_tell_the_changes"
   ],
   "note": "Sequence of OnEdgeAdd/OnEdgeDel calls per vertex and batch, path without TimeRange."
  },
  {
   "property": "C55",
   "status": "proved",
   "theorems": [
    "C55_unique",
    "C55_close"
   ],
   "note": "exact rationals; never-exact-threshold condition is the C42 one"
  },
  {
   "property": "C56",
   "status": "proved",
   "theorems": [
    "C56_slots",
    "C56_times"
   ],
   "note": "Link_Props.v, on the pipeline model of C22/C23."
  },
  {
   "property": "C57",
   "status": "proved",
   "theorems": [
    "C57_edges",
    "C57_graph",
    "C57_components",
    "C57_colouring",
    "C57_shortest_paths",
    "C57_temporal"
   ],
   "note": "File_Graph.v, File_Props.v. Composition of C20, C22, C56 with C35, C36, C38, C45; the interface (an algorithm's edges are those received) is a hypothesis, justified by C25. Shortest paths with exact sums."
  },
  {
   "property": "C58",
   "status": "proved",
   "theorems": [
    "C58_components_rest",
    "C58_components",
    "C58_shortest_rest",
    "C58_shortest_rounded",
    "C58_shortest_paths"
   ],
   "note": "Fairness: rounds in which every thread gets every kind of step; values of shortest paths from a finite set (floats) or a grid of fractions"
  },
  {
   "property": "C59",
   "status": "proved",
   "theorems": [
    "C59_rest",
    "C59_result"
   ],
   "note": "Exact arithmetic; fairness by rounds as in C58"
  },
  {
   "property": "C60",
   "status": "proved",
   "theorems": [
    "C60_all_left",
    "C60_early_never_ends",
    "C60_whole",
    "C60_one",
    "C60_whole_never_ends",
    "C60_components",
    "C60_shortest_paths",
    "C60_ranks",
    "C60_hang"
   ],
   "note": "The machine of Engine_Model and Term_Model together. For the code as it is and all schedules; C60_hang is a concrete run of shortest paths in which the early yes of C30 leaves the program running forever."
  },
  {
   "property": "C61",
   "status": "proved",
   "theorems": [
    "C61_check_ends",
    "C61_ends",
    "C61_components",
    "C61_shortest_paths",
    "C61_ranks"
   ],
   "note": "Live_Props.v. Fairness by rounds as in C58; weights and values of shortest paths on a grid of fractions; exact arithmetic. Condition for the code as it is: swap = true or tidy (no vote read between the two writes of lines 44-45), needed by C60_hang."
  },
  {
   "property": "C62",
   "status": "proved",
   "theorems": [
    "C62_view",
    "C62_frozen",
    "C62_all_seen",
    "C62_nothing_new",
    "C62_components",
    "C62_shortest_paths",
    "C62_ranks",
    "C62_by_count",
    "C62_by_time",
    "C62_always_half",
    "C62_symmetric_refuted"
   ],
   "note": "C62_view, C62_frozen, C62_all_seen are the guarantee for every algorithm; the three results follow; C62_by_count, C62_by_time say when is asked; C62_always_half and C62_symmetric_refuted are the exception for undirected graphs. ADD events only, in the Remitter's order; safety only: that every query is answered is not claimed here."
  },
  {
   "property": "C63",
   "status": "proved",
   "theorems": [
    "C63_components_accepted",
    "C63_components_refuted",
    "C63_components_mean",
    "C63_components_weak",
    "C63_shortest_accepted",
    "C63_messages_accepted",
    "C63_two_sources_refuted",
    "C63_shortest_mean",
    "C63_shortest_weak",
    "C63_colouring_accepted",
    "C63_colouring_means",
    "C63_colouring_weak",
    "C63_triangles_accepted",
    "C63_no_difference",
    "C63_single_panics",
    "C63_oracle_components",
    "C63_oracle_shortest",
    "C63_oracle_triangles"
   ],
   "note": "Acceptance uses C35-C38, C43 at rest. _refuted and _weak are witnesses for the limits. The colouring result assumes that each vertex has an edge. The oracle is any run at rest (how its graph is made: C86) with the same graph and the same initial mail."
  },
  {
   "property": "C64",
   "status": "proved",
   "theorems": [
    "C64_accepted",
    "C64_means",
    "C64_weak",
    "C64_compare",
    "C64_compare_runs"
   ],
   "note": "acceptance at rest for every sound stream; characterisation of what acceptance gives; incompleteness of the check"
  },
  {
   "property": "C65",
   "status": "proved",
   "theorems": [
    "C65_alone",
    "C65_out",
    "C65_all_leave",
    "C65_no_deadlock",
    "C65_barrier",
    "C65_barrier_rounds_refuted"
   ],
   "note": "Barrier, reset and termination check as one machine of atomic steps. The barrier alone does not keep rounds apart (refuted); together with the check it is safe."
  },
  {
   "property": "C66",
   "status": "proved",
   "theorems": [
    "C66_load",
    "C66_load_ends",
    "C66_load_one",
    "C66_load_order_refuted",
    "C66_no_threads",
    "C66_sort",
    "C66_sort_numbers",
    "C66_sort_numbers_refuted",
    "C66_sort_panics",
    "C66_stable_refuted",
    "C66_writes_nothing"
   ],
   "note": "Loader as a machine of q enqueuers, channels and dequeuers; Less on the FastFields model of C08; sort.Stable by documentation as insertion sort."
  },
  {
   "property": "C67",
   "status": "proved",
   "theorems": [
    "C67_rest",
    "C67_proper",
    "C67_ends",
    "C67_self_loop_refuted",
    "C67_wait_rest",
    "C67_wait_ends"
   ],
   "note": "Statement as worded fails with self-loops: C67_self_loop_refuted gives a fair schedule that never rests. Proved without self-loops for every reachable state of the first version, and for all undirected multigraphs with wait counts."
  },
  {
   "property": "C68",
   "status": "proved",
   "theorems": [
    "C68_rest",
    "C68_windows",
    "C68_ends"
   ],
   "note": "From every reachable state. C68_ends: before the threads of the whole program start anything may have happened; during it edges are added but not ended (the whole machine has no such step)."
  },
  {
   "property": "C69",
   "status": "proved",
   "theorems": [
    "C69_rest",
    "C69_stream",
    "C69_static"
   ],
   "note": "Unconditional version of C43: rest is reached, not assumed. The termination detection (C60, C61) is not composed with this engine."
  },
  {
   "property": "C70",
   "status": "proved",
   "theorems": [
    "C70_whole",
    "C70_ends",
    "C70_stream",
    "C70_stream_ends",
    "C70_static"
   ],
   "note": "The loops are proved once for any machine (lawful, winds_down); the same theorems for the mailbox engine are C60 and C61."
  },
  {
   "property": "C71",
   "status": "proved",
   "theorems": [
    "C71_rest",
    "C71_rest_rounded",
    "C71_program",
    "C71_shortest_paths"
   ],
   "note": "C71_program is for rounded sums, C71_shortest_paths for exact ones. The result at rest is C37."
  },
  {
   "property": "C72",
   "status": "proved",
   "theorems": [
    "C72_room",
    "C72_vertices",
    "C72_along",
    "C72_components",
    "C72_jam",
    "C72_ends_refuted"
   ],
   "note": "C72_ends_refuted: for every queue size a run that hangs; C72_jam: threads that wait on each other's full queues never go on; C72_vertices, C72_components: with room for every vertex of a thread nothing changes and the program ends with the components"
  },
  {
   "property": "C73",
   "status": "proved",
   "theorems": [
    "C73_view",
    "C73_frozen",
    "C73_graph_stands",
    "C73_reset",
    "C73_no_panic",
    "C73_no_block_at_end",
    "C73_all_seen",
    "C73_end",
    "C73_paths",
    "C73_prefix_refuted",
    "C73_copy_refuted"
   ],
   "note": "For algorithms without super-steps and streams without deletions. Refuted in two respects: the graph seen need not be that of a prefix of the stream (C73_prefix_refuted); what OnFinish reads need not be the state of one moment (C73_copy_refuted)."
  },
  {
   "property": "C74",
   "status": "proved",
   "theorems": [
    "C74_epoch",
    "C74_block",
    "C74_end",
    "C74_async_refuted",
    "C74_finish_twice_refuted"
   ],
   "note": "Holds when threads wait (EPOCH, BLOCK_ALL); refuted with BLOCK_TOP, and for what the finishing goroutine reads."
  },
  {
   "property": "C75",
   "status": "proved",
   "theorems": [
    "C75_ends",
    "C75_components",
    "C75_shortest_paths",
    "C75_ranks"
   ],
   "note": "Lexicographic measure over events, the state of the Remitter and the logging goroutine, commands and open threads; between two decreases the engine's budget and the termination check decrease. Fair rounds may contain anything else; the condition about lines 44-45 is that of C30/C61 (C60_hang shows it is needed)."
  },
  {
   "property": "C76",
   "status": "proved",
   "theorems": [
    "C76_at_event",
    "C76_sound",
    "C76_missed",
    "C76_undirected",
    "C76_end",
    "C76_discard",
    "C76_all_refuted"
   ],
   "note": "Runs in which the Remitter is not answered 'closed' by a ToRemitQueue (as in C22); events numbered from 0 as the emitter does; a query state is one with all topology queues empty."
  },
  {
   "property": "C77",
   "status": "proved",
   "theorems": [
    "C77_columns",
    "C77_row",
    "C77_top_ten",
    "C77_small",
    "C77_zero_refuted",
    "C77_derivative",
    "C77_same"
   ],
   "note": "Exact arithmetic (Qc) instead of float64; rows as lists of cells, formatting of numbers not modelled. logWaterfall set, USE_INTEREST_ARRAY not."
  },
  {
   "property": "C78",
   "status": "proved",
   "theorems": [
    "C78_counts",
    "C78_percent",
    "C78_active_refuted",
    "C78_windows",
    "C78_rounds",
    "C78_min_refuted"
   ],
   "note": "Counts, largest number of windows and starts per window index are those of the whole graph. Two refutations: percentage of active vertices may exceed 100 (computed with all visitable ones), minimum of later windows includes earlier ones."
  },
  {
   "property": "C79",
   "status": "proved",
   "theorems": [
    "C79_kept",
    "C79_kept_any",
    "C79_slow",
    "C79_hundred",
    "C79_refuted",
    "C79_fixed",
    "C79_unlimited"
   ],
   "note": "Rates from 100 per second are kept up to one event. Refutation below: one event per second asked, 100 per second sent. With time.Second in place of time.Nanosecond every rate is kept."
  },
  {
   "property": "C80",
   "status": "proved",
   "theorems": [
    "C80_views",
    "C80_one_view_refuted",
    "C80_table",
    "C80_unfinished",
    "C80_last_refuted",
    "C80_waited"
   ],
   "note": "Entries are made from their own views and printed in order; all but possibly the last with OnFinish, all without. Refutation: last entry missing."
  },
  {
   "property": "C81",
   "status": "proved",
   "theorems": [
    "C81_graph",
    "C81_mentions",
    "C81_safe",
    "C81_proper",
    "C81_ends",
    "C81_goes_on",
    "C81_loop_refuted",
    "C81_wait_once",
    "C81_wait_greedy",
    "C81_plain_refuted"
   ],
   "note": "All schedules, both modes. Self-loops: proved that the run never ends (finding 36). Without -w: witness of two schedules with different results."
  },
  {
   "property": "C82",
   "status": "proved",
   "theorems": [
    "C82_stats",
    "C82_stats_in",
    "C82_stats_hidden",
    "C82_returns",
    "C82_deletions_refuted",
    "C82_in_edges",
    "C82_in_median_refuted",
    "C82_check",
    "C82_check_refuted"
   ],
   "note": "Any interleaving of the goroutines; relation holds between stored state and graph as given by C23, C27, C52. Three refutations with witnesses."
  },
  {
   "property": "C83",
   "status": "proved",
   "theorems": [
    "C83_filled",
    "C83_complete",
    "C83_enough",
    "C83_loaders_refuted",
    "C83_blank_refuted"
   ],
   "note": "The Load model with the field buffer in the invariant. The model copies words; in the code they alias the read buffer, so for files beyond one buffer (64 KiB) an old word may also have been overwritten."
  },
  {
   "property": "C84",
   "status": "proved",
   "theorems": [
    "C84_asked",
    "C84_turned_away",
    "C84_always",
    "C84_series_refuted",
    "C84_window_refuted",
    "C84_narrow_refuted",
    "C84_queue_refuted",
    "C84_name",
    "C84_name_refuted"
   ],
   "note": "Proved for all flags in range; what happens outside the ranges is characterised by the _refuted theorems."
  },
  {
   "property": "C85",
   "status": "proved",
   "theorems": [
    "C85_ends",
    "C85_components",
    "C85_shortest_paths",
    "C85_ranks"
   ],
   "note": "Fair rounds bring every run of Block_Model to its end, from any reachable state."
  },
  {
   "property": "C86",
   "status": "proved",
   "theorems": [
    "C86_copy",
    "C86_apart",
    "C86_edges_shared",
    "C86_edges_refuted",
    "C86_views"
   ],
   "note": "Memory is modelled: stores of arrays with addresses. References inside a property or an inbox are part of the value. The edge arrays are shared (refuted part)."
  },
  {
   "property": "C87",
   "status": "proved",
   "theorems": [
    "C87_view",
    "C87_no_panic",
    "C87_frozen",
    "C87_all_seen",
    "C87_ranks",
    "C87_colouring",
    "C87_oldest_refuted"
   ],
   "note": "For the machine of C62 with deletions: events are enacted in runs of additions and runs of deletions, marking edges as the code does. The graph at a look is the one of the prefix up to which of several parallel edges has gone; C87_oldest_refuted shows by two schedules that this choice depends on batch boundaries. Instances: PageRank (C55) and colouring (C38)."
  },
  {
   "property": "C88",
   "status": "proved",
   "theorems": [
    "C88_ends",
    "C88_ranks",
    "C88_colouring"
   ],
   "note": "fair rounds end the program with queries on streams with deletions; instances PageRank and colouring"
  },
  {
   "property": "C89",
   "status": "proved",
   "theorems": [
    "C89_load_ends",
    "C89_loaded",
    "C89_alike",
    "C89_unlogged",
    "C89_room",
    "C89_jam",
    "C89_notes",
    "C89_notes_end",
    "C89_components",
    "C89_ranks"
   ],
   "note": "Two parts of the statement fail in the code: C89_jam and C89_notes_end (full queue during initial mail), C89_unlogged (time series without -d). The rest is proved for all schedules; C89_room says when the limit does not matter."
  },
  {
   "property": "C90",
   "status": "proved",
   "theorems": [
    "C90_view",
    "C90_no_panic",
    "C90_all_seen",
    "C90_stale",
    "C90_exact",
    "C90_disorder",
    "C90_disorder_one",
    "C90_ranks",
    "C90_threads_refuted"
   ],
   "note": "Safety at every query and at the end; that runs end is C91."
  },
  {
   "property": "C91",
   "status": "proved",
   "theorems": [
    "C91_ends",
    "C91_ranks"
   ],
   "note": "Fair rounds end the program with sliding windows; instance PageRank."
  },
  {
   "property": "C92",
   "status": "proved",
   "theorems": [
    "C92_drains",
    "C92_in_order",
    "C92_all",
    "C92_channels",
    "C92_sizes",
    "C92_held_up",
    "C92_one_place_refuted"
   ],
   "note": "Model: Flow_Model.v, on top of Remit_Model's pipeline; a measure falls in every fair round until drained."
  },
  {
   "property": "C93",
   "status": "proved",
   "theorems": [
    "C93_range",
    "C93_growth",
    "C93_once",
    "C93_batch",
    "C93_mail",
    "C93_room",
    "C93_answers",
    "C93_sync_lost_refuted",
    "C93_top_first",
    "C93_static_commands",
    "C93_static_mail"
   ],
   "note": "Model: Turn_Model.v, one iteration against an arbitrary world. The answers to commands are proved for the dynamic loop; for the static loop only which commands panic and the handling of notifications (no theorem about its answer to EPOCH or BLOCK_ALL)."
  },
  {
   "property": "C94",
   "status": "proved",
   "theorems": [
    "C94_patience",
    "C94_bound",
    "C94_reset",
    "C94_series_refuted",
    "C94_slow_ready",
    "C94_slow_panic",
    "C94_static_bound"
   ],
   "note": "Model: Turn_Model.v (backoff, back_off, slow)."
  },
  {
   "property": "C95",
   "status": "proved",
   "theorems": [
    "C95_order",
    "C95_order_unique",
    "C95_status",
    "C95_status_range",
    "C95_colours",
    "C95_ratio",
    "C95_number_iff",
    "C95_number_refuted"
   ],
   "note": "sort.Stable modelled as the insertion sort it is for at most 20 elements; uniqueness covers any stable sort"
  },
  {
   "property": "C96",
   "status": "proved",
   "theorems": [
    "C96_mpsc_same",
    "C96_mpsc_offers",
    "C96_mpsc_fifo",
    "C96_offer_refuted",
    "C96_spsc_same",
    "C96_spsc_refuted"
   ],
   "note": "OfferMP (unused by the graph code): same up to 2^64 - size - 1 tickets, refuted beyond; the growable queue's counters stay unbounded (C13)"
  },
  {
   "property": "C97",
   "status": "proved",
   "theorems": [
    "C97_as_multi",
    "C97_fifo",
    "C97_refused_full"
   ],
   "note": "one producer, as the names demand; sequentially consistent steps; counters unbounded (C96)"
  }
 ]
}