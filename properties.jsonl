{"id": "C01", "title": "Bitmap is a set with first-unused query", "statement": "After any sequence of Set, QuickSet-else-Set, Grow and Zeroes calls starting from an empty bitmap, FirstUnused returns the smallest number that was not set since the last Zeroes; a QuickSet that returns false has changed nothing.", "quantifier": "for every finite sequence of bitmap operations and every 32-bit index", "why_tests_cant": "the tests try fifteen fixed fill patterns; the claim is about every operation history and every word boundary", "anchors": ["utils/bitmap.go: Bitmap.Set, Bitmap.QuickSet, Bitmap.Zeroes, Bitmap.Grow, Bitmap.FirstUnused"]}
{"id": "C02", "title": "Bitmap Grow reserves room for its argument", "statement": "Grow(x) preserves the set and afterwards QuickSet(x) succeeds. (The second half fails at word boundaries; the exact failing set of x is characterised.)", "quantifier": "for every bitmap and every index x", "why_tests_cant": "needs the boundary case len == x/64, which depends on the previous length", "anchors": ["utils/bitmap.go: Bitmap.Grow, Bitmap.QuickSet"]}
{"id": "C03", "title": "RoundUpPow returns the least power of two not below its argument", "statement": "For every 1 <= i <= 2^63, RoundUpPow(i) is a power of two, is at least i, and no smaller power of two is at least i; outside that range it returns 0.", "quantifier": "for every 64-bit unsigned i", "why_tests_cant": "2^64 inputs", "anchors": ["utils/helpers.go: RoundUpPow"]}
{"id": "C04", "title": "Priority queue delivers the minimum", "statement": "From any slice, Init followed by any sequence of Push, Pop and Fix(0) keeps the multiset of pushed-minus-popped elements and every Pop/Peek returns a minimum; popping until empty yields the elements in sorted order.", "quantifier": "for every initial slice and every operation sequence", "why_tests_cant": "all heap shapes and all histories", "anchors": ["utils/priority-queue.go: PQ.Init, PQ.Push, PQ.Pop, PQ.Peek, PQ.Fix, up, down"]}
{"id": "C05", "title": "Binary search finds the boundary", "statement": "On a slice sorted for the comparison, BinarySearchIdxFunc returns the first index whose element is not less than the target (the length when there is none), and found is true exactly when an equal element exists.", "quantifier": "for every sorted slice, every target and every monotone comparison", "why_tests_cant": "unbounded slice lengths", "anchors": ["utils/priority-queue.go: BinarySearchIdxFunc"]}
{"id": "C06", "title": "Top-N selection is correct", "statement": "FindTopNInArray(a, n) returns min(n, len a) pairs (index, value) with distinct indices whose values agree with the array, in descending order, such that no unselected element is larger than a selected one.", "quantifier": "for every array and every n >= 1 (n = 0 on a nonempty array panics)", "why_tests_cant": "all arrays, ties included", "anchors": ["utils/sorting.go: FindTopNInArray"]}
{"id": "C07", "title": "Deque refines a double-ended queue", "statement": "After Init, any sequence of PushFront, PushBack, FastPushBack/SlowPushBack, PopFront, TryPopFront/UpdatePopFront, PopBack, Front, Back and Len behaves exactly as on a plain list: same results, no element lost, duplicated or reordered, whatever internal blocks are allocated or recycled.", "quantifier": "for every operation sequence", "why_tests_cant": "block boundaries and recycling interact over arbitrarily long histories", "anchors": ["utils/deque.go: Deque"]}
{"id": "C08", "title": "Decimal and field parsing", "statement": "FastFields splits a line into exactly its maximal runs of non-space bytes (up to the capacity of the destination slice), and ToInt of a decimal numeral is its value modulo 2^32.", "quantifier": "for every byte string", "why_tests_cant": "all byte strings", "anchors": ["utils/io.go: FastFields, ToInt, ToIntStr, isByteSpace"]}
{"id": "C09", "title": "Line scanning does not depend on read chunking", "statement": "For every file content whose lines fit in half of the buffer and every way the operating system splits the reads, repeatedly calling the line reader returns exactly the newline-separated lines of the file in order, then nil.", "quantifier": "for every file, buffer size and every sequence of short reads", "why_tests_cant": "read boundaries chosen by the environment", "anchors": ["utils/io.go: FastFileLines.Scan", "graph/stream.go: EdgeEnqueueToEmitter"]}
{"id": "C10", "title": "Single-producer queue is FIFO without loss", "statement": "Under every interleaving of one producer (PutFast/PutSlow/Offer) and one consumer (GetFast/GetSlow/Accept), the sequence of consumed items is a prefix of the sequence of produced items, an item is never overwritten before it is consumed, and at most capacity items are unconsumed.", "quantifier": "for every capacity, every item sequence and every schedule of the individual atomic steps", "why_tests_cant": "schedules", "anchors": ["utils/ring-buffer.go: RingBuffSPSC"]}
{"id": "C11", "title": "A closed queue is drained before consumers are told", "statement": "GetSlow reports closed only when every item put before Close has been consumed. (Fails: a put and close between the emptiness check and the status check lose the item; proved for the callers' discipline where no put intervenes.)", "quantifier": "for every schedule of producer and consumer steps", "why_tests_cant": "needs a preemption between two adjacent loads", "anchors": ["utils/ring-buffer.go: RingBuffSPSC.GetSlow, RingBuffSPSC.Close, RingBuffMPSC.GetSlow", "graph/stream.go: Emitter"]}
{"id": "C12", "title": "Multi-producer queue is linearizable FIFO", "statement": "Under every interleaving of any number of producers and one consumer, every put item is delivered exactly once, items are delivered in ticket order, each producer's items are delivered in its own order, and no slot is overwritten before it is read.", "quantifier": "for every power-of-two size of at least two, any number of producers, every schedule", "why_tests_cant": "schedules over many goroutines", "anchors": ["utils/ring-buffer.go: RingBuffMPSC.Offer, RingBuffMPSC.PutFast, RingBuffMPSC.PutSlow, RingBuffMPSC.Accept, RingBuffMPSC.GetFast"]}
{"id": "C13", "title": "Growing queue keeps order across growth", "statement": "Items put into the growable queue are delivered exactly once in put order across buffer growths, provided no growth happens between the consumer's slot check and its grown check; without that proviso a schedule loses a whole buffer.", "quantifier": "for every size, growth count and schedule", "why_tests_cant": "the losing schedule needs a full-buffer refill between two loads", "anchors": ["utils/ring-buffer.go: GrowableRingBuff"]}
{"id": "C14", "title": "Stopwatch excludes pauses", "statement": "For every legal sequence of Start, Pause and UnPause at non-decreasing times, Elapsed equals the total length of the running intervals, AbsoluteElapsed equals the time since Start, and illegal calls panic.", "quantifier": "for every call history and every clock reading", "why_tests_cant": "all call histories", "anchors": ["utils/stopwatch.go: Watch"]}
{"id": "C15", "title": "RBO overlap bookkeeping", "statement": "For duplicate-free lists the overlap counted at depth d is the size of the intersection of the two d-prefixes, the measure is symmetric in its two lists, equals one on identical non-empty lists and lies between zero and one.", "quantifier": "for every pair of duplicate-free lists and every p in (0,1)", "why_tests_cant": "all list pairs", "anchors": ["utils/rbo.go: CalculateRBO"]}
{"id": "C16", "title": "Atomic read-modify-write helpers are linearizable", "statement": "AtomicMin, AtomicMax and AtomicAdd loops, run by any number of threads under any schedule, leave the cell with the minimum, maximum or sum of all arguments and return the value the cell had at the moment of their effect.", "quantifier": "for every number of threads, arguments and schedules", "why_tests_cant": "schedules", "anchors": ["utils/atomics.go: AtomicMinUint32, AtomicMinFloat64, AtomicAddFloat64, AtomicMaxUint32"]}
{"id": "C17", "title": "Median and percentile", "statement": "Median returns the middle element of an odd-length slice and the mean of the two middle elements of an even-length one. (Fails: the parity test is inverted; the value actually returned is characterised.)", "quantifier": "for every slice", "why_tests_cant": "all slice lengths and contents", "anchors": ["utils/helpers.go: Median, Percentile"]}
{"id": "C18", "title": "Vertex index packing is injective", "statement": "Packing (thread, offset) into an internal id and expanding it again are inverse for thread < 32 and offset < 2^27, ids of different vertices differ, and SameTidx holds exactly for ids on the same thread.", "quantifier": "for every thread index and offset", "why_tests_cant": "2^32 ids", "anchors": ["graph/graph-vertex.go: InternalExpand, InternalCompress, SameTidx"]}
{"id": "C19", "title": "Vertex enumeration is a partition", "statement": "NodeForEachVertex visits every vertex of every thread exactly once and numbers them 0..|V|-1 without gaps; NodeParallelFor gives each thread a disjoint ordinal range covering 0..|V|-1; bucketed vertex-property lookup is total and injective on existing vertices.", "quantifier": "for every number of threads and vertices per thread", "why_tests_cant": "all sizes and bucket boundaries", "anchors": ["graph/graph-vertex.go: NodeForEachVertex, NodeParallelFor, idxToBucket"]}
{"id": "C20", "title": "File order is preserved by parallel loading", "statement": "With any number of load threads, each parsing every k-th line into its own queue, and the emitter taking from the queues in rotation, the emitted event sequence is exactly the sequence of lines of the file, for every schedule of the load threads.", "quantifier": "for every file, every number of load threads and every schedule", "why_tests_cant": "schedules and line counts modulo thread counts", "anchors": ["graph/stream.go: EdgeEnqueueToEmitter, Emitter, LoadFileStream"]}
{"id": "C21", "title": "Event numbering and packing", "statement": "The k-th emitted event carries index k (directed) or 2k and 2k+1 for the original and its mirrored twin (undirected), the kind of event and the index are recovered exactly from the packed word, and logical timestamps equal the event index.", "quantifier": "for every stream length below 2^62", "why_tests_cant": "all indices", "anchors": ["graph/stream.go: Emitter", "graph/graph-edge.go: TopologyEvent.EventIdx, EventType"]}
{"id": "C22", "title": "Per-source event order survives the remit pipeline", "statement": "For every schedule of emitter, remitter threads and graph threads, the events delivered to each source vertex's thread are exactly the emitted events of that thread in emission order.", "quantifier": "for every event sequence, thread count and schedule", "why_tests_cant": "schedules", "anchors": ["graph/stream.go: Remitter", "graph/stream-enact-events.go: checkToRemit"]}
{"id": "C23", "title": "In-edge positions are dense and schedule-independent", "statement": "The Pos attached to an added edge equals the number of earlier ADD events with the same destination in emission order, so positions of a destination are 0,1,2,... without repetition; deletions carry the reserved value.", "quantifier": "for every event sequence, thread count and schedule", "why_tests_cant": "schedules", "anchors": ["graph/stream-enact-events.go: checkToRemit", "graph/graph-vertex.go: VertexStructure.InEventPos"]}
{"id": "C24", "title": "Batch grouping preserves each source's history", "statement": "Grouping a batch of topology events by source keeps every event exactly once and keeps each source's events in their arrival order; each source appears in one group.", "quantifier": "for every batch", "why_tests_cant": "all batches", "anchors": ["graph/stream-enact-events.go: checkInsertPending, EnactTopologyEvents"]}
{"id": "C25", "title": "Adding edges appends them", "statement": "Enacting a batch whose events for a vertex are all ADD appends exactly those edges, in order, to the vertex's edge list, and the result does not depend on how the stream was cut into batches.", "quantifier": "for every stream and every partition into batches", "why_tests_cant": "batch boundaries chosen by timing", "anchors": ["graph/stream-enact-events.go: EnactTopologyEvents"]}
{"id": "C26", "title": "Deleting removes the first matching edge and keeps order", "statement": "A deletion of (u,v) removes the earliest remaining edge from u to v and leaves the order of the others unchanged. (Fails for some batches of several deletions: the fast path can take a later instance; proved for single deletions, for lists without parallel edges as multisets, and for in-order deletions.)", "quantifier": "for every edge list and every batch of deletions", "why_tests_cant": "depends on batch contents decided by timing", "anchors": ["graph/stream-enact-events.go: EnactTopologyEvents", "README.md: Input Format"]}
{"id": "C27", "title": "Edge accounting", "statement": "After any history of batches the number of stored edges equals the number of ADD events minus the number of DEL events enacted, and the reported NumEdges, NumOutAdds and NumOutDels agree with it.", "quantifier": "for every history without a deletion of a missing edge", "why_tests_cant": "all histories", "anchors": ["graph/stream-enact-events.go: EnactTopologyEvents", "graph/queries.go: LogTimeSeries"]}
{"id": "C28", "title": "Generated deletions retain the final structure", "statement": "InjectDeletesRetainFinalStructure returns a stream in which every deletion is preceded by a matching live addition and whose net effect is the original multiset of edges.", "quantifier": "for every input stream, every deletion probability and every outcome of the random choices", "why_tests_cant": "random choices", "anchors": ["graph/stream-enact-events.go: InjectDeletesRetainFinalStructure"]}
{"id": "C29", "title": "Sliding-window expiry deletes exactly the expired edges", "statement": "With a window duration set and an add-only stream of non-decreasing timestamps, the edges alive after each event are those added within the window, and each expired edge is deleted once, oldest first.", "quantifier": "for every timestamp sequence and window duration", "why_tests_cant": "all timestamp sequences", "anchors": ["graph/stream-enact-events.go: InjectExpired"]}
{"id": "C30", "title": "Termination is never declared early", "statement": "If a thread's termination check answers yes then at that moment no message is in flight to any thread and every thread is idle, for every interleaving of the individual loads and stores of sending, receiving and checking. (Fails in the code, because a thread publishes a changed view before it withdraws its vote; proved for every schedule in which no vote is read between those two writes, and for every schedule once they are exchanged.)", "quantifier": "for every number of threads, every message pattern and every schedule", "why_tests_cant": "schedules", "anchors": ["graph/termination.go: CheckTermination", "graph/run-async.go: ConvergeAsyncThread"]}
{"id": "C31", "title": "Unique notifications lose no wake-up", "statement": "For every schedule of senders and the receiving thread, a mailbox update reported as new information is followed by an update cycle of the vertex that sees it, and at most one notification per vertex is queued at any time.", "quantifier": "for every number of senders and every schedule", "why_tests_cant": "schedules", "anchors": ["graph/algorithm.go: UniqueNotification, EnsureSend", "graph/run-async.go: ProcessMessages"]}
{"id": "C32", "title": "Active notification counting", "statement": "The activity counter of a vertex equals the number of its queued notifications plus sends under way, so the vertex update that observes zero activity is preceded by the processing of every notification whose send completed before it.", "quantifier": "for every number of senders and every schedule", "why_tests_cant": "schedules", "anchors": ["graph/algorithm.go: ActiveNotification", "graph/run-async.go: ProcessMessages"]}
{"id": "C33", "title": "Message reception is FIFO and counted", "statement": "ReceiveMessages together with ProcessMessages hands every notification of a thread's queue to the vertex update exactly once in queue order, using the overflow deque only as an extension of the queue, and the sent/received counters advance by the numbers of notifications sent and processed.", "quantifier": "for every queue content, buffer size and batch limit", "why_tests_cant": "all fill levels", "anchors": ["graph/run-async.go: ReceiveMessages, ProcessMessages"]}
{"id": "C34", "title": "Synchronous convergence stops only when nothing is active", "statement": "The synchronous engine stops after an iteration that sent nothing, and then no vertex has pending activity; each active vertex is updated exactly once per iteration.", "quantifier": "for every graph, algorithm outcome and number of threads", "why_tests_cant": "all runs", "anchors": ["graph/run-sync.go: ConvergeSync"]}
{"id": "C35", "title": "Connected components result", "statement": "When the connected-components algorithm has no pending notification, every vertex's label is the smallest raw id in its connected component of the undirected graph, for every schedule of updates and edge insertions.", "quantifier": "for every undirected multigraph, every interleaving of edge additions and vertex updates", "why_tests_cant": "schedules and graphs", "anchors": ["cmd/lp-cc/cc.go: OnUpdateVertex, OnEdgeAdd, MailMerge, InitAllMail"]}
{"id": "C36", "title": "Shortest path result", "statement": "When the shortest-path algorithm has no pending notification, every vertex's value is the length of a shortest path from the sources (infinite when unreachable), for every schedule and every order of edge insertions.", "quantifier": "for every weighted multigraph, set of sources and every interleaving", "why_tests_cant": "schedules and graphs", "anchors": ["cmd/lp-sssp/sssp.go: OnUpdateVertex, OnEdgeAdd, MailMerge"]}
{"id": "C37", "title": "Message-passing shortest path result", "statement": "The message-passing variant of shortest path ends, for every schedule, with the same distances as the mailbox variant.", "quantifier": "for every weighted multigraph and every interleaving", "why_tests_cant": "schedules and graphs", "anchors": ["cmd/lp-sssp/sssp-msg.go: OnUpdateVertex, OnEdgeAdd"]}
{"id": "C38", "title": "Colouring is proper at quiescence", "statement": "When the colouring algorithm has no pending notification on an undirected graph, adjacent distinct vertices have different colours and each colour is at most the number of in-edges of the vertex.", "quantifier": "for every undirected multigraph and every interleaving of updates and edge events", "why_tests_cant": "schedules and graphs", "anchors": ["cmd/lp-colouring/colouring.go: MailMerge, MailRetrieve, OnUpdateVertex, OnEdgeAdd"]}
{"id": "C39", "title": "Wait-count colouring is the sequential greedy colouring", "statement": "With the wait-count option on a static undirected graph every schedule colours each vertex with the smallest colour unused by its higher-priority neighbours, so the result does not depend on the schedule.", "quantifier": "for every undirected multigraph and every schedule", "why_tests_cant": "schedules", "anchors": ["cmd/lp-colouring/colouring.go: MailMerge, BaseVertexMailbox"]}
{"id": "C40", "title": "PageRank residual invariant", "statement": "At every point of every execution (edge additions, deletions, updates in any order), for every vertex: undelivered inflow plus absorbed inflow equals its initial mass plus the damped share of what its in-neighbours have absorbed, in exact arithmetic.", "quantifier": "for every graph history and every schedule", "why_tests_cant": "schedules, histories", "anchors": ["cmd/lp-pagerank/pagerank.go: OnUpdateVertex, OnEdgeAdd, OnEdgeDel, MailMerge, MailRetrieve"]}
{"id": "C41", "title": "PageRank final normalisation sums to one", "statement": "The finishing pass redistributes sink mass so that the final scores plus bookkeeping remainder sum to one, whenever there is a non-sink vertex, more than one vertex and some mass flowed into the sinks; the degenerate graphs where it divides by zero are characterised.", "quantifier": "for every vertex mass vector satisfying the residual invariant", "why_tests_cant": "all graphs", "anchors": ["cmd/lp-pagerank/pagerank.go: OnFinish", "cmd/lp-pagerank/correctness.go: OnCheckCorrectness"]}
{"id": "C42", "title": "PageRank threshold wake-up", "statement": "A mailbox whose accumulated value exceeds the threshold always has a notification pending. (Fails when the accumulated value passes exactly through the threshold; proved when it never equals it.)", "quantifier": "for every sequence of merges and retrievals", "why_tests_cant": "needs an exact floating point coincidence", "anchors": ["cmd/lp-pagerank/pagerank.go: MailMerge"]}
{"id": "C43", "title": "Triangle count is exact", "statement": "When the triangle counting algorithm has no pending notification, the sum of the vertices' counters is the number of triangles of the simple undirected graph of the stream (self-loops and repeated edges ignored), for every batching and schedule.", "quantifier": "for every stream, batching and schedule", "why_tests_cant": "schedules, batch boundaries", "anchors": ["cmd/lp-tc/tc.go: OnUpdateVertex, OnInEdgeAdd, OnEdgeAdd"]}
{"id": "C44", "title": "Temporal window merging", "statement": "When a vertex's inbound offers are ordered by start time, MailRetrieve computes sorted, pairwise non-overlapping windows covering exactly the union of the offers; for unordered offers it can abort, and a concrete instance is exhibited.", "quantifier": "for every list of inbound offers", "why_tests_cant": "all interval configurations", "anchors": ["cmd/lp-temporal-paths/temporal-paths.go: MailRetrieve"]}
{"id": "C45", "title": "Temporal reachability is schedule-independent", "statement": "At quiescence the windows of every vertex are determined by the source and the timestamped edges alone, so all schedules agree.", "quantifier": "for every temporal graph with time-ordered edges and every schedule", "why_tests_cant": "schedules", "anchors": ["cmd/lp-temporal-paths/temporal-paths.go: OnUpdateVertex, pushWindows, MailRetrieve"]}
{"id": "C46", "title": "Query points are exact", "statement": "With a timeseries interval set, a query is triggered at the first event whose timestamp reaches each target and at no other, and the per-edge-count variant triggers after every multiple of the count.", "quantifier": "for every stream of timestamps and every interval", "why_tests_cant": "all streams", "anchors": ["graph/stream.go: Remitter"]}
{"id": "C47", "title": "Shuffling and random removal keep the elements", "statement": "Shuffle permutes its slice and RemoveRandomElement removes exactly one element and returns it, whatever the random numbers.", "quantifier": "for every slice and every sequence of random numbers", "why_tests_cant": "random choices", "anchors": ["utils/helpers.go: Shuffle, RemoveRandomElement"]}
{"id": "C48", "title": "PriorityQueueSf insertion (refuted)", "statement": "A value inserted with PriorityQueueSf.Insert becomes an entry of the queue, i.e. its index is eventually delivered by Extract. The code appends len(Index)-1, which never names the inserted value.", "quantifier": "for every input array, initial size and inserted value", "why_tests_cant": "no test calls Insert; the statement covers every array and size", "anchors": ["utils/sorting.go: PriorityQueueSf.Insert, Push"]}
{"id": "C49", "title": "ResultCompare totality and absolute difference", "statement": "ResultCompare with ignoreSize 0 panics exactly for the listed lengths, and for unsigned element types the reported per-element difference is the absolute difference exactly when no b[i] is below a[i].", "quantifier": "for every pair of arrays and every element width", "why_tests_cant": "all lengths and wrap-around values", "anchors": ["utils/helpers.go: ResultCompare"]}
{"id": "C50", "title": "Deque keeps at most five spare blocks (refuted with PushFront)", "statement": "The number of spare blocks kept by the deque equals its spareLinks counter and never exceeds maxSpareLinks (5). True for every history without PushFront; false in general, because PushFront on an empty deque with head index 0 decrements the counter without giving up a block.", "quantifier": "for every operation sequence without PushFront; counterexample with PushFront", "why_tests_cant": "the counter drifts only over long histories that revisit an empty deque at a block boundary", "anchors": ["utils/deque.go: Deque.PushFront, PopFront, PopBack, maxSpareLinks"]}
{"id": "C51", "title": "EnqCheckRange discipline of checkToRemit", "statement": "A producer that, between two calls of EnqCheckRange, offers at most as many items as the last call returned is never refused and never sees the wrapped-around range of a full queue; EnqCheckRange returns one less than the free space, and 2^64-1 exactly when the queue is full.", "quantifier": "for every capacity, program and schedule", "why_tests_cant": "schedules; the wrap-around needs an exactly full queue", "anchors": ["utils/ring-buffer.go: RingBuffSPSC.EnqCheckRange, RingBuffSPSC.Offer", "graph/stream-enact-events.go: checkToRemit"]}
{"id": "C52", "title": "Internal destination ids denote the destination", "statement": "The Didx attached to every remitted event is the packed (thread, offset) of the one vertex whose RawId is the event's DstRaw, also in the final vertex tables, although tables grow concurrently by look-up-or-create from both ends of edges.", "quantifier": "for every event sequence, thread count up to 32 and schedule", "why_tests_cant": "schedules", "anchors": ["graph/stream-enact-events.go: checkToRemit, NewVertex", "graph/stream.go: RawEdgeEvent"]}
{"id": "C53", "title": "TimeRange edges are ended, not removed", "statement": "With TimeRange enabled, a deletion gives exactly one not-yet-ended edge to its destination an end time (the oldest un-ended edge of the vertex if it goes there, else the first un-ended one with the same start time); no edge is removed or reordered, ended edges never change, and the result does not depend on batching. (Fails for a deletion whose end time is 0.)", "quantifier": "for every stream of additions and deletions with non-zero end times and every partition into batches", "why_tests_cant": "all streams and batchings", "anchors": ["graph/stream-enact-events.go: EnactTopologyEvents lines 355-396"]}
{"id": "C54", "title": "Callbacks describe the edge list changes", "statement": "For each vertex, the sequence of OnEdgeAdd/OnEdgeDel calls of a batch describes exactly how its edge list goes from the old to the new state: each addition call starts at the old length, each deletion call gets the removed edges in list order and the remaining list, and nothing changes between calls.", "quantifier": "for every batch", "why_tests_cant": "all batches", "anchors": ["graph/stream-enact-events.go: EnactTopologyEvents"]}
{"id": "C55", "title": "PageRank masses are close to the exact ones", "statement": "The exact PageRank masses of a graph (those that balance with empty inboxes and no unabsorbed flow) are unique. Whenever every thread is quiet, and no inbox was ever at exactly the wake-up threshold EPSILON, the sum over all vertices of the difference between the mass held and the exact mass of the current graph is at most 2 N EPSILON, whatever the order of events, the schedule and the additions and deletions before.", "quantifier": "for every graph, every schedule of the threads, every stream of edge additions and deletions", "why_tests_cant": "all graphs and interleavings; a test compares with an oracle that has the same threshold", "anchors": ["cmd/lp-pagerank/pagerank.go: OnUpdateVertex, OnEdgeAdd, OnEdgeDel, MailMerge lines 40-175"]}
{"id": "C56", "title": "The pipeline delivers what the algorithms assume of edges", "statement": "At every moment, among the edges received for all vertices no two share destination and position, and positions at a destination are below the number of its additions; when event timestamps do not fall, each vertex has received its edges in the order of time, and positions at each destination are in the order of time.", "quantifier": "for every stream with at most 2^32 additions per destination, every number of threads, every schedule in which the Remitter was not answered 'closed' early", "why_tests_cant": "all streams and interleavings of emitter, threads and Remitter", "anchors": ["graph/stream.go: Remitter, Emitter", "graph/stream-check-topology.go", "cmd/lp-colouring, cmd/lp-temporal-paths: use of Pos"]}
{"id": "C57", "title": "From the file to the result", "statement": "When a file has been loaded and delivered to the end and an algorithm that got exactly the delivered edges is quiet: the graph it has is the graph of the file; connected components labels are the smallest ids of the file's components; colours of adjacent vertices differ and are at most the degree; distances are the lengths of shortest walks with the file's weights; temporal windows (timestamps not falling, no ends) cover exactly the times from which on a vertex is reachable over edges of increasing times.", "quantifier": "for every well-formed file, number of loaders and threads, schedules of loading, delivery and processing", "why_tests_cant": "all files and all interleavings of three concurrent stages", "anchors": ["graph/stream.go", "graph/stream-check-topology.go", "graph/run-async.go", "cmd/lp-cc", "cmd/lp-colouring", "cmd/lp-sssp", "cmd/lp-temporal-paths"]}
{"id": "C58", "title": "Coming to rest", "statement": "From every state that connected components or shortest paths can reach (a finite graph, edges still arriving, any interleaving so far), once no more events arrive a bounded number of rounds suffices after which nothing is queued or in progress and the labels or distances are right, where in a round every thread gets its turn at every kind of step at least once, in any order.", "quantifier": "for every reachable state, every graph, every number of threads, every fair continuation", "why_tests_cant": "liveness over all fair schedules", "anchors": ["graph/run-async.go", "cmd/lp-cc/cc.go", "cmd/lp-sssp/sssp.go"]}
{"id": "C59", "title": "PageRank comes to rest", "statement": "From every state PageRank can reach (edges added and removed, pending reactions included), once no more events arrive a bounded number of rounds suffices after which nothing is queued or in progress; then, if no inbox was ever at exactly the threshold, the masses are within 2 N EPSILON of the PageRank of the graph in total.", "quantifier": "for every reachable state, every graph, every number of threads, every fair continuation", "why_tests_cant": "liveness over all fair schedules, real-valued state", "anchors": ["graph/run-async.go", "cmd/lp-pagerank/pagerank.go"]}
{"id": "C60", "title": "When the loops have ended, the result is there", "statement": "When every thread has left its loop (which is what the program waits for), no notification is in any queue, batch or thread, EnsureCompleteness does not panic, and components, distances and ranks are those of the final graph. If a thread leaves while something is left (possible, see C30), the threads never all leave.", "quantifier": "all numbers of threads, algorithms, graphs, batches of topology events and schedules of every atomic step of the loops, the checks and the algorithm", "why_tests_cant": "The answer depends on how the termination check, the queues and the algorithm interleave; a test sees one interleaving, and a hang looks like a slow run.", "anchors": ["graph/run-async.go:109-270", "graph/run-dynamic.go:161-292", "graph/termination.go:31-130"]}
{"id": "C61", "title": "The program ends", "statement": "Once no more topology events come, there is a number of rounds (each giving every thread every kind of step) after which every thread has left its loop, for connected components, shortest paths and PageRank, and then the result is that of the final graph. In the code as it is this needs that no vote is read between the two writes of CheckTermination lines 44-45 (otherwise it may hang, C60); with the two writes exchanged it holds on every fair schedule.", "quantifier": "all numbers of threads, graphs, runs up to the end of the stream, and fair continuations of them", "why_tests_cant": "Termination on every fair interleaving cannot be observed by running some of them, and a test cannot tell a hang from a slow run.", "anchors": ["graph/termination.go:31-108", "graph/run-async.go:109-243", "graph/run-dynamic.go:161-292"]}
{"id": "C62", "title": "A query sees the converged result of exactly the events before it", "statement": "While topology events are streamed and processed, and a query interrupts the stream (by event count or by timestamp): when the query looks at the graph, the algorithm has nothing left to do, no message is in flight, no thread does anything until the query is over, and the graph is that of exactly the events remitted before the query; so it sees connected components, shortest paths and (within the tolerance) ranks of that graph. Every query that is due is looked at once, in order; and after the last resumption the end result is that of the whole stream. (Fails in one respect, proved as refutation: for undirected graphs a query by timestamp always sees the last edge in one direction only, and connected components may then be wrong.)", "quantifier": "all numbers of threads, event streams, query points, and interleavings of Remitter, query goroutine and threads", "why_tests_cant": "The query must find quiescence among concurrent threads, commands, and event queues; a test sees only a few of the interleavings of EPOCH commands with messages.", "anchors": ["graph/stream.go:88-160", "graph/queries.go:47-144", "graph/graph.go:196-214", "graph/run-dynamic.go:98-125,161-292", "graph/termination.go:31-130"]}
{"id": "C63", "title": "The programs' own checks accept right results, and what they tell", "statement": "OnCheckCorrectness of connected components, shortest paths (both variants), colouring and triangle counting accepts every result that the algorithm can come to rest with; and the comparison with an oracle graph finds no difference. Conversely, accepted labels are constant on components, accepted distances are at most those of every path, accepted colourings of undirected graphs are proper. (Fails at the edges, proved as refutations: the raw id 2^32-1 and several sources make right results be rejected, a single vertex makes the comparison panic, and wrong labels or distances can be accepted.)", "quantifier": "all graphs, schedules and numbers of threads that lead to rest; all value assignments for the converse", "why_tests_cant": "A check that runs inside tests cannot itself be tested for accepting all right results, nor shown to reject all wrong ones.", "anchors": ["cmd/lp-cc/main.go:11-37", "cmd/lp-sssp/main.go:14-73", "cmd/lp-sssp/sssp-msg.go:92-150", "cmd/lp-colouring/main.go:37-77", "cmd/lp-tc/main.go:11-34", "graph/oracle-compare.go:183-201"]}
{"id": "C64", "title": "The checks of temporal paths accept right results", "statement": "When temporal paths has come to rest, its correctness check accepts the windows, for every graph, also with edges that end when they begin. Acceptance means that no time lies in two windows of a vertex and no window of a target lies strictly later inside what an edge provides. It does not mean that windows are complete: the check accepts that nothing but the source is ever reached. The comparison with an oracle accepts exactly equal windows.", "quantifier": "all graphs, streams, schedules, numbers of threads", "why_tests_cant": "A run of the checker on samples cannot show that it never rejects a right result, nor which wrong results it lets pass.", "anchors": ["cmd/lp-temporal-paths/correctness.go:14-156", "cmd/lp-temporal-paths/temporal-paths.go:120-267"]}
{"id": "C65", "title": "Super-steps run alone and end the run together", "statement": "With super-steps (an algorithm that has OnSuperStepConverged), on every schedule: while OnSuperStepConverged runs, it is run by thread 0 alone, every other thread sleeps in the barrier, no thread has anything left to do, and the only messages in the queues are those this very call has sent. If it sends anything, the termination check starts over (its first check after the reset cannot succeed). If it sends nothing, the check that follows succeeds for all threads: once one thread has left, nothing is in flight, no thread ever goes back to its loop, and all leave after a fixed number of fair rounds. As long as a thread has not left, some thread can go on. (Fails for the barrier taken by itself: it does not keep rounds apart, since a fast thread can take the resume token of a slow one, which then sleeps through a super-step; proved: even then all threads are in it when thread 0 is alone.)", "quantifier": "all numbers of threads, all schedules of atomic steps, all numbers and targets of messages sent by OnSuperStepConverged, all initial messages", "why_tests_cant": "The interleavings of a barrier, a reset of shared counters and a voting protocol are unbounded; a lost or stolen token or a check that runs before the reset is complete shows up only under rare timing.", "anchors": ["graph/superstep.go:8-37", "graph/termination.go:31-109", "graph/run-async.go:207-243", "graph/run-dynamic.go:285-287"]}
{"id": "C66", "title": "The edge list tool keeps and sorts the lines", "statement": "lp-edgelist-tools: on every schedule of its goroutines, loading ends and yields every line of the file that is not a comment exactly once, and counts the lines right; lines with equal number modulo the thread count stay in file order. Sorting gives a permutation sorted by the timestamp field, equal timestamps in their old order. (Fails: with more than one thread loading does not keep the file's order, so that sorting is not stable with respect to the file; timestamps are compared as strings, so 10 comes before 9; a line with more than five fields panics; zero threads panic; and the output file is opened for reading, so that nothing is ever written. Proved: the exact result of loading, file order with one thread, byte order in general and numeric order for timestamps of one length.)", "quantifier": "all files, thread counts, channel capacities, schedules; all lists of lines", "why_tests_cant": "A test sees one schedule and small inputs; the tool has no tests at all.", "anchors": ["cmd/lp-edgelist-tools/main.go:19-155", "utils/io.go:25-31,64-91"]}
{"id": "C67", "title": "The colouring comes to rest", "statement": "From every state that the engine can reach with the colouring, whatever edges were added and deleted before and in whatever interleaving, a bounded number of rounds (in each of which every thread gets to act) makes all threads idle; the colouring is then proper, and the whole program with termination detection ends. The same holds for the version with wait counts, which ends in the greedy colouring. (Fails for the first version on graphs with a self-loop: on a fair schedule two vertices can exchange colours forever. Proved for graphs without self-loops, and with wait counts for all undirected multigraphs.)", "quantifier": "all graphs, thread counts, schedules, reachable states; all numbers of later rounds beyond a bound", "why_tests_cant": "Livelock depends on the schedule; a test sees a few schedules and cannot see that all of them end.", "anchors": ["cmd/lp-colouring/colouring.go: MailMerge, MailRetrieve, OnUpdateVertex, OnEdgeAdd", "graph/run-async.go", "graph/termination.go:31-108"]}
{"id": "C68", "title": "Temporal paths come to rest", "statement": "From every state that the engine can reach with the temporal path algorithm, whatever edges were added and ended before and in whatever interleaving, a bounded number of rounds (in each of which every thread gets to act) makes all threads idle, although windows may shrink and grow again and the graph may contain cycles; the windows of every vertex are then the times at which something from the source can be there, and the whole program with termination detection ends.", "quantifier": "all finite graphs, event streams as in C45, thread counts, schedules, reachable states; all numbers of later rounds beyond a bound", "why_tests_cant": "Livelock depends on the schedule and on cycles in the graph; a test sees a few schedules and cannot see that all of them end.", "anchors": ["cmd/lp-temporal-paths/temporal-paths.go", "graph/run-async.go", "graph/termination.go:31-108"]}
{"id": "C69", "title": "Triangle counting comes to rest", "statement": "Triangle counting on a stream of edges, on the engine with active notifications: whatever has happened before, a bounded number of rounds (in each of which every thread gets to run, to take a notification, to receive an edge and to add a batch of edges at each vertex, in any order) makes every edge arrive and all threads idle, and the counters then add up to the number of triangles. On a static graph whose vertices have been notified the same holds for running and taking alone.", "quantifier": "all streams, thread counts, placements, schedules, batch sizes, reachable states; all numbers of later rounds beyond a bound", "why_tests_cant": "A test cannot see that all schedules end, nor that the count is right whenever they do.", "anchors": ["cmd/lp-tc/tc.go:61-136", "graph/run-async.go:71-83,152-172", "graph/stream-enact-events.go"]}
{"id": "C70", "title": "The triangle counting program ends with the exact count", "statement": "For every machine that works thread by thread (each thread has its own instructions and queue, and only sends into others' queues), when all threads have left the loops of run-async.go or run-dynamic.go nothing is queued or pending, EnsureCompleteness does not panic, and no later step changes anything. If the machine's own work always winds down, then once no more topology events come every fair schedule makes all threads leave (without a vote read between the two writes of termination.go:44-45). For triangle counting, streamed or loaded first, the number of triangles is then exact.", "quantifier": "all lawful machines with active notifications; all raw identifiers below 2^31-1, owners, edge lists, numbers of threads and schedules of the loops, of the termination check and of the algorithm, with edges arriving at any time", "why_tests_cant": "A run of the program shows one interleaving of the message loops with the termination check; leaving too early with a message in flight needs a rare one.", "anchors": ["graph/run-async.go:109-243", "graph/run-dynamic.go:161-292", "graph/termination.go:31-130", "graph/algorithm.go:85-91", "cmd/lp-tc/tc.go"]}
{"id": "C71", "title": "Message-passing shortest paths come to rest and the program ends", "statement": "For the message-passing variant of shortest paths (active notifications, no mailboxes) from every state that any schedule reaches, after a number of fair rounds nothing is left to do. Run by the loops of run-async.go or run-dynamic.go, once no more topology events come every fair schedule makes all threads leave (without a vote read between the two writes of termination.go:44-45), and the values are then the least sums over the walks from the sources: with exact sums on a grid, the shortest path lengths.", "quantifier": "all graphs among N vertices with non-negative weights, sources, owners, numbers of threads, changes arriving at any time, and fair schedules; values in any set closed under the rounded additions on which the order is well-founded (finitely many values, or multiples of 1/q)", "why_tests_cant": "Every notification is sent anew, so a defect in the WillUpdate flag shows as endless traffic or as a missed update only under particular orders of arrival.", "anchors": ["cmd/lp-sssp/sssp-msg.go:13-87", "graph/algorithm.go:85-91", "graph/run-async.go:109-243", "graph/run-dynamic.go:161-292", "graph/termination.go:31-130"]}
{"id": "C72", "title": "Queues of limited size", "statement": "A thread whose target's notification queue is full waits inside the send and does nothing else. If every queue has room for as many notifications as the thread has vertices, no send ever waits and every run is a run with unlimited queues, so the programs with unique notifications end with the right result. With less room the program may hang for ever: for every queue size there is a graph and a run that reaches a state from which no schedule leads to the end. (The unconditional claim 'the program ends' is refuted.)", "quantifier": "all machines that obey the laws of the loops (first part), all mailbox algorithms that send along edges, all graphs, schedules, numbers of threads; all queue sizes (hang)", "why_tests_cant": "The hang needs a vertex with more neighbours than the queue has places (half a million and more), or threads that fill each other's queues at the same time", "anchors": ["graph/algorithm.go:57-91", "graph/graph.go:126-142", "graph/run-async.go:109-148", "utils/ring-buffer.go:342-365"]}
{"id": "C73", "title": "A query that does not wait sees a consistent graph, and does no harm", "statement": "With NoConvergeForQuery a query stops the threads with BLOCK_ALL, or only their topology with BLOCK_TOP, and looks without waiting for the algorithm. While it looks the graph does not change (with BLOCK_ALL nothing changes at all); no event is half applied; the part of the graph of every thread is that of the first so many events of the stream. Distances seen are lengths of real paths of the graph of that moment. Clearing the termination state meanwhile changes nothing, the threads get no command that makes them panic, every query that is due is looked at once, in order, and when all threads have left, the result is that of the whole stream with nothing left to do. (Fails in two respects, proved as refutations: the graph seen need not be that of any number of first events, as threads may be behind by different amounts; and an algorithm with OnFinish, as PageRank, reads the properties only after the threads were let go, so that what it reads need not be the state of any one moment, also with BLOCK_ALL.)", "quantifier": "all numbers of threads, algorithms, event streams, query points, and interleavings of Remitter, query goroutine, finishing goroutine and threads", "why_tests_cant": "The view depends on how commands, answers, topology queues and the finishing goroutine interleave; a test sees a few interleavings and cannot tell a torn view from a late one.", "anchors": ["graph/queries.go:26-168", "graph/run-dynamic.go:98-125,161-292", "graph/stream.go:88-160", "graph/termination.go:103-109", "cmd/lp-pagerank/pagerank.go:185-230"]}
{"id": "C74", "title": "Comparing with an oracle in the middle of a run does no harm", "statement": "When a query compares the graph with a solution computed anew (CompareToOracle with finishOriginal: the properties of all vertices are saved, OnFinish overwrites them in place with anything, then they are put back), the run goes on exactly as without the comparison, for every schedule, when the threads wait: with EPOCH the whole state is that of a run without it; with BLOCK_ALL the state but for what the finishing goroutine reads; so it ends with the right result. (Fails when the threads do not wait, as in PageRank's own settings with BLOCK_TOP: what they take in meanwhile is lost and the result at the end is wrong; proved by a run. Fails for the entry of the query itself: the finishing goroutine may read properties that are finished already and finish them again, which gave a negative rank; proved by a run.)", "quantifier": "all algorithms, numbers of threads, streams, query points, schedules, and all writes of OnFinish", "why_tests_cant": "The comparison runs in another goroutine than the threads and the finishing goroutine; tests would have to hit the moment between saving and putting back.", "anchors": ["graph/oracle-compare.go:107-141", "graph/queries.go:94-133", "cmd/lp-pagerank/main.go:19-21", "cmd/lp-pagerank/pagerank.go:185-226"]}
{"id": "C75", "title": "Every query is answered and the program with queries ends", "statement": "Whatever a run of the program with EPOCH queries has done so far (any schedule of the Remitter, of the logging goroutine and of the threads, with any initial messages sent), if from then on everybody keeps getting their turn (fair rounds) and no more initial messages are sent, then the program comes to its end: the stream is read to its end, every query that was due has looked at the graph exactly once and in order, all threads have left their loops, nothing is left to do for the algorithm and the graph is that of all events. This needs that the algorithm has finitely many steps left on every graph that can come up (shown for components, shortest paths on a grid of weights, and PageRank), and, for the code as it is, that no thread reads a vote between the two writes of termination.go:44-45; with these two writes exchanged it holds without that condition.", "quantifier": "for all algorithms of the engine with the finiteness condition, all numbers of threads, all assignments of vertices to threads, all event streams, all choices of when to query, all finite schedules before and all infinite sequences of fair rounds after", "why_tests_cant": "A test runs for a bounded time on the schedules that the Go runtime happens to produce; it can see that a run ended but not that every fair run does, and a missed wakeup or a deadlock between the Remitter, the logging goroutine and the threads needs a particular interleaving.", "anchors": ["graph/run-dynamic.go:85-260", "graph/queries.go:47-144", "graph/stream.go:84-148", "graph/termination.go:8-125"]}
{"id": "C76", "title": "A time-series entry counts exactly the vertices that exist at the query", "statement": "A query after the k-th event reports (RealVertexCount, EntryAll) exactly the vertices occurring in the first k events, by comparing each vertex's CreateEvent with the query's AtEventIndex. (Fails in directed graphs: a vertex that has only been a source so far is left out if its thread has already looked at a later event into it; proved: nothing is reported that does not occur, and each vertex once; what is left out is always such a vertex; exact in undirected graphs between pairs of events and after the last event; the same test in PageRank's OnFinish is exact for vertices without outgoing events.)", "quantifier": "every event list, number of threads, schedule of emitter, remitter and graph threads, and query point", "why_tests_cant": "Whether a vertex is left out depends on how far the destination's thread has run ahead of the remitter at the moment of the query.", "anchors": ["cmd/lp-colouring/timeseries.go:66-78", "graph/stream-enact-events.go:15-37, 96-98, 217-227", "graph/queries.go:94-99", "cmd/lp-pagerank/pagerank.go:216"]}
{"id": "C77", "title": "Tables of time series show the right values", "statement": "The table of PageRank's time series has one column per vertex that is ever among the top ten and shows in each row that entry's value of it; the derivative table shows the change per day between the neighbouring entries; colouring's comparison counts the vertices with the same and with different colours in consecutive entries. (Fails for a graph with fewer than ten vertices: the unused places of the entry are taken for vertex 0, whose value is overwritten by 0 and not shown; proved: exact with ten or more vertices, and for all other vertices of smaller graphs.)", "quantifier": "every list of entries, masses, times and colourings", "why_tests_cant": "A table is inspected by eye at best; the overwritten cell needs a graph with a vertex 0 and fewer than ten vertices.", "anchors": ["cmd/lp-pagerank/timeseries.go:46-73, 97-200", "cmd/lp-colouring/timeseries.go:150-192", "utils/sorting.go:67-96"]}
{"id": "C78", "title": "Statistics about temporal paths are those of the whole graph", "statement": "The numbers of FunStatistics (vertices that can be visited, could be visited at some time, exist, are active; largest number of windows) are those of the vertices that exist at the query, whatever thread they are on; the percentages are at most 100; for every window index the reported starts, their maximum and minimum are those of the windows with that index. (Fails for the percentage of active vertices, which can exceed 100, and for the minimum after the first index, which is kept from earlier ones; proved: all the rest, and what is reported instead.)", "quantifier": "All numbers of threads, all distributions of vertices, all windows and end times, all queries.", "why_tests_cant": "A test sees one graph; that the percentage of active vertices exceeds 100 needs visitable vertices without outgoing edges.", "anchors": ["cmd/lp-temporal-paths/timeseries.go:100-253", "utils/helpers.go:52-80"]}
{"id": "C79", "title": "The stream is not faster than the target rate", "statement": "With a target rate set, the number of events sent never exceeds rate times elapsed time by more than one, whatever time the events take and however much longer a sleep takes than asked. (Fails for targets below 100 events per second: the sleep is computed in nanoseconds instead of seconds, so that the minimum of 10 ms counts, and up to 100 per second are sent; proved: targets of at least 100 per second are kept, below that the bound is 100 per second and is reached, and with the right unit every target is kept.)", "quantifier": "All rational rates, all streams, all times of events and of sleeps.", "why_tests_cant": "A test at a high rate passes; at a low rate the excess depends on clock readings.", "anchors": ["graph/stream.go:24,92,134-145"]}
{"id": "C80", "title": "The printed time series has every query's entry", "statement": "The table printed at the end has one entry per query, in order, each made from the view of the graph of its own query, although with OnFinish entries are finished by another goroutine while the next query may already be looking. (Fails for the last entry of an algorithm with OnFinish: nothing waits for the finishing goroutine, so the table may be printed before; proved by a run. All other entries are there; without OnFinish all are; the two alternating views are enough, one would not be.)", "quantifier": "All numbers of queries, all interleavings of Remitter, query goroutine, finishing goroutine and main.", "why_tests_cant": "The last entry is missing only when finishing takes longer than the end of the run.", "anchors": ["graph/queries.go:26-164", "graph/graph.go:208-214", "graph/algorithm.go:203-213", "cmd/lp-pagerank/main.go:42-44"]}
{"id": "C81", "title": "Colouring by messages", "statement": "The message-passing variant of graph colouring (lp-colouring -msg, static graphs) never panics; when nothing is left to do every vertex is coloured, neighbours have different colours and no colour exceeds the degree; it ends; with -w every vertex is coloured exactly once and the result is the greedy colouring in priority order, whatever the schedule. (Fails: on a graph with a self-loop it never ends; without -w the result depends on the schedule; proved otherwise.)", "quantifier": "for all graphs given by lists of undirected edges with degrees below 2^32-2, with and without -w, all assignments of vertices to threads, all schedules (sequentially consistent steps: counting, putting, taking, handling), initial notes sent by any thread at any time", "why_tests_cant": "The schedules in which messages of several neighbours cross are rare; a recolouring that is lost, or a vertex that stays without a colour, shows up only on particular interleavings; the algorithm's OnCheckCorrectness is an empty TODO, so no test checks anything", "anchors": ["cmd/lp-colouring/colouring-msg.go:17-141 (ColouringMsg)", "graph/algorithm.go:85-91 (ActiveNotification)", "graph/run-async.go:54-68,152-172 (initial notes, ProcessMessages)", "graph/stream.go:188-226 (undirected events)", "graph/stream-enact-events.go:101-113 (Pos)"]}
{"id": "C82", "title": "The statistics printed about the graph are right", "statement": "When the goroutines of ComputeGraphStats have returned, in whatever order they ran, the numbers of vertices, edges and sinks, the largest raw id, and the largest and the middle out-degree are those of the graph; without deletions, and with TimeRange, so are the number of heads and the largest and the middle in-degree, and after fewer than 2^32 deletions nothing is printed about in-degrees. InEdgesStats prints the right largest in-degree. CheckGraphStructureEquality passes exactly if both graphs have the same ids and every id the same out-degree. (Fails in three points; proved: with 2^32 deletions the count of deletions wraps to 0 and the numbers of edges ever added are printed as in-degrees; the median of InEdgesStats leaves out the vertices without in-edges; two different graphs can pass the structure check.)", "quantifier": "all graphs with fewer than 2^32 vertices and edges, all distributions over threads, all interleavings, all map orders", "why_tests_cant": "The numbers are only printed, no test reads them, and the interleaving of the goroutines is not controlled", "anchors": ["graph/graph.go:257-345", "graph/graph.go:398-419", "graph/graph-vertex.go:164-209", "utils/helpers.go:66-117"]}
{"id": "C83", "title": "Lines with too few words", "statement": "On a file whose edge lines have at most five words (possibly fewer than matter), with any number of loaders and every schedule, the events handed on are, in file order, those of the lines filled up with words of the same loader's earlier lines; if all lines have the words that matter these are the events of the file. (That the edges are those of the file, and do not depend on the number of loaders, fails for short lines; proved: \"1 2\", \"3 4\", \"5\" gives 5 -> 4 with one loader and 5 -> 2 with two; a line holding only a carriage return or blank repeats the edge before it, or makes the edge 0 -> 0.)", "quantifier": "all files with lines of at most five words, all numbers of loaders, all schedules", "why_tests_cant": "Tests use well-formed files; a malformed line makes no error message, and the outcome depends on the number of load threads", "anchors": ["graph/stream.go:247-303", "utils/io.go:62-92", "graph/stream-parse.go:75-81"]}
{"id": "C84", "title": "Command line flags mean what they say", "statement": "For every choice of the flags with numbers in their ranges and not both the sync and the dynamic mode, the options and sizes set up from them are those asked for: min(32, t) threads, tg loaders, queues with a power of two of places that is at least 2^14 * 2^m * (32 / threads) and less than twice that, the positions, the modes, the interval of the time series, the window. Whatever the numbers, the two modes never come together, there are 1 to 32 threads and 1 to 255 loaders. The name of the graph in the names of the result files is the base name of the file. (Fails for negative numbers: -dt -1 switches the time series on without the dynamic mode, -w -1 lets edges expire before they are added, -m -1 makes queues without places; numbers too large for their type wrap: 256 loaders are one; and names with two dots lose all but one part, so that different graphs share a result file; each proved.)", "quantifier": "all integers for the numeric flags, all rationals for the rate, all booleans; all file names", "why_tests_cant": "The flags have 2^64 values each and interact; the failing ones are never given in tests, and the errors are silent conversions", "anchors": ["graph/graph-options.go:47-176 FlagsToOptions", "graph/graph.go:111-153 Init", "graph/graph.go:360-366 WriteVertexProps", "graph/graph.go:383-394 PathlessName", "utils/ring-buffer.go:204-213 Init"]}
{"id": "C85", "title": "Queries that do not wait are all answered, and the program ends", "statement": "Whatever a run of the program with queries that do not wait for the algorithm (BLOCK_ALL or BLOCK_TOP, with or without OnFinish) has done so far, if from then on everybody keeps getting their turn (fair rounds, in which the finishing goroutine too gets its turn at every vertex) and no more initial messages are sent, then the program comes to its end: the stream is read to its end, every query that was due has looked exactly once and in order, the finishing goroutine has read all that it was to read, no thread is left blocked or waiting for RESUME, all threads have left their loops, nothing is left to do for the algorithm and the graph is that of all events; components and distances are then the right ones. The algorithm must have finitely many steps left on every graph that can come up (shown for components, shortest paths on a grid of weights, and PageRank), and, for the code as it is, no thread reads a vote between the two writes of termination.go:44-45.", "quantifier": "for all algorithms of the engine with the finiteness condition, both blocking commands, all sets of vertices to be read, all numbers of threads, all assignments of vertices to threads, all event streams, all choices of when to query, all finite schedules before and all infinite sequences of fair rounds after", "why_tests_cant": "A test sees that some runs end, not that every fair run does; a thread that stays blocked because RESUME and the end of the stream cross, or a logging goroutine that waits for a slow OnFinish while the Remitter waits for it, needs a particular interleaving.", "anchors": ["graph/run-dynamic.go:85-292", "graph/queries.go:26-168", "graph/stream.go:84-160", "graph/termination.go:8-125", "cmd/lp-pagerank/pagerank.go:185-230"]}
{"id": "C86", "title": "The graph for the oracle is a fresh start on the same graph", "statement": "The graph that CompareToOracle makes has the same vertices, edges, ids and counters as the original; its properties are as new up to what CopyForOracle takes over; its mailboxes are as new and inactive; making it changes nothing in the original. Whatever is then written to vertices, properties and mailboxes of one of the two graphs cannot be seen through the other. (Fails for elements of edge arrays: they are shared, as the TODO in the code says; proved C86_edges_shared, C86_edges_refuted.) The property buckets of the views used for queries are never shared with the graph or between the two views, and there is one for every vertex.", "quantifier": "all heaps, numbers of threads, vertices and buckets, all writes in any order; all sequences of growth and queries", "why_tests_cant": "Tests run the comparison on small graphs; a shared bucket would show only as a wrong value in a later run, and only if both sides write it.", "anchors": ["graph/oracle-compare.go:43-82", "graph/graph-vertex.go:211-254", "graph/queries.go:38-43", "graph/queries.go:102-110"]}
{"id": "C87", "title": "A query sees exactly the additions and deletions before it", "statement": "In a graph that is changed by a stream which adds and deletes edges, whenever a query looks at the graph (or the program ends) the algorithm has nothing left to do, the first events of the stream (those remitted before the query) never delete an edge that is not there, and every vertex has, per destination, exactly the number of out-edges that these events leave, all of them edges added by these events and in their order; nobody else can change anything while the query looks; every query that is due is looked at once and in order; PageRank values are as near to the ranks of that graph as C55 says and the colouring of that graph is proper. If the stream never deletes an edge that is not there, no deletion panics, however it is cut into batches. (That the oldest of parallel edges is the one deleted fails: it depends on how the stream is cut into batches; proved by witness.)", "quantifier": "all algorithms, streams of additions and deletions, places of queries, thread counts, owners, schedules, batch boundaries", "why_tests_cant": "which interleaving of deletions, batches and commands occurs cannot be forced by a test", "anchors": ["graph/stream-enact-events.go:210-400", "graph/run-dynamic.go:161-292", "graph/stream.go:88-160", "graph/queries.go:47-144"]}
{"id": "C88", "title": "Queries on streams with deletions are all answered and the program ends", "statement": "If the stream never deletes an edge that is not there, then from any state that any schedule has led to, fair rounds (everybody gets a turn at everything they may have to do, in any order and with anything else in between) bring the program to its end: the stream read to its end, every due query looked at once and in order, all threads out of their loops, nothing left for the algorithm, and per vertex and destination the number of edges that the stream leaves. For PageRank the final ranks are as near to the exact ones as C55 says; for the colouring (no self-loops) the final colouring is proper if what is left is undirected.", "quantifier": "all algorithms that come to rest without new events, streams of additions and deletions, places of queries, thread counts, owners, schedules, fair continuations", "why_tests_cant": "a test that ends shows one schedule; that no schedule can leave a query or a deletion hanging needs all of them", "anchors": ["graph/stream-enact-events.go:210-400", "graph/run-dynamic.go:161-292", "graph/stream.go:88-160", "graph/queries.go:47-144", "graph/termination.go:27-113"]}
{"id": "C89", "title": "Static runs: loading first, then the algorithm", "statement": "A run without -d loads the stream with an algorithm that does nothing, then sends initial mail, then runs. Loading ends under every fair continuation (stream deletes only what is there) and hands over exactly the graph the stream leaves, with untouched mailboxes and properties, nobody notified and nothing queued, whatever the batches and schedules; so the algorithm starts as on a graph given at once, and connected components get their smallest labels and PageRank comes as near to the exact ranks as C55 says. Initial mail is sent, however large the graph, without anybody reading the queues (fails: with a vertex whose label is the smallest among all that lead to it and that leads to more vertices of one thread than the queue has places, the initial mail is never all sent, on no schedule; the same for initial notes exactly if a thread has more than fit; with room for all vertices of each thread the limit makes no difference). A static run with a logged time series ends (fails: loading then never ends once a query falls due, since the logging goroutine is started after loading).", "quantifier": "all algorithms, streams, batches, thread counts, owners, queue sizes, schedules", "why_tests_cant": "tests load small graphs, which fit in the queues, and none logs a time series in a static run; absence of any schedule that gets through needs all schedules", "anchors": ["graph/algorithm.go:165-232", "graph/algorithm.go:277-306", "graph/run-async.go:14-107", "graph/run-dynamic.go:161-292"]}
{"id": "C90", "title": "Sliding windows in runs with several threads", "statement": "With a sliding window each thread makes a deletion for every edge it added once its last event is at least the window's length younger. At every query and at the end, whatever the batches and the schedule, the edges of a vertex are those younger than the window at the time of the last event of the vertex's thread; every deletion finds the edge it is for, which is the oldest of its vertex; all queries due are answered; PageRank is as near as C55 says for that graph. The graph is the window at the time of the last event of all (fails: if another thread had the last event, edges that are too old stay, exactly those between the two times; so with two threads an undirected stream leaves a graph that is not undirected and differs from the one left with one thread; exact with one thread, and at the vertices of the thread with the last event). Streams whose times go back are refused (fails: only if both events are in one batch and the batch ends before its latest time; a stream is never refused for any cut into batches exactly if its times never go back).", "quantifier": "all algorithms, streams, window lengths, batches, thread counts, owners, queries, schedules", "why_tests_cant": "which events a thread pulls at once and how far it is at a query depend on the schedule; tests use one thread or no window", "anchors": ["graph/stream-enact-events.go:120-185", "graph/stream-enact-events.go:210-231", "graph/run-dynamic.go:140-330", "graph/queries.go:60-150"]}
{"id": "C91", "title": "Sliding windows: every query is answered and the program ends", "statement": "With a sliding window, on streams whose times never go back, from wherever a schedule has led, every fair continuation answers all queries that fall due and ends: the stream is read to its end, every thread leaves its loop, nothing is left in queues or mailboxes, and the edges left at a vertex are those young at the time of the last event of its thread; this although each event pulled can bring a deletion for every edge that is waiting, deletions that a thread can only make when its own later events come. It holds for every algorithm whose work ends once the stream does; in particular for PageRank, which then is as near to the exact ranks of that graph as C55 says.", "quantifier": "all algorithms whose work ends, streams, window lengths, batches, thread counts, owners, queries, schedules that give every actor its turn", "why_tests_cant": "termination under all fair schedules cannot be observed by finitely many runs", "anchors": ["graph/stream-enact-events.go:120-185", "graph/run-dynamic.go:140-330", "graph/queries.go:60-150", "graph/termination.go:1-120"]}
{"id": "C92", "title": "Limited queues between file and graph threads never block for ever", "statement": "The queues between the line readers, the emitter, the graph threads' ToRemit stage and the Remitter have limited space and every producer waits when its queue is full. With every such queue of at least one place (ToRemitQueue two), any number of readers and threads, and whatever has happened so far, if every goroutine gets turns again and again, then all queues drain, all threads close, and ConvergeDynamic gets past its waiting for the input, doneRemit and doneEvents. At every moment the threads have received their events among the first lines of the file in its order; in the end, unless one of the two known races on closing (C20, C22) happens, all of them. No thread ever waits to send on doneRemit or doneEvents. Queues that do not grow never hold more than fits. While one thread does not take its events, at most as many as fit into its queue are handed on, so nobody gets later ones. (fails: a ToRemitQueue of one place passes nothing on, on any schedule, as EnqCheckRange counts one place less)", "quantifier": "all files, numbers of readers and threads, queue sizes, schedules, fair continuations", "why_tests_cant": "A test runs one schedule with the large default sizes, where no queue ever fills; a deadlock between five stages shows only on particular sizes and schedules.", "anchors": ["graph/stream.go:84-328", "graph/stream-enact-events.go:86-118", "graph/run-dynamic.go:161-270", "graph/run-dynamic.go:352-385", "utils/ring-buffer.go:37-179"]}
{"id": "C93", "title": "One thread's loop: batches, buffers, commands and answers", "statement": "Whatever a graph thread meets in its iterations (commands, events, notifications, closed queues, expired edges, answers of the termination check): it never indexes beyond its event buffer, which grows with the batch size; the events enacted are the next ones of the queue, a batch at most, in order, followed by the expired edges, and none while the topology is blocked; notifications are taken while there is room, kept when the loop starts again before the algorithm's turn, and handled once in order; it announces the end of its input and of its events exactly once each and leaves only after both; every command that asks for an answer is answered once; with BLOCK_ALG_IF_TOP no notification is handled before the end of the events. In the static loop exactly the three commands about the topology panic. (fails: TOP_SYNC sent to a thread whose events have ended is never answered)", "quantifier": "all sequences of iterations, batch and buffer sizes, options", "why_tests_cant": "The growth of the buffer needs more than a million edges per thread; lost or doubled answers show only for rare orders of commands and events.", "anchors": ["graph/run-dynamic.go:99-350", "graph/run-async.go:109-240", "graph/stream-enact-events.go:175-184", "graph/graph.go:26-36", "graph/graph.go:138"]}
{"id": "C94", "title": "Waiting gives up, and when", "statement": "BackOff panics when called with a count above 2000. A blocking queue operation ends at its first successful look if that is among the first 2002, and panics otherwise. A graph thread panics only after sleeping 200.5 s in all, and never with at most 2001 iterations without events and 20010 without notifications (static loop: 200099 without notifications). Without a time series, an iteration with events but less than a full batch sets the counters back. (fails: with a time series it does not, so a thread that gets an event in every second iteration panics after 2002 idle ones)", "quantifier": "all sequences of iterations, all sequences of looks", "why_tests_cant": "It takes minutes of waiting on a slow stream; the tests run on small files.", "anchors": ["utils/helpers.go:19-28", "utils/ring-buffer.go:114-130", "utils/ring-buffer.go:166-179", "utils/ring-buffer.go:274-285", "utils/ring-buffer.go:481-496", "graph/run-dynamic.go:236-258", "graph/run-dynamic.go:308-338", "graph/run-async.go:215-226"]}
{"id": "C95", "title": "Printed summaries: index order, thread states, colour distribution", "statement": "SortGiveIndexes gives each index once, ordered by key, equal keys by index, and this list is unique. The status line names exactly the states some thread is in, each once, with the right number, most frequent first, and is never out of range. The colour distribution counts every colour, adds up to all vertices, has the right maximum and is never out of range. The printed number of colours is the number of colours in use. (fails: it is the largest colour plus one, so the printed ratio is always 1; it is right just if no smaller colour is missing)", "quantifier": "all inputs and strict weak orders, all lists of thread states, all colourings", "why_tests_cant": "tests call the summaries only for what they print and never compare the printed numbers", "anchors": ["utils/sorting.go:11-62", "graph/run-dynamic.go:56-75", "graph/graph.go:216-228", "cmd/lp-colouring/main.go:18-35", "cmd/lp-colouring/colouring-msg.go:156-173"]}
{"id": "C96", "title": "Queue counters that wrap at 2^64", "statement": "With 64-bit counters the multi-producer queue (puts and all consumer calls) behaves like the queue with unbounded counters for any number of items, so items come out in ticket order, none lost, none twice. With offers it does so too, for any number of items. (fails: up to 2^64 - size - 1 tickets it is right, but an offer that stands still before its compare-and-swap while exactly 2^64 items go by overwrites an item that has not been taken, even if the queue is full) The single-producer queue does so for any number of items. (fails: it compares counters with < and <=; up to 2^64 - size items it is right, after one more an empty queue refuses an offer, a put waits for ever, although EnqCheckRange reports free places)", "quantifier": "all sizes 2..2^63, all programs and schedules, any number of items", "why_tests_cant": "2^64 items cannot be put in a test", "anchors": ["utils/ring-buffer.go:16-179", "utils/ring-buffer.go:185-365"]}
{"id": "C97", "title": "Single-producer calls of the multi-producer queue", "statement": "OfferSP writes the element before it advances enqueue, and neither step is atomic. With one producer and one consumer every run of OfferSP, PutFastSP, PutSlowSP and Close has the events of a run of the multi-producer calls: items come out in order, none lost, none twice, calls are answered in order. An offer is refused only when all places are taken.", "quantifier": "all sizes 2..2^63, all programs, all interleavings", "why_tests_cant": "the window between the two unprotected steps is a few nanoseconds", "anchors": ["utils/ring-buffer.go:247-285"]}
