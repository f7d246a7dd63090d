# Formal model of lollipop: design

Subject: the Go sources under `/repo` (ScottSallinen/lollipop at the pinned commit), read as
text.  The code is never built or run.  The model and the proofs are in Rocq/Coq 8.16.1, under
`rocq/theories`.

## Layout

An area `X` has these files:

* `X_Spec.v`: the words used in the theorem statements; it does not import the model;
* `X_Model.v`: definitions that follow the Go functions, each with a comment giving file and
  lines and the simplifications made;
* `X_Proofs.v` and further `X_*.v`: lemmas;
* `X_Props.v`: the property theorems (names start with the property's id), a concrete case beside
  them (`Example Cnn_case`, computed by `vm_compute`), and `Print Assumptions`.

`Base.v` and `QcUtil.v` hold general lemmas.  `Ring_Spec.v` is shared by the three queues.
`properties.jsonl` has the statements in words, `MANIFEST.json` the theorem names,
`seeded/LOG.jsonl` the experiments with wrong programs.

## Trusted base

* The Coq 8.16.1 kernel, with `vm_compute` for concrete cases.
* The axioms that `Print Assumptions` lists (section "Axioms" below).
* That the definitions of the `*_Model.v` files say what the Go text says.  This is by reading; the
  comments give the lines.
* Memory is sequentially consistent.  For `sync/atomic` operations Go guarantees this.  Some code
  uses plain loads and stores that race with others (termination votes, the slice header read in
  colouring and temporal paths); for these it is an assumption, named in the file concerned.
* The Go library functions used: `container/heap` is modelled, `sort`, `strconv`, `sync.Mutex`,
  channels and maps are taken by their documentation.
* The hardware, the Go compiler and runtime.

## Conventions

* `uint32`/`uint64` values are `N` with `mod 2^32`/`2^64` where wrap-around can be observed.
  Counters that would need 2^61 or more events to wrap are unbounded, and the file says so.
* `float64` values are exact rationals (`Qc`), or an ordered type with a rounding function that is
  only assumed to be monotone.  Each property says which.
* Panics and indexing out of range are results (`None`), never undefined.
* Goroutines are state machines with one transition per access to shared memory (files say which
  accesses are merged and why).  A theorem quantifies over schedules: arbitrary lists of choices
  of thread and action.  A step that is not enabled does nothing.
* Where the code does not have the property as first written, the theorem `Cnn_..._refuted` gives a
  concrete run, and other theorems of the same property say exactly when it holds.

## What is modelled

| Go file | Model | Not modelled in it |
|---|---|---|
| utils/bitmap.go | Bitmap | |
| utils/helpers.go | Helpers, Helpers_RoundUp, Fun, Turn (BackOff) | Sum and printing helpers |
| utils/priority-queue.go | Heap | |
| utils/sorting.go | TopN, Summ (SortGiveIndexes) | sort.Stable for more than 20 elements: only its contract |
| utils/deque.go | Deque | |
| utils/io.go | IO | opening files, the CSV writer |
| utils/ring-buffer.go | SPSC, MPSC, OfferSP (single-producer calls), Grow, Wrap, WrapO and WrapS (64-bit counters) | Len of the MPSC queue |
| utils/stopwatch.go | Stopwatch | |
| utils/rbo.go | RBO | |
| utils/atomics.go | Atomics | |
| utils/logging.go | | all of it |
| graph/graph-vertex.go; graph/oracle-compare.go:43-82 | Vertex; Copy (copying for the oracle, buckets of query views) | |
| graph/graph-edge.go, stream-parse.go | IO, Load | strconv.ParseFloat; string raw ids |
| graph/stream.go | Load, Short, Remit, Flow (limited queues from file to threads), Rate (target rate) | logging |
| graph/stream-enact-events.go | Remit (checkToRemit), Enact, Inject, Vertex (NewVertex), Born (CreateEvent, AtEvent), QWin (sliding windows with several threads), QWLive (their end) | memory reuse of edge slices |
| graph/algorithm.go | Engine (UniqueNotification), Active (ActiveNotification), Full (EnsureSend with a full queue), Static (static runs: loading with blankAlg, then initial mail), Tail (the end of Launch) | profiling in Launch, the choice in LaunchGraphExecution |
| graph/run-async.go | Turn (loop, commands, back-off), Engine, Active, Recv, Term, Whole, Live, Loop, Static (SendInitialMail with limited queues) | static loading's time measurements |
| graph/run-sync.go | Sync | comparison with an oracle per round |
| graph/run-dynamic.go | Turn (the whole loop of a thread, all commands, batches, back-off), Remit (lines 174-184), Flow (doneRemit, doneEvents, waiting for the input), Recv, Term, Whole, Live, Loop, Query (EPOCH, RESUME, topology queue), QDel (the same with deletions), QLive and QDLive (fair rounds), Block (BLOCK_ALL, BLOCK_TOP), BLive (fair rounds) | printing of rates, status, time measurements |
| graph/queries.go, graph/graph.go:196-214, Remitter in graph/stream.go | Query (LogTimeSeries while waiting for convergence), Block (without convergence; QueryFinishConcurrent), Oracle (CompareToOracle within a query), Tail (the way into the printed table) | writing the table of results |
| graph/termination.go | Term, Whole (EnsureCompleteness) | printing |
| cmd/*/main.go, sssp-msg.go: OnCheckCorrectness; graph/oracle-compare.go:183-201 | Check | printing; inline comparison (BLOCK_ALL, TOP_SYNC); PageRank's check: see C41 |
| cmd/lp-temporal-paths/correctness.go | PathCheck | BasicTraversalMin (never called) |
| graph/superstep.go | SStep | what OnSuperStepConverged does to vertices |
| graph.go (statistics, structure check) | Stats | percentages, PrintStructure, PrintVertexProps |
| graph-options.go, graph.go (Init, PathlessName) | Opts | the flags that are passed on unchanged; pprof; the warnings |
| cmd/lp-cc, cmd/lp-sssp | Min, MsgMin, Rest_Min, Rest_Msg, MsgRest | |
| cmd/lp-colouring | Colour, Wait, Rest_Colour, Rest_Wait, ColourRest, Series, MCol (colouring-msg.go), Summ (colour distribution) | plotting and files of timeseries.go |
| cmd/lp-pagerank | Rank, Finish, Born, Series | plotting and files of timeseries.go, PPR and other variants behind constants |
| cmd/lp-tc | TC, Rest_TC, TCRest, Loop_TC | |
| cmd/lp-temporal-paths | Window, Path, Rest_Path, PathRest, Fun | table written by timeseries.go, oracle comparison |
| cmd/lp-edgelist-tools | Tool | the shuffle (a library call); bufio.Scanner's limit of 64 KiB per line (longer lines end the input unnoticed) |
| cmd/lp-template | | all of it (an empty example) |

The engine (`Engine_Model.v`, `Active_Model.v`) is generic: an algorithm is a record with its
property, mailbox cells, messages, edges, and the functions merge, take and react.  Sending,
notifications, activity counts, thread queues and graph changes are modelled once.  The algorithms
instantiate it, so C35-C40, C43 and C45 are statements about runs of the same engine that C31
and C32 are about.

Not modelled anywhere: logging, the reading of flags from the command line (package flag), file-system calls, CSV output, garbage
collection, memory layout, the wall clock (times are inputs).  The Go scheduler's fairness is a hypothesis where a theorem needs it
(C58 and later: every thread gets its turn in every round).

## Findings

Behaviour of the code that contradicts what its comments or its README suggest.  Each has a
theorem or an example.

1. `Bitmap.Grow(x)` does not make room for `x` when the bitmap has exactly `x/64` words (C02).
2. Queues (C11): a consumer of the single- or multi-producer queue that reads an empty slot and
   then sees "closed" may lose items that were put in between.  In the loader this loses the last
   line of a file (C20), in the remitter it produces a zero event (C22).
3. `RingBuffMPSC` of size 1 accepts more than it holds and loses items (C12).
4. `GrowableRingBuff`: if a put into the old buffer and a growth fall between the consumer's two
   looks, the consumer stays on the old buffer for ever (C13).
5. `Median` is not the median (C17); `ResultCompare` with unsigned values wraps on negative
   differences and panics on empty input (C49); `CalculateRBO` of empty rankings is NaN (C15);
   `FindTopNInArray` with count 0 panics (C06); `PriorityQueueSf.Insert` never indexes the
   inserted value (C48).
6. `Deque`: with PushFront the counter of spare blocks goes wrong, and the limit of five spare blocks
   is not kept (C50).
7. Empty lines in the input make the loader panic (C20).
8. Deletion (C26): with parallel edges the fast path does not delete the oldest copy, and the
   outcome depends on how events are cut into batches: `[a,x,a,y]` with deletions x, y, a.
   An event type other than ADD and DEL makes the loop run for ever.
9. `InjectExpired` (C29): the index of the expiry queue is wrong when the batch has DEL events: a mixed
   first batch panics, later ones postpone the wrong copy.  Timestamps out of order panic, so
   the branch that sorts is never reached.
10. A DEL with end time 0 on a TimeRange graph is counted, but the edge stays open (C53).
11. `InjectDeletesRetainFinalStructure` (C28): parallel edges with different properties are not
    retained under FIFO deletion; with chance 1 it does not end.
12. Termination (C30): the view (line 44) is published before the vote is withdrawn (line 45);
    a vote read in between allows a thread to answer yes while messages are in flight.  A schedule of
    two threads is exhibited.  With the two stores exchanged every schedule is sound.  The
    consequence is not a wrong answer but a hang: once a thread has left too early, the others
    never all leave (C60; shortest paths on a path of seven vertices).  Without such a read, and
    with the exchanged order always, the program ends on every fair schedule (C61).
13. Synchronous mode (C34) may leave a notification in a queue that nothing empties.
14. Colouring and temporal paths read the header of a slice that another thread may be growing
    (data race; taken as atomic in the model).
15. Connected components: the raw id 2^32-1 equals EMPTY_VAL; the labels are still right, but the
    checker would panic.
16. PageRank (C42): `MailMerge` reports a crossing of EPSILON with strict comparisons on both sides,
    so a mailbox that is filled to exactly EPSILON loses its wake-up.  This happens with a hub of 255
    out-edges, in float64 too.
17. PageRank `OnFinish` (C41): inbox residue is ignored; graphs where all or all but one vertex are sinks
    divide by zero; the checker's tolerance is smaller than the provable bound.
18. Triangle counting (C43): the raw id 2^31-1 with its flag bit is EMPTY, and its triangles are missed.
19. Temporal paths (C44): offers not ordered by start abort the program (10-20, 30-40, 25-26); a
    source that already has windows when its initial mail comes keeps stale ones; hop counts are not
    propagated when only they change, so they depend on the schedule (C45 does not claim them).
    Comparisons are strict on both sides, so an edge of time 0, such as the first of a file under
    logical time, leads nowhere even from the source (C57).
20. Queries (C62): an undirected edge is two events.  Asked by timestamp, the query always comes
    between the two halves, and sees the edge in one direction only; components may then have two labels.  Asked by
    count, an odd interval does the same.  The first target is the interval itself, so with
    timestamps in seconds since 1970 the first event is asked at.  `Remitter` multiplies its waiting
    time by one nanosecond instead of one second, so it always sleeps the minimum.
21. Checks (C63): the check for shortest paths rejects right results with several sources (a source
    may be nearer to another one), and that of components the raw id 2^32-1.  Both accept results
    that are too small, such as zero everywhere.  `OracleGenericCompareValues` panics on a graph with
    one vertex.
22. Temporal checks (C64): the check notices windows that start late but not windows that are missing.
    `BasicTraversalMin`, the independent traversal, is switched off by the constant
    EXTEND_TO_EDGE_END and never runs.

23. **The super-step barrier does not keep rounds apart** (graph/superstep.go:17-34). All tokens are alike: a thread that is freed and comes to the barrier again can take the resume token of a thread that still sleeps. In the program this does not happen, because a freed thread cannot get through the termination check before all have been freed (C65), but the barrier should not be reused elsewhere.

24. lp-edgelist-tools (C66): the output is opened with `utils.OpenFile`, which is `os.Open`: the tool panics if the
    output does not exist and fails at the first line if it does, so it never writes anything.  Timestamps are compared as
    strings.  With more than one thread equal timestamps do not keep the order of the file.

25. **The colouring can run for ever on a graph with a self-loop** (C67; cmd/lp-colouring/colouring.go:92-97). A colour sent along
    a self-loop is taken for the initial mail and always makes the vertex react again.  If two neighbours both read before
    either sends, they exchange colours 0 and 1 for ever, so the program never ends.  The loader keeps self-loops.

26. **A full notification queue can hang the program** (C72; graph/algorithm.go:57-71, graph/graph.go:126-142). A send to a
    full queue spins inside EnsureSend, and the thread drains nothing meanwhile (there is a TODO). A thread that fills its own queue,
    or two that fill each other's, wait for ever. For every queue size there is a graph with a run that hangs: a vertex with
    one neighbour more than there are places, with one thread. With unique notifications a queue that has room for all vertices of
    the thread is never full (`C72_vertices`); the default flag -m 8 gives that up to 2^27 vertices if they are spread evenly.
    With active notifications (triangle counting, message-passing shortest paths) no bound by the number of vertices holds. All
    claims other than C72 take queues to be unlimited; by C72 they hold as long as the queues have that room.

27. **A query on an algorithm with OnFinish reads a graph that is moving again** (C73; graph/queries.go:101-134, 151-168,
    cmd/lp-pagerank/pagerank.go:193-226). LogTimeSeries hands the view to QueryFinishConcurrent through a channel, and then sends RESUME
    without waiting. The properties are copied only by OnFinish, from the running graph, and the slices of the vertices are shared.
    So the values, and which vertices count as sinks, may be from different moments, also when BLOCK_ALL or EPOCH was used to
    get a consistent view (C73_copy_refuted; PageRank allows asynchronous properties on purpose).
28. **A query without convergence sees threads at different points of the stream** (C73; graph/queries.go:93-99). Events that the Remitter
    has passed on may still wait in the queue of a thread. The graph seen may have a later event and lack an earlier one
    (C73_prefix_refuted); AtEventIndex, the greatest over the threads, is then too great for the others.
29. **Comparing with the oracle during a PageRank run with a timeseries loses updates** (C74; graph/oracle-compare.go:107-141,
    graph/queries.go:123-129). PageRank sets AllowAsyncVertexProps and NoConvergeForQuery, so the threads process messages while
    CompareToOracle saves all properties, finishes the graph in place and puts the properties back. What was taken in meanwhile
    is lost, its mail is gone, and the ranks at the end are wrong (C74_async_refuted: 0.61 and 0.54 where both should be 1).
    With EPOCH or BLOCK_ALL the comparison leaves no trace (C74_epoch, C74_block).
30. **A query may be finished twice** (C74; graph/queries.go:94-133). The graph is handed to QueryFinishConcurrent before CompareToOracle
    finishes the same properties in place; the other goroutine may copy finished properties and finish them again
    (C74_finish_twice_refuted: a negative rank). This also holds with EPOCH and BLOCK_ALL.
31. **A vertex with edges may be missing from a time-series entry** (C76; graph/stream-enact-events.go:96-98). checkToRemit looks at
    events ahead of the queries. If it creates a vertex as the destination of a later event, CreateEvent is that later event,
    although the vertex is the source of an edge the query sees. Colouring's and temporal paths' entries then leave it out
    (C76_all_refuted). Undirected graphs are not affected (C76_undirected), nor is PageRank's use of the same test (C76_discard).
32. **A small graph's PageRank table shows 0 for a vertex** (C77; cmd/lp-pagerank/timeseries.go). With fewer than ten vertices the
    unused places of the ten-place entry are (raw id 0, 0.0). They are read like the others and overwrite the value of the vertex
    with raw id 0 (C77_zero_refuted). With ten or more vertices every place is used (C77_row).
33. **A percentage above 100 and a minimum of the wrong windows** (C78; cmd/lp-temporal-paths/timeseries.go:166, 243-250).
    pctOfActiveIsCurrentVisitable divides all vertices visitable now by the active ones; the number of active visited vertices is
    computed and not used (C78_active_refuted). The minimum start printed for a later window index includes the earlier ones,
    because minStart is not reset (C78_min_refuted); wZMin, the only one kept, is right.
34. **Target rates below 100 events per second are not kept** (C79; graph/stream.go:139). The sleep is extra / rate * time.Nanosecond,
    that is, nanoseconds where seconds are meant; the minimum of 10 ms takes its place, once per event. With a target of 1 per second
    100 per second are sent (C79_hundred, C79_refuted). With time.Second all targets are kept (C79_fixed).
35. **The last entry of PageRank's time series may be missing** (C80; graph/queries.go:148-164, graph/algorithm.go:211-213,
    cmd/lp-pagerank/main.go:42). Launch closes the channel and returns without waiting for QueryFinishConcurrent, and main prints tsDB
    (C80_last_refuted). Printing reads tsDB twice (columns, then rows), so an entry arriving in between gets rows without columns; that is
    not modelled. Algorithms without OnFinish are not affected (C80_unfinished).
36. **Colouring by messages never ends on a graph with a self-loop** (C81; cmd/lp-colouring/colouring-msg.go:60,104-112).
    `comparePriority` of a vertex with itself is false, so the edge is not marked and the note that a vertex
    sends to itself carries `Priority: true`.  The note brings the vertex its own colour, the vertex takes
    its colour back, picks another one and sends again, for ever; `C81_loop_refuted` proves for every
    graph with a self-loop and every schedule that something is always left to do.  The mailbox variant
    ignores messages from the vertex itself.  Without self-loops the run ends (`C81_ends`).
37. **In-degree statistics after 2^32 deletions** (C82; graph/graph.go:268-275,290).  The count of deletions is a
    32-bit sum; when it wraps to 0 the numbers of edges ever added are printed as in-degrees.
38. **InEdgesStats leaves out vertices without in-edges** (C82; graph/graph.go:337-344).  Its "MedianInDeg" is
    the median over the vertices that have an in-edge, and differs from the line of the same name of
    ComputeGraphStats on the same graph (three edges into one vertex: 3 against 0).
39. **CheckGraphStructureEquality accepts different graphs** (C82; graph/graph.go:398-419).  It compares ids and
    out-degrees only, as its comment says; 1->2, 2->1 passes for 1->1, 2->2.
40. **A line with too few words takes those of an earlier line** (C83; graph/stream.go:251-252,279-280).  FastFields leaves
    the entries it has no word for as they are, and nothing checks their number.  "5" after "1 2" and
    "3 4" is the edge 5 -> 4 with one load thread and 5 -> 2 with two; a missing timestamp or weight is
    taken over in the same way; an empty line of a file with CR LF line ends ("\r") repeats an edge,
    while an empty line without CR panics (C20_empty_line_refuted).  Clearing the fields per line, or
    letting FastFields return their number, would repair it.

41. **Flags outside their ranges are converted in silence** (C84; graph/graph-options.go:108-112,143-172, graph/graph.go:125-128).
    A negative -dt makes an interval next to 2^64 and turns the time series on without the dynamic mode; a negative -w gives
    every edge an expiry before its own time; a negative -m (or one of 50 and more) makes notification queues of size 0, so the
    first notification indexes an empty slice; -tg 256 is one loader; -pt 128 is position -128.
42. **Graph names with two dots share result files** (C84; graph/graph.go:366,383-394).  PathlessName keeps only the part
    between the last two dots: a.b.txt and c.b.txt both write results/b-props-static.txt, and wiki.tar.gz is called tar.
43. **The oracle's graph shares the edge arrays with the original** (C86; graph/oracle-compare.go:14,63, graph/graph-vertex.go:221-227).
    An algorithm that writes edge properties writes them in both graphs.  The code has a TODO about this.  Colouring by messages does write
    them (cmd/lp-colouring/colouring-msg.go:59, BaseVertexMailbox): harmless on a static graph, where the original has the same marks already.
44. **What a query sees of parallel edges depends on batch boundaries** (C87; graph/stream-enact-events.go:273-277). The k-th deletion of
    a run takes the k-th edge if it has the right destination, not the oldest one with it. How many events a thread pulls at once decides
    how long the runs are. The same stream then leaves different edges (different properties) in memory; the number per destination
    is always right (this extends the finding on C26 to whole runs).
45. **Initial mail can fill a queue that nobody reads yet** (C89; graph/run-async.go:32-47, graph/algorithm.go:69, utils/ring-buffer.go:352-365).
    SendInitialMail is finished before any thread receives, but EnsureSend waits for a place. A static run on a star whose hub has the
    smallest label and more leaves on one thread than its queue has places (BASE_SIZE * 32 / threads, times 2^m with -m) hangs on every schedule.
    The same holds for initial notes (push-relabel style algorithms), for any graph with more vertices per thread than places.
46. **A time series without the dynamic mode hangs** (C89; graph/algorithm.go:186-207, graph/stream.go:88-160). While loading, the remitter asks for
    a query and waits for its answer; the goroutine that answers is started only after loading. The first query that falls due
    before the end of the stream stops the program for ever. (-dt with a negative value switches the time series on without -d, finding 41.)
47. **A sliding window is measured by each thread's own last event** (C90; graph/stream-enact-events.go:120-185). A thread that gets no more events keeps
    edges that are older than the window. With two threads and an undirected stream the edge 0 - 1 can be gone at 0 and still be there at 1. What is left
    depends on the number of threads, also at the end when everything has converged.
48. **Times that go back are only noticed inside one batch** (C90; graph/stream-enact-events.go:144-147). The same stream panics or not, depending on how
    many events the thread happens to pull at once.
49. **EnqCheckRange counts one place less than there is** (C92; utils/ring-buffer.go:68-71). It returns dequeue + size - 1 - enqueue, so a ring of one place is
    never seen to have room and checkToRemit never passes anything on, nor notices the end of its input (C92_one_place_refuted). Not reachable with the shipped size.
50. **Idle iterations add up when a time series is logged** (C94; graph/run-dynamic.go:250-255, 308-338). With LogTimeseries, an iteration that enacts events
    ends in `continue` and so does not set topFail and algFail back (the same after a full batch). A thread on a slow stream that alternates between events and
    idle iterations panics with "BackOff count too high" after 2002 idle ones, unless notifications or the end of an epoch come in between (C94_series_refuted).
51. **Any wait of more than about 200 s panics** (C94; utils/helpers.go:24). This holds for blocking queue operations too: an emitter that waits for a slow
    stream, or for a full queue, ends the program after 2002 looks (C94_slow_panic). The fair rounds of C92 and of the liveness properties leave this out.
52. **TOP_SYNC after the end of the events is never answered** (C93; graph/run-dynamic.go:200, 256-259). The sender would wait for ever in AwaitAck; only
    reachable through CompareToOracle with syncWithQuery, which no caller sets.
53. **The printed number of colours is the largest colour plus one** (C95; cmd/lp-colouring/main.go:31, colouring-msg.go:169): the array of counts has an
    entry for each smaller colour too, used or not, so the printed ratio is always 1 and says nothing.
54. **The single-producer queue does not survive the wrap of its counters** (C96; utils/ring-buffer.go:81-179 compares with < and <=): after 2^64 - size + 1
    items an empty queue refuses items for ever. The multi-producer queue, which compares with ==, does survive. (Centuries of running at one item per
    nanosecond; recorded because the model of C10 had unbounded counters.)
55. **A stale OfferMP can overwrite an item** (C96; utils/ring-buffer.go:329-340): it checks the slot and then swaps the counter; if exactly 2^64 items
    go by in between, the swap succeeds on a full queue and the oldest item is lost (`C96_offer_refuted`). The graph code uses only puts, and 2^64 items
    are out of practical reach; below that number offers are right (`C96_mpsc_offers`).

## Properties

### C01 — Bitmap is a set with first-unused query

Files: `Bitmap_*`. Status: proved.  
Theorems: `C01_bitmap_is_a_set`, `C01_refused_quick_set_is_noop`, `C01_answer_unique`.

Scope: All histories of Set/QuickSet/Grow/Zeroes/FirstUnused on a fresh bitmap refine an abstract set; FirstUnused is a uint32 (wraps to 0 only if all 2^32 numbers are set).

How: A bitmap is a list of words with nil flag and length; every history of calls is simulated by a finite set.

### C02 — Bitmap Grow reserves room for its argument

Files: `Bitmap_*`. Status: proved.  
Theorems: `C02_grow_reserves_refuted`, `C02_grow_reserves_exactly`, `C02_set_reserves`.

Scope: The plain statement is false in the code (off by one in Grow); refuted with a witness and the exact condition proved.

How: Witness by computation; the exact condition by cases on the word index.

### C03 — RoundUpPow returns the least power of two not below its argument

Files: `Helpers_*`. Status: proved.  
Theorems: `C03_round_up_pow_least_power`, `C03_round_up_pow_otherwise_zero`.

Scope: All 64-bit inputs.

How: The six shift-or steps on N with 64-bit truncation; a bit-smearing lemma.

### C04 — Priority queue delivers the minimum

Files: `Heap_*`. Status: proved.  
Theorems: `C04_pq_is_a_min_bag`, `C04_pop_all_sorts`.

Scope: PQ Init/Push/Pop/Fix refine a bag with minimum extraction, for every Less that is a strict weak order.

How: Array heap as list with sift-up and sift-down; heap order and permutation invariants.

### C05 — Binary search finds the boundary

Files: `Heap_*`. Status: proved.  
Theorems: `C05_binary_search_boundary`, `C05_binary_search_sorted`.

How: Loop with fuel; the invariant from the code comment.

### C06 — Top-N selection is correct

Files: `TopN_*`. Status: proved.  
Theorems: `C06_top_n_correct`, `C06_top_zero_panics`.

Scope: Floats are exact and NaN-free; topCount = 0 with a non-empty array panics (proved).

How: container/heap on indices; the loop keeps the best of the prefix.

### C07 — Deque refines a double-ended queue

Files: `Deque_*`. Status: proved.  
Theorems: `C07_deque_refines_list`, `C07_fifo_and_lifo`, `C07_zero_value_panics`.

Scope: Refinement to a list for every operation sequence after Init, including block growth and reuse. Zero value (no Init) panics characterised.

How: Lists of blocks for the linked list; simulation by a list for every operation sequence.

### C08 — Decimal and field parsing

Files: `IO_*`. Status: proved.  
Theorems: `C08_fast_fields`, `C08_to_int`.

Scope: Entries beyond the words keep stale contents; more than MAX_ELEMS_PER_EDGE words panic (both in the theorem).

How: Byte lists; the loop against maximal runs of non-space bytes.

### C09 — Line scanning does not depend on read chunking

Files: `IO_*`. Status: proved.  
Theorems: `C09_lines_independent_of_chunks`.

Scope: The loop of EdgeEnqueueToEmitter with FastFileLines.Scan.

How: Buffer state machine with arbitrary sizes returned by Read.

### C10 — Single-producer queue is FIFO without loss

Files: `SPSC_*`. Status: proved.  
Theorems: `C10_linearizable`, `C10_fifo_no_loss`, `C10_progress`.

Scope: Every interleaving of single word accesses; the log in linearization order is a bounded FIFO run, answers follow program order, no blocking when there is space/an item.

How: One step per access; the log in linearization order is a run of a bounded FIFO.

### C11 — A closed queue is drained before consumers are told

Files: `Grow_*`, `MPSC_*`, `SPSC_*`. Status: proved.  
Theorems: `C11_spsc_closed_exactly`, `C11_spsc_drained_if_closed_before_check`, `C11_spsc_refuted`, `C11_mpsc_closed_exactly`, `C11_mpsc_refuted`, `C11_growable_closed_drained`.

Scope: False as the comment in the code intends for the single- and multi-producer queues (refuted with concrete schedules); the _closed_exactly theorems say precisely what can be lost (items that became visible between the consumer's last look at its slot and its look at the status), and drained_if_closed_before_check is the condition under which it holds. For the growable queue it holds under every schedule.

How: Refuting schedules; a ghost value for what the consumer last saw.

### C12 — Multi-producer queue is linearizable FIFO

Files: `MPSC_*`. Status: proved.  
Theorems: `C12_ticket_queue`, `C12_fifo_no_loss`, `C12_empty_means_drained`, `C12_progress`, `C12_size_one_refuted`.

Scope: Any number of producers, every schedule; size 1 refuted (RoundUpPow(1)=1).

How: Ticket invariant: slot i mod n belongs to ticket i.

### C13 — Growing queue keeps order across growth

Files: `Grow_*`. Status: proved.  
Theorems: `C13_growing_fifo`, `C13_delivered_prefix`, `C13_delivers_unless_lost`, `C13_put_completes`, `C13_lost_is_forever`, `C13_lost_needs_put_and_growth`, `C13_refuted`.

Scope: Safety for every schedule; progress exactly when the unlucky schedule (a put into the old buffer and a growth between the consumer's slot check and its look at the grown flag) has not happened; once it has, the consumer is stuck forever, and C13_refuted exhibits it. Sizes >= 2; counters unbounded (no 64-bit wrap-around).

How: Heap of buffers; the lost state is characterised and shown to be permanent.

### C14 — Stopwatch excludes pauses

Files: `Stopwatch_*`. Status: proved.  
Theorems: `C14_stopwatch_results`, `C14_elapsed_bounds`.

Scope: The clock is an input of each call.

How: Trace of timed calls; folded against the union of running intervals.

### C15 — RBO overlap bookkeeping

Files: `RBO_*`. Status: proved.  
Theorems: `C15_rbo_is_the_formula`, `C15_rbo_laws`, `C15_empty_ranking_nan`.

Scope: Exact rational arithmetic for float64; an empty ranking yields NaN (proved).

How: Map of seen keys and overlap count, weights in Q.

### C16 — Atomic read-modify-write helpers are linearizable

Files: `Atomics_*`. Status: proved.  
Theorems: `C16_cas_loops_linearizable`, `C16_completion_order_append_only`, `C16_atomic_min_result`, `C16_atomic_max_result`, `C16_atomic_add_result`.

Scope: Sequentially consistent interleaving of single loads and CASes, any number of goroutines.

How: CAS loops of any number of threads; completed calls in the order of their successful CAS form a sequential run.

### C17 — Median and percentile

Files: `Helpers_*`. Status: proved.  
Theorems: `C17_median_refuted`, `C17_median_characterised`, `C17_median_between`.

Scope: The statement is false of the code (refuted with a witness); the exact returned element is proved for every slice.

How: Characterisation of the index taken.

### C18 — Vertex index packing is injective

Files: `Vertex_*`. Status: proved.  
Theorems: `C18_pack_expand`, `C18_expand_pack`, `C18_injective_and_same_thread`.

How: Bit arithmetic on N.

### C19 — Vertex enumeration is a partition

Files: `Vertex_*`. Status: proved.  
Theorems: `C19_for_each_enumerates`, `C19_parallel_for_partitions`, `C19_parallel_sum`, `C19_vertex_creation`.

How: Folds over threads and buckets.

### C20 — File order is preserved by parallel loading

Files: `Load_*`. Status: proved.  
Theorems: `C20_emitted_in_file_order`, `C20_complete`, `C20_last_line_lost_refuted`, `C20_empty_line_refuted`.

Scope: Order for every schedule; completeness under the stated stopping condition; two refuted corner cases (last line lost by the close race, panic on an empty line).

How: Network of loaders, queues and emitter; the emitted log is a prefix of the file's stream.

### C21 — Event numbering and packing

Files: `Load_*`. Status: proved.  
Theorems: `C21_numbering`, `C21_logical_time`, `C21_packing`.

Scope: Fewer than 2^61 lines.

How: Packing arithmetic and the emitter's counter.

### C22 — Per-source event order survives the remit pipeline

Files: `Remit_*`. Status: proved.  
Theorems: `C22_per_thread_order`, `C22_complete`, `C22_per_source`, `C22_zero_event_refuted`.

Scope: Proved for every schedule in which the Remitter is not answered 'closed' by a ToRemitQueue; the other schedules exist and deliver a zero event (refuted theorem).

How: Network of emitter, threads and Remitter; each thread's log is a projection of the emitted list.

### C23 — In-edge positions are dense and schedule-independent

Files: `Remit_*`. Status: proved.  
Theorems: `C23_positions_dense`, `C23_position_reserved`.

Scope: Dense up to 2^32 additions per destination; same proviso as C22.

How: Same network, with the counters of in-edges.

### C24 — Batch grouping preserves each source's history

Files: `Enact_*`. Status: proved.  
Theorems: `C24_groups`, `C24_every_event_once`, `C24_clean_kept`, `C24_clean_start`.

Scope: Grouping of a batch: one group per source in order of first appearance, places increasing, every place exactly once; state ready for the next batch.

How: Pending list; places partition the batch.

### C25 — Adding edges appends them

Files: `Enact_*`. Status: proved.  
Theorems: `C25_additions_append`, `C25_batching_is_irrelevant`, `C25_in_mixed_batch`.

Scope: Histories of additions append in stream order for every cut into batches; additions of a vertex in a mixed batch likewise.

How: Induction over batches; the cut does not matter.

### C26 — Deleting removes the first matching edge and keeps order

Files: `Enact_*`. Status: proved.  
Theorems: `C26_panics_iff`, `C26_counts_and_order`, `C26_orderly_fifo`, `C26_single_deletions`, `C26_no_parallel_edges`, `C26_oldest_first`, `C26_fifo_refuted`, `C26_batching_matters_refuted`.

Scope: FIFO deletion is false in general (fast path), refuted with a witness; proved: multiset per destination and order always right, panic exactly on a missing edge, FIFO for orderly runs, in particular single deletions, no parallel edges, oldest-first deletions. Positions below 2^31; if edges are sorted by timestamp, timestamps sorted and below 2^63.

How: The two deletion paths against first-match deletion; conditions under which they agree.

### C27 — Edge accounting

Files: `Enact_*`. Status: proved.  
Theorems: `C27_accounting`.

Scope: Stored edges + DELs = ADDs over any history from the empty graph; NumEdges, NumOutAdds, NumOutDels agree mod 2^32.

How: Counters against lengths of edge lists.

### C28 — Generated deletions retain the final structure

Files: `Inject_*`. Status: proved.  
Theorems: `C28_final_structure`, `C28_fifo`, `C28_certain_deletion_never_ends`, `C28_can_end`, `C28_parallel_properties_refuted`.

Scope: Playable stream with the input multiset as net effect for every outcome of the random choices; endpoints multiset also under the graph's FIFO deletion; with parallel edges of different properties FIFO deletion does not retain the properties (witness); chance 1 never ends.

How: Random choices are arguments; multiset balance.

### C29 — Sliding-window expiry deletes exactly the expired edges

Files: `Enact_*`. Status: proved.  
Theorems: `C29_window`, `C29_mixed_batch_panics`, `C29_deletions_refuted`.

Scope: Add-only streams with non-decreasing timestamps: lists are exactly the in-window additions in order. With DEL events in the stream the queue index is misaligned: panics / wrong expiry shown.

How: Expiry queue against the window of timestamps.

### C30 — Termination is never declared early

Files: `Term_*`. Status: proved.  
Theorems: `C30_sound_when_vote_goes_first`, `C30_sound_without_torn_reads`, `C30_early_yes_refuted`.

Scope: The code can answer yes too early (162-step schedule of two threads); sound for every number of threads and schedule without a vote read between lines 44 and 45, and for all schedules once these writes are exchanged. Sequentially consistent memory, unbounded counters.

How: Each read of a vote, view or counter is a step; monotone sums; ghost copies for what a thread has read.

### C31 — Unique notifications lose no wake-up

Files: `Engine_*`. Status: proved.  
Theorems: `C31_no_lost_wakeup`, `C31_wakeup_pending`, `C31_one_notification`.

Scope: For every algorithm (abstract merge/retrieve/update functions), thread ownership, graph change and schedule of single shared-memory steps. Memory sequentially consistent; queue puts are single steps (their own correctness is C12-C20).

How: Invariant: a new message, or a flag and a queue entry.

### C32 — Active notification counting

Files: `Active_*`. Status: proved.  
Theorems: `C32_activity_counts`, `C32_told_what_remains`, `C32_zero_is_last`.

Scope: For every algorithm, thread ownership and schedule of single shared-memory steps (sequentially consistent). The counter also includes notifications taken from the queue and not yet decremented, as in the code.

How: Counter equals queue entries plus entries being handled.

### C33 — Message reception is FIFO and counted

Files: `Recv_*`. Status: proved.  
Theorems: `C33_fifo`, `C33_check`, `C33_round`, `C33_all_handed`.

Scope: ReceiveMessages/ProcessMessages with the deque of Deque_Model and an abstract queue with arbitrary arrivals and failing Accepts; the fill-level test is an arbitrary boolean

How: Deque of C07 with arbitrary arrivals.

### C34 — Synchronous convergence stops only when nothing is active

Files: `Sync_*`. Status: proved.  
Theorems: `C34_stop`, `C34_rounds`, `C34_strict_stop`, `C34_strict_rounds`.

Scope: Both ConvergeSync and ConvergeSyncPrevOnly, for mailbox algorithms (unique notifications); active-notification algorithms are excluded, as the code comment says. C34_leftover_notification shows that a stale entry may stay in a queue.

How: Rounds of interleaved vertex updates.

### C35 — Connected components result

Files: `Min_*`. Status: proved.  
Theorems: `C35_components`, `C35_same_label`.

Scope: For every graph present at the start and grown during the run, every number of threads and every schedule of single shared-memory steps; edges in both directions once quiet, raw ids below 2^32. No deletions (the code panics on them).

How: Generic minimum propagation; labels are minima over reachable vertices.

### C36 — Shortest path result

Files: `Min_*`. Status: proved.  
Theorems: `C36_rounded`, `C36_shortest_paths`.

Scope: Non-negative weights, every monotone rounding of the additions (C36_rounded), exact sums (C36_shortest_paths). Values that reach EMPTY_VAL count as unreachable, as in the code.

How: Same, with a monotone function per edge.

### C37 — Message-passing shortest path result

Files: `MsgMin_*`. Status: proved.  
Theorems: `C37_rounded`, `C37_same_as_mailbox`, `C37_shortest_paths`.

Scope: Insert-only (OnEdgeDel panics in the code). Floating-point addition is any monotone rounding of the exact sum that does not take EMPTY_VAL below itself; non-negative weights.

How: Message variant on the active engine; same fixed point.

### C38 — Colouring is proper at quiescence

Files: `Colour_*`. Status: proved.  
Theorems: `C38_proper`.

Scope: All graphs, changes, thread counts and schedules. Positions are unique per destination (Enact model C27) and fewer than 2^31-1; the bound counts positions ever used, since slots of deleted edges stay. MailMerge is one atomic step.

How: Slots of a mailbox hold the neighbour's last message; conflict edges have a message under way.

### C39 — Wait-count colouring is the sequential greedy colouring

Files: `Wait_*`. Status: proved.  
Theorems: `C39_greedy`, `C39_same`.

Scope: Wait-count colouring on the asynchronous engine with the four shared accesses of MailMerge as separate steps; any undirected multigraph, any threads and schedule; at quiescence the colours are the greedy ones by priority, hence unique. Needs fewer than 2^31-1 in-edges per vertex.

How: The wait count equals the number of higher neighbours not yet heard.

### C40 — PageRank residual invariant

Files: `Rank_*`. Status: proved.  
Theorems: `C40_balance`, `C40_quiet`.

Scope: Asynchronous engine, exact rationals instead of floats; every schedule, edge additions and deletions in any order; in-transit amounts accounted for at every point.

How: Mass balance per vertex with amounts in transit.

### C41 — PageRank final normalisation sums to one

Files: `Finish_*`. Status: proved.  
Theorems: `C41_total`, `C41_defined`, `C41_exact`, `C41_checked`, `C41_close`.

Scope: exact rationals; division by zero is None; proves the stronger fact that scores equal PageRank of the graph with sinks joined to all others

How: Algebra over Qc; uniqueness of the PageRank system by a norm argument.

### C42 — PageRank threshold wake-up

Files: `Rank_*`. Status: proved.  
Theorems: `C42_refuted`, `C42_heard`, `C42_quiet`.

Scope: Refuted as stated: a hub with 255 parallel edges fills an inbox to exactly the threshold and the wake-up is lost (the same coincidence happens in float64). Proved for runs in which no inbox ever holds exactly the threshold.

How: The crossing test sees every crossing that is not exact.

### C43 — Triangle count is exact

Files: `TC_*`. Status: proved.  
Theorems: `C43_stream`, `C43_static`.

Scope: Every run of the model (active-notification engine plus tc.go) that is at rest with all edges added has counters summing to the triangles of the simple undirected graph; stream and static loading. Raw ids below 2^31-1 (2^31-1 flagged equals EMPTY, shown by Example C43_largest_id); counters are nat.

How: Each triangle is counted by exactly one pair of notification and edge; coverage of list ranges.

### C44 — Temporal window merging

Files: `Window_*`. Status: proved.  
Theorems: `C44_exact`, `C44_returns`, `C44_unique`, `C44_source`, `C44_offer`.

Scope: MailRetrieve on any slots: what it returns is apart and covers exactly the offers (both as half-open intervals and as sets of edge times that can pass); with offers ordered by start it never aborts and 'changed' is exact; pushWindows offers an edge iff a window is open at its time. Unordered offers abort: C44_unordered_aborts (finding). A source that already had windows keeps stale ones: C44_late_source (finding).

How: Two-pass merge against the union of offers.

### C45 — Temporal reachability is schedule-independent

Files: `Path_*`. Status: proved.  
Theorems: `C45_no_abort`, `C45_exact`, `C45_agree`, `C45_before`.

Scope: On the engine of Engine_Model (any number of threads, any schedule, edges added and ended during the run). Conditions on the stream (sound): slots unique, timestamps of a vertex's edges and of a destination's slots non-decreasing, below INFINITY, an edge does not end before it begins. One source. Hop counts are not claimed.

How: Windows are exact at rest; induction on times of journeys, with freshness of slots as invariant.

### C46 — Query points are exact

Files: `Remit_*`. Status: proved.  
Theorems: `C46_count_points`, `C46_time_points`.

Scope: Interval at least 1 for counts; no uint64 overflow.

How: Fold over the trigger counters.

### C47 — Shuffling and random removal keep the elements

Files: `Helpers_*`. Status: proved.  
Theorems: `C47_shuffle_permutes`, `C47_shuffle_reaches_every_permutation`, `C47_remove_random`.

Scope: rand.Intn results are universally quantified inputs.

How: Permutation for every choice of random numbers.

### C48 — PriorityQueueSf insertion (refuted)

Files: `TopN_*`. Status: proved.  
Theorems: `C48_inserted_value_never_indexed`.

Scope: Finding: refuted in general form.

How: Computed.

### C49 — ResultCompare totality and absolute difference

Files: `Helpers_*`. Status: proved.  
Theorems: `C49_result_compare_panics_exactly`, `C49_unsigned_difference_one_sided`, `C49_unsigned_difference_refuted`.

How: Cases on lengths.

### C50 — Deque keeps at most five spare blocks (refuted with PushFront)

Files: `Deque_*`. Status: proved.  
Theorems: `C50_spare_bounded`, `C50_spare_bound_refuted`.

Scope: Bound and counter equality proved for PushFront-free histories; refuted in general with a concrete history (counter -5, later 15 spare blocks).

How: Counter invariant without PushFront.

### C51 — EnqCheckRange discipline of checkToRemit

Files: `SPSC_*`. Status: proved.  
Theorems: `C51_check_range_discipline`.

Scope: ESpace value characterised in fifo_step (C10_linearizable); discipline of checkToRemit never refused.

How: The range check as a ghost of the queue state.

### C52 — Internal destination ids denote the destination

Files: `Remit_*`. Status: proved.  
Theorems: `C52_didx_denotes_destination`.

Scope: At most 32 threads, at most 2^27 vertices per thread; same proviso as C22.

How: Lookup tables of the threads, invariant of the network of C22.

### C53 — TimeRange edges are ended, not removed

Files: `Enact_*`. Status: proved.  
Theorems: `C53_time_range_refines`, `C53_accounting`, `C53_ended_edges_are_final`, `C53_one_deletion`, `C53_zero_end_time_refuted`.

Scope: TimeRange path refines a per-vertex specification independent of batching; a DEL with EndTime 0 leaves the edge un-ended (witness).

How: Refinement to a list per vertex.

### C54 — Callbacks describe the edge list changes

Files: `Enact_*`. Status: proved.  
Theorems: `C54_calls_tell_the_changes`.

Scope: Sequence of OnEdgeAdd/OnEdgeDel calls per vertex and batch, path without TimeRange.

How: The calls replayed on the old list give the new one.

### C55 — PageRank masses are close to the exact ones

Files: `Rank_*`. Status: proved.  
Theorems: `C55_unique`, `C55_close`.

Scope: exact rationals; never-exact-threshold condition is the C42 one

How: Contraction with factor d in the sum norm.

### C56 — The pipeline delivers what the algorithms assume of edges

Files: `Link_*`. Status: proved.  
Theorems: `C56_slots`, `C56_times`.

Scope: Link_Props.v, on the pipeline model of C22/C23.

How: The number of earlier additions to a destination grows strictly along the stream, so a slot determines the event.

### C57 — From the file to the result

Files: `File_*`. Status: proved.  
Theorems: `C57_edges`, `C57_graph`, `C57_components`, `C57_colouring`, `C57_shortest_paths`, `C57_temporal`.

Scope: File_Graph.v, File_Props.v. Composition of C20, C22, C56 with C35, C36, C38, C45; the interface (an algorithm's edges are those received) is a hypothesis, justified by C25. Shortest paths with exact sums.

How: Composition of the theorems on the stages.

### C58 — Coming to rest

Files: `Rest_*`. Status: proved.  
Theorems: `C58_components_rest`, `C58_components`, `C58_shortest_rest`, `C58_shortest_rounded`, `C58_shortest_paths`.

Scope: Fairness: rounds in which every thread gets every kind of step; values of shortest paths from a finite set (floats) or a grid of fractions

How: A measure (heights of mailboxes, then weighted pending work) falls with every step that does something; every round with something to do contains such a step.

### C59 — PageRank comes to rest

Files: `RankRest_*`. Status: proved.  
Theorems: `C59_rest`, `C59_result`.

Scope: Exact arithmetic; fairness by rounds as in C58

How: Lexicographic: pending reactions to graph changes, then the total flow in units of (1-d) EPSILON together with the weighted pending work.

### C60 — When the loops have ended, the result is there

Files: `Whole_*`. Status: proved.  
Theorems: `C60_all_left`, `C60_early_never_ends`, `C60_whole`, `C60_one`, `C60_whole_never_ends`, `C60_components`, `C60_shortest_paths`, `C60_ranks`, `C60_hang`.

Scope: The machine of Engine_Model and Term_Model together. For the code as it is and all schedules; C60_hang is a concrete run of shortest paths in which the early yes of C30 leaves the program running forever.

How: Engine and termination machine composed; a thread's batch ties the two. All-left soundness needs no order of the writes: the counts at the end bound all earlier ones, the last thread to publish a change sums exactly, and views only grow.

### C61 — The program ends

Files: `Live_*`. Status: proved.  
Theorems: `C61_check_ends`, `C61_ends`, `C61_components`, `C61_shortest_paths`, `C61_ranks`.

Scope: Live_Props.v. Fairness by rounds as in C58; weights and values of shortest paths on a grid of fractions; exact arithmetic. Condition for the code as it is: swap = true or tidy (no vote read between the two writes of lines 44-45), needed by C60_hang.

How: Once the engine has no steps left (C58, C59 give a bound from every state), the termination machine is calm: counts add up to zero and no thread can see a change. Seven phases follow each other within 10n+31 rounds each; in the last all have voted and all read it.

### C62 — A query sees the converged result of exactly the events before it

Files: `Query_*`. Status: proved.  
Theorems: `C62_view`, `C62_frozen`, `C62_all_seen`, `C62_nothing_new`, `C62_components`, `C62_shortest_paths`, `C62_ranks`, `C62_by_count`, `C62_by_time`, `C62_always_half`, `C62_symmetric_refuted`.

Scope: C62_view, C62_frozen, C62_all_seen are the guarantee for every algorithm; the three results follow; C62_by_count, C62_by_time say when is asked; C62_always_half and C62_symmetric_refuted are the exception for undirected graphs. ADD events only, in the Remitter's order; safety only: that every query is answered is not claimed here.

How: The machine of C60 with topology queues, commands and answers. Each thread is in one of seven modes around a query, and the stage of the query goroutine says which; a thread that answered has voted in a check that began after the stream stopped, so all answers mean quiescence (C60).

### C63 — The programs' own checks accept right results, and what they tell

Files: `Check_*`. Status: proved.  
Theorems: `C63_components_accepted`, `C63_components_refuted`, `C63_components_mean`, `C63_components_weak`, `C63_shortest_accepted`, `C63_messages_accepted`, `C63_two_sources_refuted`, `C63_shortest_mean`, `C63_shortest_weak`, `C63_colouring_accepted`, `C63_colouring_means`, `C63_colouring_weak`, `C63_triangles_accepted`, `C63_no_difference`, `C63_single_panics`, `C63_oracle_components`, `C63_oracle_shortest`, `C63_oracle_triangles`.

Scope: Acceptance uses C35-C38, C43 at rest. _refuted and _weak are witnesses for the limits. The colouring result assumes that each vertex has an edge. The oracle is any run at rest (how its graph is made: C86) with the same graph and the same initial mail.

How: The checks as boolean functions; acceptance from C35-C38 and C43; the converse by induction along paths.

### C64 — The checks of temporal paths accept right results

Files: `PathCheck_*`. Status: proved.  
Theorems: `C64_accepted`, `C64_means`, `C64_weak`, `C64_compare`, `C64_compare_runs`.

Scope: acceptance at rest for every sound stream; characterisation of what acceptance gives; incompleteness of the check

How: Invariant of both passes of MailRetrieve: windows that touch are not empty. The rest from C45.

### C65 — Super-steps run alone and end the run together

Files: `SStep_*`. Status: proved.  
Theorems: `C65_alone`, `C65_out`, `C65_all_leave`, `C65_no_deadlock`, `C65_barrier`, `C65_barrier_rounds_refuted`.

Scope: Barrier, reset and termination check as one machine of atomic steps. The barrier alone does not keep rounds apart (refuted); together with the check it is safe.

How: The machine of C60 (`Term_Model`) with a phase per thread and the two channels as counters. The invariant has four modes. Running: some threads have not yet been freed; the state in which they are put at the start of the check is a state of the machine of C60, so that what is known there (when all have left, nothing is left) carries over, and the numbers of tokens are those of sleeping and of pending threads. Super-step: all others asleep, everything quiet except what is sent. Reset: a prefix of the threads is zeroed. Ending: votes, views and counts agree, so that every check goes through; a measure falls with every step that does something.

### C66 — The edge list tool keeps and sorts the lines

Files: `Tool_*`. Status: proved.  
Theorems: `C66_load`, `C66_load_ends`, `C66_load_one`, `C66_load_order_refuted`, `C66_no_threads`, `C66_sort`, `C66_sort_numbers`, `C66_sort_numbers_refuted`, `C66_sort_panics`, `C66_stable_refuted`, `C66_writes_nothing`.

Scope: Loader as a machine of q enqueuers, channels and dequeuers; Less on the FastFields model of C08; sort.Stable by documentation as insertion sort.

How: Each enqueuer, channel and dequeuer has an invariant of its own, since the line number modulo the thread count selects both; a measure falls with every step that does something. Sorting: insertion splits the reversed prefix into the greater and the not greater lines. Byte order and numeric order of digit strings of one length agree.

### C67 — The colouring comes to rest

Files: `ColourRest_*`. Status: proved.  
Theorems: `C67_rest`, `C67_proper`, `C67_ends`, `C67_self_loop_refuted`, `C67_wait_rest`, `C67_wait_ends`.

Scope: Statement as worded fails with self-loops: C67_self_loop_refuted gives a fair schedule that never rests. Proved without self-loops for every reachable state of the first version, and for all undirected multigraphs with wait counts.

How: Priority is a strict order on the finitely many vertices. Only mail from a vertex of higher priority makes a vertex react, so a reaction is paid by a change above it; the measure weighs vertices by (1+B)^(number below). With wait counts a vertex is coloured once. The livelock is a run that returns to the same state up to the log after two half rounds.

### C68 — Temporal paths come to rest

Files: `PathRest_*`. Status: proved.  
Theorems: `C68_rest`, `C68_windows`, `C68_ends`.

Scope: From every reachable state. C68_ends: before the threads of the whole program start anything may have happened; during it edges are added but not ended (the whole machine has no such step).

How: An offer over an edge at time t depends only on offers over edges of earlier time; so a change is paid by a change at an earlier edge. Each edge has three stages (nothing under way, being told, told) and the measure is a number in base of the number of edges whose digits are ordered by time. Mailboxes only grow up to the number of positions.

### C69 — Triangle counting comes to rest

Files: `TCRest_*`. Status: proved.  
Theorems: `C69_rest`, `C69_stream`, `C69_static`.

Scope: Unconditional version of C43: rest is reached, not assumed. The termination detection (C60, C61) is not composed with this engine.

How: A vertex sends along an edge when it is added and when its limit is raised past it. Measure: operations, queued notifications, edges beyond the limits, edges not yet added or received, with weights.

### C70 — The triangle counting program ends with the exact count

Files: `Loop_*`. Status: proved.  
Theorems: `C70_whole`, `C70_ends`, `C70_stream`, `C70_stream_ends`, `C70_static`.

Scope: The loops are proved once for any machine (lawful, winds_down); the same theorems for the mailbox engine are C60 and C61.

How: The loops of C60 and C61 again, over a record of operations (run, pop, change, queue length) with five laws instead of the mailbox engine. The triangle counting machine of C43 has the laws, and the measure of C69 makes it wind down.

### C71 — Message-passing shortest paths come to rest and the program ends

Files: `MsgRest_*`. Status: proved.  
Theorems: `C71_rest`, `C71_rest_rounded`, `C71_program`, `C71_shortest_paths`.

Scope: C71_program is for rounded sums, C71_shortest_paths for exact ones. The result at rest is C37.

How: A measure: twice the rank of the value plus the WillUpdate flag of each vertex, times the largest degree, plus weights for what is queued. Every step of the engine decreases it. The loops are those of C70, for any algorithm with active notifications.

### C72 — Queues of limited size

Files: `Full_*`. Status: proved.  
Theorems: `C72_room`, `C72_vertices`, `C72_along`, `C72_components`, `C72_jam`, `C72_ends_refuted`.

Scope: C72_ends_refuted: for every queue size a run that hangs; C72_jam: threads that wait on each other's full queues never go on; C72_vertices, C72_components: with room for every vertex of a thread nothing changes and the program ends with the components

How: on top of the loops of Whole_Model and Loop_Model: as long as all notifications fit, limited and unlimited loops make the same steps; no vertex is in a queue twice (the activity flag), so the vertices of a thread are enough; threads waiting on each other's full queues form an invariant; the hanging run is built by induction on the queue size

### C73 — A query that does not wait sees a consistent graph, and does no harm

Files: `Block_*`. Status: proved.  
Theorems: `C73_view`, `C73_frozen`, `C73_graph_stands`, `C73_reset`, `C73_no_panic`, `C73_no_block_at_end`, `C73_all_seen`, `C73_end`, `C73_paths`, `C73_prefix_refuted`, `C73_copy_refuted`.

Scope: For algorithms without super-steps and streams without deletions. Refuted in two respects: the graph seen need not be that of a prefix of the stream (C73_prefix_refuted); what OnFinish reads need not be the state of one moment (C73_copy_refuted).

How: The machine of C62 with the blocking commands and the finishing goroutine. Each thread is in one of five modes around a query; blocked threads have no batch in hand and pull nothing. Before the stream is closed nobody is in the check for termination and its arrays are zero, so clearing them is the identity.

### C74 — Comparing with an oracle in the middle of a run does no harm

Files: `Oracle_*`. Status: proved.  
Theorems: `C74_epoch`, `C74_block`, `C74_end`, `C74_async_refuted`, `C74_finish_twice_refuted`.

Scope: Holds when threads wait (EPOCH, BLOCK_ALL); refuted with BLOCK_TOP, and for what the finishing goroutine reads.

How: Oracle_Model puts saving, writing and putting back on top of any program with queries; Oracle_Proofs shows that it can be erased when the steps of the others commute with changes of properties while the query looks; instances for Query_Model (EPOCH) and Block_Model (BLOCK_ALL). The refutations are computed runs of PageRank with the model of OnFinish (Finish_Model).

### C75 — Every query is answered and the program with queries ends

Files: `QLive_*`. Status: proved.  
Theorems: `C75_ends`, `C75_components`, `C75_shortest_paths`, `C75_ranks`.

Scope: Lexicographic measure over events, the state of the Remitter and the logging goroutine, commands and open threads; between two decreases the engine's budget and the termination check decrease. Fair rounds may contain anything else; the condition about lines 44-45 is that of C30/C61 (C60_hang shows it is needed).

How: QLive_Model: turns (a thread looks at its commands and at its topology queue before every step) and fair rounds over Query_Model. QLive_Proofs: a lexicographic measure (events not yet enacted; state of Remitter and logging goroutine; commands and answers; open threads) never grows; a generic progress lemma (a helpful turn stays helpful until taken) shows that it decreases: by one turn of the Remitter, the logging goroutine or a waiting thread, by an open thread reaching the start of its iteration or its topology queue (the budget of the engine pays for interference), or, when all are closed, by coming to rest and leaving (Live, Term_Live). Initial messages (SendInit, PULL with r > 0) come before the rounds only; there may be any number.

### C76 — A time-series entry counts exactly the vertices that exist at the query

Files: `Born_*`. Status: proved.  
Theorems: `C76_at_event`, `C76_sound`, `C76_missed`, `C76_undirected`, `C76_end`, `C76_discard`, `C76_all_refuted`.

Scope: Runs in which the Remitter is not answered 'closed' by a ToRemitQueue (as in C22); events numbered from 0 as the emitter does; a query state is one with all topology queues empty.

How: Born_Model adds CreateEvent and AtEvent to the pipeline of Remit_Model and takes over its invariants. New invariant: the creating event of a vertex is not younger than any event into it that has passed checkToRemit, because what waits there is younger than all that has passed at this thread and all that has been remitted.

### C77 — Tables of time series show the right values

Files: `Series_*`. Status: proved.  
Theorems: `C77_columns`, `C77_row`, `C77_top_ten`, `C77_small`, `C77_zero_refuted`, `C77_derivative`, `C77_same`.

Scope: Exact arithmetic (Qc) instead of float64; rows as lists of cells, formatting of numbers not modelled. logWaterfall set, USE_INTEREST_ARRAY not.

How: Series_Model has ApplyTimeSeries' tables as functions on lists of entries. The columns are the union of the top tens; a row is looked up in the entry's map. The derivative is over exact rationals.

### C78 — Statistics about temporal paths are those of the whole graph

Files: `Fun_*`. Status: proved.  
Theorems: `C78_counts`, `C78_percent`, `C78_active_refuted`, `C78_windows`, `C78_rounds`, `C78_min_refuted`.

Scope: Counts, largest number of windows and starts per window index are those of the whole graph. Two refutations: percentage of active vertices may exceed 100 (computed with all visitable ones), minimum of later windows includes earlier ones.

How: Fun_Model has the two parallel loops as folds per thread. A fold that adds one for each element with a property counts them (number_fold); sums over threads are counts of the concatenation. For the minima the invariant covers all window indices so far.

### C79 — The stream is not faster than the target rate

Files: `Rate_*`. Status: proved.  
Theorems: `C79_kept`, `C79_kept_any`, `C79_slow`, `C79_hundred`, `C79_refuted`, `C79_fixed`, `C79_unlimited`.

Scope: Rates from 100 per second are kept up to one event. Refutation below: one event per second asked, 100 per second sent. With time.Second in place of time.Nanosecond every rate is kept.

How: Rate_Model is the loop's arithmetic on clock readings; the rate is a fraction, the clock advances by at least what was slept. The invariant compares remitted and the cached quota with the clock; one pause makes up for one event.

### C80 — The printed time series has every query's entry

Files: `Tail_*`. Status: proved.  
Theorems: `C80_views`, `C80_one_view_refuted`, `C80_table`, `C80_unfinished`, `C80_last_refuted`, `C80_waited`.

Scope: Entries are made from their own views and printed in order; all but possibly the last with OnFinish, all without. Refutation: last entry missing.

How: Tail_Model: goroutines and channels as steps. Invariant: tsDB, the entry being finished, the one being copied and the channel together are the queries so far; the finisher's view is never the one the logger copies into.

### C81 — Colouring by messages

Files: `MCol_*`. Status: proved.  
Theorems: `C81_graph`, `C81_mentions`, `C81_safe`, `C81_proper`, `C81_ends`, `C81_goes_on`, `C81_loop_refuted`, `C81_wait_once`, `C81_wait_greedy`, `C81_plain_refuted`.

Scope: All schedules, both modes. Self-loops: proved that the run never ends (finding 36). Without -w: witness of two schedules with different results.

How: MCol: the handler of colouring-msg.go on the engine with active notifications. Invariants: the last of (cell, notes on the way) is the sender's colour; a cell of a sender that goes first never equals the own colour; a vertex without colour has activity or waits; the wait count is the number of MAGIC cells. Ending: number of colourings plus blank is at most 1 plus the notes taken from earlier neighbours, bounded along the priority order; each note costs five steps. With -w: per cell one of three phases, from which greedy.

### C82 — The statistics printed about the graph are right

Files: `Stats_*`. Status: proved.  
Theorems: `C82_stats`, `C82_stats_in`, `C82_stats_hidden`, `C82_returns`, `C82_deletions_refuted`, `C82_in_edges`, `C82_in_median_refuted`, `C82_check`, `C82_check_refuted`.

Scope: Any interleaving of the goroutines; relation holds between stored state and graph as given by C23, C27, C52. Three refutations with witnesses.

How: Stats: goroutines of NodeParallelFor as steps over per-thread cells and two shared lists; invariant: a goroutine's cells are the fold over the vertices it has seen and the cells it wrote in the lists are disjoint from the others'. Sums of degrees equal the number of edges, so no sum wraps below 2^32 edges. The relation holds says which graph the stored state stands for; the facts in it are what C23, C27 and C52 establish.

### C83 — Lines with too few words

Files: `Short_*`. Status: proved.  
Theorems: `C83_filled`, `C83_complete`, `C83_enough`, `C83_loaders_refuted`, `C83_blank_refuted`.

Scope: The Load model with the field buffer in the invariant. The model copies words; in the code they alias the read buffer, so for files beyond one buffer (64 KiB) an old word may also have been overwritten.

How: Short: the loaders and emitter of Load_Model on files with lines of any number of words up to five; the invariant of Load_Proofs plus the contents of each loader's field buffer (last_word). C83_enough gives C20 back. Words are copied in the model (in the code they alias the scanner's buffer, so beyond 64 KiB stale words may have been overwritten by later bytes).

### C84 — Command line flags mean what they say

Files: `Opts_*`. Status: proved.  
Theorems: `C84_asked`, `C84_turned_away`, `C84_always`, `C84_series_refuted`, `C84_window_refuted`, `C84_narrow_refuted`, `C84_queue_refuted`, `C84_name`, `C84_name_refuted`.

Scope: Proved for all flags in range; what happens outside the ranges is characterised by the _refuted theorems.

How: Go's conversions are written as remainders of integers of unlimited size, the wishes of the user as a record of plain numbers (Opts_Spec); the size of a queue goes through the round-up of C03.  Names are lists of characters, and strings.Split is a recursion.

### C85 — Queries that do not wait are all answered, and the program ends

Files: `BLive_*`. Status: proved.  
Theorems: `C85_ends`, `C85_components`, `C85_shortest_paths`, `C85_ranks`.

Scope: Fair rounds bring every run of Block_Model to its end, from any reachable state.

How: BLive_Model: turns and fair rounds over Block_Model, with turns of the finishing goroutine. BLive_Proofs: as QLive_Proofs, with one more component of the measure (vertices that OnFinish has still to read) and one more invariant (a thread whose topology is blocked or that waits for RESUME has not found its queue closed, so that it comes back to the start of an iteration and takes RESUME).

### C86 — The graph for the oracle is a fresh start on the same graph

Files: `Copy_*`. Status: proved.  
Theorems: `C86_copy`, `C86_apart`, `C86_edges_shared`, `C86_edges_refuted`, `C86_views`.

Scope: Memory is modelled: stores of arrays with addresses. References inside a property or an inbox are part of the value. The edge arrays are shared (refuted part).

How: Copy_Model has memory (stores of arrays, slices, bucket pointers); Copy_Proofs follows copying, the loop that sets everything to New, and CopyForOracle with invariants over the vertices done so far; new addresses are above all old ones, which gives that neither side sees the other's writes.

### C87 — A query sees exactly the additions and deletions before it

Files: `QDel_*`. Status: proved.  
Theorems: `C87_view`, `C87_no_panic`, `C87_frozen`, `C87_all_seen`, `C87_ranks`, `C87_colouring`, `C87_oldest_refuted`.

Scope: For the machine of C62 with deletions: events are enacted in runs of additions and runs of deletions, marking edges as the code does. The graph at a look is the one of the prefix up to which of several parallel edges has gone; C87_oldest_refuted shows by two schedules that this choice depends on batch boundaries. Instances: PageRank (C55) and colouring (C38).

How: Query_Model is generalised: an event adds or deletes an edge, a batch is enacted run by run, and the marks of a run of deletions are computed as in the code. The invariant says that the changes of a vertex split into those done, whose effect (taking the oldest each time) has the same number of edges per destination as the list in memory, and those in the batch and the queue. Marking and taking the oldest agree on these numbers, and one fails only if the other does. C55 and C38 then apply to what is seen.

### C88 — Queries on streams with deletions are all answered and the program ends

Files: `QDLive_*`. Status: proved.  
Theorems: `C88_ends`, `C88_ranks`, `C88_colouring`.

Scope: fair rounds end the program with queries on streams with deletions; instances PageRank and colouring

How: as C75 (a lexicographic measure over events still to be enacted, queries still to be answered and the way of each thread through its loop), on the model of C87; a deletion at the head of a batch can always be enacted because C87 says that it finds its edge.

### C89 — Static runs: loading first, then the algorithm

Files: `Static_*`. Status: proved.  
Theorems: `C89_load_ends`, `C89_loaded`, `C89_alike`, `C89_unlogged`, `C89_room`, `C89_jam`, `C89_notes`, `C89_notes_end`, `C89_components`, `C89_ranks`.

Scope: Two parts of the statement fail in the code: C89_jam and C89_notes_end (full queue during initial mail), C89_unlogged (time series without -d). The rest is proved for all schedules; C89_room says when the limit does not matter.

How: Loading is the program of C87/C88 with the algorithm that does nothing; an invariant says that mailboxes and properties stay as made and nobody is notified, so the state handed over agrees with a start on the final graph, and agreeing states run alike. Then C59 and C61 give components and ranks. The jam: messages to a strictly smallest vertex never change it, so it sends to all it leads to, each notification stays queued, and the queue has too few places (counting).

### C90 — Sliding windows in runs with several threads

Files: `QWin_*`. Status: proved.  
Theorems: `C90_view`, `C90_no_panic`, `C90_all_seen`, `C90_stale`, `C90_exact`, `C90_disorder`, `C90_disorder_one`, `C90_ranks`, `C90_threads_refuted`.

Scope: Safety at every query and at the end; that runs end is C91.

How: The run of C87 with an extra list of edges per thread that waits for expiry (QWin_Model). The stream has only additions; each pull puts deletions into the batch. The invariant ties what a vertex holds, what is in the batch and the list of the thread to the thread's part of the stream (QWin_Proofs). QWin_Timed carries the time along with edges of algorithms that do not use it.

### C91 — Sliding windows: every query is answered and the program ends

Files: `QWLive_*`. Status: proved.  
Theorems: `C91_ends`, `C91_ranks`.

Scope: Fair rounds end the program with sliding windows; instance PageRank.

How: The argument of C88 for the run of C90. The measure counts the events not yet read, those pulled, the edges waiting for expiry and the deletions in the batch, weighted so that turning a waiting edge into a deletion is progress. Instance PageRank by the bound of C59, carried over to edges with times.

### C92 — Limited queues between file and graph threads never block for ever

Files: `Flow_*`. Status: proved.  
Theorems: `C92_drains`, `C92_in_order`, `C92_all`, `C92_channels`, `C92_sizes`, `C92_held_up`, `C92_one_place_refuted`.

Scope: Model: Flow_Model.v, on top of Remit_Model's pipeline; a measure falls in every fair round until drained.

How: Flow_Model.v puts limited queues, waiting producers, the readers' round robin and ConvergeDynamic's waiting around the pipeline of Remit_Model.v (so C22, C23 carry over: every run is a run of that pipeline, i_abs). Deadlock freedom: a measure of the work left never rises and falls in every round in which everybody gets a turn, until drained (drains). Simplification: whether a full queue grows instead of making its producer wait is left open at each step (both allowed).

### C93 — One thread's loop: batches, buffers, commands and answers

Files: `Turn_*`. Status: proved.  
Theorems: `C93_range`, `C93_growth`, `C93_once`, `C93_batch`, `C93_mail`, `C93_room`, `C93_answers`, `C93_sync_lost_refuted`, `C93_top_first`, `C93_static_commands`, `C93_static_mail`.

Scope: Model: Turn_Model.v, one iteration against an arbitrary world. The answers to commands are proved for the dynamic loop; for the static loop only which commands panic and the handling of notifications (no theorem about its answer to EPOCH or BLOCK_ALL).

How: Turn_Model.v is a line by line model of one iteration of ConvergeDynamicThread and ConvergeAsyncThread; everything the iteration finds is an arbitrary world record. The invariant (pull at most the length of the buffer, announcements equal to flags) holds over any sequence of worlds; topology_ok and algorithm_ok describe the two large stages completely.

### C94 — Waiting gives up, and when

Files: `Turn_*`. Status: proved.  
Theorems: `C94_patience`, `C94_bound`, `C94_reset`, `C94_series_refuted`, `C94_slow_ready`, `C94_slow_panic`, `C94_static_bound`.

Scope: Model: Turn_Model.v (backoff, back_off, slow).

How: The counters of failures are part of the thread's state in Turn_Model.v; rested relates them to the time slept (the sum of the sleeps is quadratic in the counter). slow is the loop shared by the queues' blocking operations, against an arbitrary sequence of looks.

### C95 — Printed summaries: index order, thread states, colour distribution

Files: `Summ_*`. Status: proved.  
Theorems: `C95_order`, `C95_order_unique`, `C95_status`, `C95_status_range`, `C95_colours`, `C95_ratio`, `C95_number_iff`, `C95_number_refuted`.

Scope: sort.Stable modelled as the insertion sort it is for at most 20 elements; uniqueness covers any stable sort

How: insertion sort keeps a strongly sorted prefix under (key, index); two strongly sorted permutations are equal; counting arrays by induction over the list

### C96 — Queue counters that wrap at 2^64

Files: `Wrap_*`, `WrapO_*`, `WrapS_*`. Status: proved.  
Theorems: `C96_mpsc_same`, `C96_mpsc_offers`, `C96_mpsc_fifo`, `C96_offer_refuted`, `C96_spsc_same`, `C96_spsc_refuted`.

Scope: OfferMP (unused by the graph code): same up to 2^64 - size - 1 tickets, refuted beyond; the growable queue's counters stay unbounded (C13)

How: simulation: words are the unbounded counters mod 2^64; from C12's invariant tickets are at most size + producers ahead, so equality of words is equality (an offer's old ticket: as long as all tickets fit); the stale offer by induction over 2^64 rounds; for the single-producer queue a run of 2^64 - size + 1 rounds by induction, then a stuck invariant

### C97 — Single-producer calls of the multi-producer queue

Files: `OfferSP_*`. Status: proved.  
Theorems: `C97_as_multi`, `C97_fifo`, `C97_refused_full`.

Scope: one producer, as the names demand; sequentially consistent steps; counters unbounded (C96)

How: simulation into the multi-producer model with one producer: an offer that has written its element but not advanced enqueue is an offer before its compare-and-swap, and the consumer cannot be reading that slot (C12's invariant)

## Axioms

For every theorem named in `MANIFEST.json`, `Print Assumptions` prints "Closed under the global
context": no axiom is used, not even of the standard library.  `vcheck` and `coqchk` also list the
seven constants of `Coq.ssr.ssrunder` (`Under_rel` and others); these are the opaque module
parameters of a standard-library file that is loaded with std++ and mathcomp, and no theorem
depends on them.

## Checking

`cd rocq && coq_makefile -f _CoqProject -o Makefile && make -j4` builds everything (about 9 minutes
on 4 cores).  No file uses `Admitted`, `admit`, an own axiom, a module type or a functor.
