# Design: a Rocq model of psu-db/dynamic-extension

The code in `/repo` is read as text only.  Nothing of it is built or run.  The
model lives in `rocq/theories` (logical name `Verif`), uses only Coq 8.16.1 and
its standard library, and is built by
`coq_makefile -f _CoqProject -o Makefile && make -j4` in `rocq/`.

## 1. Shape of the model

* Every C++ function in scope becomes a small total Gallina function next to a
  comment that cites file and lines and lists the simplifications.
* Undefined behaviour, failed `assert`s and exhausted fuel are a distinct
  outcome: `Fail f` of `res A := Ok a | Fail f`.  Theorems that say "never
  faults" exclude all of them, theorems that assume "did not fault" say so.
* Sequential behaviour (SerialScheduler) is a state machine
  `step : op -> ext -> res (ext * result)` over the buffer, the levels, the
  state vector and the epochs.
* The structure and the extension are parameterised by the two constructors of the
  shards, `builders R` (from a buffer view, from shards).  A shard is its array of
  records and its two counts; search structures are functions of the array.
  `sorted_shards qlt` are the constructors of util/SortedMerge.h, which ISAMTree and
  Alias call, with the queue order `qlt`; PGM and TrieSpline have their own loops
  (`LearnModel.v`), which C77 proves to build the same arrays.  It is a coercion, so `run_new qlt C ops` runs
  an index with such shards.  `vp_shards` and `trie_shards` (`KindModel.v`) are the
  constructors of VPTree and of the tries.
* Concurrent behaviour is a labelled transition system whose steps are the
  atomic loads, stores and CAS operations of the source, for any number of
  threads.  Memory is sequentially consistent (the source uses the default
  `memory_order_seq_cst` everywhere).
* Specifications are separate (`Spec*.v`): multisets by counting, sets of live
  records by folding the history, lower bounds by counting smaller keys.

## 2. External code that is not in /repo

`/repo/external/*` are empty submodules.  The following are modelled by
contract, and the contract is part of the trusted base:

| component | contract used |
| --- | --- |
| `psudb::PriorityQueue` | `peek()` is a minimum of the queue, `peek(1)` a minimum of the rest, for a strict total order on (record, version) that refines the record order `rec < rec`.  The order among *equal* records is not known.  The model takes the order as a parameter; general theorems hold for every such order, specific ones name the rule used (`ByVersion`: smaller version first; `ByHeader`: smaller header first, then version). |
| `psudb::PriorityQueue` with `DistCmpMax` | `peek`/`pop` return an entry farthest from the query point; ties arbitrary. |
| `psudb::BloomFilter` | no false negatives; arbitrary false positives. |
| PGM index / PLEX TrieSpline | `search` returns an interval that brackets the lower bound. |
| `ts::Builder` | `AddKey` asserts that keys do not decrease and lie between the two bounds given at the start. |
| `fst::Trie`, `louds::Patricia` | built over distinct keys in ascending order, a lookup returns the index of the key, or nothing if it is not there; nothing is assumed for other vectors. |
| gsl rng | any value in range; for the distributions (C61, C62) all values equally often, `gsl_rng_uniform` in steps of 1/`grain`. |
| `psudb::Alias` | an index of positive weight; for the distributions one number selects the index, exactly in proportion to the weights (no rounding). |
| `std::sort` | a sorted permutation (the model uses insertion sort; the comparator is total on distinct headers, and the theorems use only sortedness and permutation unless stated). |
| LockedPriorityQueue | pop returns a smallest element with respect to `Task::operator<`. |
| ctpl::thread_pool | a FIFO queue of tasks; each thread runs tasks while there are any, and counts as idle while it waits; `stop(true)` lets the threads leave when the queue is empty, waits for them, then clears the queue. |
| `std::condition_variable` | a notification wakes the waiting threads and is lost if there are none; spurious wakeups are possible. |

## 3. Plan per property

| id | what is modelled | how |
| --- | --- | --- |
| C01-C04 | whole serial stack: ring buffer, flush, merge, three layouts, range query, static structure | one invariant over `run`: counts per record, sortedness, non-empty shards, state vector in sync; induction on the history |
| C05 | same, with tombstones | net count preserved by buffer->shard and by k-way merge for every queue order |
| C06 | same | per-record words over {insert, tombstone}; the merge is prefix rewriting `it -> empty`; invariant on age-ordered concatenation; counterexamples for wrap-around and `ByHeader` |
| C07 | `rq::combine` on arbitrary cursors | net count lower bound for every queue order |
| C08 | same | counterexamples (buffer, tier order); exactness under stated conditions as `_partial` |
| C09 | `rc::Query` | exact formula of what is returned; exact for insert-only / no shard below range; counterexamples otherwise |
| C10, C11 | tagging erase, delete bits | counterexamples; partial theorems |
| C12 | pending shard of a full level | counterexample under BSM; proved for tiering and leveling |
| C13, C14 | level capacities | invariant for tiering and BSM; counterexample for leveling |
| C67, C68 | `get_compaction_tasks` with the execution of its tasks, tombstone queries of a level (`Compact*.v`); nothing calls the compaction loop at the pinned commit | the invariant of C01-C05 on the state before; counterexamples |
| C15 | shape of the structure | invariant on shard counts as base-s counter; C13, C15 and C44 also for every shard kind (`Prop_KindSize.v`) |
| C16, C17, C19, C41 | interleaving model of the ring buffer | inductive invariants for any number of threads; counterexample for C41 |
| C18 | sequential ring buffer and views | representation invariant |
| C64-C66 | all public calls of the sequential buffer, with 64-bit differences (`BufMore*.v`) | representation invariant over sequences of calls; counterexamples |
| C20 | interleaving model with write split from reservation | counterexample; proved when writes are atomic with the reservation |
| C21 | interleaving model of inserts, queries, reconstruction, transition | invariant: epoch contents = prefix of the append log up to its head |
| C22, C23, C43 | epoch pointers, reference counts, reconstruction flag, condition variable | invariants, counterexamples for the end_job race and the lost wake-up |
| C24 | dispatcher, wakeup thread, pool threads, shutdown of the FIFO scheduler | invariant on timestamps; progress along infinite fair executions by a decreasing load; counterexamples for shutdown |
| C25-C27 | ISAM tree construction and search | induction on levels |
| C28 | binary search | loop invariant |
| C29 | search with oracle bounds | loop invariants |
| C30, C31 | vantage-point tree, quickselect, search over an abstract metric with values in an abstract ordered group (exact arithmetic) | permutation of index ranges; induction on tree; triangle inequality |
| C32 | kNN combine; histories of an index with VPTree shards | k-smallest-of-union; the constructors keep every record |
| C55, C56 | the serial stack with VPTree and trie shards | laws of the constructors (keep all records; cancel only matching pairs; drop the tagged ones), induction on the history; with tagging the erases look records up through the shard's own index (`run_new_by`) |
| C33, C34 | sampling with oracle rng | invariants; counterexamples for termination and coverage |
| C35 | point lookup query | exactness for unique keys insert-only; counterexamples |
| C36, C37 | comparison operators, header bits | algebra |
| C38 | sorted merge | invariants |
| C39, C40, C42 | | counterexamples and partial theorems |
| C47, C48 | sampling as above | counterexamples; partial theorems |
| C46 | CosinePoint on unit vectors | counterexample; for any distance function the answer is k stored records (`KNNAny.v`) |
| C44 | state vector | part of the main invariant |
| C53, C54 | the serial stack, BSM with empty shards included | invariant that bounds contents and sizes from above only |
| C57 | successive reconstructions on their own, flushes of any size, the three kinds of shards | the step lemma of C01-C05 and C13-C15, by induction on the list of flushes |
| C78 | the same, with any number of tombstones (`FlushAny.v`) | every step of a reconstruction passes on a sub-multiset; the invariant of C53 and C54 for BSM |
| C83 | the same (`FlushKeep.v`, `SysKeep.v`) | every step of a reconstruction removes pairs of a copy and an equal tombstone; joined with C69 and C71 for executions; counterexample for BSM |
| C58 | the interleaving model and the flushes composed | flush sizes as an invariant of all executions; C21 and C57 composed |
| C63 | as C58, with the other reads and shard kinds | the reads as functions of an epoch (`static_on`, `pl_on`, `knn_on`, `rc_on`); C21 and C57 composed |
| C59 | the interleaving model with the destructor | invariant: every allocated epoch is in a pointer or in the hand of one thread |
| C60 | the reported sizes of `ISAMTree.h`, `VPTree.h`, `Alias.h`, summed as in `DynamicExtension.h` | the main invariant; number of nodes by induction on the passes and the recursion; counterexample |
| C61, C62 | sampling as above, over histories; exact alias structure, all random numbers counted | counting of the outcomes by induction on the sources; counterexample |
| C49, C50, C51 | the interleaving model of C21-C23 | counterexamples; the set of assertions that can fail; count between completed and started inserts |
| C69-C71 | the same model, all executions | origin of every slot as an invariant; the invariant of C21 relative to a set of slots: with no slots it gives sizes in all executions, with all slots C21 |
| C72, C73 | `ReconstructionVector` of `types.h` (`Vec*.v`); `SerialScheduler.h` with nested jobs (`Ser*.v`) | induction on the calls and on the tree of jobs; counterexamples |
| C74 | the interleaving model of C21, one thread running alone (`Solo*.v`) | a measure that each step of the call lowers; counterexamples |
| C75 | `get_available_capacity` over sequential histories with views (`Space*.v`) | reference counts as the number of views held; counterexample |
| C76 | the interleaving model of C21, without three windows (`Safe*.v`, `RestProofs.v`) | invariant: counts are numbers of users; completion of all calls in five phases, using C74; counterexamples |
| C79 | constructors and destructor of `FSTrie.h` (`Drop*.v`) | no shard is built without records: the agreement lemmas of C77 with the invariants of C56 and C57; counterexamples |
| C80, C81 | the benchmarks' Bentley-Saxe blocks, `vptree_bsm.h` and `triespline_bsm.h` (`Bench*.v`) | the searches of C30 and C29; nearest neighbours of parts; counting in a sorted array; counterexamples |
| C82 | the benchmarks' `insert_records` (`Drive*.v`) | induction on the iterations, joined with C01, C10 and C42; counterexamples |
| C85, C86 | the benchmarks' `file_util.h` (`File*.v`) | induction on the file, against functions that write such files; counterexamples |
| C87 | the benchmark programs up to the filled index (`Prog*.v`) | C85 and C82, twice; counterexample |
| C88 | clients over the interleaving model of C21, `thread_scaling_bench.cpp` (`Scale*.v`) | invariant: the request inside an append is the client's next; counterexample |
| C89 | the counting programs `pgm_bench.cpp` and `ts_bench.cpp`, from their two files to the answers (`Tour*.v`) | composition of C09, C84, C86 and C87; counting by equality classes; counterexamples |
| C90 | the sampling program `irs_bench.cpp`, from its two files to the samples (`Trip*.v`) | composition of C47, C84, C86 and C87; a query on a range without records never ends; counterexample |
| C91 | the nearest-neighbour programs `vptree_bench.cpp` and `vptree_bench_alt.cpp`, from their two files to the answers (`Near*.v`) | composition of C32, C56, C82, C84, C85 and C86; invariant of tagged VPTrees; counterexamples |
| C92 | the string lookup program `fst_bench.cpp`, from its file to the answers (`Fst*.v`) | composition of C55, C56, C84, C85 and C86; counterexamples |
| C93 | `bigann_sample.cpp`, which draws points from a file (`Draw*.v`) | induction over the points with the set of those seen; counterexamples |
| C94 | `insert_tail_latency.cpp`, which inserts in batches (`Batch*.v`) | induction over the batches, C01 and C02; counterexample |
| C95 | `vldb/vptree_parmsweep.cpp` and `ts_parmsweep.cpp`, which try many parameters (`Sweep*.v`) | induction over the rounds, each as in C91 or C89; counterexample |
| C84 | the benchmarks' `run_static_queries` on the result of `create_static_structure` (`Alone*.v`) | the contents given by C04, C10 and C56, then each query on one sorted array or tree; counterexamples |
| C52 | logging of latencies by concurrent jobs | sums over the calls; counterexample for the maximum |

Where the code violates a property the theorem is named `..._refuted` and gives
a concrete witness computed by the kernel; the part that does hold is proved
next to it.

## 4. What is modelled and what is not

| code | model | notes |
| --- | --- | --- |
| `interface/Record.h` | `RecordModel.v` | all record types; `Wrapped` headers as numbers with bit operations |
| `structure/MutableBuffer.h`, `BufferView.h` | `BufferModel.v`, `BufMoreModel.v` (sequential), `TailModel.v` (32-bit counters), `BufConcModel.v` (atomic steps) | |
| `util/SortedMerge.h`, `util/Cursor.h` | `MergeModel.v` | |
| `structure/InternalLevel.h`, `ExtensionStructure.h` | `StructModel.v`, `CompactModel.v` | reconstruction planning and execution, all three layouts, both delete policies; compactions |
| `DynamicExtension.h`, serial | `ExtModel.v`, `FlushModel.v` | |
| `query/*.h` | `QueryModel.v`, `SampleModel.v`, `VPModel.v` | range query, range count, point lookup, kNN, independent and weighted range sampling |
| `shard/ISAMTree.h` | `ISAMModel.v` | |
| `shard/Alias.h`, `PGM.h`, `TrieSpline.h` | `SearchModel.v`, `LearnModel.v` (constructors of PGM and TrieSpline) | the learned models by contract |
| `shard/VPTree.h` | `VPModel.v` | distances in an abstract ordered group |
| `shard/FSTrie.h`, `LoudsPatricia.h` | `KindModel.v`, `DropModel.v` (destructor of FSTrie) | the external tries by contract; strings with their addresses, as the source compares keys with `==` |
| `DynamicExtension.h`, concurrent | `SysModel.v` | epochs, jobs, inserts, reconstructions, awaiting; see below |
| `scheduling/FIFOScheduler.h`, `Task.h` | `SchedModel.v` | |
| `scheduling/SerialScheduler.h` | `SerModel.v` | |
| `util/types.h` | `StructModel.v` (tasks), `VecModel.v` | |
| `scheduling/statistics.h` | `StatModel.v`, `SerModel.v` (types of jobs) | |
| `get_memory_usage`, `get_aux_memory_usage` | `MemModel.v` | for the external tries and models these report a size that is not modelled |
| `benchmarks/include/vptree_bsm.h`, `triespline_bsm.h` | `BenchModel.v` | the Bentley-Saxe method that uses them is external: it is assumed to merge the answers of its blocks one after another |
| `insert_records` of `benchmarks/include/standard_benchmarks.h` | `DriveModel.v` | serial scheduler |
| `benchmarks/include/file_util.h` | `FileModel.v` | files are lists of bytes that can be opened; atof, the conversion of floating-point numbers and the comparison of selectivities are parameters |
| `benchmarks/vldb/irs_bench.cpp:40-50, 59-68` (as in the other programs of the directory) | `ProgModel.v` | the uniform random numbers are a sequence of answers to "below the delete proportion?"; printing and timing are left out |
| `benchmarks/vldb/thread_scaling_bench.cpp:53-60, 82-107` | `ScaleModel.v` | threads may make other calls between their inserts |
| `benchmarks/vldb/pgm_bench.cpp:42-84`, `benchmarks/include/standard_benchmarks.h:28-90, 105-126` for range counts | `TourModel.v` | times, memory usages and printing are left out; dividing by the number of queries faults if it is 0 |
| `run_static_queries` of the same file | `AloneModel.v` | one query; the query classes as for the index |
| `benchmarks/vldb/irs_bench.cpp:40-89` with `irs::Query` | `TripModel.v` | as `TourModel.v`; each query draws its own random numbers, any |
| `benchmarks/vldb/vptree_bench.cpp:41-93`, `vptree_bench_alt.cpp:41-93` | `NearModel.v` | as `TourModel.v`; the metric, the queue and the making of a record from its numbers are parameters |
| `benchmarks/vldb/fst_bench.cpp:44-93` | `FstModel.v` | as `TourModel.v`; the addresses of the strings and the lookup of the trie are parameters |
| `benchmarks/bigann_sample.cpp:30-49` | `DrawModel.v` | random numbers and the ratio are compared exactly; the points have as many components as the file says |
| `benchmarks/insert_tail_latency.cpp:26-76` | `BatchModel.v` | times are left out; one thread inserts, serial scheduler as in the program; the program names the template arguments of an earlier version of the index and is read with the present one |
| `benchmarks/vldb/vptree_parmsweep.cpp:46-124`, `ts_parmsweep.cpp:44-119` | `SweepModel.v` | as for `NearModel.v` and `TourModel.v`; from the records and queries that were read on; deleting an index at the end of a round is left out |

Not modelled: floating point (`calc_distance`, `pow`, proportions are over exact
integers or abstract metrics), memory allocation failure, alignment,
prefetching, printing, thread affinity system calls, overflow of 64-bit counters, the rest of the
benchmarks, the tests.
(LoudsPatricia's constructor from shards takes a non-const vector, so it does not
satisfy `ShardInterface`; the model ignores that.)

### Simplifications of the concurrency models

* Memory is sequentially consistent: every atomic of the source uses the default
  order.  Plain accesses are steps of their own (the write of a record is a step
  after the reservation of its slot).
* Where C++ leaves the order of two loads open (`m_tail.load() - m_head.load().head_idx`
  in the test of the low watermark) `SysModel.v` allows both orders.
* `SysModel.v` composes the ring buffer of `BufConcModel.v` with the epochs and
  the jobs of `DynamicExtension.h`.  The structure of an epoch is the list of
  the flushes that made it, each the list of the records of its view.  The levels
  and shards that these flushes give are computed by `flush_all` of `FlushModel.v`;
  C58 and C63 join the two.  A record count job counts the records of the flushes, which
  is what the shards hold as long as there are no tombstones (C57).
* Two conditions on executions appear in hypotheses: `calm` (no append is between
  its reservation and its write when a reconstruction reads the end of the
  buffer) and `still` (nor when a job does).  The code ensures neither; the
  `_refuted` theorems show what goes wrong without them.
* The destructor of the index is modelled from where its wait for the next epoch
  and the shutdown of the scheduler have ended (`destroy`); the shutdown is in
  `SchedModel.v`.
* Deadlines and sleeping are not modelled: the wakeup thread may run at any time.

## 5. Trusted base

* Coq 8.16.1's kernel, including its `vm_compute`.
* The reading of the C++ code that the comments in the model files document, and
  the contracts of section 2.
* `Print Assumptions` stands under every theorem in the `Prop_*.v` files.  It
  prints "Closed under the global context" for all of them: no axioms are used,
  neither of our own nor of the standard library.  Properties of record types,
  of the merge queue and of metrics are type-class arguments of the theorems,
  and `Example`s next to the theorems instantiate them.

## 6. Findings

The `_refuted` theorems state what the code at the pinned commit gets wrong.

| finding | theorem |
| --- | --- |
| A flush whose records all cancel makes an empty shard, which queries and merges dereference, and beside which BSM loses the next flush | `C05_bsm_refuted`, `C07_bsm_refuted`, `C13_bsm_refuted`, `C12_bsm_flush_refuted`, `C83_bsm_refuted`, `C42_*_refuted`, `C38_empty_shard_refuted` |
| Timestamps are slot numbers: across the wrap of the ring a tombstone sorts before its record, and the erased record stays | `C06_wrap_refuted` |
| Range query and point lookup return erased records: insert and erase in one buffer, or in two shards of a tier | `C08_*_refuted`, `C35_buffer_refuted`, `C35_tier_refuted` |
| Point lookup misses a key that was erased and inserted again, and non-zero values in shards that compare whole records | `C35_reinsert_refuted`, `C35_value_refuted` |
| Range count reads past a shard below the range, and counts records with a tombstone | `C09_*_refuted` |
| Range query, kNN and sampling ignore delete tags | `C10_range_query_refuted`, `C32_tagged_refuted`, `C47_deleted_refuted` |
| kNN returns erased records and tombstones | `C32_erased_refuted` |
| Tries: keys are compared by address in the buffer; a record and its tombstone flushed together are both kept, under a duplicate key; a key that is the empty literal is dropped at the flush; a shard without records has no trie, and a lookup or an erase by tagging that reaches it fails; nor can a static structure be built when all buffered records are tagged; of a key that was inserted twice, erases by tagging find the same record each time | `C56_static_tagged_refuted`, `C56_repeated_refuted`, `C55_*_refuted`, `C56_blank_refuted` |
| Tagging erase tags an already tagged copy and reports success; on a new index it matches unwritten slots | `C11_*_refuted` |
| Leveling exceeds level capacities and tombstone proportions | `C13_leveling_refuted`, `C14_leveling_refuted` |
| Compactions take the records of every task from level 0: a deeper level stays beyond the bound and the loop does not end; a tombstone moves below its record; under leveling a missing level or a null shard is read | `C67_stuck_refuted`, `C67_order_refuted`, `C67_leveling_refuted`, `C67_leveling_null_refuted` |
| A level's tombstone query misses a tombstone next to a copy of its record; its tombstone proportion counts tombstones twice | `C68_check_refuted`, `C68_prop_refuted` |
| The tombstone count includes tombstones that have been cancelled | `C39_tombstone_count_refuted` |
| `set_tombstone(false)` clears the whole header; timestamps are or-ed together and overflow at 2^29; `Wrapped::operator==` disagrees with `<` | `C36_*_refuted`, `C37_*_refuted` |
| The 32-bit tail: wrong slots after 2^31 appends, a lost append at 2^32 - 1 | `C40_*_refuted` |
| Appends are refused though there is space | `C41_*_refuted` |
| A late view of the old head is copied past the end of the ring | `C18_old_view_copy_refuted` |
| `delete_record` on an empty buffer searches the whole ring: it reports success for a record already handed over and tags it in the views of readers | `C65_delete_empty_refuted` |
| `truncate` leaves the head where it is: the count wraps below 0 and every append is refused | `C66_truncate_refuted` |
| A flush or a view covers slots that are reserved but not written: records lost, stale or overwritten | `C17_late_write_refuted`, `C20_lost_refuted`, `C21_*_refuted`, `C51_in_progress_refuted` |
| ... and the zero record of an unwritten slot is flushed and returned by range queries, though nobody inserted it | `C69_initial_record_refuted` |
| A release racing with a flush decrements the wrong counter: no flush ever after | `C19_stuck_refuted` |
| `await_next_epoch` can miss its notification | `C43_lost_wakeup_refuted` |
| `end_job` releases the wrong epoch: it aborts, or blocks all further flushes | `C49_*_refuted`, `C49_stuck_forever` |
| A stale watermark test schedules the reconstruction of an empty buffer, which aborts | `C50_insert_aborts_refuted`, `C50_one_thread_refuted` |
| Scheduler shutdown drops queued and dispatched jobs, or hangs | `C24_shutdown_*_refuted` |
| The total of a planned BSM reconstruction is 0, and wraps when the task is removed | `C72_total_refuted` |
| A job scheduled with the default type aborts when it has run | `C73_default_type_refuted` |
| A query spins while another thread stands inside a transition of epochs; after a release racing with a flush `get_record_count()` never returns | `C74_transition_refuted`, `C74_spin_refuted` |
| With a capacity below twice the high watermark the reported free space wraps to almost 2^64 | `C75_space_refuted` |
| Three windows are all that is wrong with the reference counts and assertions; each alone is enough for a failure | `C76_no_stop_partial`, `C76_drains_partial`, `C76_leave_refuted`, `C76_drop_refuted`, `C76_empty_refuted` |
| The maximum latency is overwritten by a smaller one | `C52_maximum_refuted` |
| ISAM, PGM and TrieSpline lookups read past the last record; the ISAM filter is null; 50 records make no spline | `C27_*_refuted`, `C45_past_the_end_refuted`, `C29_fifty_refuted` |
| Range sampling from a static structure returns a record outside the range if the range holds none; a leftover tombstone is returned by its range queries and counted as a record; the search of a static structure without records faults | `C84_empty_range_refuted`, `C84_tombstone_refuted`, `C84_empty_refuted` |
| A TrieSpline shard made from an empty buffer view, or the static structure of an empty index of such shards, reads the first of no elements | `C77_empty_view_refuted`, `C77_static_empty_refuted` |
| An FSTrie shard without records frees a pointer that was never set when it is destroyed (and uses it when its memory is reported) | `C79_erased_refuted`, `C79_tagged_refuted`, `C79_blank_refuted`, `C79_empty_refuted` |
| The benchmarks' range-count block counts the record before the lower bound, from 50 records on | `C81_between_refuted` |
| The benchmarks' driver reads past the end of the list of positions to delete; with a position listed twice and tagging it never ends | `C82_short_refuted`, `C82_repeated_refuted` |
| The benchmarks read keys without a value from a file that is too short, and write outside the record if the file has more dimensions | `C85_short_refuted`, `C85_dim_refuted` |
| The benchmarks' query files: a word that is not a number is read for ever; a last line without selectivity becomes a query; a space at the end of a line is one more number, written outside the point; a blank last line is a null pointer | `C86_text_refuted`, `C86_cut_refuted`, `C86_space_refuted`, `C86_blank_refuted` |
| The benchmark programs erase record 0 for ever if the random numbers ask for more erases than positions were chosen | `C87_unfilled_refuted` |
| The thread-scaling benchmark never inserts the last records if they cannot be divided among the threads | `C88_rest_refuted` |
| The counting benchmarks fault if all records of a shard lie below a query range | `C89_fault_refuted` |
| The counting benchmarks divide by 0 if no query line has the selectivity asked for | `C89_no_query_refuted` |
| The counting benchmarks, which use tombstones, count erased records of the range whose tombstone is still stored; the static structure does not | `C89_erased_refuted` |
| The sampling benchmark, which uses tagging, can sample erased records, with rejection on or off; the static structure does not | `C90_erased_refuted` |
| The sampling benchmark never ends if a query range contains no record of the data file | `C90_samples_partial` (last part), `C90_case` |
| The nearest-neighbour benchmarks, which use tagging, return erased records; the static structure does not | `C91_erased_refuted` |
| The nearest-neighbour benchmarks erase one of two equal records twice, so that the other stays and is returned by the static structure | `C91_equal_refuted` |
| The string lookup benchmark finds a record that it has erased, in the index and in the static structure, when the record and its tombstone are flushed together | `C92_erased_refuted` |
| The string lookup benchmark answers the query for a repeated line with the record of another line | `C92_repeated_refuted` |
| The program that draws points compares with the inverse of the intended proportion: it always takes the first different points of the file | `C93_random_refuted`, `C93_first` |
| If a file has fewer different points than are to be drawn, the first is printed again and again; without points the program reads outside of its vector | `C93_few_refuted`, `C93_empty` |
| The program that inserts in batches does not cut the last batch; with empty batches it does not end, without records it divides by 0 | `C94_more_refuted`, `C94_endless`, `C94_none` |
| The programs that try parameters let the random numbers go on from round to round: the rounds erase other records, so the same parameters give other answers | `C95_same_refuted` |
| VPTree lookup misses inner vantage points and ties, or follows a null pointer; k = 0 faults; the cosine is not a metric | `C31_*_refuted`, `C30_zero_refuted`, `C46_cosine_refuted` |
| Sampling: an empty range never ends, second rounds give too few or too many samples, the last buffered record is never sampled, all records tagged never ends | `C33_*_refuted`, `C34_last_refuted`, `C48_*_refuted` |
| Weighted sampling favours buffered records over records of the same weight in shards (and never returns the last buffered one) | `C62_refuted` |
| The reported memory usage leaves out the records in the shards (and, for Alias, everything but the buffer) | `C60_records_refuted`, `C60_alias_constant` |

## 7. Changes to the plan

* C22 was expected to be false because of the race in `end_job`.  It holds: the
  misdirected release takes place only on the successor epoch, which is not
  deleted before it has become current and been replaced in turn.
* C24 gained progress: the plan had an invariant on timestamps only.
* C21 was planned without conditions and is false without them.
* C05 and C07 were planned for every layout.  Under BSM they fail once a shard is
  empty; the theorems exclude such histories (`bsm_safe`, met by `few_erases`), and
  the properties now say so.  Sizes, counts and soundness need no such condition.
