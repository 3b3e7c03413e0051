{"id": "C01", "title": "Single-threaded inserts always succeed", "statement": "Using the serial scheduler with 1 <= low watermark <= high watermark and scale factor >= 1 (2 for BSM), every insert() of an insert-only workload returns 1 and never triggers an assertion failure or undefined behaviour.", "quantifier": "all layouts, all watermarks, scale factors, record sequences of any length", "why_tests_cant": "Tests use one configuration and at most 1e5 records; merge cascades depend on the exact length and on watermark/scale-factor arithmetic", "anchors": ["include/framework/DynamicExtension.h:insert", "include/framework/DynamicExtension.h:internal_append", "include/framework/DynamicExtension.h:schedule_reconstruction", "include/framework/DynamicExtension.h:reconstruction", "include/framework/structure/ExtensionStructure.h:flush_buffer", "include/framework/structure/MutableBuffer.h:append", "include/framework/structure/MutableBuffer.h:advance_head"]}
{"id": "C02", "title": "Record count equals number of inserts", "statement": "After any single-threaded insert-only workload get_record_count() equals the number of inserts performed.", "quantifier": "all layouts, configurations, record sequences of any length", "why_tests_cant": "Tests compare the count on one fixed configuration only", "anchors": ["include/framework/DynamicExtension.h:get_record_count", "include/framework/structure/ExtensionStructure.h:get_record_count", "include/framework/structure/InternalLevel.h:get_record_count"]}
{"id": "C03", "title": "Range query exactness without deletes", "statement": "After any single-threaded insert-only workload a range query [l,u] returns exactly the multiset of inserted records whose key is in [l,u], wherever the records are (buffer or any shard).", "quantifier": "all layouts, configurations, record sequences and bounds", "why_tests_cant": "One random range over one workload is tested", "anchors": ["include/query/rangequery.h:local_preproc,local_query,local_query_buffer,combine", "include/framework/DynamicExtension.h:async_query", "include/framework/structure/ExtensionStructure.h:get_local_queries"]}
{"id": "C04", "title": "Static structure holds exactly the inserted records", "statement": "After any single-threaded insert-only workload create_static_structure() returns a shard that contains exactly the inserted multiset, sorted by record order, with no tombstones.", "quantifier": "all layouts, configurations, record sequences", "why_tests_cant": "Test compares counts only on one random workload", "anchors": ["include/framework/DynamicExtension.h:create_static_structure", "include/framework/structure/InternalLevel.h:get_combined_shard", "include/util/SortedMerge.h:sorted_array_merge"]}
{"id": "C05", "title": "Deletes and inserts balance", "statement": "With tombstone deletes, after any single-threaded history that does not fault, for every record the number of stored plain copies minus the number of stored tombstones (buffer plus all shards) equals inserts minus erases of that record.", "quantifier": "all histories and records; tiering and leveling layouts, and BSM histories in which no shard ever becomes empty; every tie-breaking rule of the merge queue", "why_tests_cant": "The cancellation paths depend on how copies are spread over buffer, shards and levels", "anchors": ["include/util/SortedMerge.h:sorted_array_from_bufferview", "include/util/SortedMerge.h:sorted_array_merge", "include/framework/structure/ExtensionStructure.h:reconstruction", "include/framework/structure/ExtensionStructure.h:flush_buffer_into_l0"]}
{"id": "C06", "title": "Static structure reflects deletes", "statement": "With tombstone deletes, create_static_structure() contains a plain copy of exactly those records that are live (inserted and not erased afterwards), each once.", "quantifier": "all layouts, histories that never insert a live record; conditions on wrap-around and tie-breaking stated", "why_tests_cant": "Tests use aligned watermarks, so wrap-around inside a buffer never happens, and never re-insert an erased record", "anchors": ["include/framework/DynamicExtension.h:create_static_structure", "include/util/SortedMerge.h:sorted_array_from_bufferview", "include/util/SortedMerge.h:sorted_array_merge", "include/framework/structure/MutableBuffer.h:append"]}
{"id": "C07", "title": "Range query never drops a live record", "statement": "With tombstone deletes, a range query returns every in-range record at least (inserts - erases) times and at most (inserts) times.", "quantifier": "all histories that do not fault; tiering and leveling layouts, and BSM histories in which no shard ever becomes empty; every tie-breaking rule", "why_tests_cant": "Tests never query after deletes", "anchors": ["include/query/rangequery.h:combine", "include/framework/DynamicExtension.h:query"]}
{"id": "C08", "title": "Range query never returns an erased record", "statement": "With tombstone deletes, a record that was inserted once and erased afterwards is not in the result of a later range query.", "quantifier": "all layouts, histories", "why_tests_cant": "Tests never query after deletes", "anchors": ["include/query/rangequery.h:local_query_buffer,combine", "include/framework/structure/InternalLevel.h:get_local_queries"]}
{"id": "C09", "title": "Range count exactness", "statement": "A range count returns the number of live records whose key is in the range.", "quantifier": "all layouts, histories, bounds", "why_tests_cant": "Tests have no deletes and no shard wholly below the range", "anchors": ["include/query/rangecount.h:local_query,local_query_buffer,combine"]}
{"id": "C10", "title": "Tagged deletes hide records", "statement": "With tagging deletes, after erase(r) returned 1 for a record inserted once, range query and range count no longer report r.", "quantifier": "all layouts, histories", "why_tests_cant": "Tests with tagging never query after deletes", "anchors": ["include/query/rangequery.h:local_query,combine", "include/query/rangecount.h:local_query", "include/framework/DynamicExtension.h:erase", "include/framework/structure/BufferView.h:delete_record", "include/framework/structure/ExtensionStructure.h:tagged_delete"]}
{"id": "C11", "title": "Tagging erase reports success exactly when a live copy existed", "statement": "With tagging deletes, erase(r) returns 1 iff a live copy of r was present before the call, and it removes exactly one.", "quantifier": "all histories", "why_tests_cant": "Tests erase only present, distinct records, once", "anchors": ["include/framework/DynamicExtension.h:erase", "include/framework/structure/InternalLevel.h:delete_record", "include/framework/structure/BufferView.h:delete_record"]}
{"id": "C12", "title": "No acknowledged insert is lost by a flush", "statement": "After any single-threaded history, every record present in the buffer before a flush and not cancelled or deleted is present in a query-visible shard after it.", "quantifier": "all layouts, histories", "why_tests_cant": "Needs a flush in which everything cancels followed by another flush; never exercised under BSM", "anchors": ["include/framework/structure/InternalLevel.h:append_buffer", "include/framework/structure/InternalLevel.h:finalize", "include/framework/structure/InternalLevel.h:clone", "include/framework/structure/ExtensionStructure.h:flush_buffer_into_l0", "include/framework/structure/ExtensionStructure.h:can_reconstruct_with"]}
{"id": "C13", "title": "Level capacity is respected", "statement": "At every point each level i holds at most high_watermark * scale_factor^(i+1) records and no more shards than its layout allows.", "quantifier": "all layouts, histories, configurations", "why_tests_cant": "Tests never inspect level sizes", "anchors": ["include/framework/structure/ExtensionStructure.h:get_reconstruction_tasks", "include/framework/structure/ExtensionStructure.h:find_reconstruction_target", "include/framework/structure/ExtensionStructure.h:can_reconstruct_with", "include/framework/structure/ExtensionStructure.h:calc_level_record_capacity"]}
{"id": "C14", "title": "Tombstone proportion invariant", "statement": "validate_tombstone_proportion() returns true after every single-threaded history.", "quantifier": "all layouts, histories, configurations", "why_tests_cant": "Tests check it on one 5%-delete workload", "anchors": ["include/framework/DynamicExtension.h:validate_tombstone_proportion", "include/framework/structure/ExtensionStructure.h:validate_tombstone_proportion"]}
{"id": "C15", "title": "Height grows logarithmically", "statement": "An index of height h has seen more than lwm*s^(h-1) operations with tiering (h>=1), more than lwm*(2^(h-2)+1) with BSM (h>=2), and more than hwm*s^(h-1) with leveling (h>=3), where s is the scale factor and lwm, hwm the watermarks.", "quantifier": "all histories, watermarks, scale factors", "why_tests_cant": "Asymptotics", "anchors": ["include/framework/DynamicExtension.h:get_height", "include/framework/structure/ExtensionStructure.h:grow", "include/framework/structure/ExtensionStructure.h:get_reconstruction_tasks_from_level"]}
{"id": "C16", "title": "Buffer never exceeds the high watermark", "statement": "Under any interleaving of any number of threads inserting, viewing and flushing, the number of buffered records never exceeds the high watermark and two appends never get the same slot.", "quantifier": "all thread counts, interleavings", "why_tests_cant": "Races need adversarial schedules", "anchors": ["include/framework/structure/MutableBuffer.h:append", "include/framework/structure/MutableBuffer.h:try_advance_tail", "include/framework/structure/MutableBuffer.h:advance_head"]}
{"id": "C17", "title": "A held buffer view is never overwritten", "statement": "As long as a reader holds a buffer view no concurrent append writes a slot that belongs to the view's records.", "quantifier": "all thread counts, interleavings, default capacity 2*high watermark", "why_tests_cant": "Races need adversarial schedules", "anchors": ["include/framework/structure/MutableBuffer.h:get_buffer_view", "include/framework/structure/MutableBuffer.h:advance_head", "include/framework/structure/MutableBuffer.h:try_advance_tail", "include/framework/structure/MutableBuffer.h:get_head", "include/framework/structure/MutableBuffer.h:release_head_reference"]}
{"id": "C18", "title": "Buffer views list the records in append order", "statement": "In sequential use a view lists exactly the records appended since the head, in order; get(i) and the bulk copy agree, including across wrap-around.", "quantifier": "all sequences of append / advance head, all capacities", "why_tests_cant": "One wrap-around position is tested", "anchors": ["include/framework/structure/BufferView.h:get", "include/framework/structure/BufferView.h:copy_to_buffer", "include/framework/structure/BufferView.h:to_idx", "include/framework/structure/MutableBuffer.h:append"]}
{"id": "C19", "title": "Flushes wait for readers of the previous buffer generation", "statement": "advance_head() returns false, changing nothing, while a view of the old head is held, and after it returns true old views keep their count and contents.", "quantifier": "all interleavings", "why_tests_cant": "Only one schedule tested", "anchors": ["include/framework/structure/MutableBuffer.h:advance_head", "include/framework/structure/MutableBuffer.h:release_head_reference"]}
{"id": "C20", "title": "An acknowledged concurrent insert is durable", "statement": "If insert() returned 1 in any thread, the record is in the buffer or in a shard from then on.", "quantifier": "all interleavings of appends and flushes", "why_tests_cant": "Needs a flush between slot reservation and slot write", "anchors": ["include/framework/structure/MutableBuffer.h:append", "include/framework/structure/BufferView.h:copy_to_buffer", "include/util/SortedMerge.h:sorted_array_from_bufferview", "include/framework/DynamicExtension.h:reconstruction"]}
{"id": "C21", "title": "Queries see a complete snapshot during reconstruction", "statement": "A query that starts at any moment of a concurrent reconstruction sees every previously appended record exactly once: in its epoch's shards or in its buffer view, never in both.", "quantifier": "all interleavings of inserts, queries, reconstruction and epoch transition", "why_tests_cant": "Requires querying at each step of the transition", "anchors": ["include/framework/DynamicExtension.h:get_active_epoch", "include/framework/DynamicExtension.h:advance_epoch", "include/framework/DynamicExtension.h:create_new_epoch", "include/framework/scheduling/Epoch.h:clone", "include/framework/scheduling/Epoch.h:get_buffer"]}
{"id": "C22", "title": "An epoch is not destroyed while a job uses it", "statement": "No epoch object is deleted between a job's acquisition of the epoch and the end of the job.", "quantifier": "all interleavings", "why_tests_cant": "Race window of a few instructions", "anchors": ["include/framework/DynamicExtension.h:get_active_epoch", "include/framework/DynamicExtension.h:end_job", "include/framework/DynamicExtension.h:advance_epoch", "include/framework/DynamicExtension.h:retire_epoch"]}
{"id": "C23", "title": "At most one reconstruction at a time", "statement": "At any time at most one reconstruction is scheduled or running.", "quantifier": "all thread counts, interleavings", "why_tests_cant": "Race", "anchors": ["include/framework/DynamicExtension.h:internal_append", "include/framework/DynamicExtension.h:schedule_reconstruction", "include/framework/DynamicExtension.h:reconstruction"]}
{"id": "C24", "title": "FIFO scheduling", "statement": "Jobs are dispatched in submission order, each at most once, and every job submitted is eventually dispatched.", "quantifier": "all submission / dispatch / shutdown interleavings", "why_tests_cant": "Shutdown race", "anchors": ["include/framework/scheduling/FIFOScheduler.h:schedule_job,run,schedule_next,shutdown", "include/framework/scheduling/Task.h:operator<"]}
{"id": "C25", "title": "ISAM tree bounds", "statement": "ISAMTree get_lower_bound(k) returns the number of records with key < k and get_upper_bound(k) the number with key <= k, for every non-empty sorted shard.", "quantifier": "all sizes, fanouts >= 2, leaf sizes >= 1, duplicate keys", "why_tests_cant": "Boundary effects at every power of the fanout", "anchors": ["include/shard/ISAMTree.h:get_lower_bound,get_upper_bound,build_internal_levels"]}
{"id": "C26", "title": "ISAM construction stays within its allocation", "statement": "Building the internal levels writes exactly as many nodes as were allocated.", "quantifier": "all sizes and fanouts", "why_tests_cant": "Silent heap overflow would not be seen", "anchors": ["include/shard/ISAMTree.h:build_internal_levels"]}
{"id": "C27", "title": "Shard point lookup", "statement": "point_lookup(r) on an ISAM shard returns a copy of r iff the shard contains one, and reads only inside the shard.", "quantifier": "all shards and records", "why_tests_cant": "Out-of-bounds read by one is silent", "anchors": ["include/shard/ISAMTree.h:point_lookup"]}
{"id": "C28", "title": "Alias shard lookup", "statement": "Alias get_lower_bound / point_lookup locate a record iff present, on every non-empty shard.", "quantifier": "all shards and records", "why_tests_cant": "Boundary cases", "anchors": ["include/shard/Alias.h:get_lower_bound,point_lookup"]}
{"id": "C29", "title": "Learned-index lower bound", "statement": "PGM / TrieSpline get_lower_bound followed by the callers' roll-forward locates the first record with key >= k whenever the model's search bound brackets it.", "quantifier": "all shards, all correct search bounds, scan and binary-search paths", "why_tests_cant": "Model error and threshold combinations", "anchors": ["include/shard/PGM.h:get_lower_bound", "include/shard/TrieSpline.h:get_lower_bound"]}
{"id": "C30", "title": "VPTree kNN search is exact", "statement": "A VPTree search for k>=1 neighbours returns k records that are nearest in the shard (or all of them if fewer), for every metric.", "quantifier": "all point sets, all random pivots, leaf sizes, k", "why_tests_cant": "Pruning bugs depend on geometry", "anchors": ["include/shard/VPTree.h:build_subtree,quickselect,partition,internal_search,search"]}
{"id": "C31", "title": "VPTree point lookup finds every stored point", "statement": "point_lookup(p) returns a record equal to p for every p stored in the VPTree.", "quantifier": "all point sets and pivots", "why_tests_cant": "Ties in distance needed", "anchors": ["include/shard/VPTree.h:point_lookup"]}
{"id": "C32", "title": "kNN query is exact", "statement": "A kNN query over buffer and shards returns the k nearest live records of the whole index.", "quantifier": "all insert-only contents; refuted with tagging", "why_tests_cant": "No such test across shards", "anchors": ["include/query/knn.h:local_query,local_query_buffer,combine"]}
{"id": "C33", "title": "Range sampling soundness", "statement": "Every record returned by independent range sampling is stored in the index, has its key in the range; the call terminates and returns the requested number of samples.", "quantifier": "all contents, bounds with l<=u, random outcomes", "why_tests_cant": "Randomised", "anchors": ["include/query/irs.h:local_preproc,distribute_query,local_query,local_query_buffer,repeat"]}
{"id": "C34", "title": "Weighted sampling covers the buffer", "statement": "Every buffered record with positive weight can be returned by weighted set sampling.", "quantifier": "all buffers", "why_tests_cant": "Statistical", "anchors": ["include/query/wss.h:local_preproc_buffer,local_query_buffer,repeat"]}
{"id": "C35", "title": "Point lookup query", "statement": "A point lookup for key k returns the live record with key k if there is one and nothing otherwise.", "quantifier": "all contents with unique keys", "why_tests_cant": "Tests never delete", "anchors": ["include/query/pointlookup.h:local_query,local_query_buffer,combine", "include/framework/DynamicExtension.h:async_query"]}
{"id": "C36", "title": "Record comparison is a strict weak order", "statement": "For every record type operator< is a strict weak order and operator== is exactly its incomparability, including the wrapped order used for sorting.", "quantifier": "all records of each provided type", "why_tests_cant": "Order laws quantify over triples", "anchors": ["include/framework/interface/Record.h:Record,WeightedRecord,EuclidPoint,CosinePoint,Wrapped"]}
{"id": "C37", "title": "Header flags are independent", "statement": "Setting the delete tag, visibility, tombstone flag or a timestamp below 2^29 never disturbs the other header fields and is read back correctly.", "quantifier": "all 32-bit headers and timestamps", "why_tests_cant": "Bit-level", "anchors": ["include/framework/interface/Record.h:Wrapped::set_delete,set_visible,set_timestamp,set_tombstone"]}
{"id": "C38", "title": "Shard construction", "statement": "Building a shard from a buffer view or from non-empty shards yields a sorted array, drops deleted records, never writes more records than allocated, and reports exact record and tombstone counts.", "quantifier": "all inputs, tie rules", "why_tests_cant": "Allocation overruns silent", "anchors": ["include/util/SortedMerge.h:sorted_array_from_bufferview", "include/util/SortedMerge.h:sorted_array_merge", "include/util/SortedMerge.h:build_cursor_vec"]}
{"id": "C39", "title": "Tombstone count", "statement": "get_tombstone_count() equals the number of tombstones stored in the index.", "quantifier": "all histories", "why_tests_cant": "Not tested after a flush", "anchors": ["include/framework/DynamicExtension.h:get_tombstone_count", "include/framework/structure/MutableBuffer.h:get_tombstone_count", "include/framework/structure/MutableBuffer.h:advance_head"]}
{"id": "C40", "title": "Buffer works for arbitrarily many appends", "statement": "append() reports success iff it stored the record, and stores it at the slot its position maps to, after any number of earlier appends.", "quantifier": "all tails up to 2^63", "why_tests_cant": "Needs 2^31 appends", "anchors": ["include/framework/structure/MutableBuffer.h:append"]}
{"id": "C41", "title": "Insert is refused only when the buffer is full", "statement": "append() returns 0 only if the buffer held high_watermark records at some moment of the call.", "quantifier": "all interleavings", "why_tests_cant": "Race", "anchors": ["include/framework/structure/MutableBuffer.h:try_advance_tail"]}
{"id": "C42", "title": "No operation crashes", "statement": "No single-threaded sequence of inserts, erases and queries triggers undefined behaviour or an assertion failure.", "quantifier": "all layouts, delete policies, histories", "why_tests_cant": "Needs a shard in which everything cancelled", "anchors": ["include/util/SortedMerge.h:sorted_array_merge", "include/shard/ISAMTree.h:get_lower_bound", "include/framework/structure/MutableBuffer.h:advance_head"]}
{"id": "C43", "title": "Awaiting a reconstruction", "statement": "await_next_epoch() returns once no new epoch is pending.", "quantifier": "all interleavings of waiter and transition", "why_tests_cant": "Lost wake-up", "anchors": ["include/framework/DynamicExtension.h:await_next_epoch", "include/framework/DynamicExtension.h:advance_epoch"]}
{"id": "C44", "title": "Reconstruction bookkeeping", "statement": "The structure's per-level record and shard counts used for planning equal the actual contents after every operation, and every planned task is executable.", "quantifier": "all layouts, histories", "why_tests_cant": "Internal state not tested", "anchors": ["include/framework/structure/ExtensionStructure.h:get_reconstruction_tasks", "include/framework/structure/ExtensionStructure.h:reconstruction", "include/framework/structure/ExtensionStructure.h:flush_buffer_into_l0", "include/util/types.h:ReconstructionVector"]}
{"id": "C45", "title": "Point lookup in learned shards", "statement": "point_lookup(r) on a PGM or TrieSpline shard returns a copy of r iff the shard contains one, and reads only inside the shard.", "quantifier": "all shards, records and bracketing search ranges", "why_tests_cant": "Out-of-bounds read by one is silent", "anchors": ["include/shard/PGM.h:point_lookup", "include/shard/TrieSpline.h:point_lookup"]}
{"id": "C46", "title": "kNN over cosine points", "statement": "A kNN query over CosinePoint records returns the records with the smallest calc_distance to the query point.", "quantifier": "all sets of unit vectors", "why_tests_cant": "Needs a tree of more than one leaf and opposite vectors", "anchors": ["include/framework/interface/Record.h:CosinePoint::calc_distance", "include/shard/VPTree.h:internal_search"]}
{"id": "C47", "title": "Sampling honours deletes", "statement": "Independent range sampling never returns a record that has been deleted, by a tag or by a tombstone.", "quantifier": "all contents and deletes", "why_tests_cant": "Tests sample insert-only indexes", "anchors": ["include/query/irs.h:local_query,local_query_buffer", "include/framework/DynamicExtension.h:async_query"]}
{"id": "C48", "title": "Weighted sampling returns the requested number", "statement": "A weighted set sampling query terminates; it returns exactly the requested number of samples whenever a live record of positive weight exists.", "quantifier": "all contents, weights, random outcomes", "why_tests_cant": "Depends on rejected samples", "anchors": ["include/query/wss.h:distribute_query,repeat"]}
{"id": "C49", "title": "Ending a job releases its own epoch", "statement": "The end of a query, or of any other call that reads the structure, releases the epoch that the call acquired, and never aborts the program.", "quantifier": "all interleavings of jobs and epoch transitions", "why_tests_cant": "Needs a transition between two loads of end_job", "anchors": ["include/framework/DynamicExtension.h:end_job", "include/framework/DynamicExtension.h:advance_epoch", "include/framework/DynamicExtension.h:retire_epoch"]}
{"id": "C50", "title": "Concurrent inserts never abort", "statement": "insert() and erase() called from several threads, with reconstructions in the background, never fail an assertion.", "quantifier": "all thread counts, interleavings", "why_tests_cant": "Needs a whole reconstruction between the watermark test and the flag", "anchors": ["include/framework/DynamicExtension.h:internal_append", "include/framework/DynamicExtension.h:reconstruction", "include/framework/structure/MutableBuffer.h:advance_head"]}
{"id": "C51", "title": "Record counts under concurrency", "statement": "get_record_count() returns a number of records that were present at some moment of the call: every insert that returned before is counted, and only inserts that returned before its end.", "quantifier": "all interleavings of inserts, counts and reconstructions", "why_tests_cant": "Tests count while nothing else runs", "anchors": ["include/framework/DynamicExtension.h:get_record_count", "include/framework/scheduling/Epoch.h:get_buffer"]}
{"id": "C52", "title": "Reported latencies", "statement": "Once all jobs have ended, the statistics report the number of queries and of reconstructions that were run, their average latency, and the greatest latency among them.", "quantifier": "all interleavings of jobs that end", "why_tests_cant": "Check-then-store race on the maximum", "anchors": ["include/framework/scheduling/statistics.h:log_time_data", "include/framework/DynamicExtension.h:print_scheduler_statistics"]}
{"id": "C53", "title": "Record count after any history", "statement": "After any single-threaded history of inserts and erases that does not fault, get_record_count() returns the number of records and tombstones physically stored in the buffer and in all shards.", "quantifier": "all layouts, delete policies, configurations, histories", "why_tests_cant": "Tests compare the count with the number of inserts, on one workload", "anchors": ["include/framework/DynamicExtension.h:get_record_count", "include/framework/structure/ExtensionStructure.h:get_record_count", "include/framework/structure/InternalLevel.h:get_record_count"]}
{"id": "C54", "title": "Nothing is made up", "statement": "After any single-threaded history that does not fault, of every record no more copies are stored than were inserted and no more tombstones than it was erased; a range query returns only records in range, none more often than it is stored or was inserted.", "quantifier": "all layouts (BSM with empty shards included), delete policies, configurations, histories, bounds", "why_tests_cant": "A duplicate appears only for some distribution of copies over buffer and shards", "anchors": ["include/util/SortedMerge.h:sorted_array_from_bufferview", "include/util/SortedMerge.h:sorted_array_merge", "include/framework/structure/ExtensionStructure.h:reconstruction", "include/query/rangequery.h:combine"]}
{"id": "C55", "title": "Point lookup over tries", "statement": "After inserts of records with distinct string keys into an index with FSTrie or LoudsPatricia shards, a point lookup returns exactly the record with the key that is looked up, or nothing if there is none; an erased record is not returned.", "quantifier": "all layouts, configurations, sets of distinct non-empty keys, searched keys", "why_tests_cant": "Tests look keys up in a single shard, through the pointers that were inserted", "anchors": ["include/shard/FSTrie.h:FSTrie,point_lookup", "include/shard/LoudsPatricia.h:LoudsPatricia,point_lookup", "include/query/pointlookup.h:local_query,local_query_buffer,combine"]}
{"id": "C56", "title": "Indexes of VPTree and trie shards keep their records", "statement": "On an index whose shards are VPTrees or tries no insert or erase fails, the records stored are those inserted (with a tombstone for every erase, up to cancelled pairs), get_record_count() counts them, and create_static_structure() returns a shard with the same records.", "quantifier": "all layouts, configurations, histories", "why_tests_cant": "The framework is only tested with sorted shards", "anchors": ["include/shard/VPTree.h:VPTree", "include/shard/FSTrie.h:FSTrie", "include/shard/LoudsPatricia.h:LoudsPatricia", "include/framework/DynamicExtension.h:create_static_structure"]}
{"id": "C57", "title": "Flushes of any size", "statement": "A background reconstruction flushes whatever the buffer holds when it starts, from one record up to the high watermark. Whatever those sizes: no reconstruction fails, no record is lost or made up, every shard is sorted and not empty, levels keep their capacities, the height stays logarithmic in the number of flushes, and record counts and range queries are exact (the last two without deletes).", "quantifier": "all layouts, configurations, sequences of flushes of 1 to high-watermark records with more records than tombstones in each", "why_tests_cant": "The size of a background flush depends on timing; single-threaded tests always flush exactly the low watermark", "anchors": ["include/framework/DynamicExtension.h:reconstruction", "include/framework/structure/ExtensionStructure.h:reconstruction,get_reconstruction_tasks,find_reconstruction_target", "include/framework/structure/InternalLevel.h:append", "include/query/rangequery.h:combine"]}
{"id": "C58", "title": "Range queries during inserts and reconstructions", "statement": "While threads insert and reconstructions run in the background, every flush has between one record and the high watermark, the reconstructions succeed, and a range query returns exactly the records in its range of some set of inserts that contains all those that had returned before the query was called and otherwise only inserts that return later. With erases, each record is returned at least (inserts - erases) and at most (inserts) times.", "quantifier": "all layouts, configurations, numbers of threads, interleavings; exactness for those in which no append is half done when a job reads the end of the buffer", "why_tests_cant": "The combination depends on the interleaving of appends, flushes and reads and on every layout the flushes can lead to", "anchors": ["include/framework/DynamicExtension.h:async_query,reconstruction,internal_append", "include/framework/structure/MutableBuffer.h:append,get_buffer_view", "include/framework/structure/ExtensionStructure.h:reconstruction", "include/query/rangequery.h:query,buffer_query,combine"]}
{"id": "C59", "title": "Versions of the index are neither leaked nor freed twice", "statement": "At any time at most three versions of the index are allocated, and each of them is reachable: it is the next, the current or the previous one, or a thread is about to publish or free it. When the index is destroyed while no call is in progress, every version is freed exactly once and no background reconstruction is left waiting.", "quantifier": "all watermarks, numbers of threads and interleavings", "why_tests_cant": "Leaks and double frees of versions depend on where a transition is when other threads acquire, release or destroy", "anchors": ["include/framework/DynamicExtension.h:~DynamicExtension,advance_epoch,retire_epoch,create_new_epoch,await_next_epoch", "include/framework/scheduling/Epoch.h:~Epoch,clone"]}
{"id": "C60", "title": "Reported memory usage", "statement": "The reported memory usage is at least the size of the buffer and of the records held in the shards; it is computed without failing and without changing the index, and the part for index information is bounded by a constant per stored record.", "quantifier": "all layouts, delete policies, configurations and histories; ISAM, VPTree and Alias shards", "why_tests_cant": "No test looks at the reported size beyond its being returned; the bound depends on the shapes of all trees a history can make", "anchors": ["include/framework/DynamicExtension.h:get_memory_usage,get_aux_memory_usage", "include/framework/structure/ExtensionStructure.h:get_memory_usage", "include/framework/structure/InternalLevel.h:get_memory_usage", "include/shard/ISAMTree.h:get_memory_usage", "include/shard/VPTree.h:get_memory_usage", "include/shard/Alias.h:get_memory_usage"]}
{"id": "C61", "title": "Range samples are uniform and independent", "statement": "Each record in range is returned by independent range sampling with the same probability, whether it is in the buffer or in a shard, and the samples of one query are independent of each other.", "quantifier": "all layouts, configurations and histories of insertions, ranges, numbers of samples and random outcomes, with and without rejection", "why_tests_cant": "A skew towards the buffer or a shard shows only in the frequencies over many runs", "anchors": ["include/query/irs.h:local_preproc,local_preproc_buffer,distribute_query,local_query,local_query_buffer", "include/framework/DynamicExtension.h:query"]}
{"id": "C62", "title": "Weighted samples are proportional to the weights", "statement": "Each stored record that is not deleted is returned by weighted set sampling with a probability proportional to its weight, whether it is in the buffer or in a shard.", "quantifier": "all layouts, configurations, weights and histories of insertions", "why_tests_cant": "A skew shows only in the frequencies over many runs", "anchors": ["include/query/wss.h:local_preproc,local_preproc_buffer,distribute_query,local_query,local_query_buffer"]}
{"id": "C63", "title": "Every read is exact while other threads insert and reconstruct", "statement": "A static structure, range count, point lookup or k-nearest-neighbour query that runs while other threads insert and the index reconstructs itself returns exactly what it would over some set of the appends: all those that had returned before it was scheduled, and some of those that returned since. This holds for sorted, VPTree and trie shards.", "quantifier": "all layouts, configurations, numbers of threads, schedules, shard kinds and reads", "why_tests_cant": "The set of records a read sees depends on the interleaving, and tests compare answers only after all threads have stopped", "anchors": ["include/framework/DynamicExtension.h:create_static_structure,async_query,reconstruction,schedule_reconstruction", "include/query/rangecount.h:local_query,local_query_buffer", "include/query/pointlookup.h:local_query,local_query_buffer", "include/query/knn.h:local_query,local_query_buffer"]}
{"id": "C64", "title": "The buffer holds what its calls say", "statement": "After any calls on a buffer (append, advance, view, release, delete_record, check_tombstone, truncate before the first advance, new watermarks) a view lists exactly the records appended since the head in order, the first entry of each deleted record tagged; the record count is their number, the tombstone count no smaller than the number of tombstones among them; check_tombstone answers whether there is a tombstone for the record, and append succeeds exactly when there are fewer records than the high watermark in force.", "quantifier": "all watermarks and capacities, sequences of calls by one thread, records and false positives of the filter", "why_tests_cant": "Tests append to a fresh buffer; wrap-around, tags, watermark changes and the filter are not combined", "anchors": ["include/framework/structure/MutableBuffer.h:append,advance_head,delete_record,check_tombstone,truncate,get_buffer_view,set_high_watermark,set_low_watermark", "include/framework/structure/BufferView.h:check_tombstone,delete_record"]}
{"id": "C65", "title": "Deleting from a buffer finds exactly the buffered records", "statement": "delete_record() on a buffer returns true exactly when a record equal to the argument is buffered, and then tags the first such record and no other.", "quantifier": "all watermarks and capacities, sequences of calls by one thread, records", "why_tests_cant": "Tests delete from a buffer that was never emptied", "anchors": ["include/framework/structure/MutableBuffer.h:delete_record", "include/framework/structure/BufferView.h:delete_record"]}
{"id": "C66", "title": "Truncating a buffer empties it", "statement": "After truncate() the buffer holds no records and no tombstones, and it accepts as many appends as a new one.", "quantifier": "all watermarks and capacities, sequences of calls by one thread", "why_tests_cant": "The test truncates a buffer whose head was never advanced", "anchors": ["include/framework/structure/MutableBuffer.h:truncate,append,get_record_count"]}
{"id": "C67", "title": "Compactions restore the bound on tombstones", "statement": "Compaction tasks are planned exactly when some level holds more tombstones than the maximum delete proportion of its capacity. Executing them, and planning again until there are none, ends without a fault with every level within the bound, and does not change which records are live.", "quantifier": "all histories, layouts, watermarks, scale factors and bounds", "why_tests_cant": "No test has a maximum delete proportion below 1, and the tasks only exist for particular distributions of tombstones over the levels", "anchors": ["include/framework/structure/ExtensionStructure.h:get_compaction_tasks,validate_tombstone_proportion,find_reconstruction_target", "include/framework/DynamicExtension.h:enforce_delete_invariant"]}
{"id": "C68", "title": "Tombstone queries of a level are exact", "statement": "check_tombstone() on a level answers yes exactly when one of its shards from the given one on holds a tombstone for the record, and get_tombstone_prop() is the number of tombstones divided by the number of records of the level.", "quantifier": "all levels, records and first shards, and histories producing them", "why_tests_cant": "The answer depends on which of several equal entries the lookup of the shard finds first", "anchors": ["include/framework/structure/InternalLevel.h:check_tombstone,get_tombstone_prop"]}
{"id": "C69", "title": "Queries invent no records", "statement": "Every record that a query, a static structure or a reconstruction reads was passed to an insert() or erase() call, with the same tombstone flag, also when appends are in progress while the buffer is flushed.", "quantifier": "all executions: thread counts, interleavings, watermarks, layouts", "why_tests_cant": "Needs a reader between the reservation of a slot and its first write", "anchors": ["include/framework/structure/MutableBuffer.h:append", "include/framework/structure/MutableBuffer.h:get_buffer_view", "include/framework/structure/BufferView.h:copy_to_buffer", "include/framework/DynamicExtension.h:insert"]}
{"id": "C70", "title": "Sizes of answers in every execution", "statement": "Whatever the interleaving, a query or a static structure reads at least as many records as insert() and erase() calls had returned before it was called, and at most as many as have been given a position in the buffer; the current version of the shards has exactly as many records as were flushed.", "quantifier": "all executions", "why_tests_cant": "Counts would have to be compared at every step of every schedule", "anchors": ["include/framework/DynamicExtension.h:get_record_count", "include/framework/DynamicExtension.h:reconstruction", "include/framework/structure/MutableBuffer.h:advance_head"]}
{"id": "C71", "title": "An append in progress during a flush harms only its own slot", "statement": "When appends are in progress while a reconstruction reads the end of the buffer, every returned insert whose position is not in the slot (position modulo capacity) of such an append stays durable: later queries read it, it is in the shards or in the buffer, and held views keep it.", "quantifier": "all executions and sets of slots", "why_tests_cant": "The damage depends on which append is preempted and on the wrap-around of the ring", "anchors": ["include/framework/structure/MutableBuffer.h:append", "include/framework/structure/MutableBuffer.h:advance_head", "include/framework/DynamicExtension.h:reconstruction"]}
{"id": "C72", "title": "Total size of planned reconstructions", "statement": "The total that a vector of reconstructions reports is the sum of the sizes of its tasks, after every sequence of additions and removals and for every plan of the structure; removing the smallest task removes the first of the smallest and keeps the order of the others.", "quantifier": "all sequences of calls, structures, layouts", "why_tests_cant": "The tests never read the total", "anchors": ["include/util/types.h:ReconstructionVector", "include/framework/structure/ExtensionStructure.h:get_reconstruction_tasks,get_reconstruction_tasks_from_level"]}
{"id": "C73", "title": "The serial scheduler runs each job before the call returns", "statement": "With the serial scheduler every scheduled job, also one scheduled by a running job, has run exactly once when the scheduling call returns; jobs start in the order of the calls with timestamps 0, 1, 2, ..., and the job counts of the statistics are exact.", "quantifier": "all sequences and nestings of jobs, all job types", "why_tests_cant": "Nested jobs and other types are not exercised", "anchors": ["include/framework/scheduling/SerialScheduler.h:schedule_job", "include/framework/scheduling/Task.h:operator()", "include/framework/scheduling/statistics.h:log_time_data"]}
{"id": "C74", "title": "Calls end", "statement": "An insert, erase, query, count or reconstruction that runs on its own returns after a number of its own steps bounded in terms of the high watermark, whatever point of their calls the other threads have stopped at.", "quantifier": "all executions up to that point, all numbers of threads, watermarks and capacities", "why_tests_cant": "The other threads must be stopped between particular instructions", "anchors": ["include/framework/DynamicExtension.h:insert,erase,query,get_record_count,reconstruction", "include/framework/structure/MutableBuffer.h:get_buffer_view"]}
{"id": "C75", "title": "Free space of a buffer", "statement": "get_available_capacity() is the capacity less the records from the oldest position in use (the head, or that of a view still held) to the tail, and that many further appends change nothing that the buffer or a held view contains.", "quantifier": "all watermarks, capacities, sequences of appends, advances, views and releases", "why_tests_cant": "The tests read it only for a few fixed fills of one buffer", "anchors": ["include/framework/structure/MutableBuffer.h:get_available_capacity"]}
{"id": "C76", "title": "No aborts, no lost references, no deadlock", "statement": "Concurrent inserts, erases, queries and counts never fail an assertion, epochs and buffer heads are counted as used exactly by the calls that use them, and from every state reached all calls in progress and all scheduled reconstructions can be completed.", "quantifier": "all interleavings, numbers of threads, watermarks and capacities", "why_tests_cant": "The failures need threads stopped between particular instructions, and no test can show that a state is free of deadlock", "anchors": ["include/framework/DynamicExtension.h:get_active_epoch,end_job,advance_epoch,reconstruction", "include/framework/structure/MutableBuffer.h:advance_head,release_head_reference"]}
{"id": "C77", "title": "Learned shards", "statement": "Building a PGM or TrieSpline shard, from a buffer view or from other shards, stores the same records as the sorted shards do and gives the learned index exactly the keys of these records, in ascending order and within the announced range; so an index of such shards goes through the same states.", "quantifier": "all views, lists of shards, record orders among equal records, configurations and histories of inserts and erases", "why_tests_cant": "Both files have copies of the merge loop that the tests run on a few thousand records only, and none of the tests builds from an empty view or from no shards", "anchors": ["include/shard/PGM.h:PGM", "include/shard/TrieSpline.h:TrieSpline"]}
{"id": "C78", "title": "Reads after any deletes invent nothing", "statement": "After successive reconstructions of any sizes with any number of deletes in them (flushes that cancel completely and flushes of deletes only included), whatever is stored or returned by a static structure or a range query was flushed or is still buffered, with its tombstone flag, and no more often; record counts and range counts are no larger, and a point lookup returns at most one record, which has the key and was inserted.", "quantifier": "all layouts, configurations, sequences of flushes, buffers, ranges and keys for which the reconstructions and the read do not fault", "why_tests_cant": "Duplicates or resurrected deletes appear only for particular distributions of copies and tombstones over flushes of timing-dependent sizes", "anchors": ["include/util/SortedMerge.h:sorted_array_from_bufferview,sorted_array_merge", "include/framework/structure/ExtensionStructure.h:reconstruction", "include/query/rangequery.h:combine", "include/query/rangecount.h:combine", "include/query/pointlookup.h:combine"]}
{"id": "C79", "title": "Trie shards can be destroyed", "statement": "Every FSTrie shard that the index builds, in a flush, in a merge or for a static structure, can later be destroyed: it owns the trie that its destructor frees. The index can be destroyed after any calls, and its memory usage is the sum of what the tries report.", "quantifier": "all configurations, layouts and histories of inserts and erases", "why_tests_cant": "A shard without records arises only if a whole flush or merge cancels, is tagged or has blank keys; an uninitialised pointer is often null in a test process, where freeing it does nothing", "anchors": ["include/shard/FSTrie.h:FSTrie,~FSTrie,get_memory_usage", "include/framework/DynamicExtension.h:~DynamicExtension"]}
{"id": "C80", "title": "Nearest neighbours over Bentley-Saxe blocks", "statement": "A block of the benchmarks' nearest-neighbour structure is built from any records and gives them back; a query returns the k nearest records of the block, farthest first; and however the records are distributed over blocks, merging the answers of the blocks gives the k nearest records of all of them.", "quantifier": "all record lists, metrics, leaf sizes, random choices, query points, k >= 1 and distributions over blocks", "why_tests_cant": "The pruning of the search and the merge of partial answers fail only for particular distances, ties and distributions", "anchors": ["benchmarks/include/vptree_bsm.h:build,unbuild,query,query_merge,internal_search"]}
{"id": "C81", "title": "Range counts over Bentley-Saxe blocks", "statement": "A block of the benchmarks' learned range-count structure is built from any non-empty list of records and gives them back; a query returns the number of its records with a key between the bounds, bounds included; and merging the answers of several blocks gives the count over all of them.", "quantifier": "all record lists, splines that bracket the keys, ranges and distributions over blocks", "why_tests_cant": "The count is off by one only for blocks of 50 or more records and lower bounds that are not keys, which looks like noise in a benchmark", "anchors": ["benchmarks/include/triespline_bsm.h:build,build_presorted,query,query_merge,lower_bound"]}
{"id": "C82", "title": "The benchmarks' driver fills the index as asked", "statement": "Filling an index through the benchmarks' driver inserts the given records once each and in order, erases only records inserted before, taken from consecutive entries of the list of positions to delete, and ends; without deletes the index then holds exactly the given records.", "quantifier": "all configurations, record lists, position lists, random choices and states of the index", "why_tests_cant": "The list of positions runs out, or names a record twice, only for unlikely random numbers", "anchors": ["benchmarks/include/standard_benchmarks.h:insert_records"]}
{"id": "C83", "title": "Deletes of other records lose nothing", "statement": "After successive reconstructions of any sizes with any number of deletes in them, the copies of a record that are stored minus its tombstones that are stored are the copies minus the tombstones that were flushed; so a record that is not erased is stored as often as it was flushed, is in every static structure, and is returned by every range query over its key, whatever else is erased; also when threads insert, erase, flush and query concurrently.", "quantifier": "all layouts, configurations, sequences of flushes, buffers, ranges, records and executions for which the reconstructions and the read do not fault", "why_tests_cant": "Whether a deletion removes a neighbour depends on how copies and tombstones are distributed over flushes of timing-dependent sizes", "anchors": ["include/util/SortedMerge.h:sorted_array_from_bufferview,sorted_array_merge", "include/framework/structure/ExtensionStructure.h:reconstruction,flush_buffer", "include/query/rangequery.h:combine"]}
{"id": "C84", "title": "Queries of the static structure", "statement": "Queries run directly on the static structure of an index, as the benchmarks do, answer from the live records: a range query returns those in the range in order, a range count their number, a point lookup one that matches if there is one, range sampling the requested number of them with equal chances, weighted sampling the requested number with positive weight, and a kNN query the nearest ones; after insertions a range query returns what the index itself returns.", "quantifier": "all layouts, configurations, histories of insertions or of different records with erases by tagging that leave a live record, for which the static structure is built and in which, with the Bentley-Saxe layout, no shard becomes empty; all queries and random numbers; samples from ranges that hold a live record", "why_tests_cant": "Sampling and tree searches have randomised outcomes, and the layouts before the structure is built are too many to enumerate", "anchors": ["benchmarks/include/standard_benchmarks.h:run_static_queries", "include/framework/DynamicExtension.h:create_static_structure", "include/query/rangequery.h:query", "include/query/rangecount.h:query", "include/query/irs.h:query", "include/query/wss.h:query", "include/query/knn.h:query", "include/query/pointlookup.h:query"]}
{"id": "C85", "title": "Data files of the benchmarks", "statement": "From a file of keys the first n are read in order, each with its position as the value, so that no two records are equal; from a binary file of points the first n points (or all, if there are fewer); from a text file the first n lines, as strings or as vectors of the numbers on them up to the dimension of the records.", "quantifier": "all files with at least n keys; all binary files whose header gives the number and dimension of the points, with no more dimensions than the records have; all text files; all n", "why_tests_cant": "The contents and lengths of files are unbounded, and reading uninitialised variables or past an array need not show in a test", "anchors": ["benchmarks/include/file_util.h:read_sosd_file", "benchmarks/include/file_util.h:read_binary_vector_file", "benchmarks/include/file_util.h:read_string_file", "benchmarks/include/file_util.h:read_vector_file"]}
{"id": "C86", "title": "Query files of the benchmarks", "statement": "The queries that are read from a file are those of its lines that have the bounds in order and the wanted selectivity, in the order of the file; for point lookups the search keys are the lower bounds of these lines; kNN queries are the points of the file; generated string lookups ask for strings of the given list.", "quantifier": "all query files of lines of two numbers and a selectivity; all files of points with no more dimensions than the records have; all lists of strings that are not empty and all random numbers", "why_tests_cant": "The contents and lengths of files are unbounded, and reading uninitialised variables or past an array need not show in a test", "anchors": ["benchmarks/include/file_util.h:read_range_queries", "benchmarks/include/file_util.h:read_lookup_queries", "benchmarks/include/file_util.h:read_knn_queries", "benchmarks/include/file_util.h:read_binary_knn_queries", "benchmarks/include/file_util.h:generate_string_lookup_queries"]}
{"id": "C87", "title": "Benchmark programs from the data file to the filled index", "statement": "The program reads n records, chooses positions to delete without choosing one twice, inserts the first records as a warm-up and then the others with erases between them, and ends: every record was inserted once, every erase was of a record inserted before and at a chosen position, every call succeeded, and the index stores the records that were not erased (with tombstones: as many more copies than tombstones of each record as were inserted more often than erased).", "quantifier": "all key files with at least n keys, sizes of the warm-up, sequences of random numbers that ask for no more erases than positions were chosen, layouts and configurations; blocks of low-watermark many operations that leave a record", "why_tests_cant": "The outcome depends on the random numbers and on the layout, and the failure is a loop that never ends", "anchors": ["benchmarks/vldb/irs_bench.cpp:main", "benchmarks/include/standard_benchmarks.h:insert_records", "benchmarks/include/file_util.h:read_sosd_file", "include/framework/DynamicExtension.h:insert", "include/framework/DynamicExtension.h:erase"]}
{"id": "C88", "title": "Concurrent clients that repeat inserts until they are accepted", "statement": "Clients on several threads that call insert again with the same record until it returns 1 have each record accepted exactly once: at every moment the accepted inserts and those still to be made are together those of their programs, and when they are through every record is in the shards of the current version or in its place in the buffer. The thread-scaling benchmark inserts every record of its data exactly once.", "quantifier": "all numbers of threads and lists of records, all interleavings with queries, record counts, waiting and reconstructions; where the records are: executions in which no append is half done when a reconstruction reads the end of the buffer; the benchmark: all numbers of records that can be divided among the threads", "why_tests_cant": "Interleavings of appends, refused appends and flushes cannot be enumerated", "anchors": ["benchmarks/vldb/thread_scaling_bench.cpp:insert_thread", "benchmarks/vldb/thread_scaling_bench.cpp:main", "include/framework/DynamicExtension.h:insert", "include/framework/structure/MutableBuffer.h:append"]}
{"id": "C89", "title": "Counting benchmarks from their files to the answers", "statement": "The benchmark programs that count read the keys and the query lines of their files, insert and erase as asked, and answer every line whose bounds are in order and whose selectivity is the one asked for with the number of live records in its range; the static structure made from the index gives the same numbers.", "quantifier": "all layout policies and parameters, all data files that are long enough and query files of the expected form, all random numbers as in C87; with tombstones: the live records and the stored tombstones in the range", "why_tests_cant": "Answers depend on the file contents, on the random erases and on how records, tombstones and tags are spread over buffer and shards", "anchors": ["benchmarks/vldb/pgm_bench.cpp:main", "benchmarks/vldb/ts_bench.cpp:main", "benchmarks/include/standard_benchmarks.h:run_queries", "benchmarks/include/standard_benchmarks.h:run_static_queries", "benchmarks/include/file_util.h:read_range_queries"]}
{"id": "C90", "title": "Sampling benchmark from its files to the samples", "statement": "The benchmark program that samples reads the keys and the query lines of its files, inserts and erases as asked, and answers every accepted line with samples that are live records with their keys in the range; the static structure made from the index gives exactly as many samples as asked for, all of them live records in the range. The program ends if every range has a live record.", "quantifier": "all layout policies and parameters, all data files that are long enough and query files of the expected form, all random numbers and alias structures", "why_tests_cant": "Samples depend on random numbers, the file contents, the erases and how records and tags are spread over buffer and shards; an endless program cannot be told from a slow one", "anchors": ["benchmarks/vldb/irs_bench.cpp:main", "benchmarks/include/standard_benchmarks.h:run_queries", "benchmarks/include/standard_benchmarks.h:run_static_queries", "include/query/irs.h:Query"]}
{"id": "C91", "title": "Nearest-neighbour benchmarks from their files to the answers", "statement": "The benchmark programs for nearest neighbours read the records and the query points of their text or binary files, insert and erase as asked, and answer every point with the k nearest live records (all of them if there are fewer); the static structure made from the index gives such an answer, too. No part of the program fails.", "quantifier": "all layout policies and parameters, all metrics, leaf sizes and queues, all files of the expected form, all random numbers as in C87", "why_tests_cant": "Answers depend on the file contents, the random erases, the random vantage points and on which tagged records reconstructions have dropped", "anchors": ["benchmarks/vldb/vptree_bench.cpp:main", "benchmarks/vldb/vptree_bench_alt.cpp:main", "benchmarks/include/standard_benchmarks.h:run_queries", "benchmarks/include/standard_benchmarks.h:run_static_queries", "benchmarks/include/file_util.h:read_vector_file", "benchmarks/include/file_util.h:read_knn_queries", "include/query/knn.h:Query", "include/shard/VPTree.h:VPTree"]}
{"id": "C92", "title": "String lookup benchmark from its file to the answers", "statement": "The benchmark program for point lookups of strings reads the lines of its file, inserts a record for each and erases as asked, and answers the query for every line chosen with exactly the record of that line if it is live and with nothing otherwise; so does the static structure made from the index. No part of the program fails.", "quantifier": "all layout policies and parameters, all exact lookups of a trie, all files of the expected form, all addresses of the strings, all random numbers as in C87", "why_tests_cant": "Answers depend on the file contents, on the random queries and erases, on how the sort places a record and its tombstone, and on comparing strings by address in the buffer but by content in the shards", "anchors": ["benchmarks/vldb/fst_bench.cpp:main", "benchmarks/include/file_util.h:generate_string_lookup_queries", "benchmarks/include/file_util.h:read_string_file", "benchmarks/include/standard_benchmarks.h:run_queries", "benchmarks/include/standard_benchmarks.h:run_static_queries", "include/query/pointlookup.h:Query", "include/shard/FSTrie.h:FSTrie"]}
{"id": "C93", "title": "Drawing points from a file", "statement": "The program that draws points prints as many different points of its file as it is asked for, chosen at random, or all different points if there are fewer. No part of the program fails.", "quantifier": "all binary files of points, all numbers of points read and drawn, all random numbers", "why_tests_cant": "A test sees some points of the file come out; that the same ones come out for all random numbers, and what happens with repeated points, takes reasoning over all runs", "anchors": ["benchmarks/bigann_sample.cpp:main", "benchmarks/include/file_util.h:read_binary_vector_file", "include/framework/interface/Record.h:EuclidPoint"]}
{"id": "C94", "title": "Inserting in batches", "statement": "The benchmark program for insert latencies inserts, in batches, each record from 0 up to the number asked for once and in this order, prints the number so far after each batch, and ends; the index then counts exactly that many records. No part of the program fails.", "quantifier": "all layout policies, delete policies and parameters, all numbers of records and sizes of batches", "why_tests_cant": "A test runs a few numbers; that the program ends, and with how many records, has to hold for all of them and all watermarks", "anchors": ["benchmarks/insert_tail_latency.cpp:insert_thread", "benchmarks/insert_tail_latency.cpp:main", "include/framework/DynamicExtension.h:insert", "include/framework/DynamicExtension.h:get_record_count"]}
{"id": "C95", "title": "Trying many parameters", "statement": "The benchmark programs that try parameters of the index make, for each buffer size, scale factor and both layouts, a new index, fill it with the same inserts and erases, and answer each query: with the k nearest live records in one program, with the number of live records in the range in the other. No part of the programs fails.", "quantifier": "all lists of buffer sizes and scale factors, all records, queries, numbers of neighbours and random numbers", "why_tests_cant": "A test compares a few parameters on one sequence of random numbers; that every round gets the same calls and right answers has to hold for all of them", "anchors": ["benchmarks/vldb/vptree_parmsweep.cpp:main", "benchmarks/vldb/ts_parmsweep.cpp:main", "benchmarks/include/standard_benchmarks.h:insert_records", "benchmarks/include/standard_benchmarks.h:run_queries", "include/framework/DynamicExtension.h:query"]}
