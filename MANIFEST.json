{
 "claims": [
  {
   "property": "C01",
   "status": "proved",
   "theorems": [
    "C01_serial_inserts_succeed"
   ],
   "note": "All three layouts, both delete policies, any tie rule of the priority queue."
  },
  {
   "property": "C02",
   "status": "proved",
   "theorems": [
    "C02_record_count"
   ],
   "note": ""
  },
  {
   "property": "C03",
   "status": "proved",
   "theorems": [
    "C03_range_query_exact"
   ],
   "note": "For any shard lower-bound search that meets lb_sound."
  },
  {
   "property": "C04",
   "status": "proved",
   "theorems": [
    "C04_static_structure_exact"
   ],
   "note": ""
  },
  {
   "property": "C05",
   "status": "proved",
   "theorems": [
    "C05_net_balance",
    "few_erases_safe",
    "C05_bsm_refuted"
   ],
   "note": "BSM as far as the property goes: histories in which no shard becomes empty; false beyond."
  },
  {
   "property": "C07",
   "status": "proved",
   "theorems": [
    "C07_range_query_bounds",
    "C54_range_query_sound",
    "few_erases_safe",
    "C07_bsm_refuted"
   ],
   "note": "As C05."
  },
  {
   "property": "C06",
   "status": "partial",
   "theorems": [
    "C06_static_live_partial",
    "C06_wrap_refuted",
    "C06_header_order_refuted"
   ],
   "note": "Proved for the version tie rule of the external queue when no buffer wraps around the ring; false of the code when one does, or with the other tie rule."
  },
  {
   "property": "C08",
   "status": "partial",
   "theorems": [
    "C08_range_query_live_partial",
    "C08_buffer_refuted",
    "C08_tier_refuted"
   ],
   "note": "Exact for leveling and BSM when the buffer's records in range are distinct and ordered; false of the code otherwise."
  },
  {
   "property": "C35",
   "status": "partial",
   "theorems": [
    "C35_point_lookup_partial",
    "C35_erased_partial",
    "C35_buffer_refuted",
    "C35_tier_refuted",
    "C35_reinsert_refuted",
    "C35_value_refuted"
   ],
   "note": "Kept keys: every layout and tie rule. Erased keys: leveling and BSM. False of the code for tiers, unflushed pairs, re-insertion and whole-record shards."
  },
  {
   "property": "C12",
   "status": "partial",
   "theorems": [
    "C12_flush_loses_nothing_partial",
    "C12_bsm_flush_refuted"
   ],
   "note": "BSM as far as the property goes: histories in which no shard becomes empty; false beyond."
  },
  {
   "property": "C42",
   "status": "partial",
   "theorems": [
    "C42_no_crash_partial",
    "C42_tagging_partial",
    "C44_next_operation_partial",
    "C42_next_query_partial",
    "C42_no_crash_refuted",
    "C42_merge_refuted",
    "C42_tagging_refuted"
   ],
   "note": "False in general: an all-cancelled flush faults."
  },
  {
   "property": "C36",
   "status": "partial",
   "theorems": [
    "C36_record_order",
    "C36_kv_order",
    "C36_weighted_order",
    "C36_point_order",
    "C36_string_order",
    "C36_wrapped_order",
    "C36_wrapped_eq_refuted",
    "C36_bad_len_refuted"
   ],
   "note": "operator< is a strict weak order for every record type, with operator== as its incomparability for the record types; for Wrapped the pair (<, same header and ==) holds, but Wrapped's own == is not the incomparability of its <."
  },
  {
   "property": "C37",
   "status": "partial",
   "theorems": [
    "C37_header_flags",
    "C37_clear_tombstone_refuted",
    "C37_second_timestamp_refuted",
    "C37_big_timestamp_refuted"
   ],
   "note": "Proved for set-from-clear; clearing the tombstone flag or re-stamping is refuted."
  },
  {
   "property": "C38",
   "status": "proved",
   "theorems": [
    "C38_shard_from_view",
    "C38_shard_from_shards",
    "C38_empty_shard_refuted"
   ],
   "note": "Empty input shards fault, as the refuted theorem shows; the claim is about non-empty ones."
  },
  {
   "property": "C09",
   "status": "partial",
   "theorems": [
    "C09_range_count_stored_partial",
    "C09_range_count_ok_partial",
    "C09_range_count_inserts_partial",
    "C10_range_count_partial",
    "C09_range_count_fault_refuted",
    "C09_range_count_tombstone_refuted"
   ],
   "note": "Exact for insert-only histories and for tagging without re-insertion, when it does not fault; false of the code otherwise."
  },
  {
   "property": "C10",
   "status": "partial",
   "theorems": [
    "C10_range_count_partial",
    "C10_untagged_live_partial",
    "C10_range_query_refuted"
   ],
   "note": "Proved for range count; false of the code for range query, which never looks at the delete tag."
  },
  {
   "property": "C11",
   "status": "partial",
   "theorems": [
    "C11_erase_tagging_partial",
    "C11_reinsert_refuted",
    "C11_double_erase_refuted",
    "C11_empty_erase_refuted"
   ],
   "note": "Holds while no tagged copy of the record is stored and the index has been used; false otherwise."
  },
  {
   "property": "C13",
   "status": "partial",
   "theorems": [
    "C13_record_capacity_partial",
    "C13_shard_capacity_partial",
    "C13_leveling_partial",
    "C13_leveling_refuted",
    "C13_bsm_refuted",
    "C13_vp_no_empty",
    "C13_vp_capacity_partial",
    "C13_vp_records_partial",
    "C13_vp_leveling_refuted",
    "C13_trie_no_empty",
    "C13_trie_capacity_partial",
    "C13_trie_records_partial",
    "C13_trie_tagging_partial"
   ],
   "note": "Records: tiering and BSM; false for leveling, where twice the capacity is proved. Shards: all layouts, BSM as long as no shard becomes empty; false beyond. The same for VPTree shards and tries."
  },
  {
   "property": "C14",
   "status": "partial",
   "theorems": [
    "C14_tombstone_proportion_partial",
    "C14_leveling_refuted"
   ],
   "note": "Proved for tiering and BSM; false for leveling."
  },
  {
   "property": "C15",
   "status": "proved",
   "theorems": [
    "C15_height",
    "C15_bsm_refuted",
    "C15_vp_height",
    "C15_trie_height",
    "C15_trie_tagging_partial"
   ],
   "note": "All layouts and histories, also for VPTree shards and tries (tagged tries: histories in which their calls do not fail). C15_bsm_refuted shows that the usual bound of 2^(h-1) flushes would be wrong for BSM."
  },
  {
   "property": "C39",
   "status": "partial",
   "theorems": [
    "C39_count_value_partial",
    "C39_tombstone_count_partial",
    "C39_tombstone_count_refuted",
    "C39_vp_tombstone_count"
   ],
   "note": "Exact value proved; equals the stored tombstones only before the first flush, and for VPTree shards."
  },
  {
   "property": "C44",
   "status": "partial",
   "theorems": [
    "C44_bookkeeping",
    "C44_vp_bookkeeping",
    "C44_trie_bookkeeping",
    "C44_next_operation_partial",
    "C42_merge_refuted"
   ],
   "note": "Counts: all layouts and histories, also for VPTree shards and tries. Tasks: executable if no shard is empty, false otherwise (C42_merge_refuted)."
  },
  {
   "property": "C18",
   "status": "proved",
   "theorems": [
    "C18_view_fifo",
    "C18_old_view_copy_refuted"
   ],
   "note": "Views of the current head; a late view of the old head can overrun in the bulk copy. Every capacity, any watermarks, interleaved views, releases and advances."
  },
  {
   "property": "C40",
   "status": "partial",
   "theorems": [
    "C40_append_partial",
    "C40_append_pow2_partial",
    "C40_wrong_slot_refuted",
    "C40_lost_refuted"
   ],
   "note": "Holds below 2^31 appends; false of the code beyond."
  },
  {
   "property": "C16",
   "status": "proved",
   "theorems": [
    "C16_buffer_bounded",
    "C16_slots"
   ],
   "note": "Any number of threads and any interleaving of atomic steps, no assumption on the callers except one advance_head at a time."
  },
  {
   "property": "C17",
   "status": "partial",
   "theorems": [
    "C17_view_not_overwritten_partial",
    "C17_view_intact_partial",
    "C17_system_view_partial",
    "C17_late_write_refuted",
    "C17_capacity_refuted"
   ],
   "note": "Proved when the callers follow the epoch protocol and flushes wait for the appends they cover; false of the code, which does not wait."
  },
  {
   "property": "C19",
   "status": "partial",
   "theorems": [
    "C19_advance_refused_partial",
    "C19_head_kept_partial",
    "C17_view_intact_partial",
    "C19_stuck_refuted"
   ],
   "note": "The refusal is proved for disciplined callers; a release racing with a flush leaks a reference, after which no flush ever succeeds."
  },
  {
   "property": "C20",
   "status": "partial",
   "theorems": [
    "C20_buffered_partial",
    "C20_flushed_partial",
    "C20_system_durable_partial",
    "C20_lost_refuted"
   ],
   "note": "Proved when flushes wait for the appends they cover; false of the code. C71 says which records are safe in the other executions."
  },
  {
   "property": "C21",
   "status": "partial",
   "theorems": [
    "C21_snapshot_complete_partial",
    "C21_snapshot_exact_partial",
    "C21_stale_slot_refuted",
    "C21_lost_record_refuted"
   ],
   "note": "Proved for executions where no append is in progress when the end of the buffer is read; false of the code otherwise: stale slots are shown, and a flush can lose an acknowledged record."
  },
  {
   "property": "C22",
   "status": "proved",
   "theorems": [
    "C22_epoch_alive",
    "C22_no_stale_access"
   ],
   "note": "All interleavings; the misdirected releases of C49 do not endanger it."
  },
  {
   "property": "C23",
   "status": "proved",
   "theorems": [
    "C23_one_reconstruction"
   ],
   "note": "All interleavings."
  },
  {
   "property": "C43",
   "status": "partial",
   "theorems": [
    "C43_await_partial",
    "C43_woken_partial",
    "C43_lost_wakeup_refuted"
   ],
   "note": "It returns only when no epoch is pending; it may never return, since the wait has no predicate and the notification can come before the wait."
  },
  {
   "property": "C49",
   "status": "partial",
   "theorems": [
    "C49_end_of_job_refuted",
    "C49_wrong_epoch_refuted",
    "C49_stuck_forever",
    "C50_assertions_partial"
   ],
   "note": "False: a transition between two loads of end_job makes it release the wrong epoch, which aborts or blocks all further flushes."
  },
  {
   "property": "C50",
   "status": "partial",
   "theorems": [
    "C50_insert_aborts_refuted",
    "C50_one_thread_refuted",
    "C50_assertions_partial"
   ],
   "note": "False: a stale watermark test schedules the reconstruction of an empty buffer, which aborts. No other assertion than those of C49 and C50 can fail."
  },
  {
   "property": "C51",
   "status": "partial",
   "theorems": [
    "C51_count_bounds_partial",
    "C51_count_exact_partial",
    "C51_in_progress_refuted"
   ],
   "note": "Bounds: every execution. Exact when no append is in progress when the end of the buffer is read; otherwise inserts that have not returned are counted too."
  },
  {
   "property": "C41",
   "status": "partial",
   "theorems": [
    "C41_sequential_partial",
    "C41_refused_full_partial",
    "C41_contention_refuted",
    "C41_underflow_refuted"
   ],
   "note": "Sequential use, first-check refusals and refusals before the first flush; false of the code otherwise."
  },
  {
   "property": "C24",
   "status": "partial",
   "theorems": [
    "C24_order",
    "C24_once",
    "C24_pop_nonempty",
    "C24_eventually_started_partial",
    "C24_fair_runs_exist",
    "C24_shutdown_runs_dispatched",
    "C24_shutdown_quiet",
    "C24_shutdown_drops_queued_refuted",
    "C24_shutdown_drops_dispatched_refuted",
    "C24_shutdown_hangs_refuted"
   ],
   "note": "Order and at-most-once for all interleavings; every job starts under fairness without shutdown; false of the code at shutdown, which drops queued and dispatched jobs and can hang."
  },
  {
   "property": "C52",
   "status": "partial",
   "theorems": [
    "C52_count_and_total",
    "C52_maximum_real",
    "C52_maximum_partial",
    "C52_maximum_refuted"
   ],
   "note": "Count and total for all interleavings; the maximum only when calls do not overlap, false of the code otherwise."
  },
  {
   "property": "C25",
   "status": "proved",
   "theorems": [
    "C25_isam_bounds",
    "C25_range_contract"
   ],
   "note": "Every array, fanout >= 2 and leaf size >= 1, including the construction of the tree."
  },
  {
   "property": "C26",
   "status": "proved",
   "theorems": [
    "C26_allocation"
   ],
   "note": "Fanout >= 2 and leaf size >= 1, which hold for records of at most 256 bytes."
  },
  {
   "property": "C27",
   "status": "partial",
   "theorems": [
    "C27_point_lookup_partial",
    "C27_absent_partial",
    "C27_past_the_end",
    "C27_past_the_end_refuted",
    "C27_filter_refuted"
   ],
   "note": "The three theorems cover every lookup without the filter; one of the cases reads past the end."
  },
  {
   "property": "C28",
   "status": "proved",
   "theorems": [
    "C28_alias_bound",
    "C28_alias_lookup",
    "C28_range_contract"
   ],
   "note": "Every non-empty shard; with the filter argument, when the filter answers yes."
  },
  {
   "property": "C29",
   "status": "partial",
   "theorems": [
    "C29_pgm_bound",
    "C29_pgm_contract",
    "C29_trie_spline_partial",
    "C29_fifty_refuted"
   ],
   "note": "For every bracketing search range; false of TrieSpline with exactly 50 records, whose spline is never built."
  },
  {
   "property": "C45",
   "status": "partial",
   "theorems": [
    "C45_learned_lookup_partial",
    "C45_past_the_end",
    "C45_past_the_end_refuted"
   ],
   "note": "The two theorems cover every lookup; one of the cases reads past the end."
  },
  {
   "property": "C30",
   "status": "proved",
   "theorems": [
    "C30_build",
    "C30_search_exact",
    "C30_zero_refuted"
   ],
   "note": "Every metric over exact distances, random numbers, leaf size, queue with the maximum contract and k >= 1; k = 0 faults."
  },
  {
   "property": "C31",
   "status": "partial",
   "theorems": [
    "C31_lookup_partial",
    "C31_map_lookup",
    "C31_vantage_refuted",
    "C31_tie_refuted",
    "C31_null_refuted"
   ],
   "note": "Proved with the hash map and for one-leaf trees; false of the tree walk otherwise."
  },
  {
   "property": "C32",
   "status": "proved",
   "theorems": [
    "C32_knn_history",
    "C32_knn_tombstones_partial",
    "C32_knn_exact",
    "C32_from_view",
    "C32_from_shards",
    "C32_tagged_refuted",
    "C32_erased_refuted"
   ],
   "note": "All insert-only histories, layouts and configurations; false once records are erased, with tagging and with tombstones."
  },
  {
   "property": "C46",
   "status": "partial",
   "theorems": [
    "C46_cosine_refuted",
    "C46_search_partial",
    "C46_query_partial",
    "C46_history_partial"
   ],
   "note": "False of the code: the cosine is not a metric. For any distance function the answer consists of k stored records; that they are the closest is false."
  },
  {
   "property": "C33",
   "status": "partial",
   "theorems": [
    "C33_sound",
    "C33_exact_partial",
    "C33_empty_range",
    "C33_empty_refuted",
    "C33_fewer_refuted",
    "C33_history_sound",
    "C33_history_exact_partial"
   ],
   "note": "Soundness proved for every random stream, and over histories of insertions; number of samples without rejection; false of the code with rejection and for empty ranges."
  },
  {
   "property": "C34",
   "status": "partial",
   "theorems": [
    "C34_covers_partial",
    "C34_sound",
    "C34_single",
    "C34_last_refuted"
   ],
   "note": "Every buffered record but the last; the last one is never sampled."
  },
  {
   "property": "C47",
   "status": "partial",
   "theorems": [
    "C47_deleted_refuted"
   ],
   "note": "False of the code: the queries filter no deletes."
  },
  {
   "property": "C48",
   "status": "partial",
   "theorems": [
    "C48_exact_partial",
    "C48_more_refuted",
    "C48_forever_refuted"
   ],
   "note": "Shards without tagged records; false of the code otherwise."
  },
  {
   "property": "C53",
   "status": "proved",
   "theorems": [
    "C53_record_count"
   ],
   "note": "All layouts, delete policies and histories, BSM with empty shards included."
  },
  {
   "property": "C54",
   "status": "proved",
   "theorems": [
    "C54_nothing_made_up",
    "C54_range_query_sound"
   ],
   "note": "All layouts, delete policies and histories, BSM with empty shards included."
  },
  {
   "property": "C55",
   "status": "partial",
   "theorems": [
    "C55_trie_lookup_partial",
    "C55_tagging_partial",
    "C55_address_refuted",
    "C55_erased_refuted",
    "C55_all_tagged_refuted"
   ],
   "note": "Inserts, and erases by tagging, with the key at the address of the inserted one and no block of records that is erased altogether; false otherwise, and false with tombstones."
  },
  {
   "property": "C56",
   "status": "partial",
   "theorems": [
    "C56_vp_runs",
    "C56_vp_stored",
    "C56_vp_count",
    "C56_vp_static",
    "C56_trie_runs",
    "C56_trie_stored",
    "C56_trie_count",
    "C56_trie_static",
    "C56_trie_balance",
    "C56_vp_tagging_runs",
    "C56_vp_tagging_live",
    "C56_vp_tagging_static",
    "C56_trie_tagging_runs",
    "C56_trie_tagging_live",
    "C56_trie_tagging_static",
    "C56_blank_refuted",
    "C55_all_tagged_refuted",
    "C56_static_tagged_refuted",
    "C56_repeated_refuted"
   ],
   "note": "VPTree: all histories of inserts and erases by tombstones. Tries: inserts, and tombstones for the balance of records and tombstones; keys other than the empty literal, for which it is false. Tagging: both, as long as no block of records is erased altogether (false otherwise, C55_all_tagged_refuted); tries with distinct keys and, for the static structure, a buffer that is not all tagged (false otherwise, as the refuted theorems show)."
  },
  {
   "property": "C57",
   "status": "proved",
   "theorems": [
    "C57_flushes_succeed",
    "C57_balance",
    "C57_contents",
    "C57_sizes",
    "C57_height",
    "C57_sorted",
    "C57_count",
    "C57_range_query",
    "C57_range_bounds",
    "C57_static",
    "C57_static_bounds",
    "C57_range_count",
    "C57_point_lookup",
    "C57_vp_sizes",
    "C57_vp_height",
    "C57_trie_sizes",
    "C57_trie_height",
    "C57_vp_contents",
    "C57_vp_knn",
    "C57_trie_contents",
    "C57_trie_lookup",
    "C57_trie_erases"
   ],
   "note": "All layouts and all flushes of one to high-watermark records. Leveling within the bounds of C13."
  },
  {
   "property": "C58",
   "status": "partial",
   "theorems": [
    "C58_flush_sizes",
    "C58_answer_sizes",
    "C58_range_query_partial",
    "C58_range_bounds_partial"
   ],
   "note": "Flush sizes: every execution. Exact range queries: executions in which no append is half done when a reconstruction or a job reads the end of the buffer; false otherwise (C21_lost_record_refuted)."
  },
  {
   "property": "C59",
   "status": "proved",
   "theorems": [
    "C59_no_leak",
    "C59_at_most_three",
    "C59_destructor"
   ],
   "note": "Every execution of the interleaving model. The destructor is modelled from where its wait and the shutdown of the scheduler are over (see C24 and C43 for these)."
  },
  {
   "property": "C60",
   "status": "partial",
   "theorems": [
    "C60_total_partial",
    "C60_isam_partial",
    "C60_vp_partial",
    "C60_vp_index_partial",
    "C60_alias_constant",
    "C60_records_refuted"
   ],
   "note": "The exact value for every history and the bounds of the index part; that the records in the shards are counted is false of the code. PGM, TrieSpline and the tries report the size of the external model (FSTrie: see C79)."
  },
  {
   "property": "C61",
   "status": "partial",
   "theorems": [
    "C61_uniform",
    "C61_independent_partial"
   ],
   "note": "Uniformity after any insertions, with and without rejection, for exact random choices of the source and record; independence without rejection. With rejection the number of samples is not fixed (C33_fewer_refuted). The rounding of the floating-point weights of psudb::Alias is not modelled."
  },
  {
   "property": "C62",
   "status": "partial",
   "theorems": [
    "C62_shards_partial",
    "C62_refuted"
   ],
   "note": "Shards alone; false of the code as soon as the buffer is not empty."
  },
  {
   "property": "C63",
   "status": "partial",
   "theorems": [
    "C63_static_partial",
    "C63_static_bounds_partial",
    "C63_range_count_partial",
    "C63_point_lookup_partial",
    "C63_vp_static_partial",
    "C63_knn_partial",
    "C63_trie_lookup_partial",
    "C63_trie_bounds_partial"
   ],
   "note": "Executions in which no append is half done when a reconstruction or a job reads the end of the buffer; false otherwise (C21_lost_record_refuted). Range counts: no shard with keys below the range only (C09_range_count_fault_refuted). Tries: lookups without erases (false with them, as for C55), distinct keys, each at one address; with erases the balance of the static structure."
  },
  {
   "property": "C64",
   "status": "proved",
   "theorems": [
    "C64_contents",
    "C64_answers"
   ],
   "note": "One thread. Positions do not exceed 64 bits; the 32-bit tail is C40."
  },
  {
   "property": "C65",
   "status": "partial",
   "theorems": [
    "C65_delete_partial",
    "C65_delete_empty_refuted"
   ],
   "note": "Buffers that are not empty; on an empty buffer the answer can be wrong. C64_contents gives which record is tagged."
  },
  {
   "property": "C66",
   "status": "partial",
   "theorems": [
    "C66_truncate_partial",
    "C66_truncate_refuted"
   ],
   "note": "Buffers whose head was never advanced; false of the code otherwise."
  },
  {
   "property": "C67",
   "status": "partial",
   "theorems": [
    "C67_idle",
    "C67_first_partial",
    "C67_stuck_refuted",
    "C67_order_refuted",
    "C67_leveling_refuted",
    "C67_leveling_null_refuted"
   ],
   "note": "When tasks are planned: proved for all histories. What they do: proved when level 0 is the first beyond the bound and the level below has room; false of the code otherwise."
  },
  {
   "property": "C68",
   "status": "partial",
   "theorems": [
    "C68_check_partial",
    "C68_check_refuted",
    "C68_prop_refuted"
   ],
   "note": "Sound for all levels, exact if no shard holds both a record and a tombstone for it; false otherwise. The proportion is wrong."
  },
  {
   "property": "C69",
   "status": "partial",
   "theorems": [
    "C69_origin_partial",
    "C69_shards_partial",
    "C69_range_query_partial",
    "C69_static_partial",
    "C69_range_erases_partial",
    "C69_counts_partial",
    "C69_lookup_partial",
    "C69_knn_partial",
    "C69_initial_record_refuted"
   ],
   "note": "Every execution. The record that the buffer's array is filled with at first can be read too, which the refuted theorem shows. With erases, a reconstruction or read of sorted shards may fault on an empty shard (C42); the theorems say what it returns if not."
  },
  {
   "property": "C70",
   "status": "proved",
   "theorems": [
    "C70_answer_size",
    "C70_epoch_size"
   ],
   "note": "Every execution, with the capacity at least twice the high watermark."
  },
  {
   "property": "C71",
   "status": "proved",
   "theorems": [
    "C71_snapshot",
    "C71_durable",
    "C71_view",
    "C71_range_query_partial",
    "C71_erases_partial",
    "C71_static_partial"
   ],
   "note": "Every execution and set of slots, with the capacity at least twice the high watermark. Range queries: executions without erases, and with erases (leveling and tiering) the records that no call erases."
  },
  {
   "property": "C72",
   "status": "partial",
   "theorems": [
    "C72_total_partial",
    "C72_smallest",
    "C72_plan_partial",
    "C72_total_refuted",
    "C72_empty_refuted"
   ],
   "note": "Proved for tasks that are added by source, target and size; false for tasks added as a whole, as the BSM planner does."
  },
  {
   "property": "C73",
   "status": "partial",
   "theorems": [
    "C73_serial_partial",
    "C73_blocks_partial",
    "C73_default_type_refuted"
   ],
   "note": "Proved for the job types 1 and 2; a job of the default type fails an assertion after it has run."
  },
  {
   "property": "C74",
   "status": "partial",
   "theorems": [
    "C74_step",
    "C74_insert_steps",
    "C74_insert",
    "C74_read_steps_partial",
    "C74_read_partial",
    "C74_rebuild_steps_partial",
    "C74_rebuild_partial",
    "C74_transition_refuted",
    "C74_spin_refuted"
   ],
   "note": "Inserts end from every reachable state. Reads and reconstructions are proved to end when the buffer has the heads and references they ask for; otherwise they can spin, during a transition of epochs or for ever."
  },
  {
   "property": "C75",
   "status": "partial",
   "theorems": [
    "C75_space_partial",
    "C75_word_partial",
    "C75_free_partial",
    "C75_space_refuted"
   ],
   "note": "Proved for capacities of at least twice the high watermark; false for smaller ones, which the constructor accepts."
  },
  {
   "property": "C76",
   "status": "partial",
   "theorems": [
    "C76_three",
    "C76_no_stop_partial",
    "C76_current_partial",
    "C76_previous_partial",
    "C76_jobs_partial",
    "C76_heads_partial",
    "C76_drains_partial",
    "C76_leave_refuted",
    "C76_drop_refuted",
    "C76_empty_refuted"
   ],
   "note": "Proved for all executions except those through three windows of the code, each of which is shown to be fatal on its own."
  },
  {
   "property": "C77",
   "status": "partial",
   "theorems": [
    "C77_pgm_view",
    "C77_pgm_merge",
    "C77_pgm_history",
    "C77_pgm_static",
    "C77_view_partial",
    "C77_merge_partial",
    "C77_refines",
    "C77_history",
    "C77_inserts",
    "C77_static_partial",
    "C77_static_empty_refuted",
    "C77_empty_view_refuted"
   ],
   "note": "Proved, except that a TrieSpline shard cannot be made from an empty view or from no shards, which the refuted theorems show."
  },
  {
   "property": "C78",
   "status": "proved",
   "theorems": [
    "C78_stored",
    "C78_sorted",
    "C78_record_count",
    "C78_static",
    "C78_range_query",
    "C78_range_count",
    "C78_point_lookup"
   ],
   "note": "Sorted shards, all layouts, any flushes. Faults on empty shards are C42."
  },
  {
   "property": "C79",
   "status": "partial",
   "theorems": [
    "C79_inserts",
    "C79_erases_partial",
    "C79_static",
    "C79_destroy",
    "C79_destroy_erases_partial",
    "C79_tagging_partial",
    "C79_destroy_tagging_partial",
    "C79_static_tagging_partial",
    "C79_flushes",
    "C79_flush_erases_partial",
    "C79_concurrent_partial",
    "C79_concurrent_erases_partial",
    "C79_erased_refuted",
    "C79_tagged_refuted",
    "C79_blank_refuted",
    "C79_empty_refuted"
   ],
   "note": "Proved without erases, with few erases by tombstones, with erases by tagging that leave a record of each flush, for flushes of any sizes with and without erases, in concurrent executions too, and for static structures of indexes that are not empty; false of the code otherwise, as the refuted theorems show."
  },
  {
   "property": "C80",
   "status": "partial",
   "theorems": [
    "C80_rebuild",
    "C80_query",
    "C80_no_query",
    "C80_merge",
    "C80_answer",
    "C80_zero_refuted"
   ],
   "note": "For k >= 1 and exact distances; k = 0 takes the head of an empty queue. That the external Bentley-Saxe method merges the answers of its blocks one after another is assumed."
  },
  {
   "property": "C81",
   "status": "partial",
   "theorems": [
    "C81_rebuild",
    "C81_null",
    "C81_presorted",
    "C81_no_query",
    "C81_count_partial",
    "C81_answer_partial",
    "C81_between_refuted",
    "C81_unsorted_refuted",
    "C81_empty_refuted"
   ],
   "note": "Exact unless a block of 50 or more records has the lower bound between two keys, where the count is too large by one: false of the code. The spline is a contract."
  },
  {
   "property": "C82",
   "status": "partial",
   "theorems": [
    "C82_calls",
    "C82_fill",
    "C82_tombstones_partial",
    "C82_tagging_partial",
    "C82_short_refuted",
    "C82_cancel_refuted",
    "C82_repeated_refuted",
    "C82_erased_refuted"
   ],
   "note": "The calls for every index and the outcome without deletes, with few tombstone deletes and with tagging of different records of which enough stay; false of the code otherwise, as the refuted theorems show. Serial scheduler."
  },
  {
   "property": "C83",
   "status": "partial",
   "theorems": [
    "C83_balance_partial",
    "C83_static_partial",
    "C83_range_query_partial",
    "C83_bsm_refuted",
    "C71_erases_partial",
    "C71_static_partial"
   ],
   "note": "Leveling and tiering, any flushes and executions; false of the Bentley-Saxe layout, as the refuted theorem shows. Faults on empty shards are C42."
  },
  {
   "property": "C84",
   "status": "proved",
   "theorems": [
    "C84_range_query",
    "C84_same",
    "C84_range_count",
    "C84_lookup",
    "C84_sample",
    "C84_weighted",
    "C84_knn",
    "C84_empty_range_refuted",
    "C84_tombstone_refuted",
    "C84_empty_refuted"
   ],
   "note": "Arrays by contract of their searches (met by ISAM trees), VPTrees for kNN. The refuted theorems show that the conditions on the history and the range are needed."
  },
  {
   "property": "C85",
   "status": "partial",
   "theorems": [
    "C85_keys",
    "C85_points",
    "C85_strings",
    "C85_vectors",
    "C85_short_refuted",
    "C85_dim_refuted"
   ],
   "note": "Proved for files that are long enough and of the right dimension; for others variables without a value or places outside the record are used, as the refuted theorems show. atof is a parameter."
  },
  {
   "property": "C86",
   "status": "partial",
   "theorems": [
    "C86_range",
    "C86_lookup",
    "C86_knn",
    "C86_binary_knn",
    "C86_strings",
    "C86_text_refuted",
    "C86_cut_refuted",
    "C86_space_refuted",
    "C86_blank_refuted"
   ],
   "note": "Proved for files of the expected form; the refuted theorems show four small deviations with which reading never ends, makes up a query or faults. atof, the scanning of a floating-point number and the comparison of selectivities are parameters."
  },
  {
   "property": "C87",
   "status": "partial",
   "theorems": [
    "C87_positions",
    "C87_tagging_partial",
    "C87_tombstones_partial",
    "C87_unfilled_refuted"
   ],
   "note": "As C82, on records read as in C85. False if the random numbers ask for more erases than positions were chosen."
  },
  {
   "property": "C88",
   "status": "partial",
   "theorems": [
    "C88_once",
    "C88_stored_partial",
    "C88_benchmark_partial",
    "C88_rest_refuted"
   ],
   "note": "Exactly once: every execution. Where the records are: as C71; otherwise false (C21_lost_record_refuted). The benchmark leaves out the last records if they cannot be divided among the threads."
  },
  {
   "property": "C89",
   "status": "partial",
   "theorems": [
    "C89_tagging_partial",
    "C89_tombstones_partial",
    "C89_fault_refuted",
    "C89_no_query_refuted",
    "C89_erased_refuted"
   ],
   "note": "As C87. Exact with tagging; with tombstones the stored tombstones in the range are counted as well (false otherwise, C89_erased_refuted). The program faults if a shard lies below a range or no line is accepted, as the refuted theorems show."
  },
  {
   "property": "C90",
   "status": "partial",
   "theorems": [
    "C90_samples_partial",
    "C90_erased_refuted"
   ],
   "note": "As C87. Samples lie in the range and are records of the file, at most as many as asked for; with rejection off exactly as many. The index can sample erased records, as the refuted theorem shows; the static structure cannot. The program never ends if a range contains no record."
  },
  {
   "property": "C91",
   "status": "partial",
   "theorems": [
    "C91_text_partial",
    "C91_binary_partial",
    "C91_erased_refuted",
    "C91_equal_refuted"
   ],
   "note": "As C87, for different records. Exact with respect to the live records and some erased ones; the index can return erased records and equal records are not all erased, as the refuted theorems show. The static structure is exact."
  },
  {
   "property": "C92",
   "status": "partial",
   "theorems": [
    "C92_lookups_partial",
    "C92_fill_partial",
    "C92_erased_refuted",
    "C92_repeated_refuted"
   ],
   "note": "As C87. Exact for different lines when no erase comes up, for index and static structure. With erases the filling is shown to succeed and to balance; the answers can contain erased records and equal lines can get the record of another line, as the refuted theorems show."
  },
  {
   "property": "C93",
   "status": "partial",
   "theorems": [
    "C93_different",
    "C93_printed",
    "C93_first",
    "C93_empty",
    "C93_random_refuted",
    "C93_few_refuted"
   ],
   "note": "Different points of the file, as many as asked for, whenever there are enough different ones. They are always the first different points of the file and not random, and with fewer the first point is repeated, as the refuted theorems show; without points the program faults."
  },
  {
   "property": "C94",
   "status": "partial",
   "theorems": [
    "C94_batches_partial",
    "C94_endless",
    "C94_none",
    "C94_more_refuted"
   ],
   "note": "Exact up to the end of the last batch, which is not cut: more records than asked for are inserted, as the refuted theorem shows. With empty batches the program does not end, without records it divides by 0."
  },
  {
   "property": "C95",
   "status": "partial",
   "theorems": [
    "C95_sweep_partial",
    "C95_counts_partial",
    "C95_parameters",
    "C95_same_refuted"
   ],
   "note": "Every round inserts all records, erases the first of the chosen ones, as many as its random numbers make due, and answers with the nearest of the live and some erased records. The program that counts gives the live records and stored tombstones in each range (C95_counts_partial). The rounds do not get the same erases, as the refuted theorem shows; the assumptions of C91 and C89 are made for each round."
  }
 ]
}