{
 "claims": [
  {
   "property": "C01",
   "status": "proved",
   "theorems": [
    "C01_llrb_is_a_sorted_map"
   ],
   "note": ""
  },
  {
   "property": "C02",
   "status": "proved",
   "theorems": [
    "C02_index_order"
   ],
   "note": ""
  },
  {
   "property": "C03",
   "status": "proved",
   "theorems": [
    "C03_bisect"
   ],
   "note": ""
  },
  {
   "property": "C04",
   "status": "proved",
   "theorems": [
    "C04_llrb_no_panic"
   ],
   "note": ""
  },
  {
   "property": "C05",
   "status": "proved",
   "theorems": [
    "C05_logarithmic"
   ],
   "note": ""
  },
  {
   "property": "C06",
   "status": "proved",
   "theorems": [
    "C06_validate"
   ],
   "note": ""
  },
  {
   "property": "C07",
   "status": "proved",
   "theorems": [
    "C07_failed_put"
   ],
   "note": ""
  },
  {
   "property": "C08",
   "status": "partial",
   "theorems": [
    "C08_failed_delete_partial",
    "C08_failed_delete_refuted",
    "C08_later_loss_refuted"
   ],
   "note": "The full claim is false of the code; witnesses refute it (wrong lengths; a later successful delete loses a third entry). Proved: a DeleteByKey that fails in its search pass changes nothing. That no entry is lost by the failing call itself is C63."
  },
  {
   "property": "C09",
   "status": "proved",
   "theorems": [
    "C09_total_orders",
    "C09_agree_with_order"
   ],
   "note": ""
  },
  {
   "property": "C10",
   "status": "partial",
   "theorems": [
    "C10_compare_int_partial",
    "C10_compare_int_order_partial",
    "C10_compare_int_refuted"
   ],
   "note": "The full claim is false (64-bit overflow). Proved: exact characterisation of when the answer is right, and total order on [-2^62,2^62)."
  },
  {
   "property": "C11",
   "status": "partial",
   "theorems": [
    "C11_compare_time_partial",
    "C11_compare_time_refuted"
   ],
   "note": "The full claim is false for times with and without monotonic reading mixed. Proved: total order on each kind."
  },
  {
   "property": "C12",
   "status": "proved",
   "theorems": [
    "C12_foreign_types"
   ],
   "note": ""
  },
  {
   "property": "C13",
   "status": "proved",
   "theorems": [
    "C13_new_tree_is_a_sorted_map",
    "C13_old_tree_is_a_sorted_map",
    "C13_tree_is_a_sorted_map"
   ],
   "note": ""
  },
  {
   "property": "C14",
   "status": "proved",
   "theorems": [
    "C14_positions"
   ],
   "note": ""
  },
  {
   "property": "C15",
   "status": "proved",
   "theorems": [
    "C15_interchangeable"
   ],
   "note": ""
  },
  {
   "property": "C16",
   "status": "proved",
   "theorems": [
    "C16_calls_end"
   ],
   "note": ""
  },
  {
   "property": "C17",
   "status": "proved",
   "theorems": [
    "C17_shape",
    "C17_capacity",
    "C17_report",
    "C17_height"
   ],
   "note": ""
  },
  {
   "property": "C18",
   "status": "proved",
   "theorems": [
    "C18_validate"
   ],
   "note": ""
  },
  {
   "property": "C19",
   "status": "proved",
   "theorems": [
    "C19_evictions_are_invisible",
    "C19_purge_works"
   ],
   "note": ""
  },
  {
   "property": "C20",
   "status": "proved",
   "theorems": [
    "C20_reopen"
   ],
   "note": ""
  },
  {
   "property": "C21",
   "status": "proved",
   "theorems": [
    "C21_checkpoint_survives",
    "C20_reopen"
   ],
   "note": "Crashes are modelled before every storage callback and between calls."
  },
  {
   "property": "C22",
   "status": "proved",
   "theorems": [
    "C22_prune",
    "C22_prune_exact",
    "C23_prune_partial"
   ],
   "note": "The reopening clause is C23_prune_partial, which is the full clause for a tree without unsaved changes."
  },
  {
   "property": "C23",
   "status": "partial",
   "theorems": [
    "C23_prune_partial",
    "C23_refuted"
   ],
   "note": "The full claim is false: Prune while there are unsaved changes discards nodes of the last checkpoint. Proved: Prune, failed Prune and a crash in Prune keep the checkpoint of a tree without unsaved changes."
  },
  {
   "property": "C24",
   "status": "proved",
   "theorems": [
    "C24_accounting",
    "C24_apart",
    "C24_flush_prune",
    "C24_discard",
    "C24_all_discarded",
    "C17_shape"
   ],
   "note": ""
  },
  {
   "property": "C25",
   "status": "proved",
   "theorems": [
    "C25_flush_of_unchanged_tree"
   ],
   "note": ""
  },
  {
   "property": "C26",
   "status": "proved",
   "theorems": [
    "C26_touch"
   ],
   "note": ""
  },
  {
   "property": "C27",
   "status": "proved",
   "theorems": [
    "C27_progress",
    "C27_covers",
    "C27_rewrites"
   ],
   "note": ""
  },
  {
   "property": "C28",
   "status": "proved",
   "theorems": [
    "C28_layout"
   ],
   "note": ""
  },
  {
   "property": "C29",
   "status": "proved",
   "theorems": [
    "C29_round_trip",
    "C29_injective",
    "C29_blocks"
   ],
   "note": ""
  },
  {
   "property": "C30",
   "status": "partial",
   "theorems": [
    "C30_lists",
    "C30_unique",
    "C30_has_all",
    "C30_no_others_partial",
    "C30_apart",
    "C30_updates",
    "C30_order",
    "C30_refuted"
   ],
   "note": "Everything is proved, but that there are no other nodes on the lists only while no tree was damaged by a failed call. It is false otherwise: a Discard that cannot read a node leaves the root of the discarded tree on the clean list."
  },
  {
   "property": "C31",
   "status": "partial",
   "theorems": [
    "C31_select",
    "C31_evict_partial",
    "C31_stops_partial",
    "C31_limits",
    "C31_refuted",
    "C31_panic_refuted"
   ],
   "note": "Proved for all histories in which no tree was damaged by a failed call or dropped without Discard. False otherwise: after a Discard that cannot read a node the drainer runs for ever without evicting anything, or panics."
  },
  {
   "property": "C32",
   "status": "proved",
   "theorems": [
    "C32_failed_calls"
   ],
   "note": ""
  },
  {
   "property": "C33",
   "status": "partial",
   "theorems": [
    "C33_failed_delete_partial",
    "C33_refuted"
   ],
   "note": "The full claim is false: a delete that fails while restructuring can lose another entry after an eviction. Proved: the last checkpoint can still be opened."
  },
  {
   "property": "C34",
   "status": "partial",
   "theorems": [
    "C34_failed_prune_partial",
    "C34_refuted"
   ],
   "note": "The full claim is false: the retry asks to discard again what is already discarded. Proved: a failed Prune does not harm the checkpoint of a tree without unsaved changes."
  },
  {
   "property": "C35",
   "status": "partial",
   "theorems": [
    "C35_first_discard_partial",
    "C35_refuted"
   ],
   "note": "The full claim is false in both parts. Proved: the first Discard returns, or reports an error because a callback failed."
  },
  {
   "property": "C36",
   "status": "proved",
   "theorems": [
    "C36_isolation",
    "C36_same_answers"
   ],
   "note": ""
  },
  {
   "property": "C37",
   "status": "proved",
   "theorems": [
    "C37_answers_of_a_sorted_map",
    "C37_new_tree_is_a_sorted_map",
    "C37_calls_happen_while_they_run",
    "C37_every_call_is_right",
    "C37_no_panic",
    "C37_one_call_at_a_time",
    "C37_no_deadlock",
    "C37_calls_end",
    "C37_versions_are_kept",
    "C37_versions_can_be_opened",
    "C37_opening_fails_only_if_a_callback_fails"
   ],
   "note": "Every interleaving of steps. A stretch under the cache mutex is one step; FetchLocation, which takes no lock, may run at any time but its own result is C42."
  },
  {
   "property": "C38",
   "status": "proved",
   "theorems": [
    "C38_capacity"
   ],
   "note": ""
  },
  {
   "property": "C39",
   "status": "proved",
   "theorems": [
    "C39_llrb_patch",
    "C39_btree_patches"
   ],
   "note": ""
  },
  {
   "property": "C40",
   "status": "proved",
   "theorems": [
    "C40_location_of_flushed_tree",
    "C40_location_of_opened_tree",
    "C40_location_of_modified_tree",
    "C40_location_of_new_tree"
   ],
   "note": ""
  },
  {
   "property": "C41",
   "status": "proved",
   "theorems": [
    "C41_storage_effects",
    "C41_bystander"
   ],
   "note": ""
  },
  {
   "property": "C42",
   "status": "partial",
   "theorems": [
    "C42_while_the_tree_is_at_rest_partial",
    "C42_refuted",
    "C42_panic_refuted"
   ],
   "note": "The full claim is false: FetchLocation takes no lock and can return a location that was never stored, or panic when Discard runs at the same time. Proved: the right location while no other call but FetchLocation and the drainer runs on the tree."
  },
  {
   "property": "C43",
   "status": "proved",
   "theorems": [
    "C43_reads"
   ],
   "note": ""
  },
  {
   "property": "C44",
   "status": "proved",
   "theorems": [
    "C44_stats",
    "C44_touch",
    "C44_counters"
   ],
   "note": "Exact count of misses; hits plus misses between the bounds given by least and most, which are equal for lookups, Put, Patch and FetchDimensionsReport. Discard: only that the counters do not decrease."
  },
  {
   "property": "C45",
   "status": "proved",
   "theorems": [
    "C45_flush",
    "C45_prune"
   ],
   "note": ""
  },
  {
   "property": "C46",
   "status": "proved",
   "theorems": [
    "C46_dump",
    "C46_dump_ends"
   ],
   "note": ""
  },
  {
   "property": "C47",
   "status": "partial",
   "theorems": [
    "C47_dump_reports_errors_refuted",
    "C46_dump"
   ],
   "note": "The claim is false: dumpNode ignores the error of reading a child. Proved: complete if no callback failed, and right as far as it goes otherwise."
  },
  {
   "property": "C48",
   "status": "proved",
   "theorems": [
    "C48_llrb_dump",
    "C48_llrb_dump_fails",
    "C48_llrb_dump_faithful",
    "C48_llrb_dump_lines"
   ],
   "note": ""
  },
  {
   "property": "C49",
   "status": "proved",
   "theorems": [
    "C49_foreign_key",
    "C49_touch_keeps",
    "C49_llrb_foreign_key",
    "C49_llrb_errors_reported"
   ],
   "note": "For trees with at least one entry: Compare is not called on an empty tree."
  },
  {
   "property": "C50",
   "status": "partial",
   "theorems": [
    "C50_refused_call_keeps_stored_refuted",
    "C49_foreign_key"
   ],
   "note": "The claim is false: PatchByKey marks the leaf modified before it looks for the key. Proved: true of the other five calls."
  },
  {
   "property": "C51",
   "status": "proved",
   "theorems": [
    "C51_flush_frees",
    "C51_purge_frees",
    "C51_nothing_held",
    "C51_others_partial",
    "C51_alone_partial"
   ],
   "note": "The two clauses about all trees on the cache (others, alone) are proved for histories in which no tree was damaged by a failed call or dropped without Discard; otherwise strays may remain, see C30_refuted."
  },
  {
   "property": "C52",
   "status": "proved",
   "theorems": [
    "C52_reads_wake",
    "C52_open_wakes"
   ],
   "note": ""
  },
  {
   "property": "C53",
   "status": "partial",
   "theorems": [
    "C53_refuted",
    "C52_reads_wake",
    "C52_open_wakes"
   ],
   "note": "The claim is false: Put on a tree that grows puts new nodes on the dirty list without looking at the limit. What remains true is C52."
  },
  {
   "property": "C54",
   "status": "proved",
   "theorems": [
    "C54_refused"
   ],
   "note": ""
  },
  {
   "property": "C55",
   "status": "proved",
   "theorems": [
    "C55_open_safe"
   ],
   "note": "A location without a block is a GetNode error; covered by failing callbacks in the other theorems."
  },
  {
   "property": "C56",
   "status": "partial",
   "theorems": [
    "C56_validate_order_refuted",
    "C56_validated_partial"
   ],
   "note": "The claim is false: Validate compares keys only inside one node, so two leaves exchanged on storage pass. Proved: what Validate accepts is a finite tree, all of whose blocks can be read, with distinct keys in each leaf and right counts."
  },
  {
   "property": "C57",
   "status": "partial",
   "theorems": [
    "C57_panic_refuted",
    "C55_open_safe"
   ],
   "note": "The claim is false: a root block of an inner node without children is accepted, and GetByKey and Put then panic. Opening itself is safe (C55)."
  },
  {
   "property": "C58",
   "status": "proved",
   "theorems": [
    "C58_same_answers",
    "C58_cut_blocks"
   ],
   "note": "That the failing call returns an error rather than panics is proved for OldBPlusTree only (C54, C55)."
  },
  {
   "property": "C59",
   "status": "proved",
   "theorems": [
    "C59_path",
    "C59_looks",
    "C59_spared"
   ],
   "note": ""
  },
  {
   "property": "C60",
   "status": "proved",
   "theorems": [
    "C60_no_callbacks",
    "C60_owns_nothing"
   ],
   "note": "Dump and Discard are not covered."
  },
  {
   "property": "C61",
   "status": "partial",
   "theorems": [
    "C61_shared_map_refuted",
    "C61_panic_refuted",
    "C61_shared_map_partial",
    "C61_no_deadlock_partial",
    "C61_calls_end"
   ],
   "note": "The claim is false: Reset takes no lock. Proved: true if no Reset overlaps with a Put, DeleteByKey, DeleteByIndex or Len."
  },
  {
   "property": "C62",
   "status": "proved",
   "theorems": [
    "C62_comparisons"
   ],
   "note": "The list of comparisons is shown complete: a Compare that differs from it elsewhere gives the same run."
  },
  {
   "property": "C63",
   "status": "proved",
   "theorems": [
    "C63_no_entry_lost",
    "C63_entries_kept"
   ],
   "note": "Compare is a function: it gives the same answer for the same pair throughout one call."
  },
  {
   "property": "C64",
   "status": "partial",
   "theorems": [
    "C64_failed_compare_refuted",
    "C64_failed_put_refuted",
    "C64_silent_put_refuted",
    "C49_foreign_key"
   ],
   "note": "The claim is false; three runs refute it. Proved: a key that Compare rejects does no harm (C49_foreign_key)."
  },
  {
   "property": "C65",
   "status": "partial",
   "theorems": [
    "C65_no_reads_partial",
    "C65_failed_lookup_refuted"
   ],
   "note": "The claim is false of calls that read a node from storage: the error of the Put that enters a child into the node read is dropped. Proved for calls that do not read from storage, after every history: same answer, or the error and no harm."
  },
  {
   "property": "C66",
   "status": "proved",
   "theorems": [
    "C66_limits_last_given",
    "C66_new_cache"
   ],
   "note": ""
  }
 ]
}