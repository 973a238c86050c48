{
 "claims": [
  {
   "property": "C01",
   "status": "proved",
   "theorems": [
    "C01_sort_safe"
   ],
   "note": "All comparators as arbitrary state transformers; termination is absence of Diverge, panics are explicit."
  },
  {
   "property": "C02",
   "status": "proved",
   "theorems": [
    "C02_sort_sorts"
   ],
   "note": ""
  },
  {
   "property": "C03",
   "status": "proved",
   "theorems": [
    "C03_sortordered_safe",
    "C03_sortordered_sorts"
   ],
   "note": "< and >= are independent arbitrary operators, so NaN is covered."
  },
  {
   "property": "C04",
   "status": "proved",
   "theorems": [
    "C04_stable_safe",
    "C04_stableordered_safe"
   ],
   "note": ""
  },
  {
   "property": "C05",
   "status": "proved",
   "theorems": [
    "C05_stable_sorts_stably",
    "C05_stableordered_sorts_stably"
   ],
   "note": ""
  },
  {
   "property": "C06",
   "status": "proved",
   "theorems": [
    "C06_sort_depth",
    "C06_symmerge_depth"
   ],
   "note": "Explicit stack budget; floor(log2 n)+1 nested calls suffice for every comparator."
  },
  {
   "property": "C07",
   "status": "proved",
   "theorems": [
    "C07_sort_comparisons"
   ],
   "note": "C = 1000."
  },
  {
   "property": "C26",
   "status": "proved",
   "theorems": [
    "C26_ring_is_deque",
    "C26_panic_leaves_unchanged"
   ],
   "note": ""
  },
  {
   "property": "C27",
   "status": "proved",
   "theorems": [
    "C27_cap_proportional",
    "C27_grow_only_when_full"
   ],
   "note": "Holds for all constructors, including NewLen/NewLenCap."
  },
  {
   "property": "C28",
   "status": "proved",
   "theorems": [
    "C28_dead_slots_zero"
   ],
   "note": ""
  },
  {
   "property": "C29",
   "status": "partial",
   "theorems": [
    "C29_newlencap_refuted",
    "C29_newlencap_partial"
   ],
   "note": "REFUTED: the code ignores the capacity; NewLenCap(n,cap).Cap() = n."
  },
  {
   "property": "C72",
   "status": "proved",
   "theorems": [
    "C72_amortised_copying"
   ],
   "note": ""
  },
  {
   "property": "C50",
   "status": "partial",
   "theorems": [
    "C50_or",
    "C50_not",
    "C50_and_refuted",
    "C50_and_partial",
    "C50_and_method_refuted",
    "C50_and_method_partial",
    "C50_methods",
    "C50_membership",
    "C50_membership_any",
    "C50_short_circuit"
   ],
   "note": "And part REFUTED, for the function and the method: And has the code of Or. Or, Not, Neg, IsEq*, True/False proved, with evaluation order."
  },
  {
   "property": "C51",
   "status": "proved",
   "theorems": [
    "C51_prefix_suffix"
   ],
   "note": "Strings and byte slices as lists of bytes."
  },
  {
   "property": "C52",
   "status": "proved",
   "theorems": [
    "C52_lessfloat_order",
    "C52_sort_floats",
    "C52_less_not_order"
   ],
   "note": "IEEE values of Coq.Floats.SpecFloat."
  },
  {
   "property": "C53",
   "status": "proved",
   "theorems": [
    "C53_bind_routes"
   ],
   "note": "Variadic src: see C54. reflect modelled by its documented behaviour."
  },
  {
   "property": "C54",
   "status": "partial",
   "theorems": [
    "C54_bind_accepts",
    "C54_bind_well_typed_partial",
    "C54_variadic_refuted",
    "C54_variadic_partial"
   ],
   "note": "Acceptance condition proved as an iff; well-typed calls proved for non-variadic src and REFUTED for variadic src, whose exact behaviour is C54_variadic_partial."
  },
  {
   "property": "C55",
   "status": "proved",
   "theorems": [
    "C55_min_max"
   ],
   "note": ""
  },
  {
   "property": "C56",
   "status": "proved",
   "theorems": [
    "C56_uint64_bijective"
   ],
   "note": ""
  },
  {
   "property": "C57",
   "status": "proved",
   "theorems": [
    "C57_seed_injective",
    "C57_one_word_differs",
    "C57_states_stay_apart"
   ],
   "note": ""
  },
  {
   "property": "C58",
   "status": "partial",
   "theorems": [
    "C58_write_refuted",
    "C58_write_partial",
    "C58_write_exactly",
    "C58_block_differs"
   ],
   "note": "REFUTED when len(p) is not a multiple of 8 (reads past len, returns a count > len, or panics); proved for multiples of 8; exact behaviour for all slices in C58_write_exactly."
  },
  {
   "property": "C59",
   "status": "proved",
   "theorems": [
    "C59_roundtrip"
   ],
   "note": ""
  },
  {
   "property": "C60",
   "status": "proved",
   "theorems": [
    "C60_is_xxh3"
   ],
   "note": "XXH3_len_4to8 transcribed from the public XXH3 algorithm; the zeebo/xxh3 dependency itself is not in the repo."
  },
  {
   "property": "C30",
   "status": "proved",
   "theorems": [
    "C30_enumeration",
    "C30_set",
    "C30_delete"
   ],
   "note": "Go maps are association lists with any boolean key equality; range order is an arbitrary permutation. Set behaviour is proved for key types whose == is decidable equality."
  },
  {
   "property": "C31",
   "status": "partial",
   "theorems": [
    "C31_clear_refuted",
    "C31_clear_exact",
    "C31_clear_partial"
   ],
   "note": "REFUTED as stated: entries with NaN keys survive Clear. C31_clear_exact says exactly what is left; C31_clear_partial is the property for self-equal keys."
  },
  {
   "property": "C32",
   "status": "partial",
   "theorems": [
    "C32_arraymap_refuted",
    "C32_lookups_partial",
    "C32_arraymap_partial",
    "C32_delete_breaks",
    "C32_set_breaks",
    "C32_comes_back_refuted",
    "C32_len"
   ],
   "note": "REFUTED as stated: Set of a present key duplicates it (Len 2) and Delete breaks the index of the moved entry (later TryGet panics). Proved for histories that delete only absent or latest-pushed keys, and (for Len/At) never set a present key; C32_delete_breaks says what every other Delete does to the key pushed last: present, unreadable, then read as the value of the next key set. C32_set_breaks: every Set of a present key makes Len one more than the number of keys; C32_comes_back_refuted: a key set twice and deleted comes back when another is deleted; C32_len: in every history Len is Sets less successful Deletes, At works exactly below Len and a panicking call changes nothing."
  },
  {
   "property": "C33",
   "status": "partial",
   "theorems": [
    "C33_custom_refuted",
    "C33_collision_lost",
    "C33_custom_exact",
    "C33_custom_partial",
    "C33_no_collision_partial",
    "C33_overflow_refuted",
    "C33_overflow_partial"
   ],
   "note": "REFUTED as stated: Set of a key colliding with another key answers true but stores nothing, in every reachable state (C33_collision_lost). C33_custom_exact says what the code does in every history; the property itself is proved for the histories in which no Set is of a key whose hash another present key has. About the overflow code that no Custom reaches: in a Custom with an overflow map, deleting the first key of a hash hides the others (C33_overflow_refuted), and every history without that answers as a map (C33_overflow_partial)."
  },
  {
   "property": "C34",
   "status": "proved",
   "theorems": [
    "C34_sequential",
    "C34_total",
    "C34_new_panics"
   ],
   "note": "One goroutine, any shard count, hash and history, every range order. Key == is equality; C108 is about the other key types. IterateShards, whose callback may change the map arbitrarily, is not part of the history."
  },
  {
   "property": "C35",
   "status": "proved",
   "theorems": [
    "C35_linearizable"
   ],
   "note": "Any number of goroutines, beside all methods except Clear and IterateShards, for any hash compatible with key equality (NaN keys included)."
  },
  {
   "property": "C36",
   "status": "proved",
   "theorems": [
    "C36_once",
    "C36_same_value",
    "C36_only_absent"
   ],
   "note": "A factory that panics stores nothing and is not counted; concurrent Set/Delete/Clear/IterateShards of that key are excluded as in the property, and allowed (but Clear, IterateShards) for C36_only_absent."
  },
  {
   "property": "C37",
   "status": "partial",
   "theorems": [
    "C37_no_race_partial",
    "C37_clear_race_refuted"
   ],
   "note": "REFUTED as stated: Clear writes under the read lock. Proved for all other methods."
  },
  {
   "property": "C38",
   "status": "proved",
   "theorems": [
    "C38_no_deadlock",
    "C38_all_free",
    "C38_all_return"
   ],
   "note": "All methods, including Clear and IterateShards. sync.RWMutex is modelled with writer preference."
  },
  {
   "property": "C39",
   "status": "partial",
   "theorems": [
    "C39_len_refuted",
    "C39_len_partial",
    "C39_len_between_partial"
   ],
   "note": "REFUTED as stated, by an execution in which Len returns 2 though the map never has 2 entries. Proved when the calls running during Len only add, or only remove, entries (so also when there are no concurrent writes). Whatever the calls by key beside it, Len is at least the number of keys there all the time and at most the number of keys there at some moment."
  },
  {
   "property": "C08",
   "status": "proved",
   "theorems": [
    "C08_lower_bound",
    "C08_lower_bound_sorted"
   ],
   "note": "For every lawful random iterator and every comparator answering a predicate (it may count its calls or change other state); at most floor(log2 n)+1 calls."
  },
  {
   "property": "C09",
   "status": "proved",
   "theorems": [
    "C09_upper_bound",
    "C09_upper_bound_sorted"
   ],
   "note": "As C08."
  },
  {
   "property": "C10",
   "status": "proved",
   "theorems": [
    "C10_reversed_range_panics",
    "C10_empty_range_no_calls"
   ],
   "note": ""
  },
  {
   "property": "C11",
   "status": "proved",
   "theorems": [
    "C11_sorted_until",
    "C11_is_sorted"
   ],
   "note": ""
  },
  {
   "property": "C12",
   "status": "proved",
   "theorems": [
    "C12_reverse"
   ],
   "note": ""
  },
  {
   "property": "C13",
   "status": "proved",
   "theorems": [
    "C13_swap",
    "C13_fill_n",
    "C13_fill_none"
   ],
   "note": ""
  },
  {
   "property": "C14",
   "status": "proved",
   "theorems": [
    "C14_next_permutation"
   ],
   "note": ""
  },
  {
   "property": "C15",
   "status": "proved",
   "theorems": [
    "C15_wraps_at_the_last"
   ],
   "note": ""
  },
  {
   "property": "C16",
   "status": "proved",
   "theorems": [
    "C16_enumerates_all_permutations"
   ],
   "note": ""
  },
  {
   "property": "C17",
   "status": "proved",
   "theorems": [
    "C17_reverse_lawful",
    "C17_slice_iterators_lawful",
    "C17_slice_ranges"
   ],
   "note": "All four wrappers over any lawful iterator, hence also over reversed ones."
  },
  {
   "property": "C18",
   "status": "partial",
   "theorems": [
    "C18_reverse_random_range_refuted",
    "C18_reverse_random_range_partial"
   ],
   "note": "REFUTED: Begin and End are not exchanged, so for every non-empty range of a slice walking the result never reaches its End. Holds for empty ranges only."
  },
  {
   "property": "C19",
   "status": "proved",
   "theorems": [
    "C19_in_bounds",
    "C19_exact_panics"
   ],
   "note": ""
  },
  {
   "property": "C20",
   "status": "proved",
   "theorems": [
    "C20_insert",
    "C20_insert_panics",
    "C20_insert_foreign_iterator_panics"
   ],
   "note": "Any heap, offset, spare capacity and growth policy."
  },
  {
   "property": "C21",
   "status": "proved",
   "theorems": [
    "C21_delete",
    "C21_unordered_delete",
    "C21_delete_last",
    "C21_delete_panics"
   ],
   "note": ""
  },
  {
   "property": "C22",
   "status": "proved",
   "theorems": [
    "C22_insert_frame",
    "C22_append_frame",
    "C22_append_one_frame",
    "C22_delete_frame",
    "C22_other_slices_unchanged"
   ],
   "note": "AppendMany writes the indices len..len+n-1 when they fit, Append and Insert only index len."
  },
  {
   "property": "C23",
   "status": "proved",
   "theorems": [
    "C23_copy",
    "C23_reversed"
   ],
   "note": ""
  },
  {
   "property": "C24",
   "status": "proved",
   "theorems": [
    "C24_append_slice",
    "C24_insert_slice",
    "C24_ring",
    "C24_fill_n",
    "C24_other_methods"
   ],
   "note": "Append to slices and rings, Prepend to rings, Insert into slices."
  },
  {
   "property": "C25",
   "status": "partial",
   "theorems": [
    "C25_newlencap_refuted",
    "C25_newlencap_partial"
   ],
   "note": "REFUTED: the length of the result is cap, not len, whenever len < cap. Proved: zeroed, capacity at least cap, right when len = cap."
  },
  {
   "property": "C40",
   "status": "partial",
   "theorems": [
    "C40_pipeline_partial",
    "C40_slice_partial",
    "C40_interleaved_partial",
    "C40_skip_overflow_refuted",
    "C40_skip_after_end_refuted"
   ],
   "note": "REFUTED at two corners: the slice source overflows its index when the total skipped exceeds maxInt - len, and Skip on an ended stream panics on a nil source. Proved for every delivering source within its skip budget, also with Nexts between the builder calls."
  },
  {
   "property": "C41",
   "status": "proved",
   "theorems": [
    "C41_slice",
    "C41_count",
    "C41_collect",
    "C41_reduce",
    "C41_all_any_none",
    "C41_first",
    "C41_string"
   ],
   "note": ""
  },
  {
   "property": "C42",
   "status": "proved",
   "theorems": [
    "C42_any",
    "C42_all",
    "C42_first"
   ],
   "note": ""
  },
  {
   "property": "C43",
   "status": "proved",
   "theorems": [
    "C43_sticky",
    "C43_sticky_builders"
   ],
   "note": ""
  },
  {
   "property": "C44",
   "status": "partial",
   "theorems": [
    "C44_range_partial",
    "C44_progression",
    "C44_range_overflow_refuted",
    "C44_range_max_refuted",
    "C44_rangeN_partial",
    "C44_rangeN_refuted",
    "C44_sequence",
    "C44_zero_step"
   ],
   "note": "REFUTED when the number after the last overflows the type, when end is the type maximum, and for RangeN(minimum), which includes RangeN(0) of unsigned types. Proved in all other cases."
  },
  {
   "property": "C45",
   "status": "partial",
   "theorems": [
    "C45_limit_partial",
    "C45_pulls",
    "C45_limit_refuted"
   ],
   "note": "REFUTED for the number of pulls: n+1 for every n. The elements and termination are proved; C45_pulls gives the exact number of pulls for Limits anywhere among any stages."
  },
  {
   "property": "C46",
   "status": "proved",
   "theorems": [
    "C46_turns",
    "C46_last_turn"
   ],
   "note": "Every source and every callback, with answers that depend on anything, panics included."
  },
  {
   "property": "C47",
   "status": "partial",
   "theorems": [
    "C47_peek_partial",
    "C47_peek_limit_partial",
    "C47_exact",
    "C47_determined",
    "C47_skip_refuted"
   ],
   "note": "REFUTED by Peek followed by Skip with no Filter or Limit before. Proved when no Skip follows; with a Limit after, Peek sees a prefix. C47_exact says what a Peek sees for all stages before and after it, and C47_determined that this is one answer."
  },
  {
   "property": "C48",
   "status": "proved",
   "theorems": [
    "C48_map",
    "C48_skip",
    "C48_nested"
   ],
   "note": ""
  },
  {
   "property": "C49",
   "status": "partial",
   "theorems": [
    "C49_slice_partial",
    "C49_slice_skip_partial",
    "C49_slice_skip_refuted",
    "C49_iterators",
    "C49_of_iterators",
    "C49_other_slice",
    "C49_bounded",
    "C49_generator"
   ],
   "note": "REFUTED for the slice source when index + n overflows int. All other sources, and the slice source below that, are proved."
  },
  {
   "property": "C61",
   "status": "proved",
   "theorems": [
    "C61_never_fails",
    "C61_nesting"
   ],
   "note": "For every cipher whose key stream consists of bytes."
  },
  {
   "property": "C62",
   "status": "proved",
   "theorems": [
    "C62_erased"
   ],
   "note": ""
  },
  {
   "property": "C63",
   "status": "partial",
   "theorems": [
    "C63_aligned_partial",
    "C63_cuts_partial",
    "C63_straddle",
    "C63_exact_partial",
    "C63_same_cuts_partial",
    "C63_chunking_refuted"
   ],
   "note": "REFUTED, with ChaCha itself defined in Coq: bytes left before a reseed are xored into the new page. Proved for reads that do not cross the end of a page; C63_straddle says exactly what differs otherwise; C63_exact_partial gives the bytes for every way of cutting into reads no longer than the buffer, and C63_same_cuts_partial when two ways agree."
  },
  {
   "property": "C64",
   "status": "proved",
   "theorems": [
    "C64_uint64",
    "C64_seed"
   ],
   "note": ""
  },
  {
   "property": "C65",
   "status": "proved",
   "theorems": [
    "C65_new",
    "C65_defaults"
   ],
   "note": "The doc comment says 32; the code and the property say 64."
  },
  {
   "property": "C66",
   "status": "proved",
   "theorems": [
    "C66_contents"
   ],
   "note": ""
  },
  {
   "property": "C73",
   "status": "proved",
   "theorems": [
    "C73_from_reader"
   ],
   "note": "Readers with progress: at least one byte per Read, an error only at the end."
  },
  {
   "property": "C67",
   "status": "proved",
   "theorems": [
    "C67_linearizable",
    "C67_new_value",
    "C67_exact",
    "C67_wait_free"
   ],
   "note": "Any number of goroutines, every schedule, every type and ==: linearizable as a register; a true CompareAndSwap found a value == old, a false one changed nothing; exact form where == is identity; no call waits or dereferences a bad pointer."
  },
  {
   "property": "C68",
   "status": "partial",
   "theorems": [
    "C68_spurious_failure_refuted",
    "C68_failure_partial",
    "C68_cause_partial"
   ],
   "note": "REFUTED as written: a concurrent Store of an equal value makes CompareAndSwap fail although the value equals old at every instant. Partial: where == is identity it cannot fail if the value is old throughout and nobody is inside a Store(old) or Swap(old); and, more exactly, if the value is old at every instant of a failing call, the write of a Store(old) or Swap(old) took place during that call."
  },
  {
   "property": "C69",
   "status": "proved",
   "theorems": [
    "C69_exclusion",
    "C69_atomic",
    "C69_no_lost_update",
    "C69_no_deadlock",
    "C69_readers_share",
    "C69_all_return"
   ],
   "note": "Any number of goroutines, any bodies under the lock; the mutexes of package sync are modelled by their documented behaviour."
  },
  {
   "property": "C70",
   "status": "proved",
   "theorems": [
    "C70_never_shared",
    "C70_put_back"
   ],
   "note": "Nested calls from callbacks and panics included. Direct use of Get and Put is covered when a generator is put back once by its holder."
  },
  {
   "property": "C71",
   "status": "partial",
   "theorems": [
    "C71_provenance_partial",
    "C71_new_never_panics",
    "C71_empty_refuted"
   ],
   "note": "REFUTED for the empty pool without New: Get panics instead of returning nil. The rest is proved for all histories."
  },
  {
   "property": "C74",
   "status": "proved",
   "theorems": [
    "C74_secrand",
    "C74_succeeds",
    "C74_xrand"
   ],
   "note": "Every schedule; number i of the calls that took effect gets bytes 32i..32i+31 of the master stream."
  },
  {
   "property": "C75",
   "status": "proved",
   "theorems": [
    "C75_linearizable",
    "C75_wait_free",
    "C75_one_winner"
   ],
   "note": "Any number of goroutines, every schedule; the atomic instructions of sync/atomic are the steps."
  },
  {
   "property": "C76",
   "status": "proved",
   "theorems": [
    "C76_crypto",
    "C76_uniform"
   ],
   "note": "crypto/rand.Read is any function that delivers eight bytes or an error."
  },
  {
   "property": "C77",
   "status": "proved",
   "theorems": [
    "C77_range",
    "C77_uniform",
    "C77_redraws",
    "C77_returns",
    "C77_words",
    "C77_words_uniform"
   ],
   "note": "math/rand (Go 1.18) is transcribed; every source of 63-bit words; the number of redraws is unbounded (fuel is universally quantified)."
  },
  {
   "property": "C78",
   "status": "proved",
   "theorems": [
    "C78_perm",
    "C78_perm_uniform",
    "C78_shuffle",
    "C78_shuffle_draws",
    "C78_shuffle_uniform"
   ],
   "note": "Every n and source; one vector of draws per order."
  },
  {
   "property": "C79",
   "status": "proved",
   "theorems": [
    "C79_read",
    "C79_read_chunks",
    "C79_floats",
    "C79_nearest"
   ],
   "note": "Floats are represented by their numerator over 2^63; rounding to nearest even is modelled."
  },
  {
   "property": "C80",
   "status": "proved",
   "theorems": [
    "C80_stable_comparisons"
   ],
   "note": "Every comparator with any state, counted beside its own state; symMerge makes at most 3n - log2 n - 3 comparisons on n elements."
  },
  {
   "property": "C81",
   "status": "proved",
   "theorems": [
    "C81_sorted",
    "C81_descending"
   ],
   "note": "Only that the comparator answers by lt is needed for sorted data; a strict weak order for descending data."
  },
  {
   "property": "C82",
   "status": "proved",
   "theorems": [
    "C82_wrap",
    "C82_wrap_unique",
    "C82_inverse",
    "C82_division",
    "C82_sum",
    "C82_product",
    "C82_concat",
    "C82_float_commutes",
    "C82_float_sum_order",
    "C82_float_ops",
    "C82_float_special"
   ],
   "note": "Floats are Coq SpecFloat binary floats (NaN payloads left out)."
  },
  {
   "property": "C83",
   "status": "proved",
   "theorems": [
    "C83_equal_values",
    "C83_self_equal",
    "C83_panics",
    "C83_nan",
    "C83_ways",
    "C83_sharded"
   ],
   "note": "The hash functions of the Go 1.18 runtime (alg.go) are transcribed over a universe of values; the hash of raw memory is arbitrary."
  },
  {
   "property": "C84",
   "status": "partial",
   "theorems": [
    "C84_factory_refuted",
    "C84_iterate_set_refuted",
    "C84_iterate_get_refuted",
    "C84_crossing_refuted",
    "C84_same_methods",
    "C84_same_callbacks",
    "C84_alone_partial",
    "C84_ordered_partial"
   ],
   "note": "REFUTED as written: a factory that looks at the shard of its key, or a callback of Iterate that writes the shard it visits, never returns; a callback that only reads may deadlock with a waiting writer. Proved instead: a goroutine alone whose callbacks ask for no shard it holds (except to read one held for reading) returns, and any goroutines whose callbacks ask for shards in increasing order of some ranking all return, on every schedule."
  },
  {
   "property": "C85",
   "status": "partial",
   "theorems": [
    "C85_write_refuted",
    "C85_write_self_refuted",
    "C85_read_refuted",
    "C85_panics_partial",
    "C85_usable_partial"
   ],
   "note": "REFUTED as written: with one shard, or a custom hasher that does not panic, Set, TrySet and Delete leave the shard locked and lookups leave it read locked, so later calls never return. Proved instead: with two shards or more and a hasher that panics on such keys (the default one), the call panics before it locks anything and all goroutines return on every schedule."
  },
  {
   "property": "C86",
   "status": "proved",
   "theorems": [
    "C86_sort_panics",
    "C86_stable_panics",
    "C86_sort_calls",
    "C86_stable_calls"
   ],
   "note": "The sorts are modelled in a monad in which a panic keeps the slice; C01-C07, C80, C81 are about the same functions with comparators that do not panic."
  },
  {
   "property": "C87",
   "status": "proved",
   "theorems": [
    "C87_weakly_consistent",
    "C87_meaning",
    "C87_quiet",
    "C87_moments"
   ],
   "note": "The first three exclude Clear and IterateShards beside the call: Clear races (C37) and IterateShards may put a key into the wrong shard.  C87_moments has no such restriction: the answer is exactly that of shards each looked at once, in order, at moments of the call."
  },
  {
   "property": "C88",
   "status": "proved",
   "theorems": [
    "C88_deque_in_memory",
    "C88_other_memory_unchanged",
    "C88_results_independent",
    "C88_ring_memory",
    "C88_copy_returns",
    "C88_pointers"
   ],
   "note": "Rings over the slice model (heap of arrays) of xslice; refines the list model of C26."
  },
  {
   "property": "C89",
   "status": "partial",
   "theorems": [
    "C89_toslice_destination_refuted",
    "C89_toslice_changes_ring_refuted",
    "C89_toslice_apart_partial",
    "C89_toslice_contiguous_partial",
    "C89_toslice_exact_partial",
    "C89_toslice_right_partial"
   ],
   "note": "REFUTED as written: ToSlice with the slice once given to OfSlice returns wrong elements when the ring wraps (3 4 3 for 3 4 7) and can change the ring (3 4 becomes 4 4). Proved instead: right for every destination outside the memory of the ring, and the slice returned is right for every destination when the elements do not wrap; for a ring that wraps and any destination, exactly which element is returned at each place, which cells of memory change and what they hold then (C89_toslice_exact_partial), and so when it is right (C89_toslice_right_partial)."
  },
  {
   "property": "C90",
   "status": "partial",
   "theorems": [
    "C90_assigned_ring_refuted",
    "C90_full_ring_partial",
    "C90_same_elements_partial",
    "C90_shared_partial",
    "C90_parted_partial",
    "C90_additions_partial"
   ],
   "note": "REFUTED as written: the copy shares the buffer, r.Pop() makes the first element of r2 the zero value. Proved instead, exactly: while r keeps its buffer element i of r2 is what r holds in the same cell, or zero (C90_shared_partial); from the call with which r moves to another buffer on r2 is frozen (C90_parted_partial); so additions to r alone never change r2 (C90_additions_partial). Also: the copies are independent if r is full when assigned and is next inserted into; calls that neither insert nor delete leave both with the same elements."
  },
  {
   "property": "C91",
   "status": "proved",
   "theorems": [
    "C91_sort_writes",
    "C91_stable_writes",
    "C91_elements",
    "C91_depth"
   ],
   "note": "The comparator is any function of the slice contents, two elements and a state to an answer or panic and new contents of the same length and new state."
  },
  {
   "property": "C92",
   "status": "proved",
   "theorems": [
    "C92_ranges",
    "C92_distance_signed",
    "C92_slice_parts",
    "C92_dummy"
   ],
   "note": "Generic in the iterator; C17 shows that slice iterators and their reverses are lawful. Ints are unbounded."
  },
  {
   "property": "C93",
   "status": "proved",
   "theorems": [
    "C93_reads",
    "C93_set",
    "C93_sub"
   ],
   "note": ""
  },
  {
   "property": "C94",
   "status": "proved",
   "theorems": [
    "C94_bounds",
    "C94_sorted",
    "C94_next_permutation"
   ],
   "note": ""
  },
  {
   "property": "C95",
   "status": "partial",
   "theorems": [
    "C95_cuts_refuted",
    "C95_two_blocks_refuted",
    "C95_same_cuts_partial",
    "C95_sum_partial"
   ],
   "note": "REFUTED: every Write also mixes in the length of its argument, so cutting the same bytes differently (even by a Write of no bytes) changes the sum. Proved: with the same cuts of whole blocks the sum depends only on the bytes and a change of one block changes it; Sum, Size, Reset as stated."
  },
  {
   "property": "C96",
   "status": "partial",
   "theorems": [
    "C96_ordinals_refuted",
    "C96_ordinals_partial",
    "C96_message",
    "C96_message_partial",
    "C96_placeholder"
   ],
   "note": "REFUTED in the spelling: positions ending in 11, 12, 13 are written 11st, 12nd, 13rd. Proved: the message is the one of the first problem, for every binding, with positions as the code writes them; in good English for functions of up to ten parameters and results; positions are never confused."
  },
  {
   "property": "C97",
   "status": "proved",
   "theorems": [
    "C97_offsets",
    "C97_distances",
    "C97_lawful"
   ],
   "note": "The loops of the algorithms keep unbounded ints; what they do through iterators is covered by lawfulness."
  },
  {
   "property": "C98",
   "status": "partial",
   "theorems": [
    "C98_ring",
    "C98_zero_size_refuted",
    "C98_zero_size_partial"
   ],
   "note": "REFUTED for elements of size zero: NewLen[struct{}](1<<62) then Append computes a capacity of 1<<60, panics with index out of range and leaves a ring whose elements cannot be read. Proved for every element type that takes memory (with an address space of at most maxInt/5 bytes), and for zero-size elements while there are at most maxInt/10."
  },
  {
   "property": "C99",
   "status": "proved",
   "theorems": [
    "C99_recovered",
    "C99_elements"
   ],
   "note": ""
  },
  {
   "property": "C100",
   "status": "proved",
   "theorems": [
    "C100_distinct",
    "C100_types_not_hashed"
   ],
   "note": "The hash functions for types are those of the Go 1.18 runtime (alg.go), which the package calls through the map type."
  },
  {
   "property": "C101",
   "status": "proved",
   "theorems": [
    "C101_history",
    "C101_others"
   ],
   "note": ""
  },
  {
   "property": "C102",
   "status": "partial",
   "theorems": [
    "C102_stale_refuted",
    "C102_kept_partial",
    "C102_left_partial"
   ],
   "note": "REFUTED as written: after an Append that reallocates, Set through an older iterator writes to memory the slice has left; after a Delete, Get at the old last position gives the deleted element. Proved: exactly when (the length has exceeded the capacity there was) an iterator parts from its slice and what every call on it does before and after."
  },
  {
   "property": "C103",
   "status": "proved",
   "theorems": [
    "C103_no_lost_update",
    "C103_retry"
   ],
   "note": "For a zero Value and for NewValue."
  },
  {
   "property": "C104",
   "status": "proved",
   "theorems": [
    "C104_same",
    "C104_ordered_same",
    "C104_sorts"
   ],
   "note": "Only slices of zero-size elements can be longer than that."
  },
  {
   "property": "C105",
   "status": "proved",
   "theorems": [
    "C105_sorted_slice",
    "C105_meaning"
   ],
   "note": "The claim composes the models of algo and xslice."
  },
  {
   "property": "C106",
   "status": "proved",
   "theorems": [
    "C106_clock",
    "C106_sort",
    "C106_sort_ordered",
    "C106_sort_per_comparison",
    "C106_sorted",
    "C106_stable",
    "C106_stable_ordered"
   ],
   "note": "Steps are counted in a copy of the model with a clock; C106_clock says that the clock changes nothing else. Between two counts the code does a bounded number of operations."
  },
  {
   "property": "C107",
   "status": "proved",
   "theorems": [
    "C107_swap",
    "C107_exchange",
    "C107_ptr"
   ],
   "note": "C107_swap needs nothing of ==; C107_exchange adds CompareAndSwap and needs == to be identity; C107_ptr is for Ptr."
  },
  {
   "property": "C108",
   "status": "proved",
   "theorems": [
    "C108_one_map",
    "C108_floats",
    "C108_nan",
    "C108_default_hasher"
   ],
   "note": "The model hands the random number for the hash of a NaN over with the key; GetOrSetDefault and GetOrSetFactory hash a key twice, and with a NaN the two could differ, which no answer shows because the first look never finds it."
  },
  {
   "property": "C109",
   "status": "proved",
   "theorems": [
    "C109_per_key",
    "C109_clear",
    "C109_entry"
   ],
   "note": "atomicAt (Sharded_PerKey_Spec.v) is linearizability for the entry of one key. C109_clear includes Clear in a sequentially consistent memory; C37 shows that Clear races with readers, so Go promises less there. C109_case and C109_clear_case show executions that are explained for each key but not for both keys together."
  },
  {
   "property": "C110",
   "status": "partial",
   "theorems": [
    "C110_filter_refuted",
    "C110_limit_refuted",
    "C110_map_peek_partial",
    "C110_panic_partial",
    "C110_limit",
    "C110_fold",
    "C110_same"
   ],
   "note": "REFUTED: if the nested call reaches the end, the outer one panics when a Filter then rejects the element (nil source) or a Skip or Limit counts it (index out of range). Proved: with Map and Peek stages nothing panics; with any stages a panic leaves the stream ended for good; Limit(n) lets at most n elements through, nested ones included; a look-ahead Map folds the whole stream from the right; without nested calls the model is that of C40."
  },
  {
   "property": "C111",
   "status": "proved",
   "theorems": [
    "C111_loop",
    "C111_iterators",
    "C111_in_place",
    "C111_pipeline"
   ],
   "note": "C111_loop: Collect over the slice in the heap equals the range loop, for arbitrary callbacks on the heap. C111_iterators: the same for xslice iterators. C111_in_place: in-place collection agrees with collecting elsewhere, with panics, and frames the rest of memory. C111_pipeline: builder calls plus in-place Collect compute the list pipeline."
  },
  {
   "property": "C112",
   "status": "proved",
   "theorems": [
    "C112_comparisons",
    "C112_time",
    "C112_ordered"
   ],
   "note": "The kinds are given by a list of representatives (at_most_kinds); the constant is 2000 for comparisons and 20000 for steps of the timed model of C106."
  },
  {
   "property": "C113",
   "status": "proved",
   "theorems": [
    "C113_amortised",
    "C113_loop"
   ],
   "note": "The hypothesis that no two elements are equivalent is needed: on 0, 1, ..., 1 the average call is linear. Comparator calls are counted; the element moves of a call are at most half as many plus one."
  },
  {
   "property": "C114",
   "status": "proved",
   "theorems": [
    "C114_neighbours"
   ],
   "note": "The comparator may carry state; the theorem gives the state after exactly these calls."
  },
  {
   "property": "C115",
   "status": "proved",
   "theorems": [
    "C115_output",
    "C115_counters",
    "C115_chain"
   ],
   "note": "How long the cycle of -incr64 is, is not known; it is the cycle of a permutation of the 64-bit states. bufio.Writer is modelled as appending; errors of os.Stdout are ignored by the program and not modelled."
  },
  {
   "property": "C116",
   "status": "proved",
   "theorems": [
    "C116_seed",
    "C116_words",
    "C116_raw",
    "C116_agreement"
   ],
   "note": "The stream is defined in Secrand_Spec (streamByte), what -raw writes in Gen_Spec (served). strconv.ParseInt and os.Args are parameters."
  },
  {
   "property": "C117",
   "status": "proved",
   "theorems": [
    "C117_references"
   ],
   "note": "The built-in map operations are modelled by the language specification. NaN keys: see C31."
  },
  {
   "property": "C118",
   "status": "partial",
   "theorems": [
    "C118_hashable_partial",
    "C118_lookups_partial",
    "C118_set_refuted",
    "C118_delete_refuted"
   ],
   "note": "REFUTED for Set, in every state: the entry stays, Len counts it and At shows it though no key leads to it (C118_set_refuted). After that, Delete of any present key panics and gives that key the value of the failed Set (C118_delete_refuted). Proved for the other calls; with hashable keys only, the model is that of C32."
  },
  {
   "property": "C119",
   "status": "partial",
   "theorems": [
    "C119_spare_partial",
    "C119_deleted_refuted"
   ],
   "note": "REFUTED for every slice: UnorderedDelete leaves the deleted element right behind the last one, DeleteLast and Delete leave the old last element there, and Sub up to the old length shows it (C119_deleted_refuted). C119_spare_partial says for every history exactly what lies beyond the length and what each Sub up to the capacity shows."
  },
  {
   "property": "C120",
   "status": "partial",
   "theorems": [
    "C120_keys_partial",
    "C120_whole_partial",
    "C120_nested_refuted",
    "C120_clear_refuted"
   ],
   "note": "REFUTED in two points: a lookup by the holder of the RLock never returns once another goroutine waits to write to that shard, and Clear (which takes the read lock) changes a shard that is held for reading. The rest is proved for all programs without Clear. An unlock of a shard by a goroutine that has not locked it is not modelled."
  },
  {
   "property": "C121",
   "status": "proved",
   "theorems": [
    "C121_related",
    "C121_map",
    "C121_same_moves",
    "C121_ordered"
   ],
   "note": "sort_any.go and sort_ordered.go are the same code but for the comparison and are modelled once; that they are the same was checked by reading."
  },
  {
   "property": "C122",
   "status": "proved",
   "theorems": [
    "C122_all_end",
    "C122_order_needed"
   ],
   "note": "Callbacks of IterateShards put no key into a shard that is not its own. An unlock of a shard by a goroutine that has not locked it is not modelled. C120 shows that calls for a shard already held can wait for ever."
  },
  {
   "property": "C123",
   "status": "proved",
   "theorems": [
    "C123_calls",
    "C123_pure"
   ],
   "note": "The functions do not themselves use the same Custom. The code for overflow lists is modelled but never reached from NewCustom (C33)."
  },
  {
   "property": "C124",
   "status": "proved",
   "theorems": [
    "C124_goes_back"
   ],
   "note": ""
  },
  {
   "property": "C125",
   "status": "proved",
   "theorems": [
    "C125_two_steps"
   ],
   "note": ""
  },
  {
   "property": "C126",
   "status": "proved",
   "theorems": [
    "C126_one_map",
    "C126_concurrent",
    "C126_no_deadlock"
   ],
   "note": "json.Marshal is a parameter; it is assumed not to depend on the order in which the map is iterated (it sorts the keys)."
  },
  {
   "property": "C127",
   "status": "proved",
   "theorems": [
    "C127_added_stages",
    "C127_none_added",
    "C127_take_until"
   ],
   "note": "Callbacks here do not call Next; C110 is about those that do."
  },
  {
   "property": "C128",
   "status": "proved",
   "theorems": [
    "C128_same_executions",
    "C128_value_race_free",
    "C128_value_publishes",
    "C128_ptr_same_executions",
    "C128_ptr_publishes"
   ],
   "note": "Happens-before (HB.v) is program order, an atomic access after the atomic write whose effect it observes, and transitivity."
  },
  {
   "property": "C129",
   "status": "proved",
   "theorems": [
    "C129_same_executions",
    "C129_sharded_race_free",
    "C129_sharded_publishes",
    "C129_clear_races",
    "C129_sync_same_executions",
    "C129_sync_race_free"
   ],
   "note": "Happens-before (HB.v) is program order, Unlock before later Lock and RLock of the same lock, RUnlock before later Lock, and transitivity. With Clear there is a race: C129_clear_races (see C37)."
  },
  {
   "property": "C130",
   "status": "partial",
   "theorems": [
    "C130_limit_refuted",
    "C130_end_refuted",
    "C130_limit_partial",
    "C130_only_calls",
    "C130_only_adds"
   ],
   "note": "REFUTED: a callback before the Limit that adds a stage, so that the list of stages is reallocated, and then calls Next: the loop outside reads the counter in the old array, and two elements pass Limit(1) (C130_limit_refuted). A callback that adds stages after Next returned false: every element on its way passes Limit(1) (C130_end_refuted). It holds as long as no array is made after the stages are there (C130_limit_partial), when callbacks add nothing (C110_limit) and when they do not call Next (C127). C130_only_calls and C130_only_adds: this model extends those of C110 and C127."
  },
  {
   "property": "C131",
   "status": "proved",
   "theorems": [
    "C131_one_step",
    "C131_all_end",
    "C131_invariant",
    "C131_accounts",
    "C131_two_phase_needed",
    "C131_order_needed",
    "C131_upgrade_stuck"
   ],
   "note": "C131_two_phase_needed: an audit that unlocks one account before it locks the next returns money that is not there, although every access is under its lock. C131_order_needed: transfers that lock the account they take from first wait for each other for ever. C131_upgrade_stuck: RLock and then Lock of the same value waits for itself."
  },
  {
   "property": "C132",
   "status": "proved",
   "theorems": [
    "C132_streams",
    "C132_undisturbed",
    "C132_all_return",
    "C132_early_put"
   ],
   "note": "C132_early_put: a caller who puts the generator back before its last draw makes two goroutines draw the same word."
  },
  {
   "property": "C133",
   "status": "partial",
   "theorems": [
    "C133_shares",
    "C133_pipelines",
    "C133_sources",
    "C133_pages_partial",
    "C133_pages_refuted"
   ],
   "note": "REFUTED for pages: Limit(n) notices its end only after it has taken one more element from the source, so after every page one element is lost (C133_pages_refuted: for every source longer than a page, for every number of pages; C133_pages_partial: exactly which elements come). The first part is proved. A Skip on a stream over an ended *Stream panics (C40) and is left out by C133_sources."
  },
  {
   "property": "C134",
   "status": "proved",
   "theorems": [
    "C134_deque",
    "C134_looking",
    "C134_queue",
    "C134_fifo",
    "C134_defer_needed"
   ],
   "note": "C134_defer_needed: without defer, a Pop that panics on the empty ring leaves the lock locked and everybody waits for ever. The ring and its buffer are one value; that nobody outside has the buffer is an assumption (C88 to C90 are about rings that share it)."
  },
  {
   "property": "C135",
   "status": "proved",
   "theorems": [
    "C135_one_winner",
    "C135_all_agree",
    "C135_one_holder",
    "C135_holder_reads",
    "C135_fails_only_if_taken",
    "C135_discipline_needed",
    "C135_nan"
   ],
   "note": "C135_discipline_needed: a Delete by somebody else gives two holders. C135_nan: with a key that is not equal to itself every TrySet succeeds."
  },
  {
   "property": "C136",
   "status": "proved",
   "theorems": [
    "C136_integers",
    "C136_strings",
    "C136_floats",
    "C136_predicates",
    "C136_complements",
    "C136_sort_descending",
    "C136_not_comparators"
   ],
   "note": "Floats of Coq.Floats.SpecFloat in any format for which they are valid. The sort theorem is for integers and strings; for floats with NaN see C52."
  }
 ]
}