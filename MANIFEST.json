{
 "claims": [
  {
   "property": "C01",
   "status": "proved",
   "theorems": [
    "C01_set_history",
    "C01_set_reaches",
    "C01_insert_ok",
    "C01_erase_ok",
    "C01_find_ok",
    "C01_new_range_ok",
    "C01_map_history",
    "C01_map_reaches",
    "C01_index_ok"
   ],
   "note": "whole client programs on two maps/sets, for every history and allocator; plus per-call theorems; set.hpp and map.hpp share the model"
  },
  {
   "property": "C02",
   "status": "proved",
   "theorems": [
    "C02_set_history",
    "C02_set_reaches",
    "C02_begin_ok",
    "C02_incr_ok",
    "C02_decr_ok",
    "C02_deref_ok",
    "C02_forward_ok",
    "C02_backward_ok",
    "C02_map_history",
    "C02_map_reaches"
   ],
   "note": "begin/++/--/* by position, and full traversals, on every map object; every history reaches such objects (set_reaches/map_reaches) and observes the right traversals (set_history/map_history)"
  },
  {
   "property": "C03",
   "status": "proved",
   "theorems": [
    "C03_find_accesses",
    "C03_lower_bound_accesses",
    "C03_upper_bound_accesses",
    "C03_equal_range_accesses",
    "C03_insert_accesses",
    "C03_erase_accesses",
    "C03_begin_accesses",
    "C03_incr_accesses",
    "C03_decr_accesses",
    "C03_index_accesses",
    "C03_insert_equal_accesses",
    "C03_multi_find_accesses",
    "C03_tree_height_log",
    "C03_set_reaches",
    "C03_insert_ok",
    "C03_erase_ok",
    "C03_find_ok",
    "C03_map_reaches",
    "C03_index_ok"
   ],
   "note": "height bound on every tree object, preserved by every history (set_reaches/map_reaches), and fuel (loop iterations) 2*log2(n+1)+1 suffices for find, lower_bound, insert, operator[], erase; and bounds on the number of memory accesses of each call"
  },
  {
   "property": "C04",
   "status": "proved",
   "theorems": [
    "C04_set_reaches",
    "C04_insert_ok",
    "C04_erase_ok",
    "C04_map_reaches",
    "C04_index_ok"
   ],
   "note": "the (address, value) list of the object is explicit in insert/erase/operator[]"
  },
  {
   "property": "C05",
   "status": "proved",
   "theorems": [
    "C05_set_history",
    "C05_set_reaches",
    "C05_insert_ok",
    "C05_erase_ok",
    "C05_clear_ok",
    "C05_destroy_ok",
    "C05_new_range_ok",
    "C05_map_history",
    "C05_map_reaches",
    "C05_index_ok"
   ],
   "note": "runs: exact footprint; clear, destructor leave nothing; histories end with empty memory"
  },
  {
   "property": "C06",
   "status": "proved",
   "theorems": [
    "C06_set_history",
    "C06_set_reaches",
    "C06_copy_ok",
    "C06_assign_ok",
    "C06_map_history",
    "C06_map_reaches"
   ],
   "note": "disjoint ownership (both) after copy and assignment"
  },
  {
   "property": "C07",
   "status": "partial",
   "theorems": [
    "C07_fixed_refuted",
    "C07_set_self_assign_run_refuted",
    "C07_bl_self_assign_refuted",
    "C07_list_self_assign_refuted",
    "C07_fixed_self_assign_refuted",
    "C07_fl_self_assign_refuted",
    "C07_lq_self_assign_refuted",
    "C07_map_self_assign_refuted",
    "C07_vec_self_assign_refuted",
    "C07_vector_refuted"
   ],
   "note": "False of the code: self-assignment empties forward_list, backward_list, lazy_queue, map, set (universal theorems and runs). vector: refuted (vec_self_assign: empties the vector). fixed_vector: refuted (fixed_self_assign). list: refuted (list_self_assign)."
  },
  {
   "property": "C08",
   "status": "proved",
   "theorems": [
    "C08_set_history",
    "C08_set_reaches",
    "C08_lower_bound_ok",
    "C08_map_history",
    "C08_map_reaches"
   ],
   "note": ""
  },
  {
   "property": "C09",
   "status": "partial",
   "theorems": [
    "C09_upper_bound_run_refuted",
    "C09_equal_range_run_refuted",
    "C09_equal_range_actual_partial",
    "C09_upper_bound_actual_partial",
    "C09_upper_bound_right_iff_partial"
   ],
   "note": "exact behaviour for every key proved (position after the lower bound) with an iff telling when that is the upper bound; refuted for absent keys with a greater key present (C09_*_refuted): defect in map.hpp 273-299 / set.hpp 250-276"
  },
  {
   "property": "C10",
   "status": "partial",
   "theorems": [
    "C10_remove_duplicates_run_refuted",
    "C10_insert_equal_ok",
    "C10_multi_equal_range_ok",
    "C10_multi_find_ok",
    "C10_multi_remove_ok_partial",
    "C10_multi_history_partial",
    "C10_multi_reaches_partial",
    "C10_insertion_order"
   ],
   "note": "insert_equal, bounds, equal_range, find proved for all states and within whole histories (insertion_order: equal keys stay in insertion order); remove proved when at most one element has the key; with duplicates the code loses elements (C10_remove_duplicates_run_refuted): defect in rbtree.hpp 463-527"
  },
  {
   "property": "C11",
   "status": "partial",
   "theorems": [
    "C11_count_short_refuted",
    "C11_multi_count_ok_partial",
    "C11_multi_history_partial",
    "C11_multi_reaches_partial"
   ],
   "note": "never exceeds, zero iff none, exact for at most one, also within whole histories; refuted for three equal keys: defect in rbtree.hpp 351-368"
  },
  {
   "property": "C12",
   "status": "proved",
   "theorems": [
    "C12_set_history",
    "C12_set_reaches",
    "C12_map_eq_ok",
    "C12_map_history",
    "C12_map_reaches"
   ],
   "note": "!= is the negation in map.hpp/set.hpp"
  },
  {
   "property": "C13",
   "status": "partial",
   "theorems": [
    "C13_equivalent_keys_refuted",
    "C13_set_reaches_partial",
    "C13_map_reaches_partial"
   ],
   "note": "proved for Compare consistent with ==; refuted for a Compare coarser than == (rbtree.hpp 440-461 uses ==)"
  },
  {
   "property": "C14",
   "status": "proved",
   "theorems": [
    "C14_vec_history",
    "C14_vec_reaches",
    "C14_vec_history_all",
    "C14_vec_push_back_ok",
    "C14_vec_pop_back_ok",
    "C14_vec_insert_n_ok",
    "C14_vec_insert_range_ok",
    "C14_vec_erase_range_ok",
    "C14_vec_resize_ok",
    "C14_vec_assign_ok",
    "C14_vec_copy_ok",
    "C14_vec_at_ok"
   ],
   "note": "Every history of the listed calls within the documented preconditions; erase of an empty range and insertion of an own element are C16 / C17."
  },
  {
   "property": "C15",
   "status": "proved",
   "theorems": [
    "C15_vec_history",
    "C15_vec_reaches",
    "C15_vec_history_all",
    "C15_vec_assign_ok",
    "C15_vec_copy_ok",
    "C15_vec_destroy_ok",
    "C15_vec_clear_ok"
   ],
   "note": "Every history within ve_ok; is_vec is exact about live and raw slots, and the model makes any wrong-lifetime operation undefined behaviour."
  },
  {
   "property": "C16",
   "status": "partial",
   "theorems": [
    "C16_vec_history_partial",
    "C16_vec_erase_range_ok_partial",
    "C16_vec_erase_empty_fails_refuted",
    "C16_erase_refuted"
   ],
   "note": "The property is false: erase(p,p) before the end constructs elements over themselves (refuted for all vectors and positions). Proved: erase of non-empty ranges and of an empty range at the end."
  },
  {
   "property": "C17",
   "status": "partial",
   "theorems": [
    "C17_vec_history_partial",
    "C17_vec_push_back_ok",
    "C17_vec_insert_n_ok_partial",
    "C17_vec_insert_own_fails_refuted",
    "C17_vec_insert_own_wrong_refuted",
    "C17_insert_wrong_refuted",
    "C17_insert_dead_refuted"
   ],
   "note": "push_back of an own element is proved in all cases. insert of an own element is proved when the call reallocates or the element lies before pos; the remaining case is false (refuted for all vectors: dead object or wrong value)."
  },
  {
   "property": "C18",
   "status": "proved",
   "theorems": [
    "C18_vec_history",
    "C18_vec_reaches",
    "C18_vec_history_all",
    "C18_vec_push_back_ok",
    "C18_vec_insert_n_ok",
    "C18_vec_insert_range_ok",
    "C18_vec_resize_ok",
    "C18_vec_reserve_ok",
    "C18_vec_size_capacity"
   ],
   "note": "Capacities are part of the abstract state of the history theorem."
  },
  {
   "property": "C19",
   "status": "proved",
   "theorems": [
    "C19_fixed_history",
    "C19_fixed_in_bounds",
    "C19_fixed_reaches",
    "C19_fixed_size",
    "C19_fixed_destroy_ok",
    "C19_fixed_storage"
   ],
   "note": "exact behaviour of every history (fx_code); no history reaches an access outside the N slots; size() <= N"
  },
  {
   "property": "C20",
   "status": "partial",
   "theorems": [
    "C20_insert_wrong_refuted",
    "C20_erase_refuted",
    "C20_fixed_history_ok_partial",
    "C20_fixed_push_back_ok",
    "C20_fixed_insert_n_ok_partial",
    "C20_fixed_insert_ok",
    "C20_fixed_insert_range_ok",
    "C20_fixed_resize_ok",
    "C20_fixed_resize_to_ok",
    "C20_fixed_assign_n_ok",
    "C20_fixed_assign_range_ok",
    "C20_fixed_new_range_ok",
    "C20_fixed_new_n_ok",
    "C20_fixed_copy_ok",
    "C20_fixed_assign_ok",
    "C20_fixed_erase_range_ok_partial",
    "C20_fixed_destroy_ok",
    "C20_fixed_eq_ok",
    "C20_fixed_insert_own_fails_refuted",
    "C20_fixed_erase_empty_fails_refuted"
   ],
   "note": "proved except insert of an own element at or behind pos and erase(p,p), for which the exact (wrong) behaviour is proved (defects)"
  },
  {
   "property": "C21",
   "status": "partial",
   "theorems": [
    "C21_swap_refuted",
    "C21_fixed_history_ok_partial",
    "C21_fixed_swap_ok_partial",
    "C21_fixed_swap_fails_refuted"
   ],
   "note": "proved for a.size() <= b.size(); for a.size() > b.size() every call is undefined behaviour (defect, fixed_swap_fails)"
  },
  {
   "property": "C22",
   "status": "proved",
   "theorems": [
    "C22_fl_history",
    "C22_fl_push_front_ok",
    "C22_fl_pop_front_ok",
    "C22_fl_insert_after_ok",
    "C22_fl_insert_after_n_ok",
    "C22_fl_insert_after_range_ok",
    "C22_fl_erase_after_ok",
    "C22_fl_erase_after_range_ok",
    "C22_fl_clear_ok",
    "C22_fl_destroy_ok",
    "C22_fl_reverse_ok",
    "C22_fl_swap_ok",
    "C22_fl_swap_self_ok",
    "C22_fl_copy_ok",
    "C22_fl_assign_from_ok",
    "C22_fl_eq_ok"
   ],
   "note": "Whole histories on two lists, plus per-call statements with node addresses."
  },
  {
   "property": "C23",
   "status": "partial",
   "theorems": [
    "C23_splice_all_empty_run_refuted",
    "C23_splice_one_in_place_refuted",
    "C23_splice_range_empty_refuted",
    "C23_splice_range_in_place_refuted",
    "C23_fl_history_partial",
    "C23_fl_splice_all_ok_partial",
    "C23_fl_splice_one_ok_partial",
    "C23_fl_splice_range_ok_partial",
    "C23_fl_splice_one_fwd_ok_partial",
    "C23_fl_splice_one_bwd_ok_partial",
    "C23_fl_splice_one_same_ok_partial",
    "C23_fl_splice_own_range_ok_partial",
    "C23_fl_splice_own_nothing_ok_partial",
    "C23_fl_splice_all_empty_refuted",
    "C23_fl_splice_one_in_place_refuted",
    "C23_fl_splice_range_in_place_refuted",
    "C23_fl_splice_own_empty_behind_refuted",
    "C23_fl_splice_own_empty_before_refuted",
    "C23_fl_splice_range_empty_refuted"
   ],
   "note": "Proved for every non-empty source or range, between two lists and within one list (before, at and behind the range), and for empty ranges just behind pos; the other empty ranges and the ranges that are already in place are refuted for every list: elements lost, nodes shared by two lists, or a cycle."
  },
  {
   "property": "C24",
   "status": "partial",
   "theorems": [
    "C24_pop_last_empty_refuted",
    "C24_pop_last_push_refuted",
    "C24_pop_last_push_reuse_refuted",
    "C24_assign_push_refuted",
    "C24_assign_from_back_refuted",
    "C24_reverse_empty_push_refuted",
    "C24_bl_history_partial",
    "C24_bl_reaches_partial",
    "C24_bl_push_back_ok",
    "C24_bl_push_front_ok",
    "C24_bl_pop_front_ok_partial",
    "C24_bl_insert_after_ok",
    "C24_bl_insert_after_n_ok",
    "C24_bl_insert_after_range_ok_partial",
    "C24_bl_erase_after_ok",
    "C24_bl_erase_after_range_ok",
    "C24_bl_clear_ok",
    "C24_bl_destroy_ok",
    "C24_bl_reverse_ok_partial",
    "C24_bl_back_ok",
    "C24_bl_empty_ok",
    "C24_bl_eq_ok",
    "C24_bl_pop_front_last_refuted",
    "C24_bl_reverse_empty_refuted",
    "C24_bl_insert_after_range_last_refuted",
    "C24_bl_copy_run_refuted",
    "C24_bl_assign_from_run_refuted"
   ],
   "note": "every history within bl_ok and every call proved; pop_front of the last element, range insertion at the end, copy/assign of non-empty lists, reverse of an empty list leave tail_ wrong: refuted universally and by runs (backward_list.hpp)"
  },
  {
   "property": "C25",
   "status": "proved",
   "theorems": [
    "C25_lq_history",
    "C25_lq_reaches",
    "C25_lq_reaches_all",
    "C25_lq_history_trivial",
    "C25_lq_push_back_ok",
    "C25_lq_push_front_ok",
    "C25_lq_pop_front_ok",
    "C25_lq_insert_after_ok",
    "C25_lq_insert_after_n_ok",
    "C25_lq_insert_after_range_ok",
    "C25_lq_erase_after_ok",
    "C25_lq_erase_after_range_ok",
    "C25_lq_clear_ok",
    "C25_lq_roll_head_ok",
    "C25_lq_front_ok",
    "C25_lq_back_ok",
    "C25_lq_new_n_ok",
    "C25_lq_copy_ok",
    "C25_lq_assign_from_ok"
   ],
   "note": "histories without swap (swap is C28); destruction with pooled nodes of a non-trivial T is C27"
  },
  {
   "property": "C26",
   "status": "proved",
   "theorems": [
    "C26_lq_history",
    "C26_lq_reaches",
    "C26_lq_reaches_all",
    "C26_lq_history_trivial",
    "C26_lq_push_back_ok",
    "C26_lq_push_front_ok",
    "C26_lq_pop_front_ok",
    "C26_lq_insert_after_ok",
    "C26_lq_insert_after_n_ok",
    "C26_lq_insert_after_range_ok",
    "C26_lq_erase_after_ok",
    "C26_lq_erase_after_range_ok",
    "C26_lq_clear_ok",
    "C26_lq_assign_from_ok"
   ],
   "note": "addresses of reused nodes explicit per call; number of nodes owned tracked over every history"
  },
  {
   "property": "C27",
   "status": "partial",
   "theorems": [
    "C27_pop_destroy_refuted",
    "C27_clear_cleanup_refuted",
    "C27_lq_history_partial",
    "C27_lq_history_trivial",
    "C27_lq_cleanup_ok_partial",
    "C27_lq_destroy_ok_partial",
    "C27_lq_cleanup_bad_refuted",
    "C27_lq_destroy_bad_refuted"
   ],
   "note": "proved when T is trivially destructible or the pool is empty; refuted for every other queue (lq_cleanup_bad, lq_destroy_bad): ~T runs twice"
  },
  {
   "property": "C28",
   "status": "partial",
   "theorems": [
    "C28_swap_empty_push_refuted",
    "C28_lazy_swap_empty_push_refuted",
    "C28_bl_history_partial",
    "C28_bl_reaches_partial",
    "C28_bl_swap_ok_partial",
    "C28_bl_swap_empty_refuted",
    "C28_bl_swap_both_empty_refuted",
    "C28_lq_history_partial",
    "C28_lq_reaches_partial",
    "C28_lq_swap_ok_partial",
    "C28_lq_swap_empty_refuted"
   ],
   "note": "proved for two non-empty lists; refuted (universally) when one is empty"
  },
  {
   "property": "C29",
   "status": "proved",
   "theorems": [
    "C29_list_basic_history",
    "C29_list_basic_reaches",
    "C29_list_history",
    "C29_list_reaches",
    "C29_list_insert",
    "C29_list_erase",
    "C29_list_remove",
    "C29_list_remove_if",
    "C29_list_unique",
    "C29_list_reverse",
    "C29_list_copy",
    "C29_list_destroy"
   ],
   "note": "All histories on two lists (any interleaving), all allocators, with exact memory; element addresses in the single-call theorems."
  },
  {
   "property": "C30",
   "status": "partial",
   "theorems": [
    "C30_push_after_clear_refuted",
    "C30_push_after_clear_reuse_refuted",
    "C30_assign_twice_refuted",
    "C30_assign_from_refuted",
    "C30_list_history_partial",
    "C30_list_reaches_partial",
    "C30_list_clear_partial",
    "C30_list_cleared_destroy_partial",
    "C30_list_push_after_clear_refuted"
   ],
   "note": "Refuted: clear() leaves head_.prev dangling, so a later insertion is undefined behaviour or loses the element. Proved: what a cleared list can still do, and what it looks like."
  },
  {
   "property": "C31",
   "status": "partial",
   "theorems": [
    "C31_erase_all_refuted",
    "C31_erase_none_refuted",
    "C31_list_history_partial",
    "C31_list_erase_range_partial",
    "C31_list_erase_range_refuted",
    "C31_list_erase_empty_range_refuted"
   ],
   "note": "Refuted for every non-empty range (the last element stays) and every empty range of a non-empty list (undefined behaviour). The exact effect is proved."
  },
  {
   "property": "C32",
   "status": "partial",
   "theorems": [
    "C32_splice_empty_list_refuted",
    "C32_splice_empty_range_refuted",
    "C32_splice_in_place_refuted",
    "C32_splice_range_in_place_refuted",
    "C32_splice_own_empty_refuted",
    "C32_list_history_partial",
    "C32_list_reaches_partial",
    "C32_list_splice_all_partial",
    "C32_list_splice_one_partial",
    "C32_list_splice_range_partial",
    "C32_list_splice_own_partial",
    "C32_list_splice_own_range_partial",
    "C32_list_splice_own_nothing_partial",
    "C32_list_splice_empty_refuted",
    "C32_list_splice_in_place_refuted",
    "C32_list_splice_range_in_place_refuted",
    "C32_list_splice_own_empty_behind_refuted",
    "C32_list_splice_own_empty_before_refuted",
    "C32_list_splice_empty_range_refuted"
   ],
   "note": "Proved for every non-empty list or range not already in place, between two lists and within one list, and for splice(pos, *this, pos, pos); ranges already in place and all other empty ranges are refuted for every list: elements lost and leaked, iteration running into the other list's header, or never ending."
  },
  {
   "property": "C33",
   "status": "proved",
   "theorems": [
    "C33_list_history",
    "C33_list_reaches",
    "C33_list_merge",
    "C33_list_merge_stable"
   ],
   "note": "merge keeps the nodes; the result is the stable merge for every strict weak order."
  },
  {
   "property": "C34",
   "status": "partial",
   "theorems": [
    "C34_swap_empty_refuted",
    "C34_list_history_partial",
    "C34_list_reaches_partial",
    "C34_list_swap_partial",
    "C34_list_swap_empty_refuted"
   ],
   "note": "Proved unless both lists are empty; that case is refuted for both evaluation orders."
  },
  {
   "property": "C35",
   "status": "partial",
   "theorems": [
    "C35_resize_0_refuted",
    "C35_list_history_partial",
    "C35_list_reaches_partial",
    "C35_list_resize_partial",
    "C35_list_resize_0_refuted"
   ],
   "note": "Proved for n > 0; resize(0) does nothing (refuted)."
  },
  {
   "property": "C36",
   "status": "proved",
   "theorems": [
    "C36_vmap_history",
    "C36_vmap_reaches",
    "C36_vmap_is_map",
    "C36_vmap_kpos",
    "C36_vmap_find"
   ],
   "note": "Whole-program correctness of every history on two vector_maps (incl. inherited vector calls) plus the map meaning of the sequence."
  },
  {
   "property": "C37",
   "status": "partial",
   "theorems": [
    "C37_vmap_history_partial",
    "C37_vmap_count_absent_partial",
    "C37_vmap_count_present_refuted",
    "C37_count_hang_refuted"
   ],
   "note": "Refuted: count of a present key never returns. Proved: count of an absent key is 0, and count of a present key hangs in every state."
  },
  {
   "property": "C38",
   "status": "proved",
   "theorems": [
    "C38_svm_find_accesses",
    "C38_svm_history",
    "C38_svm_reaches",
    "C38_svm_is_map",
    "C38_svm_positions",
    "C38_svm_probes",
    "C38_svm_probes_empty",
    "C38_svm_insert",
    "C38_svm_index"
   ],
   "note": "Every history on two maps is observed as the abstract ordered map prescribes, with fewer entries than unsigned has values (C62) and no growth from a full array of capacity 1 (C39); keys ascending, values per key, exact positions, at most log2 n + 1 probes. count (C40) and the exact equal_range (C61) are separate properties."
  },
  {
   "property": "C39",
   "status": "partial",
   "theorems": [
    "C39_svm_history_partial",
    "C39_svm_reaches_partial",
    "C39_svm_room_partial",
    "C39_svm_capacity_1_refuted",
    "C39_run_refuted"
   ],
   "note": "Proved: no insertion leaves the array in any history without preallocation 1. Refuted: capacity 1 never grows (1 + 1/2 = 1), so the second insertion writes past the array (for every key and allocator)."
  },
  {
   "property": "C40",
   "status": "partial",
   "theorems": [
    "C40_svm_count_refuted",
    "C40_run_refuted"
   ],
   "note": "Refuted: count is inverted in every state and for every key; the theorem gives the exact value."
  },
  {
   "property": "C41",
   "status": "proved",
   "theorems": [
    "C41_svm_reaches",
    "C41_svm_insert",
    "C41_svm_stable",
    "C41_svm_copy",
    "C41_svm_destroy"
   ],
   "note": "Every element keeps its address and key through any history of calls that remove nothing; copies are in separate cells; the destructor frees everything."
  },
  {
   "property": "C42",
   "status": "proved",
   "theorems": [
    "C42_bitset_history",
    "C42_bitset_set_at",
    "C42_bitset_reset_at",
    "C42_bitset_flip_at",
    "C42_bitset_ref_assign",
    "C42_bitset_ref_flip",
    "C42_bitset_set_all",
    "C42_bitset_reset_all",
    "C42_bitset_flip_all",
    "C42_bitset_and_eq",
    "C42_bitset_or_eq",
    "C42_bitset_xor_eq",
    "C42_bitset_not",
    "C42_bitset_new",
    "C42_bitset_copy",
    "C42_bitset_test"
   ],
   "note": "Every operation, for an object in any state (any unused bits), plus whole histories. N and the number of words below UINT_MAX + 1 (unsigned loop counters)."
  },
  {
   "property": "C43",
   "status": "proved",
   "theorems": [
    "C43_bitset_history",
    "C43_bitset_count",
    "C43_bitset_none",
    "C43_bitset_any",
    "C43_bitset_all",
    "C43_bitset_eq",
    "C43_bitset_ne",
    "C43_bitset_eq0",
    "C43_bitset_to_ulong",
    "C43_bitset_to_ullong"
   ],
   "note": "Every observer, with nothing assumed about the unused bits, plus histories. N <= UINT_MAX."
  },
  {
   "property": "C44",
   "status": "proved",
   "theorems": [
    "C44_bitset_history",
    "C44_bitset_shl",
    "C44_bitset_shr"
   ],
   "note": "Single calls and histories, every distance. N <= UINT_MAX (the loop counter is unsigned)."
  },
  {
   "property": "C45",
   "status": "partial",
   "theorems": [
    "C45_bitset_history_partial",
    "C45_bitset_put_partial",
    "C45_bitset_put_false_refuted"
   ],
   "note": "Exact effect proved (old || v); refuted: set(p, false) never clears a bit."
  },
  {
   "property": "C46",
   "status": "partial",
   "theorems": [
    "C46_bitset_history_partial",
    "C46_bitset_ref_copy_partial",
    "C46_bitset_ref_copy_alone_partial",
    "C46_bitset_ref_copy_clears_refuted",
    "C46_bitset_ref_copy_keeps_refuted"
   ],
   "note": "Exact effect proved; refuted: the other bits of the word are cleared and the bit itself is never cleared."
  },
  {
   "property": "C47",
   "status": "partial",
   "theorems": [
    "C47_bitset_history_partial",
    "C47_bitset_convert_partial",
    "C47_bitset_construct_partial",
    "C47_bitset_convert_padding_refuted"
   ],
   "note": "Proved when the target is not larger, or the source has no unused bits or they are clear (the history spec tracks when they are); refuted: after set() on the source, a larger target gets extra bits."
  },
  {
   "property": "C48",
   "status": "proved",
   "theorems": [
    "C48_bitset_history",
    "C48_bitset_of_ulong",
    "C48_bitset_of_ullong",
    "C48_bitset_ulong_round_trip",
    "C48_bitset_ullong_round_trip",
    "C48_bitset_of_string"
   ],
   "note": "Integers (LP64 and ILP32 branches), round trips and strings; strings of at least one word need readable uninitialised storage, see C63."
  },
  {
   "property": "C49",
   "status": "proved",
   "theorems": [
    "C49_find_first",
    "C49_find_if_first",
    "C49_adjacent_find_first",
    "C49_quantifiers_decide",
    "C49_count_matches",
    "C49_count_if_matches"
   ],
   "note": "Every range in any memory, every position, every predicate; no read outside the range (the model faults there)."
  },
  {
   "property": "C50",
   "status": "proved",
   "theorems": [
    "C50_search_first"
   ],
   "note": "Both ranges anywhere in memory, including overlapping and empty ones."
  },
  {
   "property": "C51",
   "status": "partial",
   "theorems": [
    "C51_search_n_first",
    "C51_search_n_pred_first_partial",
    "C51_search_n_pred_wrong_refuted"
   ],
   "note": "Proved for the value version and for predicate matches that agree with == on the element tested first; refuted for the predicate version in general: the first element of a run is tested with == instead of pred."
  },
  {
   "property": "C52",
   "status": "proved",
   "theorems": [
    "C52_lower_bound_point",
    "C52_upper_bound_point",
    "C52_binary_search_decides",
    "C52_equal_range_points",
    "C52_binary_searches_sorted"
   ],
   "note": "Ranges of at most INT_MAX elements (the distance is an int), every value and comparator for which the range is partitioned."
  },
  {
   "property": "C53",
   "status": "partial",
   "theorems": [
    "C53_lower_bound_too_long_refuted",
    "C53_lower_bound_any_length_partial"
   ],
   "note": "Proved up to INT_MAX elements (C52); refuted beyond: the distance is computed in an int that overflows."
  },
  {
   "property": "C54",
   "status": "proved",
   "theorems": [
    "C54_merge_stable"
   ],
   "note": "Every pair of sorted inputs with disjoint output."
  },
  {
   "property": "C55",
   "status": "proved",
   "theorems": [
    "C55_remove_compacts",
    "C55_remove_if_compacts",
    "C55_copy_if_selects",
    "C55_remove_copy_selects"
   ],
   "note": "In place and copying versions."
  },
  {
   "property": "C56",
   "status": "proved",
   "theorems": [
    "C56_copy_copies",
    "C56_copy_backward_copies",
    "C56_swap_swaps",
    "C56_swap_ranges_swaps",
    "C56_reverse_reverses",
    "C56_reverse_copy_reverses",
    "C56_fill_fills",
    "C56_generate_generates",
    "C56_replace_replaces",
    "C56_replace_copy_replaces",
    "C56_transform1_transforms",
    "C56_transform2_transforms",
    "C56_for_each_calls",
    "C56_iota_accumulate"
   ],
   "note": "Overlap conditions as in the standard."
  },
  {
   "property": "C57",
   "status": "proved",
   "theorems": [
    "C57_equal3_decides",
    "C57_equal4_decides",
    "C57_mismatch3_first",
    "C57_mismatch4_first"
   ],
   "note": "Three and four iterator forms."
  },
  {
   "property": "C58",
   "status": "proved",
   "theorems": [
    "C58_min_max_pick",
    "C58_min_max_default",
    "C58_max_minmax_ties",
    "C58_min_element_first",
    "C58_max_element_first",
    "C58_minmax_element_both",
    "C58_is_sorted_until_end",
    "C58_is_sorted_decides"
   ],
   "note": "Values proved; which of several equivalent ones is chosen is C66."
  },
  {
   "property": "C59",
   "status": "proved",
   "theorems": [
    "C59_array_fill",
    "C59_array_swap",
    "C59_array_swap_self",
    "C59_array_eq",
    "C59_array_access"
   ],
   "note": "Every N; N=0 for size/begin/end/fill/swap/==."
  },
  {
   "property": "C60",
   "status": "partial",
   "theorems": [
    "C60_remove_own_refuted",
    "C60_list_remove_own_refuted",
    "C60_list_remove_own_last_partial"
   ],
   "note": "Refuted for every element but the last one (read after free); proved for the last one and for an x outside the list (C29)."
  },
  {
   "property": "C61",
   "status": "partial",
   "theorems": [
    "C61_svm_history_partial",
    "C61_svm_equal_range_partial",
    "C61_run_refuted"
   ],
   "note": "Exact result proved: equal to (lower_bound, upper_bound) for present keys; refuted for absent keys: (end, end) is returned."
  },
  {
   "property": "C62",
   "status": "partial",
   "theorems": [
    "C62_svm_find_overflow_refuted",
    "C62_run_refuted"
   ],
   "note": "Proved below the number of values of unsigned (C38); refuted: with a multiple of it no key is found."
  },
  {
   "property": "C63",
   "status": "partial",
   "theorems": [
    "C63_bitset_history_partial",
    "C63_bitset_string_uninitialised_refuted",
    "C63_bitset_string_overflow_refuted",
    "C63_bitset0_of_ulong_refuted",
    "C63_bitset_position_unchecked_partial"
   ],
   "note": "Histories within b_spec go through; refuted for string construction with >= one word of digits (reads uninitialised words), for longer strings and for bitset<0>(unsigned long) (outside the object)."
  },
  {
   "property": "C64",
   "status": "partial",
   "theorems": [
    "C64_bitset0_all_refuted",
    "C64_bitset0_observers_partial"
   ],
   "note": "All but all() proved; bitset<0>::all() is false."
  },
  {
   "property": "C65",
   "status": "partial",
   "theorems": [
    "C65_find_first_partial",
    "C65_count_matches_partial",
    "C65_search_n_first_partial",
    "C65_lower_bound_point_partial",
    "C65_upper_bound_point_partial",
    "C65_fill_fills_partial",
    "C65_replace_replaces_partial",
    "C65_remove_aliased_wrong_refuted",
    "C65_replace_aliased_wrong_refuted"
   ],
   "note": "Proved for the read-only algorithms and fill/fill_n; refuted for remove and replace given a reference to an element of the range."
  },
  {
   "property": "C66",
   "status": "partial",
   "theorems": [
    "C66_max_minmax_ties_partial",
    "C66_min_tie_wrong_refuted",
    "C66_min_element_first_partial",
    "C66_max_element_first_partial",
    "C66_minmax_element_tie_wrong_refuted"
   ],
   "note": "Proved for max, minmax, min_element, max_element; refuted for min (returns the second of two equivalent arguments) and for minmax_element."
  },
  {
   "property": "C67",
   "status": "partial",
   "theorems": [
    "C67_count_matches_partial",
    "C67_count_if_matches_partial",
    "C67_count_overflows_refuted",
    "C67_count_if_overflows_refuted",
    "C67_distance_exact",
    "C67_distance_exact_partial"
   ],
   "note": "Proved up to INT_MAX; refuted beyond: the counter is an int that overflows, and distance converts to int."
  },
  {
   "property": "C68",
   "status": "proved",
   "theorems": [
    "C68_function_objects_order",
    "C68_function_objects_sets"
   ],
   "note": "Sets; maps and trees take the same Compare hypotheses."
  },
  {
   "property": "C69",
   "status": "proved",
   "theorems": [
    "C69_pair_construct",
    "C69_pair_assign",
    "C69_pair_convert",
    "C69_pair_swap",
    "C69_pair_equal"
   ],
   "note": ""
  },
  {
   "property": "C70",
   "status": "proved",
   "theorems": [
    "C70_remove_const_exact",
    "C70_remove_volatile_exact",
    "C70_remove_cv_exact",
    "C70_remove_reference_exact",
    "C70_move_type"
   ],
   "note": ""
  },
  {
   "property": "C71",
   "status": "proved",
   "theorems": [
    "C71_is_same_exact",
    "C71_is_const_exact",
    "C71_is_volatile_exact"
   ],
   "note": "Instantiation fails for T&& and qualified function types (part of the statement)."
  },
  {
   "property": "C72",
   "status": "proved",
   "theorems": [
    "C72_fundamental_exact",
    "C72_signedness_exact",
    "C72_compound_exact",
    "C72_classification_ignores_cv",
    "C72_categories_disjoint",
    "C72_differs_from_std"
   ],
   "note": "The differences from <type_traits> are theorem differs_from_std."
  },
  {
   "property": "C73",
   "status": "proved",
   "theorems": [
    "C73_threads_set",
    "C73_threads_map",
    "C73_threads_forward_list",
    "C73_threads_backward_list",
    "C73_threads_lazy_queue",
    "C73_threads_list",
    "C73_threads_vector",
    "C73_threads_fixed_vector",
    "C73_threads_vector_map",
    "C73_threads_sorted_vector_map"
   ],
   "note": "Threads.v (every interleaving of single memory accesses, new returning any free address), Clients.v (readers of two shared containers, workers on their own): one theorem per container; for backward_list, lazy_queue, vector, fixed_vector, vector_map the histories avoid the known defects as in their own theorems"
  },
  {
   "property": "C74",
   "status": "proved",
   "theorems": [
    "C74_threads_set",
    "C74_threads_map",
    "C74_threads_forward_list",
    "C74_threads_backward_list",
    "C74_threads_lazy_queue",
    "C74_threads_list",
    "C74_threads_vector",
    "C74_threads_fixed_vector",
    "C74_threads_vector_map",
    "C74_threads_sorted_vector_map"
   ],
   "note": "same theorems: any mixture of readers and workers"
  },
  {
   "property": "C75",
   "status": "proved",
   "theorems": [
    "C75_erase_own_key",
    "C75_insert_own_value",
    "C75_find_own_key",
    "C75_count_own_key",
    "C75_key_reference_same",
    "C75_value_reference_same",
    "C75_lower_own_key",
    "C75_erase_others_key",
    "C75_insert_equal_own_value",
    "C75_index_own_key"
   ],
   "note": "by-reference transcriptions (RbRefModel.v) of the map/set/tree calls, the key being read again at every comparison; proved to agree with the by-value calls as long as nobody writes the element, and to give exactly the expected effect for an own key; erase with a key of another container"
  },
  {
   "property": "C76",
   "status": "partial",
   "theorems": [
    "C76_vector_resize_values",
    "C76_fixed_resize_values",
    "C76_list_resize_values_partial",
    "C76_list_resize_indeterminate_refuted"
   ],
   "note": "proved for vector, fixed_vector, and list with class types (n not 0, see C35); refuted: list::resize(n) of a scalar type leaves the new values indeterminate (node() {} does not initialise value)"
  },
  {
   "property": "C77",
   "status": "partial",
   "theorems": [
    "C77_fixed_aligned_partial",
    "C77_fixed_misaligned_refuted"
   ],
   "note": "proved when alignof(T) divides alignof(T*); refuted for all other alignments (bytes_ is an array of unions of char)"
  },
  {
   "property": "C78",
   "status": "partial",
   "theorems": [
    "C78_vector_request_fits_partial",
    "C78_vector_request_wraps_refuted",
    "C78_vector_insert_size_fits_partial",
    "C78_vector_insert_size_ignored_refuted"
   ],
   "note": "proved when n * sizeof(T) (constructors) or n (insert) is representable; refuted for all other n: the multiplication wraps, respectively n becomes negative and the call does nothing"
  },
  {
   "property": "C79",
   "status": "proved",
   "theorems": [
    "C79_fl_survives_failures",
    "C79_dl_survives_failures",
    "C79_set_survives_failures",
    "C79_map_survives_failures",
    "C79_ve_survives_failures",
    "C79_vm_survives_failures"
   ],
   "note": "the constructing calls (copy, re-creation) and map/set operator= are treated in C82; a throwing element constructor is covered for node containers (same effect as a failed new), not for vector"
  },
  {
   "property": "C80",
   "status": "proved",
   "theorems": [
    "C80_fl_push_front_strong",
    "C80_fl_insert_after_strong",
    "C80_bl_push_back_strong",
    "C80_bl_push_front_strong",
    "C80_bl_insert_after_strong",
    "C80_lq_push_back_strong",
    "C80_lq_push_front_strong",
    "C80_lq_insert_after_strong",
    "C80_dl_insert_strong",
    "C80_insert_strong",
    "C80_insert_present_nothrow",
    "C80_index_present_nothrow",
    "C80_index_strong",
    "C80_vec_push_back_strong",
    "C80_vec_insert_n_strong",
    "C80_vec_resize_strong",
    "C80_vec_reserve_strong"
   ],
   "note": ""
  },
  {
   "property": "C81",
   "status": "proved",
   "theorems": [
    "C81_fl_pop_front_nothrow",
    "C81_fl_erase_after_nothrow",
    "C81_fl_clear_nothrow",
    "C81_fl_destroy_nothrow",
    "C81_fl_swap_nothrow",
    "C81_fl_reverse_nothrow",
    "C81_bl_erase_after_nothrow",
    "C81_lq_pop_front_nothrow",
    "C81_dl_erase_nothrow",
    "C81_dl_destroy_nothrow",
    "C81_dl_splice_all_nothrow",
    "C81_insert_present_nothrow",
    "C81_erase_nothrow",
    "C81_find_nothrow",
    "C81_clear_nothrow",
    "C81_destroy_nothrow",
    "C81_index_present_nothrow"
   ],
   "note": ""
  },
  {
   "property": "C82",
   "status": "partial",
   "theorems": [
    "C82_vec_copy_strong",
    "C82_fl_new_n_throws_partial",
    "C82_fl_new_n_leaks_refuted",
    "C82_map_assign_throws_partial",
    "C82_map_assign_leaks_refuted",
    "C82_map_copy_throws_partial",
    "C82_map_copy_leaks_refuted",
    "C82_map_new_range_throws",
    "C82_dl_new_n_throws_partial",
    "C82_dl_new_n_leaks_refuted",
    "C82_bl_new_n_leaks_refuted",
    "C82_lq_new_n_leaks_refuted",
    "C82_svm_copy_throws_partial",
    "C82_svm_copy_leaks_refuted"
   ],
   "note": "Proved: vector copy constructor; range constructor of map and set. Partial: the constructors from n values of forward_list and list, the copy constructors of sorted_vector_map, map and set and operator= of map and set keep source and target consistent when they throw, but leak: the _refuted theorems exhibit the leaked allocations (forward_list, list, backward_list, lazy_queue: k nodes for every k<n; sorted_vector_map: the array and k copies for every k below the size; map/set: one node for every source of at least two elements). Copy constructors of the linked lists are not covered."
  },
  {
   "property": "C83",
   "status": "partial",
   "theorems": [
    "C83_svm_insert_throws_partial",
    "C83_svm_insert_tears_refuted",
    "C83_svm_insert_leaks_refuted",
    "C83_svm_index_throws_partial",
    "C83_svm_index_tears_refuted"
   ],
   "note": "Proved: exact outcome of a throwing insertion for every contents, capacity and key; a present key never throws. Refuted: with room in the array, an insertion not at the end can leave a map whose destructor deletes an element twice; in a full array the new pointer array can leak. operator[] likewise. (insert(first, last) and insert(pos, value) are declared but not defined in the header.)"
  },
  {
   "property": "C84",
   "status": "partial",
   "theorems": [
    "C84_bl_insert_n_throws_partial",
    "C84_bl_insert_range_throws_partial",
    "C84_bl_insert_n_stale_refuted"
   ],
   "note": "Proved for a position that is not the last one (usable, prefix inserted). Refuted at the last position: insert_after(before_end(), n, value) can throw leaving tail_ on the former last node, after which push_back inserts before the appended values. The range form never updates tail_ at the last position, throwing or not."
  },
  {
   "property": "C85",
   "status": "partial",
   "theorems": [
    "C85_lq_push_back_pooled",
    "C85_lq_push_front_pooled",
    "C85_lq_insert_after_pooled",
    "C85_lq_insert_n_nothrow",
    "C85_lq_insert_range_nothrow",
    "C85_lq_refill_nothrow",
    "C85_lq_insert_n_throws_partial",
    "C85_lq_insert_n_stale_refuted"
   ],
   "note": "Proved: no insertion throws while enough spare nodes are left, refill after clear, exact outcome of a throwing multi-element insertion. Refuted: insert_after(before_end(), n, value) can throw leaving tail_ on the former last node, after which push_back inserts before the appended values."
  },
  {
   "property": "C86",
   "status": "proved",
   "theorems": [
    "C86_dl_insert_const",
    "C86_dl_erase_const",
    "C86_dl_splice_all_const",
    "C86_dl_splice_one_const",
    "C86_dl_splice_range_const",
    "C86_dl_swap_const",
    "C86_fl_push_front_const",
    "C86_fl_pop_front_const",
    "C86_fl_insert_after_const",
    "C86_fl_erase_after_const",
    "C86_fl_swap_const",
    "C86_fl_splice_one_const",
    "C86_bl_push_back_const",
    "C86_bl_push_front_const",
    "C86_bl_pop_front_const",
    "C86_bl_insert_after_const",
    "C86_bl_erase_after_const",
    "C86_bl_back_const",
    "C86_bl_swap_const",
    "C86_lq_push_back_const",
    "C86_lq_push_front_const",
    "C86_lq_pop_front_const",
    "C86_lq_insert_after_const",
    "C86_lq_erase_after_const",
    "C86_lq_roll_head_const",
    "C86_lq_swap_const",
    "C86_v_at_const",
    "C86_v_pop_back_const"
   ],
   "note": "Number of memory accesses of each call, for every state; see DESIGN.md for what counts as one."
  },
  {
   "property": "C87",
   "status": "proved",
   "theorems": [
    "C87_dl_remove_linear",
    "C87_dl_remove_if_linear",
    "C87_dl_unique_linear",
    "C87_dl_reverse_linear",
    "C87_dl_copy_linear",
    "C87_dl_clear_linear",
    "C87_dl_destroy_linear",
    "C87_dl_merge_linear",
    "C87_fl_erase_after_range_linear",
    "C87_fl_clear_linear",
    "C87_fl_destroy_linear",
    "C87_fl_reverse_linear",
    "C87_fl_copy_linear",
    "C87_fl_eq_linear",
    "C87_bl_clear_linear",
    "C87_bl_reverse_linear",
    "C87_bl_destroy_linear",
    "C87_lq_clear_linear",
    "C87_lq_cleanup_linear",
    "C87_lq_destroy_linear",
    "C87_lq_copy_linear",
    "C87_v_push_back_linear",
    "C87_v_insert_n_linear",
    "C87_v_erase_range_linear",
    "C87_v_reserve_linear",
    "C87_v_copy_linear",
    "C87_v_assign_linear",
    "C87_v_clear_linear",
    "C87_v_destroy_linear",
    "C87_vm_find_linear",
    "C87_svm_insert_linear",
    "C87_svm_index_linear",
    "C87_svm_copy_linear",
    "C87_svm_destroy_linear",
    "C87_map_clear_linear",
    "C87_map_destroy_linear",
    "C87_map_copy_linear",
    "C87_map_assign_linear"
   ],
   "note": "Number of memory accesses of each call, for every state. Map/set iteration as a whole, resize and range insertion are not covered."
  },
  {
   "property": "C88",
   "status": "partial",
   "theorems": [
    "C88_v_push_back_room_partial",
    "C88_v_push_back_full_refuted",
    "C88_v_push_backs_quadratic_refuted",
    "C88_v_push_backs_reserved_partial"
   ],
   "note": "False of the code: a full vector grows by exactly the number of inserted elements (vector.hpp 263), so n push_backs make at least n(n+1)/2 accesses (C88_v_push_backs_quadratic_refuted). Proved: constant time while there is room, 3n accesses for n calls after reserve(n)."
  },
  {
   "property": "C89",
   "status": "proved",
   "theorems": [
    "C89_quantifiers_call",
    "C89_find_calls",
    "C89_count_calls",
    "C89_neighbours_call",
    "C89_comparisons_call",
    "C89_search_calls",
    "C89_search_n_calls",
    "C89_copy_if_calls",
    "C89_remove_copy_calls",
    "C89_remove_calls",
    "C89_replace_if_calls",
    "C89_replace_calls",
    "C89_transform_calls",
    "C89_binary_search_calls",
    "C89_merge_calls",
    "C89_min_max_calls",
    "C89_same_programs_unary",
    "C89_same_programs_binary",
    "C89_same_programs_ordering"
   ],
   "note": "every algorithm taking a function object, and the operator versions, with the calls recorded; C89_same_programs_* relate the recording programs to those of AlgModel.v; for_each, generate and accumulate with stateful function objects are in C56"
  },
  {
   "property": "C90",
   "status": "partial",
   "theorems": [
    "C90_minmax_element_run_refuted",
    "C90_minmax_element_calls_refuted",
    "C90_minmax_element_linear_partial"
   ],
   "note": "False of the code: minmax_element runs min_element and max_element one after the other and makes exactly 2(n-1) comparisons (there is a TODO in the source), refuted for every range of two or more elements."
  },
  {
   "property": "C91",
   "status": "proved",
   "theorems": [
    "C91_forward_linear",
    "C91_backward_linear",
    "C91_backward_visits",
    "C91_equal_linear"
   ],
   "note": "Sum over all positions of the path to the neighbour <= 2n, by induction over the tree; each step has a program whose accesses are bounded by the length of its own path."
  },
  {
   "property": "C92",
   "status": "partial",
   "theorems": [
    "C92_vec_push_back_grow_throws_partial",
    "C92_vec_insert_n_grow_throws_partial",
    "C92_vec_insert_range_grow_throws_partial",
    "C92_vec_reserve_throws_partial",
    "C92_vec_push_back_leaks_refuted",
    "C92_vec_reserve_leaks_refuted",
    "C92_vec_push_back_torn_refuted",
    "C92_vec_insert_n_torn_refuted",
    "C92_vec_insert_range_torn_refuted",
    "C92_vec_erase_torn_refuted",
    "C92_vec_assign_n_torn_refuted",
    "C92_vec_assign_torn_refuted",
    "C92_vec_resize_torn_refuted",
    "C92_vec_new_n_leaks_refuted",
    "C92_vec_copy_leaks_refuted",
    "C92_fvec_push_back_torn_refuted",
    "C92_fvec_insert_n_torn_refuted",
    "C92_fvec_insert_range_torn_refuted",
    "C92_fvec_erase_torn_refuted",
    "C92_fvec_assign_n_torn_refuted",
    "C92_fvec_assign_range_torn_refuted",
    "C92_fvec_assign_torn_refuted",
    "C92_fvec_resize_torn_refuted",
    "C92_vec_no_throw_partial",
    "C92_fvec_no_throw_partial"
   ],
   "note": "refuted by the code: when push_back, insert or reserve grow the buffer the vector keeps its contents but the new buffer is lost with the objects already copied; within the capacity, and in erase, assign, operator= and resize, and in all of fixed_vector, an object that was never constructed is destroyed later (last_ is advanced before the copy, elements are destroyed before their replacement is made); a constructor that throws loses its buffer. Each refutation is for every state and every copy that throws. Positive: the growing calls leave the vector as it was; without a throwing copy the functions are those of the other claims"
  },
  {
   "property": "C93",
   "status": "partial",
   "theorems": [
    "C93_lq_push_back_copy_throws_partial",
    "C93_lq_push_front_copy_throws_partial",
    "C93_lq_insert_after_copy_throws_partial",
    "C93_lq_insert_n_copy_throws_partial",
    "C93_lq_push_back_copy_leaks_refuted",
    "C93_lq_no_throw_partial"
   ],
   "note": "refuted by the code: the node being filled is lost. Positive: the elements and the members are as they were, with one spare node less; insertion of n values keeps the values inserted so far, with a stale tail_ when inserting at the last position (as in C85)"
  },
  {
   "property": "C94",
   "status": "proved",
   "theorems": [
    "C94_list_remove_if_throws",
    "C94_list_remove_if_rest",
    "C94_list_remove_throws",
    "C94_list_unique_throws",
    "C94_list_unique_empty",
    "C94_list_unique_rest",
    "C94_list_merge_throws",
    "C94_list_pred_plain",
    "C94_list_remove_plain"
   ],
   "note": "Function objects are functions from the number of the call and the arguments to an answer or a throw, so they may keep any state of their own; they do not touch the list."
  },
  {
   "property": "C95",
   "status": "partial",
   "theorems": [
    "C95_find_throws",
    "C95_count_throws",
    "C95_lower_bound_throws",
    "C95_upper_bound_throws",
    "C95_equal_range_throws",
    "C95_insert_throws",
    "C95_insert_range_throws",
    "C95_index_throws",
    "C95_erase_throws_partial",
    "C95_erase_torn_find_partial",
    "C95_erase_torn_begin_partial",
    "C95_erase_torn_incr_partial",
    "C95_erase_torn_clear_partial",
    "C95_erase_torn_destroy_partial",
    "C95_erase_torn_loses_refuted",
    "C95_at_throws",
    "C95_set_catching_partial",
    "C95_set_catching_history_partial",
    "C95_map_catching_partial",
    "C95_map_catching_history_partial"
   ],
   "note": "Holds for find, count, the bounds, insert, range insert, operator[] and at, and for whole programs in which erase and range insertion do not throw. A throwing erase loses nothing at once and leaves an ordered tree (find, iteration, clear and the destructor stay right), but it leaves the descent's recolouring and borrowing unfinished; C95_erase_torn_loses_refuted exhibits a later erase that loses a second element and leaks its node: a genuine defect."
  },
  {
   "property": "C96",
   "status": "proved",
   "theorems": [
    "C96_sv_insert_throws",
    "C96_sv_index_throws",
    "C96_sv_lookups_throw",
    "C96_sv_catching",
    "C96_sv_catching_history",
    "C96_vm_insert_throws",
    "C96_vm_index_throws",
    "C96_vm_lookups_throw",
    "C96_vm_catching",
    "C96_vm_catching_history"
   ],
   "note": "Copies of keys and values do not throw here (C79, C83, C92 treat failing allocations and copies); vector's == on whole elements, which vector_map inherits, is not among the throwing calls."
  },
  {
   "property": "C97",
   "status": "proved",
   "theorems": [
    "C97_find_if_asks",
    "C97_find_if_not_asks",
    "C97_quantifiers_ask",
    "C97_count_if_asks",
    "C97_copy_if_asks",
    "C97_remove_copy_if_asks",
    "C97_replace_if_asks",
    "C97_remove_if_asks",
    "C97_remove_if_throws",
    "C97_algorithms_plain"
   ],
   "note": "Function objects are functions from the number of the call and the element to an answer or a throw; each algorithm counts the calls of its own copy. replace_copy_if, the algorithms with two function arguments or a comparison are covered without exceptions only (C49-C56)."
  }
 ]
}