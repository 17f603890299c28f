{
 "C07": [
  "partial",
  "False of the code: self-assignment empties forward_list, backward_list, lazy_queue, map, set (universal theorems and runs). vector: refuted (vec_self_assign: empties the vector). fixed_vector: refuted (fixed_self_assign). list: refuted (list_self_assign)."
 ],
 "C22": [
  "proved",
  "Whole histories on two lists, plus per-call statements with node addresses."
 ],
 "C23": [
  "partial",
  "Proved for every non-empty source or range, between two lists and within one list (before, at and behind the range), and for empty ranges just behind pos; the other empty ranges and the ranges that are already in place are refuted for every list: elements lost, nodes shared by two lists, or a cycle."
 ],
 "C01": [
  "proved",
  "whole client programs on two maps/sets, for every history and allocator; plus per-call theorems; set.hpp and map.hpp share the model"
 ],
 "C02": [
  "proved",
  "begin/++/--/* by position, and full traversals, on every map object; every history reaches such objects (set_reaches/map_reaches) and observes the right traversals (set_history/map_history)"
 ],
 "C03": [
  "proved",
  "height bound on every tree object, preserved by every history (set_reaches/map_reaches), and fuel (loop iterations) 2*log2(n+1)+1 suffices for find, lower_bound, insert, operator[], erase; and bounds on the number of memory accesses of each call"
 ],
 "C04": [
  "proved",
  "the (address, value) list of the object is explicit in insert/erase/operator[]"
 ],
 "C05": [
  "proved",
  "runs: exact footprint; clear, destructor leave nothing; histories end with empty memory"
 ],
 "C06": [
  "proved",
  "disjoint ownership (both) after copy and assignment"
 ],
 "C08": [
  "proved",
  ""
 ],
 "C09": [
  "partial",
  "exact behaviour for every key proved (position after the lower bound) with an iff telling when that is the upper bound; refuted for absent keys with a greater key present (C09_*_refuted): defect in map.hpp 273-299 / set.hpp 250-276"
 ],
 "C10": [
  "partial",
  "insert_equal, bounds, equal_range, find proved for all states and within whole histories (insertion_order: equal keys stay in insertion order); remove proved when at most one element has the key; with duplicates the code loses elements (C10_remove_duplicates_run_refuted): defect in rbtree.hpp 463-527"
 ],
 "C11": [
  "partial",
  "never exceeds, zero iff none, exact for at most one, also within whole histories; refuted for three equal keys: defect in rbtree.hpp 351-368"
 ],
 "C12": [
  "proved",
  "!= is the negation in map.hpp/set.hpp"
 ],
 "C13": [
  "partial",
  "proved for Compare consistent with ==; refuted for a Compare coarser than == (rbtree.hpp 440-461 uses ==)"
 ],
 "C24": [
  "partial",
  "every history within bl_ok and every call proved; pop_front of the last element, range insertion at the end, copy/assign of non-empty lists, reverse of an empty list leave tail_ wrong: refuted universally and by runs (backward_list.hpp)"
 ],
 "C25": [
  "proved",
  "histories without swap (swap is C28); destruction with pooled nodes of a non-trivial T is C27"
 ],
 "C26": [
  "proved",
  "addresses of reused nodes explicit per call; number of nodes owned tracked over every history"
 ],
 "C27": [
  "partial",
  "proved when T is trivially destructible or the pool is empty; refuted for every other queue (lq_cleanup_bad, lq_destroy_bad): ~T runs twice"
 ],
 "C28": [
  "partial",
  "proved for two non-empty lists; refuted (universally) when one is empty"
 ],
 "C14": [
  "proved",
  "Every history of the listed calls within the documented preconditions; erase of an empty range and insertion of an own element are C16 / C17."
 ],
 "C15": [
  "proved",
  "Every history within ve_ok; is_vec is exact about live and raw slots, and the model makes any wrong-lifetime operation undefined behaviour."
 ],
 "C16": [
  "partial",
  "The property is false: erase(p,p) before the end constructs elements over themselves (refuted for all vectors and positions). Proved: erase of non-empty ranges and of an empty range at the end."
 ],
 "C17": [
  "partial",
  "push_back of an own element is proved in all cases. insert of an own element is proved when the call reallocates or the element lies before pos; the remaining case is false (refuted for all vectors: dead object or wrong value)."
 ],
 "C18": [
  "proved",
  "Capacities are part of the abstract state of the history theorem."
 ],
 "C19": [
  "proved",
  "exact behaviour of every history (fx_code); no history reaches an access outside the N slots; size() <= N"
 ],
 "C20": [
  "partial",
  "proved except insert of an own element at or behind pos and erase(p,p), for which the exact (wrong) behaviour is proved (defects)"
 ],
 "C21": [
  "partial",
  "proved for a.size() <= b.size(); for a.size() > b.size() every call is undefined behaviour (defect, fixed_swap_fails)"
 ],
 "C29": [
  "proved",
  "All histories on two lists (any interleaving), all allocators, with exact memory; element addresses in the single-call theorems."
 ],
 "C30": [
  "partial",
  "Refuted: clear() leaves head_.prev dangling, so a later insertion is undefined behaviour or loses the element. Proved: what a cleared list can still do, and what it looks like."
 ],
 "C31": [
  "partial",
  "Refuted for every non-empty range (the last element stays) and every empty range of a non-empty list (undefined behaviour). The exact effect is proved."
 ],
 "C32": [
  "partial",
  "Proved for every non-empty list or range not already in place, between two lists and within one list, and for splice(pos, *this, pos, pos); ranges already in place and all other empty ranges are refuted for every list: elements lost and leaked, iteration running into the other list's header, or never ending."
 ],
 "C33": [
  "proved",
  "merge keeps the nodes; the result is the stable merge for every strict weak order."
 ],
 "C34": [
  "partial",
  "Proved unless both lists are empty; that case is refuted for both evaluation orders."
 ],
 "C35": [
  "partial",
  "Proved for n > 0; resize(0) does nothing (refuted)."
 ],
 "C60": [
  "partial",
  "Refuted for every element but the last one (read after free); proved for the last one and for an x outside the list (C29)."
 ],
 "C36": [
  "proved",
  "Whole-program correctness of every history on two vector_maps (incl. inherited vector calls) plus the map meaning of the sequence."
 ],
 "C37": [
  "partial",
  "Refuted: count of a present key never returns. Proved: count of an absent key is 0, and count of a present key hangs in every state."
 ],
 "C38": [
  "proved",
  "Every history on two maps is observed as the abstract ordered map prescribes, with fewer entries than unsigned has values (C62) and no growth from a full array of capacity 1 (C39); keys ascending, values per key, exact positions, at most log2 n + 1 probes. count (C40) and the exact equal_range (C61) are separate properties."
 ],
 "C39": [
  "partial",
  "Proved: no insertion leaves the array in any history without preallocation 1. Refuted: capacity 1 never grows (1 + 1/2 = 1), so the second insertion writes past the array (for every key and allocator)."
 ],
 "C40": [
  "partial",
  "Refuted: count is inverted in every state and for every key; the theorem gives the exact value."
 ],
 "C41": [
  "proved",
  "Every element keeps its address and key through any history of calls that remove nothing; copies are in separate cells; the destructor frees everything."
 ],
 "C61": [
  "partial",
  "Exact result proved: equal to (lower_bound, upper_bound) for present keys; refuted for absent keys: (end, end) is returned."
 ],
 "C62": [
  "partial",
  "Proved below the number of values of unsigned (C38); refuted: with a multiple of it no key is found."
 ],
 "C42": [
  "proved",
  "Every operation, for an object in any state (any unused bits), plus whole histories. N and the number of words below UINT_MAX + 1 (unsigned loop counters)."
 ],
 "C43": [
  "proved",
  "Every observer, with nothing assumed about the unused bits, plus histories. N <= UINT_MAX."
 ],
 "C44": [
  "proved",
  "Single calls and histories, every distance. N <= UINT_MAX (the loop counter is unsigned)."
 ],
 "C45": [
  "partial",
  "Exact effect proved (old || v); refuted: set(p, false) never clears a bit."
 ],
 "C46": [
  "partial",
  "Exact effect proved; refuted: the other bits of the word are cleared and the bit itself is never cleared."
 ],
 "C47": [
  "partial",
  "Proved when the target is not larger, or the source has no unused bits or they are clear (the history spec tracks when they are); refuted: after set() on the source, a larger target gets extra bits."
 ],
 "C48": [
  "proved",
  "Integers (LP64 and ILP32 branches), round trips and strings; strings of at least one word need readable uninitialised storage, see C63."
 ],
 "C63": [
  "partial",
  "Histories within b_spec go through; refuted for string construction with >= one word of digits (reads uninitialised words), for longer strings and for bitset<0>(unsigned long) (outside the object)."
 ],
 "C64": [
  "partial",
  "All but all() proved; bitset<0>::all() is false."
 ],
 "C49": [
  "proved",
  "Every range in any memory, every position, every predicate; no read outside the range (the model faults there)."
 ],
 "C50": [
  "proved",
  "Both ranges anywhere in memory, including overlapping and empty ones."
 ],
 "C51": [
  "partial",
  "Proved for the value version and for predicate matches that agree with == on the element tested first; refuted for the predicate version in general: the first element of a run is tested with == instead of pred."
 ],
 "C52": [
  "proved",
  "Ranges of at most INT_MAX elements (the distance is an int), every value and comparator for which the range is partitioned."
 ],
 "C53": [
  "partial",
  "Proved up to INT_MAX elements (C52); refuted beyond: the distance is computed in an int that overflows."
 ],
 "C54": [
  "proved",
  "Every pair of sorted inputs with disjoint output."
 ],
 "C55": [
  "proved",
  "In place and copying versions."
 ],
 "C56": [
  "proved",
  "Overlap conditions as in the standard."
 ],
 "C57": [
  "proved",
  "Three and four iterator forms."
 ],
 "C58": [
  "proved",
  "Values proved; which of several equivalent ones is chosen is C66."
 ],
 "C59": [
  "proved",
  "Every N; N=0 for size/begin/end/fill/swap/==."
 ],
 "C65": [
  "partial",
  "Proved for the read-only algorithms and fill/fill_n; refuted for remove and replace given a reference to an element of the range."
 ],
 "C66": [
  "partial",
  "Proved for max, minmax, min_element, max_element; refuted for min (returns the second of two equivalent arguments) and for minmax_element."
 ],
 "C67": [
  "partial",
  "Proved up to INT_MAX; refuted beyond: the counter is an int that overflows, and distance converts to int."
 ],
 "C68": [
  "proved",
  "Sets; maps and trees take the same Compare hypotheses."
 ],
 "C69": [
  "proved",
  ""
 ],
 "C70": [
  "proved",
  ""
 ],
 "C71": [
  "proved",
  "Instantiation fails for T&& and qualified function types (part of the statement)."
 ],
 "C72": [
  "proved",
  "The differences from <type_traits> are theorem differs_from_std."
 ],
 "C73": [
  "proved",
  "Threads.v (every interleaving of single memory accesses, new returning any free address), Clients.v (readers of two shared containers, workers on their own): one theorem per container; for backward_list, lazy_queue, vector, fixed_vector, vector_map the histories avoid the known defects as in their own theorems"
 ],
 "C74": [
  "proved",
  "same theorems: any mixture of readers and workers"
 ],
 "C75": [
  "proved",
  "by-reference transcriptions (RbRefModel.v) of the map/set/tree calls, the key being read again at every comparison; proved to agree with the by-value calls as long as nobody writes the element, and to give exactly the expected effect for an own key; erase with a key of another container"
 ],
 "C76": [
  "partial",
  "proved for vector, fixed_vector, and list with class types (n not 0, see C35); refuted: list::resize(n) of a scalar type leaves the new values indeterminate (node() {} does not initialise value)"
 ],
 "C77": [
  "partial",
  "proved when alignof(T) divides alignof(T*); refuted for all other alignments (bytes_ is an array of unions of char)"
 ],
 "C78": [
  "partial",
  "proved when n * sizeof(T) (constructors) or n (insert) is representable; refuted for all other n: the multiplication wraps, respectively n becomes negative and the call does nothing"
 ],
 "C79": [
  "proved",
  "the constructing calls (copy, re-creation) and map/set operator= are treated in C82; a throwing element constructor is covered for node containers (same effect as a failed new), not for vector"
 ],
 "C80": [
  "proved",
  ""
 ],
 "C81": [
  "proved",
  ""
 ],
 "C82": [
  "partial",
  "Proved: vector copy constructor; range constructor of map and set. Partial: the constructors from n values of forward_list and list, the copy constructors of sorted_vector_map, map and set and operator= of map and set keep source and target consistent when they throw, but leak: the _refuted theorems exhibit the leaked allocations (forward_list, list, backward_list, lazy_queue: k nodes for every k<n; sorted_vector_map: the array and k copies for every k below the size; map/set: one node for every source of at least two elements). Copy constructors of the linked lists are not covered."
 ],
 "C83": [
  "partial",
  "Proved: exact outcome of a throwing insertion for every contents, capacity and key; a present key never throws. Refuted: with room in the array, an insertion not at the end can leave a map whose destructor deletes an element twice; in a full array the new pointer array can leak. operator[] likewise. (insert(first, last) and insert(pos, value) are declared but not defined in the header.)"
 ],
 "C84": [
  "partial",
  "Proved for a position that is not the last one (usable, prefix inserted). Refuted at the last position: insert_after(before_end(), n, value) can throw leaving tail_ on the former last node, after which push_back inserts before the appended values. The range form never updates tail_ at the last position, throwing or not."
 ],
 "C85": [
  "partial",
  "Proved: no insertion throws while enough spare nodes are left, refill after clear, exact outcome of a throwing multi-element insertion. Refuted: insert_after(before_end(), n, value) can throw leaving tail_ on the former last node, after which push_back inserts before the appended values."
 ],
 "C86": [
  "proved",
  "Number of memory accesses of each call, for every state; see DESIGN.md for what counts as one."
 ],
 "C87": [
  "proved",
  "Number of memory accesses of each call, for every state. Map/set iteration as a whole, resize and range insertion are not covered."
 ],
 "C88": [
  "partial",
  "False of the code: a full vector grows by exactly the number of inserted elements (vector.hpp 263), so n push_backs make at least n(n+1)/2 accesses (C88_v_push_backs_quadratic_refuted). Proved: constant time while there is room, 3n accesses for n calls after reserve(n)."
 ],
 "C89": [
  "proved",
  "every algorithm taking a function object, and the operator versions, with the calls recorded; C89_same_programs_* relate the recording programs to those of AlgModel.v; for_each, generate and accumulate with stateful function objects are in C56"
 ],
 "C90": [
  "partial",
  "False of the code: minmax_element runs min_element and max_element one after the other and makes exactly 2(n-1) comparisons (there is a TODO in the source), refuted for every range of two or more elements."
 ],
 "C91": [
  "proved",
  "Sum over all positions of the path to the neighbour <= 2n, by induction over the tree; each step has a program whose accesses are bounded by the length of its own path."
 ],
 "C92": [
  "partial",
  "refuted by the code: when push_back, insert or reserve grow the buffer the vector keeps its contents but the new buffer is lost with the objects already copied; within the capacity, and in erase, assign, operator= and resize, and in all of fixed_vector, an object that was never constructed is destroyed later (last_ is advanced before the copy, elements are destroyed before their replacement is made); a constructor that throws loses its buffer. Each refutation is for every state and every copy that throws. Positive: the growing calls leave the vector as it was; without a throwing copy the functions are those of the other claims"
 ],
 "C93": [
  "partial",
  "refuted by the code: the node being filled is lost. Positive: the elements and the members are as they were, with one spare node less; insertion of n values keeps the values inserted so far, with a stale tail_ when inserting at the last position (as in C85)"
 ],
 "C94": [
  "proved",
  "Function objects are functions from the number of the call and the arguments to an answer or a throw, so they may keep any state of their own; they do not touch the list."
 ],
 "C95": [
  "partial",
  "Holds for find, count, the bounds, insert, range insert, operator[] and at, and for whole programs in which erase and range insertion do not throw. A throwing erase loses nothing at once and leaves an ordered tree (find, iteration, clear and the destructor stay right), but it leaves the descent's recolouring and borrowing unfinished; C95_erase_torn_loses_refuted exhibits a later erase that loses a second element and leaks its node: a genuine defect."
 ],
 "C96": [
  "proved",
  "Copies of keys and values do not throw here (C79, C83, C92 treat failing allocations and copies); vector's == on whole elements, which vector_map inherits, is not among the throwing calls."
 ],
 "C97": [
  "proved",
  "Function objects are functions from the number of the call and the element to an answer or a throw; each algorithm counts the calls of its own copy. replace_copy_if, the algorithms with two function arguments or a comparison are covered without exceptions only (C49-C56)."
 ]
}