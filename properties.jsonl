{"id": "C01", "title": "map/set behave as an ordered finite map over every history", "statement": "After any sequence of insert, operator[], erase(key) and clear on a ttl::map / ttl::set whose Compare is a strict weak order consistent with ==, the container holds exactly the key/value pairs of the abstract finite map driven by the same calls; insert reports true exactly when the key was absent and keeps the old value otherwise, erase(key) returns 1 exactly when the key was present and 0 (changing no contents) otherwise, find/count/empty/at agree with the abstract map, and no call has undefined behaviour.", "quantifier": "every key and value type, every comparator that is a strict weak order consistent with ==, every finite history of calls, every allocator placing new nodes at free addresses", "why_tests_cant": "the number of histories and tree shapes is infinite; the rebalancing branches taken depend on the whole history", "anchors": ["ttl/rbtree.hpp: insert_unique, insert_rebalance, remove, delete_min, fixup, move_left, move_right, rotate_left, rotate_right, find, clear", "ttl/map.hpp: insert, operator[], erase, find, count, empty, clear", "ttl/set.hpp: insert, erase, find, count, empty, clear"]}
{"id": "C02", "title": "map/set iteration is ascending, complete and reversible", "statement": "From begin(), repeated ++ visits every element exactly once in ascending key order and then equals end(); from end(), repeated -- visits the same elements in descending order; ++ and -- are inverse on interior positions; ++ on the last element gives end() and --end() is the maximum.", "quantifier": "every reachable map/set state and every iterator position", "why_tests_cant": "successor/predecessor walk parent pointers whose correctness depends on every rotation in the history", "anchors": ["ttl/rbtree.hpp: min_node, max_node, next_node, prev_node", "ttl/map.hpp: begin, end, iterator::operator++, iterator::operator--, iterator::prev", "ttl/set.hpp: same"]}
{"id": "C03", "title": "map/set lookups and updates stay logarithmic", "statement": "After any history of insert/erase, every root-to-leaf path of the tree behind a map/set with n elements has at most 2*log2(n+1) nodes, so find, lower_bound, insert and erase perform O(log n) key comparisons; each of these calls, upper_bound, equal_range, operator[], begin() and one step of an iterator, makes O(log n) memory accesses (the theorems give the constants).", "quantifier": "every history of insertions and erasures of any length, any keys", "why_tests_cant": "a worst-case bound over all histories; a test observes finitely many tree shapes", "anchors": ["ttl/rbtree.hpp: insert_rebalance, remove, delete_min, fixup, find"]}
{"id": "C04", "title": "map/set element addresses are stable", "statement": "insert, operator[] and erase(key) never move, copy or reallocate the elements that stay in the container: every iterator, pointer or reference to an element not being erased remains valid and still denotes the same key and value.", "quantifier": "every reachable state, every operation, every element that survives it", "why_tests_cant": "needs the identity of every surviving node to be tracked through every rotation", "anchors": ["ttl/rbtree.hpp: insert_unique, remove (orphan relinking), rotate_left, rotate_right", "ttl/map.hpp: insert, erase"]}
{"id": "C05", "title": "map/set never leak or double-free nodes and touch no foreign memory", "statement": "insert allocates exactly one node when it succeeds and none otherwise, erase frees exactly the erased node, clear and the destructor free every node exactly once, and no operation reads or writes memory outside the container's own header and nodes.", "quantifier": "every reachable state, every operation, every surrounding memory content", "why_tests_cant": "freedom from leaks and stray accesses is a statement about all memory and all shapes", "anchors": ["ttl/rbtree.hpp: clear, postorder_destroy, remove, insert_unique, insert_equal", "ttl/map.hpp: erase, clear, ~map"]}
{"id": "C06", "title": "copying a map/set gives an equal, independent container", "statement": "Copy construction and assignment from a different map/set yield a container with the same elements in the same order in freshly allocated nodes; the source is unchanged and later changes to one are invisible to the other.", "quantifier": "every source and destination state", "why_tests_cant": "independence quantifies over all later mutations and the recursion covers every tree shape", "anchors": ["ttl/rbtree.hpp: assign, preorder_copy", "ttl/map.hpp: map(const map&), operator="]}
{"id": "C07", "title": "self-assignment of a container preserves its contents", "statement": "x = x leaves the container x unchanged, for map, set, vector, fixed_vector, forward_list, list, backward_list and lazy_queue.", "quantifier": "every container type and every state", "why_tests_cant": "no test exercises aliasing arguments; the property concerns all states", "anchors": ["ttl/map.hpp: operator=", "ttl/rbtree.hpp: assign, clear", "ttl/vector.hpp: operator=", "ttl/fixed_vector.hpp: operator=", "ttl/forward_list.hpp: operator=", "ttl/list.hpp: operator=", "ttl/backward_list.hpp: operator=", "ttl/lazy_queue.hpp: operator="]}
{"id": "C08", "title": "map/set lower_bound finds the first key not less than the argument", "statement": "lower_bound(k) returns an iterator to the first element whose key is not less than k, and end() exactly when there is none.", "quantifier": "every reachable state and every key", "why_tests_cant": "depends on the tree shape produced by the history and on every key position", "anchors": ["ttl/rbtree.hpp: lower_bound", "ttl/map.hpp: lower_bound", "ttl/set.hpp: lower_bound"]}
{"id": "C09", "title": "map/set upper_bound and equal_range delimit the keys equivalent to the argument", "statement": "upper_bound(k) returns the first element whose key is greater than k (end() if none), and equal_range(k) is the pair (lower_bound(k), upper_bound(k)), hence empty when k is absent.", "quantifier": "every reachable state and every key, present or absent", "why_tests_cant": "must hold for every key, including those falling between stored keys", "anchors": ["ttl/map.hpp: upper_bound, equal_range", "ttl/set.hpp: upper_bound, equal_range", "ttl/rbtree.hpp: lower_bound, next_node"]}
{"id": "C10", "title": "multi-key tree: insert_equal keeps duplicates in insertion order and remove drops exactly one", "statement": "For rbtree used with duplicate keys: insert_equal always adds the element after all elements not greater than it; lower_bound, upper_bound and equal_range delimit exactly the elements equivalent to the key; find returns an equivalent element iff one exists; remove(k) unlinks exactly one element equivalent to k if there is one and otherwise leaves the sequence unchanged.", "quantifier": "every sequence of insert_equal/insert_unique/remove and every key", "why_tests_cant": "duplicates end up on both sides of equal nodes depending on rotations, over all histories", "anchors": ["ttl/rbtree.hpp: insert_equal, remove, lower_bound, upper_bound, equal_range, find"]}
{"id": "C11", "title": "multi-key tree: count(k) is the number of elements equivalent to k", "statement": "rbtree::count(k) returns the number of stored elements whose key equals k.", "quantifier": "every reachable multi-key tree and every key", "why_tests_cant": "the answer depends on how rotations distributed equal keys", "anchors": ["ttl/rbtree.hpp: count"]}
{"id": "C12", "title": "map equality is extensional", "statement": "a == b on maps/sets holds exactly when both contain pairwise equal elements in order, and a != b is its negation, independently of the tree shapes and histories that produced them.", "quantifier": "every pair of reachable states", "why_tests_cant": "different histories give different shapes for equal contents", "anchors": ["ttl/map.hpp: operator==", "ttl/set.hpp: operator==", "ttl/algorithm.hpp: equal"]}
{"id": "C13", "title": "a map keeps keys unique under its own Compare", "statement": "After any history of insert, no two elements of a map/set are equivalent under its Compare (neither less than the other).", "quantifier": "every strict weak order Compare, every history", "why_tests_cant": "quantifies over all comparators, including ones coarser than ==", "anchors": ["ttl/rbtree.hpp: insert_unique, find", "ttl/map.hpp: insert"]}
{"id": "C14", "title": "vector refines the abstract sequence over every history", "statement": "After any history of push_back, pop_back, insert (one, n copies, range), erase (one element or a non-empty range), resize, assign, reserve, clear and copy on a vector, within their documented preconditions, the contents equal the abstract sequence driven by the same calls, returned iterators denote the position the standard prescribes, size/empty/front/back/operator[] agree, and no undefined behaviour occurs.", "quantifier": "every element type, value, position and history", "why_tests_cant": "infinite histories, sizes and positions; shifting and reallocation branches depend on capacity history", "anchors": ["ttl/vector.hpp: insert_values, erase, push_back, pop_back, resize, assign, reserve, clear, operator="]}
{"id": "C15", "title": "vector element lifetimes are exact", "statement": "At every point between calls, exactly the slots [begin,end) hold live objects and [end, begin+capacity) hold none; constructors only run on raw slots, destructors only on live ones, buffers are released only after all their objects are destroyed, and the destructor leaves no live object: every element constructed is destroyed exactly once.", "quantifier": "every element type with non-trivial lifetime, every history of valid calls", "why_tests_cant": "a leak or double destruction on one path is invisible to value-based tests", "anchors": ["ttl/vector.hpp: insert_values, erase, reserve, clear, ~vector"]}
{"id": "C16", "title": "vector erase of an empty range is a no-op", "statement": "v.erase(p, p) leaves the sequence, and the lifetime of every element, unchanged and returns p.", "quantifier": "every vector state and every position p in [begin,end]", "why_tests_cant": "all states and positions; for trivially destructible types the defect is invisible", "anchors": ["ttl/vector.hpp: erase(first,last)", "ttl/fixed_vector.hpp: erase(first,last)"]}
{"id": "C17", "title": "vector::push_back and insert accept references to their own elements", "statement": "v.push_back(v[i]) appends a copy of the current v[i], and v.insert(pos, v[i]) / insert(pos, n, v[i]) insert copies of the value v[i] had before the call, whether or not the call reallocates.", "quantifier": "every state, position and aliased index", "why_tests_cant": "depends on capacity and on the relative order of pos and the aliased element", "anchors": ["ttl/vector.hpp: push_back, insert, insert_values, vc_counter"]}
{"id": "C18", "title": "vector capacity, reserve and invalidation", "statement": "size() <= capacity() always; reserve(n) makes capacity() >= n, never decreases it and keeps the contents; while size() does not exceed the capacity, push_back and insert at the end neither reallocate nor change existing elements.", "quantifier": "every state and every n within the address range", "why_tests_cant": "an invariant of all histories", "anchors": ["ttl/vector.hpp: reserve, capacity, insert_values, push_back"]}
{"id": "C19", "title": "fixed_vector never exceeds its storage", "statement": "For every N and every history of calls (including over-long push_back, insert, resize, assign and constructors), size() <= N and no slot outside the N-element storage is ever constructed, read, written or destroyed.", "quantifier": "every capacity N, every history of calls with in-range iterators, every count that does not overflow the address space", "why_tests_cant": "memory safety over all histories and all N", "anchors": ["ttl/fixed_vector.hpp: push_back, insert, resize, assign, constructors, erase, clear, full"]}
{"id": "C20", "title": "fixed_vector keeps the first N elements of the sequence the standard vector would hold", "statement": "push_back, insert, resize, assign and the constructors leave exactly the first N elements of the sequence std::vector would contain after the same call: the tail that does not fit is dropped, nothing else is lost or reordered, and element lifetimes stay exact.", "quantifier": "every N, state, position and inserted sequence", "why_tests_cant": "the truncation boundary interacts with position, count and fill level", "anchors": ["ttl/fixed_vector.hpp: insert (both overloads), push_back, resize, assign, erase, operator="]}
{"id": "C21", "title": "fixed_vector::swap exchanges the contents", "statement": "a.swap(b) leaves a with the former contents of b and b with those of a, whichever is longer, touching only live elements.", "quantifier": "every pair of states of equal capacity N", "why_tests_cant": "all pairs of sizes; tests only try one order", "anchors": ["ttl/fixed_vector.hpp: swap", "ttl/algorithm.hpp: swap_ranges"]}
{"id": "C22", "title": "forward_list refines the abstract sequence over every history", "statement": "After any history of push_front, pop_front, insert_after (one, n, range), erase_after (one, range), assign, clear, reverse, swap and copy on forward_lists, the contents equal the abstract sequence, surviving elements keep their addresses, returned iterators denote the prescribed position, every removed node is freed exactly once and the destructor frees the rest.", "quantifier": "every value type, every history with valid iterators, every allocator", "why_tests_cant": "infinite histories and pointer shapes", "anchors": ["ttl/forward_list.hpp: push_front, pop_front, insert_after, erase_after, assign, clear, reverse, swap, operator=, ~forward_list", "ttl/slist_node.hpp: insert_after, unlink_next, reverse"]}
{"id": "C23", "title": "forward_list::splice_after moves exactly the designated elements", "statement": "splice_after(pos, other), (pos, other, it) and (pos, other, first, last) move, without copying, exactly the elements of other / after it / strictly between first and last to after pos, keep all other elements of both lists in order, and do nothing when the designated range is empty or already in place.", "quantifier": "every pair of lists, every valid position and range including empty ones and pos == it, pos == ++it", "why_tests_cant": "all ranges, including degenerate ones, over all list shapes", "anchors": ["ttl/forward_list.hpp: splice_after", "ttl/slist_node.hpp: splice_after"]}
{"id": "C24", "title": "backward_list refines the abstract sequence over every history", "statement": "After any history of push_front, push_back, pop_front, insert_after, erase_after, assign, copy, clear, reverse and swap, the backward_list contains the abstract sequence, empty() tells whether it is empty, back() is the last element and push_back appends at the end.", "quantifier": "every value type and every history", "why_tests_cant": "the cached tail pointer must be right after every operation in every order", "anchors": ["ttl/backward_list.hpp: push_front, push_back, pop_front, insert_after, erase_after, clear, reverse, swap, empty, back"]}
{"id": "C25", "title": "lazy_queue refines the abstract sequence over every history", "statement": "After any history of push_back, push_front, pop_front, insert_after (one, n, range), erase_after (one, range), clear, roll_head, assignment from another queue and copy, the queue contains the abstract sequence (FIFO for push_back/pop_front), empty/front/back agree and no undefined behaviour occurs.", "quantifier": "every value type and every history with valid iterators", "why_tests_cant": "tail pointer and node pool depend on the whole history", "anchors": ["ttl/lazy_queue.hpp: push_back, push_front, pop_front, insert_after, erase_after, clear, roll_head, get_node, put_node"]}
{"id": "C26", "title": "lazy_queue pools nodes: allocation only when the pool is empty, no node is ever lost", "statement": "Each insertion takes a pooled node if one exists and allocates only otherwise; each removal returns its node to the pool and frees nothing; hence the number of nodes owned equals the maximum number of simultaneously stored elements since the last cleanup and no node is in both lists.", "quantifier": "every history", "why_tests_cant": "conservation of nodes is an invariant of all histories", "anchors": ["ttl/lazy_queue.hpp: get_node, put_node, pop_front, erase_after, clear"]}
{"id": "C27", "title": "lazy_queue cleanup and destruction destroy each stored value exactly once", "statement": "Every value put in a lazy_queue is destroyed exactly once over the life of the queue, including values removed before cleanup() or before the destructor runs.", "quantifier": "every history ended by cleanup() or destruction", "why_tests_cant": "object lifetime errors are invisible to value-based tests of trivially destructible types", "anchors": ["ttl/lazy_queue.hpp: put_node, cleanup, ~lazy_queue"]}
{"id": "C28", "title": "swap exchanges single-linked lists that cache a tail pointer", "statement": "a.swap(b) on backward_list / lazy_queue exchanges the contents and leaves both containers fully usable (push_back appends at the end of the right list).", "quantifier": "every pair of states, including empty ones", "why_tests_cant": "requires every later operation on either list to be correct", "anchors": ["ttl/lazy_queue.hpp: swap", "ttl/backward_list.hpp: swap"]}
{"id": "C29", "title": "list refines the abstract sequence over every history", "statement": "After any history of push_front, push_back, pop_front, pop_back, insert (one, n, range), erase(pos), remove, remove_if, unique, reverse, growing resize and copy construction, a list contains the abstract sequence forwards and, walking back from end(), its reverse; size/empty/front/back agree, surviving elements keep their addresses, removed nodes are freed exactly once.", "quantifier": "every value type, predicate and history with valid iterators, every allocator", "why_tests_cant": "infinite histories; both link directions must agree after each", "anchors": ["ttl/list.hpp: list_node::insert_before, unlink, reverse; push_*, pop_*, insert, erase(pos), remove, remove_if, unique, size, resize"]}
{"id": "C30", "title": "list is reusable after clear", "statement": "After clear(), assign or assignment on a list, the list is a well-formed list again: it can be appended to, iterated and cleared without undefined behaviour, i.e. clear() is indistinguishable from a fresh empty list.", "quantifier": "every state before clear and every history after it", "why_tests_cant": "the broken back link only matters to later operations, and reading freed memory usually goes unnoticed", "anchors": ["ttl/list.hpp: clear, operator=, assign"]}
{"id": "C31", "title": "list::erase(first,last) removes exactly [first,last)", "statement": "erase(first, last) removes exactly the elements in [first, last), returns last, and erase(p,p) is a no-op.", "quantifier": "every list and every valid range, including empty and whole-list ranges", "why_tests_cant": "all ranges over all lists", "anchors": ["ttl/list.hpp: erase(pos,last)"]}
{"id": "C32", "title": "list::splice moves exactly the designated elements", "statement": "splice(pos, other), (pos, other, it) and (pos, other, first, last) move, without copying, exactly the designated elements before pos, keep the order of everything else in both lists, and do nothing for an empty range or an element already in place.", "quantifier": "every pair of lists, every valid position and range including empty ranges and empty lists", "why_tests_cant": "all ranges, including degenerate ones", "anchors": ["ttl/list.hpp: list_node::splice, splice"]}
{"id": "C33", "title": "list::merge merges two sorted lists stably", "statement": "Merging two lists sorted under the comparator leaves the destination holding all elements of both, sorted, equivalent elements keeping their relative order with those of the destination first, the source empty, and no element copied or moved in memory.", "quantifier": "every pair of sorted lists and every strict weak order", "why_tests_cant": "all interleavings of two sorted sequences", "anchors": ["ttl/list.hpp: merge"]}
{"id": "C34", "title": "list::swap exchanges the contents", "statement": "a.swap(b) exchanges the contents of two distinct lists, including when one or both are empty, and leaves both well formed.", "quantifier": "every pair of list states", "why_tests_cant": "all four emptiness combinations and later use", "anchors": ["ttl/list.hpp: list_node::swap, swap"]}
{"id": "C35", "title": "list::resize sets the size", "statement": "resize(n, x) leaves the first min(size, n) elements unchanged and gives the list exactly n elements, the new ones being copies of x.", "quantifier": "every state and every n, including 0", "why_tests_cant": "boundary values of n relative to size over all lists", "anchors": ["ttl/list.hpp: resize"]}
{"id": "C36", "title": "vector_map behaves as an insertion-ordered map over every history", "statement": "After any history of insert and operator[], vector_map holds each key once, in order of first insertion; insert returns the position of the key and whether it was new and never overwrites; find returns the entry with the key or end(); operator[] yields the stored value, creating a default one at the end if absent.", "quantifier": "every key/value type with decidable ==, every history", "why_tests_cant": "infinite histories", "anchors": ["ttl/vector_map.hpp: insert, operator[], find, find_key, at", "ttl/vector.hpp: insert_values"]}
{"id": "C37", "title": "vector_map::count terminates and counts the key", "statement": "count(k) returns the number of entries whose key equals k.", "quantifier": "every state and key", "why_tests_cant": "non-termination on every state containing the key", "anchors": ["ttl/vector_map.hpp: count, find_key"]}
{"id": "C38", "title": "sorted_vector_map behaves as an ordered finite map over every history", "statement": "After any history of insert, operator[] and clear on a sorted_vector_map not constructed with preallocation 1, its entries are those of the abstract map in strictly ascending key order; insert reports and preserves as std::map does; find, lower_bound, upper_bound and size agree with the abstract map; equal_range delimits exactly the entries with an equal key; lookups make at most log2(n)+1 probes; no access leaves the pointer array; find makes at most 4 (log2 n + 2) + 2 memory accesses.", "quantifier": "every strict weak order consistent with ==, every history shorter than 2^32 elements", "why_tests_cant": "infinite histories; binary search boundaries over all sizes", "anchors": ["ttl/sorted_vector_map.hpp: bsearch, find, find_insert_pos, insert_before, insert, operator[], lower_bound, upper_bound, equal_range"]}
{"id": "C39", "title": "sorted_vector_map grows safely from any preallocation", "statement": "Inserting into a sorted_vector_map never writes past its pointer array, whatever preallocation size it was constructed with.", "quantifier": "every preallocation size and every history", "why_tests_cant": "all capacities; growth is computed by an arithmetic rule with a fixed point", "anchors": ["ttl/sorted_vector_map.hpp: insert_before, sorted_vector_map(size_type)"]}
{"id": "C40", "title": "sorted_vector_map::count is 1 iff the key is present", "statement": "count(k) is 1 when k is present and 0 otherwise.", "quantifier": "every state and key", "why_tests_cant": "every state", "anchors": ["ttl/sorted_vector_map.hpp: count"]}
{"id": "C41", "title": "sorted_vector_map references stay valid across insertion", "statement": "Pointers and references to stored entries remain valid and denote the same entry after any number of insertions; copies own separate entries and destruction frees every entry exactly once.", "quantifier": "every history", "why_tests_cant": "address stability across reallocation for all histories", "anchors": ["ttl/sorted_vector_map.hpp: insert_before, sorted_vector_map(const sorted_vector_map&), ~sorted_vector_map"]}
{"id": "C42", "title": "bitset bit operations act on exactly the addressed bits", "statement": "For every N, set(), set(p), reset(), reset(p), flip(), flip(p), operator[](p)=b, reference::flip, &=, |=, ^=, ~ and construction change test(i) for each i < N exactly as the corresponding boolean function prescribes and leave every other visible bit unchanged.", "quantifier": "every N, every word width, every bit pattern, every position p < N", "why_tests_cant": "2^N states for every N", "anchors": ["ttl/bitset.hpp: set, reset, flip, reference, operator&=, operator|=, operator^=, operator~, test, operator[]"]}
{"id": "C43", "title": "bitset observers depend only on the N visible bits", "statement": "count, any, all, none, ==, !=, to_ulong and test give the answers determined by the N visible bits, whatever the unused bits of the last word contain.", "quantifier": "every N >= 1, every word width, every content of the storage including the padding", "why_tests_cant": "padding contents depend on the history (set(), flip(), ~ fill them) and there are 2^capacity of them", "anchors": ["ttl/bitset.hpp: count, any, all, none, operator==, to_ulong, last_bits, last_slot_index"]}
{"id": "C44", "title": "bitset shifts move bits by exactly the given distance", "statement": "(b << s).test(i) is b.test(i - s) for s <= i < N and false for i < s; (b >> s).test(i) is b.test(i + s) when i + s < N and false otherwise; <<= and >>= store the same result.", "quantifier": "every N, content and shift distance including s >= N", "why_tests_cant": "all distances across word boundaries", "anchors": ["ttl/bitset.hpp: operator<<, operator>>, operator<<=, operator>>="]}
{"id": "C45", "title": "bitset::set(pos, value) assigns the bit", "statement": "set(p, v) makes test(p) == v and leaves the other bits unchanged.", "quantifier": "every N, content, p < N and both values", "why_tests_cant": "needs both values on both prior states", "anchors": ["ttl/bitset.hpp: set(pos,value)"]}
{"id": "C46", "title": "bitset reference-to-reference assignment copies one bit", "statement": "b[i] = b2[j] makes b.test(i) equal to b2.test(j) and leaves the other bits of b unchanged.", "quantifier": "every N, contents and positions", "why_tests_cant": "other bits of the same word are involved", "anchors": ["ttl/bitset.hpp: reference::operator=(const reference&)"]}
{"id": "C47", "title": "bitset conversion between sizes copies the common bits", "statement": "Constructing or assigning bitset<N> from bitset<M> gives test(i) == other.test(i) for i < min(N,M) and false for M <= i < N.", "quantifier": "every N, M and content", "why_tests_cant": "depends on padding bits of the source, which tests do not look at", "anchors": ["ttl/bitset.hpp: operator=(const bitset<M>&), bitset(const bitset<M>&)"]}
{"id": "C48", "title": "bitset construction from integer and string round-trips", "statement": "bitset<N>(u).to_ulong() == u mod 2^min(N,W); a string of length n <= N of zero/one characters puts character k at bit n-1-k and clears the rest; parsing stops at the first other character.", "quantifier": "every N >= 1, integer, string over any two characters, and length", "why_tests_cant": "all strings and widths", "anchors": ["ttl/bitset.hpp: bitset(unsigned long), bitset(const char*,...), to_ulong"]}
{"id": "C49", "title": "searching algorithms return the first match", "statement": "find, find_if, find_if_not, adjacent_find return the first position satisfying their condition or last; all_of/any_of/none_of/count/count_if agree with it; no element outside [first,last) is read.", "quantifier": "every range, value and predicate", "why_tests_cant": "all ranges and all match positions", "anchors": ["ttl/algorithm.hpp: find, find_if, find_if_not, adjacent_find, all_of, any_of, none_of, count, count_if"]}
{"id": "C50", "title": "search finds the first occurrence of a subsequence", "statement": "search returns the first position where the whole pattern occurs contiguously, first for an empty pattern, last if there is none, and never reads outside either range.", "quantifier": "every text, pattern and predicate", "why_tests_cant": "all overlaps of text and pattern", "anchors": ["ttl/algorithm.hpp: search"]}
{"id": "C51", "title": "search_n finds the first run of count matching elements", "statement": "search_n(first,last,count,value[,pred]) returns the first position starting count consecutive elements matching value (under pred in the predicate version), first when count <= 0, last if there is none.", "quantifier": "every range, count, value and predicate", "why_tests_cant": "the skip after a failed run must never jump over a match, for all runs", "anchors": ["ttl/algorithm.hpp: search_n"]}
{"id": "C52", "title": "binary searches return the partition points", "statement": "On a range of at most 2^31-1 elements partitioned with respect to value, lower_bound/upper_bound return the partition point, equal_range both, binary_search tells whether an equivalent element exists, using at most floor(log2 n)+1 probes, all inside the range.", "quantifier": "every partitioned range up to the int limit, every value and comparator", "why_tests_cant": "all sizes and positions", "anchors": ["ttl/algorithm.hpp: lower_bound, upper_bound, binary_search, equal_range"]}
{"id": "C53", "title": "binary searches work on ranges of any length", "statement": "lower_bound returns the partition point of every partitioned random access range, whatever its length.", "quantifier": "every length representable in ptrdiff_t", "why_tests_cant": "needs ranges of more than 2^31 elements", "anchors": ["ttl/algorithm.hpp: lower_bound (int count)"]}
{"id": "C54", "title": "merge produces the stable sorted union", "statement": "merge writes the sorted, stable merge of two sorted ranges to the output (elements of the first range before equivalent ones of the second) and returns its end.", "quantifier": "every pair of sorted ranges, every strict weak order", "why_tests_cant": "all interleavings", "anchors": ["ttl/algorithm.hpp: merge, copy"]}
{"id": "C55", "title": "remove and remove_if compact the kept elements", "statement": "remove/remove_if move the elements not matching to the front in their original order and return the end of them; remove_copy/copy_if write exactly the kept elements.", "quantifier": "every range, value and predicate", "why_tests_cant": "all patterns of matches", "anchors": ["ttl/algorithm.hpp: remove, remove_if, remove_copy, remove_copy_if, copy_if"]}
{"id": "C56", "title": "copying and in-place algorithms compute their specification on overlapping memory where the standard allows it", "statement": "copy (destination not inside the source range), copy_backward (destination end not inside), reverse, reverse_copy, swap_ranges, fill, fill_n, copy_n, generate, replace*, transform, iota leave exactly the prescribed values in the destination and change nothing else; the returned iterators are the prescribed ends.", "quantifier": "every memory content, range and overlap allowed by the standard", "why_tests_cant": "all lengths and overlaps", "anchors": ["ttl/algorithm.hpp: copy, copy_backward, reverse, reverse_copy, swap_ranges, fill, fill_n, copy_n, generate, replace, transform", "ttl/numeric.hpp: iota, accumulate"]}
{"id": "C57", "title": "comparison algorithms", "statement": "equal (three and four iterator forms) and mismatch decide element-wise equality and find the first differing position; the four-iterator form is true iff lengths and all elements agree; ranges are never overread.", "quantifier": "every pair of ranges and predicate", "why_tests_cant": "all length combinations", "anchors": ["ttl/algorithm.hpp: equal, mismatch"]}
{"id": "C58", "title": "minimum and maximum", "statement": "min/max/minmax return the two arguments in order; min_element and max_element return the first smallest / first largest element of a non-empty range and last for an empty one; is_sorted_until returns the end of the longest sorted prefix and is_sorted decides sortedness.", "quantifier": "every arguments/range and strict weak order", "why_tests_cant": "all ranges", "anchors": ["ttl/algorithm.hpp: min, max, minmax, min_element, max_element, minmax_element, is_sorted_until, is_sorted"]}
{"id": "C59", "title": "array is a fixed-size value sequence", "statement": "fill sets all N elements, swap exchanges the contents element-wise, == compares all N elements, front/back/at address the first/last/i-th element, for every N including 0 for the size-0 safe operations.", "quantifier": "every N and contents", "why_tests_cant": "every N", "anchors": ["ttl/array.hpp: fill, swap, operator==, front, back, at", "ttl/algorithm.hpp: fill_n, swap_ranges, equal"]}
{"id": "C60", "title": "list::remove accepts an element of the list itself", "statement": "l.remove(x), where x is a reference to an element of l, removes exactly the elements that were equal to x when the call was made, without undefined behaviour.", "quantifier": "every list and every element of it", "why_tests_cant": "the aliased node is read after it was freed, which usually goes unnoticed; it must hold for every position and every pattern of equal elements", "anchors": ["ttl/list.hpp: remove"]}
{"id": "C61", "title": "sorted_vector_map::equal_range is [lower_bound, upper_bound)", "statement": "equal_range(k) is the pair (lower_bound(k), upper_bound(k)), for present and absent keys.", "quantifier": "every state and key", "why_tests_cant": "every state and every gap between stored keys", "anchors": ["ttl/sorted_vector_map.hpp: equal_range, lower_bound, upper_bound"]}
{"id": "C62", "title": "sorted_vector_map lookups work for every number of entries", "statement": "find, lower_bound, upper_bound, count, at and operator[] are correct for every number of entries size_t can represent.", "quantifier": "every state, including more than 2^32 entries on an LP64 platform", "why_tests_cant": "the binary search computes in unsigned; the sizes at which this matters do not fit in a test", "anchors": ["ttl/sorted_vector_map.hpp: bsearch"]}
{"id": "C63", "title": "bitset operations stay inside initialised storage", "statement": "No constructor or operation of bitset<N> reads a word that was never written or accesses storage outside the object: default, copy, converting, integer and string construction for every N, and every operation with a position p < N.", "quantifier": "every N, every initial content of the storage, every program", "why_tests_cant": "uninitialised contents and neighbouring objects are invisible to a passing test", "anchors": ["ttl/bitset.hpp: bitset(const char*,...), bitset(unsigned long), set, reset, flip, operator[]"]}
{"id": "C64", "title": "bitset<0> behaves as an empty set of bits", "statement": "For bitset<0>: any() is false, none() is true, all() is true, count() is 0, test(p) is false, to_ulong() and to_ullong() are 0, and two of them are equal.", "quantifier": "every state and position", "why_tests_cant": "the specialisations are separate code", "anchors": ["ttl/bitset.hpp: bitset<0> specialisations, lines 374-400"]}
{"id": "C65", "title": "a value argument may be an element of the range", "statement": "find, count, search_n, the binary searches, fill, fill_n, replace and remove may be given a reference to an element of the range they work on; the result is the one for the value that element had when the call was made.", "quantifier": "every range, every element of it", "why_tests_cant": "the element may be overwritten during the call, at a position that depends on the contents", "anchors": ["ttl/algorithm.hpp: find, count, search_n, lower_bound, fill, fill_n, replace, replace_if, remove"]}
{"id": "C66", "title": "ties are broken as in the standard library", "statement": "For equivalent arguments min and max return the first one and minmax returns (first, second); min_element and max_element return the first smallest / first largest element, and minmax_element returns the first smallest and the last largest element.", "quantifier": "every range, arguments and strict weak order", "why_tests_cant": "needs distinguishable equivalent elements in all positions", "anchors": ["ttl/algorithm.hpp: min, max, minmax, min_element, max_element, minmax_element"]}
{"id": "C67", "title": "counts and distances are right for ranges of any length", "statement": "count and count_if return the number of matching elements, and distance(first,last) the number of increments from first to last, for every range whose length is representable in ptrdiff_t.", "quantifier": "every range, including more than INT_MAX elements", "why_tests_cant": "needs ranges of more than 2^31 elements", "anchors": ["ttl/algorithm.hpp: count, count_if", "ttl/utility.hpp: distance"]}
{"id": "C68", "title": "less, greater and equal_to order every totally ordered type", "statement": "For a key type whose <, >, ==, != are those of a total order, less<T> and greater<T> are orders as map and set require them, with equal_to<T> the matching equality and not_equal_to<T> its negation; a set with less keeps its keys in ascending, one with greater in descending order after every history.", "quantifier": "every totally ordered type, every history of set operations", "why_tests_cant": "all element types and unbounded histories", "anchors": ["ttl/functional.hpp: less, greater, equal_to, not_equal_to", "ttl/set.hpp: set"]}
{"id": "C69", "title": "pair is a value with two members", "statement": "Constructing (default, from two values, by copy, by conversion, make_pair), assigning (also to itself and from another pair type) and swapping (also with itself) pairs transfer both members and change no other object; == holds exactly when both members are equal and != is its negation.", "quantifier": "all member types and values, all aliasing of the operands", "why_tests_cant": "all types, values and aliasings", "anchors": ["ttl/utility.hpp: pair, make_pair, swap, operator==, operator!="]}
{"id": "C70", "title": "remove_const, remove_volatile, remove_cv, remove_reference and move change exactly what they say", "statement": "remove_const<T>::type (remove_volatile, remove_cv) is T without const (volatile, both) at its top level - for arrays, of the elements - and otherwise T; remove_reference takes away one & or &&; move on an expression of type T returns T&& (T& before C++11).", "quantifier": "every C++ type", "why_tests_cant": "infinitely many types", "anchors": ["ttl/type_traits.hpp: remove_const, remove_volatile, remove_cv, remove_reference", "ttl/utility.hpp: move"]}
{"id": "C71", "title": "is_same, is_const and is_volatile are exact", "statement": "is_same<T,U> is true exactly for the same type; is_const<T> (is_volatile<T>) is true exactly when T is const (volatile) qualified, false for all other types for which it can be instantiated: all but rvalue references and function types with qualifiers, for which the program is ill-formed.", "quantifier": "every C++ type", "why_tests_cant": "infinitely many types", "anchors": ["ttl/type_traits.hpp: is_same, is_const_value, is_const, is_volatile_value, is_volatile"]}
{"id": "C72", "title": "the type categories are exact, cv-independent and disjoint", "statement": "is_void, is_integral, is_floating_point, is_arithmetic, is_fundamental, is_signed, is_unsigned are true exactly for the types listed in the header in any cv-qualification, is_pointer and is_array exactly for pointers and arrays, is_scalar exactly for arithmetic types and pointers; the primary categories exclude each other.", "quantifier": "every C++ type, every signedness of char and wchar_t", "why_tests_cant": "infinitely many types and several platforms", "anchors": ["ttl/type_traits.hpp: is_void, is_integral, is_floating_point, is_arithmetic, is_fundamental, is_signed, is_unsigned, is_pointer, is_scalar, is_array"]}
{"id": "C73", "title": "containers can be read by several threads at the same time", "statement": "While any number of threads only look at a container (const member functions, the accessors that return references, iteration in both directions, lookups, comparison) and no thread changes it, there is no data race and no undefined behaviour, every thread terminates and observes exactly what it would have observed alone, and the container is unchanged afterwards - whatever the containers' history, the number of threads and the schedule.", "quantifier": "every container kind, history before the threads start, number of threads, sequence of read-only calls per thread, and interleaving of their memory accesses", "why_tests_cant": "the number of interleavings is astronomical and a race or a hidden write in a const function shows up only under some of them", "anchors": ["ttl/map.hpp, ttl/set.hpp, ttl/rbtree.hpp: find, count, lower_bound, begin, end, operator++, operator--, operator==", "ttl/forward_list.hpp, ttl/backward_list.hpp, ttl/lazy_queue.hpp, ttl/list.hpp, ttl/vector.hpp, ttl/fixed_vector.hpp, ttl/vector_map.hpp, ttl/sorted_vector_map.hpp: the const member functions"]}
{"id": "C74", "title": "threads working on their own containers do not interfere", "statement": "Threads that construct, use and destroy containers of their own - even of the same type, sharing the global new/delete whose addresses may be recycled between the threads in any way - never race, never access each other's memory, and each observes exactly what it would have observed alone; at the end all their memory has been released.", "quantifier": "every container kind, number of threads, history per thread, interleaving, and every choice of addresses by new (depending on anything)", "why_tests_cant": "the interleavings and the allocator's choices cannot be enumerated; hidden shared state (static sentinels, caches) is visible only under some of them", "anchors": ["ttl/*.hpp containers: constructors, destructors and all member functions; no static data members or function-local statics with state"]}
{"id": "C75", "title": "map, set and tree calls accept references to keys and values of stored elements", "statement": "The arguments of erase, find, count, lower_bound, operator[], insert and insert_equal are references. When the argument refers to the key or value of an element that is stored in this container (c.erase(it->first), c.insert(*it)) or in another one, the call has the same effect as with a copy of it: erase removes exactly that element and never reads it after its node was released, insert finds it, insert_equal adds a copy of it, the others keep their nodes.", "quantifier": "every well-formed container, every element of it (or of another container), every consistent key order", "why_tests_cant": "whether a node is still alive and unchanged whenever the key is read again depends on the tree shape and the rotations on the way", "anchors": ["ttl/rbtree.hpp: remove, insert_unique, insert_equal, find, count, lower_bound", "ttl/map.hpp: erase, insert, operator[]", "ttl/set.hpp: erase, insert"]}
{"id": "C76", "title": "elements created by a size argument are value-initialised", "statement": "The elements that vector::resize(n), fixed_vector::resize(n) and list::resize(n) add have the value T() - zero for arithmetic and pointer types.", "quantifier": "every container state, every n, every element type", "why_tests_cant": "fresh memory is often zero, so a test usually sees the right value by accident", "anchors": ["ttl/vector.hpp: resize, vector(size_type)", "ttl/fixed_vector.hpp: resize, fixed_vector(size_type)", "ttl/list.hpp: node::node, resize"]}
{"id": "C77", "title": "elements of a fixed_vector are suitably aligned", "statement": "Every element of a fixed_vector<T,N> lies at an address that is a multiple of alignof(T), wherever the fixed_vector object is placed in accordance with its own alignment.", "quantifier": "every size and alignment of T, every N, every admissible address of the object, every element", "why_tests_cant": "the place of the object is chosen by the compiler and the stack depth; most architectures do not trap", "anchors": ["ttl/fixed_vector.hpp: bytes_, elements, end_of_elements"]}
{"id": "C78", "title": "vector honours every size argument", "statement": "vector(n), vector(n, x) and insert(pos, n, x) with any size_t n either create n elements inside storage large enough for them or fail; they neither allocate too little nor ignore the request.", "quantifier": "every width of size_t, element size and n of type size_t", "why_tests_cant": "the relevant n are far beyond what a test can allocate", "anchors": ["ttl/vector.hpp: vector(size_type), vector(size_type, const value_type &), reserve, insert, insert_values"]}
{"id": "C79", "title": "containers survive failed allocations", "statement": "In a program compiled with exceptions, every call on a forward_list, list, set, map, vector or vector_map may throw at any of its allocations; if the client catches the exception and goes on, there is never undefined behaviour, every later call observes what the contents prescribe, the contents after the throw are those of the documented prefix of the operation, other containers are untouched, and when the containers are destroyed no memory is left.", "quantifier": "every sequence of calls on two containers, every subset of calls that throw, every allocation inside a call at which it throws, every contents and every choice of addresses", "why_tests_cant": "tests do not make the n-th allocation fail for every n of every history", "anchors": ["ttl/forward_list.hpp", "ttl/list.hpp", "ttl/rbtree.hpp", "ttl/set.hpp", "ttl/map.hpp", "ttl/vector.hpp", "ttl/vector_map.hpp"]}
{"id": "C80", "title": "single-element insertions are all-or-nothing", "statement": "A call that inserts one element (push_front, push_back, insert, insert_after, map::insert, set::insert, map::operator[]) and vector's insert, resize and reserve either succeed or throw and leave the container, its members and its memory exactly as before; a map or set throws only if the key is not there yet.", "quantifier": "every contents, position, value, and whether the allocation fails", "why_tests_cant": "needs a failing allocation in every state", "anchors": ["ttl/forward_list.hpp: push_front, insert_after", "ttl/backward_list.hpp: push_back, push_front, insert_after", "ttl/lazy_queue.hpp: push_back, push_front, insert_after", "ttl/list.hpp: insert", "ttl/rbtree.hpp: insert_unique", "ttl/map.hpp: operator[]", "ttl/vector.hpp: push_back, insert, resize, reserve"]}
{"id": "C81", "title": "erasing, clearing, destroying, swapping, splicing, searching never throw", "statement": "Calls that remove elements, clear, destroy, swap, reverse, splice or search request no memory: they cannot throw, whatever the state of the allocator.", "quantifier": "every contents, position and key; every state of the allocator", "why_tests_cant": "absence of allocation on every path", "anchors": ["ttl/forward_list.hpp", "ttl/backward_list.hpp", "ttl/lazy_queue.hpp", "ttl/list.hpp", "ttl/rbtree.hpp"]}
{"id": "C82", "title": "a constructor or assignment that throws leaks nothing", "statement": "A constructor or copy assignment that runs out of memory leaves the source unchanged and no memory that nothing refers to.", "quantifier": "every number of elements, every contents, every allocation at which it throws", "why_tests_cant": "needs a failing allocation at every point of the construction, with leak detection", "anchors": ["ttl/forward_list.hpp: forward_list(size_type, const T &)", "ttl/rbtree.hpp: assign, preorder_copy", "ttl/vector.hpp: vector(const vector &)"]}
{"id": "C83", "title": "sorted_vector_map survives a failed insertion", "statement": "When an insertion into a sorted_vector_map runs out of memory, the map is left as it was, can be used and destroyed, and nothing is leaked; inserting a key that is present requests no memory.", "quantifier": "every contents, capacity, key, and every allocation at which it throws", "why_tests_cant": "needs a failing allocation at every insertion point, with leak and double-delete detection", "anchors": ["ttl/sorted_vector_map.hpp: insert, insert_before, clear"]}
{"id": "C84", "title": "backward_list survives a failed multi-element insertion", "statement": "When insert_after(pos, n, value) or insert_after(pos, first, last) of a backward_list runs out of memory, the list holds its elements and a prefix of the new ones, and push_back and back still act on its last element.", "quantifier": "every contents, position, number of values, and every allocation at which it throws", "why_tests_cant": "needs a failing allocation at every point of every insertion", "anchors": ["ttl/backward_list.hpp: insert_after, push_back, back"]}
{"id": "C85", "title": "lazy_queue needs memory only when no spare node is left", "statement": "As long as a lazy_queue has spare nodes (from erased or cleared elements), inserting elements requests no memory and cannot throw; after clear() it takes as many elements as it held. If an insertion of several values does run out of memory, the queue holds its elements and the first of the new ones and stays usable.", "quantifier": "every contents, number of spare nodes, position, values, and every allocation at which it throws", "why_tests_cant": "absence of allocation on every path; needs a failing allocation at every point", "anchors": ["ttl/lazy_queue.hpp: get_node, push_back, push_front, insert_after, clear"]}
{"id": "C86", "title": "positional list operations take constant time", "statement": "insert, push_front, push_back, erase, pop_front, pop_back, splice (of one element, a range or a whole list) and swap of list; push_front, pop_front, insert_after, erase_after, splice_after of one element and swap of forward_list; the same and push_back and back() of backward_list and lazy_queue, and lazy_queue roll_head; element access and pop_back of vector: each makes at most a fixed number of memory accesses (a read, a write, a new or a delete of one cell), stated per call, whatever the number of elements.", "quantifier": "every container state of any size, every position, every allocator", "why_tests_cant": "a bound that holds for all sizes; a benchmark samples a few", "anchors": ["ttl/list.hpp", "ttl/forward_list.hpp", "ttl/backward_list.hpp", "ttl/lazy_queue.hpp", "ttl/vector.hpp"]}
{"id": "C87", "title": "whole-container operations take linear time", "statement": "remove, remove_if, unique, reverse, merge, copy, clear and destruction of list; range erasure, reverse, copy, clear, == and destruction of the single-linked lists and the queue; insert, erase, reserve, copy, assignment, clear and destruction of vector; find of vector_map; insert, operator[], copy and destruction of sorted_vector_map; copy, assignment, clear and destruction of map and set: each makes at most a n + b memory accesses, where n is the number of elements involved (the capacity for insertion in a sorted_vector_map) and a, b are stated per call.", "quantifier": "every container state of any size, every argument, every allocator", "why_tests_cant": "a bound that holds for all sizes", "anchors": ["ttl/list.hpp", "ttl/forward_list.hpp", "ttl/backward_list.hpp", "ttl/lazy_queue.hpp", "ttl/vector.hpp", "ttl/vector_map.hpp", "ttl/sorted_vector_map.hpp", "ttl/rbtree.hpp: postorder_destroy, preorder_copy"]}
{"id": "C88", "title": "vector::push_back takes amortised constant time", "statement": "A sequence of n push_back calls on a vector makes O(n) memory accesses.", "quantifier": "every vector state and every n", "why_tests_cant": "asymptotic: all n", "anchors": ["ttl/vector.hpp: push_back, insert_values"]}
{"id": "C89", "title": "algorithms call the client's function objects as documented", "statement": "Each algorithm applies the predicate, comparison, operation (or operator== / operator< of the elements) the documented number of times, in element order and with the documented argument order: exactly once per element for count, copy_if, remove_if, replace, transform, ...; once per element up to the deciding one for find, all_of, equal, mismatch, adjacent_find, is_sorted, ...; at most n*m for search, n for search_n, n-1 for min_element, n1+n2-1 for merge, floor(log2 n)+1 for lower_bound and upper_bound. The results follow from the answers even if the function object has a state.", "quantifier": "every range and memory, every function object with any state (answers depending arbitrarily on the calls so far), consistent or not", "why_tests_cant": "all ranges and all stateful function objects", "anchors": ["ttl/algorithm.hpp: find_if, count_if, search, search_n, adjacent_find, equal, mismatch, copy_if, remove_if, remove, replace_if, transform, lower_bound, upper_bound, binary_search, equal_range, merge, is_sorted_until, min_element, max_element"]}
{"id": "C90", "title": "minmax_element makes at most 3(n-1)/2 comparisons", "statement": "minmax_element on n elements applies operator< at most max(floor(3(n-1)/2), 0) times.", "quantifier": "every range and every operator<", "why_tests_cant": "all n and all orders", "anchors": ["ttl/algorithm.hpp: minmax_element"]}
{"id": "C91", "title": "walking over a whole set or map takes linear time", "statement": "Visiting all n elements of a set or map with ++ from begin() to end(), or with -- from end() to begin(), and comparing two of them with ==, makes a number of memory accesses that is linear in the number of elements (10n+2, 15n+2, 10(n+m)+6), although a single ++ or -- may need a number logarithmic in n.", "quantifier": "every set or map object, of every size and every shape of the tree its history produced", "why_tests_cant": "amortised bound over all tree shapes", "anchors": ["ttl/rbtree.hpp: next_node, prev_node, min_node, max_node", "ttl/set.hpp: iterator, begin, end, operator==", "ttl/map.hpp: iterator, begin, end, operator=="]}
{"id": "C92", "title": "vector and fixed_vector survive an element copy that throws", "statement": "When a copy of an element throws inside a member function of vector or fixed_vector and the client catches the exception, the container can still be destroyed: every object that was constructed is destroyed exactly once, no object that was never constructed is destroyed, and no memory is left over.", "quantifier": "every vector and fixed_vector object, every copying member function, every argument, every number of copies that succeed before the one that throws", "why_tests_cant": "the state left behind depends on which of the copies throws, on the contents and on the capacity", "anchors": ["ttl/vector.hpp: push_back, insert, erase, reserve, resize, assign, operator=, constructors", "ttl/fixed_vector.hpp: push_back, insert, erase, resize, assign, operator="]}
{"id": "C93", "title": "lazy_queue loses no node when an element copy throws", "statement": "When the copy of a value throws inside push_back, push_front or insert_after of a lazy_queue and the client catches the exception, the queue holds the elements it had (and, for the insertion of n values, those already inserted) and can be used and destroyed as before, and no node is lost.", "quantifier": "every lazy_queue object with any elements and any spare nodes, every position, every value (also one stored in the queue), every number of copies that succeed before the one that throws", "why_tests_cant": "which node is lost depends on the history of spare nodes and on which copy throws", "anchors": ["ttl/lazy_queue.hpp: get_node, push_back, push_front, insert_after"]}
{"id": "C94", "title": "list's remove, remove_if, unique and merge survive function objects and operators that throw or keep state", "statement": "remove, remove_if and unique of a list call operator== or their function object once per element, in order, and use each answer for that element only, so function objects with state work as expected. When the function object throws and the client catches the exception, the list is well formed: exactly the elements answered with true so far have been removed and freed, and the others keep their addresses and order. When the comparison of merge throws, both lists are well formed, a prefix of the source has moved into the destination, nothing is lost, and the destination is sorted if both lists were.", "quantifier": "every list of any length, every function object, whatever it answers and at whichever call it throws; every fuel large enough", "why_tests_cant": "an exception may come from any call, and the answers may depend on the history of calls", "anchors": ["ttl/list.hpp: remove, remove_if, unique, merge"]}
{"id": "C95", "title": "set and map survive a comparison that throws", "statement": "When Compare or the keys' == throws inside find, count, lower_bound, upper_bound, equal_range, insert, operator[] or at of a set or map and the client catches the exception, the container is exactly as it was before the call; range insertion has inserted a prefix of the range; erase has removed nothing. The container can then be used and destroyed as before: no later call loses an element or leaks a node.", "quantifier": "every set or map object with any number of elements, every key and value, every Compare that is a strict weak order where it does not throw, every call of Compare or == that throws; every fuel large enough", "why_tests_cant": "the exception may come from any comparison, and what erase has restructured by then depends on the shape of the whole tree", "anchors": ["ttl/rbtree.hpp: find, lower_bound, insert_unique, remove", "ttl/map.hpp: insert, erase, find, count, operator[], lower_bound, upper_bound, equal_range", "ttl/set.hpp: the same"]}
{"id": "C96", "title": "sorted_vector_map and vector_map survive a comparison that throws", "statement": "When Compare or the keys' == throws inside any member function of a sorted_vector_map or vector_map that compares keys (insert, operator[], at, find, count, and the bounds and equal_range of sorted_vector_map) and the client catches the exception, the container, every element and all other memory are exactly as before the call. A program that catches such exceptions and goes on observes what the same program without the throwing calls observes, and leaks nothing.", "quantifier": "every object and memory, every key and value, every program of calls on two containers, every choice of the comparisons that throw; every fuel", "why_tests_cant": "any comparison of any call in any history may throw", "anchors": ["ttl/sorted_vector_map.hpp: bsearch, find, find_insert_pos, insert, operator[], at, count, equal_range, lower_bound, upper_bound", "ttl/vector_map.hpp: find_key, find, at, operator[], insert, count"]}
{"id": "C97", "title": "algorithms with function objects that throw or keep state", "statement": "find_if, find_if_not, all_of, any_of, none_of, count_if, copy_if, remove_copy_if and replace_if call their function object at most once per element, in order, and use each answer for that element only, so function objects with state work as expected; the searching ones make no call after the one that decides. When the function object throws, everything the earlier calls selected has been done and nothing else has been written. remove_if keeps exactly the elements answered with false, in order, but asks a copy of the function object up to the first element to remove and the original, in its first state, about those behind it; when it throws, every cell of the range still holds an object and nothing outside is written.", "quantifier": "every memory and range of any length, every function object, whatever it answers and at whichever call it throws, every destination and overlap the algorithm allows; every fuel large enough", "why_tests_cant": "an exception may come from any call, and the answers may depend on the history of calls", "anchors": ["ttl/algorithm.hpp: find_if, find_if_not, count_if, all_of, any_of, none_of, copy_if, replace_if, remove_copy_if, remove_if"]}
