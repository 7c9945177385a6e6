{"id": "C01", "title": "unordered_flat_map/set behave like an abstract map", "statement": "Starting from an empty unordered_flat_map/unordered_node_map (or set), after any sequence of insert/emplace/try_emplace, insert_or_assign, operator[], erase(key), find, at, count, contains, clear, rehash, reserve and erase_if calls, every value returned by every call (inserted-or-not flag, found element, count, exception from at) and the final set of stored elements are exactly those of a mathematical finite map executing the same calls; a failed insertion leaves the already-stored element untouched.", "quantifier": "all key/value types, all hash functions (including constant ones), all equality predicates compatible with the hash, all operation sequences of any length", "why_tests_cant": "Which slot an element lands in depends on the whole history of hashes, collisions, overflows and rehashes; tests only sample histories and hash functions.", "anchors": ["include/boost/unordered/detail/foa/core.hpp: table_core::find, unchecked_emplace_at, unchecked_emplace_with_rehash, nosize_unchecked_emplace_at, erase, recover_slot", "include/boost/unordered/detail/foa/table.hpp: table::emplace_impl, try_emplace, erase, erase_if", "include/boost/unordered/unordered_flat_map.hpp"]}
{"id": "C02", "title": "size() and empty() are exact", "statement": "At every moment size() equals the number of elements that iteration would yield, and empty() holds iff there are none.", "quantifier": "all operation histories", "why_tests_cant": "An off-by-one needs a particular path (failed insert, erase, rehash, copy between different capacities, merge) in a particular order.", "anchors": ["include/boost/unordered/detail/foa/core.hpp: table_core::size_ctrl, recover_slot, unchecked_emplace_at, fast_copy_elements_from, clear"]}
{"id": "C03", "title": "Iteration of open-addressing containers visits every element exactly once and terminates", "statement": "Traversing [begin(), end()) of an open-addressing container, for any reachable container state, dereferences every stored element exactly once, dereferences nothing else, never leaves the allocated arrays and reaches end() after exactly size() increments; the order is the same one used by internal visitation.", "quantifier": "all reachable table states, both control-byte layouts", "why_tests_cant": "The iterator scans metadata 16 bytes at a time looking for the sentinel; correctness must hold for every occupancy pattern of every group.", "anchors": ["include/boost/unordered/detail/foa/table.hpp: table_iterator::increment, table::begin", "include/boost/unordered/detail/foa/core.hpp: group15::match_occupied, is_sentinel, for_all_elements"]}
{"id": "C04", "title": "Erasing through iterators never disturbs the rest of an ongoing traversal", "statement": "erase(iterator) removes exactly the designated element, leaves every other element at the same address, and the returned iterator continues the traversal with exactly the elements that the original iterator would still have visited; consequently the erase-while-iterating idiom and erase(first,last) remove exactly the intended elements; erase_if calls the predicate exactly once per element, erases exactly those satisfying it and returns their number.", "quantifier": "all reachable states, all iterator positions and all predicates", "why_tests_cant": "Depends on the position of erased slots inside groups and on overflow bits; exponentially many subsets.", "anchors": ["include/boost/unordered/detail/foa/table.hpp: table::erase(iterator), erase_if", "include/boost/unordered/detail/foa/core.hpp: table_core::erase, erase_if_impl, recover_slot"]}
{"id": "C05", "title": "Probe sequences cover the whole table, so lookups and insertions terminate", "statement": "For every power-of-two number of groups and every starting group, the probe sequence visits each group exactly once before giving up; hence find() terminates, and insertion into a table with a free slot always finds one.", "quantifier": "all table sizes 2^k and all starting positions", "why_tests_cant": "The claim is number-theoretic (triangular numbers modulo 2^k) over unbounded k.", "anchors": ["include/boost/unordered/detail/foa/core.hpp: pow2_quadratic_prober, table_core::nosize_unchecked_emplace_at, find"]}
{"id": "C06", "title": "size() <= max_load() <= bucket_count() always holds", "statement": "In every reachable state of an open-addressing container size() <= max_load() <= bucket_count(); the internal max-load value decremented by anti-drift on erasure never wraps below zero nor below size(); the table always keeps enough free slots for the next insertion below max_load().", "quantifier": "all operation histories, all capacities", "why_tests_cant": "Anti-drift lowers the threshold depending on which bits of overflow bytes are set; a wrap-around would need one specific erase history.", "anchors": ["include/boost/unordered/detail/foa/core.hpp: table_core::recover_slot, initial_max_load, max_load, size_ctrl"]}
{"id": "C07", "title": "No rehash and no invalidation below max_load()", "statement": "An insertion performed while size() < max_load() changes neither bucket_count() nor the address of any other element, and max_load() stays the same; lookups and erasures never change bucket_count() and never move elements.", "quantifier": "all reachable states, all keys", "why_tests_cant": "Iterator and pointer stability must hold for every state in which the container promises it.", "anchors": ["include/boost/unordered/detail/foa/core.hpp: table_core::unchecked_emplace_at, erase", "include/boost/unordered/detail/foa/table.hpp: table::emplace_impl"]}
{"id": "C08", "title": "rehash(n) postconditions", "statement": "After rehash(n) bucket_count() >= n, size() <= max_load(), and the stored elements are exactly those stored before; bucket_count() is the smallest possible one that is at least n and at least size()/max_load_factor(); rehash(0) on an empty container releases the bucket array (bucket_count()==0).", "quantifier": "all reachable states, all n for which the array fits the address space", "why_tests_cant": "n interacts with float rounding of size()/0.875 and power-of-two capacities at every magnitude.", "anchors": ["include/boost/unordered/detail/foa/core.hpp: table_core::rehash, unchecked_rehash, capacity_for, size_index_for"]}
{"id": "C09", "title": "reserve(n) makes room for n elements", "statement": "reserve(n) on a container from which nothing has been erased since construction, clearance or last rehash guarantees that inserting until size()==n causes no rehash (max_load() >= n), for every n, in spite of single-precision float rounding; stated without the no-erasure restriction the guarantee is false.", "quantifier": "all n (up to the float-to-size_t conversion limit), all reachable states", "why_tests_cant": "Float rounding errors appear only for n above 2^24; capacities range up to 2^64.", "anchors": ["include/boost/unordered/detail/foa/core.hpp: table_core::reserve, rehash, initial_max_load, capacity_for"]}
{"id": "C10", "title": "max_load() after construction/rehash/clear versus max_load_factor()", "statement": "After construction, rehash or clearance, max_load() is bucket_count() when bucket_count() <= 29 and otherwise floor(0.875*bucket_count()) up to single-precision rounding; the documented inequality max_load() >= max_load_factor()*bucket_count() over the reals does not hold exactly.", "quantifier": "all capacities 15*2^k-1", "why_tests_cant": "Needs every capacity, including those where float(capacity) is inexact.", "anchors": ["include/boost/unordered/detail/foa/core.hpp: table_core::initial_max_load", "doc/modules/ROOT/pages/reference/unordered_flat_map.adoc: max_load note"]}
{"id": "C11", "title": "Copy, move, swap and assignment preserve contents", "statement": "A copy-constructed, copy-assigned, moved or swapped open-addressing container holds exactly the elements of its source (source unchanged after copy, source empty after move), whatever the two capacities, erasure histories and allocator equality/propagation traits; the copy satisfies all container invariants.", "quantifier": "all pairs of reachable container states, all propagation traits, equal and unequal allocators", "why_tests_cant": "The code has different paths (fast array copy, element-wise reinsertion, pointer stealing, unequal-allocator element moves) chosen by size, capacity and traits.", "anchors": ["include/boost/unordered/detail/foa/core.hpp: table_core copy/move constructors, operator=, swap, copy_elements_from, fast_copy_elements_from"]}
{"id": "C12", "title": "operator== is content equality", "statement": "Two open-addressing containers compare equal iff they hold the same keys with equal mapped values, independent of insertion order, capacity and erasure history; the relation is symmetric.", "quantifier": "all pairs of reachable states", "why_tests_cant": "Pairs of histories cannot be enumerated.", "anchors": ["include/boost/unordered/detail/foa/core.hpp: operator==(table_core)"]}
{"id": "C13", "title": "merge moves exactly the absent elements", "statement": "x.merge(y) inserts into x exactly the elements of y whose key is not in x, removes exactly those from y, and loses or duplicates no element, also when x rehashes in the middle.", "quantifier": "all pairs of reachable states", "why_tests_cant": "Interaction of rehash, duplicate keys and erase-on-exit while iterating over y.", "anchors": ["include/boost/unordered/detail/foa/table.hpp: table::merge, erase_on_exit"]}
{"id": "C14", "title": "Every element object is constructed once and destroyed once", "statement": "Over any history followed by destruction of the container, every element constructed by the container is destroyed exactly once, no raw (unconstructed) memory is read as an element, and no live element is overwritten.", "quantifier": "all operation histories including rehash, erase, clear and exceptions", "why_tests_cant": "Leaks and double destruction on rare paths are invisible to functional tests.", "anchors": ["include/boost/unordered/detail/foa/core.hpp: table_core::destroy_element, construct_element, unchecked_rehash, clear, destructor"]}
{"id": "C15", "title": "Strong guarantee of insertion", "statement": "If allocation of new arrays or construction of the element throws during an insertion into an open-addressing container, contents, size(), bucket_count() and element addresses are what they were before the call.", "quantifier": "all reachable states, every point at which an exception can be thrown", "why_tests_cant": "Requires injecting an exception at every point of every state.", "anchors": ["include/boost/unordered/detail/foa/core.hpp: unchecked_emplace_at, unchecked_emplace_with_rehash, new_arrays_for_growth"]}
{"id": "C16", "title": "Rehash under exceptions", "statement": "If an exception is thrown while elements are being transferred by a rehash, the container remains valid; when transfer copies (move may throw) it keeps exactly its former contents, when transfer moves it keeps exactly the elements not yet transferred; nothing is leaked or destroyed twice.", "quantifier": "all reachable states, every index at which transfer throws", "why_tests_cant": "Exception index times state space is unbounded.", "anchors": ["include/boost/unordered/detail/foa/core.hpp: unchecked_rehash"]}
{"id": "C17", "title": "SIMD and non-SIMD builds behave identically", "statement": "The byte-per-slot metadata layout (SSE2/Neon) and the bit-interleaved two-word layout answer match, match_available, match_occupied, is_occupied, is_sentinel, is_not_overflowed and maybe_caused_overflow identically after any sequence of set/reset/set_sentinel/mark_overflow; control values stored for elements are never 0 (available) or 1 (sentinel).", "quantifier": "all sequences of metadata operations, all 64-bit hashes, all slots", "why_tests_cant": "2^128 metadata states; tests run on one layout at a time.", "anchors": ["include/boost/unordered/detail/foa/core.hpp: group15 (three specialisations), reduced_hash, match_impl, set_impl"]}
{"id": "C18", "title": "Bucket position always in range and mixing is platform-independent", "statement": "For every 64-bit hash and every table size, the group position computed for the hash is a valid group index; the portable and the 128-bit implementations of the mulx mixer give the same result for all operands.", "quantifier": "all 64-bit hash values and all table sizes", "why_tests_cant": "2^64 hashes times 63 sizes, 2^128 operand pairs.", "anchors": ["include/boost/unordered/detail/foa/core.hpp: pow2_size_policy, position_for", "include/boost/unordered/detail/mulx.hpp: mulx64, mulx32, mulx"]}
{"id": "C19", "title": "Node handles never lose or duplicate an element", "statement": "extract(pos/key) of a node container removes exactly that element and yields a handle owning it (empty iff the key was absent); insert(node_handle) either transfers the element into the container, leaving the handle empty, or \u2014 when an equivalent element exists \u2014 leaves both container and element unchanged, returning the node in the result; over any sequence each element is owned by exactly one of containers and handles and destroyed once.", "quantifier": "all sequences of extract/insert/move/swap/destroy operations on containers and handles", "why_tests_cant": "Ownership errors need particular sequences (self move, swap of empty handles, failed insert).", "anchors": ["include/boost/unordered/detail/foa/node_handle.hpp: node_handle_base, insert_return_type", "include/boost/unordered/detail/foa/table.hpp: table::extract, pull", "include/boost/unordered/unordered_node_map.hpp: insert(node_type&&), extract"]}
{"id": "C20", "title": "Serialization round trip", "statement": "Saving an open-addressing, closed-addressing or concurrent container and loading the archive into any container of the same type yields a container equal to the original whatever the previous contents; an archive that repeats a key is rejected with bad_archive_exception instead of producing duplicates.", "quantifier": "all container contents, all previous contents of the target, all archives", "why_tests_cant": "All archives, including malformed ones.", "anchors": ["include/boost/unordered/detail/serialize_container.hpp: save, load, save_or_load_container", "include/boost/unordered/detail/foa/concurrent_table.hpp: serialize"]}
{"id": "C21", "title": "Prime modulo reduction is exact", "statement": "For every 64-bit hash and each supported prime bucket count, the division-free bucket position equals the true remainder of the folded hash by the bucket count (hash mod count for counts above 2^32), lies in [0, bucket_count()), and the 128-bit and portable implementations agree.", "quantifier": "all 64-bit hashes, all 38 bucket counts", "why_tests_cant": "2^64 x 38 cases; approximate reciprocals may be wrong for rare operands.", "anchors": ["include/boost/unordered/detail/prime_fmod.hpp: prime_fmod_size::position, modulo_ , get_remainder, sizes, inv_sizes32"]}
{"id": "C22", "title": "unordered_map/unordered_set behave like an abstract map", "statement": "Starting from empty, after any sequence of insert/emplace/try_emplace/insert_or_assign/operator[]/erase/find/count/at/rehash/reserve/clear/max_load_factor calls on the closed-addressing containers, every returned value and the final contents equal those of a finite map.", "quantifier": "all hash functions and equality predicates compatible with them, all operation sequences", "why_tests_cant": "History- and hash-dependent bucket structure.", "anchors": ["include/boost/unordered/detail/implementation.hpp: table::try_emplace_unique, emplace_unique, erase_key_unique, find_node, rehash_impl", "include/boost/unordered/detail/fca.hpp: grouped_bucket_array"]}
{"id": "C23", "title": "unordered_multimap/multiset behave like an abstract multiset with contiguous equal ranges", "statement": "After any sequence of insert (with or without hint), erase(key), erase(iterator), rehash and clear on the multi containers, the stored elements are the multiset of elements inserted and not erased; equivalent elements are always adjacent in iteration order, equal_range(k) spans exactly the elements equivalent to k and count(k) is its length.", "quantifier": "all hash functions, predicates and operation sequences, all hint positions", "why_tests_cant": "Adjacency may be broken only by particular sequences of hints, collisions and rehashes.", "anchors": ["include/boost/unordered/detail/implementation.hpp: emplace_equiv, emplace_hint_equiv, erase_key_equiv, next_group, transfer_node", "include/boost/unordered/detail/fca.hpp: insert_node_hint"]}
{"id": "C24", "title": "Iteration of closed-addressing containers visits every element exactly once", "statement": "For every reachable closed-addressing container, traversing [begin(), end()) yields each element exactly once and ends; empty buckets are skipped correctly through the bucket-group list however buckets became empty.", "quantifier": "all reachable states", "why_tests_cant": "Depends on bitmask and linked list of 64-bucket groups, which change at each insertion/erasure.", "anchors": ["include/boost/unordered/detail/fca.hpp: grouped_bucket_iterator::increment, insert_node, unlink_bucket, unlink_empty_buckets, append_bucket_group"]}
{"id": "C25", "title": "load_factor() <= max_load_factor() in closed-addressing containers", "statement": "After the insertion of an element or a range, rehash(n) or reserve(n) in a closed-addressing container with at most 2^30 elements, size() exceeds max_load_factor()*bucket_count() by at most a relative 2^-23 (single-precision rounding of size/max_load_factor in the minimal bucket count); with the default maximum load factor and fewer than 2^23 elements load_factor() <= max_load_factor() exactly. The documented exact bound is false for other maxima (e.g. 47 elements with max_load_factor 0.88679242f).", "quantifier": "all sizes, bucket counts and max_load_factor values", "why_tests_cant": "The failure needs particular floating-point values or millions of elements, and the bound must hold for all of them.", "anchors": ["include/boost/unordered/detail/implementation.hpp: recalculate_max_load, min_buckets, reserve_for_insert, reserve, rehash"]}
{"id": "C26", "title": "Rehash of closed-addressing containers keeps nodes and groups", "statement": "rehash/reserve never copy, move, create or destroy elements: the set of node addresses is unchanged and pointers/references stay valid; groups of equivalent elements stay contiguous; bucket_count() afterwards is at least the requested number when that number is at most 1649267441651, the largest available bucket count (beyond it the request is silently capped) and every element is in the bucket given by bucket(key).", "quantifier": "all reachable states, all requested counts", "why_tests_cant": "Order in which nodes are relinked depends on all buckets.", "anchors": ["include/boost/unordered/detail/implementation.hpp: rehash_impl, transfer_node"]}
{"id": "C27", "title": "Erasure in closed-addressing containers", "statement": "erase(iterator), erase(first,last), erase(key), extract and erase_if remove exactly the designated elements (and return the right count / successor), keep all other nodes, and keep every bucket and the bucket-group list consistent.", "quantifier": "all reachable states and ranges", "why_tests_cant": "Ranges can start and end in the middle of buckets and of groups.", "anchors": ["include/boost/unordered/detail/implementation.hpp: erase_node, erase_nodes_range, erase_key_unique, erase_key_equiv, extract_by_iterator_unique, extract_by_key_impl", "include/boost/unordered/detail/fca.hpp: extract_node, extract_node_after, unlink_bucket"]}
{"id": "C28", "title": "operator== of multi containers is permutation equality", "statement": "Two unordered_multimaps/multisets are equal iff for every key the groups of equivalent elements are permutations of each other, whatever the bucket counts and insertion histories; for unique containers iff they hold equal elements.", "quantifier": "all pairs of reachable states", "why_tests_cant": "Group permutation test is quadratic with skip logic; pairs cannot be enumerated.", "anchors": ["include/boost/unordered/detail/implementation.hpp: equals_unique, equals_equiv, group_equals_equiv, find_, count_equal_equiv"]}
{"id": "C29", "title": "Exceptions in closed-addressing operations", "statement": "If the hash function or allocation throws during rehash of a closed-addressing container the container remains valid and consistent (no dangling or lost bucket bits), with only not-yet-transferred elements kept; if construction throws during insertion nothing changes.", "quantifier": "all reachable states, every throw point", "why_tests_cant": "Every throw point in every state.", "anchors": ["include/boost/unordered/detail/implementation.hpp: rehash_impl catch block, unlink_empty_buckets, emplace_unique"]}
{"id": "C30", "title": "max_load bookkeeping after closed-addressing assignment", "statement": "After any copy or move assignment (all allocator-propagation cases) the insertion threshold used by a closed-addressing container matches its own bucket_count() and max_load_factor(), so later insertions keep the load factor bound. (This is false when copy assignment replaces the allocator by an unequal propagated one: the old threshold stays, and after assigning from an empty container the next insertion has undefined behaviour.)", "quantifier": "all pairs of states and allocator traits", "why_tests_cant": "Only particular combinations of propagation trait, inequality and sizes expose a stale threshold.", "anchors": ["include/boost/unordered/detail/implementation.hpp: assign, copy_buckets, move_assign, recalculate_max_load"]}
{"id": "C31", "title": "Bucket interface consistency", "statement": "In closed-addressing containers, for every bucket n the local iteration over n yields exactly the elements whose bucket(key) is n; bucket_size(n) counts them; the sum of bucket_size over all buckets is size(), and 0 <= bucket(key) < bucket_count().", "quantifier": "all reachable states", "why_tests_cant": "Must hold for every state.", "anchors": ["include/boost/unordered/detail/implementation.hpp: bucket_size, begin(n), hash_to_bucket"]}
{"id": "C32", "title": "Reader-writer spinlock: mutual exclusion", "statement": "Under any interleaving of any number of threads using the spinlock's lock/try_lock/lock_shared/try_lock_shared/unlock/unlock_shared, an exclusive owner never coexists with another exclusive or shared owner; the state word always encodes exactly the current owners.", "quantifier": "all numbers of threads (below 2^30 readers) and all interleavings", "why_tests_cant": "Schedules cannot be enumerated.", "anchors": ["include/boost/unordered/detail/foa/rw_spinlock.hpp: rw_spinlock"]}
{"id": "C33", "title": "Reader-writer spinlock: no stuck state", "statement": "When no thread holds the spinlock, a lock or lock_shared attempt running alone succeeds after a bounded number of its own steps, whatever was pending before (a writer-pending mark left behind never blocks forever once the writer proceeds), and a pending writer prevents new shared acquisitions from starving it.", "quantifier": "all reachable lock states", "why_tests_cant": "Liveness needs all histories of pending bits.", "anchors": ["include/boost/unordered/detail/foa/rw_spinlock.hpp: lock, lock_shared, unlock"]}
{"id": "C34", "title": "Container-level locking: exclusive operations run alone", "statement": "In concurrent containers, whole-container operations (rehash, clear, swap, assignment, merge...) never overlap with each other or with any element operation on the same container, and acquiring two containers' locks in any order from many threads cannot deadlock.", "quantifier": "all schedules, any number of threads and containers", "why_tests_cant": "Schedules; deadlocks need precise timing.", "anchors": ["include/boost/unordered/detail/foa/concurrent_table.hpp: multimutex, lock guards, scoped_bilock, exclusive_access, shared_access"]}
{"id": "C35", "title": "Concurrent insertion never creates duplicates", "statement": "At every moment of every execution of any number of threads calling insert/emplace/try_emplace/visit/erase on a concurrent map/set, no two elements with equivalent keys are stored (given fewer than 2^32 insertions into one probe group during a single insertion attempt).", "quantifier": "all schedules, any number of threads, all hash functions", "why_tests_cant": "Optimistic insertion: duplicate needs two inserters racing on different groups of one probe sequence.", "anchors": ["include/boost/unordered/detail/foa/concurrent_table.hpp: unprotected_norehash_emplace_and_visit, reserve_slot, group_access::insert_counter"]}
{"id": "C36", "title": "Concurrent operations are linearizable", "statement": "Each insert, visit/contains/count and erase on a concurrent map takes effect atomically at some instant between its call and its return: there is an order of all completed operations, consistent with real time, in which every returned value is that of an abstract map. Every key stored was passed to an insertion.", "quantifier": "all schedules, any number of threads", "why_tests_cant": "Schedules; the not-found case depends on the whole interval of the operation.", "anchors": ["include/boost/unordered/detail/foa/concurrent_table.hpp: unprotected_internal_visit, unprotected_norehash_emplace_and_visit, erase_if, emplace_and_visit_impl"]}
{"id": "C37", "title": "Concurrent size accounting", "statement": "In every execution the element counter never exceeds the max load by more than the pending reservations, the max-load counter never wraps below zero, and whenever no operation is in flight size() equals the number of stored elements and is at most max_load(); insertions that find the table full trigger a rehash rather than failing; a call of size() never returns more than max_load() was at some moment of this call, even while insertions have reserved places that they will not get.", "quantifier": "all schedules", "why_tests_cant": "Counters are updated by separate atomic operations.", "anchors": ["include/boost/unordered/detail/foa/concurrent_table.hpp: reserve_size, reserve_slot, rehash_if_full, size, erase", "include/boost/unordered/detail/foa/core.hpp: recover_slot"]}
{"id": "C38", "title": "Visitation contract", "statement": "For insert_or_visit/insert_and_visit/visit, exactly the documented functions are invoked: at most one visitation per call, on the element equivalent to the key, exactly one of (inserted: f1 / found: f2), and while a non-const visitation runs no other visitation, insertion or erasure touches the same element.", "quantifier": "all schedules and all keys", "why_tests_cant": "Schedules.", "anchors": ["include/boost/unordered/detail/foa/concurrent_table.hpp: unprotected_internal_visit, group_exclusive, group_shared, emplace_and_visit_impl"]}
{"id": "C39", "title": "Whole-table visitation visits stable elements exactly once", "statement": "visit_all/cvisit_all/visit_while visits every element present during the whole call exactly once, visits no element twice, and visits only elements that were present at some moment of the call, whatever concurrent insertions and erasures do.", "quantifier": "all schedules", "why_tests_cant": "Schedules times table states.", "anchors": ["include/boost/unordered/detail/foa/concurrent_table.hpp: visit_all, visit_while, for_all_elements"]}
{"id": "C40", "title": "Bulk visitation equals individual visitation", "statement": "visit over a range of n keys calls the function for the same elements, and returns the same count, as n single-key visits would on the same contents; every key in the range is looked up exactly once whatever n.", "quantifier": "all n, all ranges, all table states", "why_tests_cant": "The chunking arithmetic depends on n and has an irregular last chunk.", "anchors": ["include/boost/unordered/detail/foa/concurrent_table.hpp: bulk_visit, unprotected_bulk_visit"]}
{"id": "C41", "title": "Conversion between concurrent and non-concurrent containers", "statement": "Move-constructing a concurrent container from the corresponding non-concurrent container and back preserves exactly the contents, leaves the source empty and usable, and the result satisfies the invariants of its kind.", "quantifier": "all reachable states", "why_tests_cant": "All states.", "anchors": ["include/boost/unordered/detail/foa/table.hpp: table(concurrent_table&&)", "include/boost/unordered/detail/foa/concurrent_table.hpp: concurrent_table(table&&)"]}
{"id": "C42", "title": "Concurrent whole-container operations", "statement": "Under the container lock concurrent merge, swap, assignment, ==, clear, rehash, reserve and erase_if act exactly like their non-concurrent counterparts on the abstract contents; insertion that loses a race with growth is retried and finally performed exactly once.", "quantifier": "all reachable states, all retries", "why_tests_cant": "Retries depend on schedules.", "anchors": ["include/boost/unordered/detail/foa/concurrent_table.hpp: merge, swap, operator=, emplace_and_visit_impl, rehash_if_full"]}
{"id": "C43", "title": "Insertion-counter wrap-around limits uniqueness", "statement": "Uniqueness of concurrent insertion depends on the 32-bit per-group insertion counter not wrapping during one attempt: with exactly 2^32 intervening insertions starting in the same group the optimistic check passes although the group sequence changed.", "quantifier": "the single wrap-around schedule", "why_tests_cant": "Needs 2^32 insertions inside one insertion window.", "anchors": ["include/boost/unordered/detail/foa/concurrent_table.hpp: group_access::insert_counter_type"]}
{"id": "C44", "title": "Running statistics are exact up to rounding", "statement": "The statistics recorded for lookups/insertions (count, average, variance) equal the true mean and variance of the recorded samples (computed over the rationals), and counting restarts cleanly if the sample counter wraps.", "quantifier": "all sample sequences", "why_tests_cant": "All sequences.", "anchors": ["include/boost/unordered/detail/foa/cumulative_stats.hpp: sequence_stats_data::add, cumulative_stats"]}
{"id": "C45", "title": "Hinted insertion, insert ranges and assignment from lists", "statement": "Inserting a range or initializer list equals inserting its elements one after another (first occurrence of each key wins for unique containers), hints never change the resulting contents, and assignment from an initializer list yields exactly the list's (de-duplicated) elements.", "quantifier": "all ranges and all container states", "why_tests_cant": "All ranges.", "anchors": ["include/boost/unordered/detail/foa/table.hpp: insert, emplace_hint", "include/boost/unordered/detail/implementation.hpp: insert_range_unique, insert_range_equiv", "include/boost/unordered/unordered_flat_map.hpp: insert(first,last), operator=(initializer_list)"]}
{"id": "C46", "title": "Array allocation size", "statement": "The number of bytes requested from the allocator for the arrays of an open-addressing container covers all its slots and control groups; for requests so large that the byte count exceeds size_t the computation wraps around (e.g. 16-byte elements, capacity 2^59 or more) and too little memory is requested instead of an exception being thrown.", "quantifier": "all element sizes and capacities", "why_tests_cant": "ranges over all 64-bit capacities; the failing ones cannot be allocated in a test", "anchors": ["include/boost/unordered/detail/foa/core.hpp: table_arrays::buffer_size, table_arrays::new_"]}
{"id": "C47", "title": "A failed move assignment leaves the source usable", "statement": "If move assignment of an open-addressing container throws, both containers remain valid: every element the source still holds can still be found in it. (This is false when the two containers have unequal non-propagating allocators and different hash objects: hash and predicate are swapped before the allocation that may throw.)", "quantifier": "all pairs of reachable states, all hash objects, every throw point", "why_tests_cant": "Needs a throwing allocation at one point, unequal stateful allocators and distinct stateful hash objects at once.", "anchors": ["include/boost/unordered/detail/foa/core.hpp: table_core::operator=(table_core&&), noshrink_reserve"]}
{"id": "C48", "title": "Self-merge of a closed-addressing multi container terminates", "statement": "x.merge(x) on an unordered_multimap/unordered_multiset finishes. (This is false for every non-empty container: each round moves one node out of x and back into x, so the loop `while (!source.empty())` never ends.)", "quantifier": "all reachable non-empty containers, any number of rounds", "why_tests_cant": "A test cannot observe non-termination; it must be shown for every number of rounds.", "anchors": ["include/boost/unordered/unordered_map.hpp: unordered_multimap::merge"]}
{"id": "C49", "title": "No undefined behaviour in any schedule", "statement": "In every execution of any number of threads calling any operations of concurrent containers, no step reads or destroys an element that is not alive, constructs over a live one, accesses memory outside the arrays or the shared dummy group, or makes a counter underflow.", "quantifier": "all schedules, any number of threads and containers, all hash functions and user functions, every point where a user function may throw", "why_tests_cant": "Schedules; a race shows up only if the two accesses actually collide.", "anchors": ["include/boost/unordered/detail/foa/concurrent_table.hpp: unprotected_internal_visit, unprotected_norehash_emplace_and_visit, for_all_elements_while, rehash_if_full", "include/boost/unordered/detail/foa/core.hpp: recover_slot"]}
{"id": "C50", "title": "Operations of concurrent containers do not deadlock", "statement": "Whenever calls are in progress on concurrent containers (user functions not calling back into containers), at least one of them can make its next step: no cycle of threads waits for each other's group or container locks.", "quantifier": "all schedules, any number of threads and containers", "why_tests_cant": "Deadlocks need a particular schedule.", "anchors": ["include/boost/unordered/detail/foa/concurrent_table.hpp: unprotected_internal_visit, reserve_slot, for_all_elements_while, rehash_if_full, exclusive_access"]}
{"id": "C51", "title": "Insertion is lock-free", "statement": "If several threads insert into a concurrent container, some insertion completes after finitely many steps. (This is false: an attempt that fails because the insertion counter changed has itself incremented the counter, so two inserting threads can make each other restart forever.)", "quantifier": "all schedules", "why_tests_cant": "Needs an infinite schedule.", "anchors": ["include/boost/unordered/detail/foa/concurrent_table.hpp: unprotected_norehash_emplace_and_visit"]}
{"id": "C52", "title": "A concurrent call left alone completes", "statement": "In every reachable state, if thread T has a call on a concurrent container in progress and no other thread is inside that container, then T's call can always take its next step as long as the other threads do nothing, and every sequence of T's own steps ends with the return of the call, normally or by an exception (stale insertion attempts are restarted finitely often, the probing for a free slot ends, a full container is grown finitely often).", "quantifier": "every reachable state of any number of threads and containers, every position of the call in its code, every operation (visit, erase, insert-or-visit, visit_all, visit_while, erase_if, size), every outcome of throwing user functions, every continuation in which only that thread moves", "why_tests_cant": "the intermediate states other threads can leave behind (stale counters, size reservations, overflow marks, groups full) and the positions at which the call was overtaken are unbounded in number; termination is about all continuations", "anchors": ["include/boost/unordered/detail/foa/concurrent_table.hpp: unprotected_norehash_emplace_and_visit, reserve_size, reserve_slot, rehash_if_full, unprotected_internal_visit, for_all_elements_while", "include/boost/unordered/detail/foa/core.hpp: pow2_quadratic_prober"]}
{"id": "C53", "title": "Visits, erasures and traversals take a bounded number of steps under contention", "statement": "A call on a concurrent container that inserts nothing (visit, erase, erase_if, visit_all, visit_while, size) performs, after entering the container, at most 80 atomic steps of its own per group of the container (plus 9), whatever the other threads do in the meantime; it may have to wait for groups locked by others but it never retries, and the arrays it walks are not replaced while it is inside. (Insertions have no such bound: C51.)", "quantifier": "every reachable state, every non-inserting call, every interleaving with any number of other threads performing any operations, every outcome of the user functions", "why_tests_cant": "starvation by unfavourable schedules needs unboundedly long interleavings that a test cannot enumerate", "anchors": ["include/boost/unordered/detail/foa/concurrent_table.hpp: unprotected_internal_visit, for_all_elements_while, erase_if, size"]}
{"id": "C54", "title": "Memory of open-addressing containers is accounted for", "statement": "At every point of every program over open-addressing containers (construction with any bucket count, insertion, rehash, reserve, copy/move construction and assignment with any allocators and propagation traits, swap, merge, destruction), whatever exceptions were thrown, the calls the allocators received are in order: every deallocate matches an earlier allocate on an equal allocator with the same size, and the blocks still outstanding are exactly one block for each existing container with storage, of its get_allocator() and of the size that belongs to its bucket_count(). After the last container is destroyed nothing is outstanding. Lookup, iteration, erasure, clear, swap, move construction, default construction, comparison and insertion below max_load do not call the allocator at all.", "quantifier": "every program, every number of containers, every throwing behaviour of allocator, hash, predicate and constructors, every allocator propagation setting", "why_tests_cant": "leaks on exceptional paths depend on which of unboundedly many events throws in which state of which container", "anchors": ["include/boost/unordered/detail/foa/core.hpp: table_arrays::new_, delete_, buffer_size, new_arrays, delete_arrays, unchecked_rehash, unchecked_emplace_with_rehash, noshrink_reserve, operator=, move constructor", "include/boost/unordered/detail/foa/table.hpp: merge"]}
{"id": "C55", "title": "Parallel execution-policy traversals", "statement": "visit_all, visit_while and erase_if called on a concurrent container with an execution policy: however the per-group jobs are distributed over threads, ordered and interleaved with each other and with any other operations on the container (including insertions, erasures and rehashes by other threads), each call of the user's function accesses one element atomically, with exclusive access where the element may be changed; an element present from the call to the return is visited at most once, and exactly once unless visit_while was stopped; visit_while returns false exactly if some call of the function returned false; all other operations remain linearizable, no duplicates arise, the counters stay exact, no step is undefined and no deadlock arises.", "quantifier": "every number of threads and containers, every schedule of the jobs, every mix of concurrent operations, every function of the user that does not throw (a throw ends the program)", "why_tests_cant": "a parallel algorithm may distribute and interleave the jobs in unboundedly many ways; tests see the few that one implementation of std::for_each happens to produce", "anchors": ["include/boost/unordered/detail/foa/concurrent_table.hpp: visit_all(ExecutionPolicy), visit_while(ExecutionPolicy), erase_if(ExecutionPolicy), for_all_elements(ExecutionPolicy), for_all_elements_while(ExecutionPolicy)"]}
{"id": "C56", "title": "Pointers and references of node-based containers stay valid", "statement": "In unordered_map/set/multimap/multiset and in unordered_node_map/set, after any operation that returns (insertion with or without rehash, rehash, reserve, swap, merge, move construction and assignment, splicing, erasures), every element that the operation did not itself erase, extract, replace or destroy (or copy because of unequal allocators) is still the same object: at the same address, with the same key and value (insert_or_assign may assign the value of the one element with its key), in the container it was in or in the one the operation moves it to. The same holds for operations on one container that end with an exception not thrown by the hash function.", "quantifier": "all programs over any number of containers, all their states, all elements, all operations and outcomes, all hash functions, predicates and allocator propagation traits", "why_tests_cant": "invalidation appears only for particular combinations of operations, sizes and allocators; a test checks a few addresses after a few operations", "anchors": ["include/boost/unordered/detail/implementation.hpp: table", "include/boost/unordered/detail/fca.hpp: grouped_bucket_array", "include/boost/unordered/detail/foa/core.hpp: table_core", "include/boost/unordered/detail/foa/node_map_types.hpp"]}
{"id": "C57", "title": "Concurrent containers under the C++ memory model", "statement": "The concurrent containers read the metadata of a group without a lock through relaxed atomics, so a thread may read values that have been overwritten. In every execution allowed by happens-before (locks, insertion counters, the client's own synchronization): accesses to the same element or to the non-atomic parts of a container, one of which may change it, are ordered by happens-before (no data race); no step is undefined; no two equivalent elements are ever stored; the size counter counts the elements and the operations in flight; insertions, successful lookups, successful erasures, traversals and whole-container operations behave atomically; a lookup or erasure answers 'not found' only if the presence of the key does not happen before the call: if the return of insert(k) happens before the call of a lookup of k (in particular in the same thread) and k is not erased, k is found. Lookups are not linearizable and not even sequentially consistent: two threads that insert different keys and then look up the key of the other may both miss it.", "quantifier": "all executions of any number of threads over any number of containers, all values a thread may read at each location, all keys, hash functions, predicates, user functions and exceptions", "why_tests_cant": "tests run on one machine and schedule, usually x86, on which most of the reorderings the C++ memory model permits do not happen", "anchors": ["include/boost/unordered/detail/foa/concurrent_table.hpp: atomic_integral, group_access, unprotected_internal_visit, unprotected_norehash_emplace_and_visit, multimutex", "include/boost/unordered/detail/foa/core.hpp: group15, group_access, atomic size_ctrl", "include/boost/unordered/detail/foa/rw_spinlock.hpp"]}
{"id": "C58", "title": "Memory orders of the reader-writer spinlock", "statement": "The memory orders of rw_spinlock (relaxed loads and failed compare-exchanges, acquire on the compare-exchanges that take the lock, relaxed on the one that marks a writer pending, release on fetch_sub and store when unlocking) are sufficient: even when loads return outdated values of the state word, at most one thread has the lock exclusively and no other then has it shared; every unlocking (shared or exclusive) happens before every later locking (shared or exclusive); hence anything a thread does while it has the lock exclusively is ordered by happens-before with anything other threads do while they have the lock, so data protected by the lock are free of data races.", "quantifier": "all executions of any number of threads under the C++ memory model without out-of-thin-air cycles: all values the loads may return, all spurious failures, all places stores may take in the modification order", "why_tests_cant": "missing release/acquire orderings show only on weakly ordered hardware or after compiler reordering, and only in rare executions", "anchors": ["include/boost/unordered/detail/foa/rw_spinlock.hpp: try_lock_shared, lock_shared, unlock_shared, try_lock, lock, unlock, state_"]}
{"id": "C59", "title": "Heterogeneous (transparent) lookup", "statement": "With a transparent hash function and predicate, find, at, count, contains, equal_range, erase and extract accept a value q of another type. If q hashes like the keys it is equal to: find returns an element equal to q exactly when the container has one; the container is not changed by lookups; erase in the open-addressing containers removes exactly one element equal to q (none if there is none) and leaves all others at their addresses. In the closed-addressing containers, where q is also equal to all keys equivalent to one it is equal to, count, equal_range and erase deal with exactly the elements equal to q, in containers with unique and with equivalent keys, although erase with equivalent keys passes the arguments of the predicate the other way round. try_emplace, insert_or_assign, operator[] with a q that behaves like the key made from it do what they do with that key. Only the hash function and the predicate can throw in lookups. In the concurrent containers, with a q that is equal to no key or hashes like some key and is equal to the same keys, visit, contains, count, erase, erase_if and extract with q are linearizable together with all other calls, call their function only on elements equal to q, and find an element equal to q that is present during the whole call.", "quantifier": "all containers of all programs, all hash functions and predicates, all values q of any type, all exceptions", "why_tests_cant": "the documented requirements on transparent functions admit arbitrary user types and hash functions; tests use a few string-like types", "anchors": ["include/boost/unordered/unordered_flat_map.hpp, unordered_node_map.hpp: transparent overloads of find, at, count, contains, erase, try_emplace, insert_or_assign, operator[]", "include/boost/unordered/unordered_map.hpp, unordered_set.hpp: the same", "include/boost/unordered/detail/foa/core.hpp: find", "include/boost/unordered/detail/implementation.hpp: find, group_count, find_prev, erase_key_unique_impl, erase_key_equiv_impl, extract_by_key_impl", "include/boost/unordered/concurrent_flat_map.hpp: transparent overloads of visit, cvisit, contains, count, erase, erase_if"]}
{"id": "C60", "title": "Reentrancy check of the concurrent containers", "statement": "Accessing a concurrent container from inside a user function it is calling (visitation function, hash, predicate) would make the thread wait for itself. In builds with assertions, such an access is reported by a failed assertion before any lock is requested: an assertion fails exactly in the programs in which some thread would request the lock of a container it is already accessing; it never fails otherwise, and then the check changes nothing. Two-container operations lock in the order of addresses and count as accesses to both, once if both are the same. The bookkeeping is per thread and is empty again after each outermost call, also if user functions throw or a guard is unlocked early. Nested accesses to different containers are not reported; they cannot deadlock if all threads nest in address order (even with readers held back by waiting writers), and can otherwise.", "quantifier": "all programs of nested accesses, of any depth, with exceptions; all numbers of threads and all schedules", "why_tests_cant": "the check must be exact for every nesting, exception path and two-container call; absence of deadlock ranges over all schedules", "anchors": ["include/boost/unordered/detail/foa/reentrancy_check.hpp: entry_trace, reentrancy_checked, reentrancy_bichecked", "include/boost/unordered/detail/foa/concurrent_table.hpp: shared_access, exclusive_access, scoped_bilock"]}
{"id": "C61", "title": "Node handles of the concurrent node containers", "statement": "Threads extract elements from concurrent_node_map/set into node handles, and insert handles into the same or other containers, concurrently with all other calls. At any moment each node is in exactly one container or one handle; no step of any thread loses, duplicates or makes up an element or changes its key or address, except erasures, destruction and exceptions in rehashing. extract and extract_if return a handle that has exactly the node of the element removed (with what the function assigned to it), or an empty one if nothing was removed; of several threads extracting the same key at most one gets the node. An insertion from a handle puts that very node in the container, without copying the element, and empties the handle; if an equivalent element is present the handle keeps its node. These calls are linearizable like all others.", "quantifier": "all programs with any number of threads, containers, handles; all interleavings; all keys, hash functions, visitation functions, including throwing ones", "why_tests_cant": "ownership must be unique at every moment of every interleaving of extractions, insertions, visits and rehashes", "anchors": ["include/boost/unordered/concurrent_node_map.hpp, concurrent_node_set.hpp: insert(node_type&&), insert_or_visit, insert_and_visit, extract, extract_if", "include/boost/unordered/detail/foa/node_handle.hpp, node_map_handle.hpp, node_set_handle.hpp", "include/boost/unordered/detail/foa/concurrent_table.hpp: extract, extract_if, emplace", "include/boost/unordered/detail/foa/element_type.hpp"]}
{"id": "C62", "title": "Concurrent containers rehash only when full", "statement": "bucket_count() of a concurrent container changes only in operations on the whole container (rehash, reserve, clear, assignment, ...) and in an insertion that finds the number of elements equal to max_load(), at a moment when no other call is inside the container; visitation, erasure, lookups and failed insertions never change it. max_load() is raised only then. Starting when no call is in progress, as long as the number of elements plus the number of elements erased since is less than max_load() was, no insertion of any thread rehashes, in any interleaving; each erasure lowers max_load() by at most one and nothing else lowers it.", "quantifier": "all executions with any number of threads and containers, all interleavings, all contents", "why_tests_cant": "the size counter is transiently too high while insertions are in flight; that this never triggers a rehash must hold in all interleavings", "anchors": ["include/boost/unordered/detail/foa/concurrent_table.hpp: reserve_size, rehash_if_full, unprotected_norehash_emplace_and_visit", "include/boost/unordered/detail/foa/core.hpp: recover_slot, unchecked_rehash_for_growth"]}
{"id": "C63", "title": "Growth is amortized and space is proportional to the peak size", "statement": "For a container of the open-addressing family used by insertions of elements, lookups, erasures and clear() (but no rehash/reserve): an insertion that finds size() < max_load() leaves every element where it is. The total number of elements moved to a new array by growing is at most 62 times the number of elements inserted, plus the number of elements present at the beginning, whatever the order of insertions and erasures (each of which may lower max_load()) and including insertions that throw; it is at most 3 times if erasures did not lower max_load(). When an insertion grows the container, bucket_count() at most doubles and there is room for at least size()/61+1 further elements. If size() never exceeds p, bucket_count() never exceeds max(29, 7(p+2)/3, initial bucket_count()). (An insertion may also shrink bucket_count().)", "quantifier": "all element types, hash functions and predicates, all reachable containers, all sequences of operations, all exceptions", "why_tests_cant": "amortized bounds range over all operation sequences of any length; the anti-drift mechanism and the float arithmetic make bad sequences hard to find by testing", "anchors": ["include/boost/unordered/detail/foa/core.hpp: new_arrays_for_growth, unchecked_emplace_with_rehash, recover_slot, initial_max_load, capacity_for", "include/boost/unordered/detail/foa/table.hpp: emplace_impl"]}
{"id": "C64", "title": "Memory accounting of the closed-addressing containers", "statement": "The bucket and group arrays of unordered_map, unordered_set, unordered_multimap and unordered_multiset are accounted for: in every program, whatever fails (including the second of the two allocations, or the hash function in the middle of a rehash or a copy construction), every array is given back exactly once, to the allocator it came from and with the size it was requested with; at every moment the arrays out are exactly those of the existing containers (none for a container without buckets, otherwise bucket_count()+1 buckets and bucket_count()/64+1 groups), hence none once all containers are destroyed. Lookup, iteration, erasure, clear(), extraction, swap, move construction, max_load_factor(z), and insertion of one element or node while size() < max_load() neither request nor release arrays.", "quantifier": "all programs of operations on any number of containers, all element types, hash functions and predicates, all exceptions", "why_tests_cant": "leaks and double releases depend on where exactly an exception is thrown in which state", "anchors": ["include/boost/unordered/detail/fca.hpp: grouped_bucket_array constructor, destructor, move, deallocate, buckets_len, groups_len", "include/boost/unordered/detail/implementation.hpp: rehash_impl, delete_buckets, assign, move_assign, move_construct_buckets, constructors"]}
{"id": "C65", "title": "Amortized growth and space of the closed-addressing containers", "statement": "Inserting elements one by one into an unordered_map, unordered_set, unordered_multimap or unordered_multiset is amortized constant: over any history of insertions, erasures, lookups and clear(), with any exceptions, the number of elements put into other buckets by growth is at most 5 times the number of elements inserted or initially present, plus 9 (4 times, plus 3, for containers of at most 2^30 elements; 0 with an infinite max_load_factor()). bucket_count() changes only when an insertion would make size() exceed the maximum load, and is then multiplied by at least 1.8; while it is unchanged, all remaining elements keep their positions. A container that never has more than p elements has at most 9/4*(p/max_load_factor()+1) buckets (or 13, or what it had initially).", "quantifier": "all containers reachable by programs (max_load up to date), all histories of single-element operations, all hash functions, predicates, max_load_factor() values and exceptions", "why_tests_cant": "a bound for every history, size and float max_load_factor(); interrupted rehashes depend on where exceptions are thrown", "anchors": ["include/boost/unordered/detail/implementation.hpp: reserve_for_insert, rehash_impl, min_buckets, recalculate_max_load", "include/boost/unordered/detail/prime_fmod.hpp: sizes, size_index"]}
{"id": "C66", "title": "Calls of user-supplied functions: no-throw guarantees and worst-case counts", "statement": "In every state a program can reach, these operations call no function of the user (hash function, predicate, allocation, construction, copy or move of elements), so they return normally whatever those functions would do: erase(iterator), erase(first,last), clear(), iteration, size(), default construction, move construction, destruction, swap, move assignment with equal or propagated allocators, and for closed addressing max_load_factor(z), extract(iterator) and the destruction of node handles. All other operations make a bounded number of calls: with z = size(), find/at/count/contains/erase(key) at most 1+z, an insertion at most 2+z (open addressing) or 3+z (closed) below the maximum load and 3+3z or 5+2z when the container grows, rehash/reserve 1+2z or 2+z, erase_if z or 1+z, comparison z1*(1+z2), merge z2*(3+3(z1+z2)), copy 1+2z, insertion of a range of m elements m*(3+3(z+m)) (open addressing), m*(5+2(z+m)) (closed; 2+z+m*(3+z+m) for forward iterators and equivalent keys). Copy and move construction and assignment between closed-addressing containers with different allocators, closed-addressing merge and comparison make at most a number of calls quadratic in the sizes (linear for unique keys where nothing is looked up), and closed-addressing merge and comparison never construct, copy or move an element. Inserting a key that is present (insert, emplace and try_emplace with the key at hand, operator[]) looks it up, in at most 1+z calls, and neither allocates nor constructs anything; insert_or_assign makes one assignment in addition. Rehashing a closed-addressing container and inserting a node handle never construct, copy or move an element. In concurrent containers visit, contains, erase and erase_if(key) hash their key exactly once, and an insertion once plus once for each time it has grown the container, however often it starts again because other threads insert.", "quantifier": "all programs over any number of containers, all their states, all hash functions (including constant ones), predicates, element types and places where a call throws", "why_tests_cant": "a bound over all states, all collisions and all places where an exception may strike", "anchors": ["include/boost/unordered/detail/foa/core.hpp: find, erase, clear, swap, rehash, for_all_elements", "include/boost/unordered/detail/foa/table.hpp: emplace_impl, erase_if", "include/boost/unordered/detail/implementation.hpp: find, emplace_unique, erase_key, erase_nodes_range, rehash_impl, extract_by_key_impl, insert_with_node", "include/boost/unordered/detail/foa/concurrent_table.hpp: visit_impl, erase_if, emplace_and_visit_impl, unprotected_norehash_emplace_and_visit"]}
{"id": "C67", "title": "Amortized growth and space of concurrent containers", "statement": "Whatever calls any number of threads make on a concurrent container, in any interleaving and with any exceptions, growth is amortized constant: from a moment when no call on the container is in progress, the number of elements moved to another array is at most 62 times the number of elements inserted since then plus the number of elements it had (3 times, if erasures never lower max_load() below its value for a new array), as long as no operation on whole containers intervenes. Elements change place only when an insertion rehashes the container because it is exactly full and no other call is inside it - so several threads that find the container full at the same time cause one rehash; in every other step each element stays in its slot, but for the element that is erased. A rehash by insertion at most doubles bucket_count() and leaves room for one 61st more elements; a container that never holds more than p elements has at most 7(p+3)/3 buckets (or 29, or what it had).", "quantifier": "all executions of any number of threads from any reachable state, all interleavings, all user functions and exceptions", "why_tests_cant": "a bound over all histories and all interleavings of insertions, erasures and rehashes", "anchors": ["include/boost/unordered/detail/foa/concurrent_table.hpp: rehash_if_full, reserve_size, emplace_and_visit_impl, erase_if", "include/boost/unordered/detail/foa/core.hpp: unchecked_rehash_for_growth, recover_slot, new_arrays_for_growth"]}
{"id": "C68", "title": "pull(it) returns the element and erases exactly it", "statement": "In the open-addressing containers, pull(it) returns the element it points at and erases it, leaving the container exactly as erase(it) does: the other elements keep their places and iterators to them stay valid, size() decreases by one, bucket_count() stays. If moving the element out throws, the exception propagates and the element is erased all the same (basic guarantee only). Pulling from begin() until the container is empty delivers every element once, in iteration order.", "quantifier": "all containers a program can build, all positions, all moves that throw", "why_tests_cant": "The container must be left consistent for every layout of the table and every throwing move.", "anchors": ["include/boost/unordered/detail/foa/table.hpp: pull, erase_on_exit", "include/boost/unordered/unordered_flat_map.hpp: pull"]}
{"id": "C69", "title": "When an insertion uses (moves from) its arguments", "statement": "In the open-addressing flat containers, insert(value), emplace(value) and try_emplace(key,args...) pass their arguments to a constructor exactly once if they insert, and never if the key is already present, whether they return or throw; they leave them alone too when the hash function, the predicate or the allocation throws. emplace(args...) always makes a temporary element of its arguments first, exactly once, and destroys it exactly once on every path; emplace(k,v) of a map with k not of the key type makes a temporary key, and uses v only if it inserts. An insertion that throws because an element could not be moved to the grown array has already consumed its argument although it inserted nothing, even if the container is otherwise unchanged (so the documented 'no effect' does not cover the argument). In the closed-addressing containers without equivalent keys, an insertion whose arguments contain the key makes a node of them exactly once if the key is absent and not at all if it is present, whether it returns or throws, and leaves them alone if the hash function, the predicate or the node's allocation throws; every other insertion of one element (emplace of arguments the key has to be made of, or a container with equivalent keys) makes its node first, exactly once, unless the allocation fails; insert_or_assign makes a node only if the key is absent. Here too an insertion that throws in the growing rehash has used up its arguments. In concurrent containers an insertion passes its arguments to a constructor at most once however often it starts again because other threads inserted or the container grew: once if it inserts, never if it finds an equivalent element, and never if growing the container fails, so that the caller still has them.", "quantifier": "all containers a program can build, all elements, all schedules of throwing user functions", "why_tests_cant": "Every place at which a user function may throw, and every fill state, must be covered.", "anchors": ["include/boost/unordered/detail/foa/table.hpp: emplace, try_emplace, insert, emplace_impl", "include/boost/unordered/detail/foa/core.hpp: unchecked_emplace_at, unchecked_emplace_with_rehash, nosize_unchecked_emplace_at, alloc_cted_insert_type, alloc_cted_or_fwded_key_type", "include/boost/unordered/detail/allocator_constructed.hpp: allocator_constructed", "include/boost/unordered/detail/implementation.hpp: emplace_unique, emplace_hint_unique, emplace_equiv, emplace_hint_equiv, insert_or_assign_unique, construct_node_from_args", "include/boost/unordered/detail/foa/concurrent_table.hpp: unprotected_norehash_emplace_or_visit"]}
