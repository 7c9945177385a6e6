{
 "C05": {
  "status": "proved",
  "note": "probe loop; termination of find/insert also follows from the table-level theorems"
 },
 "C09": {
  "status": "proved",
  "note": "guarantee without erasures, plus arithmetic; refuted after erasures (anti-drift lowers max_load, reserve is a no-op)"
 },
 "C10": {
  "status": "proved",
  "note": "exact values for every capacity; literal documentation inequality refuted"
 },
 "C17": {
  "status": "proved",
  "note": "SSE2, Neon and interleaved layouts against a layout-free specification"
 },
 "C18": {
  "status": "proved",
  "note": ""
 },
 "C21": {
  "status": "proved",
  "note": ""
 },
 "C46": {
  "status": "proved",
  "note": "fits => exact; wrap-around for huge requests refuted"
 },
 "C01": {
  "status": "proved",
  "note": "programs over any number of containers, every operation with exceptions; history refines an abstract-map specification; no operation is undefined"
 },
 "C02": {
  "status": "proved",
  "note": ""
 },
 "C03": {
  "status": "proved",
  "note": "both iterator increments (regular and interleaved), via cfg field `regular`"
 },
 "C04": {
  "status": "proved",
  "note": "erase(iterator), erase(first,last), erase loop, erase_if with stateful throwing predicate"
 },
 "C06": {
  "status": "proved",
  "note": ""
 },
 "C07": {
  "status": "proved",
  "note": "insertion, erasure by key, lookups; erasure by iterator in C04"
 },
 "C08": {
  "status": "proved",
  "note": ""
 },
 "C11": {
  "status": "proved",
  "note": "all allocator traits"
 },
 "C12": {
  "status": "proved",
  "note": "predicates of both containers extensionally equal"
 },
 "C13": {
  "status": "proved",
  "note": "exception case: exactly one element lost (copying) per the code's erase_on_exit"
 },
 "C14": {
  "status": "proved",
  "note": "Undefined behaviour encodes double construction/destruction, raw reads, releasing arrays that still hold objects; blocks of memory are accounted for in C54."
 },
 "C15": {
  "status": "proved",
  "note": ""
 },
 "C16": {
  "status": "proved",
  "note": ""
 },
 "C45": {
  "status": "proved",
  "note": "open addressing (Properties_Foa.v) and closed addressing (Properties_FcaRange.v; also equivalent keys, where all elements of a range are inserted)"
 },
 "C47": {
  "status": "proved",
  "note": "refutation: failed move assignment leaves the source with the target's hash function"
 },
 "C32": {
  "status": "proved",
  "note": "any number of threads, every interleaving of atomic accesses (sequentially consistent on the single state word); weak CAS may fail spuriously"
 },
 "C33": {
  "status": "proved",
  "note": "solo progress within 3 own steps, pending mark always has a writer, no new readers while pending, somebody gets in"
 },
 "C34": {
  "status": "proved",
  "note": "composition of the rw_spinlock atomic-access model with the lock plans of the operations; user functions do not themselves lock containers"
 },
 "C44": {
  "status": "proved",
  "note": "doubles replaced by exact rationals"
 },
 "C22": {
  "status": "proved",
  "note": "programs over any number of containers and node handles, all operations, exceptions, allocator traits; no leak, no undefined behaviour except the refuted case of C30"
 },
 "C23": {
  "status": "proved",
  "note": ""
 },
 "C24": {
  "status": "proved",
  "note": ""
 },
 "C25": {
  "status": "proved",
  "note": "bound up to relative 2^-23; exact bound for the default maximum below 2^23 elements; exact bound in general refuted. Range insertion and assignment of initializer lists are covered for all containers (Properties_FcaLoad.v)"
 },
 "C26": {
  "status": "proved",
  "note": "requests above the largest prime refuted; after reserve(n), for every max_load_factor, insertions up to size n keep buckets and iterators; insertions never shrink"
 },
 "C27": {
  "status": "proved",
  "note": "including extraction"
 },
 "C28": {
  "status": "proved",
  "note": ""
 },
 "C29": {
  "status": "proved",
  "note": ""
 },
 "C30": {
  "status": "partial",
  "note": "holds for programs in which no copy assignment replaces the allocator by an unequal one; refuted otherwise (stale threshold, undefined behaviour from an empty source)"
 },
 "C31": {
  "status": "proved",
  "note": ""
 },
 "C48": {
  "status": "proved",
  "note": "refutation: the loop never ends"
 },
 "C35": {
  "status": "proved",
  "note": "Assumes fewer than 2^32 insertions into one probe group during one attempt (counters_fit); sequentially consistent interleaving, abstract locks (C32-C34), byte-per-slot metadata. Necessity of the bound: C43."
 },
 "C36": {
  "status": "proved",
  "note": "Assumes fewer than 2^32 insertions into one probe group during one attempt (counters_fit); sequentially consistent interleaving, abstract locks (C32-C34), byte-per-slot metadata. Traversals take effect element by element; size() is exact up to other calls in progress. Parallel-policy overloads and bulk visit (C40) are not part of this model."
 },
 "C37": {
  "status": "proved",
  "note": "Assumes fewer than 2^32 insertions into one probe group during one attempt (counters_fit); sequentially consistent interleaving, abstract locks (C32-C34), byte-per-slot metadata. "
 },
 "C38": {
  "status": "proved",
  "note": "Assumes fewer than 2^32 insertions into one probe group during one attempt (counters_fit); sequentially consistent interleaving, abstract locks (C32-C34), byte-per-slot metadata. "
 },
 "C39": {
  "status": "proved",
  "note": "Assumes fewer than 2^32 insertions into one probe group during one attempt (counters_fit); sequentially consistent interleaving, abstract locks (C32-C34), byte-per-slot metadata. "
 },
 "C42": {
  "status": "proved",
  "note": "Assumes fewer than 2^32 insertions into one probe group during one attempt (counters_fit); sequentially consistent interleaving, abstract locks (C32-C34), byte-per-slot metadata. Operations on whole containers run in one step when no other thread is inside (C34); merge between containers with different hash types is not modelled."
 },
 "C43": {
  "status": "proved",
  "note": "refutation: a run of two threads with exactly 2^32 intervening insertions stores two equivalent elements and is not linearizable"
 },
 "C49": {
  "status": "proved",
  "note": "Assumes fewer than 2^32 insertions into one probe group during one attempt (counters_fit); sequentially consistent interleaving, abstract locks (C32-C34), byte-per-slot metadata. "
 },
 "C50": {
  "status": "proved",
  "note": "Assumes fewer than 2^32 insertions into one probe group during one attempt (counters_fit); sequentially consistent interleaving, abstract locks (C32-C34), byte-per-slot metadata. At the level of abstract locks; progress of the locks themselves is C33/C34."
 },
 "C51": {
  "status": "proved",
  "note": "refutation: for every r, a run in which two insertions have restarted 2r times and none has completed"
 },
 "C41": {
  "status": "proved",
  "note": "Ordinary pointers; the moved-from hash and predicate objects keep their value; one allocation stands for locks and counters. The converted containers stay in the executions of the concurrent model, so C35-C39, C49, C50 apply to them."
 },
 "C40": {
  "status": "proved",
  "note": "visit(first,last,f), bulk_visit_impl and unprotected_bulk_visit. The per-key local variables are the positions of reserved threads of the concurrent machine, so every theorem of C35-C39 and C49 holds of executions with bulk calls; results, count, equality with single visits in order, chunk bounds, one group lock at a time, no deadlock. Same assumptions as C36; parallel-policy overloads do not exist for this function."
 },
 "C20": {
  "status": "proved",
  "note": "open-addressing, closed-addressing and concurrent containers; any archive (also with repeated keys or truncated), any previous contents, exceptions at any point; round trip and tracked iterator positions. Counts for which reserve would be undefined are excluded (refutation given). Encoding, class versions and tracking tables of the archive library are not modelled."
 },
 "C19": {
  "status": "proved",
  "note": "unordered_node_map/set (open addressing, FoaNodeModel) and the four closed-addressing containers: histories of containers and handles against separate specifications, extract, insert with and without hint, handle construction, assignment (also to itself), swap, destruction; distinct addresses, allocator of every node, conservation, exceptions at any point. Open-addressing programs with handles exclude copying containers, insert_or_assign and moves between unequal allocators (nodes are then created by copying; C01, C11 and C14 cover the contents)."
 },
 "C52": {
  "status": "proved",
  "note": "Termination as an inductive predicate over all continuations of the thread; hypothesis counters_fit as for C35-C38 (fewer than 2^32 increments of one insertion counter during one attempt). The user functions are one step each (they return or throw)."
 },
 "C53": {
  "status": "proved",
  "note": "Steps are those of the model (one atomic access each); waiting for a lock is not a step."
 },
 "C54": {
  "status": "proved",
  "note": "Blocks are identified by allocator and size (arrays are values in the model, they have no address). Nodes of the node containers are covered by C19/C14."
 },
 "C55": {
  "status": "proved",
  "note": "A job (the lambda for one group) is a traversal made by an otherwise idle thread, limited to its group. A throwing function ends the program (std::terminate), so such steps do not exist in the model. The standard library's parallel algorithm is modelled as: every job is run once, in any interleaving; std::all_of may leave jobs out once one has returned false."
 },
 "C56": {
  "status": "proved",
  "note": "The node containers' programs (NodeSpec) have no insert_or_assign, no copies and no unequal allocators; the closed-addressing ones have all of them. Exceptions: both families."
 },
 "C57": {
  "status": "proved",
  "note": "Model: ConcModel's programs with reads of happens-before consistent values (WeakModel.v). Executions are sequences respecting happens-before and reads-from (no load-buffering cycles); modification order per location is the order of the steps (writes are made under the exclusive lock or by read-modify-writes); accesses to size and max load are exact; insertion counters are only acquire/release (weaker than the code's seq_cst). Hypothesis counters_fit as in C35-C42. The clause 'lookups are linearizable' is refuted (C57_lookups_are_not_sequentially_consistent). Every sequentially consistent continuation (of operations on keys, traversals and growth, once every thread knows of the containers) is an execution of this model: C57_sequentially_consistent_executions_are_included."
 },
 "C58": {
  "status": "proved",
  "note": "Model: RwWeakModel.v (modification order of state_, coherence within a thread, release sequences of C++20, no cycles of sequenced-before and reads-from). Gives the synchronization between unlocking and locking assumed by the model of C57."
 },
 "C59": {
  "status": "proved",
  "note": "FOA: FoaHet.v; FCA: FcaHet.v; concurrent containers: ConcHet.v (ConcModel run with keys and values to look up as one type; the predicate is completed to an equivalence on pairs that the code never compares). Transparent try_emplace etc. of concurrent containers are not included."
 },
 "C60": {
  "status": "proved",
  "note": "Container locks as a whole (the multimutex of C34 is one lock here); the handler of a failed assertion throws in the model, if it aborts the events end at that point. Group locks are not containers' locks and are dealt with in C50."
 },
 "C61": {
  "status": "proved",
  "note": "Programs over ConcModel's threads plus node handles. Simplifications: insertions of values are modelled as the construction of a node in a private handle followed by an insertion from it; all containers have equal allocators; copies, initializer lists and range insertions of values are not among the whole-container operations of these programs; inserting an empty handle does not access the container and is not a step. When f1 of insert_and_visit throws the element stays inserted (RThrew: handle empty or unchanged)."
 },
 "C62": {
  "status": "proved",
  "note": "Over ConcModel (C35-C39). In C62_no_rehash_while_there_is_room no operation on whole containers takes effect in the execution considered, on any container."
 },
 "C63": {
  "status": "proved",
  "note": "Over FoaModel/FoaWorld. The number of elements moved is defined from size() and max_load() before and after (GrowSpec.moved); C63_insertions_below_max_load_move_nothing shows that nothing moves otherwise. Sequences exclude rehash, reserve and merge of a container with itself; ranges are covered as sequences of insertions. Hash calls and comparisons are not counted."
 },
 "C64": {
  "status": "proved",
  "note": "Blocks are identified by allocator and number of elements (arrays are values in the model, they have no address). The restrictions of FcaWorld.pre apply (containers of fewer than 2^53 elements; a copy assignment that replaces the allocator does not come from an empty container). Nodes are covered by C29 and C19."
 },
 "C65": {
  "status": "proved",
  "note": "Hypothesis in_program_arena (FcaProps2): the container's maximum load is up to date, i.e. no copy assignment from an empty container that replaces the allocator (C30). Range insertion, rehash, reserve and max_load_factor(z) are not among the operations counted. Elements lost by an interrupted rehash (C29) count as moved."
 },
 "C66": {
  "status": "proved",
  "note": "Number of calls, and kinds of exceptions, per operation. All operations of the sequential models are covered; for single-key operations of concurrent containers, the calls of the hash function with their key (Properties_ConcHash). Copies, moves and swaps of hash functions, predicates and allocators are not events of the model (the C++ code requires or documents them not to throw in the operations listed)."
 },
 "C67": {
  "status": "proved",
  "note": "Over ConcModel (C35-C39; counters_fit). The executions considered contain no operation on whole containers (on any container)."
 },
 "C68": {
  "status": "proved",
  "note": "the value moved from is in state Moved until erase_on_exit destroys it; the element returned is compared as a value"
 },
 "C69": {
  "status": "proved",
  "note": "flat containers, and insertions into concurrent containers under any interleaving (Properties_ConcArg); that a failed insertion keeps its argument is refuted for the sequential ones (C69_failed_insertion_keeps_its_argument_refuted) and, when growing fails, proved for the concurrent ones; node containers of open addressing, and the temporaries of emplace of concurrent containers: not covered"
 }
}