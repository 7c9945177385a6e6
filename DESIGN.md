# Formal model of boostorg/unordered in Rocq/Coq 8.16 — design

Paths are relative to `/repo/include/boost/unordered/`.  "FOA" is the open-addressing
implementation (`detail/foa/*`: `unordered_flat_*`, `unordered_node_*`), "FCA" the
closed-addressing one (`detail/implementation.hpp`, `detail/fca.hpp`: `unordered_map`,
`unordered_set`, `unordered_multi*`), "concurrent" is `detail/foa/concurrent_table.hpp`
(`concurrent_flat_*`, `concurrent_node_*`).  Coq files are in `rocq/theories/`.

## Method

* Executable Gallina models (`*Model.v`, `FcaLinks.v`, `*World.v`), one definition per C++
  function, each with a comment citing file and lines and naming simplifications.
* Specifications (`FoaSpec.v`, `FcaSpec.v`, `ConcSpec.v`, `ConcBulkSpec.v`, `NodeSpec.v`,
  `SerialSpec.v`, `GroupSpec.v`), which know nothing of the models: association lists up to
  permutation, an atomic machine, archives, slots of a group.
* Property files `Properties_*.v`: only the theorems named `Cnn_…`, their `Print Assumptions`,
  and examples of concrete non-trivial states meeting the hypotheses. Each starts with a reading guide.
  Everything else is proof.
* Models are deterministic functions `state -> event number -> result`: a result is a value
  (`Ret`), an exception (`Exn`, with the kind: allocation, hash, equality, element construction,
  element transfer), or undefined behaviour (`Undef`: reading raw or moved-from memory as an
  element, constructing over an element, destroying twice, leaving an array, releasing memory
  with another allocator, failed assertion, a loop that would not end). Which events throw is an arbitrary
  function of the event number, so theorems cover exceptions at every point. Theorems state that
  `Undef` is never the result when the documented preconditions hold.
* Programs (`FoaWorld.v`, `FcaWorld.v`, `FoaNodeModel.v`): arbitrary sequences of operations over any
  number of containers (and handles), starting from none. `runs`/`reachable` are the hypotheses
  of the theorems, so nothing is assumed of a container except that a program produced it.
* Hash function and key equality are universally quantified: any functions, one per function object,
  where equality is an equivalence compatible with the hash.
* Concurrency (`ConcModel.v`): any number of threads, small steps, each with at most one access
  changing the shared state; theorems hold of every interleaving and any number of steps, by an inductive
  invariant (`ConcInv.v`, `ConcSys.v`), and linearizability by a forward simulation of the atomic
  machine of `ConcSpec.v`.
* Refutations are theorems too (suffix `_refuted`, or named after what goes wrong): where the property as first written in
  `properties.jsonl` is false of the code, a concrete reachable state shows it, next to the strongest
  statement that was proved.

## Per property

| id | model | specification and proof | files |
|----|-------|-------|-------|
| C01 | FOA table: groups of 15 metadata bytes + overflow byte, element cells, `ml`, `size`; all members of `core.hpp`/`table.hpp` | histories of programs are histories of abstract maps (`FoaSpec`); invariant: each element reachable from its home group through overflow marks | FoaModel, FoaWorld, FoaInv … FoaRun, Properties_Foa |
| C02, C06 | same | part of the invariant: size = occupied slots; size <= ml <= capacity | same |
| C03, C04 | iterators (`FoaIterModel`), both increments (SIMD/regular and interleaved) | occupied-slot list; induction over groups | FoaIter, FoaProps* |
| C05 | `pow2_quadratic_prober` | triangular numbers mod 2^k | SizeModel, Properties_Arith |
| C07–C09 | emplace/rehash/reserve, float32 arithmetic | frame lemmas; arithmetic for every n; reserve guarantee refuted after erasures | FoaProps2, Properties_Arith |
| C10, C46 | initial_max_load, `buffer_size` | arithmetic; literal documentation note and wrap-around refuted | SizeModel |
| C11, C12, C13, C45, C47 | assignment, swap, comparison, merge, ranges, with allocator traits | refinement; C47 refuted | FoaCopy, FoaAssign, FoaMerge; C45 for closed addressing: Properties_FcaRange |
| C14–C16 | cells are raw, live or moved-from | no `Undef`, invariants after exceptions | FoaRehash, FoaProps3 |
| C17 | SSE2, Neon, interleaved `group15` | simulation by bit-level reasoning | GroupModel, GroupProofs |
| C18, C21 | size policies, mulx, prime_fmod | arithmetic; table facts by computation over the 38 sizes | HashArith* |
| C19 | node handles, FOA node containers and FCA | histories against `NodeSpec`/`FcaSpec`; addresses of nodes form a set that operations conserve | FoaNodeModel, FoaNode*, Properties_Node, Properties_NodeFca |
| C20 | save/load for FOA, FCA, concurrent | every archive, every previous content | SerialModel, FcaSerialModel, Properties_Serial* |
| C22–C31, C48 | FCA: bucket groups (bitmaps, circular list), nodes in bucket chains, float load factors | histories against `FcaSpec`; arithmetic; refutations in C25, C26, C30, C48 | Fca*, FcaRangeLoad, Properties_Fca, Properties_FcaLoad |
| C32, C33 | rw_spinlock state word, every interleaving of atomic accesses, spurious CAS failures | inductive invariant, measures | RwSpinlock* |
| C34 | lock plans of container operations over the rw_spinlock model | ordered acquisition | Locks* |
| C35–C39, C42, C43, C49–C51 | concurrent table | inductive invariant, simulation, visits as list of events; C43 and C51 exhibit runs | Conc*, Properties_Conc, Properties_ConcSize |
| C52, C53 | concurrent table | C52: well-founded induction over the positions of the call (prober covers all groups, a free slot exists); C53: rank decreased by own steps, untouched by others | ConcSolo*, ConcBound, Properties_Solo |
| C54 | allocate/deallocate calls of the open-addressing containers | model functions instrumented with the log of allocator calls; simulation (dropping the log gives FoaModel back) plus balance of the log, by induction on programs | MemSpec, FoaMem*, Properties_Mem |
| C55 | visit_all/visit_while/erase_if with an execution policy | a call is a set of jobs, one per group, each a traversal of ConcModel by an otherwise idle thread; the machine's executions are executions of ConcModel up to where jobs begin and end, so invariants and the linearization argument carry over; separate ledger of the elements visited by each job | ConcParModel, ConcPar*, Properties_Par |
| C56 | pointers and references to elements of node-based containers stay valid | separate small specification of where elements go and which end (PtrSpec); proved from the exact postconditions of C19/C22/C23 programs, whose elements carry addresses | PtrSpec, PtrFacts, Properties_Ptr |
| C57 | the concurrent containers under the C++ memory model | happens-before (program order, locks, counters, client messages) over logs of events; a step reads at each location any value not overwritten by a write that happens before it; invariant: what each thread knows of the writes a stored element depends on (WeakInv/WeakLook); consequences: no race, no duplicates, known keys are found, all else atomic; refutation by an executed store-buffering run | WeakModel, WeakSpec, Weak*, Properties_Weak, WeakSC, Properties_WeakSC (every sequentially consistent continuation is an execution of the weak model) |
| C58 | memory orders of rw_spinlock | every access to state_ with its memory order; modification order as a list into which writes are inserted anywhere coherence allows; loads return any coherent value; happens-before from sequenced-before, release sequences and acquire | RwWeakModel, RwWeakProofs (every write comes last in the modification order; the word encodes the owners), RwWeakHb (the last write continues a release sequence from every unlocking, directly or through happens-before), Properties_RwWeak |
| C59 | heterogeneous lookup | the member templates run on a value of another type with its own hash and equality functions; refinement of lookup and erasure on the invariants of C01/C22, and equality with the ordinary operations when the value behaves like a key | FoaHet, FcaHet, Properties_Het, ConcKeys, ConcHet, Properties_ConcHet |
| C60 | reentrancy check | interpreter of nested accesses with the thread-local list of entry traces as linked objects in memory; simulation with a specification by enclosing accesses; well-typed lock traces and a highest-lock argument for absence of deadlock | ReentModel, ReentSpec, ReentProofs, Properties_Reent |
| C61 | node handles of concurrent node containers | machine of ConcModel with handles added; ownership invariant (each address in one container or handle) preserved by every step, conservation of elements by every step, results at returns read off the invariant | ConcNodeModel, ConcNodeSpec, ConcNode, ConcNode2, ConcNode3, ConcNodeExec, Properties_ConcNode |
| C62 | concurrent containers rehash only when full | every step of the concurrent machine is classified by what it does to capacity and max load; budget invariant (elements erased but max load not yet updated) over executions | ConcCap, Properties_Cap |
| C63 | growth is amortized, space proportional to peak size | potential function (elements moved + size <= 62*inserted + 61*(max_load-size) + initial size) over sequences of operations; float bound on ceil(n/mlf) for the capacity requested | GrowSpec, FoaGrow, FoaGrow2, Properties_Grow |
| C64 | allocate/deallocate calls for the bucket and group arrays of the closed-addressing containers | as C54: FcaModel functions instrumented with the log of allocator calls; simulation plus balance of the log, by induction on programs | FcaMem, FcaMemKeep, FcaMemProofs, Properties_FcaMem |
| C65 | number of elements put into other buckets by growth, and bucket_count(), of the closed-addressing containers | potential argument in integers (max_load_factor as z/2^149), with the float rounding bounds of FcaLoad/FcaReserve and the prime table; induction on histories | FcaGrowKeep, FcaGrowSpec, FcaGrow, Properties_FcaGrow |
| C66 | the events of the models (each call of a user-supplied function has a number and may throw) counted per operation; copying or swapping of hash function, predicate and allocator objects is not an event | compositional rules for the number of events (Nc: none, Cb d: at most d) and for the kinds of exceptions; the invariants bound the elements visited by a lookup | CallSpec, FoaCalls, FoaCalls2, FoaCalls3, FoaCalls4, FcaCalls, FcaCalls2, FcaCalls3, FcaCalls4, FcaCalls5, Properties_Calls, Properties_FcaCalls, Properties_FcaCalls2; concurrent containers: ConcHash, Properties_ConcHash (counters per thread of hash calls and growths, an invariant by position in the call) |
| C67 | executions of ConcModel; elements moved by the steps that rehash a full container | potential function m + 61*(m + pending erasures) against 61*max_load, by induction over executions; the rehash itself by the lemmas of C63 on the idle container | ConcGrowSpec, ConcGrow, Properties_ConcGrow |
| C68 | pull(it): the element is moved out, then erase_on_exit erases it, also on exception | equality of the final state with that of erase(it), so C04 applies; induction for draining loops | FoaPull, Properties_Pull |
| C69 | the functions of FoaModel with a count of uses of the arguments (ArgModel), and the temporaries of emplace with their lifetimes | erasure to FoaModel's functions, case analysis of every exit; the stronger reading of the documentation refuted by a container of 29 elements; closed addressing: the heap's allocation counter; concurrent containers: a counter per thread of the constructor calls with the arguments of the call in progress, and an invariant by position in the call | ArgModel, FoaArg, Properties_Arg, FcaArg, Properties_FcaArg, ConcArg, Properties_ConcArg |
| C40 | bulk visitation with per-key local state | each bulk execution is one of the single-key machine | ConcBulk*, Properties_Bulk |
| C41 | conversions concurrent/non-concurrent | refinement both ways | ConcConv, Properties_Conc |
| C44 | Welford recurrences over Q | field | StatsModel, Properties_Stats |

No property is left as not applicable. C30 is `partial`: it holds for programs in which no copy assignment
replaces the allocator by an unequal one, and is refuted (with a reachable state) otherwise.

## What is modelled, what is not

Modelled, per component, with line references in the files:
* FOA: size policy, probing, metadata in three layouts (the table itself uses the byte layout; C17 relates the three), find,
  insert/emplace/try_emplace/operator[]/insert_or_assign, erase in all forms, iterators, clear, rehash, reserve, growth,
  anti-drift of `ml`, constructors, destructor, assignments, swap, merge, comparison, erase_if, extract/insert of nodes, node handles, serialization, conversions.
* FCA: the same for grouped bucket arrays with prime sizes, equivalent keys, hints, bucket interface, max_load_factor setters.
* Concurrent: the two-phase optimistic insertion with insertion counters, group access locks, container lock, visitation, erase, size, bulk
  visitation, whole-container operations, conversions, serialization.

Simplifications (each also at its definition):
* C++ `size_t` is 64 bits; `float` is IEEE binary32, round to nearest even, no excess precision; the float operations used are modelled exactly on integers (`FloatModel.v`).
* Templates: one model with keys `K` and mapped values `V` (`unit` for sets); transparent lookup of the sequential containers is modelled apart (C59), in the concurrent ones it is not. `emplace` arguments are a ready value.
* Fancy pointers, `construct` of allocators with side effects, ABI/alignment, compile-time dispatch and `noexcept` are not modelled. Arrays of FOA are values owned by a table, with the allocator they came from;
  bucket arrays of FCA are values (that a call does not reallocate is stated as: the bucket count is the same, because the code reallocates only then).
* A `KAlloc` event stands for the single allocation of metadata and elements; for concurrent tables for all allocations of the arrays.
* Concurrent (C35–C43, C49–C53, C55): sequentially consistent interleaving; the relaxed accesses to group metadata are the subject of C57, whose model keeps the order of
  steps (no load-buffering), takes the modification order of a location from it, and keeps size and max load exact. Locks are abstract
  in `ConcModel` (their implementation: C32–C34); the atomic size counter is unbounded; calls of user functions under a lock are one step; operations on whole containers are one step
  when the container lock permits; merge between containers with different hash types is not modelled; bulk visitation uses one virtual thread per key of a chunk.
  `counters_fit` (fewer than 2^32 insertions into one probe group during one insertion attempt) is a hypothesis of C35–C42, C49, C50; C43 shows that it is necessary.
* Serialization: an archive is a count and a list of items; encodings, versions and object tracking tables of the archive library are not modelled.
* Statistics: doubles are exact rationals.

## Trusted base

* Coq 8.16.1's kernel (including `vm_compute`; no `native_compute`).
* `Print Assumptions` follows every theorem in the property files; all of them print "Closed under the global context": no axioms, neither of the standard library nor of others.
  Some files load standard-library modules that contain axioms (`Coq.ssr.ssrunder`, through the preprocessing of `lia`) but no theorem depends on them. Libraries used: Coq's standard library only.
* The reading of the C++ text: no code was run. The models are transcriptions by hand.
* `tools/manifest.py` collects the theorem names into MANIFEST.json. `tools/mutate.py` runs the experiments in `seeded/LOG.jsonl`.

## Seeded wrong programs

`seeded/LOG.jsonl` has one line per experiment: an edit of a model definition as a realistic bug would make it, the claim it breaks,
the files and theorems that no longer compile. Edits that went unnoticed led to stronger theorems, as recorded in the lines concerned.
