# Formal model of raalkml/ttl (Tiny Template Library) in Rocq/Coq 8.16

`/repo/ttl` is a header-only C++ container and algorithm library (21 headers). The model
follows the C++ function by function; every definition that models code cites file and lines.
All files are in `rocq/theories/`.

## 1. How the code is modelled

**Outcomes** (`Base.v`). A model function is a state monad with three outcomes,
`Ok r | UB why | NoFuel`. Undefined behaviour and lifetime errors are distinct outcomes and never
totalised away: null or dangling dereference, access outside an array, read/assign/destroy of
storage without an object, construction over a live object, release of storage that still holds
objects, use of a header as an element, signed overflow. Loops run on explicit fuel; theorems
give a bound and say that for *every* fuel above it the outcome is `Ok …` (so they include
termination), or that the loop runs out of *every* fuel (`hangs`: it never returns).

**Linked structures** (`SlistModel.v`, `DlistModel.v`, `RbModel.v`): the heap is a finite map
from addresses to cells, pointers are `option loc`, a `rbnode **` is the address of a member.
`new` takes an address from an arbitrary `Allocator` (any function of the heap returning an unused
address: reuse of freed addresses is included), `delete` removes the cell. The header node
embedded in a container object is a cell, too.

**Array storage** (`BlockModel.v`, `VecModel.v`, `FixedModel.v`, `VmapModel.v`): a block is a
list of slots, raw or holding a live object; placement new and explicit destructor calls are slot
transitions that fail on misuse. `sorted_vector_map` (`SvmModel.v`) is an array of pointers plus
entries. `bitset` (`BitModel.v`): words are naturals modulo 2^W for every word width W, words may be
uninitialised; `unsigned` counters count modulo `ulim`. Algorithms (`AlgModel.v`): one memory
sequence, iterators are positions, all ranges of a call may overlap, `int` counters overflow.
`PairModel.v`: pair, function objects. `TraitModel.v`: C++ types as a data type, traits as functions.

**References.** `const T &` arguments are modelled as references that are read where the C++
reads them (`vref`, `dref`, `cref`, `kref`), so an argument may be an element of the very container
(C17, C20, C60, C65, C75, and the list histories).

**Threads** (`Threads.v`, `Reify.v`): a thread is a tree of single memory actions (load, store,
allocate, free of one cell); a schedule is any interleaving, and in every configuration two
threads that are about to touch the same cell, one of them writing, are a data race. `performs`
ties a model function to a thread program. The address of an allocation is chosen by the
environment at that moment, so it may depend on anything.

**Specification side.** Each property theorem is stated with the small specification files
`*Spec.v` (what the abstract container is, what a call must return, what memory layout "holds
this container" means) and with `runs P m Q` of `Triple.v`: from every heap `h ∪ hf` with `P h`,
`m` ends with `Ok r` in `h' ∪ hf` with `Q r h'`. As `h'` is the *whole* memory of the container and
`hf` is anything else, this includes: no undefined behaviour, no leak, no double free, nothing else
touched. Histories: `h_correct ops` (a program that constructs two containers, executes any
sequence of calls on either, and destroys both) says every observation is the specified one and no
memory remains; `h_reaches` describes the memory after every prefix.

**Proof side.** A separation logic (`Sep.v`: the Iris proof mode instantiated with predicates over
heaps) with a weakest precondition. It appears in no property statement.

## 2. Files

| code | model | specification | proofs | theorems | concrete cases |
|---|---|---|---|---|---|
| slist_node, forward_list | SlistModel | SlistSpec, ForwardSpec | SlistLogic, SlistOps, Forward{Proofs,Splice,History,Lost,Runs} | PropsForward | ForwardExamples |
| backward_list | SlistModel | BackwardSpec | Backward{Proofs,History,Runs} | PropsBackward | BackwardExamples |
| lazy_queue | SlistModel | LazySpec | Lazy{Proofs,History,Runs} | PropsLazy | LazyExamples |
| rbtree, map, set | RbModel, RbRefModel | RbSpec, MapSpec, MultiSpec | RbPure, RbLogic, RbOps, RbFind, RbDel, RbIter, RbMap, MapStep, MapHistory, MultiHistory, RbRef, {Map,Mapped,Multi,Alias,AliasMap}Runs | PropsMap, PropsMapped, PropsMulti, PropsAlias, PropsAliasMap | MapExamples, MultiExamples |
| vector | BlockModel, VecModel | VecSpec | BlockLogic, Vec{Proofs,History,Runs} | PropsVec | VecExamples |
| fixed_vector | FixedModel | FixedSpec | Fixed{Proofs,History,Runs} | PropsFixed | FixedExamples |
| vector, fixed_vector with throwing copies | ThrowModel | ThrowSpec | Throw{Proofs,Same,Vec,Fixed,Runs} | PropsThrow | ThrowExamples |
| lazy_queue with throwing copies | ThrowLqModel | LazySpec | ThrowLqRuns | PropsThrowLq | ThrowExamples |
| list with throwing function objects | PredModel | DlistSpec, PredSpec | PredRuns | PropsPred | PredExamples |
| algorithms with throwing function objects | AlgPredModel | AlgSpec, AlgPredSpec | AlgPredRuns | PropsAlgPred | AlgPredExamples |
| set and map with throwing comparisons | CmpModel | MapSpec, CmpSpec | CmpSim, CmpDel, CmpRuns | PropsCmp | CmpExamples |
| clients of set and map that catch the exceptions of comparisons | CmpModel | CatchSpec, CmpMapSpec | CatchSim, CmpMapRuns | PropsCmpMap | CmpMapExamples |
| sorted_vector_map and vector_map with throwing comparisons | CmpVecModel | SvmSpec, VmapSpec, CmpSpec, CatchSpec, CmpVecSpec | CatchSim, CmpVecSim, CmpVecRuns | PropsCmpVec | CmpVecExamples |
| list | DlistModel | DlistSpec | DlistLogic, DlistProofs{,2,3}, DlistSplice, DlistHistory, DlistAlias, DlistLost, DlistRuns | PropsDlist | DlistExamples |
| vector_map | VmapModel | VmapSpec | Vmap{Proofs,Runs} | PropsVmap | VmapExamples |
| sorted_vector_map | SvmModel | SvmSpec | SvmPure, SvmProofs{,2}, SvmHistory, SvmRuns | PropsSvm | SvmExamples |
| bitset | BitModel | BitSpec | BitPure, BitProofs{,2,3}, BitHistory, BitRuns | PropsBit | BitExamples |
| algorithm, numeric, array, utility (swap, distance) | AlgModel | AlgSpec | AlgProofs{,2,3}, AlgRuns | PropsAlg | AlgExamples |
| calls of function objects by the algorithms | CallsModel | CallsSpec | CallsProofs{,2,3}, CallsRuns | PropsCalls | CallsExamples |
| utility (pair …), functional | PairModel | (in PairRuns) | PairRuns | PropsPair | PairExamples |
| failing allocations | (models above), Fault | FaultSpec | FaultLogic, FaultThrow, FaultSl, FaultDl, FaultMap, FaultVec, FaultCtor, FaultRuns | PropsFault | FaultExamples |
| all containers, number of memory accesses | (models above), Threads | Cost, CostSpec | CostLogic, CostNet, CostProofs, CostWalk, CostRuns | PropsCost | CostExamples |
| storage layout of vector/fixed_vector/list values | LayoutModel | LayoutRuns | LayoutRuns | PropsLayout | LayoutExamples |
| type_traits, utility (move) | TraitModel | TraitSpec | TraitRuns | PropsTrait | TraitExamples |
| all containers, threads | Threads, Reify, Clients | ThreadSpec | ThreadLogic, ClientsLogic, Thread{Sl,Dl,Sv,Map,Vec,Runs} | PropsThread | ThreadExamples |

`Props*.v` are generated from the marked lemmas of `*Runs.v` (`tools/genprops.py`) and repeat every
statement in full; `tools/genmanifest.py` collects them in MANIFEST.json.
Shared: `Base`, `Triple`, `Sep`, `SepHangs`, `State`, `History*`.

## 3. Properties

"refuted" means: the property is false of the code at the pinned commit; a theorem (suffix
`_refuted`, or a universal theorem about what happens instead) says so, the part that does hold is
proved (suffix `_partial`), and the manifest says `partial`.

| id | modelled | proved how |
|---|---|---|
| C01–C06, C08, C12 | rbtree/map/set on the heap | wp for every function; zipper view of the tree; LLRB invariants; order/contents by induction; histories by induction over the call sequence |
| C07 | self-assignment in all containers | refuted universally for each container |
| C09 | map/set upper_bound, equal_range | exact result proved, with an iff; refuted |
| C10, C11 | rbtree with duplicate keys | per call and whole histories within `x_spec`; remove/count with several equal keys refuted |
| C13 | Compare coarser than == | proved for consistent orders; refuted |
| C14, C15, C18 | vector | slot transitions, loop invariants, histories |
| C16, C17 | vector erase(p,p), own elements | exact behaviour; refuted cases universal |
| C19, C20, C21 | fixed_vector | refinement to `take N`; refuted cases universal |
| C22, C23 | forward_list | wp + histories; degenerate splices refuted |
| C24, C28 | backward_list | wp + histories within `bl_ok`; tail_ defects refuted |
| C25, C26, C27 | lazy_queue | wp + histories; ~T run twice refuted |
| C29, C33 | list | wp + histories with element references |
| C30–C32, C34, C35, C60 | list | exact behaviour + refutations |
| C36, C37 | vector_map | refinement; count hangs (`hangs`) |
| C38, C41 | sorted_vector_map | bsearch invariant, histories, entries never move |
| C39, C40, C61, C62 | sorted_vector_map | exact behaviour + refutations |
| C42–C44, C48 | bitset | word arithmetic to bit functions, histories |
| C45–C47, C63, C64 | bitset | exact behaviour + refutations |
| C49, C50, C52, C54–C58 | algorithm, numeric | loop invariants to list specifications, memory outside the ranges unchanged |
| C51, C53, C65–C67 | algorithm | exact behaviour + refutations |
| C59 | array | loop invariants |
| C68, C69 | function objects, pair | direct |
| C70–C72 | type traits | induction over types |
| C73, C74 | all containers, any number of threads, all schedules | every read-only call is shown to perform only loads of the container's cells; workers own disjoint cells; induction over the schedule |
| C75 | map/set/tree with reference arguments | by-reference transcription shown to agree with the by-value functions while the element is neither written nor released; then the by-value theorems |
| C76 | value initialisation of elements made without a value | object representations as bytes with an indeterminate state; `new (p) T` and `T()` modelled; the reading of a default-made scalar refuted for list::resize, proved for the containers that use `T()` |
| C77 | fixed_vector storage alignment | buffer address arithmetic: every slot aligned iff the buffer is; misaligned instance exhibited |
| C78 | vector capacity arithmetic | `n * sizeof(T)` modulo 2^64 and the ptrdiff_t conversion; allocation big enough iff no wrap; wrapping request exhibited |
| C79 | forward_list, list, set, map, vector, vector_map under failing allocations | every model function is shown to perform a tree of accesses (Threads.v); a call may stop at any allocation of the tree; the client goes on with the memory of that point; induction over the history with the C73-style step invariants |
| C80, C81 | single calls under failing allocations | before its only allocation the call performs loads only (strong guarantee) / the call performs no allocation (no-throw), shown by a syntactic analysis proved sound |
| C82 | throwing constructors and assignments | same tree; exact contents of memory at the throw; leak exhibited for every number of nodes |
| C83 | sorted_vector_map insert under failing allocations | same tree; exact memory at both allocation points; the torn array (an entry twice, counted) shown reachable and its destructor shown to fail |
| C84 | backward_list multi-element insertion under failing allocations | same tree; the usable outcomes proved, the stale tail_ exhibited for every k < n and shown to break push_back |
| C85 | lazy_queue under failing allocations | same tree; the allocation of get_node shown reachable only with an empty pool; stale tail_ exhibited as for C84 |
| C86 | number of accesses of positional list calls | the program tree of the call (Threads.v) is computed with its number of accesses along every path; termination from the call's triple |
| C87 | number of accesses of whole-container calls | same; loops: cost of one pass times the number of passes, which is the fuel the triple needs; recursive destruction and copying: accesses paid by the cells freed or created |
| C88 | push_back | refuted: lower bound along every path of a growing push_back, summed over n calls; positive part for reserved capacity |
| C89 | function objects called by the algorithms | the algorithms with the sequence of calls in the state (CallsModel.v), answers depending on all earlier calls; scans, full passes, binary searches by induction; erasure theorem back to AlgModel.v |
| C90 | minmax_element | refuted: exactly 2(n-1) comparisons |
| C91 | whole walks over a set or map | every ++ with just the fuel its own path needs; the paths of all positions sum up to at most 2n, by induction over the tree |
| C92 | vector and fixed_vector with element copies that throw | the member functions again as programs over the members that may throw (ThrowModel.v), with the members changed at exactly the statement that changes them; a separation logic with two postconditions (returned / thrown); refuted for every state, every call and every copy that throws; equality with VecModel.v/FixedModel.v when none throws |
| C93 | lazy_queue with element copies that throw | get_node with a placement new that may throw (ThrowLqModel.v); the state after the exception characterised, the lost node exhibited |
| C94 | list with function objects that throw or keep state | remove_if, unique and merge again with a function object numbered by call, an exception leaving memory as it is (PredModel.v); what is left is compared with recursive functions on lists (PredSpec.v) |
| C95 | set and map with comparisons that throw | find, the bounds, insert_unique, remove again in a monad with exceptions, the calls of Compare and == numbered (CmpModel.v); a simulation against the plain functions for every memory (CmpSim.v), and the invariant of the deletion loop at each throw point (CmpDel.v); by induction over programs, catching clients of the calls other than erase and range insertion (CmpMapRuns.v); the later loss exhibited by a run |
| C96 | sorted_vector_map and vector_map with comparisons that throw | their member functions again in the monad of CmpModel.v (CmpVecModel.v); all comparisons precede the first write, so each call is all or nothing against the plain model, from every memory (CmpVecSim.v); by induction over programs, and with C36 and C38, catching clients observe the history of the calls that do not throw |
| C97 | algorithms with function objects that throw or keep state | the algorithms with one function object again (AlgPredModel.v), the function object numbered by call, an exception leaving memory as it is; the results are compared with recursive functions on sequences (AlgPredSpec.v), by induction on the range |

No property of the list is outside the model; what the model leaves out is listed below.

## 4. Trusted base

* Coq 8.16.1's kernel (with `vm_compute`, used in the concrete examples).
* Axioms: `Print Assumptions` says "Closed under the global context" for **every** theorem of the
  manifest (each `Props*.v` and `*Examples.v` prints it). coqchk additionally lists seven constants
  of the standard library's `Coq.ssr.ssrunder` module type instances (`Under_rel.*`), loaded
  with ssreflect; no theorem depends on them. No axiom, functor or module type is declared here.
* That the definitions of `*Model.v` say what the C++ text says, and that the `*Spec.v` files and
  theorem statements say what `properties.jsonl` says. Both were tested by seeding wrong programs
  (`seeded/seed.py`, results in `seeded/LOG.jsonl`).
* Libraries used: stdpp, Iris' proof mode (only for proofs), the standard library.

### Simplifications (also stated in the model files)

* No exceptions (README: "designed for use without exceptions and RTTI"), so `operator new` never
  fails, except in C79–C85, which are about the same code compiled with exceptions: there every
  allocation may throw (or, for the lists, set and map, the element's copy constructor inside `new
  node(value)`), and in C92 and C93, where the copy constructor in a placement new of vector,
  fixed_vector and lazy_queue may throw (fixed_vector::swap, and throwing T(), ~T() are not
  covered). In C94 the function objects given to list's member functions may throw, in C97 those given to ten algorithms, in C95 and C96 Compare and the
  keys' == of the sets and maps. Otherwise copying, comparing and destroying elements has no side effects of its own
  (destruction and construction are tracked, their code is not).
* Sequential theorems: the allocator is an arbitrary function of the heap. Threads: the address
  is chosen freely at every allocation.
* `size_t`/`ptrdiff_t` arithmetic of vector/list/map sizes does not wrap (all objects fit in
  memory); `n * sizeof(T)` does not wrap, except in LayoutModel, where C78 treats exactly that. `int`/`unsigned` counters do wrap or overflow (bsearch,
  count, distance, lower_bound, bitset loops).
* Forming (not dereferencing) a pointer beyond one past the end, as in `last_ + n` in
  fixed_vector/vector insert, is not flagged.
* Access counts (C03, C38, C86-C88, C91): one read or write of a node, of an array element or of an object
  in the heap model, one `new`, one `delete` counts one (a placement new or a destructor call on an
  array element counts two: the model checks and then changes the slot); members of vector, the
  queue and sorted_vector_map objects held in records are not counted, nor are comparisons and copies.
* `const` and non-`const` overloads, pre- and postfix operators, iterator and const_iterator are
  one definition; `!=` is the negation of `==`.
* Threads: one step is one access to one cell (a whole node; a whole vector block), so the race
  notion is coarser than the C++ one (a race at member granularity is one at cell granularity).
  Executions are sequentially consistent, which race-free C++ programs are. Members of the
  container object that are not in the heap model (elements_, last_ …) are passed by value: they are
  read-only in C73 and thread-private in C74. The threads of one theorem use one container kind and
  element type.
* type traits: enumerations, classes, member pointers and functions are atoms.

### Not modelled

* Code under `#if TODO`: backward_list.hpp 180–194, 294–305 and the resize/remove/unique/merge/
  sort declarations there.
* Functions declared but defined nowhere: map/set erase(iterator), erase(range), swap,
  insert(hint); forward_list/lazy_queue resize, remove, unique, merge, sort; list sort;
  sorted_vector_map range constructor, operator=, erase, swap, insert(hint/range);
  vector_map operator=.
* Trivial wrappers: max_size, data(), operator->, key_comp/value_comp, countof, bitset::slot and
  operator bitset<M>, placement new (types.hpp), ttl.hpp.
