# KTL in Rocq: design of the model and of the proofs

Target: KredeGC/KTL (header-only C++), as checked out in `/repo`.  Tool: Coq 8.16.1
with std++ (finite maps, lists) and Iris' `bi`/proof mode (only as a library for a
*separation logic defined here*; no Iris axioms, no Iris ghost state).

## 1. What is modelled

The library is a set of templates.  A template over allocators is modelled by a Gallina
function from *allocator records* to *allocator records*, so that the composition
`fallback<linear_allocator<64>, freelist<8,64,mallocator>>` is a Gallina term of the
same shape, and a theorem that quantifies over records or over the syntax tree
quantifies over every C++ instantiation.

* **Machine.**  64-bit addresses and `size_t` are `N` with explicit wrap-around mod 2^64.
  The store is a finite map from addresses to cells plus the table of live `malloc`
  blocks.  A cell is undefined, a byte, or fragment `i` of an (abstract) element value.
  Access to an address with no cell, reading an undefined cell as a byte, `free` of
  something that is not a live `malloc` block, null dereference, destroying a
  non-object, ... yield the distinct result `UB`.
* **malloc** is an oracle: a stream of proposed addresses.  The model accepts a proposal
  only if it is what a conforming `malloc` may return (non-null, aligned to 16, not
  wrapping, disjoint from every existing cell and live block) and otherwise returns null.
  All theorems quantify over all streams, hence over all placements and failures.
* **Events.**  Messages printed by `overflow`, failing `KTL_ASSERT`s, constructor and
  destructor calls of elements, unchecked allocation failures are emitted as events.
* **Monad.**  `M A := world -> Ok a w events | UB reason events`.

Every definition carries a comment with the file and lines it models.

## 2. How it is proved

* `Sep.v`: a linear (non-affine) separation logic over the store, an instance of
  Iris' `bi` interface built here; weakest precondition `wp` with built-in framing and
  soundness by definition.  Linear, hence a postcondition without leftover resources is
  a no-leak statement.
* `Contract.v`: the allocator contract as a predicate over allocator records: an
  invariant `J base st S` where `S` is the multiset of outstanding blocks, and laws for
  `allocate`, `deallocate`, `owns`, `max_size`, construction, destruction.
  One theorem per allocator ("if the inner allocators obey the contract then so does the
  combination"), then induction over the tree.
* `Client.v`: what this means without separation logic: every finite history of
  allocate / write / read / deallocate of a client that only frees its own blocks runs
  without UB and behaves like a specification which knows only a list of blocks with
  contents.  This specification is separate from the model's helpers.
* `NoFail.v`: the only way a composition can go wrong is to dereference the null pointer that
  `malloc` returned for a node or a shared block (`EvRefuse`, the event that marks every refusal
  of `malloc`, then `EvFail`, then `UBNull`; `starved`); executions that end
  normally contain no such event, hence the theorems about compositions hold for them without
  exception (`session_strict`).
* Containers: operational models over any contract-abiding allocator, forward simulation
  to lists / multisets.  Aliasing of arguments is expressible (an argument is either an
  external value or the address of an element), therefore the self-insertion and
  self-assignment findings are stated in the same model.
* Concurrency: interleaving semantics with explicit micro-steps (`threaded`,
  `atomic_shared`), invariants over reachable states.
* Where a statement a user relies on is false of the code, the theorem is named
  `..._refuted` and exhibits the execution; the strongest true variant is proved next to it.

Files: `Spec/model` files contain definitions, `*Proofs.v` the work, `Prop*.v` only the
property theorems (each closed by `exact`) with `Print Assumptions` and a non-vacuity
`Example`.

## 3. Plan per property

| id | modelled | proof |
|----|----------|-------|
| C01-C03 | `align_to_architecture`, `log2`, `pow2` over N mod 2^64 | arithmetic, bitwise lemmas; independent spec (Z.log2, least power of two) |
| C04 | `packed_ptr` as a 64-bit word and its setters | bitwise; induction over the call sequence |
| C05, C06 | builders as recursive functions producing trees; routing by evaluating the tree | strong induction on the length of the pack |
| C07 | all preprocessor branches of `aligned_malloc` | wp; POSIX branch (swapped arguments) refuted |
| C08-C11 | linear, stack | contract instance; C11 refuted near 2^64, proved below |
| C12-C15 | mallocator, freelist with links stored in memory | contract instances, chain predicate |
| C16-C18 | segragator, fallback | contract combinators; C18 refuted, guarded by n > 0 |
| C19-C22 | cascading with malloc'ed nodes | contract combinator; C21, C22 refuted |
| C23-C26 | overflow with guard bytes in memory | wp of the scanning loops against a declarative spec of "furthest modified byte" |
| C27-C29 | syntax tree of compositions | structural induction |
| C30 | max_size tightness | refuted (freelist, overflow, unaligned linear) + proved for aligned linear |
| C31 | type_allocator | wrap refuted, guarded proved |
| C32, C33 | handles and reference counts | invariant over histories; self-assignment refuted |
| C34-C36 | interleavings | invariants; non-atomic counter and unlocked members refuted |
| C37 | global | refuted (`!=`), shared state proved |
| C38 | construct/destroy forwarding | structural induction over trees |
| C39-C44 | trivial_vector | simulation to lists; C42-C44 refuted |
| C45 | trivial_array | simulation |
| C46 | trivial_buffer | simulation |
| C47-C52 | binary_heap | simulation to multisets, heap order invariant; C50 refuted for pop of last element |
| C53 | containers under allocation failure | refuted |
| C54 | KTL_ASSERT | assertions are events, contract forbids them |
| C55, C56 | move assignment of linear, move of overflow | refuted |
| C57, C58 | trivial_buffer as a whole; self-assignment | simulation to lists; C58 refuted |
| C59 | `==` and `!=` over the syntax tree (`Transfer.v`) | structural induction; `!=` of global refuted |
| C60 | move construction and assignment over the syntax tree, programs with many objects (`Slots.v`) | per-template laws added to the contract (`TransferProofs.v`), induction over the tree, then over the program |
| C61, C62 | overflow counters and the freelist assertion under moves | refuted by execution |
| C63 | comparison of shared handles | corollary of C32; two empty handles refuted |
| C64, C66 | amortised growth of trivial_vector and binary_heap | potential argument over the observed capacities of the list specification |
| C67 | blocks held by freelist | invariant of the contract at every prefix of a program: a null m_Free means that nothing is cached; induction on the program; number of heap tokens in the owned store for the heap |
| C68 | instances held by cascading over linear_allocator | contract invariant plus a state invariant: only the first instance may be empty, an empty instance is rewound; false for sizes that are no multiple of 16 |
| C69 | comparisons made by binary_heap | query complexity (HeapSteps.v): the index halves in percolateUp and more than doubles in percolateDown; sizes are bounded through every operation |
| C70 | alignment of elements | invariant of the list specification (storage at a multiple of 16) carried through every program; false for over-aligned types |
| C71 | containers over shared handles | refinement of the programs by a specification without counters; invariant: the use count of a block is the number of handles and containers that refer to it |
| C72 | self-assignment of containers over shared handles | refuted for the only handle |
| C73 | containers among other threads | an allocator whose calls are surrounded by steps of other threads still provides what containers need; hence all programs |
| C74 | `global::set_allocator` | program over instances and objects = program over places with one static object (C60) |
| C75 | overflow under containers | m_Allocs and m_Constructs equal the sums of capacity() * sizeof(T) and size(), modulo 2^64; invariant of every operation, whatever the inner allocator does (Books*.v) |
| C76 | overflow as a member of a container | the counters are copied; exact reports of temporary, copy and moved-from vector, counterexamples |
| C77 | containers of many types over the same allocators | each type of container behaves as specified for it alone; frame-generic invariants (`used` in EnvProofs.v), any family of types and element sizes, also among other threads |
| C78 | binary_heap when copies throw | refuted: every construction that throws leaks, an assignment that throws makes the destructor undefined, overflow counts one object too many; proved: exactly what remains (`torso`), other heaps unaffected |
| C79 | pointers and iterators to elements | `pcheck`: the address of element i of container c, and of no other, reads and writes the list at i; stays so while C40 says that data() does |
| C80 | atomic_shared<threaded<A>> among threads | schedules of steps of any number of threads; the specification speaks of handles, live blocks and the bytes each thread wrote (`holds_blocks`, `refers`, `waits`) |
| C81 | values do not influence allocators | pairs of sessions; the specification relates programs, answers and worlds up to the values of bytes (`same_call`, `same_answer`, `same_layout`) |
| C82 | sizes a composition can serve | `fits`, a function of the type; `refuses`, `revives` speak about the requests and answers of a session and the blocks outstanding in between (`keep_book`) |
| C83 | compositions that never run out | `endless`, a function of the type; `serves` |
| C84 | containers over compositions that do not run out | as C39, C41, C47, C77, C73, with the scope `unserved (lasting pl e)` in place of `unsupported (ereq pl e)`: a failed allocation (`EvFail`) is no longer excluded, only a refusal of `malloc` (`EvRefuse`) and sizes outside `lasting` |
| C85 | nesting of `fallback` | `indistinguishable pl e e'` (Laws.v): literally the same result of `session` and of `csession`, for all arguments; `unbracket` forgets the brackets. Proof: `alike` (LawsProofs.v), a relation between the states of two allocator types under which all members do the same, is preserved by every template and holds for the two nestings |
| C86 | nesting of `segragator` | as C85; `seg_chain` is the right-nested list |
| C87 | several handles to one allocator inside a composition | `sden pl s` (Upstream.v): `XLet u p` is an object `u` and a composition `p` with handles to it; the same `session_strict` and `csession_ok` as for `den`. Proof: `pcontract`, a contract whose invariant owns the parts but borrows the invariant of the upstream object. `sclean` is the proviso; two refutations without it |
| C88 | allocation failure in containers | `csession_all`: as `csession_ok` without conceding failed allocations to programs that end normally. Proof: `nf`, a logic for address zero being inaccessible and for the occurrence of EvFail (StarveFacts.v), on top of `tree_low` and `tree_firm` |
| C89 | universal form of the refutations | `never m`: no memory in which `m` ends normally. Direct proofs by inversion (NeverFacts.v, NeverShared.v, OwnFacts.v) |
| C90 | opaque elements | `natural f m m'`: `m'` does with `f v` what `m` does with `v`; if `f` is injective also for undefined behaviour. Proof: `ren` relates a computation and its renamed counterpart, one lemma for each function of allocators and containers (RenameProofs.v, RenameCont.v) |
| C91 | independence of stored values | `like_course`. Proof: both programs are renamings of one program whose values are pairs (RenameFacts.v) |
| C92 | heaps, values and orders | `like_runs_of` with `like_answer`. Proof: `sim` keeps two computations in step until one gets stuck; percolation only exchanges elements, whichever way it goes (`qw`), so that the two loops need not be in step (ShapeProofs.v, ShapeCont.v, ShapeHeap.v) |
| C93 | allocators at the limits | the theorems describe results and states by formulas over Size, n and the free pointer, not by model functions; `ask` and `reachable` from AllocSpec.v. Proof: direct computation on reachable states (ExactFacts.v) |
| C94 | calls of malloc | `einit`, `ecalls` compute the two numbers from the composition; `o_asks`, `v_asks`, `a_asks`, `h_asks` say which operations may need storage; `within k m` compares the tick of the world, which only malloc advances, before and after (Frugal.v). Proof: every function of the model is traversed; loops by induction (FrugalFacts.v) |
| C95 | pointers to elements of heaps | like C79: `points`, `names` say which element an address names; `wild` selects, by comparator, the heaps written at will, of which no order is promised (class `order` in Heap.v); `HLower` is the write that keeps the order (HeapPtr.v). Proof: the invariant of C47 with the order only for the others (HeapPtrProofs.v) |
| C96 | containers that own their allocator | by-value semantics next to the by-index one (Owned.v): `graft` separates what a copy has of its own (counters of overflow) from what its handles share; `role` says, with lines, what each operation does with allocator objects. Proof: simulation `near` = equal up to the counters (the relation `akin` of C86), events equal up to reports (OwnedProofs.v) |
| C97 | noexcept clauses | a model of its own (Noexcept.v): `nx` evaluates the clauses and the traits of meta.h, `calls` lists what a body calls, `leaves`/`terminates` say where an exception can go. Spec: structural predicates (`alloc_locks`, `free_locks`, `stops`). Proof: induction on the composition (NoexceptProofs.v); `mute` ties the tables of the containers to the executable models |
| C98 | reports of containers that own an overflow | specification: a ledger (Ledger.v) kept beside the by-index run of C96, rules per `role`. Proof: no member but the destructor of overflow reports (StillFacts.v); per operation the counters change by the difference of bytes and objects (C75), for arbitrary counters; invariant: counters of the object in a container = possessions + debt mod 2^64 (LedgerProofs.v), joined with the simulation `near` of C96 |
| C99 | comparators that are not functions | each operation is given the list of answers it gets (Fickle.v); specification of Heap.v with a relation that promises no order. Proof: the loops permute the array whatever the answers (FickleElem.v), the rest is the invariant of C47 (FickleProofs.v); every run of Heap.v is a run with some answers, and which answers are read (FickleFacts.v) |
| C100 | several mutexes, several threads | Locks.v replaces threaded by a template that records lock and unlock in the events, in whatever state other threads left the object; a small machine of threads that hold mutexes (`take_turn`) knows nothing about allocators. Proof: all events of a call are nested and descending (LockFacts.v, a unary logic over events), which the machine cannot block on (LockMachine.v); LockSilent.v relates the tables of C97 to the events; LockErase.v: apart from the lock events nothing changes for a single thread, by a relation between computations that every template preserves |
| C101 | heap held by a composition | Budget.v reads the bound off the type (`eblocks`, `ebytes`). Proof: a device `limited`, which refuses what exceeds the budget, is put below every freelist and above every cascading; the invariants of that composition bound the heap outright, and a modest client cannot tell it from the composition itself (`tame`), since a freelist asks its inner allocator only when it holds no spare block; cascading over a linear_allocator whose size is a multiple of 16 keeps at most one instance without blocks (`cl_contract`) and makes a new one only when all have blocks (`kl_contract`) |
| C102 | heap held by containers | Hold.v: `lean`, `spare`, `stored`. The invariant of every composition without freelist implies a bound on the tokens of the heap that it owns (`lean_contract`); the invariants of the containers say that each of them owns at most one block (`crun_hold`) |
| C103 | exact heap of containers over malloc | Hold.v: `solid`, `cost`, `base`, `charged`. As C102, but the invariants imply the exact number of tokens and their sizes (`solid_contract`, `crun_exact`), which needs the length of the block that each container owns (`stored_blocks`); HoldMixed.v for programs with several types of containers, HoldRun.v for programs that use an allocator directly |
| C65 | capacity of binary_heap | corollary of C47 |

Not expressible: compile-time failures (members that do not compile when instantiated,
`trivial_vector::emplace`, `trivial_vector::pop_back`, `trivial_buffer::begin` for types
other than bytes) are outside a semantic model; they are listed as findings only.

## 4. Trusted base

* Coq 8.16.1 kernel.  Every property theorem is followed by `Print Assumptions`; all of them
  answer "Closed under the global context", so no axiom is used, neither own nor from a library.
* The faithfulness of the hand-written model to the C++ text (cited line by line).

## 5. Modelled, simplified, not modelled

Machine and allocators:

* Not modelled: exceptions (except those of C78 and, as to where they can go, C97), timing, provenance, strict aliasing, padding and layout other than
  disjointness and 16-byte alignment of inline buffers.
* Alignment of requests and blocks is 16 throughout (`detail::ALIGNMENT`); over-aligned types are
  not modelled.
* `stack_allocator`, `reference` and `global` are modelled together with the object they refer to;
  their handles are addresses.  In `Tree.v` each handle in a composition has an object of its own; in
  `Upstream.v` (C87) all handles of a composition have the same one.  `set_allocator` and `get_allocator` of `global` are in `GlobalSet.v`.
* `Checked.v` is a device of the verification, not part of the library: a wrapper that turns a
  `deallocate` with a wrong size into undefined behaviour, in order to state that sizes match.
* `eready_now` is the condition under which `max_size` may be called (cascading needs a node).
* Loops that follow links in memory take fuel from the size of the store; `UBLoop` is an outcome
  and is proved not to occur.
* The POSIX branch of `aligned_malloc` (arguments of `aligned_alloc` exchanged) is modelled and
  refuted; all other theorems assume one of the other branches.

Handles and threads:

* `shared`: any number of handles, any order of copies, moves and assignments.  The counter is
  taken mod 2^64, hence programs have fewer than 2^64 steps.
* `atomic_shared` and `threaded`: interleavings of explicit micro-steps.  For the counter the
  model also keeps happens-before sets, so that acquire and release matter (C34).  Other weak
  memory effects are not modelled, nor are the client's own accesses to blocks in C35.
* `Team.v` (C80): handles, blocks and memory of several threads together.  A handle is used by the
  thread it belongs to only (also for reading), memory likewise; `TGive` and `TPass` hand them over
  and synchronise.  Steps are sequentially consistent.  The size of a mutex is not counted.
* `Crowd.v` (C73) is a device of the verification: other threads act around every call of an
  allocator member.  Accesses of a container to its own elements are not interrupted.
* The block of `shared` has the size of the inline buffers plus 16 bytes in the model; counters, pointers
  and mutexes in it are not counted. C101 and C103 count bytes of such blocks in this way.
* `limited` and `bden` (Budget.v, C101) are devices of the proof; the theorems do not mention them.
* `Locks.v` (C100): which mutexes a call locks, from every state of the objects, and threads that do
  so.  A mutex is identified by its position in the type and the address of the object.  Other threads
  may do anything to an object between the call and the moment in which its mutex is obtained; that
  they do nothing while it is held, and that the rest of the memory is used properly, is the subject
  of C35, C73 and C80.  A failing lock() ends the call; that some such exceptions end the program
  instead is C97.

Comparison and moves:

* An object is identified by the address of its inline bytes.
* Moves are modelled for the types that own their state: null, malloc, linear, freelist,
  cascading, fallback, segragator, overflow.  `threaded` cannot be moved; moving a handle copies a
  pointer.
* Copies of allocator objects are modelled for `overflow` counters (C56, C76), and for all copyable
  compositions inside containers (C96).

Containers:

* A container refers to its allocator by an index; several containers may share one.  In the
  programs of C39-C70 the allocator objects outlive the containers; in C71 they are the blocks of
  `shared`, created and destroyed by the program.  For `overflow` held by value the index hides
  that the counters are copied; this concerns only its reports (C76; C96 proves it, C98 says exactly what).
* Elements are abstract values whose fragments occupy cells; a trivial copy of indeterminate
  elements copies cells.  Element alignment is at most 16.
* Comparators are pure functions, except in Fickle.v (C99). Element constructors do not throw, except in Throw.v (C78).
* `memcpy` of length 0 has no effect, also with null pointers.
* Accesses through iterators, `data()` and pointers to elements are modelled for trivial_vector and
  trivial_array (Ptr.v, C79). Reads and writes through pointers to elements of
  binary_heap are in HeapPtr.v (C95).
* `binary_heap`: requests below 2^63.
* Members that do not compile when instantiated are not modelled: `trivial_vector::emplace` and
  `pop_back`, `trivial_buffer::at`, `begin` and the const `operator[]`.  The alignment of
  `trivial_buffer::m_Data` is 1 in the code; the model gives it an aligned place.
