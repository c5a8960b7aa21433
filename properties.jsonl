{"id": "C01", "title": "Padding to the architecture alignment", "statement": "For every request size n, the padding added by the raw allocators is less than 16 and makes n a multiple of 16 (the alignment of std::max_align_t), and it is the smallest such padding.", "quantifier": "every 64-bit size n", "why_tests_cant": "There are 2^64 sizes; tests sample a handful.", "anchors": ["include/ktl/utility/alignment.h:align_to_architecture"]}
{"id": "C02", "title": "Bit-width helper is the exact binary logarithm", "statement": "The number of free pointer bits derived from an alignment n is the exact floor of log2 n.", "quantifier": "every 64-bit n >= 1", "why_tests_cant": "2^64 inputs through six dependent shifts.", "anchors": ["include/ktl/utility/bits.h:log2", "include/ktl/containers/packed_ptr.h:FREE_BITS"]}
{"id": "C03", "title": "Compile-time next power of two", "statement": "The power of two computed for a pack of N types is the least power of two >= N.", "quantifier": "every N with 1 <= N <= 2^63", "why_tests_cant": "The template is only ever instantiated for a few N.", "anchors": ["include/ktl/utility/builder.h:pow2"]}
{"id": "C04", "title": "packed_ptr stores pointer and integer independently", "statement": "After any sequence of set_ptr/set_int calls on a packed pointer, get_ptr returns the last pointer set (if it was correctly aligned) and get_int the last integer set truncated to Bits bits; setting one never disturbs the other; the boolean conversion is false exactly when both are zero.", "quantifier": "every alignment 2^k, every Bits <= k, every pointer and integer value, every sequence of setter calls", "why_tests_cant": "The value space and the call histories are unbounded.", "anchors": ["include/ktl/containers/packed_ptr.h:packed_ptr"]}
{"id": "C05", "title": "segragator_builder routes by threshold", "statement": "For allocators a0..ak and ascending thresholds t1..tk, the allocator type produced by segragator_builder_min and by segragator_builder_max sends a request of n bytes to a_i where i is the number of thresholds smaller than n, for allocation and for deallocation, and it needs only logarithmically many comparisons.", "quantifier": "every number of allocators, every ascending threshold list, every size n, both leanings", "why_tests_cant": "The builder is a compile-time recursion over packs of every length.", "anchors": ["include/ktl/allocators/segragator_fwd.h:segragator_builder", "include/ktl/utility/builder.h:size_invert,tuple_split_indices,pow2", "include/ktl/allocators/segragator.h:segragator"]}
{"id": "C06", "title": "fallback_builder preserves the order of allocators", "statement": "The tree produced by fallback_builder_min/max over allocators a1..ak tries them in exactly the given order and returns the first non-null result; a deallocation goes to the first one that owns the pointer.", "quantifier": "every number of allocators, both leanings, every outcome of the individual allocators", "why_tests_cant": "Packs of every length; every pattern of success and failure.", "anchors": ["include/ktl/allocators/fallback_fwd.h:fallback_builder", "include/ktl/allocators/fallback.h:fallback", "include/ktl/utility/builder.h:size_invert"]}
{"id": "C07", "title": "aligned_malloc returns an aligned block of the requested size", "statement": "On every supported platform branch aligned_malloc(size, 16) returns null or a 16-aligned pointer to at least size accessible bytes which are disjoint from everything else in use, and aligned_free of it returns exactly the underlying malloc block.", "quantifier": "every size, every malloc behaviour (success, failure, placement), every preprocessor branch", "why_tests_cant": "malloc placement is not controllable from a test and only one preprocessor branch is ever compiled.", "anchors": ["include/ktl/utility/aligned_malloc.h:aligned_malloc,aligned_free"]}
{"id": "C08", "title": "linear and stack allocators hand out disjoint aligned blocks", "statement": "In every reachable state of a linear_allocator or stack_allocator every outstanding block lies inside the buffer, is 16-aligned, does not overlap any other outstanding block, and its bytes are exactly what the client last wrote.", "quantifier": "every buffer size, every history of allocate/deallocate/write by a client that only deallocates its own blocks with the size it requested", "why_tests_cant": "Unbounded histories in any deallocation order.", "anchors": ["include/ktl/allocators/linear_allocator.h:allocate,deallocate", "include/ktl/allocators/stack_allocator.h:allocate,deallocate"]}
{"id": "C09", "title": "linear and stack allocators regain full capacity", "statement": "Whenever all blocks have been deallocated, in any order, the whole buffer is available again: an allocation succeeds exactly when its padded size fits the buffer.", "quantifier": "every history that ends with nothing outstanding, every next request", "why_tests_cant": "Depends on an invariant over all deallocation orders.", "anchors": ["include/ktl/allocators/linear_allocator.h:deallocate", "include/ktl/allocators/stack_allocator.h:deallocate"]}
{"id": "C10", "title": "Deallocating the most recent block undoes its allocation", "statement": "If deallocate is called for the block returned by the immediately preceding successful allocate, linear_allocator returns to its exact previous state, so the same address is returned next.", "quantifier": "every reachable state and every size", "why_tests_cant": "All states and sizes.", "anchors": ["include/ktl/allocators/linear_allocator.h:allocate,deallocate"]}
{"id": "C11", "title": "Oversized requests are refused", "statement": "allocate(n) with n larger than the buffer returns null.", "quantifier": "every n up to SIZE_MAX, every reachable state", "why_tests_cant": "Needs the arithmetic near 2^64, which tests do not visit.", "anchors": ["include/ktl/allocators/linear_allocator.h:allocate", "include/ktl/allocators/stack_allocator.h:allocate"]}
{"id": "C12", "title": "mallocator obeys the allocator contract", "statement": "Every non-null block of mallocator is 16-aligned, has the requested size, is disjoint from all other outstanding blocks, keeps its contents until deallocated, and deallocation never fails or frees anything else.", "quantifier": "every history of requests, every malloc behaviour", "why_tests_cant": "Placement and failure of malloc cannot be enumerated.", "anchors": ["include/ktl/allocators/mallocator.h:mallocator"]}
{"id": "C13", "title": "freelist obeys the allocator contract", "statement": "Blocks handed out by freelist<Min,Max,A> are disjoint, aligned, at least as large as requested, and their contents survive all other calls, including the link words the freelist writes into cached blocks; sizes outside (Min,Max] are refused with null.", "quantifier": "every history, every Min/Max with Max >= 8, every inner allocator that obeys the contract", "why_tests_cant": "The free chain lives inside client memory: overlap bugs depend on the history.", "anchors": ["include/ktl/allocators/freelist.h:allocate,deallocate"]}
{"id": "C14", "title": "freelist reuses the most recently deallocated block", "statement": "After deallocate(p,n) with n in range, the next allocate(m) with m in range returns p and does not call the inner allocator; a request is passed to the inner allocator only when no cached block exists.", "quantifier": "every reachable state, every n and m", "why_tests_cant": "All histories.", "anchors": ["include/ktl/allocators/freelist.h:allocate,deallocate"]}
{"id": "C15", "title": "freelist destruction returns every cached block", "statement": "When a freelist is destroyed with no outstanding blocks, every block it ever obtained has been returned to its inner allocator exactly once, with the size it was obtained with.", "quantifier": "every history", "why_tests_cant": "Requires following a chain of unbounded length.", "anchors": ["include/ktl/allocators/freelist.h:release,~freelist"]}
{"id": "C16", "title": "segragator routes both directions by size", "statement": "A segragator<T,P,F> serves n <= T from P and n > T from F, leaves the other allocator untouched, and returns every block to the allocator it came from; the composite obeys the contract.", "quantifier": "every T, every contract-abiding P and F, every history", "why_tests_cant": "All histories and sizes.", "anchors": ["include/ktl/allocators/segragator.h:allocate,deallocate"]}
{"id": "C17", "title": "fallback only uses the second allocator after the first refused", "statement": "fallback<P,F> consults F only if P returned null, and returns each block to the allocator that produced it; for non-empty requests the composite obeys the contract.", "quantifier": "every contract-abiding P with owns and F, every history of non-empty requests", "why_tests_cant": "All histories; relies on owns being exact for every outstanding block.", "anchors": ["include/ktl/allocators/fallback.h:allocate,deallocate"]}
{"id": "C18", "title": "fallback and empty requests", "statement": "A block returned by fallback<P,F>.allocate(n) may be given back with deallocate(p,n) for every n including 0.", "quantifier": "every n, every state of P", "why_tests_cant": "The failure needs a buffer filled exactly to its end.", "anchors": ["include/ktl/allocators/fallback.h:deallocate", "include/ktl/allocators/linear_allocator.h:owns"]}
{"id": "C19", "title": "cascading obeys the allocator contract", "statement": "cascading<A> never hands out overlapping blocks, keeps the contents of all blocks, and returns each block to the instance that produced it, while instances are created and deleted.", "quantifier": "every history of non-empty requests, every contract-abiding A with owns, every malloc placement", "why_tests_cant": "Instances come and go depending on the history.", "anchors": ["include/ktl/allocators/cascading.h:allocate,deallocate"]}
{"id": "C20", "title": "cascading frees all its instances", "statement": "An instance other than the newest is deleted as soon as its last block is returned, and destruction returns all instances, so that no malloc block remains.", "quantifier": "every history in which the client returned all its blocks", "why_tests_cant": "All histories.", "anchors": ["include/ktl/allocators/cascading.h:deallocate,release"]}
{"id": "C21", "title": "A refused cascading allocation does not consume memory", "statement": "If cascading::allocate returns null the allocator holds no more memory than before.", "quantifier": "every state, every size", "why_tests_cant": "Accumulates over repeated failures only.", "anchors": ["include/ktl/allocators/cascading.h:allocate"]}
{"id": "C22", "title": "max_size may be called on any constructed allocator", "statement": "max_size() is defined for every allocator value that has been constructed, and so is allocate on every composition accepted by the compiler.", "quantifier": "every composition, every state including freshly constructed", "why_tests_cant": "Combinations of templates are not enumerable.", "anchors": ["include/ktl/allocators/cascading.h:max_size,allocate"]}
{"id": "C23", "title": "overflow is transparent for well-behaved clients", "statement": "overflow<A> obeys the allocator contract on top of A and reports no corruption as long as the client only writes inside its blocks.", "quantifier": "every history, every contract-abiding A", "why_tests_cant": "All histories of writes.", "anchors": ["include/ktl/allocators/overflow.h:allocate,deallocate"]}
{"id": "C24", "title": "overflow reports corruption exactly when a guard byte changed", "statement": "deallocate(p,n) emits a corruption report iff one of the 64 bytes before or the 64 bytes after the block differs from the pattern, and the reported extents are the distances of the furthest modified byte on each side.", "quantifier": "every block size and every content of the 128 guard bytes", "why_tests_cant": "256^128 guard contents.", "anchors": ["include/ktl/allocators/overflow.h:deallocate"]}
{"id": "C25", "title": "overflow leak report equals the outstanding bytes", "statement": "On destruction overflow reports a leak iff bytes are outstanding, and the reported number is the number of outstanding bytes.", "quantifier": "every history", "why_tests_cant": "Histories including failed allocations.", "anchors": ["include/ktl/allocators/overflow.h:allocate,deallocate,~overflow"]}
{"id": "C26", "title": "overflow construct/destroy balance", "statement": "On destruction overflow reports a logic error iff the number of construct calls differs from the number of destroy calls, with the exact difference.", "quantifier": "every history of construct and destroy calls", "why_tests_cant": "All histories.", "anchors": ["include/ktl/allocators/overflow.h:construct,destroy,~overflow"]}
{"id": "C27", "title": "Every composition of allocators obeys the contract", "statement": "Every allocator type built from linear, stack, mallocator, null, freelist, cascading, fallback, segragator, overflow, shared, reference, threaded and global that satisfies the static requirements obeys the allocator contract: aligned, disjoint, content-preserving, no undefined behaviour, no assertion failure.", "quantifier": "every composition tree of any depth, every client history, every malloc behaviour", "why_tests_cant": "Infinitely many types, histories and placements.", "anchors": ["include/ktl/allocators/*.h"]}
{"id": "C28", "title": "owns is exact", "statement": "For every composition that offers owns: owns(p) is true for every outstanding non-empty block it handed out and false for every other live block.", "quantifier": "every composition tree, every history", "why_tests_cant": "All histories and compositions.", "anchors": ["include/ktl/allocators/*.h:owns"]}
{"id": "C29", "title": "max_size is an upper bound", "statement": "For every composition that offers max_size: allocate(n) with n > max_size() returns null.", "quantifier": "every composition tree, every history, every n", "why_tests_cant": "All compositions and histories.", "anchors": ["include/ktl/allocators/*.h:max_size"]}
{"id": "C30", "title": "max_size is attainable", "statement": "A freshly constructed allocator can serve a request of max_size() bytes.", "quantifier": "every composition that offers max_size", "why_tests_cant": "Compositions are not enumerable.", "anchors": ["include/ktl/allocators/overflow.h:max_size", "include/ktl/allocators/freelist.h:max_size", "include/ktl/allocators/linear_allocator.h:max_size"]}
{"id": "C31", "title": "type_allocator sizes", "statement": "type_allocator<T,A>.allocate(n) returns null or room for n objects of T, and deallocate(p,n) returns it with the byte size it was requested with.", "quantifier": "every sizeof(T), every n, every A", "why_tests_cant": "Multiplication near 2^64.", "anchors": ["include/ktl/allocators/type_allocator.h:allocate,deallocate"]}
{"id": "C32", "title": "shared keeps its allocator alive exactly as long as a handle exists", "statement": "For every history of creating, copying, moving, assigning and destroying handles (no handle assigned to itself) the wrapped allocator is destroyed exactly once, exactly when the last handle disappears; all handles see the same state.", "quantifier": "every number of handles, every history", "why_tests_cant": "Unbounded handle graphs.", "anchors": ["include/ktl/allocators/shared.h:shared"]}
{"id": "C33", "title": "Self-assignment of a shared handle is harmless", "statement": "a = a leaves a usable.", "quantifier": "every handle", "why_tests_cant": "Depends on the reference count being one at that moment.", "anchors": ["include/ktl/allocators/shared.h:operator="]}
{"id": "C34", "title": "atomic_shared under concurrency", "statement": "With atomic counters, for every interleaving of handle copies and destructions on any number of threads, the block is destroyed exactly once, after the last handle, and never used afterwards; with the non-atomic counter this fails.", "quantifier": "every number of threads, every schedule", "why_tests_cant": "Schedules cannot be enumerated by tests.", "anchors": ["include/ktl/allocators/shared.h:increment,decrement,notomic"]}
{"id": "C35", "title": "threaded serialises allocate and deallocate", "statement": "For every schedule of any number of threads calling allocate/deallocate on a threaded<A>, results and final state are those of a sequential execution of the same calls; no schedule deadlocks.", "quantifier": "every number of threads, calls and schedules", "why_tests_cant": "Schedules cannot be enumerated by tests.", "anchors": ["include/ktl/allocators/threaded.h:allocate,deallocate"]}
{"id": "C36", "title": "Every member of threaded is safe to call concurrently", "statement": "construct, destroy and owns on a threaded<A> may run concurrently with other calls.", "quantifier": "every schedule", "why_tests_cant": "Race windows.", "anchors": ["include/ktl/allocators/threaded.h:construct,destroy,owns"]}
{"id": "C37", "title": "global: one allocator for all instances, consistent comparison", "statement": "All instances of global<A> operate on one allocator state, and a == b and a != b are never both true.", "quantifier": "every pair of instances, every history", "why_tests_cant": "Negative comparison is not exercised.", "anchors": ["include/ktl/allocators/global.h:operator==,operator!=,allocate,deallocate"]}
{"id": "C38", "title": "construct and destroy run exactly once", "statement": "For every composition, construct(p,...) runs exactly one constructor at p and destroy(p) exactly one destructor at p, whatever the nesting.", "quantifier": "every composition tree, every pointer", "why_tests_cant": "Compositions are not enumerable.", "anchors": ["include/ktl/allocators/*.h:construct,destroy"]}
{"id": "C39", "title": "trivial_vector behaves like a list", "statement": "For every history of operations on any number of trivial_vectors sharing any number of allocators, size() and the elements equal those of a plain list subjected to the same operations, provided no allocation fails.", "quantifier": "every element size, every contract-abiding allocator, every history", "why_tests_cant": "Unbounded histories, reallocation points, allocator placement.", "anchors": ["include/ktl/containers/trivial_vector.h"]}
{"id": "C40", "title": "trivial_vector capacity and pointer stability", "statement": "size() <= capacity() always; reserve(n) guarantees capacity() >= n; as long as the size does not exceed the capacity data() does not change.", "quantifier": "every history", "why_tests_cant": "All histories.", "anchors": ["include/ktl/containers/trivial_vector.h:reserve,push_back,expand,set_size"]}
{"id": "C41", "title": "trivial_vector memory discipline", "statement": "Each block a trivial_vector obtains is returned exactly once, to the allocator it came from, with the size it was requested with; after destruction of all vectors the allocators have no outstanding blocks.", "quantifier": "every history without moving construction into a different allocator", "why_tests_cant": "All histories.", "anchors": ["include/ktl/containers/trivial_vector.h"]}
{"id": "C42", "title": "Moving a container into a different allocator returns the old block correctly", "statement": "trivial_vector(trivial_vector&&, alloc), trivial_array(..) and binary_heap(..) return the old block with the size it was obtained with.", "quantifier": "every container and allocator", "why_tests_cant": "The usual allocators ignore the size argument.", "anchors": ["include/ktl/containers/trivial_vector.h:147-164", "include/ktl/containers/trivial_array.h:137-152", "include/ktl/containers/binary_heap.h:154-171"]}
{"id": "C43", "title": "Self copy-assignment of a container", "statement": "v = v leaves the elements of v unchanged.", "quantifier": "every container value", "why_tests_cant": "Freed memory usually still reads back.", "anchors": ["include/ktl/containers/trivial_vector.h:operator=", "include/ktl/containers/trivial_array.h:operator=", "include/ktl/containers/binary_heap.h:operator="]}
{"id": "C44", "title": "Inserting an element of the container itself", "statement": "push_back(v[i]) and insert(*h.begin()) append a copy of that element.", "quantifier": "every container value", "why_tests_cant": "Fails only when the container is exactly full.", "anchors": ["include/ktl/containers/trivial_vector.h:push_back", "include/ktl/containers/binary_heap.h:insert"]}
{"id": "C45", "title": "trivial_array behaves like a fixed-size list", "statement": "For every history (construct, fill, assign, resize, copy, move, destroy) contents and size match a list model, and memory is returned exactly once.", "quantifier": "every history, every contract-abiding allocator", "why_tests_cant": "Unbounded histories.", "anchors": ["include/ktl/containers/trivial_array.h"]}
{"id": "C46", "title": "trivial_buffer index rolls over", "statement": "at(i) and operator[](i) access element i mod Size, for any i; writes through one index are read back through every congruent index and no other.", "quantifier": "every Size >= 1, every index, every history of writes", "why_tests_cant": "Unbounded histories.", "anchors": ["include/ktl/containers/trivial_buffer.h"]}
{"id": "C47", "title": "binary_heap is a priority queue", "statement": "For every history of insert/pop/peek/clear/reserve/copy/move, pop and peek return a minimum (w.r.t. the comparator) of the elements inserted and not yet popped, and the multiset of elements is exactly inserted minus popped.", "quantifier": "every strict weak order, every history, every contract-abiding allocator", "why_tests_cant": "Unbounded histories and orders.", "anchors": ["include/ktl/containers/binary_heap.h"]}
{"id": "C48", "title": "Popping everything yields sorted order", "statement": "Inserting any list and popping until empty yields a sorted permutation of the list.", "quantifier": "every list, every strict weak order", "why_tests_cant": "All lists.", "anchors": ["include/ktl/containers/binary_heap.h:insert,pop"]}
{"id": "C49", "title": "binary_heap is memory safe for every comparator", "statement": "Even for a comparator that is not an order, no operation accesses memory outside the heap's storage and no element is lost or duplicated.", "quantifier": "every comparator function, every history", "why_tests_cant": "Comparators are arbitrary code.", "anchors": ["include/ktl/containers/binary_heap.h:percolateUp,percolateDown"]}
{"id": "C50", "title": "binary_heap object lifetimes", "statement": "Every element object is constructed before use and destroyed exactly once, for element types with non-trivial destructors.", "quantifier": "every history including popping the last element", "why_tests_cant": "Accessing a destroyed element usually goes unnoticed.", "anchors": ["include/ktl/containers/binary_heap.h:pop,set_size,~binary_heap"]}
{"id": "C51", "title": "binary_heap find", "statement": "find(v) returns an iterator to the first element equal to v, or end() if there is none.", "quantifier": "every heap content and value", "why_tests_cant": "All contents.", "anchors": ["include/ktl/containers/binary_heap.h:find"]}
{"id": "C52", "title": "binary_heap insert returns the position of the new element", "statement": "The iterator returned by insert points at the inserted value.", "quantifier": "every heap and value", "why_tests_cant": "All states.", "anchors": ["include/ktl/containers/binary_heap.h:insert,percolateUp"]}
{"id": "C53", "title": "Containers survive allocation failure", "statement": "When the allocator returns null a container operation does not corrupt the program.", "quantifier": "every operation, every failure point", "why_tests_cant": "Failure points are not exercised.", "anchors": ["include/ktl/containers/*.h"]}
{"id": "C54", "title": "Debug and release builds agree", "statement": "For clients that respect the documented preconditions no KTL_ASSERT fires anywhere in the library, so builds with and without KTL_DEBUG_ASSERT behave identically.", "quantifier": "every composition and client history", "why_tests_cant": "All histories.", "anchors": ["include/ktl/utility/assert.h", "include/ktl/allocators/*.h", "include/ktl/containers/*.h"]}
{"id": "C55", "title": "Move assignment of linear_allocator", "statement": "After a = std::move(b) (b empty) a behaves like a fresh allocator.", "quantifier": "every state of a", "why_tests_cant": "Stale counters only matter later in the history.", "anchors": ["include/ktl/allocators/linear_allocator.h:operator="]}
{"id": "C56", "title": "Moving or copying overflow does not duplicate reports", "statement": "Moving an overflow allocator moves its accounting: bytes outstanding are reported once.", "quantifier": "every state", "why_tests_cant": "Depends on outstanding bytes at the time of the move.", "anchors": ["include/ktl/allocators/overflow.h:overflow(overflow&&)"]}
{"id": "C57", "title": "trivial_buffer behaves like a list of Size elements", "statement": "For every history (construct, fill, list, range, copy, move, assign, element access, destroy) the contents of every buffer match a list model and no memory outside the buffers changes.", "quantifier": "every history, every element size and Size >= 1", "why_tests_cant": "Unbounded histories.", "anchors": ["include/ktl/containers/trivial_buffer.h"]}
{"id": "C58", "title": "Self assignment of trivial_buffer", "statement": "b = b, b = std::move(b) and b.assign of its own range leave b unchanged.", "quantifier": "every buffer value", "why_tests_cant": "memcpy of overlapping ranges usually behaves.", "anchors": ["include/ktl/containers/trivial_buffer.h:operator=,assign"]}
{"id": "C59", "title": "operator== and operator!= of allocators", "statement": "operator== is reflexive, symmetric and transitive on the objects of every composition, and operator!= is its negation.", "quantifier": "every composition, every pair of objects in every state", "why_tests_cant": "Compositions nest without bound.", "anchors": ["include/ktl/allocators/*.h:operator==,operator!="]}
{"id": "C60", "title": "Blocks follow moves", "statement": "For programs with any number of allocator objects of one type that construct, move, move-assign, compare, use and destroy them: blocks of the source of a move belong to the new object, the source stays usable, blocks of equal objects are interchangeable, no assertion fires, and at the end all memory has been returned.", "quantifier": "every composition of movable allocators, every program", "why_tests_cant": "Histories and compositions are unbounded.", "anchors": ["include/ktl/allocators/freelist.h:freelist(freelist&&),operator=", "include/ktl/allocators/cascading.h:cascading(cascading&&),operator=", "include/ktl/allocators/linear_allocator.h:linear_allocator(linear_allocator&&),operator=", "include/ktl/allocators/fallback.h", "include/ktl/allocators/segragator.h", "include/ktl/allocators/overflow.h"]}
{"id": "C61", "title": "Equal overflow allocators are interchangeable without reports", "statement": "When a block of one of two equal overflow allocators is returned to the other one, no leak is reported.", "quantifier": "every pair of equal objects", "why_tests_cant": "Depends on which object a block is returned to.", "anchors": ["include/ktl/allocators/overflow.h:operator==,~overflow"]}
{"id": "C62", "title": "The assertion in the moves of freelist fires only for real errors", "statement": "A freelist without outstanding blocks can be moved without an assertion failing.", "quantifier": "every composition below the freelist, every history", "why_tests_cant": "Needs a free list that is not empty over an allocator that resets its source.", "anchors": ["include/ktl/allocators/freelist.h:freelist(freelist&&),operator=(freelist&&)"]}
{"id": "C63", "title": "Comparison of shared handles", "statement": "Two handles of shared compare equal exactly if they refer to the same block, in every reachable state.", "quantifier": "every program with handles", "why_tests_cant": "Moved-from handles are rarely compared.", "anchors": ["include/ktl/allocators/shared.h:operator=="]}
{"id": "C64", "title": "trivial_vector grows geometrically", "statement": "Through any sequence of pushes, range pushes, resizes, erasures and other operations that do not replace the vector or reserve room in it, the number of elements moved by growing is at most 4 times the number of elements ever in it, and the number of reallocations is logarithmic in it.", "quantifier": "every composition of allocators, every history before, every such sequence", "why_tests_cant": "Amortised cost is a statement about unbounded sequences.", "anchors": ["include/ktl/containers/trivial_vector.h:expand,push_back,resize"]}
{"id": "C65", "title": "Capacity of binary_heap", "statement": "size() <= capacity(); after reserve(n) capacity() >= n; while the elements fit the reported capacity, data() and capacity() do not change.", "quantifier": "every composition of allocators, every history", "why_tests_cant": "Histories are unbounded.", "anchors": ["include/ktl/containers/binary_heap.h:capacity,reserve,insert"]}
{"id": "C66", "title": "binary_heap grows geometrically", "statement": "Through any sequence of insertions, removals and other operations that do not replace the heap or reserve room in it, the number of elements moved by growing is at most twice the number of elements ever in it, and the number of reallocations is logarithmic in it.", "quantifier": "every composition of allocators, every history before, every such sequence", "why_tests_cant": "Amortised cost is a statement about unbounded sequences.", "anchors": ["include/ktl/containers/binary_heap.h:expand,insert"]}
{"id": "C67", "title": "freelist holds no more blocks than its client ever did", "statement": "At every point of every program the number of blocks that freelist<Min, Max, A> has obtained from A and not given back is at least the number of blocks its client holds and at most the largest number the client ever held at once; each has size Max. Over mallocator the same bounds hold for the number of live heap blocks.", "quantifier": "every composition A, every program of requests, returns and uses", "why_tests_cant": "The bound concerns the whole history; a leak or a lost list node is invisible to a functional test.", "anchors": ["include/ktl/allocators/freelist.h:allocate,deallocate"]}
{"id": "C68", "title": "cascading holds at most one spare instance", "statement": "At every point of every program the number of instances of cascading<linear_allocator<Size>> is at most one more than the number of blocks its client holds, and every instance is one block of the heap.", "quantifier": "every Size, every program whose requests are between 1 and Size", "why_tests_cant": "Instances that are never released only show up as memory growth.", "anchors": ["include/ktl/allocators/cascading.h:allocate,deallocate"]}
{"id": "C69", "title": "binary_heap makes logarithmically many comparisons", "statement": "insert on a heap of n elements depends on at most floor(log2(n+1)) answers of the comparator, pop on at most 2 floor(log2(n-1)); a program of N operations (without initialiser lists) on at most 2 N floor(log2 N). percolateUp and percolateDown run for at most as many iterations as the tree has levels.", "quantifier": "every allocator, element type, comparator (also inconsistent ones), memory state and program", "why_tests_cant": "Counts on chosen inputs do not bound the worst case over all contents and comparators.", "anchors": ["include/ktl/containers/binary_heap.h:insert,pop,percolateUp,percolateDown"]}
{"id": "C70", "title": "Elements of containers are aligned", "statement": "After any history, every element of the array that data() of a trivial_vector, trivial_array or binary_heap points to is at a multiple of alignof(T), for every type T whose alignment divides that of std::max_align_t (16).", "quantifier": "every composition of allocators, every program, every type with fundamental alignment", "why_tests_cant": "Misalignment depends on addresses, histories and composition; most hardware hides it.", "anchors": ["include/ktl/containers/trivial_vector.h:data", "include/ktl/containers/trivial_array.h:data", "include/ktl/containers/binary_heap.h:begin", "include/ktl/utility/alignment.h:ALIGNMENT"]}
{"id": "C71", "title": "Containers that share an allocator", "statement": "Programs that create, copy, assign and drop handles of shared<A> and containers built on them behave, for every container, as the specification without allocators says; the shared allocator exists exactly as long as some handle or container refers to it, and when all are gone the memory is as before.", "quantifier": "every composition A, every program over trivial_vector, trivial_array and binary_heap, any number of handles and containers", "why_tests_cant": "The order in which handles and containers die decides when the pool is destroyed; use after its destruction usually goes unnoticed.", "anchors": ["include/ktl/allocators/shared.h:operator=,~shared,increment,decrement", "include/ktl/containers/trivial_vector.h:operator=", "include/ktl/containers/trivial_array.h:operator=", "include/ktl/containers/binary_heap.h:operator="]}
{"id": "C72", "title": "Self-assignment of containers over shared handles", "statement": "c = c and c = std::move(c) leave an empty container usable.", "quantifier": "every container over shared<A>, any number of handles", "why_tests_cant": "Depends on whether another handle of the block exists.", "anchors": ["include/ktl/containers/trivial_vector.h:operator=", "include/ktl/containers/trivial_array.h:operator=", "include/ktl/containers/binary_heap.h:operator=", "include/ktl/allocators/shared.h:operator="]}
{"id": "C73", "title": "Containers over an allocator that other threads use", "statement": "While other threads allocate, return, write and read blocks of the same threaded<A>, containers behave as their list specification says, the other threads read what they have written, and in the end all memory is returned.", "quantifier": "every composition, every container program, every behaviour of the other threads at every call", "why_tests_cant": "Interleavings; corruption of a free list shared by threads shows up elsewhere and later.", "anchors": ["include/ktl/allocators/threaded.h:allocate,deallocate", "include/ktl/containers/trivial_vector.h:push_back", "include/ktl/containers/binary_heap.h:insert"]}
{"id": "C74", "title": "global: set_allocator installs an allocator", "statement": "While no block of the static allocator is outstanding, set_allocator(std::move(a)) makes the blocks that a has handed out blocks of every instance of global<A>, leaves a usable, and gives back what the static allocator held; over any history all memory is returned.", "quantifier": "every movable composition, any number of instances and objects, every program", "why_tests_cant": "The state that is replaced is not visible to the program; a leak or a node that is returned too early needs a particular history.", "anchors": ["include/ktl/allocators/global.h:set_allocator", "include/ktl/allocators/global.h:get_allocator"]}
{"id": "C75", "title": "Reports of overflow about containers are exact", "statement": "At any time during a program over containers, destroying an overflow allocator would report exactly the bytes that the containers using it hold and the number of elements they contain, and after the containers are gone nothing.", "quantifier": "every inner allocator, every program over trivial_vector, trivial_array and binary_heap, any number of containers and allocators, any memory", "why_tests_cant": "The balance is the sum of many calls in different members; one member that counts a wrong size or forgets a destroy shows up only in particular histories.", "anchors": ["include/ktl/allocators/overflow.h:allocate,deallocate,construct,destroy,~overflow", "include/ktl/containers/trivial_vector.h:set_size", "include/ktl/containers/trivial_array.h:resize", "include/ktl/containers/binary_heap.h:set_size"]}
{"id": "C76", "title": "Containers that hold overflow by value", "statement": "Copying or moving a container whose allocator is type_allocator<T, overflow<A>> produces no report.", "quantifier": "every inner allocator, every vector, any counters", "why_tests_cant": "Whether something is reported depends on what was allocated when the copy was made.", "anchors": ["include/ktl/allocators/overflow.h:overflow(const overflow&)", "include/ktl/allocators/type_allocator.h:type_allocator(type_allocator&&)", "include/ktl/containers/trivial_vector.h:trivial_vector(const trivial_vector&)"]}
{"id": "C77", "title": "Containers of different types can share allocators", "statement": "In a program that uses any number of trivial_vector<T>, trivial_array<T> and binary_heap<T> types, with element types of any sizes, whose objects take their storage from the same allocator objects, every operation has no undefined behaviour and fails no assertion, the objects of each type behave exactly as specified for that type alone (operations on objects of other types are invisible to them), and after all destructors have run every block has been returned. This also holds when other threads use the same allocators through the threaded wrapper.", "quantifier": "every finite program over every family of container types (element sizes > 0), every number of allocator objects, every well-formed composition of allocators (and every allocator that provides the service of Service.v), every interleaving plan of other clients", "why_tests_cant": "Interference between container types through a shared free list or bump pointer shows only for certain sequences of sizes and releases; the tests in the repository use one container type per allocator.", "anchors": ["include/ktl/containers/trivial_vector.h:trivial_vector", "include/ktl/containers/trivial_array.h:trivial_array", "include/ktl/containers/binary_heap.h:binary_heap", "include/ktl/allocators/type_allocator.h:allocate", "include/ktl/allocators/type_allocator.h:deallocate"]}
{"id": "C78", "title": "Copy constructors of elements may throw", "statement": "If the copy constructor of an element throws during the copy construction of a binary_heap, its construction from an initializer_list or an assignment, then no storage and no object is leaked, the allocator has nothing to report, and all heaps that exist, including the target of the assignment, can be used and destroyed afterwards.", "quantifier": "every finite program over binary_heap with constructions that throw at any element, every element type whose construction is not trivial, every comparator, every well-formed composition of allocators", "why_tests_cant": "Tests do not inject exceptions at each element; a leak or a double destruction on such a path is not seen without instrumentation.", "anchors": ["include/ktl/containers/binary_heap.h:binary_heap", "include/ktl/containers/binary_heap.h:operator=", "include/ktl/allocators/overflow.h:construct"]}
{"id": "C79", "title": "Pointers to elements are names of elements", "statement": "Reading through a pointer or iterator to an element of a trivial_vector or trivial_array gives what operator[] gives, writing through it changes exactly that element and no other element of any container, and such a pointer stays valid until the container is destroyed, is assigned to or needs more room than its capacity; after a move it points to the element of the new container.", "quantifier": "every finite program that mixes calls of the containers with reads and writes through any pointers to elements, every element size, every well-formed composition of allocators", "why_tests_cant": "A pointer into storage that is shared with another container, or that moved without need, shows only in programs that keep pointers across calls; tests use indices.", "anchors": ["include/ktl/containers/trivial_vector.h:begin", "include/ktl/containers/trivial_vector.h:data", "include/ktl/containers/trivial_array.h:begin", "include/ktl/containers/trivial_array.h:data"]}
{"id": "C80", "title": "Threads that share an allocator through atomic_shared<threaded<A>> cannot hurt each other", "statement": "Threads may create, copy, move, assign and destroy handles, allocate and return memory through them, use the memory and hand handles and memory to each other, in any interleaving of the steps of these calls: no block is used after its deletion or deleted twice, calls of the wrapped allocator never overlap, no mutex is destroyed while locked, all memory held at the same time is disjoint, aligned and keeps its contents, counts equal the number of handles whenever no call is under way, everything is released with the last handle, and no thread waits forever.", "quantifier": "every number of threads, every interleaving, every well-formed composition of allocators under threaded, every number of handles and groups, every initial state", "why_tests_cant": "The orders of steps of several threads cannot be enumerated by tests, and a wrong count or a missing lock shows in few of them.", "anchors": ["include/ktl/allocators/shared.h:decrement", "include/ktl/allocators/shared.h:operator=", "include/ktl/allocators/threaded.h:allocate", "include/ktl/allocators/threaded.h:deallocate"]}
{"id": "C81", "title": "What a program writes has no influence on the allocator", "statement": "Two programs that make the same calls but write different values into their memory, started in worlds whose bytes have different values, get the same answers from every composition of allocators: the same addresses, the same refusals, the same ownership and max_size, the same events, and afterwards the same memory is accessible and malloc has the same blocks.", "quantifier": "every well-formed composition, every pair of programs with the same calls, every pair of worlds with the same accessible memory and the same malloc", "why_tests_cant": "Allocators keep their own links inside memory that belonged to the program (freelist, cascading, shared); whether a stale byte of the program is ever taken for a link depends on values no test chooses.", "anchors": ["include/ktl/allocators/freelist.h:allocate", "include/ktl/allocators/freelist.h:deallocate", "include/ktl/allocators/cascading.h:allocate", "include/ktl/allocators/stack_allocator.h:deallocate"]}
{"id": "C82", "title": "The sizes a composition can serve follow from its type", "statement": "From the type of a composition one can compute a set of sizes such that a request for any other size returns null in every state, and a request for one of these sizes is served whenever no block is outstanding and malloc has not returned null. A program over a composition stops only after malloc has returned null.", "quantifier": "every well-formed composition, every program, every starting memory, every behaviour of malloc", "why_tests_cant": "Needs that nothing is lost over any history: buffers rewind, freelists and nodes come back to a state as good as new; one leaking path in one of unboundedly many compositions breaks it.", "anchors": ["include/ktl/allocators/linear_allocator.h:deallocate", "include/ktl/allocators/stack_allocator.h:deallocate", "include/ktl/allocators/freelist.h:allocate", "include/ktl/allocators/fallback.h:allocate", "include/ktl/allocators/segragator.h:allocate", "include/ktl/allocators/cascading.h:allocate", "include/ktl/allocators/overflow.h:allocate"]}
{"id": "C83", "title": "Compositions that never run out", "statement": "From the type of a composition one can compute a set of sizes that are served in every state, however many blocks are outstanding, as long as malloc has not returned null: every size for mallocator, whatever fits the inner allocator for cascading, and what follows for freelist, fallback, segragator, overflow and the forwarding wrappers.", "quantifier": "every well-formed composition, every program, every starting memory, every behaviour of malloc", "why_tests_cant": "An allocator that refuses after some long history although memory is available is not met by a test that stops earlier.", "anchors": ["include/ktl/allocators/cascading.h:allocate", "include/ktl/allocators/freelist.h:allocate", "include/ktl/allocators/fallback.h:allocate", "include/ktl/allocators/mallocator.h:allocate"]}
{"id": "C84", "title": "Containers over compositions that do not run out", "statement": "A program over trivial_vector, trivial_array or binary_heap whose allocators are any composition, and whose requests are all of sizes that the composition serves in every state (C83), never meets a failed allocation unless malloc returns null: it ends normally, with the results of the list specifications, and gives all memory back. The same for containers of several types over the same allocators, among other threads, with pointers to elements, and over shared handles.", "quantifier": "every well-formed composition, every program, every starting memory, every behaviour of malloc", "why_tests_cant": "The containers do not check the result of allocate, so that one early refusal by a composition after a long history is undefined behaviour; tests see a few histories on one heap that never refuses.", "anchors": ["include/ktl/containers/trivial_vector.h:set_size", "include/ktl/containers/trivial_array.h:resize", "include/ktl/containers/binary_heap.h:set_size", "include/ktl/allocators/type_allocator.h:allocate", "include/ktl/allocators/cascading.h:allocate"]}
{"id": "C85", "title": "The nesting of fallback cannot be observed", "statement": "Two compositions that contain the same allocators in the same order and differ only in the way in which their fallbacks are nested, at any depth and inside any other template, cannot be told apart: every program that uses them directly or through containers, correctly or not, obtains the same addresses, answers, events and final memory. In particular the tree that fallback_builder makes of a list of types works like the right-nested list, whichever way the builder is asked to lean.", "quantifier": "every well-formed composition, every program, every starting memory, every behaviour of malloc", "why_tests_cant": "Equality of two allocators is a statement about all pairs of histories; a test compares a few histories of one instance.", "anchors": ["include/ktl/allocators/fallback.h:allocate", "include/ktl/allocators/fallback.h:deallocate", "include/ktl/allocators/fallback.h:owns", "include/ktl/allocators/fallback.h:max_size", "include/ktl/allocators/fallback.h:construct", "include/ktl/allocators/fallback_fwd.h:fallback_builder"]}
{"id": "C86", "title": "The nesting of segragator cannot be observed if thresholds increase", "statement": "segragator<T, segragator<S, a, b>, c> and segragator<S, a, segragator<T, b, c>> cannot be told apart by any program if S <= T, provided b can tell what it owns or a has no construct member; hence the tree that segragator_builder makes of a list with increasing thresholds works like the right-nested list. If the thresholds are not in order the nesting does matter.", "quantifier": "every composition, every list of thresholds, every program, every starting memory, every behaviour of malloc", "why_tests_cant": "As for C85; moreover the layout of the object (which member lies where) must agree, which no functional test looks at.", "anchors": ["include/ktl/allocators/segragator.h:allocate", "include/ktl/allocators/segragator.h:deallocate", "include/ktl/allocators/segragator.h:owns", "include/ktl/allocators/segragator.h:construct", "include/ktl/allocators/segragator_fwd.h:segragator_builder"]}
{"id": "C87", "title": "Parts of a composition may share an allocator", "statement": "Let several parts of one composition refer to the same allocator object (through reference, stack_allocator, global or copies of a shared handle), at any depth, and let that object itself be such a composition. Then the composition is as safe as one whose parts have allocators of their own (C27): blocks are disjoint and keep their contents, every block returns to the part it came from, and all memory is released in the end; containers over it behave as lists. This needs a proviso: the first part of a fallback must not use the shared object. Otherwise a freelist in the first part can take a block of the second for a larger one of its own.", "quantifier": "every composition of freelist, fallback, segragator, overflow, handles and arbitrary other allocators, every program, every starting memory, every behaviour of malloc", "why_tests_cant": "The failure needs an allocator that is exhausted for one size and not for a smaller one, followed by a deallocation and a further request; in the repository no test uses two handles to one allocator in one composition.", "anchors": ["include/ktl/allocators/reference.h:allocate", "include/ktl/allocators/fallback.h:deallocate", "include/ktl/allocators/freelist.h:deallocate", "include/ktl/allocators/segragator.h:deallocate", "include/ktl/allocators/overflow.h:deallocate"]}
{"id": "C88", "title": "Containers have what they asked for, or stop", "statement": "A program over trivial_vector, trivial_array or binary_heap that never uses a constructor with a size or capacity, resize or reserve ends normally only if every allocation succeeded, and then all its results are those of lists or priority queues and all memory is released. If an allocation fails the program does not get past the operation that needed it: it stores the elements at address zero. There is no way for such a program to continue with wrong contents.", "quantifier": "every composition of allocators, every program without the named operations, every element size, every starting memory, every behaviour of malloc", "why_tests_cant": "One would have to make every allocation of every program fail and observe that the program does not survive.", "anchors": ["include/ktl/containers/trivial_vector.h:push_back", "include/ktl/containers/trivial_vector.h:SetSize", "include/ktl/containers/trivial_array.h:assign", "include/ktl/containers/binary_heap.h:insert", "include/ktl/containers/binary_heap.h:SetSize"]}
{"id": "C89", "title": "Operations that never end normally", "statement": "The misuses refuted by example in C33, C43, C44, C50 and C58 are undefined in every state and not only in the examples: self-assignment of a non-empty trivial_vector, trivial_array, trivial_buffer or of a binary_heap of objects, assignment of its own elements to an array or buffer, removing the last element of a binary_heap of objects, moving a binary_heap with objects into another allocator, self-assignment of the only handle of a shared block; and over malloc, appending an own element to a container that must grow.", "quantifier": "every state of the container, every allocator (heap: every composition; own elements: malloc), every memory, every behaviour of malloc", "why_tests_cant": "A test that passes with one allocator or one memory layout says nothing about the others; undefined behaviour often goes unnoticed.", "anchors": ["include/ktl/containers/trivial_vector.h:operator=", "include/ktl/containers/trivial_array.h:assign", "include/ktl/containers/trivial_buffer.h:operator=", "include/ktl/containers/binary_heap.h:pop", "include/ktl/allocators/shared.h:operator="]}
{"id": "C90", "title": "Containers treat elements as opaque values", "statement": "If every element value in a program over trivial_vector, trivial_array and binary_heap is replaced by another one, the program does the same as before with the new values: the same addresses, sizes, indices, allocations, reports, the same memory up to the replacement, and every value it reads is the replacement of the value it read before. For binary_heap the comparator, operator== and moves must treat the new values as they treated the old ones. If different values have different replacements, undefined behaviour is the same too.", "quantifier": "every replacement, every composition of allocators, every program, every memory, every element size and type", "why_tests_cant": "Every pair of programs would have to be compared, for infinitely many replacements.", "anchors": ["include/ktl/containers/trivial_vector.h:push_back", "include/ktl/containers/trivial_array.h:assign", "include/ktl/containers/binary_heap.h:percolateUp", "include/ktl/containers/binary_heap.h:percolateDown", "include/ktl/containers/binary_heap.h:find"]}
{"id": "C91", "title": "What is stored has no influence on where it is stored", "statement": "Two programs over trivial_vector or trivial_array that differ only in the values they store get the same addresses, sizes, capacities and reports, leave the same memory accessible and run into a failed allocation both or neither.", "quantifier": "every composition of allocators, every pair of programs of the same shape, every memory without elements, every behaviour of malloc", "why_tests_cant": "Absence of a dependence cannot be observed: all pairs of values would have to be tried in all programs.", "anchors": ["include/ktl/containers/trivial_vector.h:push_back", "include/ktl/containers/trivial_vector.h:erase", "include/ktl/containers/trivial_array.h:assign", "include/ktl/containers/trivial_array.h:resize"]}
{"id": "C92", "title": "Heaps: neither values nor comparators influence storage", "statement": "Two programs over binary_heap, also together with trivial_vector and trivial_array, that differ only in the values stored, in the comparators, in operator== and in what a move leaves behind make the same allocations and deallocations at the same addresses, report the same sizes, capacities and failed asserts, leave elements at the same places and run into a failed allocation both or neither. Only values, the positions returned by insert and find, and the order of elements differ.", "quantifier": "every composition of allocators, every pair of programs of the same shape, every pair of comparators (orders or not), trivially copyable and other element types, every memory, every behaviour of malloc", "why_tests_cant": "Absence of a dependence cannot be observed: all pairs of values and comparators would have to be tried in all programs.", "anchors": ["include/ktl/containers/binary_heap.h:insert", "include/ktl/containers/binary_heap.h:pop", "include/ktl/containers/binary_heap.h:percolateUp", "include/ktl/containers/binary_heap.h:percolateDown", "include/ktl/containers/binary_heap.h:find"]}
{"id": "C93", "title": "Exact behaviour of allocators at the limits", "statement": "(a) linear_allocator and stack_allocator serve a request for n bytes, rounded up to R, exactly if the bytes used so far plus R do not exceed Size or reach 2^64; then the free pointer moves by R modulo 2^64. max_size() can be served by a fresh allocator exactly if it is a multiple of 16. (b) The POSIX branch of aligned_malloc(n, 16) returns null or a block of exactly 16 bytes that is n-aligned; it returns null without calling malloc unless n is a power of two not less than 8. (c) If the first allocator of a fallback over malloc is a full linear_allocator, a request for 0 bytes yields the end of its buffer, and giving it back frees the malloc block that begins there, or is undefined if there is none. (d) If cascading over linear_allocator is asked k times for a size within max_size() that does not fit, all requests fail and k+1 instances remain on the heap, unless malloc fails, which is undefined behaviour. (e) max_size() of cascading is undefined exactly until the first request and afterwards that of the newest instance; cascading over cascading cannot serve its first request. (f) The destructor of cascading reports a failed assertion once for every instance but the first. (g) type_allocator<T> over malloc requests sizeof(T)*n modulo 2^64 bytes.", "quantifier": "every Size, every request below 2^64, every reachable state, every program, every number of requests, every memory, every behaviour of malloc", "why_tests_cant": "The boundaries lie near 2^64 and on other platforms, and the counts grow without bound.", "anchors": ["include/ktl/allocators/linear_allocator.h:allocate", "include/ktl/allocators/stack_allocator.h:allocate", "include/ktl/utility/aligned_malloc.h:aligned_malloc", "include/ktl/allocators/fallback.h:deallocate", "include/ktl/allocators/cascading.h:allocate", "include/ktl/allocators/cascading.h:max_size", "include/ktl/allocators/cascading.h:release", "include/ktl/allocators/type_allocator.h:allocate"]}
{"id": "C94", "title": "malloc is called a bounded number of times", "statement": "(a) For every composition of allocators there are two numbers, computed from its type, such that constructing it calls malloc at most so often, and serving a request at most so often, whatever its state: a mallocator once, a fallback the sum, a segragator the larger of the two, cascading twice the calls of creating an instance and asking it, shared one to be created. Deallocation, construct(), destroy(), max_size() and destructors never call malloc. (b) Every operation of trivial_vector, trivial_array and binary_heap asks its allocator at most once, also the constructor of binary_heap from an initializer_list that inserts elements one by one; operations that need no storage do not ask. (c) So a program with n operations that may need storage calls malloc at most n times the number of its composition, plus the construction of the allocators.", "quantifier": "every composition of any depth, every platform, every state, every program of any length with any number of containers and allocators, every element size and comparator, every memory and behaviour of malloc", "why_tests_cant": "The number of calls depends on which requests malloc refuses and on the states of all allocators of a composition.", "anchors": ["include/ktl/allocators/cascading.h:allocate", "include/ktl/allocators/fallback.h:allocate", "include/ktl/allocators/segragator.h:allocate", "include/ktl/allocators/freelist.h:allocate", "include/ktl/allocators/shared.h:shared", "include/ktl/containers/trivial_vector.h:push_back", "include/ktl/containers/trivial_array.h:resize", "include/ktl/containers/binary_heap.h:binary_heap", "include/ktl/containers/binary_heap.h:insert"]}
{"id": "C95", "title": "Pointers to elements of binary_heap", "statement": "data(), the iterators, the results of insert() and find() and the reference returned by peek() let a program read and write elements of a binary_heap without calling it. (a) Such a pointer is another name of one element of one heap and of nothing else: what is written is found there, what is there is read, and no other heap, size, capacity or storage changes. (b) A heap written at will keeps its elements, storage and object lifetimes correct under every further operation. (c) A heap stays a priority queue if the only writes replace its first element by one that is not greater. (d) Any other write through peek() is accepted and can make elements leave out of order.", "quantifier": "every composition of allocators and every allocator that meets the contract, every program that mixes calls with reads and writes through pointers, any number of heaps, of element type and size, every comparator and every set of heaps written at will", "why_tests_cant": "Whether an address is an element depends on the whole history of the program and of its allocators; tests of binary_heap never write through these pointers.", "anchors": ["include/ktl/containers/binary_heap.h:peek", "include/ktl/containers/binary_heap.h:data", "include/ktl/containers/binary_heap.h:begin", "include/ktl/containers/binary_heap.h:insert", "include/ktl/containers/binary_heap.h:find", "include/ktl/containers/binary_heap.h:pop"]}
{"id": "C96", "title": "Containers own copies of their allocator", "statement": "Every container has an allocator object of its own, which its constructors copy from an argument or from another container, its assignments overwrite and its destructor destroys. (a) Whenever the allocator can be copied and the program compiles, the results, the final state and all events are the same as if the containers referred to the objects the program made, except the leak reports of overflow. (b) Hence trivial_vector and trivial_array remain lists, binary_heap remains a priority queue, and everything is given back. (c) The reports are not the same: copies and moves are reported as leaks although nothing leaks.", "quantifier": "every copyable composition of allocators, every program that compiles with it, any number of allocator objects and containers, all values, comparators and states", "why_tests_cant": "The counters of a copy are wrong in silence until it is destroyed, perhaps much later; the tests of the containers use no allocator whose copies differ from the original.", "anchors": ["include/ktl/containers/trivial_vector.h:trivial_vector", "include/ktl/containers/trivial_vector.h:operator=", "include/ktl/containers/trivial_array.h:trivial_array", "include/ktl/containers/trivial_array.h:operator=", "include/ktl/containers/binary_heap.h:binary_heap", "include/ktl/containers/binary_heap.h:operator=", "include/ktl/allocators/type_allocator.h:type_allocator", "include/ktl/allocators/overflow.h:overflow", "include/ktl/allocators/fallback.h:fallback", "include/ktl/allocators/segragator.h:segragator"]}
{"id": "C97", "title": "noexcept clauses", "statement": "(a) allocate and deallocate of every composition are declared noexcept exactly when they lock no mutex, and exactly then no exception can leave them. (b) Whatever elements and streams throw, no call of allocate, owns, max_size, construct, destroy or a default constructor terminates the program. (c) If the streams do not throw, destruction and deallocation terminate the program exactly for the types in which they return blocks kept by a freelist to an allocator that locks, and without such freelists no member does; assignment and deallocation can otherwise. (d) Operations of trivial_vector and trivial_array terminate exactly when they are declared noexcept and may call a locking member; operations of binary_heap never do over allocators that do not lock and elements that do not throw, but insert does otherwise.", "quantifier": "every composition of allocators, every member function, every combination of throwing and non-throwing element types, comparators and streams, every operation of the containers", "why_tests_cant": "Failing locks, throwing streams and throwing constructors do not occur in tests; the clauses are evaluated at compile time and never observed.", "anchors": ["include/ktl/allocators/freelist.h:release", "include/ktl/allocators/freelist.h:operator=", "include/ktl/allocators/cascading.h:deallocate", "include/ktl/allocators/threaded.h:allocate", "include/ktl/allocators/threaded.h:deallocate", "include/ktl/allocators/overflow.h:~overflow", "include/ktl/allocators/fallback.h:construct", "include/ktl/utility/meta.h:has_nothrow_construct", "include/ktl/utility/meta.h:has_nothrow_deallocate_v", "include/ktl/containers/binary_heap.h:insert", "include/ktl/containers/trivial_vector.h:set_size", "include/ktl/containers/trivial_array.h:operator="]}
{"id": "C98", "title": "Reports of copied allocators follow a ledger", "statement": "What containers that own an overflow allocator report at destruction is determined exactly by a ledger of debts. (a) A new container owes nothing; a copy owes what the original owes and holds (a vector reports that at once, for the temporary); a moved-to container takes over the debt, and the moved-from one owes in addition what was moved; a heap moved to another allocator owes the objects it did not destroy; every other operation leaves the debts alone; a destructor reports its debt, bytes and objects separately, reduced to 64 bits, if not 0. The reports of a program are these and no others, in this order, unless an allocation fails. (b) Keeping the ledger does not influence the run. (c) Hence a program that neither copies nor moves a container reports nothing.", "quantifier": "every overflow around a copyable composition without further overflow, every program of trivial_vector, trivial_array or binary_heap that compiles with it, any number of allocator objects and containers, all values, comparators and states", "why_tests_cant": "Reports appear at destruction, far from the copy or move that caused them, and their size depends on the whole history; no test of the containers looks at the output of overflow.", "anchors": ["include/ktl/containers/trivial_vector.h:trivial_vector", "include/ktl/containers/trivial_array.h:trivial_array", "include/ktl/containers/binary_heap.h:binary_heap", "include/ktl/allocators/overflow.h:overflow", "include/ktl/allocators/overflow.h:~overflow", "include/ktl/allocators/type_allocator.h:type_allocator"]}
{"id": "C99", "title": "Heaps survive comparators that change their mind", "statement": "binary_heap relies on nothing about its comparator, not even that it is a function. Whatever is answered to each single question of a program, by Comp or by operator== in find - from state, from data that changes in the meantime, or at random - (a) there is no undefined behaviour, no failed assertion, no misuse of the allocator and no leak; (b) no element is lost or duplicated: an insertion adds exactly the value and returns a position where it is, a removal returns the first element and removes exactly that one, and find returns the position at which the answer was yes; (c) an operation reads few answers: floor(log2(m+1)) for insert, 2*floor(log2(m-1)) for pop, m for find. (d) Programs with comparators that are functions are the special case in which the answers follow from the values.", "quantifier": "every composition of allocators of the contract, every finite program of binary_heap operations, every list of answers per operation, all element types, sizes, values and states", "why_tests_cant": "Tests use std::less and std::greater, which never contradict themselves; a comparator that looks up priorities in a table that changes while the heap is in use is common and does.", "anchors": ["include/ktl/containers/binary_heap.h:percolateUp", "include/ktl/containers/binary_heap.h:percolateDown", "include/ktl/containers/binary_heap.h:insert", "include/ktl/containers/binary_heap.h:pop", "include/ktl/containers/binary_heap.h:find"]}
{"id": "C100", "title": "Mutexes: no deadlock", "statement": "Several threads use compositions with any number of threaded parts, nested in each other or reached through handles to shared allocators: each thread makes any sequence of calls of allocate, deallocate, construct, destroy, max_size, constructors and destructors, and of operations of containers, where constructing or destroying an element may itself do all this. (a) No thread ever locks a mutex that it holds or unlocks one that it does not hold, and no two threads hold the same one. (b) In every reachable state all threads have finished or some thread can take a step, also after lock() has thrown any number of times, so there is no deadlock; (c) the number of steps is bounded by what the calls do, and from every reachable state all threads can be run to their end. (d) Constructors and max_size lock nothing; allocate, deallocate and destructors lock nothing where the tables of C97 say that they cannot fail; construct and destroy lock only what the element locks, and hold nothing while it is at work. (e) A thread that is alone observes the same as without the mutexes, in allocator programs and in container programs.", "quantifier": "every platform, every tower of shared allocators, every composition with handles to one of its levels, all states of the objects and of the memory, everything other threads may do to an object before the mutex is obtained, every number of threads, every schedule, every pattern of failing locks", "why_tests_cant": "The tests never use two threads, and a deadlock needs the right interleaving of two calls.", "anchors": ["include/ktl/allocators/threaded.h:allocate", "include/ktl/allocators/threaded.h:deallocate", "include/ktl/allocators/threaded.h:construct", "include/ktl/allocators/freelist.h:release", "include/ktl/allocators/reference.h:allocate"]}
{"id": "C101", "title": "Heap held by a composition", "statement": "A client that asks only while it holds fewer than k blocks, each time for at most m bytes, never makes a composition (in which cascading stands only over a linear_allocator whose size is a multiple of 16) hold more blocks or bytes of the heap than can be read off its type: mallocator k blocks of m bytes (plus the overhead of the generic aligned_malloc), freelist what its inner type needs for k blocks of Max bytes, fallback and segragator the sum of their parts (below the threshold for the first part of segragator), overflow the same with 128 more bytes per block, shared one block more, cascading k instances, linear, stack and null nothing. The bound does not depend on the length of the program. Other sizes have no such bound below cascading: for every Size that is not a multiple of 16, every request above the last multiple returns null and leaves one more instance behind, while the client holds nothing.", "quantifier": "every platform except POSIX, every such composition, all k and m, all programs, all behaviours of malloc; for the other sizes below cascading every such Size, every such request, every number of requests", "why_tests_cant": "The tests run a handful of requests; a leak that shows only after many rounds of requests, or only in one nesting of templates, is not visible to them.", "anchors": ["include/ktl/allocators/freelist.h:allocate", "include/ktl/allocators/freelist.h:deallocate", "include/ktl/allocators/fallback.h:allocate", "include/ktl/allocators/segragator.h:allocate", "include/ktl/allocators/overflow.h:allocate", "include/ktl/allocators/shared.h:shared", "include/ktl/allocators/cascading.h:allocate"]}
{"id": "C102", "title": "Heap held by containers", "statement": "After any program of trivial_vectors, trivial_arrays and binary_heaps of any number of element types over k allocators of one type (without freelist, and with cascading only over a linear_allocator whose size is a multiple of 16), the program holds at most one block of the heap for each container whose data() is not null and, for each of the k allocators, one block for each shared and one spare instance for each cascading in its type. In particular reserve, resize, assignment, move and destruction leave nothing behind, at any point of a program and not only at its end. The same holds for a program that uses one allocator directly, with the blocks it has not returned in place of the containers, also if malloc fails.", "quantifier": "every platform except POSIX, every such composition, every element size, every number of allocators, all programs that keep to the preconditions of C39, C41 and their counterparts (Vector.v: vlegal, Array.v: alegal, Heap.v: hlegal), all behaviours of malloc in which no allocation fails", "why_tests_cant": "A block that an operation forgets is invisible to assertions about the elements, and one that is released only by the destructor is invisible to leak checkers at exit as well.", "anchors": ["include/ktl/containers/trivial_vector.h:set_size", "include/ktl/containers/trivial_vector.h:operator=", "include/ktl/containers/trivial_array.h:resize", "include/ktl/containers/trivial_array.h:operator=", "include/ktl/containers/binary_heap.h:reserve", "include/ktl/containers/binary_heap.h:operator=", "include/ktl/allocators/cascading.h:deallocate", "include/ktl/allocators/shared.h:shared"]}
{"id": "C103", "title": "Exact heap of containers over malloc", "statement": "Over a composition of mallocator, segragator, overflow, shared, threaded, reference and global only, the heap that a program of trivial_vectors, trivial_arrays and binary_heaps of any number of element types holds at any point is determined by the containers it shows: exactly one block for each container whose data() is not null, of capacity times element size bytes plus 128 for each overflow on its way to the mallocator (and the 16 bytes of the portable aligned_malloc), and exactly the block of each shared for each allocator. There is no slack: a container never keeps a block larger than its capacity() says, a block is never split or shared, and nothing else is held. The same holds for a program that uses one allocator directly, with the blocks it has not returned in place of the containers, also if malloc fails.", "quantifier": "every platform except POSIX, every such composition, every element size, every number of allocators, all programs that keep to the preconditions of C39, C41 and their counterparts, all behaviours of malloc in which no allocation fails", "why_tests_cant": "The bytes behind a container cannot be observed through its interface; a test sees capacity() but not the request that was made for it.", "anchors": ["include/ktl/containers/trivial_vector.h:set_size", "include/ktl/containers/trivial_array.h:resize", "include/ktl/containers/binary_heap.h:set_size", "include/ktl/allocators/overflow.h:allocate", "include/ktl/allocators/segragator.h:allocate", "include/ktl/allocators/shared.h:shared", "include/ktl/utility/aligned_malloc.h:aligned_malloc"]}
