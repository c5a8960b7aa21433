{
 "claims": [
  {
   "property": "C01",
   "status": "proved",
   "theorems": [
    "C01_padding_is_least"
   ],
   "note": "all n"
  },
  {
   "property": "C02",
   "status": "proved",
   "theorems": [
    "C02_log2_exact"
   ],
   "note": "all 0 < n < 2^64"
  },
  {
   "property": "C03",
   "status": "proved",
   "theorems": [
    "C03_pow2_least"
   ],
   "note": "all 1 <= n <= 2^63"
  },
  {
   "property": "C04",
   "status": "proved",
   "theorems": [
    "C04_packed_ptr_history",
    "C04_packed_ptr_misaligned",
    "C04_packed_ptr_assert"
   ],
   "note": "any call sequence; misaligned pointers are rounded down"
  },
  {
   "property": "C05",
   "status": "proved",
   "theorems": [
    "C05_segragator_builder_routing",
    "C05_descending_order_refuted"
   ],
   "note": "ascending thresholds; the documented \"descending order\" is refuted"
  },
  {
   "property": "C06",
   "status": "proved",
   "theorems": [
    "C06_fallback_builder_order"
   ],
   "note": "any non-empty pack"
  },
  {
   "property": "C07",
   "status": "partial",
   "theorems": [
    "C07_aligned_malloc_block",
    "C07_aligned_free_exact",
    "C07_posix_refuted",
    "C07_posix_refuses_refuted",
    "C07_generic_wrap_refuted"
   ],
   "note": "proved for the Windows/C11/generic branches (generic: n+16 < 2^64); false for the POSIX branch, which swaps size and alignment, and for wrapping sizes in the generic branch"
  },
  {
   "property": "C08",
   "status": "proved",
   "theorems": [
    "C08_linear_layout",
    "C08_linear_sessions"
   ],
   "note": "requests whose padded size does not wrap around (see C11)"
  },
  {
   "property": "C09",
   "status": "proved",
   "theorems": [
    "C09_full_capacity"
   ],
   "note": ""
  },
  {
   "property": "C10",
   "status": "proved",
   "theorems": [
    "C10_undo",
    "C10_undo_stack"
   ],
   "note": ""
  },
  {
   "property": "C11",
   "status": "partial",
   "theorems": [
    "C11_oversized",
    "C11_oversized_refuted",
    "C11_overlap_refuted"
   ],
   "note": "true unless n + 15 + Size reaches 2^64; false for n close to 2^64"
  },
  {
   "property": "C12",
   "status": "proved",
   "theorems": [
    "C12_mallocator"
   ],
   "note": "every malloc behaviour; all platforms except the POSIX branch (C07); generic branch n+16 < 2^64"
  },
  {
   "property": "C13",
   "status": "proved",
   "theorems": [
    "C13_C15_freelist",
    "C13_freelist_refuses"
   ],
   "note": "over any inner allocator that satisfies the contract"
  },
  {
   "property": "C14",
   "status": "proved",
   "theorems": [
    "C14_freelist_reuses",
    "C14_inner_idle"
   ],
   "note": ""
  },
  {
   "property": "C15",
   "status": "proved",
   "theorems": [
    "C13_C15_freelist"
   ],
   "note": "the inner allocator is wrapped in the specification device [checked]"
  },
  {
   "property": "C16",
   "status": "proved",
   "theorems": [
    "C16_segragator",
    "C16_routes_allocate",
    "C16_routes_deallocate"
   ],
   "note": ""
  },
  {
   "property": "C17",
   "status": "proved",
   "theorems": [
    "C17_fallback",
    "C17_order"
   ],
   "note": ""
  },
  {
   "property": "C18",
   "status": "partial",
   "theorems": [
    "C18_empty_request_refuted",
    "C17_fallback"
   ],
   "note": "false for n = 0; true for n > 0"
  },
  {
   "property": "C19",
   "status": "proved",
   "theorems": [
    "C19_C20_cascading"
   ],
   "note": "unless malloc refuses a node (aligned_new does not check, C53)"
  },
  {
   "property": "C20",
   "status": "proved",
   "theorems": [
    "C19_C20_cascading",
    "C20_instance_deleted"
   ],
   "note": ""
  },
  {
   "property": "C21",
   "status": "partial",
   "theorems": [
    "C21_refused_request_refuted",
    "C21_too_large"
   ],
   "note": "false: every refusal of a request within max_size adds an instance"
  },
  {
   "property": "C22",
   "status": "partial",
   "theorems": [
    "C22_fresh_max_size_refuted",
    "C22_nested_cascading_refuted",
    "C22_max_size_defined"
   ],
   "note": "false for cascading; true for all compositions without cascading over a type with max_size"
  },
  {
   "property": "C23",
   "status": "proved",
   "theorems": [
    "C23_overflow"
   ],
   "note": ""
  },
  {
   "property": "C24",
   "status": "proved",
   "theorems": [
    "C24_corruption_report"
   ],
   "note": ""
  },
  {
   "property": "C25",
   "status": "partial",
   "theorems": [
    "C25_C26_reports",
    "C25_failed_request_refuted"
   ],
   "note": "exact report is outstanding bytes plus bytes of failed requests; hence false when a request failed"
  },
  {
   "property": "C26",
   "status": "proved",
   "theorems": [
    "C25_C26_reports"
   ],
   "note": ""
  },
  {
   "property": "C27",
   "status": "proved",
   "theorems": [
    "C27_every_composition"
   ],
   "note": "every tree; requests within ereq (no wrapping, no empty requests to fallback/cascading); cascading of types whose max_size needs a node is excluded (C22)"
  },
  {
   "property": "C28",
   "status": "proved",
   "theorems": [
    "C28_owns_exact"
   ],
   "note": ""
  },
  {
   "property": "C29",
   "status": "proved",
   "theorems": [
    "C29_max_size_bounds"
   ],
   "note": ""
  },
  {
   "property": "C30",
   "status": "partial",
   "theorems": [
    "C30_attainable_linear",
    "C30_linear_refuted",
    "C30_segragator_refuted"
   ],
   "note": "true for linear/stack with Size a multiple of 16; false otherwise and for segragator"
  },
  {
   "property": "C31",
   "status": "partial",
   "theorems": [
    "C31_byte_sizes",
    "C31_max_size",
    "C31_wrap_refuted"
   ],
   "note": "true if sizeof(T)*n < 2^64; false otherwise"
  },
  {
   "property": "C38",
   "status": "proved",
   "theorems": [
    "C38_construct_once"
   ],
   "note": ""
  },
  {
   "property": "C54",
   "status": "partial",
   "theorems": [
    "C54_no_assertion_fires",
    "C54_cascading_refuted"
   ],
   "note": "true for every composition without cascading; cascading.h:273 fires for well-behaved clients"
  },
  {
   "property": "C55",
   "status": "partial",
   "theorems": [
    "C55_move_assign_refuted",
    "C55_move_assign_empty",
    "C55_move_construct"
   ],
   "note": "false if the target has outstanding bytes; true otherwise"
  },
  {
   "property": "C56",
   "status": "partial",
   "theorems": [
    "C56_copy_refuted",
    "C56_balanced_copy"
   ],
   "note": "false; true when both counters are zero"
  },
  {
   "property": "C32",
   "status": "proved",
   "theorems": [
    "C32_shared_exact",
    "C32_shared_safe"
   ],
   "note": "fewer than 2^64 operations"
  },
  {
   "property": "C33",
   "status": "partial",
   "theorems": [
    "C33_self_assign_refuted",
    "C33_self_assign_counted"
   ],
   "note": "false for the only handle of a block; true if another handle exists"
  },
  {
   "property": "C34",
   "status": "proved",
   "theorems": [
    "C34_atomic_shared",
    "C34_notomic_leak_refuted",
    "C34_notomic_dangle_refuted",
    "C34_relaxed_refuted"
   ],
   "note": "every number of threads and every schedule of fewer than 2^64 steps"
  },
  {
   "property": "C35",
   "status": "proved",
   "theorems": [
    "C35_mutex_linear",
    "C35_no_deadlock",
    "C35_threaded"
   ],
   "note": "allocate and deallocate"
  },
  {
   "property": "C36",
   "status": "partial",
   "theorems": [
    "C36_construct_refuted",
    "C35_mutex_linear"
   ],
   "note": "false: construct and destroy are not locked"
  },
  {
   "property": "C37",
   "status": "partial",
   "theorems": [
    "C37_global_one",
    "C37_compare_refuted"
   ],
   "note": "one state: proved; == and != are both always true"
  },
  {
   "property": "C39",
   "status": "proved",
   "theorems": [
    "C39_vector_is_list",
    "C39_vector_is_list_any_allocator"
   ],
   "note": "except emplace and pop_back, which do not compile, and the operations of C42-C44; no allocation fails (C53)"
  },
  {
   "property": "C40",
   "status": "proved",
   "theorems": [
    "C40_size_at_most_capacity",
    "C40_reserve",
    "C40_data_stable"
   ],
   "note": ""
  },
  {
   "property": "C41",
   "status": "proved",
   "theorems": [
    "C41_vector_memory_discipline"
   ],
   "note": "the allocators are wrapped in the specification device [checked]"
  },
  {
   "property": "C42",
   "status": "partial",
   "theorems": [
    "C42_vector_refuted",
    "C42_array_refuted",
    "C42_wrong_allocator_refuted",
    "C42_heap_refuted"
   ],
   "note": "false; the guarded operation (nothing allocated or sizeof(T) = 1) is part of C39, C41, C45 and C47"
  },
  {
   "property": "C43",
   "status": "partial",
   "theorems": [
    "C43_vector_refuted",
    "C43_array_refuted",
    "C43_heap_refuted"
   ],
   "note": "false; assignment from another container is part of C39, C45 and C47"
  },
  {
   "property": "C44",
   "status": "partial",
   "theorems": [
    "C44_push_back_own_refuted",
    "C44_push_back_own_range_refuted",
    "C44_array_assign_own_refuted",
    "C44_insert_own_refuted"
   ],
   "note": "false if the container must grow; if there is room it is part of C39 and C47"
  },
  {
   "property": "C45",
   "status": "proved",
   "theorems": [
    "C45_array_is_list",
    "C45_array_is_list_any_allocator",
    "C45_array_memory_discipline"
   ],
   "note": ""
  },
  {
   "property": "C47",
   "status": "proved",
   "theorems": [
    "C47_heap_is_priority_queue",
    "C47_heap_is_array",
    "C47_heap_is_array_any_allocator"
   ],
   "note": "every comparator index, element type, history and composition; requests below 2^63 bytes; for element types that are not trivial the last element is not popped (C50)"
  },
  {
   "property": "C48",
   "status": "partial",
   "theorems": [
    "C48_heap_sort",
    "C48_heap_sort_objects_partial"
   ],
   "note": "complete for trivial element types; for others the last element can only be peeked at (popping it is undefined, C50)"
  },
  {
   "property": "C49",
   "status": "proved",
   "theorems": [
    "C49_heap_memory_discipline",
    "C49_no_element_lost"
   ],
   "note": "[comp] is an arbitrary function; a comparator with side effects is not modelled"
  },
  {
   "property": "C50",
   "status": "partial",
   "theorems": [
    "C50_object_lifetimes_partial",
    "C50_pop_last_refuted",
    "C50_move_with_allocator_refuted"
   ],
   "note": "false for popping the last element and for moving into another allocator; everything else proved"
  },
  {
   "property": "C51",
   "status": "proved",
   "theorems": [
    "C51_find_first",
    "C51_find_in_range"
   ],
   "note": ""
  },
  {
   "property": "C52",
   "status": "proved",
   "theorems": [
    "C52_insert_position"
   ],
   "note": ""
  },
  {
   "property": "C53",
   "status": "partial",
   "theorems": [
    "C53_vector_refuted",
    "C53_array_refuted",
    "C53_heap_refuted"
   ],
   "note": "false: no container checks for null"
  },
  {
   "property": "C46",
   "status": "proved",
   "theorems": [
    "C46_index_rolls_over"
   ],
   "note": "non-const operator[]; at() and the const operator[] do not compile (they cast away const)"
  },
  {
   "property": "C57",
   "status": "proved",
   "theorems": [
    "C57_buffer_is_list"
   ],
   "note": ""
  },
  {
   "property": "C58",
   "status": "partial",
   "theorems": [
    "C58_buffer_self_assign_refuted"
   ],
   "note": "false: memcpy onto itself"
  },
  {
   "property": "C59",
   "status": "partial",
   "theorems": [
    "C59_equality",
    "C59_inequality",
    "C59_global_refuted"
   ],
   "note": "Proved for every composition; != is not the negation of == for global, both return true (refuted)."
  },
  {
   "property": "C60",
   "status": "proved",
   "theorems": [
    "C60_moves"
   ],
   "note": "By induction over the composition. Handle types (stack, shared, reference, global) and threaded are not moved in this model; shared handles are C32."
  },
  {
   "property": "C61",
   "status": "partial",
   "theorems": [
    "C61_overflow_exchange_refuted"
   ],
   "note": "Refuted: operator== ignores the counters. Memory safety of the exchange is part of C60."
  },
  {
   "property": "C62",
   "status": "partial",
   "theorems": [
    "C62_freelist_move_assert_refuted",
    "C60_moves"
   ],
   "note": "Refuted for freelist over cascading. C60 proves that the assertion holds over stateless allocators (flags always and empty)."
  },
  {
   "property": "C63",
   "status": "partial",
   "theorems": [
    "C63_shared_equality",
    "C63_empty_handles_refuted"
   ],
   "note": "Proved unless both handles were moved from, which dereferences null (refuted)."
  },
  {
   "property": "C64",
   "status": "proved",
   "theorems": [
    "C64_vector_amortised_growth"
   ],
   "note": "Observed through size() and capacity(); growth by at least half."
  },
  {
   "property": "C65",
   "status": "proved",
   "theorems": [
    "C65_heap_size_at_most_capacity",
    "C65_heap_reserve",
    "C65_heap_data_stable"
   ],
   "note": ""
  },
  {
   "property": "C66",
   "status": "proved",
   "theorems": [
    "C66_heap_amortised_growth"
   ],
   "note": "Observed through size() and capacity(); growth by at least doubling."
  },
  {
   "property": "C67",
   "status": "proved",
   "theorems": [
    "C67_freelist_footprint",
    "C67_freelist_heap"
   ],
   "note": "The first theorem watches the inner allocator with checked (Checked.v)."
  },
  {
   "property": "C68",
   "status": "partial",
   "theorems": [
    "C68_cascading_footprint",
    "C68_odd_size_refuted"
   ],
   "note": "Proved for Size a multiple of 16; refuted for other sizes, where a request that does not exceed Size is refused by an empty instance and leaves the instances behind."
  },
  {
   "property": "C69",
   "status": "proved",
   "theorems": [
    "C69_program_comparisons",
    "C69_operation_comparisons",
    "C69_loglinear",
    "C69_up_iterations",
    "C69_down_iterations"
   ],
   "note": "Comparisons are counted without instrumenting the model: at most n answers determine everything the program does. Sizes up to 2^63, beyond which an index would wrap."
  },
  {
   "property": "C70",
   "status": "proved",
   "theorems": [
    "C70_vector_elements_aligned",
    "C70_array_elements_aligned",
    "C70_heap_elements_aligned",
    "C70_overaligned_refuted"
   ],
   "note": "The last theorem shows that the restriction is needed: types that need more than 16 bytes are not supported."
  },
  {
   "property": "C71",
   "status": "proved",
   "theorems": [
    "C71_vectors",
    "C71_arrays",
    "C71_heaps"
   ],
   "note": "Programs of fewer than 2^64 - 1 steps. Self-assignment of a handle or container is part of the programs unless it is the only handle (C33, C72)."
  },
  {
   "property": "C72",
   "status": "partial",
   "theorems": [
    "C72_self_assignment_refuted",
    "C71_vectors",
    "C71_arrays",
    "C71_heaps"
   ],
   "note": "false for a container that holds the only handle of its block; if another handle exists it is part of C71"
  },
  {
   "property": "C73",
   "status": "proved",
   "theorems": [
    "C73_vector_among_threads",
    "C73_array_among_threads",
    "C73_heap_among_threads",
    "C73_service_among_threads"
   ],
   "note": "The other threads act before and after each call of an allocator member, not between two accesses of a container to its own elements."
  },
  {
   "property": "C74",
   "status": "proved",
   "theorems": [
    "C74_set_allocator",
    "C74_outstanding_refuted"
   ],
   "note": "Without the condition on outstanding blocks the claim is false (C74_outstanding_refuted)."
  },
  {
   "property": "C75",
   "status": "partial",
   "theorems": [
    "C75_vector_exact_report",
    "C75_array_exact_report",
    "C75_heap_exact_report_partial",
    "C75_vector_no_false_report",
    "C75_array_no_false_report",
    "C75_heap_no_false_report_partial",
    "C75_heap_move_refuted"
   ],
   "note": "Complete for vectors and arrays; for binary_heap without the move constructor that takes an allocator, which causes a false report (C75_heap_move_refuted)."
  },
  {
   "property": "C76",
   "status": "partial",
   "theorems": [
    "C76_copy_reports",
    "C76_move_reports",
    "C76_copy_refuted",
    "C76_move_refuted"
   ],
   "note": "False: every copy of a vector with storage causes two reports and every move one; the theorems say which."
  },
  {
   "property": "C77",
   "status": "proved",
   "theorems": [
    "C77_mixed_program",
    "C77_any_allocator",
    "C77_among_threads",
    "C77_vectors_among",
    "C77_arrays_among",
    "C77_heaps_among"
   ],
   "note": "Requests below 2^63 bytes, as for binary_heap alone. An operation that does not suit the type (would not compile) does nothing."
  },
  {
   "property": "C78",
   "status": "partial",
   "theorems": [
    "C78_others_unaffected_partial",
    "C78_consequences_partial",
    "C78_any_allocator_partial",
    "C78_every_throw_leaks",
    "C78_no_leak_refuted",
    "C78_assign_refuted",
    "C78_report_refuted"
   ],
   "note": "The claim is false of the code. Proved: what exactly remains of constructions that throw (every one leaks its storage and the objects made), and that other heaps are not affected. Refuted: no leak; the heap remains destructible after an assignment that throws; overflow reports the right number of objects. Members that are noexcept end the program and are not part of the model."
  },
  {
   "property": "C79",
   "status": "proved",
   "theorems": [
    "C79_vector_pointers",
    "C79_array_pointers",
    "C79_vector_pointers_any_allocator",
    "C79_array_pointers_any_allocator",
    "C79_write_through_pointer",
    "C79_read_through_pointer",
    "C79_pointer_follows_move",
    "C79_array_write_through_pointer"
   ],
   "note": "Pointers are addresses. An access through an address that is not that of an element is not part of the programs, as is one through a pointer that became invalid."
  },
  {
   "property": "C80",
   "status": "proved",
   "theorems": [
    "C80_team_safe",
    "C80_at_rest",
    "C80_bounded_wait",
    "C80_no_deadlock"
   ],
   "note": "A handle or piece of memory is used by one thread at a time, which is what the types require. Interleaving semantics: fetch_add, fetch_sub, lock and unlock are single steps, and the allocator under the mutex is a single step between an entry (which is undefined behaviour if another call is running) and its return. Dropping the last handle while memory is still out is not part of the programs."
  },
  {
   "property": "C81",
   "status": "proved",
   "theorems": [
    "C81_oblivious"
   ],
   "note": "Bytes that hold a live object of non-trivial type are the same in both worlds; all other bytes may differ."
  },
  {
   "property": "C82",
   "status": "proved",
   "theorems": [
    "C82_capacity"
   ],
   "note": "The refusal of malloc is visible in the model as the event EvRefuse. Same preconditions on requests as C27."
  },
  {
   "property": "C83",
   "status": "proved",
   "theorems": [
    "C83_endless"
   ],
   "note": "The set of sizes is a lower bound: linear and stack allocators contribute nothing to it, even for zero bytes."
  },
  {
   "property": "C84",
   "status": "proved",
   "theorems": [
    "C84_vector",
    "C84_array",
    "C84_heap",
    "C84_mixed",
    "C84_among_threads",
    "C84_vector_pointers",
    "C84_array_pointers",
    "C84_shared_vector",
    "C84_shared_array",
    "C84_shared_heap"
   ],
   "note": "Requests of zero bytes are in scope too. For binary_heap, requests below 2^63 bytes. Among threads: the other threads also ask for such sizes."
  },
  {
   "property": "C85",
   "status": "proved",
   "theorems": [
    "C85_brackets",
    "C85_fallback_builder"
   ],
   "note": "Equality of the whole result of the computation (answers, final world, events, undefined behaviour), for sessions of one allocator (C27) and for programs over containers of several types (C77)."
  },
  {
   "property": "C86",
   "status": "proved",
   "theorems": [
    "C86_rotation",
    "C86_segragator_builder",
    "C86_order_refuted"
   ],
   "note": "The proviso on construct: segragator::construct asks m_Primary.owns, which does not compile if some member has no owns."
  },
  {
   "property": "C87",
   "status": "partial",
   "theorems": [
    "C87_clients",
    "C87_vector",
    "C87_array",
    "C87_heap",
    "C87_mixed",
    "C87_fallback_refuted",
    "C87_aliasing_refuted"
   ],
   "note": "Proved for all compositions that satisfy the proviso (sclean); without it the claim is refuted by fallback<freelist<0, 64, reference<A>>, reference<A>>. One shared object per level, which outlives the composition; the lifetime of shared handles is C32."
  },
  {
   "property": "C88",
   "status": "proved",
   "theorems": [
    "C88_vector",
    "C88_array",
    "C88_heap",
    "C88_size_constructor_refuted"
   ],
   "note": "That the excluded operations do go on without memory is C88_size_constructor_refuted. Requests beyond what the allocator supports are excluded as in C39."
  },
  {
   "property": "C89",
   "status": "proved",
   "theorems": [
    "C89_vector_self_assign",
    "C89_array_self_assign",
    "C89_array_own_range",
    "C89_buffer_self_assign",
    "C89_heap_self_assign",
    "C89_heap_pop_last",
    "C89_heap_move_objects",
    "C89_vector_push_own",
    "C89_vector_push_own_range",
    "C89_array_assign_own",
    "C89_heap_insert_own",
    "C89_shared_self_assign"
   ],
   "note": "Heap: elements of non-trivial type. Own elements: over mallocator in the configurations in which aligned_malloc is malloc, for a container whose storage is a block of malloc."
  },
  {
   "property": "C90",
   "status": "proved",
   "theorems": [
    "C90_vector",
    "C90_array",
    "C90_heap",
    "C90_mixed"
   ],
   "note": "In C90_mixed the element types of heaps are the same before and after."
  },
  {
   "property": "C91",
   "status": "proved",
   "theorems": [
    "C91_vector",
    "C91_array"
   ],
   "note": "Requests that the composition does not support count as failed allocations."
  },
  {
   "property": "C92",
   "status": "proved",
   "theorems": [
    "C92_heap",
    "C92_mixed"
   ],
   "note": "In C92_mixed the element types of heaps are the same in both programs. Requests that the composition does not support count as failed allocations."
  },
  {
   "property": "C93",
   "status": "proved",
   "theorems": [
    "C93_linear",
    "C93_attainable",
    "C93_posix",
    "C93_posix_refuses",
    "C93_fallback_empty",
    "C93_refused",
    "C93_cascading_max",
    "C93_nested_cascading",
    "C93_release",
    "C93_type_allocator"
   ],
   "note": "Complements C07, C11, C18, C21, C22, C30, C31 and C54, whose general claims fail."
  },
  {
   "property": "C94",
   "status": "proved",
   "theorems": [
    "C94_any_state",
    "C94_clients",
    "C94_vector",
    "C94_array",
    "C94_heap",
    "C94_mixed_program"
   ],
   "note": "Calls of malloc are counted by the world itself. Attained by the examples."
  },
  {
   "property": "C95",
   "status": "proved",
   "theorems": [
    "C95_heap_pointers",
    "C95_heap_pointers_any_allocator",
    "C95_memory_discipline",
    "C95_write_through_pointer",
    "C95_read_through_pointer",
    "C95_replace_first",
    "C95_pops_stay_sorted",
    "C95_any_write_keeps_order_refuted"
   ],
   "note": "The refuted statement is part (d) of the claim."
  },
  {
   "property": "C96",
   "status": "proved",
   "theorems": [
    "C96_vector_like_index",
    "C96_array_like_index",
    "C96_heap_like_index",
    "C96_vector_is_list",
    "C96_array_is_list",
    "C96_heap_is_priority_queue",
    "C96_reports_refuted"
   ],
   "note": "The refuted statement is part (c) of the claim. Only programs that never run out of memory or ask for unsupported requests, as in C42, are covered by part (b)."
  },
  {
   "property": "C97",
   "status": "proved",
   "theorems": [
    "C97_clauses_exact",
    "C97_construct_exact",
    "C97_clauses_honest",
    "C97_release_exact",
    "C97_assign_exact",
    "C97_quiet",
    "C97_release_refuted",
    "C97_stream_refuted",
    "C97_vector_exact",
    "C97_array_exact",
    "C97_vector_calls",
    "C97_array_calls",
    "C97_heap_calls",
    "C97_calls_made",
    "C97_heap_calm",
    "C97_heap_insert_refuted"
   ],
   "note": "The refuted statements are the counterexamples announced in (c) and (d). The model of exceptions lists the calls of each body and abstracts from their order and conditions; for the containers, the lists of calls of allocate and deallocate are proved complete and minimal with respect to the executable models."
  },
  {
   "property": "C98",
   "status": "proved",
   "theorems": [
    "C98_vector",
    "C98_array",
    "C98_heap",
    "C98_vector_ledger",
    "C98_array_ledger",
    "C98_heap_ledger",
    "C98_vector_stays",
    "C98_array_stays",
    "C98_heap_stays"
   ],
   "note": "If an allocation fails or a request exceeds 64 bits, nothing is said about the reports (failed allocations are counted too, C25)."
  },
  {
   "property": "C99",
   "status": "proved",
   "theorems": [
    "C99_memory_discipline",
    "C99_no_element_lost",
    "C99_any_allocator",
    "C99_every_comparator",
    "C99_few_answers"
   ],
   "note": "A comparator that itself uses the heap it belongs to is not modelled. Programs and platforms as in C47/C49."
  },
  {
   "property": "C100",
   "status": "proved",
   "theorems": [
    "C100_no_misuse",
    "C100_no_deadlock",
    "C100_all_finish",
    "C100_one_owner",
    "C100_same_code",
    "C100_single_thread",
    "C100_lock_free",
    "C100_elements_outside"
   ],
   "note": "A composition refers to one shared object per level. Mutexes are locked in descending order of their position in the type."
  },
  {
   "property": "C101",
   "status": "proved",
   "theorems": [
    "C101_footprint",
    "C101_cascading_creeps"
   ],
   "note": "The sizes below cascading that have no bound are excluded from the first theorem and are the subject of the second."
  },
  {
   "property": "C102",
   "status": "proved",
   "theorems": [
    "C102_vectors",
    "C102_arrays",
    "C102_heaps",
    "C102_mixed",
    "C102_blocks"
   ],
   "note": "Blocks are counted, not bytes. Compositions with a freelist are outside: C102_freelist_keeps."
  },
  {
   "property": "C103",
   "status": "proved",
   "theorems": [
    "C103_vectors",
    "C103_arrays",
    "C103_heaps",
    "C103_mixed",
    "C103_blocks"
   ],
   "note": "The block of a shared is counted with the inline bytes of the model (Tree.v: esize): data members other than buffers have size 0 there."
  }
 ]
}