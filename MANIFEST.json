{
 "claims": [
  {
   "property": "C01",
   "status": "proved",
   "theorems": [
    "C01_queue_linearizable",
    "C01_queue_linearizable_wrap"
   ],
   "note": "Tags that do not wrap (c_tagmod = None); theorems \u2026_wrap: tags modulo any M >= 2 in executions where no tag is updated M times during a call (C02: see C12). Memory is sequentially consistent. empty() is included with an unconstrained answer true (see C08)."
  },
  {
   "property": "C02",
   "status": "proved",
   "theorems": [
    "C02_queue_safe",
    "C02_no_nodes_refuted"
   ],
   "note": "Tags that do not wrap (c_tagmod = None); theorems \u2026_wrap: tags modulo any M >= 2 in executions where no tag is updated M times during a call (C02: see C12). Memory is sequentially consistent. Requires that a fixed-size queue has a node; for the constructor argument SIZE_MAX (n+1 wraps to 0) it fails, see the refuted theorem."
  },
  {
   "property": "C03",
   "status": "proved",
   "theorems": [
    "C03_queue_no_torn_value",
    "C03_queue_no_torn_value_wrap"
   ],
   "note": "Tags that do not wrap (c_tagmod = None); theorems \u2026_wrap: tags modulo any M >= 2 in executions where no tag is updated M times during a call (C02: see C12). Memory is sequentially consistent."
  },
  {
   "property": "C04",
   "status": "proved",
   "theorems": [
    "C04_queue_push_fails_only_exhausted",
    "C04_queue_push_fails_only_exhausted_wrap"
   ],
   "note": "Tags that do not wrap (c_tagmod = None); theorems \u2026_wrap: tags modulo any M >= 2 in executions where no tag is updated M times during a call (C02: see C12). Memory is sequentially consistent. If the element copy may throw, only emptiness of the pool list is claimed (throwing copies leak nodes)."
  },
  {
   "property": "C05",
   "status": "proved",
   "theorems": [
    "C05_queue_pop_empty_justified",
    "C05_queue_pop_empty_justified_wrap"
   ],
   "note": "Tags that do not wrap (c_tagmod = None); theorems \u2026_wrap: tags modulo any M >= 2 in executions where no tag is updated M times during a call (C02: see C12). Memory is sequentially consistent."
  },
  {
   "property": "C06",
   "status": "proved",
   "theorems": [
    "C06_queue_conservation",
    "C06_queue_conservation_quiescent",
    "C06_queue_conservation_wrap",
    "C06_queue_conservation_quiescent_wrap"
   ],
   "note": "Tags that do not wrap (c_tagmod = None); theorems \u2026_wrap: tags modulo any M >= 2 in executions where no tag is updated M times during a call (C02: see C12). Memory is sequentially consistent."
  },
  {
   "property": "C07",
   "status": "proved",
   "theorems": [
    "C07_queue_fifo",
    "C07_queue_fifo_wrap"
   ],
   "note": "Tags that do not wrap (c_tagmod = None); theorems \u2026_wrap: tags modulo any M >= 2 in executions where no tag is updated M times during a call (C02: see C12). Memory is sequentially consistent."
  },
  {
   "property": "C08",
   "status": "proved",
   "theorems": [
    "C08_queue_empty_quiescent",
    "C08_queue_empty_false_justified",
    "C08_queue_empty_true_refuted",
    "C08_queue_empty_quiescent_wrap",
    "C08_queue_empty_false_justified_wrap"
   ],
   "note": "Tags that do not wrap (c_tagmod = None); theorems \u2026_wrap: tags modulo any M >= 2 in executions where no tag is updated M times during a call (C02: see C12). Memory is sequentially consistent. The refuted theorem exhibits the last sentence of the property: a wrong true answer under concurrency."
  },
  {
   "property": "C09",
   "status": "proved",
   "theorems": [
    "C09_queue_lock_free",
    "C09_queue_no_completion_bounded",
    "C09_queue_never_blocked",
    "C09_queue_no_completion_bounded_wrap",
    "C09_queue_never_blocked_wrap",
    "C09_queue_spurious_bounded",
    "C09_queue_spurious_bounded_wrap"
   ],
   "note": "Explicit bound on the number of steps, for tags that do not wrap, and (\u2026_wrap) for tags modulo any M >= 2 with no tag updated M times during a call. With T of any number of words (the element copy in pop and the constructor in push are one step per word). The \u2026_spurious_\u2026 theorems allow spurious failures of the weak compare-exchanges, each of which adds a constant to the bound."
  },
  {
   "property": "C10",
   "status": "proved",
   "theorems": [
    "C10_queue_capacity_bound",
    "C10_queue_push_iff_space",
    "C10_queue_pop_returns_first",
    "C10_C11_throwing_copy_refuted",
    "C10_queue_capacity_bound_wrap",
    "C10_queue_push_iff_space_wrap",
    "C10_queue_pop_returns_first_wrap"
   ],
   "note": "Tags that do not wrap (c_tagmod = None); theorems \u2026_wrap: tags modulo any M >= 2 in executions where no tag is updated M times during a call (C02: see C12). Memory is sequentially consistent. Without throwing element copies; with them the capacity shrinks (refuted theorem)."
  },
  {
   "property": "C11",
   "status": "proved",
   "theorems": [
    "C11_queue_destructor",
    "C11_queue_nodes_kept",
    "C10_C11_throwing_copy_refuted",
    "C11_queue_destructor_wrap"
   ],
   "note": "Tags that do not wrap (c_tagmod = None); theorems \u2026_wrap: tags modulo any M >= 2 in executions where no tag is updated M times during a call (C02: see C12). Memory is sequentially consistent. Without throwing element copies; with them a node leaks (refuted theorem)."
  },
  {
   "property": "C12",
   "status": "proved",
   "theorems": [
    "C12_queue_within_tag_period",
    "C12_queue_wraparound_refuted"
   ],
   "note": "Every modulus M >= 2 (with M = 1 there are no tags). The refuted theorem is the second half of the property: for every M >= 1 an execution outside the window condition pops an element twice. Memory is sequentially consistent."
  },
  {
   "property": "C13",
   "status": "proved",
   "theorems": [
    "C13_queue_no_allocation",
    "C13_stack_no_allocation"
   ],
   "note": "For any tags."
  },
  {
   "property": "C14",
   "status": "proved",
   "theorems": [
    "C14_queue_unsynchronized",
    "C14_queue_then_concurrent",
    "C14_queue_unsynchronized_wrap",
    "C14_queue_then_concurrent_wrap"
   ],
   "note": "Tags that do not wrap (c_tagmod = None); theorems \u2026_wrap: tags modulo any M >= 2 in executions where no tag is updated M times during a call (C02: see C12). Memory is sequentially consistent. A copy or conversion that throws leaves the contents as they were."
  },
  {
   "property": "C15",
   "status": "proved",
   "theorems": [
    "C15_stack_linearizable",
    "C15_stack_pop_top",
    "C15_stack_linearizable_wrap",
    "C15_stack_pop_top_wrap"
   ],
   "note": "Tags that do not wrap (c_tagmod = None); theorems \u2026_wrap: tags modulo any M >= 2 in executions where no tag is updated M times during a call (C16: see C25). Memory is sequentially consistent. Ranges are nonempty (C18)."
  },
  {
   "property": "C16",
   "status": "proved",
   "theorems": [
    "C16_stack_safe"
   ],
   "note": "Tags that do not wrap (c_tagmod = None); theorems \u2026_wrap: tags modulo any M >= 2 in executions where no tag is updated M times during a call (C16: see C25). Memory is sequentially consistent. Ranges are nonempty (C18)."
  },
  {
   "property": "C17",
   "status": "proved",
   "theorems": [
    "C17_stack_range_push",
    "C17_stack_range_push_wrap"
   ],
   "note": "Tags that do not wrap (c_tagmod = None); theorems \u2026_wrap: tags modulo any M >= 2 in executions where no tag is updated M times during a call (C16: see C25). Memory is sequentially consistent. The range pushes compile for node-based stacks only."
  },
  {
   "property": "C18",
   "status": "partial",
   "theorems": [
    "C18_stack_empty_range_refuted",
    "C18_stack_empty_range_unsynchronized_refuted"
   ],
   "note": "REFUTED: the property is false of the code. The theorems prove that every call on an empty range dereferences the begin iterator, in every state."
  },
  {
   "property": "C19",
   "status": "proved",
   "theorems": [
    "C19_stack_consume_all_atomic",
    "C19_stack_consume_all_atomic_wrap"
   ],
   "note": "Tags that do not wrap (c_tagmod = None); theorems \u2026_wrap: tags modulo any M >= 2 in executions where no tag is updated M times during a call (C16: see C25). Memory is sequentially consistent."
  },
  {
   "property": "C20",
   "status": "proved",
   "theorems": [
    "C20_stack_consume_all_reversed",
    "C20_stack_consume_all_reversed_wrap"
   ],
   "note": "Tags that do not wrap (c_tagmod = None); theorems \u2026_wrap: tags modulo any M >= 2 in executions where no tag is updated M times during a call (C16: see C25). Memory is sequentially consistent."
  },
  {
   "property": "C21",
   "status": "proved",
   "theorems": [
    "C21_stack_empty",
    "C21_stack_empty_wrap"
   ],
   "note": "Tags that do not wrap (c_tagmod = None); theorems \u2026_wrap: tags modulo any M >= 2 in executions where no tag is updated M times during a call (C16: see C25). Memory is sequentially consistent."
  },
  {
   "property": "C22",
   "status": "proved",
   "theorems": [
    "C22_stack_push_fails_only_exhausted",
    "C22_stack_capacity",
    "C22_stack_push_iff_space",
    "C22_stack_push_fails_only_exhausted_wrap",
    "C22_stack_capacity_wrap",
    "C22_stack_push_iff_space_wrap"
   ],
   "note": "Tags that do not wrap (c_tagmod = None); theorems \u2026_wrap: tags modulo any M >= 2 in executions where no tag is updated M times during a call (C16: see C25). Memory is sequentially consistent. If element copies may throw, only emptiness of the pool list is claimed (throwing copies leak nodes, C27)."
  },
  {
   "property": "C23",
   "status": "proved",
   "theorems": [
    "C23_stack_lock_free",
    "C23_stack_no_completion_bounded",
    "C23_stack_never_blocked",
    "C23_stack_no_completion_bounded_wrap",
    "C23_stack_never_blocked_wrap",
    "C23_stack_spurious_bounded",
    "C23_stack_spurious_bounded_wrap"
   ],
   "note": "Explicit bound on the number of steps, for tags that do not wrap, and (\u2026_wrap) for tags modulo any M >= 2 with no tag updated M times during a call. All thread-safe stack calls, including range push, consume_all and reserve. The \u2026_spurious_\u2026 theorems allow spurious failures of the weak compare-exchanges, each of which adds a fixed amount to the bound."
  },
  {
   "property": "C24",
   "status": "proved",
   "theorems": [
    "C24_stack_destructor",
    "C24_stack_nodes_kept",
    "C24_stack_destructor_wrap"
   ],
   "note": "Tags that do not wrap (c_tagmod = None); theorems \u2026_wrap: tags modulo any M >= 2 in executions where no tag is updated M times during a call (C16: see C25). Memory is sequentially consistent. Without throwing copies or functors."
  },
  {
   "property": "C25",
   "status": "proved",
   "theorems": [
    "C25_stack_within_tag_period",
    "C25_stack_wraparound_refuted"
   ],
   "note": "Every modulus M >= 2 (with M = 1 there are no tags). The refuted theorem is the second half of the property: for every M >= 1 an execution outside the window condition pops an element twice. Memory is sequentially consistent."
  },
  {
   "property": "C26",
   "status": "proved",
   "theorems": [
    "C26_stack_push_exception",
    "C26_stack_push_exception_wrap"
   ],
   "note": "Tags that do not wrap (c_tagmod = None); theorems \u2026_wrap: tags modulo any M >= 2 in executions where no tag is updated M times during a call (C16: see C25). Memory is sequentially consistent."
  },
  {
   "property": "C27",
   "status": "partial",
   "theorems": [
    "C27_stack_throwing_copy_refuted"
   ],
   "note": "REFUTED: the property is false of the code; the theorem gives the witness. What does hold in its place: the contents are unchanged (C26), and each exception costs at most one node (C59)."
  },
  {
   "property": "C28",
   "status": "proved",
   "theorems": [
    "C28_spsc_linearizable",
    "C28_spsc_answers_exact",
    "C28_spsc_batch_atomic_refuted"
   ],
   "note": "Interleaving semantics (release/acquire: C29). A batch operation takes effect in one step; the number of elements it moves is exact for an instant of the call, which may be earlier (refuted theorem: not for the same instant)."
  },
  {
   "property": "C29",
   "status": "proved",
   "theorems": [
    "C29_spsc_race_free",
    "C29_spsc_prefix",
    "C29_spsc_linearizable_stale",
    "C29_spsc_relaxed_orders_refuted"
   ],
   "note": "Memory is release/acquire with stale index reads; no assumption on the capacity except capacity+1 <= 2^63. front() only after read_available() > 0; the refuted theorem shows that each of the four orders is needed."
  },
  {
   "property": "C30",
   "status": "proved",
   "theorems": [
    "C30_spsc_batch_maximal",
    "C30_spsc_contents",
    "C28_spsc_answers_exact"
   ],
   "note": "Memory is release/acquire with stale index reads; no assumption on the capacity except capacity+1 <= 2^63."
  },
  {
   "property": "C31",
   "status": "proved",
   "theorems": [
    "C31_spsc_available",
    "C31_spsc_promises"
   ],
   "note": "Memory is release/acquire with stale index reads; no assumption on the capacity except capacity+1 <= 2^63."
  },
  {
   "property": "C32",
   "status": "proved",
   "theorems": [
    "C32_spsc_wait_free"
   ],
   "note": "Memory is release/acquire with stale index reads; no assumption on the capacity except capacity+1 <= 2^63."
  },
  {
   "property": "C33",
   "status": "proved",
   "theorems": [
    "C33_spsc_lifetimes",
    "C33_spsc_alive_accesses",
    "C33_spsc_throwing_batches_refuted"
   ],
   "note": "Memory is release/acquire with stale index reads; no assumption on the capacity except capacity+1 <= 2^63. Exceptions are allowed in push and consume_one/pop and in the first section of a batch push; with exceptions elsewhere in batch operations it fails (refuted theorem)."
  },
  {
   "property": "C34",
   "status": "proved",
   "theorems": [
    "C34_spsc_arithmetic",
    "C34_spsc_indices",
    "C34_spsc_larger_refuted"
   ],
   "note": ""
  },
  {
   "property": "C35",
   "status": "partial",
   "theorems": [
    "C35_spsc_consume_one_throws",
    "C35_spsc_consume_all_throws_partial",
    "C35_spsc_consume_all_throws_refuted"
   ],
   "note": "The sentence on consume_one is proved. REFUTED for consume_all on elements with destructors: the elements consumed before the exception are left destroyed in the queue. For elements without destructor proved."
  },
  {
   "property": "C36",
   "status": "proved",
   "theorems": [
    "C36_tagged_ptr_lossless",
    "C36_dcas_and_index_lossless",
    "C36_big_endian_refuted",
    "C36_wide_pointer_refuted"
   ],
   "note": "All three handle classes. Little-endian and 48-bit pointers are necessary; the refuted theorems show it fails without them."
  },
  {
   "property": "C37",
   "status": "proved",
   "theorems": [
    "C37_compressed_tag_period",
    "C37_dcas_tag_period",
    "C37_index_tag_period"
   ],
   "note": ""
  },
  {
   "property": "C38",
   "status": "proved",
   "theorems": [
    "C38_handles_unique",
    "C38_too_large_throws",
    "C38_65536_nodes_refuted"
   ],
   "note": ""
  },
  {
   "property": "C39",
   "status": "proved",
   "theorems": [
    "C39_pool_safe",
    "C39_pool_linearizable",
    "C39_pool_returned_not_held",
    "C39_pool_no_double_handout",
    "C39_pool_available_again",
    "C39_pool_safe_wrap",
    "C39_pool_linearizable_wrap",
    "C39_pool_returned_not_held_wrap",
    "C39_pool_no_double_handout_wrap",
    "C39_pool_available_again_wrap",
    "C39_pool_wraparound_refuted"
   ],
   "note": "Tags that do not wrap (c_tagmod = None), and (theorems \u2026_wrap) tags modulo any M >= 2 in executions where the tag of pool_ is not updated M times during a call; without that condition it fails for every M (refuted theorem). Memory is sequentially consistent. The clients may write anything to nodes they hold."
  },
  {
   "property": "C40",
   "status": "proved",
   "theorems": [
    "C40_storage_inside",
    "C40_larger_cacheline",
    "C40_cacheline_128_refuted"
   ],
   "note": "64-byte cache lines; for 128/256-byte cache lines the array can leave the storage (refuted)."
  },
  {
   "property": "C41",
   "status": "proved",
   "theorems": [
    "C41_spsc_front",
    "C41_spsc_front_after_empty_refuted"
   ],
   "note": "Memory is release/acquire with stale index reads; no assumption on the capacity except capacity+1 <= 2^63. After !empty() instead of read_available() > 0, front() is a data race (refuted theorem)."
  },
  {
   "property": "C42",
   "status": "proved",
   "theorems": [
    "C42_queue_reserve",
    "C42_queue_bounded_pushes",
    "C42_stack_reserve",
    "C42_stack_bounded_pushes",
    "C42_queue_reserve_wrap",
    "C42_queue_bounded_pushes_wrap",
    "C42_stack_reserve_wrap",
    "C42_stack_bounded_pushes_wrap"
   ],
   "note": "Tags that do not wrap (c_tagmod = None); theorems \u2026_wrap: tags modulo any M >= 2 in executions where no tag is updated M times during a call (C02: see C12). Memory is sequentially consistent."
  },
  {
   "property": "C43",
   "status": "proved",
   "theorems": [
    "C43_stack_unsynchronized",
    "C43_stack_then_concurrent",
    "C43_stack_unsynchronized_wrap",
    "C43_stack_then_concurrent_wrap"
   ],
   "note": "Tags that do not wrap (c_tagmod = None); theorems \u2026_wrap: tags modulo any M >= 2 in executions where no tag is updated M times during a call (C16: see C25). Memory is sequentially consistent."
  },
  {
   "property": "C44",
   "status": "proved",
   "theorems": [
    "C44_queue_consume_all_safe",
    "C44_queue_consume_all_pops_linearizable",
    "C44_queue_consume_all_result",
    "C44_queue_consume_all_empties",
    "C44_queue_consume_all_conserves",
    "C44_queue_consume_all_alone",
    "C44_queue_consume_all_bounded_refuted",
    "C44_stack_consume_all_safe",
    "C44_stack_consume_all_pops_linearizable",
    "C44_stack_consume_all_result",
    "C44_stack_consume_all_empties",
    "C44_stack_consume_all_alone",
    "C44_stack_consume_all_conserves",
    "C44_queue_consume_all_safe_wrap",
    "C44_queue_consume_all_pops_linearizable_wrap",
    "C44_queue_consume_all_result_wrap",
    "C44_queue_consume_all_empties_wrap",
    "C44_queue_consume_all_conserves_wrap",
    "C44_queue_consume_all_alone_wrap",
    "C44_stack_consume_all_safe_wrap",
    "C44_stack_consume_all_pops_linearizable_wrap",
    "C44_stack_consume_all_result_wrap",
    "C44_stack_consume_all_empties_wrap",
    "C44_stack_consume_all_alone_wrap",
    "C44_stack_consume_all_conserves_wrap",
    "C44_queue_consume_all_bounded_wrap_refuted"
   ],
   "note": "Tags that do not wrap, and (\u2026_wrap) tags modulo any M >= 2 with no tag updated M times during a call of the program or a pop made by consume_all; sequentially consistent memory. The refuted theorems say that a call need not end while another thread keeps pushing."
  },
  {
   "property": "C45",
   "status": "proved",
   "theorems": [
    "C45_stack_conservation",
    "C45_stack_conservation_quiescent",
    "C45_throwing_consume_all_atomic_refuted",
    "C45_stack_conservation_wrap",
    "C45_stack_conservation_quiescent_wrap"
   ],
   "note": "Tags that do not wrap, and (\u2026_wrap) tags modulo any M >= 2 with no tag updated M times during a call; sequentially consistent memory. The refuted theorem shows that the exception named in the property does occur."
  },
  {
   "property": "C46",
   "status": "proved",
   "theorems": [
    "C46_ra_stack_safe",
    "C46_relaxed_loads_refuted",
    "C46_link_race_refuted",
    "C46_ra_stack_safe_wrap",
    "C46_old_value_refuted"
   ],
   "note": "Release/acquire memory with views; tags that do not wrap (or, `_wrap`, that wrap, if no tag is updated a whole period between the storing of a value and the end of its use; C46_old_value_refuted shows that this is needed even when calls do not overlap), no throwing copies or functors, no unsynchronized operations. Links are treated as relaxed atomics; the second refuted theorem is the remark in parentheses, the first the failure with relaxed loads."
  },
  {
   "property": "C47",
   "status": "proved",
   "theorems": [
    "C47_ra_stack_linearizable",
    "C47_real_time_refuted",
    "C47_ra_stack_linearizable_wrap"
   ],
   "note": "As C46. The refuted theorem is the last sentence of the property."
  },
  {
   "property": "C48",
   "status": "proved",
   "theorems": [
    "C48_ra_stack_transfer",
    "C48_ra_stack_transfer_wrap"
   ],
   "note": "As C46."
  },
  {
   "property": "C49",
   "status": "proved",
   "theorems": [
    "C49_ra_queue_safe",
    "C49_element_race_refuted",
    "C49_ra_queue_safe_wrap"
   ],
   "note": "Release/acquire memory with views; tags that do not wrap (or, `_wrap`, that wrap, if no tag is updated a whole period between the storing of a value and the end of its use), no throwing copies, no unsynchronized operations. The refuted theorem is the remark in parentheses."
  },
  {
   "property": "C50",
   "status": "proved",
   "theorems": [
    "C50_ra_queue_ordered",
    "C50_real_time_refuted",
    "C50_relaxed_free_refuted",
    "C50_ra_queue_ordered_wrap"
   ],
   "note": "As C49. The refuted theorems are the last two sentences of the property. empty() is unconstrained in the sequential specification (its two loads may both be old)."
  },
  {
   "property": "C51",
   "status": "proved",
   "theorems": [
    "C51_ra_queue_matching",
    "C51_ra_queue_matching_wrap"
   ],
   "note": "As C49."
  },
  {
   "property": "C52",
   "status": "proved",
   "theorems": [
    "C52_stack_destination",
    "C52_stack_owning",
    "C52_stack_observed",
    "C52_queue_destination",
    "C52_queue_serial_destination",
    "C52_queue_serial_owning",
    "C52_queue_observed",
    "C52_queue_owning_refuted",
    "C52_queue_spurious_refuted",
    "C52_queue_failed_pop_refuted",
    "C52_queue_torn_refuted"
   ],
   "note": "Any tags (wrapping or not), sequentially consistent memory. The refuted theorems are the last sentence of the property."
  },
  {
   "property": "C53",
   "status": "proved",
   "theorems": [
    "C53_handle_types",
    "C53_tag_period",
    "C53_queue_capacity_accepted",
    "C53_stack_capacity_accepted",
    "C53_preconditions_checked",
    "C53_queue_constructed",
    "C53_queue_holds_requested",
    "C53_queue_construction",
    "C53_stack_constructed",
    "C53_stack_holds_requested",
    "C53_stack_construction",
    "C53_queue_capacity_wrap_refuted",
    "C53_queue_unchecked_size_refuted",
    "C53_stack_unchecked_size_refuted",
    "C53_constructor_leak_refuted"
   ],
   "note": "The refuted theorems are the exceptions that the property states."
  },
  {
   "property": "C54",
   "status": "proved",
   "theorems": [
    "C54_ring_preconditions",
    "C54_ring_buffer",
    "C54_ring_wrap_refuted"
   ],
   "note": "That the operations stay below max_size is C28/C34 (error ERange of the machine)."
  },
  {
   "property": "C55",
   "status": "proved",
   "theorems": [
    "C55_queue_memory_bounded",
    "C55_stack_memory_bounded",
    "C55_queue_memory_bounded_wrap",
    "C55_stack_memory_bounded_wrap",
    "C55_queue_throwing_unbounded_refuted",
    "C55_stack_throwing_unbounded_refuted"
   ],
   "note": "Elements whose copy does not throw; the throwing case has no bound."
  },
  {
   "property": "C56",
   "status": "proved",
   "theorems": [
    "C56_queue_pop_not_wait_free",
    "C56_queue_push_not_wait_free",
    "C56_queue_empty_wait_free",
    "C56_stack_pop_not_wait_free",
    "C56_stack_push_not_wait_free",
    "C56_stack_empty_wait_free"
   ],
   "note": "The push is held up in the freelist (allocate_impl), the pop in its own loop. Unbounded tags."
  },
  {
   "property": "C57",
   "status": "proved",
   "theorems": [
    "C57_ra_stack_dtor",
    "C57_ra_queue_dtor",
    "C57_unsynced_stack_refuted",
    "C57_unsynced_queue_refuted"
   ],
   "note": "As C46 and C49, without wrapping tags. The destructor's program runs on the newest values, which is what a thread that has seen every write reads (C58); it is not stepped through the memory model itself. The refuted theorems are the last sentence of the property."
  },
  {
   "property": "C58",
   "status": "proved",
   "theorems": [
    "C58_ra_stack_alone",
    "C58_ra_queue_alone"
   ],
   "note": "As C46 and C49, without wrapping tags."
  },
  {
   "property": "C59",
   "status": "proved",
   "theorems": [
    "C59_stack_exception_cost",
    "C59_stack_exception_destructor",
    "C59_queue_exception_cost",
    "C59_queue_exception_destructor",
    "C59_stack_exception_cost_wrap",
    "C59_stack_exception_destructor_wrap",
    "C59_queue_exception_cost_wrap",
    "C59_queue_exception_destructor_wrap"
   ],
   "note": "Sequentially consistent memory; the _wrap theorems are for tags modulo M. C59_stack_sharp and C59_queue_sharp show that the bounds are reached."
  },
  {
   "property": "C60",
   "status": "proved",
   "theorems": [
    "C60_queue_solo",
    "C60_queue_drains",
    "C60_stack_solo",
    "C60_stack_drains",
    "C60_queue_solo_wrap",
    "C60_stack_solo_wrap"
   ],
   "note": "Sequentially consistent memory, no spurious failures of compare-exchanges. The allocator refuses memory in these runs. The _wrap theorems are for tags modulo M, of which enough must be left for the calls in progress."
  },
  {
   "property": "C61",
   "status": "proved",
   "theorems": [
    "C61_spsc_shared_reach",
    "C61_spsc_shared_race_free",
    "C61_spsc_shared_prefix",
    "C61_spsc_shared_linearizable",
    "C61_spsc_two_producers_refuted",
    "C61_spsc_two_consumers_refuted"
   ],
   "note": "The machine with many threads runs the code of SpscModel.v for each of them. A lock makes its holder synchronize with the holder before; the lock itself is not modelled. The refutations are for sequentially consistent memory."
  }
 ]
}