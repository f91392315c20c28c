{"id": "C01", "title": "queue is a linearizable FIFO queue", "statement": "Any concurrent use of push/bounded_push/pop on one queue is equivalent to some order of atomic operations on a FIFO queue that respects the real-time order of the calls, including when popped nodes are recycled by later pushes (as long as no ABA tag wraps inside one call).", "quantifier": "every number of threads, every sequence of calls, every interleaving of the individual loads/stores/CASes, every spurious weak-CAS failure, every choice of address by the allocator, every initial pool size, fixed-size and node-based", "why_tests_cant": "The number of interleavings is unbounded; stress tests sample a vanishing fraction and the recycling races need very particular schedules", "anchors": ["include/boost/lockfree/queue.hpp: do_push, pop", "include/boost/lockfree/detail/freelist.hpp: allocate_impl, deallocate_impl"]}
{"id": "C02", "title": "queue operations never touch memory that is not one of its nodes", "statement": "No push, pop, empty, reserve call ever dereferences a null handle or a node that was not obtained from the allocator / node array, even when it works with stale handles of nodes that were popped and recycled meanwhile.", "quantifier": "every schedule, thread count, call sequence and pool configuration", "why_tests_cant": "A stale dereference needs a specific preemption between a load and the use of the loaded handle; sanitizers only see the schedules that happened", "anchors": ["include/boost/lockfree/queue.hpp: do_push, pop, unsynchronized_push, unsynchronized_pop", "include/boost/lockfree/detail/freelist.hpp: allocate_impl"]}
{"id": "C03", "title": "queue pop never returns a torn or mixed value", "statement": "The value stored by a successful pop is exactly one pushed value, although pop copies the payload before it owns the node and the node may be recycled and overwritten word by word during the copy.", "quantifier": "every payload size (number of words), every interleaving of the word copies with word writes of concurrent pushes", "why_tests_cant": "The copy race window is a few instructions wide, and wrong copies must be combined with a successful CAS to be visible", "anchors": ["include/boost/lockfree/queue.hpp: pop (copy_payload before compare_exchange)", "include/boost/lockfree/detail/copy_payload.hpp: copy_payload"]}
{"id": "C04", "title": "queue push fails only when the node pool is exhausted", "statement": "push on a node-based queue never returns false; bounded_push, and push on a fixed-size queue, return false only if at some instant during the call every pool node was in use (element, dummy, or held by an in-flight call).", "quantifier": "every schedule and pool size", "why_tests_cant": "Needs the claim for every instant of every concurrent execution", "anchors": ["include/boost/lockfree/queue.hpp: do_push", "include/boost/lockfree/detail/freelist.hpp: allocate_impl"]}
{"id": "C05", "title": "queue pop reports empty only if the queue was empty", "statement": "pop returns false only if at some instant between its call and its return the queue held no element.", "quantifier": "every schedule", "why_tests_cant": "The instant depends on a future check (head unchanged) and cannot be observed from outside", "anchors": ["include/boost/lockfree/queue.hpp: pop"]}
{"id": "C06", "title": "queue neither loses nor duplicates elements", "statement": "At every point of every execution, the elements successfully pushed are, as a multiset and in order, those successfully popped followed by those still in the queue.", "quantifier": "every execution of any length", "why_tests_cant": "Stress tests count totals of one run; they cannot cover all histories", "anchors": ["include/boost/lockfree/queue.hpp: do_push, pop"]}
{"id": "C07", "title": "queue keeps per-producer order", "statement": "Two values pushed by the same thread (or by non-overlapping calls) are never popped in the opposite order by non-overlapping pops.", "quantifier": "every history", "why_tests_cant": "Requires reasoning about all histories", "anchors": ["include/boost/lockfree/queue.hpp: do_push, pop"]}
{"id": "C08", "title": "queue empty() is accurate when quiescent, and a false answer is always justified", "statement": "With no call in flight, empty() is true iff the queue holds no element. Under concurrency, empty() returns false only if the queue was non-empty at some instant of the call; a true answer under concurrency may be wrong at every instant of the call.", "quantifier": "every schedule and every queue content", "why_tests_cant": "The inaccuracy requires recycling a node between two loads", "anchors": ["include/boost/lockfree/queue.hpp: empty"]}
{"id": "C09", "title": "queue is lock-free", "statement": "From any reachable state, if threads inside push/pop keep taking steps (in any order, with any threads stalled forever), then within a bounded number of steps some call completes.", "quantifier": "every reachable state and every schedule without spurious CAS failures", "why_tests_cant": "Liveness over all schedules cannot be tested", "anchors": ["include/boost/lockfree/queue.hpp: do_push, pop", "include/boost/lockfree/detail/freelist.hpp: allocate_impl, deallocate_impl"]}
{"id": "C10", "title": "fixed-size queue holds exactly its capacity", "statement": "A queue constructed for n elements (capacity<n>, fixed_sized with n, or bounded_push on a node-based queue) accepts exactly n elements when starting empty and quiescent: a push succeeds while fewer than n are stored and fails at n, for every n and after any history of earlier operations.", "quantifier": "every capacity n (1..65534) and every earlier history", "why_tests_cant": "All capacities times all earlier histories (node recycling order)", "anchors": ["include/boost/lockfree/queue.hpp: capacity, queue(size_type)", "include/boost/lockfree/detail/freelist.hpp: fixed_size_freelist"]}
{"id": "C11", "title": "queue destruction releases every node exactly once", "statement": "Destroying a quiescent node-based queue hands every node ever obtained from the allocator back to it exactly once, whatever happened before.", "quantifier": "every history before the destructor", "why_tests_cant": "All histories; leak checkers see only one run", "anchors": ["include/boost/lockfree/queue.hpp: ~queue", "include/boost/lockfree/detail/freelist.hpp: ~freelist_stack"]}
{"id": "C12", "title": "queue ABA protection holds within one tag period and only there", "statement": "With tags that wrap modulo M (2^16 with pointer compression and with array indices, 2^64 with double-width CAS) every execution in which fewer than M updates hit a location during any single call's window is linearizable; without this restriction linearizability fails.", "quantifier": "every modulus M, every schedule satisfying the window condition", "why_tests_cant": "A wrap-around needs 65536 recycles in one preemption window", "anchors": ["include/boost/lockfree/detail/tagged_ptr_ptrcompression.hpp: get_next_tag", "include/boost/lockfree/detail/tagged_ptr_dcas.hpp: get_next_tag", "include/boost/lockfree/detail/freelist.hpp: tagged_index::get_next_tag", "include/boost/lockfree/queue.hpp: pop"]}
{"id": "C13", "title": "bounded and fixed-size operations never allocate", "statement": "bounded_push, pop, and every operation of a fixed-size queue or stack never obtain memory from the allocator: the set of nodes does not change.", "quantifier": "every schedule", "why_tests_cant": "Must hold in every execution", "anchors": ["include/boost/lockfree/detail/freelist.hpp: allocate_impl, fixed_size_freelist::allocate_impl"]}
{"id": "C14", "title": "unsynchronized queue operations behave like the synchronized ones when single-threaded", "statement": "With no other call in flight, unsynchronized_push / unsynchronized_pop have exactly the FIFO effect and result, and leave the queue in a state from which concurrent use is again linearizable.", "quantifier": "every quiescent reachable state (including a lagging tail), every later concurrent history", "why_tests_cant": "All reachable states", "anchors": ["include/boost/lockfree/queue.hpp: unsynchronized_push, unsynchronized_pop"]}
{"id": "C15", "title": "stack is a linearizable LIFO stack", "statement": "Any concurrent use of push/bounded_push/range push/pop/consume_one/consume_all_atomic/empty is equivalent to some real-time-respecting order of atomic stack operations, including node recycling (as long as no ABA tag wraps inside one call).", "quantifier": "every number of threads, call sequence, interleaving, spurious CAS failure, allocator choice", "why_tests_cant": "Unbounded interleavings", "anchors": ["include/boost/lockfree/stack.hpp: do_push, link_nodes_atomic, consume_one, consume_all_atomic", "include/boost/lockfree/detail/freelist.hpp: allocate_impl, deallocate_impl"]}
{"id": "C16", "title": "stack never touches foreign memory or dead objects", "statement": "Stack operations never dereference a handle that is not one of its nodes, never read or destroy an element object that is not alive and never construct over a live one.", "quantifier": "every schedule and history", "why_tests_cant": "Object-lifetime errors depend on the schedule", "anchors": ["include/boost/lockfree/stack.hpp: consume_one, prepare_node_list, consume_all_atomic", "include/boost/lockfree/detail/freelist.hpp: construct, destruct"]}
{"id": "C17", "title": "stack range push is atomic and maximal", "statement": "push(begin,end) / bounded_push(begin,end) on a non-empty range makes a prefix of the range appear on the stack in one atomic step, last element on top, and returns the iterator to the first element not pushed; it stops early only if the pool was exhausted at that moment (never for push on a node-based stack).", "quantifier": "every non-empty range, pool size and schedule", "why_tests_cant": "All ranges, interleavings", "anchors": ["include/boost/lockfree/stack.hpp: do_push(begin,end), prepare_node_list"]}
{"id": "C18", "title": "stack range push accepts an empty range", "statement": "push(begin,begin) pushes nothing and returns begin.", "quantifier": "every stack state", "why_tests_cant": "(expected to fail: the code dereferences begin before comparing it with end) one witness refutes it", "anchors": ["include/boost/lockfree/stack.hpp: prepare_node_list"]}
{"id": "C19", "title": "consume_all_atomic takes a snapshot", "statement": "consume_all_atomic removes, in one atomic step, all elements that are on the stack, applies the functor to each exactly once from top to bottom and returns their number.", "quantifier": "every schedule, stack content", "why_tests_cant": "Atomicity under all interleavings", "anchors": ["include/boost/lockfree/stack.hpp: consume_all_atomic"]}
{"id": "C20", "title": "consume_all_atomic_reversed visits in reverse order", "statement": "consume_all_atomic_reversed does the same but applies the functor from bottom to top.", "quantifier": "every schedule, stack content of any length", "why_tests_cant": "In-place list reversal for every length under concurrency", "anchors": ["include/boost/lockfree/stack.hpp: consume_all_atomic_reversed"]}
{"id": "C21", "title": "stack empty() is exact at one instant", "statement": "empty() returns true iff the stack was empty at one instant during the call.", "quantifier": "every schedule", "why_tests_cant": "Instants are not observable", "anchors": ["include/boost/lockfree/stack.hpp: empty"]}
{"id": "C22", "title": "stack push fails only when the node pool is exhausted", "statement": "push on a node-based stack never returns false; bounded_push and fixed-size push return false only if at some instant of the call every pool node was in use.", "quantifier": "every schedule", "why_tests_cant": "All instants of all executions", "anchors": ["include/boost/lockfree/stack.hpp: do_push", "include/boost/lockfree/detail/freelist.hpp: allocate_impl"]}
{"id": "C23", "title": "stack is lock-free", "statement": "From any reachable state, if threads inside stack calls keep taking steps, in any order and with any threads stalled forever, then within a bounded number of steps some call completes.", "quantifier": "every reachable state and every schedule without spurious CAS failures", "why_tests_cant": "Liveness", "anchors": ["include/boost/lockfree/stack.hpp: link_nodes_atomic, consume_one", "include/boost/lockfree/detail/freelist.hpp: allocate_impl, deallocate_impl"]}
{"id": "C24", "title": "stack destruction destroys every element once and releases every node once", "statement": "Destroying a quiescent stack runs the destructor of each remaining element exactly once and returns each node to the allocator exactly once (if no element constructor or functor has thrown before).", "quantifier": "every history without exceptions", "why_tests_cant": "All histories", "anchors": ["include/boost/lockfree/stack.hpp: ~stack", "include/boost/lockfree/detail/freelist.hpp: ~freelist_stack"]}
{"id": "C25", "title": "stack ABA protection holds within one tag period and only there", "statement": "With tags modulo M, executions in which fewer than M tag increments of a location fall into one call's window are linearizable; otherwise a pop can return an element twice.", "quantifier": "every modulus M and schedule", "why_tests_cant": "65536 recycles within one preemption", "anchors": ["include/boost/lockfree/stack.hpp: consume_one", "include/boost/lockfree/detail/freelist.hpp: tagged_index::get_next_tag"]}
{"id": "C26", "title": "an exception while pushing leaves the stack contents unchanged", "statement": "If copying an element or allocating a node throws during push or range push, the stack's contents are as if the call had not happened.", "quantifier": "every stack state, range, position of the throw and schedule", "why_tests_cant": "All throw points times all schedules", "anchors": ["include/boost/lockfree/stack.hpp: prepare_node_list, do_push", "include/boost/lockfree/detail/freelist.hpp: construct"]}
{"id": "C27", "title": "a throwing element copy does not leak the node", "statement": "If the element's copy constructor throws during push, the pool keeps its node so that the capacity is unchanged.", "quantifier": "every state", "why_tests_cant": "(expected to fail) the node taken from the pool is never given back", "anchors": ["include/boost/lockfree/detail/freelist.hpp: construct"]}
{"id": "C28", "title": "spsc_queue is a linearizable bounded FIFO", "statement": "With one producer and one consumer thread, push/pop/front/batch operations are equivalent to atomic operations on a FIFO queue with the given capacity; push fails only when full and pop only when empty at an instant of the call.", "quantifier": "every interleaving of the two threads, every call sequence, every capacity", "why_tests_cant": "Unbounded interleavings", "anchors": ["include/boost/lockfree/spsc_queue.hpp: ringbuffer_base::push, consume_one, pop, consume_all"]}
{"id": "C29", "title": "spsc_queue is data-race free under release/acquire", "statement": "Under C++11 release/acquire semantics (stale index reads allowed), producer and consumer never access one buffer slot without a happens-before edge between conflicting accesses, and the popped sequence is a prefix of the pushed one.", "quantifier": "every execution of the release/acquire memory model (every admissible stale read)", "why_tests_cant": "Weak-memory behaviours are not exhibited by tests on strong hardware", "anchors": ["include/boost/lockfree/spsc_queue.hpp: memory orders in push, consume_one, pop"]}
{"id": "C30", "title": "spsc_queue batch operations transfer the maximal prefix in order", "statement": "push(array,n) enqueues the first min(n, free) elements, pop(array,n) dequeues the first min(n, available) elements in order, across any wrap-around position, and both report that number; pop-to-iterator and consume_all transfer everything that was available.", "quantifier": "every capacity, every read/write position, every batch length", "why_tests_cant": "All positions x lengths x capacities; tests pick a few", "anchors": ["include/boost/lockfree/spsc_queue.hpp: push(begin,end), pop, pop_to_output_iterator, consume_all"]}
{"id": "C31", "title": "read_available and write_available are correct and conservative", "statement": "In a quiescent state read_available() is the number of stored elements, write_available() the free space, and they add up to the capacity; under concurrency, the consumer can pop at least read_available() elements and the producer can push at least write_available() elements.", "quantifier": "every state and schedule", "why_tests_cant": "All index combinations, all interleavings", "anchors": ["include/boost/lockfree/spsc_queue.hpp: read_available, write_available"]}
{"id": "C32", "title": "spsc_queue operations are wait-free", "statement": "Every spsc_queue operation finishes within a number of its own steps bounded by a function of its batch size, whatever the other thread does.", "quantifier": "every state and schedule", "why_tests_cant": "Bound over all schedules", "anchors": ["include/boost/lockfree/spsc_queue.hpp: next_index, push, consume_one"]}
{"id": "C33", "title": "spsc_queue constructs and destroys each element exactly once", "statement": "In any sequence of operations followed by reset or destruction, every element copied into the buffer is destroyed exactly once, no slot is read or destroyed while not alive and none is constructed while alive.", "quantifier": "every history", "why_tests_cant": "All histories", "anchors": ["include/boost/lockfree/spsc_queue.hpp: ~compile_time_sized_ringbuffer, reset, copy_and_delete, run_functor_and_delete"]}
{"id": "C34", "title": "spsc_queue index arithmetic never overflows", "statement": "For every capacity such that the buffer fits in the address space (capacity+1 <= 2^63 slots) the 64-bit unsigned index computations never wrap incorrectly and indices stay below the buffer size.", "quantifier": "every capacity up to 2^63-1, every index pair", "why_tests_cant": "The index space is astronomically large", "anchors": ["include/boost/lockfree/spsc_queue.hpp: next_index, read_available, write_available"]}
{"id": "C35", "title": "a throwing functor leaves the spsc_queue consistent", "statement": "If the functor passed to consume_one throws, the element stays in the queue and is not destroyed. If the functor passed to consume_all throws, no element is left in the queue destroyed.", "quantifier": "every queue content and throw position", "why_tests_cant": "(second part expected to fail) elements already destroyed remain in the queue", "anchors": ["include/boost/lockfree/spsc_queue.hpp: consume_one, consume_all, run_functor_and_delete"]}
{"id": "C36", "title": "tagged_ptr packs and unpacks losslessly", "statement": "For every 48-bit pointer and 16-bit tag, a tagged_ptr returns exactly that pointer and tag; set_ptr keeps the tag, set_tag keeps the pointer; two tagged_ptrs are equal iff both components are equal.", "quantifier": "all 2^64 combinations", "why_tests_cant": "The domain is 2^64", "anchors": ["include/boost/lockfree/detail/tagged_ptr_ptrcompression.hpp: pack_ptr, extract_ptr, extract_tag, set_ptr, set_tag, operator==", "include/boost/lockfree/detail/tagged_ptr_dcas.hpp: tagged_ptr"]}
{"id": "C37", "title": "the ABA tag repeats only after a full period", "statement": "Starting from any tag, k applications of get_next_tag give the same tag again iff k is a multiple of 2^16 (2^64 for the double-width variant).", "quantifier": "every tag, every k", "why_tests_cant": "Infinite family", "anchors": ["include/boost/lockfree/detail/tagged_ptr_ptrcompression.hpp: get_next_tag", "include/boost/lockfree/detail/tagged_ptr_dcas.hpp: get_next_tag", "include/boost/lockfree/detail/freelist.hpp: tagged_index::get_next_tag"]}
{"id": "C38", "title": "array handles identify nodes uniquely up to 65535 nodes", "statement": "For a node array of n <= 65535 nodes, handle -> pointer -> handle and pointer -> handle -> pointer round-trip, the null handle differs from every node's handle and maps to the null pointer; larger requests are rejected by an exception; with 65536 nodes this would break.", "quantifier": "every n, every index", "why_tests_cant": "All sizes", "anchors": ["include/boost/lockfree/detail/freelist.hpp: runtime_sized_freelist_storage, null_handle, get_handle, get_pointer"]}
{"id": "C39", "title": "the node pool never hands one node to two owners", "statement": "In any concurrent execution of allocations and deallocations, a node handed out is not handed out again before it is given back, and nodes given back become available again.", "quantifier": "every schedule, thread count, pool size", "why_tests_cant": "ABA-type double allocation needs special schedules", "anchors": ["include/boost/lockfree/detail/freelist.hpp: freelist_stack, fixed_size_freelist"]}
{"id": "C40", "title": "compile-time node storage stays inside its array", "statement": "For every object address, the aligned node array of size*sizeof(T) bytes lies within the reserved size*sizeof(T)+64 bytes when the cache line is 64 bytes.", "quantifier": "every base address, node size and count", "why_tests_cant": "All addresses; (fails for 128/256-byte cache lines at misaligned addresses)", "anchors": ["include/boost/lockfree/detail/freelist.hpp: compiletime_sized_freelist_storage"]}
{"id": "C41", "title": "front() is the element the next pop returns", "statement": "When read_available() > 0 on the consumer side, front() returns the value that the next successful pop by the consumer returns, whatever the producer does in between.", "quantifier": "every schedule", "why_tests_cant": "All interleavings", "anchors": ["include/boost/lockfree/spsc_queue.hpp: front"]}
{"id": "C42", "title": "reserve(n) makes n further bounded pushes possible", "statement": "reserve(n) adds exactly n nodes to the pool and changes nothing else; afterwards, with no other call in flight, n more bounded pushes succeed than before.", "quantifier": "every n and quiescent state", "why_tests_cant": "All n, all states", "anchors": ["include/boost/lockfree/detail/freelist.hpp: reserve", "include/boost/lockfree/queue.hpp: reserve", "include/boost/lockfree/stack.hpp: reserve"]}
{"id": "C43", "title": "unsynchronized stack operations", "statement": "With no other call in flight, unsynchronized_push, its range form on a non-empty range, unsynchronized_pop and reserve_unsafe have the effect of the corresponding atomic operation, and concurrent use afterwards is again correct.", "quantifier": "every quiescent state reachable by any concurrent history, every argument, allocator answer and position of a throwing copy", "why_tests_cant": "All states reachable by concurrent histories", "anchors": ["include/boost/lockfree/stack.hpp: unsynchronized_push, unsynchronized_pop, reserve_unsafe"]}
{"id": "C44", "title": "consume_all as a loop among concurrent calls", "statement": "consume_all of queue and stack, run while other threads use the container, is safe; a call that returns n has popped n elements, applied the functor exactly once to each in the order popped, and the container was empty at an instant of the call; no element is lost or consumed twice, also if a functor throws; without other calls it consumes all elements in FIFO resp. LIFO order.", "quantifier": "every interleaving with any other calls (including further consume_all), every element, pool and position of a throwing functor", "why_tests_cant": "Unbounded number of rounds and interleavings; the call need not terminate", "anchors": ["include/boost/lockfree/queue.hpp: consume_all", "include/boost/lockfree/stack.hpp: consume_all"]}
{"id": "C45", "title": "stack neither loses nor duplicates elements", "statement": "Every element pushed is handed out exactly once (returned by a pop or passed to a functor) or is still on the stack; the only exception are elements that a consume_all_atomic had detached and whose functor threw before seeing them.", "quantifier": "every concurrent history of all stack operations, at every instant", "why_tests_cant": "Unbounded histories and interleavings", "anchors": ["include/boost/lockfree/stack.hpp: do_push, consume_one, consume_all_atomic, unsynchronized_push, unsynchronized_pop"]}
{"id": "C46", "title": "stack on release/acquire memory is safe", "statement": "With loads that may return old values and only the synchronization the code asks for (seq_cst compare-exchange, consume loads treated as acquire, the relaxed load in link_nodes_atomic), no call of the stack touches an element or writes a link without having seen all earlier accesses to it, and none reaches undefined behaviour. This fails if the consume loads are relaxed. (The links themselves are ordinary variables that are read while others write them: a data race by the letter of the standard.)", "quantifier": "every execution of the release/acquire memory model, any number of threads, calls and additional synchronization between threads", "why_tests_cant": "Weak-memory executions do not show on the test machine; unbounded interleavings and stale reads", "anchors": ["include/boost/lockfree/stack.hpp: link_nodes_atomic, consume_one, consume_all_atomic, consume_all_atomic_reversed, empty", "include/boost/lockfree/detail/freelist.hpp: allocate_impl, deallocate_impl"]}
{"id": "C47", "title": "stack on release/acquire memory is linearizable with respect to happens-before", "statement": "On release/acquire memory the calls of every history have a legal sequential order as a stack that respects happens-before; calls that change the stack are never placed before a call that had returned when they started; a call whose result depends on the contents has seen everything that happened before the calls that changed it. A pop may report an empty stack although a push has returned, if the push does not happen before it.", "quantifier": "every execution of the release/acquire memory model", "why_tests_cant": "Weak-memory executions do not show on the test machine; unbounded interleavings and stale reads", "anchors": ["include/boost/lockfree/stack.hpp: link_nodes_atomic, consume_one, consume_all_atomic, empty"]}
{"id": "C48", "title": "stack hands elements over with everything that happened before", "statement": "When a pop or consume_all_atomic returns element v, its thread has seen everything that the thread that pushed v had done or seen before the push.", "quantifier": "every execution of the release/acquire memory model", "why_tests_cant": "Weak-memory executions do not show on the test machine", "anchors": ["include/boost/lockfree/stack.hpp: push, pop, consume_all_atomic"]}
{"id": "C49", "title": "queue on release/acquire memory is safe", "statement": "With loads that may return old values and only the synchronization the code asks for (seq_cst compare-exchange, acquire loads, consume loads of the freelist treated as acquire, release store in the node constructor), no call of the queue writes an element or stores to a link without having seen all earlier writes to it, and none reaches undefined behaviour. (The copy of an element in pop and the freelist's read of a link may race with a write: a data race by the letter of the standard; the value is not used then.)", "quantifier": "every execution of the release/acquire memory model, any number of threads, calls and additional synchronization between threads", "why_tests_cant": "Weak-memory executions do not show on the test machine; unbounded interleavings and stale reads", "anchors": ["include/boost/lockfree/queue.hpp: do_push, pop, node::node", "include/boost/lockfree/detail/freelist.hpp: allocate_impl, deallocate_impl"]}
{"id": "C50", "title": "queue on release/acquire memory has a legal order that respects happens-before", "statement": "On release/acquire memory the calls of every history have a legal sequential order as a FIFO queue that respects happens-before; a call that returned before a successful push was called comes before the push, and successful pops that do not overlap are in the order of time; a pop has seen everything that the callers of the pushes of its own and all earlier elements had seen. A pop may report an empty queue although a push has returned, if the push does not happen before it. The order exists only because the freelist's write to a node's link publishes like a release store: if it were relaxed, an element could be lost.", "quantifier": "every execution of the release/acquire memory model, any number of threads, calls and additional synchronization between threads", "why_tests_cant": "Weak-memory executions do not show on the test machine; unbounded interleavings and stale reads", "anchors": ["include/boost/lockfree/queue.hpp: do_push, pop", "include/boost/lockfree/detail/freelist.hpp: deallocate_impl (238, 595)"]}
{"id": "C51", "title": "queue on release/acquire memory hands every element over once and in order", "statement": "Every element returned by a pop comes from a push of that value that did not fail, different pops get elements of different pushes, and the popping thread has seen everything that the pushing thread had done or seen before the push. If a push returned before the push of a popped element was called, then its element is taken by a pop that was called before this pop returned.", "quantifier": "every execution of the release/acquire memory model, any number of threads, calls and additional synchronization between threads", "why_tests_cant": "Weak-memory executions do not show on the test machine; unbounded interleavings and stale reads", "anchors": ["include/boost/lockfree/queue.hpp: push, pop"]}
{"id": "C52", "title": "pop assigns its destination once, and when it does not", "statement": "stack::pop(U&) assigns the destination exactly once, with the element it returns, if it returns true, and does not touch it otherwise; so a destination that takes ownership (a smart pointer) ends up owning exactly the elements returned, and destroys none. queue::pop(U&) leaves the element it returns in the destination; it behaves like the stack if no two pops overlap and weak compare-exchanges do not fail spuriously. Otherwise it may assign several times, values that were popped by another call or never pushed at all, also when it returns false, and a destination that takes ownership destroys an element that another caller owns.", "quantifier": "every execution, any number of threads, every configuration and tag width", "why_tests_cant": "test/queue_test.cpp pops into shared_ptr, unique_ptr and auto_ptr from one thread on a machine without spurious failures; the failure needs an interruption between the copy and the compare-exchange", "anchors": ["include/boost/lockfree/queue.hpp: pop(U&), unsynchronized_pop(U&)", "include/boost/lockfree/stack.hpp: pop(U&), unsynchronized_pop(U&)", "include/boost/lockfree/detail/copy_payload.hpp"]}
{"id": "C53", "title": "template options and constructors build what was asked for", "statement": "For every combination of capacity<>, fixed_sized<> and allocator<>, the handle type of the pool is the one the nodes use. queue<T, capacity<n>> compiles iff n <= 65534, stack<T, capacity<n>> iff 1 <= n <= 65535 (except that the queue also accepts SIZE_MAX, which is broken). A constructor whose precondition holds either throws (because the allocator does, or a fixed-size container is asked for too many elements) or builds the empty container that the other properties start from: n nodes for a stack and n + 1 for a queue, distinct and different from null, and exactly n elements can be stored without allocating. If the allocator throws, an array container has kept nothing, but a node-based one leaks the nodes it has allocated. With assertions disabled, a size passed to a compile-time sized container corrupts it.", "quantifier": "every combination of options, every constructor, every requested size below SIZE_MAX, every sequence of answers of the allocator", "why_tests_cant": "each configuration is a separate instantiation; tests instantiate a dozen, with small sizes, an allocator that never fails and assertions enabled", "anchors": ["include/boost/lockfree/policies.hpp", "include/boost/lockfree/detail/parameter.hpp", "include/boost/lockfree/detail/freelist.hpp: select_freelist, select_tagged_handle, constructors", "include/boost/lockfree/queue.hpp: class constants, constructors", "include/boost/lockfree/stack.hpp: class constants, constructors"]}
{"id": "C54", "title": "spsc_queue's buffer has exactly the slots its operations use", "statement": "The constructors of spsc_queue that compile are those that match the capacity<> option. The buffer constructed for n elements has memory for exactly n + 1 slots; this is the max_size passed to every operation, and the number of elements given back to the allocator. This holds as long as the buffer fits into half of the address space; for larger compile-time capacities the size computation wraps silently and the storage is too small.", "quantifier": "every option combination, constructor, size and element size", "why_tests_cant": "one instantiation per capacity and element type; the sizes at which the arithmetic wraps cannot be allocated", "anchors": ["include/boost/lockfree/spsc_queue.hpp: compile_time_sized_ringbuffer, runtime_sized_ringbuffer, make_ringbuffer, constructors"]}
{"id": "C55", "title": "Memory of the queue and the stack is bounded by their high-water mark", "statement": "If at every moment the elements (plus the dummy node for the queue) and the calls in progress together are at most B, then the container has allocated at most max(nodes constructed with, B) nodes, plus those asked for by reserve, however long it is used and however the calls are interleaved: nodes given back are always used again before new ones are allocated. This holds also with tags that wrap, under the condition of C12/C25, and is false if the element's copy may throw.", "quantifier": "every configuration, initial pool, number of threads, execution and bound B", "why_tests_cant": "a test sees the memory of one run of limited length; a leak or a missed reuse that needs a particular interleaving shows only as slow growth", "anchors": ["include/boost/lockfree/detail/freelist.hpp: allocate, deallocate", "include/boost/lockfree/queue.hpp", "include/boost/lockfree/stack.hpp"]}
{"id": "C56", "title": "The queue and the stack are not wait-free", "statement": "Pushes and pops of the queue and the stack have no bound on the number of steps they take: for every k, from every quiescent state with an element (for pop) resp. a free node (for push), a call can be kept from returning for more than k of its own steps by a single other thread that completes k pops and k pushes meanwhile, although no compare-exchange fails spuriously. empty() always returns after three (queue) resp. two (stack) steps.", "quantifier": "every configuration, reachable quiescent state, pair of threads and number k", "why_tests_cant": "needs an adversarial scheduler for unboundedly many steps; a test only shows that calls return in practice", "anchors": ["include/boost/lockfree/queue.hpp: do_push, pop, empty", "include/boost/lockfree/stack.hpp: push, pop, empty", "include/boost/lockfree/detail/freelist.hpp: allocate_impl"]}
{"id": "C57", "title": "Destruction after synchronizing with all calls is race-free on release/acquire memory", "statement": "On release/acquire memory, when all calls on a queue or stack have returned and a thread has synchronized (by any means) with every thread after its last call, that thread has seen the last write to every location of the container, so its destructor reads only the newest values and races with nobody. The destructor terminates and frees every node exactly once; for the stack it destroys exactly the elements that are left at the end of a legal order of the calls. Without that synchronization the destructor may race with a push that has returned.", "quantifier": "every configuration with tags that do not wrap and elements whose copies do not throw, every initial pool, number of threads and execution, every quiescent state", "why_tests_cant": "a destructor that misses a write needs weakly ordered hardware and an unlucky moment; tests join their threads and run on x86", "anchors": ["include/boost/lockfree/queue.hpp: ~queue", "include/boost/lockfree/stack.hpp: ~stack", "include/boost/lockfree/detail/freelist.hpp: ~freelist_stack"]}
{"id": "C58", "title": "A thread that has seen everything uses the container as on sequentially consistent memory", "statement": "If a thread's view on release/acquire memory includes the last write to every location of a queue or stack, then each of its steps is one that the sequentially consistent model allows, with the same effect on the shared memory, and after the step the thread has again seen every write. So what is proved for sequentially consistent memory about calls that run alone holds for calls made after joining all other threads.", "quantifier": "every configuration with tags that do not wrap (stack: no throwing copies), every initial pool, execution, thread and step", "why_tests_cant": "relates two memory models for all executions", "anchors": ["include/boost/lockfree/queue.hpp", "include/boost/lockfree/stack.hpp", "include/boost/lockfree/detail/freelist.hpp"]}
{"id": "C59", "title": "An exception costs at most one node", "statement": "After an execution in which k copies of an element into a node (or, for the stack, functors or conversions applied to a popped element) threw, and once no call is in progress, at most k nodes of the pool are out of use: a push that runs alone succeeds whenever the elements present (plus the queue's dummy node) and k together are fewer than the nodes of the pool, and the destructor gives back every node except at most k, none twice. A conversion that throws in the queue's pop costs nothing. Both bounds are reached.", "quantifier": "every configuration (with tags modulo M, executions in which no tag is updated M times during one call), every initial pool, number of threads and execution, every number of exceptions; for the stack without exceptions from functors of consume_all_atomic and consume_all_atomic_reversed, which lose all nodes not yet visited", "why_tests_cant": "tests use element types that never throw, and a lost node shows only when the pool runs out", "anchors": ["include/boost/lockfree/detail/freelist.hpp: construct", "include/boost/lockfree/stack.hpp: do_push, prepare_node_list, consume_one", "include/boost/lockfree/queue.hpp: do_push, unsynchronized_push, pop"]}
{"id": "C60", "title": "A thread that runs alone finishes its call", "statement": "Wherever the other threads have stopped inside their calls, a thread of the queue or the stack that runs on alone finishes the call it is in within a bounded number of its own steps, and needs nothing from the others. So from every reachable state all calls in progress can be finished one after the other, in any order, and the container becomes quiescent.", "quantifier": "every configuration, every initial pool, number of threads and execution, every thread inside a call, every order of the threads; compare-exchanges do not fail spuriously; with tags modulo M, states from which no tag can be updated M times during a call before the run ends (and then one thread, not all)", "why_tests_cant": "a test cannot stop the other threads between two arbitrary instructions", "anchors": ["include/boost/lockfree/queue.hpp: push, pop, empty", "include/boost/lockfree/stack.hpp: push, pop, consume_all_atomic, empty", "include/boost/lockfree/detail/freelist.hpp: allocate, deallocate"]}
{"id": "C61", "title": "An spsc_queue may be shared by several producers and several consumers only with a lock per side", "statement": "If all threads that push share one lock and all threads that pop share another, every execution is one of the queue with a single producer and a single consumer: no data race, no access to a dead object, elements arrive once and in order, histories are linearizable. Producers and consumers need no common lock. Without the lock of the producers an element can be lost, without that of the consumers one can arrive twice, even if memory is sequentially consistent.", "quantifier": "every configuration of the code, every number of producers and consumers, every operation, schedule and choice of stale values; the failures without locks are shown by one execution each", "why_tests_cant": "that the release/acquire synchronization of a changing set of threads suffices concerns all interleavings and all values a load may return", "anchors": ["include/boost/lockfree/spsc_queue.hpp: push, pop, consume_one, consume_all, read_available, write_available, notes on which threads may call them"]}
