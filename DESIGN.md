# Formal model of boostorg/lockfree in Rocq (Coq 8.16.1)

Everything is in `rocq/theories/`. Properties are listed in `properties.jsonl`; `MANIFEST.json` maps each
to the theorems that settle it. `seeded/LOG.jsonl` records the wrong programs the theorems were tested against.

All line numbers refer to `/repo/include/boost/lockfree/`.

## How to read it

1. `Lin.v` (linearizability), `*Spec.v` (what a queue, stack, pool or ring buffer is: a few lines each) and
   `RaMem.v`, `RaLin.v` (views; linearizability with respect to happens-before), `*Obs.v` (what can be observed of a state: contents, calls, windows) are the specification.
2. `*Model.v` and `PoolMachine.v` are the model of the code. Every definition cites lines.
3. `Prop*.v` contain the property theorems, each closed by `exact`, with `Print Assumptions` beneath and an
   `Example` that meets its hypotheses. Nothing else has to be read to know what is claimed.
4. The other files are proofs.

## Plan per property

| Property | What is modelled | How it is proved |
|---|---|---|
| C01 C02 C03 C05 C06 C07 | `queue.hpp` do_push/pop/empty/reserve + both freelists as a step machine: one step per shared load/store/CAS, payload copied word by word, explicit UB outcome | global invariant (`QueueInv`) + preservation by every step (`QueueStep`), linearization trace built along the run (insertion of the "empty" pop in the past) |
| C04 C10 C13 C42 | same machine | node-ownership accounting (free / queue / held by thread) |
| C08 | empty() as two loads in either order | invariant; refutation by concrete schedule for concurrent `true` |
| C09 C23 | same machines | explicit potential function that decreases with every step unless a call returns (`QueueLive`, `StackLive`); a spurious failure raises it by at most a fixed amount (`QueueSpurious`, `StackSpurious`) |
| C11 C24 | destructors as sequential functions on quiescent states | permutation of deallocated nodes |
| C12 C25 | same machines with tags modulo M | step-by-step simulation of the unbounded-tag machine while fewer than M tag updates fall into a call (`QueueWrap`, `StackWrap`); for every M an execution that returns an element twice (`QueueAba`, `StackAba`) |
| C01–C26, C39, C42–C45 (`_wrap`) | same machines with tags modulo M | the state of the wrapping machine is the image of one of the unbounded machine (`QueueWrapMain`, `StackWrapMain`, `PoolWrap`, `LoopWrap`) |
| C44 | `LoopModel.v`: consume_all of queue and stack as a loop on top of the queue resp. stack machine | simulation: the trace with the loop removed is one of the machine below, plus an invariant about where each thread is in its loop |
| C45 | same stack machine | from linearizability: each step of the sequential specification conserves values |
| C46 C47 C48 | `RaStackModel.v`: the stack machine on release/acquire memory. Newest values as before, plus the older values of every word with the view each was stored with, a view per thread, vector clocks, access counts per element | the sequentially consistent invariant for the newest values + what views know (`RaStackInv`…`RaStackSafe`); order of calls by the value of `tos` they saw or made (`RaLog`) |
| C46 C47 C48 (`_wrap`) | same machine with tags modulo M | the state is the image of one of the unbounded machine while the value a call holds has been replaced by fewer than M new tags (`RaStackWrap`); the counterexample lifts runs of one thread from the sequentially consistent machine (`RaStackSolo`, `RaStackAba`) |
| C49 C50 C51 | `RaQueueModel.v`: the queue machine on release/acquire memory; the program of a thread is that of `QueueModel.v`, the file says what each step may see | all nodes ever linked, numbered, with the position of their links in the modification order; what views know about them (`RaQueueInv`…`RaQueueSafe`); pushes and pops in the order of their numbers, a pop that finds the queue empty splits the order (`RaQueueLog`) |
| C49 C50 C51 (`_wrap`) | same machine with tags modulo M | as for the stack; the links of nodes are tagged words too (`RaQueueWrap`, `RaQueueWrapSim`) |
| C52 | `DestQueueModel.v`, `DestStackModel.v`: the machines of queue and stack with the assignments to the caller's variable visible; `DestSpec.v`: variables that own what is assigned to them | what a call has assigned is a function of its program counter; for one pop at a time the head it has read stays in place |
| C53 C54 | `ConfigModel.v`: options, class constants, static assertions, constructors (with an allocator that may throw) | case analysis; the pool built by each constructor is `pool_init` of the machines |
| C55 | queue and stack machines, `QueuePeak.v`, `StackPeak.v`: executions all of whose states need at most B nodes | invariant: nodes ever allocated ≤ max(constructed, B) + reserved, because a node is allocated only when the pool is seen empty and then every node is an element or held by a call; transferred to wrapping tags |
| C56 | queue and stack machines, `WaitObs.v`: schedules | induction on the number of rounds: a call of the other thread runs alone beside the delayed one (frame lemma) and changes the tag that the delayed call will compare |
| C57 C58 | release/acquire machines of the stack and the queue (`RaStackModel.v`, `RaQueueModel.v`), destructors of `StackModel.v`, `QueueModel.v` on the newest values | the last writer of a location is in a call or has returned since, with the write in its view; views never point into the future, so at quiescence a synchronized view is exactly the last write everywhere; the invariants of the sequentially consistent machines hold at quiescence (`RaStackLast`, `RaQueueLast`) |
| C59 | queue and stack machines, `StackLeakSpec.v`, `QueueLeakSpec.v`: executions with a count of exceptions | the nodes lost so far (ownership `OL` of the ghost state) are covered by a list whose length is the count; at quiescence every other node is an element, the dummy or in the pool; transferred to wrapping tags |
| C60 | queue and stack machines; bounds of `QueueLive.v`, `StackLive.v` | a solo run without a return would be longer than the bound of C09/C23; induction on the list of threads inside calls |
| C14 C43 | unsynchronized_* as sequential functions | refinement to list functions, re-establishes the machine invariant |
| C15 C16 C17 C19 C20 C21 C22 C26 | `stack.hpp` + freelists as a step machine with object lifetimes and exceptions | as for the queue |
| C18 C27 | same | refuted: the property is false of the code |
| C28 C29 C31 C32 C33 C41 | `spsc_queue.hpp` as a two-thread machine with store histories (stale reads), release/acquire views, vector clocks, per-slot lifetime | invariant over absolute counters (`SpscInv`), then facts about the window of a call (`SpscWin`) |
| C61 | `SpscShareModel.v`: any number of producers and consumers, each running the code of `SpscModel.v`, with a lock per side or none | simulation by the two-thread machine; a thread's clock and views are below those of the last holder of its lock (`SpscShare.v`); the names of the threads are restored in `SpscShareNames.v` |
| C30 C34 C35 | same machine with 64-bit wrap-around arithmetic | as above; C35 partly refuted |
| C36 C37 C38 C40 | bit-level arithmetic on N (`TaggedModel`) | algebra |
| C39 | `PoolMachine`: freelist with arbitrary clients that write what they like into nodes they hold | ownership invariant, linearizability against a map from nodes to available/handed out |

## What is modelled, file by file

| Source | Modelled in | Not modelled |
|---|---|---|
| `detail/tagged_ptr_ptrcompression.hpp`, `detail/tagged_ptr_dcas.hpp` | `TaggedModel.v`: every member function, union access for both byte orders | operators `*`, `->` |
| `detail/freelist.hpp` | `PoolModel.v` (allocate, deallocate, thread-safe and not, bounded and not, constructors, destructor, reserve), `TaggedModel.v` (tagged_index, handles, storages), `ConfigModel.v` (select_freelist, select_tagged_handle, constructors one allocation at a time) | alignment of nodes |
| `queue.hpp` | `QueueModel.v`, `LoopModel.v` (consume_all): constructors, push, bounded_push, pop, consume_one, empty, reserve, unsynchronized_push/pop, reserve_unsafe, destructor | padding; is_lock_free |
| `stack.hpp` | `StackModel.v`, `LoopModel.v` (consume_all): constructors, push, bounded_push, range pushes, pop, consume_one, consume_all_atomic(_reversed), empty, reserve, unsynchronized versions, destructor | padding; is_lock_free |
| `spsc_queue.hpp` | `SpscModel.v`: push, batch push, pop, batch pops, consume_one, consume_all, front, empty, read/write_available, reset, destructor; `ConfigModel.v`: make_ringbuffer, constructors of the buffers and their sizes | the forwarding functions of the wrappers (compile-time 421–521, runtime 524–659), which pass max_size and the buffer pointer on |
| `detail/copy_payload.hpp` | `DestQueueModel.v`, `DestStackModel.v`: when the destination is assigned, and with what | the conversion itself |
| `policies.hpp`, `detail/parameter.hpp` | `ConfigModel.v` | the template machinery (Boost.Parameter); which allocator is rebound |
| `lockfree_forward.hpp`, `detail/prefix.hpp`, `detail/atomic.hpp` | – | compile-time configuration only |

## Simplifications

- **Memory of queue, stack and pool is sequentially consistent, except for C46–C51, C57, C58.** In the code the non-atomic members `next`
  (stack, freelist) and `data` (queue) are read while another thread may write them, which is formally a data race;
  the model reads what memory holds at that moment. One word of an element is read or written at a time, so torn
  values are possible in the model (and excluded by C03). The spsc_queue model uses release/acquire.
- Release/acquire memory of the stack (`RaStackModel.v`): `consume` is `acquire` (as compilers implement it); the total order
  of seq_cst operations is dropped (more executions); no load buffering; a node's link counts as a relaxed atomic
  when it is read, and as a race when it is written without having seen its last write; elements are ordinary
  memory, any access without having seen all earlier ones is a race (also of two reads, which do not occur).
- Release/acquire memory of the queue (`RaQueueModel.v`): as for the stack, but `next` is an atomic word there, which the
  freelist overwrites through an ordinary variable of the same bytes. The parameter `rel` says how an atomic load sees
  that write: as a release store (C49–C51) or as a relaxed one (`C50_relaxed_free_refuted`). Racing ordinary reads (the
  element in pop, the link in the freelist) return an arbitrary value; racing writes are reported as races.
- A weak compare-exchange may fail spuriously at any time. On failure the expected value is reloaded in the same
  step, as in C++.
- `std::allocator` is an environment: it throws or returns any address that is not a node (and not null).
  Nodes, once obtained, stay nodes until the destructor (this is what the freelist does).
- The union of a stack node's `next` and the freelist's tagged `next` (freelist.hpp:38-45) is one cell; the code never reads
  a tag that the stack has overwritten.
- Exceptions: of the allocator, of the element's copy constructor, of conversions in pop and of functors, as choices of the environment
  (`c_throws`, `x_bthrow`). Destructors do not throw.
- Tags: the main theorems are first proved for unbounded tags (`c_tagmod = None`). With tags modulo any M >= 2 (2^16 in
  the library), C12 and C25 transfer linearizability and safety, and `PropQueueWrap.v`/`PropStackWrap.v` (theorems `…_wrap`)
  all other properties of queue and stack (C03–C11, C14, C15, C17, C19–C24, C26, C42, C43, C45), to executions in
  which no tag is updated M times during one call. C13, C11_queue_nodes_kept and C24_stack_nodes_kept hold for any tags.
  `PropPoolWrap.v` and `PropLoopWrap.v` do the same for C39 and C44. Without the restriction they fail (`C12_queue_wraparound_refuted`,
  `C25_stack_wraparound_refuted`, `C39_pool_wraparound_refuted`).
  On release/acquire memory a call may begin with an old value, so the condition counts the updates since that value was
  stored (`rwreach` in `RaStackWrapObs.v`, theorems `C46_…_wrap` to `C48_…_wrap`); counting the updates during the call is not
  enough (`C46_old_value_refuted`). The same holds for the queue (`rqwreach` in
  `RaQueueWrapObs.v`, theorems `C49_…_wrap` to `C51_…_wrap`).
- C61: the locks are not code of the library. Taking one joins the taker's clock and views with those of the last holder.
  Without locks the machine is used for interleavings only, as races between two producers have no clock component.
- spsc_queue: no promises/load buffering; the modification order of an index is the order of its stores (each has
  one writer).

## Trusted base

- Coq 8.16.1's kernel (with `vm_compute` for the concrete executions in Examples and `_refuted` theorems), std++ as a
  library of proved lemmas.
- `Print Assumptions` prints `Closed under the global context` for every property theorem: no axioms.
  Loading std++ brings the module `Coq.ssr.ssrunder.Under_rel` of the standard library into scope, whose interface fields
  (`Under_rel`, `Under_relE`, `Under_rel_from_rel`, `under_rel_done`, `Over_rel`, `over_rel`, `over_rel_done`) the checker lists;
  no theorem here uses them.
- That the model follows the code: the reader compares `*Model.v` with the cited lines.
- The statements: `Prop*.v` with `Lin.v`, `*Spec.v`, `*Obs.v`. Some of their vocabulary is defined in other files:
  `q_fair`, `q_work`, `q_bound` and `s_…` in `QueueLive.v`, `StackLive.v`; `q_sync`, `q_spurious` and `s_…` in
  `QueueSpurious.v`, `StackSpurious.v`.

## Findings about the code

Each is a theorem with suffix `_refuted` unless marked otherwise.

- `stack::push(begin, end)` with an empty range dereferences `end` (C18).
- A throwing copy constructor loses the node for good: stack (C27) and queue (C10/C11); a fixed-size container shrinks.
  At most one node per exception is lost (C59, not a refutation).
- `queue::empty()` may return true although the queue is non-empty during the whole call (C08).
- `fixed_sized` queue constructed with `SIZE_MAX`: `n + 1` wraps to 0, the first operation dereferences null (C02);
  `capacity<SIZE_MAX>` passes the static assertion for the same reason (C53).
- `queue<T, capacity<2>> q(0)` with assertions disabled: the pool becomes a cycle, pushes overwrite elements; with a size above the
  capacity the pool leads out of the array (C53). The comment "unused" at freelist.hpp:341 is about the storage only.
- The constructor of `freelist_stack` leaks the nodes allocated so far if the allocator throws (C53).
- `spsc_queue<T, capacity<n>>`: `(n + 1) * sizeof(T)` may wrap, the storage is then too small (C54).
- `spsc_queue::consume_all`/`pop(out)` with a throwing functor/copy on elements with destructors leaves destroyed
  elements in the queue (C35, C33); a batch push whose copy throws in the second section leaks the first (C33).
- `!empty()` followed by `front()` is a data race; `read_available() > 0` is needed (C41).
- Two threads that push to an spsc_queue without a common lock lose elements, two that pop receive one twice (C61; the documentation
  forbids both). A lock per side suffices.
- Batch operations of spsc_queue: the number of elements moved is exact for an instant of the call, not for the
  instant at which it takes effect (C28).
- With a throwing copy constructor the memory of a node-based queue or stack is not bounded by the number of elements and calls:
  every push that throws costs a node (C55).
- `stack::consume_all_atomic` whose functor throws loses the elements it has not seen (C45).
- `queue::pop(U&)` with a smart pointer as destination (as in test/queue_test.cpp) is not safe: it assigns the destination before it
  owns the element. If another pop takes the element first, or the weak compare-exchange fails spuriously, the next
  attempt destroys an object that another caller, or the queue, still owns (C52). `consume_one` is not affected.
- The link of a stack node is read while another thread may write it (C46): a data race by the letter of the standard,
  harmless if it behaves like a relaxed atomic.
- With tags of finitely many values and loads that may return old values, calls that do not overlap at all can break the
  stack: a pop reads a `tos` that was replaced exactly one tag period ago, and its compare-exchange succeeds (C46). The model
  bounds no delay between a store and its visibility; on real hardware the delay would have to last for 65536 pops.
- Without seq_cst loads `stack::pop` may report an empty stack after a push has returned (C47).
- The queue relies on the freelist's non-atomic write to a node's link being ordered after its thread's earlier
  operations for a thread that reads it with an acquire load. If that write is seen as a relaxed store, a push can link
  its node behind a node that has left the queue: it returns true, and the element is lost (C50).
- `queue::pop` may copy an element while another thread writes it (C49): a data race by the letter of the standard; the
  value is thrown away. And it may report an empty queue after a push has returned (C50).
- `queue::consume_all` need not return while another thread pushes (C44).
- `spsc_queue` with more than 2^63 slots: the index arithmetic overflows (C34); with capacity `SIZE_MAX`,
  `max_size` is 0 and next_index does not terminate (C34).
- The compile-time node storage reserves 64 bytes for alignment, too few on machines with 128-byte cache lines (C40).
- Compressed pointers need 48-bit user-space addresses and a little-endian machine (C36).
- With 16-bit tags, 65536 tag updates during one preemption let a stale compare-exchange succeed; an element is
  popped twice (C12, C25), a node of the pool is handed to two clients (C39).
