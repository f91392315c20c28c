(** C53, C54: what the template options and the constructors build.

    [requested]: the number of elements asked for; [documented]: the constructor's
    precondition about capacity<>; [bounded]: capacity<> or fixed_sized<true>.  [comp]: tags
    are 16 bits of a compressed pointer. *)
From stdpp Require Import gmap list numbers.
From Verif Require Import SpscModel SpscObs.
From Verif Require Import Lin PoolModel QueueModel StackModel ConfigModel ConfigSpec.
From Verif Require Import ConfigProofs ConfigMain ConfigWitness.
From Verif Require QueueObs QueueWrapObs StackObs StackWrapObs.

(** C53.  The pool's handles are of the type that the nodes use for their links, and the
    pool is an array iff the options say so. *)
Theorem C53_handle_types k o :
  pool_handle (pool_t k o) = select_tagged_handle (node_based o) /\
  (node_based o = true <-> ~ bounded o) /\
  (bounded o <-> exists st, pool_t k o = PFixed st).
Proof. exact (conj (handles_main k o) (conj (node_based_bounded o) (bounded_main k o))). Qed.
Print Assumptions C53_handle_types.

Example C53_handle_types_nonvacuous :
  pool_t CQueue (Opts (Some 10%N) None false) = PFixed (SCompile 11) /\
  pool_t CStack (Opts None (Some true) true) = PFixed SRun /\
  pool_t CQueue (Opts None (Some false) false) = PList.
Proof. exact (conj eq_refl (conj eq_refl eq_refl)). Qed.

(** The tags have 16 bits, except for pointers on machines without pointer compression. *)
Theorem C53_tag_period comp k o kc th w :
  c_tagmod (config comp k o kc th w) = Some (if node_based o && negb comp then 2 ^ 64 else 2 ^ 16)%N.
Proof. exact (config_tag_period comp k o kc th w). Qed.
Print Assumptions C53_tag_period.

(** The capacities that compile. *)
Theorem C53_queue_capacity_accepted n f al :
  (n < 2 ^ 64 - 1)%N ->
  class_compiles CQueue (Opts (Some n) f al) = true <-> (n <= largest CQueue)%N.
Proof. exact (queue_accepts_main n f al). Qed.
Print Assumptions C53_queue_capacity_accepted.

Theorem C53_stack_capacity_accepted n f al :
  (n < 2 ^ 64)%N ->
  class_compiles CStack (Opts (Some n) f al) = true <-> (1 <= n <= largest CStack)%N.
Proof. exact (stack_accepts_main n f al). Qed.
Print Assumptions C53_stack_capacity_accepted.

Example C53_capacity_nonvacuous :
  class_compiles CQueue (Opts (Some 65534%N) None false) = true /\
  class_compiles CQueue (Opts (Some 65535%N) None false) = false /\
  class_compiles CStack (Opts (Some 65535%N) None false) = true /\
  class_compiles CStack (Opts (Some 0%N) None false) = false.
Proof. exact (conj eq_refl (conj eq_refl (conj eq_refl eq_refl))). Qed.

(** The constructors' assertions say what is documented. *)
Theorem C53_preconditions_checked o kc :
  documented o kc <-> ctor_compiles o kc = true /\ ctor_assert o kc = true.
Proof. exact (checked_main o kc). Qed.
Print Assumptions C53_preconditions_checked.

Example C53_preconditions_nonvacuous :
  documented (Opts None (Some true) false) (KSize 5) /\ ~ documented (Opts None None false) KDefault.
Proof. exact (conj eq_refl (fun H => H eq_refl)). Qed.

(** Every queue so constructed is one the theorems about queues start from, with one node
    more than elements were asked for ... *)
Theorem C53_queue_constructed comp o kc th w answers addr s :
  documented o kc -> (requested o kc < 2 ^ 64 - 1)%N -> class_compiles CQueue o = true ->
  queue_ctor comp o kc th w answers addr = BDone s ->
  exists ns, N.of_nat (length ns) = (requested o kc + 1)%N /\
    QueueObs.qreach (config comp CQueue o kc th w) ns [] s /\
    forall M, QueueWrapObs.qwreach (config comp CQueue o kc th w) M ns [] s.
Proof. exact (fun Hd Hr Hk => queue_reach comp o kc th w Hd Hr Hk answers addr s). Qed.
Print Assumptions C53_queue_constructed.

(** ... and accepts exactly that many elements by bounded_push. *)
Theorem C53_queue_holds_requested comp o kc w answers addr s t vs :
  documented o kc -> (requested o kc < 2 ^ 64 - 1)%N -> class_compiles CQueue o = true ->
  queue_ctor comp o kc false w answers addr = BDone s -> Forall (fun v => length v = w) vs ->
  exists chs s', qrun (config comp CQueue o kc false w) s chs =
      Some (concat (imap (fun i v =>
        [Inv t (Push true v); Res t (RBool (bool_decide (N.of_nat i < requested o kc)%N))]) vs), s') /\
    QueueObs.quiescent s' /\
    QueueObs.qcontents (config comp CQueue o kc false w) s' (take (N.to_nat (requested o kc)) vs).
Proof. exact (fun Hd Hr Hk => queue_holds comp o kc false w Hd Hr Hk answers addr s t vs eq_refl). Qed.
Print Assumptions C53_queue_holds_requested.

(** Construction does not go wrong; it throws only if the allocator does or the size is too
    large, and then an array queue has kept nothing ([l]: allocated, not given back). *)
Theorem C53_queue_construction comp o kc th w answers addr :
  documented o kc -> (requested o kc < 2 ^ 64 - 1)%N -> class_compiles CQueue o = true ->
  queue_ctor comp o kc th w answers addr <> BUB /\
  (forall l, queue_ctor comp o kc th w answers addr = BThrow l ->
     (None ∈ answers \/ (bounded o /\ (largest CQueue < requested o kc)%N)) /\ (bounded o -> l = []) /\
     (forall a, a ∈ l -> Some a ∈ answers)) /\
  ((bounded o -> (requested o kc <= largest CQueue)%N) -> served CQueue o (requested o kc) answers ->
   exists s, queue_ctor comp o kc th w answers addr = BDone s).
Proof.
  exact (fun Hd Hr Hk => conj (queue_no_ub comp o kc th w Hd Hr Hk answers addr)
    (conj (queue_throw comp o kc th w Hd Hr Hk answers addr) (queue_served comp o kc th w Hd Hr Hk answers addr))).
Qed.
Print Assumptions C53_queue_construction.

Example C53_queue_nonvacuous_fixed :
  class_compiles CQueue (Opts (Some 3%N) None false) = true /\
  documented (Opts (Some 3%N) None false) KDefault /\
  served CQueue (Opts (Some 3%N) None false) 3 [] /\
  exists s, queue_ctor true (Opts (Some 3%N) None false) KDefault false 1 [] None = BDone s /\
    q_pool (q_sh s) = (2, 1)%N /\ (q_head (q_sh s)).1 = 3%N.
Proof. exact demo_queue_fixed. Qed.

Example C53_queue_nonvacuous_list :
  documented opt_plain (KSize 1) /\ served CQueue opt_plain 1 [Some 8; Some 16]%N /\
  exists s, queue_ctor true opt_plain (KSize 1) false 1 [Some 8; Some 16]%N None = BDone s /\
    q_pool (q_sh s) = (8, 1)%N /\ (q_head (q_sh s)).1 = 16%N.
Proof. exact demo_queue_list. Qed.

(** The same for the stack. *)
Theorem C53_stack_constructed comp o kc th answers s :
  documented o kc -> (requested o kc < 2 ^ 64 - 1)%N -> class_compiles CStack o = true ->
  stack_ctor comp o kc th answers = BDone s ->
  exists ns, N.of_nat (length ns) = requested o kc /\
    StackObs.sreach (config comp CStack o kc th 1) ns [] s /\
    forall M, StackWrapObs.swreach (config comp CStack o kc th 1) M ns [] s.
Proof. exact (fun Hd Hr Hk => stack_reach comp o kc th Hd Hr Hk answers s). Qed.
Print Assumptions C53_stack_constructed.

Theorem C53_stack_holds_requested comp o kc answers s t vs :
  documented o kc -> (requested o kc < 2 ^ 64 - 1)%N -> class_compiles CStack o = true ->
  stack_ctor comp o kc false answers = BDone s ->
  exists chs s', srun (config comp CStack o kc false 1) s chs =
      Some (concat (imap (fun i v =>
        [Inv t (SPush true v); Res t (SBool (bool_decide (N.of_nat i < requested o kc)%N))]) vs), s') /\
    StackObs.quiescent s' /\
    StackObs.scontents (config comp CStack o kc false 1) s' (reverse (take (N.to_nat (requested o kc)) vs)).
Proof. exact (fun Hd Hr Hk => stack_holds comp o kc false Hd Hr Hk answers s t vs eq_refl). Qed.
Print Assumptions C53_stack_holds_requested.

Theorem C53_stack_construction comp o kc th answers :
  documented o kc -> (requested o kc < 2 ^ 64 - 1)%N -> class_compiles CStack o = true ->
  stack_ctor comp o kc th answers <> BUB /\
  (forall l, stack_ctor comp o kc th answers = BThrow l ->
     (None ∈ answers \/ (bounded o /\ (largest CStack < requested o kc)%N)) /\ (bounded o -> l = []) /\
     (forall a, a ∈ l -> Some a ∈ answers)) /\
  ((bounded o -> (requested o kc <= largest CStack)%N) -> served CStack o (requested o kc) answers ->
   exists s, stack_ctor comp o kc th answers = BDone s).
Proof.
  exact (fun Hd Hr Hk => conj (stack_no_ub comp o kc th Hd Hr Hk answers)
    (conj (stack_throw comp o kc th Hd Hr Hk answers) (stack_served comp o kc th Hd Hr Hk answers))).
Qed.
Print Assumptions C53_stack_construction.

Example C53_stack_nonvacuous :
  documented (Opts None (Some true) false) (KSize 3) /\
  served CStack (Opts None (Some true) false) 3 [Some 4096%N] /\
  (exists s, stack_ctor true (Opts None (Some true) false) (KSize 3) false [Some 4096%N] = BDone s /\
    s_pool (s_sh s) = (2, 0)%N /\ (s_tos (s_sh s)).1 = 3%N) /\
  stack_ctor true (Opts None (Some true) false) (KSize 65536) false [] = BThrow [] /\
  stack_ctor true (Opts None (Some true) false) (KSize 3) false [None] = BThrow [].
Proof. exact demo_stack_run. Qed.

(** The static assertion lets capacity<SIZE_MAX> through: the queue has no node, and the
    first pop is undefined. *)
Theorem C53_queue_capacity_wrap_refuted :
  class_compiles CQueue opt_max = true /\
  exists s s', queue_ctor true opt_max KDefault false 1 [] None = BDone s /\
    qrun (config true CQueue opt_max KDefault false 1) s
      (QueueModel.Invoke 0 Pop true :: replicate 2 (QueueModel.Run 0 false None false)) = Some ([Inv 0 Pop], s') /\
    qstep (config true CQueue opt_max KDefault false 1) s' (QueueModel.Run 0 false None false) = QUB.
Proof. exact queue_max_main. Qed.
Print Assumptions C53_queue_capacity_wrap_refuted.

(** Without assertions (NDEBUG), the size given to a constructor of a compile-time sized
    container is not ignored.  queue<T, capacity<2>> q(0): the pool is a cycle, four pushes
    succeed, and the first two elements are lost. *)
Theorem C53_queue_unchecked_size_refuted :
  class_compiles CQueue opt2 = true /\ ctor_compiles opt2 (KSize 0) = true /\
  ctor_assert opt2 (KSize 0) = false /\
  exists s s', queue_ctor true opt2 (KSize 0) false 1 [] None = BDone s /\
    qrun qbad s qbad_run = Some (qbad_hist, s').
Proof. exact queue_assert_main. Qed.
Print Assumptions C53_queue_unchecked_size_refuted.

(** stack<T, capacity<2>> s(0) constructs over a live element, s(3) leaves the array. *)
Theorem C53_stack_unchecked_size_refuted :
  class_compiles CStack opt2 = true /\
  (forall n, ctor_compiles opt2 (KSize n) = true /\ ctor_assert opt2 (KSize n) = false) /\
  (exists s h s', stack_ctor true opt2 (KSize 0) false [] = BDone s /\
     srun (sbad 0) s (sone 7 8 ++ sone 8 8 ++ sone 9 3) = Some (h, s') /\
     sstep (sbad 0) s' (StackModel.Run 0 false None false) = SUB) /\
  (exists s h s', stack_ctor true opt2 (KSize 3) false [] = BDone s /\
     srun (sbad 3) s (sone 7 8 ++ sone 8 8 ++ sone 9 1) = Some (h, s') /\
     sstep (sbad 3) s' (StackModel.Run 0 false None false) = SUB).
Proof. exact stack_assert_main. Qed.
Print Assumptions C53_stack_unchecked_size_refuted.

(** A node-based container whose constructor throws because the allocator does has leaked the
    nodes allocated so far. *)
Theorem C53_constructor_leak_refuted :
  documented opt_plain (KSize 2) /\
  queue_ctor true opt_plain (KSize 2) false 1 [Some 8; Some 16; None]%N None = BThrow [8; 16]%N /\
  stack_ctor true opt_plain (KSize 2) false [Some 8; None]%N = BThrow [8]%N.
Proof. exact ctor_leak_main. Qed.
Print Assumptions C53_constructor_leak_refuted.

(** C54.  The constructors that compile are the documented ones ... *)
Theorem C54_ring_preconditions o kc :
  ring_compiles o = true -> ring_ctor_compiles o kc = true <-> documented o kc.
Proof. exact (ring_checked_main o kc). Qed.
Print Assumptions C54_ring_preconditions.

(** ... and if the buffer is not larger than half the address space, there is memory for
    exactly [max_size] = n + 1 slots, the number passed to every operation and to the
    allocator at the end; so that the theorems about [code_cfg] hold of it. *)
Theorem C54_ring_buffer o kc sz answer r :
  documented o kc -> (0 < sz)%N -> ((requested o kc + 1) * sz <= 2 ^ 63)%N ->
  ring_ctor o kc sz answer = BDone r ->
  g_max r = (requested o kc + 1)%N /\ g_slots r = g_max r /\ ring_dealloc r = g_slots r /\
  forall triv bthrow, triv = true \/ bthrow = false -> code_cfg (ring_cfg r triv bthrow).
Proof. exact (ring_main o kc sz answer r). Qed.
Print Assumptions C54_ring_buffer.

Example C54_nonvacuous :
  documented (Opts (Some 4%N) None false) KDefault /\
  ring_ctor (Opts (Some 4%N) None false) KDefault 24 None = BDone (Ring 5 5) /\
  ring_ctor (Opts None None true) (KSizeAlloc 7) 24 (Some 64%N) = BDone (Ring 8 8).
Proof. split; [done|]. exact (conj eq_refl eq_refl). Qed.

(** Larger capacities compile, and the arithmetic wraps: no slot at all for SIZE_MAX, and
    for capacity<2^61 - 1> and elements of 8 bytes 2^61 slots with a storage of 0 bytes. *)
Theorem C54_ring_wrap_refuted :
  ring_compiles opt_max = true /\
  ring_ctor opt_max KDefault 8 None = BDone (Ring 0 0) /\
  ring_ctor opt_plain (KSize (2 ^ 64 - 1)) 8 (Some 64%N) = BDone (Ring 0 0) /\
  ring_ctor (Opts (Some (2 ^ 61 - 1)%N) None false) KDefault 8 None = BDone (Ring (2 ^ 61) 0).
Proof.
  exact (conj (proj1 ring_max_main) (conj (proj1 (proj2 ring_max_main))
    (conj (proj2 (proj2 ring_max_main)) ring_overflow_main))).
Qed.
Print Assumptions C54_ring_wrap_refuted.
