(** Properties C09 and C23: the queue and the stack are lock-free, with tags that
    do not wrap ([c_tagmod c = None]).

    A call completes when it emits [Res].  [q_fair] and [s_fair] are the steps of
    threads without spurious failures of a compare-exchange, and invocations;
    which threads take steps, and which never do so again, is up to the
    schedule.  [q_bound] and [s_bound] depend on the calls in progress and begun
    (and on the elements alive, for consume_all) only. *)
From stdpp Require Import gmap list numbers.
From Verif Require Import Lin LiveSum PoolModel.
From Verif Require QueueModel QueueObs QueueDemo QueueLive StackModel StackObs StackDemo StackLive.
From Verif Require Import LiveWitness.

Section queue.
  Import QueueModel QueueObs QueueDemo QueueLive.

  (** C09.  If the threads [ts], in this order, are scheduled in a reachable
      state, each of which is inside a call there, a call completes before
      [q_bound] is exceeded.  In particular none of these steps is blocked. *)
  Theorem C09_queue_lock_free c ns hist s ts :
    c_tagmod c = None -> qreach c ns hist s -> (forall t, t ∈ ts -> is_Some (q_pcs s !! t)) ->
    q_bound c (size (q_pcs s)) (msum q_work (q_pcs s)) < length ts ->
    exists k h s' t r, k <= length ts /\
      qrun c s ((fun t => Run t false None false) <$> take k ts) = Some (h, s') /\ Res t r ∈ h.
  Proof. exact (fun Ht => progress_main c Ht ns hist s ts). Qed.

  (** Also with new calls being made and with any behaviour of the allocator:
      an execution in which no call completes is no longer than that. *)
  Theorem C09_queue_no_completion_bounded c ns hist s chs h s' :
    c_tagmod c = None -> qreach c ns hist s -> Forall q_fair chs -> qrun c s chs = Some (h, s') ->
    (forall t r, Res t r ∉ h) ->
    length chs <= length (q_invoked chs) +
      q_bound c (size (q_pcs s) + length (q_invoked chs))
                (msum q_work (q_pcs s) + sum_list (q_opwork <$> q_invoked chs)).
  Proof. exact (fun Ht => live_main c Ht ns hist s chs h s'). Qed.

  (** A thread inside a call is never blocked. *)
  Theorem C09_queue_never_blocked c ns hist s t :
    c_tagmod c = None -> qreach c ns hist s -> is_Some (q_pcs s !! t) ->
    exists s' evs, qstep c s (Run t false None false) = QNext s' evs.
  Proof. exact (fun Ht => enabled_main c Ht ns hist s t). Qed.

  (** Thread 1 has linked its node but not moved the tail, thread 2 is in the
      middle of a pop, thread 3 begins a push.  The bound for them is 531, and
      thread 1 alone may be scheduled (or all in turn).  In [qfrag] they and a
      new pop take 25 steps before the first call completes. *)
  Example C09_nonvacuous : exists s s',
    qreach demoN qpool qprehist s /\
    q_bound demoN (size (q_pcs s)) (msum q_work (q_pcs s)) < length (replicate 177 1 ++ replicate 177 2 ++ replicate 178 3) /\
    (forall t, t ∈ [1; 2; 3] -> is_Some (q_pcs s !! t)) /\
    Forall q_fair qfrag /\ length qfrag = 26 /\
    qrun demoN s qfrag = Some ([Inv 4 Pop; Res 1 (RBool true)], s').
  Proof.
    destruct qlive_demo as (s & s' & H1 & H2 & H3 & H4 & H5 & H6 & H7). exists s, s'.
    rewrite H2, H3. split; [exact H1|]. split; [|by auto]. apply Nat.ltb_lt. vm_compute. reflexivity.
  Qed.
End queue.

Section stack.
  Import StackModel StackObs StackDemo StackLive.

  (** C23.  The same for the stack. *)
  Theorem C23_stack_lock_free c ns hist s ts :
    c_tagmod c = None -> sreach c ns hist s -> (forall t, t ∈ ts -> is_Some (s_pcs s !! t)) ->
    s_bound (size (s_pcs s)) (2 * s_alive s + msum s_work (s_pcs s)) (s_alive s + msum s_elems (s_pcs s))
      < length ts ->
    exists k h s' t r, k <= length ts /\
      srun c s ((fun t => Run t false None false) <$> take k ts) = Some (h, s') /\ Res t r ∈ h.
  Proof. exact (fun Ht => progress_main c Ht ns hist s ts). Qed.

  Theorem C23_stack_no_completion_bounded c ns hist s chs h s' :
    c_tagmod c = None -> sreach c ns hist s -> Forall s_fair chs -> srun c s chs = Some (h, s') ->
    (forall t r, Res t r ∉ h) ->
    length chs <= length (s_invoked chs) +
      s_bound (size (s_pcs s) + length (s_invoked chs))
              (2 * s_alive s + msum s_work (s_pcs s) + sum_list (s_opwork <$> s_invoked chs))
              (s_alive s + msum s_elems (s_pcs s) + sum_list (s_opelems <$> s_invoked chs)).
  Proof. exact (fun Ht => live_main c Ht ns hist s chs h s'). Qed.

  Theorem C23_stack_never_blocked c ns hist s t :
    c_tagmod c = None -> sreach c ns hist s -> is_Some (s_pcs s !! t) ->
    exists s' evs, sstep c s (Run t false None false) = SNext s' evs.
  Proof. exact (fun Ht => enabled_main c Ht ns hist s t). Qed.

  (** Thread 1 is about to put its element on top, thread 2 is in the middle of a
      pop, thread 3 has taken all elements and is reversing them. *)
  Example C23_nonvacuous : exists s s',
    sreach sdemoN spool sprehist s /\
    s_bound (size (s_pcs s)) (2 * s_alive s + msum s_work (s_pcs s)) (s_alive s + msum s_elems (s_pcs s))
      < length (replicate 140 1 ++ replicate 140 2 ++ replicate 140 3) /\
    (forall t, t ∈ [1; 2; 3] -> is_Some (s_pcs s !! t)) /\
    Forall s_fair sfrag /\ length sfrag = 22 /\
    srun sdemoN s sfrag = Some ([Inv 4 (SPush true 8%N); Res 3 (SCount 2 [5; 6]%N)], s').
  Proof.
    destruct slive_demo as (s & s' & H1 & H2 & H3 & H4 & H5 & H6 & H7 & H8 & H9). exists s, s'.
    rewrite H2, H3, H4, H5. split; [exact H1|]. split; [|by auto]. apply Nat.ltb_lt. vm_compute. reflexivity.
  Qed.
End stack.

Print Assumptions C09_queue_lock_free.
Print Assumptions C09_queue_no_completion_bounded.
Print Assumptions C09_queue_never_blocked.
Print Assumptions C23_stack_lock_free.
Print Assumptions C23_stack_no_completion_bounded.
Print Assumptions C23_stack_never_blocked.
