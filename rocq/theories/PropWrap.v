(** Properties C12 and C25: with tags that wrap modulo [M] ([c_tagmod c = Some M])
    the queue and the stack are correct if no tag is updated [M] times during a
    call, and not in general.

    [M] is 2^16 for compressed pointers (tagged_ptr_ptrcompression.hpp) and array
    indices (freelist.hpp:273-349).  [qwreach c b] and [swreach c b] are the
    executions in which every tag is updated fewer than [b] times during every
    call.  With [M = 1] a tag cannot change and there is nothing to count. *)
From stdpp Require Import gmap list numbers.
From Verif Require Import Lin PoolModel WrapWitness.
From Verif Require QueueModel QueueSpec QueueObs QueueWrapObs QueueWrap QueueAba.
From Verif Require StackModel StackSpec StackObs StackWrapObs StackWrap StackAba.

Section queue.
  Import QueueModel QueueSpec QueueObs QueueWrapObs.

  (** C12, within a tag period: linearizable, and no undefined behaviour next. *)
  Theorem C12_queue_within_tag_period c M ns hist s :
    c_tagmod c = Some M -> (2 <= M)%N -> qwreach c M ns hist s ->
    hw_linearizable [] (qspec (c_node_based c) (c_throws c)) hist /\
    forall ch, qstep c s ch <> QUB.
  Proof. exact (fun Hc HM => QueueWrap.window_main c M Hc HM ns hist s). Qed.

  (** C12, otherwise: whatever the modulus, there is an execution that pops an
      element twice which was pushed once, so its history is not linearizable. *)
  Theorem C12_queue_wraparound_refuted M nb : M <> 0%N ->
    exists c ns hist s v,
      c_tagmod c = Some M /\ c_node_based c = nb /\ c_throws c = false /\
      qreach c ns hist s /\ popped_twice hist v /\ ~ hw_linearizable [] (qspec nb false) hist.
  Proof. exact (QueueAba.aba_main M nb). Qed.

  (** 120 pops with tags modulo 64, a third of them interrupted by a pop and a push. *)
  Example C12_nonvacuous : exists s, qwreach qwcfg 64 [1; 2; 3]%N qwhist s /\
    qpops qwhist = 120 /\ qtag s LHead = 56%N.
  Proof. exact qwrap_demo. Qed.
End queue.

Section stack.
  Import StackModel StackSpec StackObs StackWrapObs.

  (** C25, within a tag period. *)
  Theorem C25_stack_within_tag_period c M ns hist s :
    c_tagmod c = Some M -> (2 <= M)%N -> swreach c M ns hist s ->
    hw_linearizable [] (sspec (c_node_based c) (c_throws c)) hist /\
    forall ch, ch_ok ch -> sstep c s ch <> SUB.
  Proof. exact (fun Hc HM => StackWrap.window_main c M Hc HM ns hist s). Qed.

  (** C25, otherwise. *)
  Theorem C25_stack_wraparound_refuted M nb : M <> 0%N ->
    exists c ns hist s v,
      c_tagmod c = Some M /\ c_node_based c = nb /\ c_throws c = false /\
      sreach c ns hist s /\ popped_twice hist v /\ ~ hw_linearizable [] (sspec nb false) hist.
  Proof. exact (StackAba.aba_main M nb). Qed.

  (** 120 pops with tags modulo 32; in 40 of them the node on top is popped and
      pushed again between the two accesses to [tos]. *)
  Example C25_nonvacuous : exists s, swreach swcfg 32 [1; 2; 3]%N swhist s /\
    spops swhist = 120 /\ stag s LTos = 24%N.
  Proof. exact swrap_demo. Qed.
End stack.

Print Assumptions C12_queue_within_tag_period.
Print Assumptions C12_queue_wraparound_refuted.
Print Assumptions C25_stack_within_tag_period.
Print Assumptions C25_stack_wraparound_refuted.
