(** C55: how many nodes the queue and the stack ever take from the allocator.

    If in every state of an execution the elements and the calls in progress are at most
    [B], then no more than [B] nodes are ever allocated besides those the container was
    constructed with and those asked for by reserve, however long the execution is. *)
From stdpp Require Import gmap list numbers.
From Verif Require Import Lin PoolModel QueueModel QueueObs QueueDemo QueueWitness QueuePeak StackPeak.
From Verif Require Import QueuePeakProofs QueuePeakWrap QueuePeakWitness.
From Verif Require StackModel StackDemo StackPeakProofs StackPeakWrap StackPeakWitness.

(** The nodes [qneeds] counts: the dummy node, one for each element, and one for each
    call in progress. *)
Theorem C55_queue_memory_bounded c (Htag : c_tagmod c = None) ns addr s0 B hist s :
  c_throws c = false -> NoDup ns -> c_null c ∉ ns -> ns <> [] \/ c_node_based c = true ->
  qinit c ns addr = Some s0 -> qexec_all c (qneeds c B) s0 hist s ->
  size (q_heap (q_sh s)) <= length ns `max` B + qreserved hist.
Proof. exact (queue_peak c Htag ns addr s0 B hist s). Qed.
Print Assumptions C55_queue_memory_bounded.

(** Six pushes and six pops by two threads with three nodes. *)
Example C55_queue_memory_bounded_nonvacuous :
  exists s0 s, qinit demoN [] (Some 1%N) = Some s0 /\
    qexec_all demoN (qneeds demoN 5) s0 (peak_hist ++ peak_hist ++ peak_hist) s /\
    size (q_heap (q_sh s)) = 3.
Proof. exact peak_demo. Qed.

(** The nodes [sneeds] counts: those on the stack or held by a call, and one for each call
    in progress. *)
Theorem C55_stack_memory_bounded c (Htag : c_tagmod c = None) ns B hist s :
  c_throws c = false -> NoDup ns -> c_null c ∉ ns ->
  sexec_all c (sneeds B) (srange_needs c B) (StackModel.sinit c ns) hist s ->
  size (StackModel.s_heap (StackModel.s_sh s)) <= length ns `max` B + sreserved hist.
Proof. exact (StackPeakProofs.stack_peak c Htag ns B hist s). Qed.
Print Assumptions C55_stack_memory_bounded.

(** Three rounds of range pushes of four elements by two threads, a pop and a
    consume_all_atomic, with four nodes. *)
Example C55_stack_memory_bounded_nonvacuous :
  exists s, sexec_all StackDemo.sdemoN (sneeds 6) (srange_needs StackDemo.sdemoN 6)
      (StackModel.sinit StackDemo.sdemoN [])
      (StackPeakWitness.speak_hist ++ StackPeakWitness.speak_hist ++ StackPeakWitness.speak_hist) s /\
    size (StackModel.s_heap (StackModel.s_sh s)) = 4.
Proof. exact StackPeakWitness.speak_demo. Qed.

(** With tags modulo [M], under the condition of C48: while a call is in progress each
    tag changes fewer than [M] times. *)
Theorem C55_queue_memory_bounded_wrap c M (Hc : c_tagmod c = Some M) (HM : (2 <= M)%N) ns addr s0 B hist s k :
  c_throws c = false -> NoDup ns -> c_null c ∉ ns -> ns <> [] \/ c_node_based c = true ->
  qinit c ns addr = Some s0 -> qwexec_all c M (qneeds c B) s0 hist s k ->
  size (q_heap (q_sh s)) <= length ns `max` B + qreserved hist.
Proof. exact (queue_peak_wrap c M Hc HM ns addr s0 B hist s k). Qed.
Print Assumptions C55_queue_memory_bounded_wrap.

(** Eighty pushes and pops; the tag of head_ has come round to 16. *)
Example C55_queue_memory_bounded_wrap_nonvacuous :
  exists s0 s k, qinit peakW [] (Some 1%N) = Some s0 /\
    qwexec_all peakW 64 (qneeds peakW 5) s0 (mjoin (replicate 40 peak_hist)) s k /\
    size (q_heap (q_sh s)) = 3 /\ (q_head (q_sh s)).2 = 16%N.
Proof. exact peak_wrap_demo. Qed.

Theorem C55_stack_memory_bounded_wrap c M (Hc : c_tagmod c = Some M) (HM : (2 <= M)%N) ns B hist s k :
  c_throws c = false -> NoDup ns -> c_null c ∉ ns ->
  swexec_all c M (sneeds B) (srange_needs c B) (StackModel.sinit c ns) hist s k ->
  size (StackModel.s_heap (StackModel.s_sh s)) <= length ns `max` B + sreserved hist.
Proof. exact (StackPeakWrap.stack_peak_wrap c M Hc HM ns B hist s k). Qed.
Print Assumptions C55_stack_memory_bounded_wrap.

Example C55_stack_memory_bounded_wrap_nonvacuous :
  exists s k, swexec_all StackPeakWitness.speakW 64 (sneeds 6) (srange_needs StackPeakWitness.speakW 6)
      (StackModel.sinit StackPeakWitness.speakW []) (mjoin (replicate 70 StackPeakWitness.speak_hist)) s k /\
    size (StackModel.s_heap (StackModel.s_sh s)) = 4 /\ (StackModel.s_tos (StackModel.s_sh s)).2 = 6%N.
Proof. exact StackPeakWitness.speak_wrap_demo. Qed.

(** [c_throws c = false] is needed: if the element's copy may throw, there is no bound.
    Calls made one after the other on an empty queue leave [n] nodes behind. *)
Theorem C55_queue_throwing_unbounded_refuted n :
  exists s0 s, qinit demoT [] (Some 1%N) = Some s0 /\
    qexec_all demoT (qneeds demoT 2) s0 (leak_hist n) s /\
    qreserved (leak_hist n) = 0 /\ size (q_heap (q_sh s)) = S n.
Proof. exact (queue_leak_bound n). Qed.
Print Assumptions C55_queue_throwing_unbounded_refuted.

Theorem C55_stack_throwing_unbounded_refuted n :
  exists s, sexec_all StackDemo.sdemoT (sneeds 2) (srange_needs StackDemo.sdemoT 2)
      (StackModel.sinit StackDemo.sdemoT []) (StackPeakWitness.sleak_hist n) s /\
    sreserved (StackPeakWitness.sleak_hist n) = 0 /\ size (StackModel.s_heap (StackModel.s_sh s)) = n.
Proof. exact (StackPeakWitness.stack_leak_bound n). Qed.
Print Assumptions C55_stack_throwing_unbounded_refuted.
