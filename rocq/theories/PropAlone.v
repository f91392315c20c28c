(** Property C60: wherever the other threads have stopped, a thread that runs on
    alone finishes its call; and all calls can be finished one after the other.

    Tags that do not wrap ([c_tagmod c = None]); no spurious failures of a
    compare-exchange; the allocator has no memory left ([None]), which is the
    least helpful answer. *)
From stdpp Require Import gmap list numbers.
From Verif Require Import Lin LiveSum PoolModel.
From Verif Require QueueModel QueueObs QueueDemo QueueLive QueueAlone StackModel StackObs StackDemo StackLive StackAlone.
From Verif Require Import LiveWitness AloneWitness.

Section queue.
  Import QueueModel QueueObs QueueDemo QueueLive.

  (** Of the other threads nothing is needed: they are where they were, and the
      only event is the return of this call. *)
  Theorem C60_queue_solo c ns hist s t :
    c_tagmod c = None -> qreach c ns hist s -> is_Some (q_pcs s !! t) ->
    exists k s' r, k <= S (q_bound c (size (q_pcs s)) (msum q_work (q_pcs s))) /\
      qrun c s (replicate k (Run t false None false)) = Some ([Res t r], s') /\
      q_pcs s' = delete t (q_pcs s) /\ qreach c ns (hist ++ [Res t r]) s'.
  Proof. exact (fun Ht => QueueAlone.solo_main c Ht ns hist s t). Qed.

  (** In whatever order [ts] the threads inside calls are let run alone, one
      after the other, their calls return in this order and no call is left. *)
  Theorem C60_queue_drains c ns ts hist s :
    c_tagmod c = None -> qreach c ns hist s -> NoDup ts -> (forall t, t ∈ ts <-> is_Some (q_pcs s !! t)) ->
    exists ks rs s', length ks = length ts /\ length rs = length ts /\
      qrun c s (concat (zip_with (fun k t => replicate k (Run t false None false)) ks ts)) =
        Some (zip_with Res ts rs, s') /\
      q_pcs s' = ∅ /\ qreach c ns (hist ++ zip_with Res ts rs) s'.
  Proof. exact (fun Ht => QueueAlone.drain_main c Ht ns ts hist s). Qed.

  (** Thread 1 has linked its node but not moved the tail, thread 2 is in the
      middle of a pop, thread 3 begins a push.  Thread 2 needs 9 steps, thread 3,
      which has to move the tail for thread 1, 17, and thread 1 then 2. *)
  Example C60_queue_nonvacuous : exists s s',
    qreach demoN qpool qprehist s /\ NoDup [2; 3; 1] /\ (forall t, t ∈ [2; 3; 1] <-> is_Some (q_pcs s !! t)) /\
    qrun demoN s (concat (zip_with (fun k t => replicate k (Run t false None false)) [9; 17; 2] [2; 3; 1])) =
      Some (zip_with Res [2; 3; 1] [RPop (Some [1; 1]%N); RBool true; RBool true], s') /\ q_pcs s' = ∅.
  Proof.
    destruct qsolo_demo as (s & s' & H1 & H2 & H3 & H4). exists s, s'. split; [exact H1|].
    split; [|exact (conj H2 (conj H3 H4))]. by apply (bool_decide_unpack _).
  Qed.
End queue.

Section stack.
  Import StackModel StackObs StackDemo StackLive.

  Theorem C60_stack_solo c ns hist s t :
    c_tagmod c = None -> sreach c ns hist s -> is_Some (s_pcs s !! t) ->
    exists k s' r,
      k <= S (s_bound (size (s_pcs s)) (2 * s_alive s + msum s_work (s_pcs s)) (s_alive s + msum s_elems (s_pcs s))) /\
      srun c s (replicate k (Run t false None false)) = Some ([Res t r], s') /\
      s_pcs s' = delete t (s_pcs s) /\ sreach c ns (hist ++ [Res t r]) s'.
  Proof. exact (fun Ht => StackAlone.solo_main c Ht ns hist s t). Qed.

  Theorem C60_stack_drains c ns ts hist s :
    c_tagmod c = None -> sreach c ns hist s -> NoDup ts -> (forall t, t ∈ ts <-> is_Some (s_pcs s !! t)) ->
    exists ks rs s', length ks = length ts /\ length rs = length ts /\
      srun c s (concat (zip_with (fun k t => replicate k (Run t false None false)) ks ts)) =
        Some (zip_with Res ts rs, s') /\
      s_pcs s' = ∅ /\ sreach c ns (hist ++ zip_with Res ts rs) s'.
  Proof. exact (fun Ht => StackAlone.drain_main c Ht ns ts hist s). Qed.

  (** Thread 1 is about to put its element on top, thread 2 is in the middle of a
      pop, thread 3 has taken all elements and is reversing them. *)
  Example C60_stack_nonvacuous : exists s s',
    sreach sdemoN spool sprehist s /\ NoDup [2; 3; 1] /\ (forall t, t ∈ [2; 3; 1] <-> is_Some (s_pcs s !! t)) /\
    srun sdemoN s (concat (zip_with (fun k t => replicate k (Run t false None false)) [2; 16; 4] [2; 3; 1])) =
      Some (zip_with Res [2; 3; 1] [SGot None; SCount 2 [5; 6]%N; SBool true], s') /\ s_pcs s' = ∅.
  Proof.
    destruct ssolo_demo as (s & s' & H1 & H2 & H3 & H4). exists s, s'. split; [exact H1|].
    split; [|exact (conj H2 (conj H3 H4))]. by apply (bool_decide_unpack _).
  Qed.
End stack.

Print Assumptions C60_queue_solo.
Print Assumptions C60_queue_drains.
Print Assumptions C60_stack_solo.
Print Assumptions C60_stack_drains.
