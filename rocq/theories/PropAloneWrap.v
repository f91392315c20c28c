(** Property C60 with tags modulo M.

    It is assumed that, for every call in progress, the updates of each tag since
    the call began ([k]) and the bound on the steps still to come are together
    fewer than M: a step updates a tag at most once. *)
From stdpp Require Import gmap list numbers.
From Verif Require Import Lin LiveSum PoolModel.
From Verif Require QueueModel QueueObs QueueDemo QueueLive QueueWrapObs QueueAloneWrap.
From Verif Require StackModel StackObs StackDemo StackLive StackWrapObs StackAloneWrap.
From Verif Require Import LiveWitness AloneWrapWitness.

Section queue.
  Import QueueModel QueueObs QueueLive QueueWrapObs.

  Theorem C60_queue_solo_wrap c M ns hist s k t :
    c_tagmod c = Some M -> (2 <= M)%N -> qwat c M ns hist s k -> is_Some (q_pcs s !! t) ->
    (forall t' l, is_Some (q_pcs s !! t') ->
       (N.of_nat (k t' l + S (q_bound c (size (q_pcs s)) (msum q_work (q_pcs s)))) < M)%N) ->
    exists j s' r k', j <= S (q_bound c (size (q_pcs s)) (msum q_work (q_pcs s))) /\
      qrun c s (replicate j (Run t false None false)) = Some ([Res t r], s') /\
      q_pcs s' = delete t (q_pcs s) /\ qwat c M ns (hist ++ [Res t r]) s' k'.
  Proof. exact (fun Hc HM => QueueAloneWrap.w_solo_main c M Hc HM ns hist s k t). Qed.

  (** After 650 pushes and pops the tags modulo 600 have wrapped around.  Then
      three calls are in progress, and thread 2 finishes its pop in 9 steps. *)
  Example C60_queue_wrap_nonvacuous : exists s k s',
    qwat qc6 600 qpool (qwarmhist ++ qprehist) s k /\ (forall t, t ∈ [2; 3; 1] <-> is_Some (q_pcs s !! t)) /\
    (forall t l, is_Some (q_pcs s !! t) ->
       (N.of_nat (k t l + S (q_bound qc6 (size (q_pcs s)) (msum q_work (q_pcs s)))) < 600)%N) /\
    qrun qc6 s (replicate 9 (Run 2 false None false)) = Some ([Res 2 (RPop (Some [1; 1]%N))], s').
  Proof. exact qalone6_demo. Qed.
End queue.

Section stack.
  Import StackModel StackObs StackLive StackWrapObs.

  Theorem C60_stack_solo_wrap c M ns hist s k t :
    c_tagmod c = Some M -> (2 <= M)%N -> swat c M ns hist s k -> is_Some (s_pcs s !! t) ->
    (forall t' l, is_Some (s_pcs s !! t') ->
       (N.of_nat (k t' l + S (s_bound (size (s_pcs s)) (2 * s_alive s + msum s_work (s_pcs s))
                                      (s_alive s + msum s_elems (s_pcs s)))) < M)%N) ->
    exists j s' r k',
      j <= S (s_bound (size (s_pcs s)) (2 * s_alive s + msum s_work (s_pcs s)) (s_alive s + msum s_elems (s_pcs s))) /\
      srun c s (replicate j (Run t false None false)) = Some ([Res t r], s') /\
      s_pcs s' = delete t (s_pcs s) /\ swat c M ns (hist ++ [Res t r]) s' k'.
  Proof. exact (fun Hc HM => StackAloneWrap.w_solo_main c M Hc HM ns hist s k t). Qed.

  (** The same for the stack; thread 3 finishes its
      consume_all_atomic_reversed in 16 steps. *)
  Example C60_stack_wrap_nonvacuous : exists s k s',
    swat sc6 600 spool (swarmhist ++ sprehist) s k /\ (forall t, t ∈ [2; 3; 1] <-> is_Some (s_pcs s !! t)) /\
    (forall t l, is_Some (s_pcs s !! t) ->
       (N.of_nat (k t l + S (s_bound (size (s_pcs s)) (2 * s_alive s + msum s_work (s_pcs s))
                                     (s_alive s + msum s_elems (s_pcs s)))) < 600)%N) /\
    srun sc6 s (replicate 16 (Run 3 false None false)) = Some ([Res 3 (SCount 2 [5; 6]%N)], s').
  Proof. exact salone6_demo. Qed.
End stack.

Print Assumptions C60_queue_solo_wrap.
Print Assumptions C60_stack_solo_wrap.
