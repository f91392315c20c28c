(** Property C56: the queue and the stack are lock-free (C09, C23) but not
    wait-free.  Whatever the number [k], a call of thread [t] can be kept from
    returning for more than [k] of its own steps, although no compare-exchange
    fails spuriously, by one other thread [u] that keeps calling pop and push;
    all of these calls return.  Only empty() has a bound. *)
From stdpp Require Import gmap list numbers.
From Verif Require Import Lin LinObs PoolModel StackModel StackSpec StackObs StackDemo StackWitness
  QueueModel QueueSpec QueueObs QueueDemo QueueWitness WaitObs WaitEmpty WaitWitness.
From Verif Require WaitQueue WaitStack.

(** C56.  A pop of the queue, from any quiescent state with an element. *)
Theorem C56_queue_pop_not_wait_free c ns hist s w a t u v tf k :
  c_tagmod c = None -> c_throws c = false -> t <> u -> length v = c_words c ->
  qreach c ns hist s -> QueueObs.quiescent s -> qcontents c s (w :: a) ->
  exists chs ws s' pc, Forall q_calm chs /\ length ws = k /\ q_steps t chs = 4 * k /\
    qrun c s (QueueModel.Invoke t Pop tf :: chs) = Some (Inv t Pop :: q_pop_push u v ws, s') /\
    q_pcs s' !! t = Some pc.
Proof. exact (fun Ht Hth => WaitQueue.pop_starves c Ht Hth ns hist s w a t u v tf k). Qed.
Print Assumptions C56_queue_pop_not_wait_free.

(** The state that C01_nonvacuous reaches: one element of two words. *)
Example C56_queue_pop_nonvacuous :
  c_tagmod demoN = None /\ c_throws demoN = false /\ length [4; 4]%N = c_words demoN /\
  exists hist s, qreach demoN [1; 2; 3]%N hist s /\ QueueObs.quiescent s /\ qcontents demoN s [[3; 3]%N].
Proof. exact (conj eq_refl (conj eq_refl (conj eq_refl (ex_intro _ _ demo1)))). Qed.

(** C56.  A push of the queue, from any quiescent state in which not all nodes
    are in use. *)
Theorem C56_queue_push_not_wait_free c ns hist s a t u b v v' tf k :
  c_tagmod c = None -> c_throws c = false -> t <> u ->
  length v = c_words c -> length v' = c_words c ->
  qreach c ns hist s -> QueueObs.quiescent s -> qcontents c s a ->
  S (length a) < size (q_heap (q_sh s)) ->
  exists chs ws s' pc, Forall q_calm chs /\ length ws = k /\ q_steps t chs = S (2 * k) /\
    qrun c s (QueueModel.Invoke t (Push b v) tf :: chs) =
      Some (Inv t (Push b v) :: q_push_pop u v' ws, s') /\
    q_pcs s' !! t = Some pc.
Proof. exact (fun Ht Hth => WaitQueue.push_starves c Ht Hth ns hist s a t u b v v' tf k). Qed.
Print Assumptions C56_queue_push_not_wait_free.

Example C56_queue_push_nonvacuous :
  c_tagmod demoN = None /\ c_throws demoN = false /\ length [4; 4]%N = c_words demoN /\
  exists s, qreach demoN [1; 2]%N [] s /\ QueueObs.quiescent s /\ qcontents demoN s [] /\
    S (length (A := val) []) < size (q_heap (q_sh s)).
Proof. exact (conj eq_refl (conj eq_refl (conj eq_refl demo_two))). Qed.

(** C56.  empty() of the queue returns after three steps at most, whatever the
    other threads do. *)
Theorem C56_queue_empty_wait_free c s t tf chs h s' :
  qrun c s (QueueModel.Invoke t Empty tf :: chs) = Some (h, s') -> 3 <= q_steps t chs ->
  exists r, Res t (RBool r) ∈ h.
Proof. exact (q_empty_bounded c s t tf chs h s'). Qed.
Print Assumptions C56_queue_empty_wait_free.

(** Another thread pushes in between. *)
Example C56_queue_empty_nonvacuous :
  exists s h s', qreach demoN [1; 2]%N [] s /\ qrun demoN s sched_empty = Some (h, s') /\
    3 <= q_steps 0 (tail sched_empty) /\ Res 0 (RBool false) ∈ h.
Proof. exact demo_empty_run. Qed.

(** C56.  A pop of the stack, from any quiescent state with an element. *)
Theorem C56_stack_pop_not_wait_free c ns hist s w a t u v k :
  c_tagmod c = None -> c_throws c = false -> t <> u ->
  sreach c ns hist s -> StackObs.quiescent s -> scontents c s (w :: a) ->
  exists chs ws s' pc, Forall s_calm chs /\ length ws = k /\ s_steps t chs = S (2 * k) /\
    srun c s (StackModel.Invoke t SPop :: chs) = Some (Inv t SPop :: s_pop_push u v ws, s') /\
    s_pcs s' !! t = Some pc.
Proof. exact (fun Ht Hth => WaitStack.pop_starves c Ht Hth ns hist s w a t u v k). Qed.
Print Assumptions C56_stack_pop_not_wait_free.

Example C56_stack_pop_nonvacuous :
  c_tagmod sdemoN = None /\ c_throws sdemoN = false /\
  exists hist s, sreach sdemoN [1; 2; 3]%N hist s /\ StackObs.quiescent s /\ scontents sdemoN s [5%N].
Proof. exact (conj eq_refl (conj eq_refl (ex_intro _ _ sdemo1))). Qed.

(** C56.  A push of the stack, from any quiescent state in which not all nodes
    are in use. *)
Theorem C56_stack_push_not_wait_free c ns hist s a t u b v v' k :
  c_tagmod c = None -> c_throws c = false -> t <> u ->
  sreach c ns hist s -> StackObs.quiescent s -> scontents c s a ->
  length a < size (s_heap (s_sh s)) ->
  exists chs ws s' pc, Forall s_calm chs /\ length ws = k /\ s_steps t chs = S (2 * k) /\
    srun c s (StackModel.Invoke t (SPush b v) :: chs) =
      Some (Inv t (SPush b v) :: s_push_pop u v' ws, s') /\
    s_pcs s' !! t = Some pc.
Proof. exact (fun Ht Hth => WaitStack.push_starves c Ht Hth ns hist s a t u b v v' k). Qed.
Print Assumptions C56_stack_push_not_wait_free.

Example C56_stack_push_nonvacuous :
  c_tagmod sdemoN = None /\ c_throws sdemoN = false /\
  exists s, sreach sdemoN [1]%N [] s /\ StackObs.quiescent s /\ scontents sdemoN s [] /\
    length (A := N) [] < size (s_heap (s_sh s)).
Proof. exact (conj eq_refl (conj eq_refl sdemo_one)). Qed.

(** C56.  empty() of the stack returns after two steps at most, whatever the
    other threads do. *)
Theorem C56_stack_empty_wait_free c s t chs h s' :
  srun c s (StackModel.Invoke t SEmpty :: chs) = Some (h, s') -> 2 <= s_steps t chs ->
  exists r, Res t (SBool r) ∈ h.
Proof. exact (s_empty_bounded c s t chs h s'). Qed.
Print Assumptions C56_stack_empty_wait_free.

Example C56_stack_empty_nonvacuous :
  exists h s', srun sdemoN (sinit sdemoN [1]%N) ssched_empty = Some (h, s') /\
    2 <= s_steps 0 (tail ssched_empty) /\ Res 0 (SBool true) ∈ h.
Proof. exact sdemo_empty_run. Qed.
