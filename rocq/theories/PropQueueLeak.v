(** Property C59 of the queue: an exception costs at most one node. *)
From stdpp Require Import gmap list numbers.
From Verif Require Import Lin PoolModel QueueModel QueueSpec QueueObs QueueLeakSpec QueueDemo QueueWitness
  QueueLeak QueueLeakWrap WrapWitness QueueLeakWitness.

(** C59.  After [k] throwing copies into nodes and any number of throwing
    conversions in pop, with no call in progress, a push that runs alone succeeds
    as long as the elements, the dummy node and [k] leave a node of the pool
    over. *)
Theorem C59_queue_exception_cost c ns k hist s a t b v tf :
  c_tagmod c = None -> qreach_thrown c ns k hist s -> quiescent s -> qcontents c s a ->
  length v = c_words c -> S (length a) + k < size (q_heap (q_sh s)) ->
  exists j s', qrun c s (Invoke t (Push b v) tf :: replicate j (Run t false None false)) =
      Some ([Inv t (Push b v); Res t (RBool true)], s') /\
    quiescent s' /\ qcontents c s' (a ++ [v]).
Proof. intros Htag. exact (leak_push c Htag ns k hist s a t b v tf). Qed.
Print Assumptions C59_queue_exception_cost.

(** The destructor then gives back nodes of the pool, no node twice, and all but
    at most [k] of them. *)
Theorem C59_queue_exception_destructor c ns k hist s :
  c_tagmod c = None -> qreach_thrown c ns k hist s -> quiescent s ->
  exists l, qdtor c (q_sh s) = Some l /\ NoDup l /\
    (forall n, n ∈ l -> is_Some (q_heap (q_sh s) !! n)) /\ size (q_heap (q_sh s)) <= length l + k.
Proof. intros Htag. exact (leak_dtor c Htag ns k hist s). Qed.
Print Assumptions C59_queue_exception_destructor.

(** The last pop of [histK] ended with an exception, at no cost. *)
Example C59_queue_nonvacuous :
  exists s, qreach_thrown demoT [1; 2; 3; 4]%N 1 histK s /\ quiescent s /\ qcontents demoT s [[8%N]] /\
    S (length [[8%N]]) + 1 < size (q_heap (q_sh s)).
Proof. exact leak_demo. Qed.

(** Both bounds are reached. *)
Example C59_queue_sharp :
  exists s, qreach_thrown demoT [1; 2; 3]%N 1 histK s /\ quiescent s /\ qcontents demoT s [[8%N]] /\
    S (length [[8%N]]) + 1 = size (q_heap (q_sh s)) /\ qdtor demoT (q_sh s) = Some [1%N; 3%N] /\
    exists s', qrun demoT s (Invoke 0 (Push true [9%N]) false :: replicate 3 (Run 0 false None false)) =
                 Some ([Inv 0 (Push true [9%N]); Res 0 (RBool false)], s').
Proof. exact leak_sharp. Qed.

(** The same with tags modulo [M], as long as no tag is updated [M] times during
    one call. *)
Theorem C59_queue_exception_cost_wrap c M ns k hist s a t b v tf :
  c_tagmod c = Some M -> (2 <= M)%N ->
  qwreach_thrown c M ns k hist s -> quiescent s -> qcontents c s a ->
  length v = c_words c -> S (length a) + k < size (q_heap (q_sh s)) ->
  exists j s', qrun c s (Invoke t (Push b v) tf :: replicate j (Run t false None false)) =
      Some ([Inv t (Push b v); Res t (RBool true)], s') /\
    quiescent s' /\ qcontents c s' (a ++ [v]).
Proof. exact (fun Hc HM => w_leak_push c M Hc HM ns k hist s a t b v tf). Qed.
Print Assumptions C59_queue_exception_cost_wrap.

Theorem C59_queue_exception_destructor_wrap c M ns k hist s :
  c_tagmod c = Some M -> (2 <= M)%N -> qwreach_thrown c M ns k hist s -> quiescent s ->
  exists l, qdtor c (q_sh s) = Some l /\ NoDup l /\
    (forall n, n ∈ l -> is_Some (q_heap (q_sh s) !! n)) /\ size (q_heap (q_sh s)) <= length l + k.
Proof. exact (fun Hc HM => w_leak_dtor c M Hc HM ns k hist s). Qed.
Print Assumptions C59_queue_exception_destructor_wrap.

Example C59_queue_nonvacuous_wrap :
  exists s, qwreach_thrown qwcfgT 64 [1; 2; 3; 4]%N 1 (qwhist ++ histK) s /\ quiescent s /\
    qcontents qwcfgT s [[8%N]] /\ S (length [[8%N]]) + 1 < size (q_heap (q_sh s)).
Proof. exact wleak_demo. Qed.
