(** Property C59 of the stack: an exception costs at most one node. *)
From stdpp Require Import gmap list numbers.
From Verif Require Import Lin PoolModel StackModel StackSpec StackObs StackLeakSpec StackDemo
  StackLeak StackLeakWrap WrapWitness WrapMainWitness StackLeakWitness.

(** C59.  After [k] exceptions (throwing copies, functors, conversions; see
    [thrown]) and with no call in progress, a push that runs alone succeeds as
    long as the elements and [k] leave a node of the pool over. *)
Theorem C59_stack_exception_cost c ns k hist s a t b v :
  c_tagmod c = None -> NoDup ns -> c_null c ∉ ns ->
  sexec_thrown c (sinit c ns) k hist s -> hist_ok hist -> quiescent s -> scontents c s a ->
  length a + k < size (s_heap (s_sh s)) ->
  exists j s', srun c s (Invoke t (SPush b v) :: replicate j (Run t false None false)) =
      Some ([Inv t (SPush b v); Res t (SBool true)], s') /\
    quiescent s' /\ scontents c s' (v :: a).
Proof. intros Htag. exact (leak_push c Htag ns k hist s a t b v). Qed.
Print Assumptions C59_stack_exception_cost.

(** The destructor then destroys all elements, and gives back nodes of the pool,
    no node twice, and all but at most [k] of them. *)
Theorem C59_stack_exception_destructor c ns k hist s a :
  c_tagmod c = None -> NoDup ns -> c_null c ∉ ns ->
  sexec_thrown c (sinit c ns) k hist s -> hist_ok hist -> quiescent s -> scontents c s a ->
  exists l, sdtor c (s_sh s) = Some (a, l) /\ NoDup l /\
    (forall n, n ∈ l -> is_Some (s_heap (s_sh s) !! n)) /\ size (s_heap (s_sh s)) <= length l + k.
Proof. intros Htag. exact (leak_dtor c Htag ns k hist s a). Qed.
Print Assumptions C59_stack_exception_destructor.

Example C59_stack_nonvacuous :
  exists s, sexec_thrown sdemoT (sinit sdemoT [1; 2; 3]%N) 1 histK s /\ hist_ok histK /\ quiescent s /\
    scontents sdemoT s [8%N] /\ length [8%N] + 1 < size (s_heap (s_sh s)).
Proof. exact leak_demo. Qed.

(** Both bounds are reached. *)
Example C59_stack_sharp :
  exists s, sexec_thrown sdemoT (sinit sdemoT [1; 2]%N) 1 histK s /\ hist_ok histK /\ quiescent s /\
    scontents sdemoT s [8%N] /\ length [8%N] + 1 = size (s_heap (s_sh s)) /\
    sdtor sdemoT (s_sh s) = Some ([8%N], [1%N]) /\
    exists s', srun sdemoT s (Invoke 0 (SPush true 9%N) :: replicate 3 (Run 0 false None false)) =
                 Some ([Inv 0 (SPush true 9%N); Res 0 (SBool false)], s').
Proof. exact leak_sharp. Qed.

(** The same with tags modulo [M], as long as no tag is updated [M] times during
    one call. *)
Theorem C59_stack_exception_cost_wrap c M ns k hist s m a t b v :
  c_tagmod c = Some M -> (2 <= M)%N -> NoDup ns -> c_null c ∉ ns ->
  swexec_thrown c M (sinit c ns) k hist s m -> hist_ok hist -> quiescent s -> scontents c s a ->
  length a + k < size (s_heap (s_sh s)) ->
  exists j s', srun c s (Invoke t (SPush b v) :: replicate j (Run t false None false)) =
      Some ([Inv t (SPush b v); Res t (SBool true)], s') /\
    quiescent s' /\ scontents c s' (v :: a).
Proof. exact (fun Hc HM => w_leak_push c M Hc HM ns k hist s m a t b v). Qed.
Print Assumptions C59_stack_exception_cost_wrap.

Theorem C59_stack_exception_destructor_wrap c M ns k hist s m a :
  c_tagmod c = Some M -> (2 <= M)%N -> NoDup ns -> c_null c ∉ ns ->
  swexec_thrown c M (sinit c ns) k hist s m -> hist_ok hist -> quiescent s -> scontents c s a ->
  exists l, sdtor c (s_sh s) = Some (a, l) /\ NoDup l /\
    (forall n, n ∈ l -> is_Some (s_heap (s_sh s) !! n)) /\ size (s_heap (s_sh s)) <= length l + k.
Proof. exact (fun Hc HM => w_leak_dtor c M Hc HM ns k hist s m a). Qed.
Print Assumptions C59_stack_exception_destructor_wrap.

Example C59_stack_nonvacuous_wrap :
  exists s m, swexec_thrown swcfgT 32 (sinit swcfgT [1; 2; 3]%N) 1 (swhist ++ histK) s m /\
    hist_ok (swhist ++ histK) /\ quiescent s /\
    scontents swcfgT s [8%N] /\ length [8%N] + 1 < size (s_heap (s_sh s)).
Proof. exact wleak_demo. Qed.
