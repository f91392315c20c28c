(** Property C39 with tags that wrap modulo [M] (2^16 in the library).

    [pwreach c d0 M ns hist s] is like [preach] in PropPool.v, for executions in
    which the tag of [pool_] is not updated [M] times during a call. *)
From stdpp Require Import gmap list numbers.
From Verif Require Import Lin PoolModel PoolMachine PoolMain PoolWrapObs PoolWrap PoolAba PoolWrapWitness.

Theorem C39_pool_safe_wrap {D} c (d0 : D) M ns hist s ch :
  c_tagmod c = Some M -> (2 <= M)%N -> pwreach c d0 M ns hist s -> pfits M ch -> pstep c d0 s ch <> PUB.
Proof. exact (fun Hc HM => w_safe c d0 M Hc HM ns hist s ch). Qed.
Print Assumptions C39_pool_safe_wrap.

Theorem C39_pool_linearizable_wrap {D} c (d0 : D) M ns hist s :
  c_tagmod c = Some M -> (2 <= M)%N -> pwreach c d0 M ns hist s ->
  hw_linearizable (pstart ns) (pspec (c_node_based c)) hist.
Proof. exact (fun Hc HM => w_linearizable c d0 M Hc HM ns hist s). Qed.
Print Assumptions C39_pool_linearizable_wrap.

Theorem C39_pool_returned_not_held_wrap {D} c (d0 : D) M ns hist s h1 t n h2 :
  c_tagmod c = Some M -> (2 <= M)%N -> pwreach c d0 M ns hist s ->
  hist = h1 ++ Res t (PGot n) :: h2 -> n ∉ held h1.
Proof. exact (fun Hc HM => w_no_double c d0 M Hc HM ns hist s h1 t n h2). Qed.
Print Assumptions C39_pool_returned_not_held_wrap.

Theorem C39_pool_no_double_handout_wrap {D} c (d0 : D) M ns hist s h1 t1 n h2 t2 h3 :
  c_tagmod c = Some M -> (2 <= M)%N -> pwreach c d0 M ns hist s ->
  hist = h1 ++ Res t1 (PGot n) :: h2 ++ Res t2 (PGot n) :: h3 ->
  exists t, Inv t (PFree n) ∈ h2 \/ Inv t (PUFree n) ∈ h2.
Proof. exact (fun Hc HM => w_between c d0 M Hc HM ns hist s h1 t1 n h2 t2 h3). Qed.
Print Assumptions C39_pool_no_double_handout_wrap.

(** 30 allocations with tags modulo 4; in 10 of them the first node is taken, and
    its successor too, and given back between the two accesses to [pool_]. *)
Example C39_wrap_nonvacuous :
  c_tagmod pwcfg = Some 4%N /\
  sum_list_with (fun e => match e with Res _ (PGot _) => 1 | _ => 0 end) pwhist = 30 /\
  (exists s, pwreach pwcfg tt 4 [1; 2]%N pwhist s /\ pquiet s) /\
  exists h1 h2 h3, pwhist = h1 ++ Res 2 (PGot 2) :: h2 ++ Res 1 (PGot 2) :: h3.
Proof.
  split; [reflexivity|]. split; [vm_compute; reflexivity|]. split; [exact pwdemo|].
  exists (take 2 pwhist), (take 4 (drop 3 pwhist)), (drop 8 pwhist). vm_compute. reflexivity.
Qed.

(** What has been given back is available again. *)
Theorem C39_pool_available_again_wrap {D} c (d0 : D) M ns hist s t :
  c_tagmod c = Some M -> (2 <= M)%N -> pwreach c d0 M ns hist s -> pquiet s ->
  exists L s', NoDup L /\
    (forall n, n ∈ L <-> (n ∈ ns \/ exists t', Res t' (PGot n) ∈ hist) /\ n ∉ held hist) /\
    prun c d0 s (drain t (length L)) = Some (drained t L, s').
Proof. exact (fun Hc HM => w_available c d0 M Hc HM ns hist s t). Qed.
Print Assumptions C39_pool_available_again_wrap.

Example C39_available_wrap_nonvacuous : exists s,
  pwreach pwcfg tt 4 [1; 2]%N (pwhist ++ [Inv 5 (PAlloc true); Res 5 (PGot 2)]) s /\ pquiet s.
Proof. exact pwdemo_held. Qed.

(** Without the restriction: for every modulus there is an execution in which a
    node is handed out to two clients. *)
Theorem C39_pool_wraparound_refuted M nb : M <> 0%N ->
  exists c ns hist (s : pstate unit) n,
    c_tagmod c = Some M /\ c_node_based c = nb /\ preach c tt ns hist s /\ handed_out_twice hist n.
Proof. exact (paba_main M nb). Qed.
Print Assumptions C39_pool_wraparound_refuted.
