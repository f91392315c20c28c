(** Property C39, with tags that do not wrap ([c_tagmod c = None]).

    [c] is any configuration, [d0] the value of an uninitialized node, [ns] the
    pool's initial nodes.  [preach c d0 ns hist s]: the state [s] is reached with
    history [hist], by any number of threads that allocate and deallocate
    (synchronized or not), while the clients write anything to the nodes they
    hold. *)
From stdpp Require Import gmap list numbers.
From Verif Require Import Lin PoolModel PoolMachine PoolMain.

(** No access to memory that is not a node. *)
Theorem C39_pool_safe {D} c (d0 : D) ns hist s ch :
  c_tagmod c = None -> preach c d0 ns hist s -> pstep c d0 s ch <> PUB.
Proof. exact (fun Ht => safe_main c d0 Ht ns hist s ch). Qed.
Print Assumptions C39_pool_safe.

(** The pool is linearizable with respect to a set of nodes, each available or
    handed out. *)
Theorem C39_pool_linearizable {D} c (d0 : D) ns hist s :
  c_tagmod c = None -> preach c d0 ns hist s ->
  hw_linearizable (pstart ns) (pspec (c_node_based c)) hist.
Proof. exact (fun Ht => linearizable_main c d0 Ht ns hist s). Qed.
Print Assumptions C39_pool_linearizable.

(** A node that an allocation returns is in no one's hands. *)
Theorem C39_pool_returned_not_held {D} c (d0 : D) ns hist s h1 t n h2 :
  c_tagmod c = None -> preach c d0 ns hist s -> hist = h1 ++ Res t (PGot n) :: h2 -> n ∉ held h1.
Proof. exact (fun Ht => no_double_main c d0 Ht ns hist s h1 t n h2). Qed.
Print Assumptions C39_pool_returned_not_held.

(** Between two allocations that return the same node, it is given back. *)
Theorem C39_pool_no_double_handout {D} c (d0 : D) ns hist s h1 t1 n h2 t2 h3 :
  c_tagmod c = None -> preach c d0 ns hist s ->
  hist = h1 ++ Res t1 (PGot n) :: h2 ++ Res t2 (PGot n) :: h3 ->
  exists t, Inv t (PFree n) ∈ h2 \/ Inv t (PUFree n) ∈ h2.
Proof. exact (fun Ht => between_main c d0 Ht ns hist s h1 t1 n h2 t2 h3). Qed.
Print Assumptions C39_pool_no_double_handout.

(** The node that thread 1 is about to take is taken by thread 2, and so is its
    successor, and given back. *)
Example C39_nonvacuous :
  c_tagmod pdemoF = None /\
  exists s, preach pdemoF tt [1; 2]%N
    [Inv 1 (PAlloc true); Inv 2 (PAlloc true); Res 2 (PGot 2); Inv 3 (PAlloc true); Res 3 (PGot 1);
     Inv 2 (PFree 2); Res 2 PUnit; Res 1 (PGot 2)] s /\ pquiet s.
Proof. exact (conj eq_refl aba_reach). Qed.

(** When no call is in progress, the nodes that have been given back (or have
    never been handed out) are available: allocations return exactly these,
    each once, and then fail. *)
Theorem C39_pool_available_again {D} c (d0 : D) ns hist s t :
  c_tagmod c = None -> preach c d0 ns hist s -> pquiet s ->
  exists L s', NoDup L /\
    (forall n, n ∈ L <-> (n ∈ ns \/ exists t', Res t' (PGot n) ∈ hist) /\ n ∉ held hist) /\
    prun c d0 s (drain t (length L)) = Some (drained t L, s').
Proof. exact (fun Ht => available_main c d0 Ht ns hist s t). Qed.
Print Assumptions C39_pool_available_again.

(** For the history of [C39_nonvacuous] nothing is available; after thread 3 has
    given node 1 back, only that node is. *)
Example C39_available_nonvacuous :
  exists s s', preach pdemoF tt [1; 2]%N (aba_hist ++ [Inv 3 (PFree 1); Res 3 PUnit]) s /\ pquiet s /\
    held (aba_hist ++ [Inv 3 (PFree 1); Res 3 PUnit]) = {[2%N]} /\
    prun pdemoF tt s (drain 7 1) = Some ([Inv 7 (PAlloc true); Res 7 (PGot 1); Inv 7 (PAlloc true); Res 7 PNone], s').
Proof. exact aba_available. Qed.
