(** Properties C46-C48: the stack on release/acquire memory, with tags that do
    not wrap and elements whose copies and functors do not throw.

    [rreach c true ns tr s]: the stack can reach [s] with history [tr] when the
    loads marked memory_order_consume acquire; in [rreach c false] they are
    relaxed. *)
From stdpp Require Import gmap list numbers.
From Verif Require Import Lin PoolModel StackModel StackSpec StackObs StackDemo RaMem RaLin RaStackModel RaStackObs
  RaStackMain RaStackWitness.

(** C46.  No step is a data race on an element or on the writing side of a link,
    or other undefined behaviour. *)
Theorem C46_ra_stack_safe c ns tr s ch :
  c_tagmod c = None -> c_throws c = false -> rreach c true ns tr s -> rch_ok ch ->
  rstep c true s ch <> RRace /\ rstep c true s ch <> RUB.
Proof. exact (fun Ht Hth => ra_safe_main c Ht Hth ns tr s ch). Qed.
Print Assumptions C46_ra_stack_safe.

Example C46_nonvacuous :
  c_tagmod sdemoN = None /\ c_throws sdemoN = false /\ rch_ok (RInvoke 0 (SRange true [1%N])) /\
  exists tr s, rreach sdemoN true [1; 2; 3]%N tr s /\
    tr.*1 = [Inv 0 (SPush true 5%N); Res 0 (SBool true); Inv 0 (SPush true 6%N); Res 0 (SBool true);
             Inv 1 SPop; Inv 2 SPop; Res 2 (SGot (Some 6%N)); Inv 0 (SPush true 7%N); Res 0 (SBool true);
             Res 1 (SGot (Some 7%N)); Inv 3 SPop; Res 3 (SGot None)].
Proof. do 3 (split; [done|]). exact rdemo1. Qed.

(** The consume loads are needed: if they were relaxed, a pop could use the
    link that its node had in the pool. *)
Theorem C46_relaxed_loads_refuted :
  exists tr s ch, rreach sdemoN false [1; 2; 3]%N tr s /\ rch_ok ch /\ rstep sdemoN false s ch = RUB.
Proof. exact rdemo_relaxed. Qed.
Print Assumptions C46_relaxed_loads_refuted.

(** The link of a node, an ordinary variable, may be read by a thread that has not
    seen the last write to it, so the code has a data race by the letter of the
    standard. *)
Theorem C46_link_race_refuted :
  exists tr s pc n, rreach sdemoN true [1; 2; 3]%N tr s /\ r_pcs s !! 1 = Some pc /\
    saccess sdemoN true pc = XRead n /\ r_view s 1 (LNext n) < length (w_next (r_w s) n).
Proof. exact rdemo_link_race. Qed.
Print Assumptions C46_link_race_refuted.

(** C47.  The calls have a legal sequential order, which respects happens-before
    and, up to calls that change nothing, time; a call has seen what happened
    before the calls whose effects it depends on. *)
Theorem C47_ra_stack_linearizable c ns tr s :
  c_tagmod c = None -> c_throws c = false -> rreach c true ns tr s ->
  exists S b, ra_order [] (sspec (c_node_based c) (c_throws c)) tr S b /\
    published (sspec (c_node_based c) (c_throws c)) tr S.
Proof. exact (fun Ht Hth => ra_order_main c Ht Hth ns tr s). Qed.
Print Assumptions C47_ra_stack_linearizable.

Example C47_nonvacuous :
  exists tr s, rreach sdemoN true [1; 2; 3]%N tr s /\
    tr.*1 = [Inv 0 (SPush true 5%N); Res 0 (SBool true); Inv 0 (SPush true 6%N); Res 0 (SBool true);
             Inv 1 SPop; Inv 2 SPop; Res 2 (SGot (Some 6%N)); Inv 0 (SPush true 7%N); Res 0 (SBool true);
             Res 1 (SGot (Some 7%N)); Inv 3 SPop; Res 3 (SGot None)].
Proof. exact rdemo1. Qed.

(** Happens-before cannot be replaced by time: a pop may report an empty stack
    after a push has returned. *)
Theorem C47_real_time_refuted :
  exists tr s, rreach sdemoN true [1; 2; 3]%N tr s /\ ~ hw_linearizable [] (sspec true false) tr.*1.
Proof. exact rdemo_real_time. Qed.
Print Assumptions C47_real_time_refuted.

(** C48.  A call that is given element [v] by the stack has, when it returns, seen
    everything that a thread had seen when it called push with [v]. *)
Theorem C48_ra_stack_transfer c ns tr s i j t o r v e W :
  c_tagmod c = None -> c_throws c = false -> rreach c true ns tr s ->
  call_returns tr.*1 i j t o r -> gives r v -> tr !! j = Some (e, W) ->
  exists i' u o' V, tr !! i' = Some (Inv u o', V) /\ pushes o' v /\ vle V W.
Proof. exact (fun Ht Hth => ra_transfer_main c Ht Hth ns tr s i j t o r v e W). Qed.
Print Assumptions C48_ra_stack_transfer.

Example C48_nonvacuous :
  exists tr s e W, rreach sdemoN true [1; 2; 3]%N tr s /\ call_returns tr.*1 4 9 1 SPop (SGot (Some 7%N)) /\
    tr !! 9 = Some (e, W).
Proof. exact rdemo_transfer. Qed.
