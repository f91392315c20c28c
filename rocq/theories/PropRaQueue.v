(** Properties C49-C51: the queue on release/acquire memory, with tags that do
    not wrap.

    [rqreach c true ns tr s]: the queue can reach [s] with history [tr] when an
    atomic load of a link that reads what the freelist wrote into the node
    acquires what the writer had seen; in [rqreach c false] it does not. *)
From stdpp Require Import gmap list numbers.
From Verif Require Import Lin PoolModel QueueModel QueueDemo RaMem RaLin RaQueueModel RaQueueSpec RaQueueObs
  RaQueueMain RaQueueWitness.

(** C49.  No step is a data race on an element or on the writing side of a link,
    or other undefined behaviour. *)
Theorem C49_ra_queue_safe c ns tr s ch :
  c_tagmod c = None -> rqreach c true ns tr s -> rstep c true s ch <> RRace /\ rstep c true s ch <> RUB.
Proof. exact (fun Ht => rq_safe_main c Ht ns tr s ch). Qed.
Print Assumptions C49_ra_queue_safe.

Example C49_nonvacuous :
  c_tagmod demoN = None /\
  exists tr s, rqreach demoN true [1; 2; 3; 4]%N tr s /\
    tr.*1 = [Inv 0 (Push true [5; 6]%N); Res 0 (RBool true); Inv 0 (Push true [7; 8]%N); Res 0 (RBool true);
             Inv 1 Pop; Inv 2 Pop; Res 2 (RPop (Some [5; 6]%N));
             Inv 0 (Push true [1; 2]%N); Res 0 (RBool true); Res 1 (RPop (Some [7; 8]%N));
             Inv 3 Pop; Res 3 (RPop None)].
Proof. split; [done|]. exact qdemo1. Qed.

(** The copy of an element in pop, an ordinary read, may be made by a thread that
    has not seen the last write to it, so the code has a data race by the letter of
    the standard.  (The value read is thrown away in this case, see C50.) *)
Theorem C49_element_race_refuted :
  exists tr s pc n k, rqreach demoF true [1; 2; 3]%N tr s /\ r_pcs s !! 1 = Some pc /\
    qaccess demoF pc = XGet n k /\ r_view s 1 (LData n) < w_acc (r_w s) n.
Proof. exact qdemo_element_race. Qed.
Print Assumptions C49_element_race_refuted.

(** C50.  The calls have a legal sequential order, which respects happens-before;
    a call that returned before a successful push was called comes before it, and
    successful pops are in the order of time.  A pop has seen what the callers of
    the pushes of its own and of all earlier elements had seen. *)
Theorem C50_ra_queue_ordered c ns tr s :
  c_tagmod c = None -> rqreach c true ns tr s ->
  exists S b, hb_order (c_node_based c) tr S b /\ handed_over tr S.
Proof. exact (fun Ht => rq_order_main c Ht ns tr s). Qed.
Print Assumptions C50_ra_queue_ordered.

Example C50_nonvacuous :
  exists tr s, rqreach demoN true [1; 2; 3; 4]%N tr s /\
    tr.*1 = [Inv 0 (Push true [5; 6]%N); Res 0 (RBool true); Inv 0 (Push true [7; 8]%N); Res 0 (RBool true);
             Inv 1 Pop; Inv 2 Pop; Res 2 (RPop (Some [5; 6]%N));
             Inv 0 (Push true [1; 2]%N); Res 0 (RBool true); Res 1 (RPop (Some [7; 8]%N));
             Inv 3 Pop; Res 3 (RPop None)].
Proof. exact qdemo1. Qed.

(** Happens-before cannot be replaced by time: a pop may report an empty queue
    after a push has returned. *)
Theorem C50_real_time_refuted :
  exists tr s, rqreach demoF true [1; 2; 3]%N tr s /\ ~ hw_linearizable [] (rqspec false) tr.*1.
Proof. exact qdemo_real_time. Qed.
Print Assumptions C50_real_time_refuted.

(** And the freelist's write to the link must publish what its thread has seen: if
    it were a relaxed store, an element could be lost.  Here the push of 9 returns
    true, and the pop that the same thread calls next finds the queue empty. *)
Theorem C50_relaxed_free_refuted :
  exists tr s, rqreach demoF false [1; 2; 3]%N tr s /\
    tr.*1 = [Inv 1 (Push true [9%N]); Inv 2 (Push true [5%N]); Res 2 (RBool true); Inv 2 Pop;
             Res 2 (RPop (Some [5%N])); Res 1 (RBool true); Inv 1 Pop; Res 1 (RPop None)] /\
    ~ exists S b, hb_order false tr S b.
Proof. exact qdemo_relaxed. Qed.
Print Assumptions C50_relaxed_free_refuted.

(** C51.  Every popped element comes from its own push, and is handed over with
    everything that the pushing thread had seen; and elements come out in the order
    in which they were put in. *)
Theorem C51_ra_queue_matching c ns tr s :
  c_tagmod c = None -> rqreach c true ns tr s -> exists src, matching tr src.
Proof. exact (fun Ht => rq_matching_main c Ht ns tr s). Qed.
Print Assumptions C51_ra_queue_matching.

Example C51_nonvacuous :
  exists tr s e W, rqreach demoN true [1; 2; 3; 4]%N tr s /\
    call_returns tr.*1 4 9 1 Pop (RPop (Some [7; 8]%N)) /\ tr !! 9 = Some (e, W) /\
    call_returns tr.*1 0 1 0 (Push true [5; 6]%N) (RBool true) /\
    tr.*1 !! 2 = Some (Inv 0 (Push true [7; 8]%N)).
Proof. exact qdemo_matching. Qed.
