(** Properties C49-C51 for tags that wrap around.

    [rqwreach c true b ns tr s]: as [rqreach], and no tag is updated [b] times
    between the storing of a value and the end of its use by a call that has read
    it. *)
From stdpp Require Import gmap list numbers.
From Verif Require Import Lin PoolModel QueueModel RaMem RaLin RaQueueModel RaQueueSpec RaQueueObs
  RaQueueWrapObs RaQueueWrapMain RaQueueWrapWitness.

(** C49 *)
Theorem C49_ra_queue_safe_wrap c M ns tr s ch :
  c_tagmod c = Some M -> (2 <= M)%N -> rqwreach c true M ns tr s ->
  rstep c true s ch <> RRace /\ rstep c true s ch <> RUB.
Proof. exact (fun Hc HM => rq_safe_wrap c M Hc HM ns tr s ch). Qed.
Print Assumptions C49_ra_queue_safe_wrap.

Example C49_wrap_nonvacuous :
  c_tagmod qsmall = Some 3%N /\
  exists tr s, rqwreach qsmall true 3 [1; 2; 3; 4]%N tr s /\
    tr.*1 = [Inv 0 (Push true [5; 6]%N); Res 0 (RBool true); Inv 0 (Push true [7; 8]%N); Res 0 (RBool true);
             Inv 1 Pop; Inv 2 Pop; Res 2 (RPop (Some [5; 6]%N));
             Inv 0 (Push true [1; 2]%N); Res 0 (RBool true); Res 1 (RPop (Some [7; 8]%N));
             Inv 3 Pop; Res 3 (RPop (Some [1; 2]%N))] /\
    (q_pool (r_x s), q_head (r_x s), q_tail (r_x s)) = ((2, 1), (4, 0), (4, 0))%N.
Proof. split; [done|]. exact qwdemo. Qed.

(** C50 *)
Theorem C50_ra_queue_ordered_wrap c M ns tr s :
  c_tagmod c = Some M -> (2 <= M)%N -> rqwreach c true M ns tr s ->
  exists S b, hb_order (c_node_based c) tr S b /\ handed_over tr S.
Proof. exact (fun Hc HM => rq_order_wrap c M Hc HM ns tr s). Qed.
Print Assumptions C50_ra_queue_ordered_wrap.

Example C50_wrap_nonvacuous :
  exists tr s, rqwreach qsmall true 3 [1; 2; 3; 4]%N tr s /\ tr.*1 = qwhist /\
    (q_pool (r_x s), q_head (r_x s), q_tail (r_x s)) = ((2, 1), (4, 0), (4, 0))%N.
Proof. exact qwdemo. Qed.

(** C51 *)
Theorem C51_ra_queue_matching_wrap c M ns tr s :
  c_tagmod c = Some M -> (2 <= M)%N -> rqwreach c true M ns tr s -> exists src, matching tr src.
Proof. exact (fun Hc HM => rq_matching_wrap c M Hc HM ns tr s). Qed.
Print Assumptions C51_ra_queue_matching_wrap.

Example C51_wrap_nonvacuous :
  exists tr s e W, rqwreach qsmall true 3 [1; 2; 3; 4]%N tr s /\
    call_returns tr.*1 4 9 1 Pop (RPop (Some [7; 8]%N)) /\ tr !! 9 = Some (e, W) /\
    call_returns tr.*1 0 1 0 (Push true [5; 6]%N) (RBool true) /\
    tr.*1 !! 2 = Some (Inv 0 (Push true [7; 8]%N)).
Proof. exact qwdemo_matching. Qed.
