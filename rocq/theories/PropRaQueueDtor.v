(** Properties C57-C58 for the queue on release/acquire memory, with tags that do
    not wrap.

    [synced tr V]: whoever has view [V] has synchronized with every thread after its
    last call.  [sees_all w V]: they have seen the last write to every location. *)
From stdpp Require Import gmap list numbers.
From Verif Require Import Lin PoolModel QueueModel QueueDemo RaMem RaLin RaQueueModel RaQueueSpec RaQueueObs
  RaQueueLast RaQueueLastWitness.

(** C57.  When all calls have returned and thread [t] has synchronized with them, it
    has seen every write, so that it reads only the newest values and races with
    nobody; the destructor frees every node once. *)
Theorem C57_ra_queue_dtor c ns tr s t :
  c_tagmod c = None -> c_throws c = false -> rqreach c true ns tr s ->
  r_pcs s = ∅ -> synced tr (r_view s t) ->
  sees_all (r_w s) (r_view s t) /\
  exists l, qdtor c (r_x s) = Some l /\ NoDup l /\ forall n, n ∈ l <-> is_Some (q_heap (r_x s) !! n).
Proof.
  exact (fun Ht Hth Hr He Hs => conj (seen_main c Ht ns tr s t Hr He Hs) (dtor_ra_main c Ht ns tr s Hth Hr He)).
Qed.
Print Assumptions C57_ra_queue_dtor.

Example C57_queue_nonvacuous :
  c_tagmod demoN = None /\ c_throws demoN = false /\
  exists tr s, rqreach demoN true [1; 2; 3; 4]%N tr s /\
    tr.*1 = [Inv 0 (Push true [5; 6]%N); Res 0 (RBool true); Inv 0 (Push true [7; 8]%N); Res 0 (RBool true);
             Inv 1 Pop; Inv 2 Pop; Res 2 (RPop (Some [5; 6]%N));
             Inv 0 (Push true [1; 2]%N); Res 0 (RBool true); Res 1 (RPop (Some [7; 8]%N));
             Inv 3 Pop; Res 3 (RPop None)] /\
    r_pcs s = ∅ /\ synced tr (r_view s 4) /\ length (w_head (r_w s)) = 2.
Proof. split; [done|]. split; [done|]. exact qdemo_synced. Qed.

(** The synchronization is needed: a thread that has not seen the return of a push
    would race with it on the node of the element. *)
Theorem C57_unsynced_queue_refuted :
  exists tr s n l, rqreach demoN true [1; 2; 3; 4]%N tr s /\
    tr.*1 = [Inv 0 (Push true [5; 6]%N); Res 0 (RBool true)] /\ r_pcs s = ∅ /\
    qdtor demoN (r_x s) = Some l /\ (q_tail (r_x s)).1 = n /\ r_view s 1 (LData n) < w_acc (r_w s) n.
Proof. exact qdemo_unsynced. Qed.
Print Assumptions C57_unsynced_queue_refuted.

(** C58.  A step of a thread that has seen every write is a step of the model with
    sequentially consistent memory, and the thread has again seen every write. *)
Theorem C58_ra_queue_alone c ns tr s t ts sp addr junk s' evs :
  c_tagmod c = None -> rqreach c true ns tr s ->
  sees_all (r_w s) (r_view s t) -> rstep c true s (RRun t ts sp addr junk) = RNext s' evs ->
  sees_all (r_w s') (r_view s' t) /\
  exists sp', qstep c (QSt (r_x s) (r_pcs s)) (Run t sp' addr false) = QNext (QSt (r_x s') (r_pcs s')) evs.*1.
Proof. exact (fun Ht => alone_main c Ht ns tr s t ts sp addr junk s' evs). Qed.
Print Assumptions C58_ra_queue_alone.

Example C58_queue_nonvacuous :
  exists tr s s', rqreach demoN true [1; 2; 3; 4]%N tr s /\ sees_all (r_w s) (r_view s 4) /\
    rstep demoN true s (RRun 4 (length (w_head (r_w s))) false None 77%N) = RNext s' [] /\
    r_pcs s !! 4 = Some PcOHead /\ length (w_head (r_w s)) = 2.
Proof. exact qdemo_alone. Qed.
