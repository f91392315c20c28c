(** Properties C57-C58 for the stack on release/acquire memory, with tags that do
    not wrap and elements whose copies and functors do not throw.

    [synced tr V]: whoever has view [V] has synchronized with every thread after its
    last call.  [sees_all w V]: they have seen the last write to every location. *)
From stdpp Require Import gmap list numbers.
From Verif Require Import Lin PoolModel StackModel StackSpec StackObs StackDemo RaMem RaLin RaStackModel RaStackObs
  RaStackLast RaStackLastWitness.

(** C57.  When all calls have returned and thread [t] has synchronized with them, it
    has seen every write, so that it reads only the newest values and races with
    nobody; the destructor destroys exactly the elements that are left at the end
    of a legal order of the calls, and frees every node once. *)
Theorem C57_ra_stack_dtor c ns tr s t :
  c_tagmod c = None -> c_throws c = false -> rreach c true ns tr s ->
  r_pcs s = ∅ -> synced tr (r_view s t) ->
  sees_all (r_w s) (r_view s t) /\
  exists S a l, ra_order [] (sspec (c_node_based c) (c_throws c)) tr S a /\
    published (sspec (c_node_based c) (c_throws c)) tr S /\
    sdtor c (r_x s) = Some (a, l) /\ NoDup l /\ forall n, n ∈ l <-> is_Some (s_heap (r_x s) !! n).
Proof.
  exact (fun Ht Hth Hr He Hs => conj (seen_main c Ht Hth ns tr s t Hr He Hs) (dtor_ra_main c Ht Hth ns tr s Hr He)).
Qed.
Print Assumptions C57_ra_stack_dtor.

Example C57_stack_nonvacuous :
  c_tagmod sdemoN = None /\ c_throws sdemoN = false /\
  exists tr s, rreach sdemoN true [1; 2; 3]%N tr s /\
    tr.*1 = [Inv 0 (SPush true 5%N); Res 0 (SBool true); Inv 0 (SPush true 6%N); Res 0 (SBool true);
             Inv 1 SPop; Inv 2 SPop; Res 2 (SGot (Some 6%N)); Inv 0 (SPush true 7%N); Res 0 (SBool true);
             Res 1 (SGot (Some 7%N)); Inv 3 SPop; Res 3 (SGot None)] /\
    r_pcs s = ∅ /\ synced tr (r_view s 4).
Proof. split; [done|]. split; [done|]. exact rdemo_synced. Qed.

(** The synchronization is needed: a thread that has not seen the return of a push
    would race with it on the element that the destructor destroys. *)
Theorem C57_unsynced_stack_refuted :
  exists tr s n v, rreach sdemoN true [1; 2; 3]%N tr s /\
    tr.*1 = [Inv 0 (SPush true 5%N); Res 0 (SBool true)] /\ r_pcs s = ∅ /\
    (exists l, sdtor sdemoN (r_x s) = Some ([v], l)) /\ (s_tos (r_x s)).1 = n /\
    r_view s 1 (LData n) < w_acc (r_w s) n.
Proof. exact rdemo_unsynced. Qed.
Print Assumptions C57_unsynced_stack_refuted.

(** C58.  A step of a thread that has seen every write is a step of the model with
    sequentially consistent memory, and the thread has again seen every write. *)
Theorem C58_ra_stack_alone c ns tr s t ts sp addr s' evs :
  c_tagmod c = None -> c_throws c = false -> rreach c true ns tr s ->
  sees_all (r_w s) (r_view s t) -> rstep c true s (RRun t ts sp addr) = RNext s' evs ->
  sees_all (r_w s') (r_view s' t) /\
  exists sp', sstep c (SSt (r_x s) (r_pcs s)) (Run t sp' addr false) = SNext (SSt (r_x s') (r_pcs s')) evs.*1.
Proof. exact (fun Ht Hth => alone_main c Ht Hth ns tr s t ts sp addr s' evs). Qed.
Print Assumptions C58_ra_stack_alone.

Example C58_stack_nonvacuous :
  exists tr s s', rreach sdemoN true [1; 2; 3]%N tr s /\ sees_all (r_w s) (r_view s 4) /\
    rstep sdemoN true s (RRun 4 (length (w_tos (r_w s))) false None) = RNext s' [] /\
    r_pcs s !! 4 = Some PcCLoad /\ length (w_tos (r_w s)) = 5.
Proof. exact rdemo_alone. Qed.
