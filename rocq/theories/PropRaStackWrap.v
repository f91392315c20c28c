(** Properties C46-C48 for tags that wrap around.

    [rwreach c true b ns tr s]: as [rreach], and no tag is updated [b] times
    between the storing of a value and the end of its use by a call that has read
    it.  On sequentially consistent memory it is enough to count the updates
    during the call (PropStackWrap.v); here a call may begin with a value that
    was replaced long ago. *)
From stdpp Require Import gmap list numbers.
From Verif Require Import Lin LinObs PoolModel StackModel StackSpec StackObs RaMem RaLin RaStackModel RaStackObs
  RaStackDemo StackAba RaStackWrapObs RaStackWrapMain RaStackWrapWitness RaStackAba.

(** C46 *)
Theorem C46_ra_stack_safe_wrap c M ns tr s ch :
  c_tagmod c = Some M -> (2 <= M)%N -> c_throws c = false -> rwreach c true M ns tr s -> rch_ok ch ->
  rstep c true s ch <> RRace /\ rstep c true s ch <> RUB.
Proof. exact (fun Hc HM Hth => ra_safe_wrap c M Hc HM Hth ns tr s ch). Qed.
Print Assumptions C46_ra_stack_safe_wrap.

Example C46_wrap_nonvacuous :
  c_tagmod rsmall = Some 3%N /\ c_throws rsmall = false /\ rch_ok (RInvoke 0 (SRange true [1%N])) /\
  exists tr s, rwreach rsmall true 3 [1; 2; 3]%N tr s /\ tr.*1 = rhist1 /\
    (s_pool (r_x s), s_tos (r_x s)) = ((2, 0), (3, 2))%N.
Proof. do 3 (split; [done|]). exact rwdemo1. Qed.

(** Without the condition, calls that do not even overlap lead to undefined
    behaviour, whatever the number of tags. *)
Theorem C46_old_value_refuted nb M :
  M <> 0%N ->
  exists tr s ch, rreach (aba_cfg nb M) true [1; 2]%N tr s /\ sequential tr.*1 /\ rch_ok ch /\
    rstep (aba_cfg nb M) true s ch = RUB.
Proof. exact (old_main nb M). Qed.
Print Assumptions C46_old_value_refuted.

Example C46_old_value_nonvacuous :
  (2 ^ 16)%N <> 0%N /\ c_tagmod (aba_cfg true (2 ^ 16)) = Some 65536%N /\
  sequential [Inv 0 SPop; Res 0 (SGot None); Inv 1 SPop] /\ ~ sequential [Inv 0 SPop; Inv 1 SPop; Res 0 (SGot None)].
Proof.
  do 2 (split; [done|]). split.
  - intros [|[|[|i]]] t o Hi; simpl in Hi; try done; injection Hi as <- <-; [right; by eexists|by left].
  - intros H. destruct (H 0 0 SPop eq_refl) as [?|[r ?]]; done.
Qed.

(** C47 *)
Theorem C47_ra_stack_linearizable_wrap c M ns tr s :
  c_tagmod c = Some M -> (2 <= M)%N -> c_throws c = false -> rwreach c true M ns tr s ->
  exists S b, ra_order [] (sspec (c_node_based c) (c_throws c)) tr S b /\
    published (sspec (c_node_based c) (c_throws c)) tr S.
Proof. exact (fun Hc HM Hth => ra_order_wrap c M Hc HM Hth ns tr s). Qed.
Print Assumptions C47_ra_stack_linearizable_wrap.

Example C47_wrap_nonvacuous :
  exists tr s, rwreach rsmall true 3 [1; 2; 3]%N tr s /\ tr.*1 = rhist1 /\
    (s_pool (r_x s), s_tos (r_x s)) = ((2, 0), (3, 2))%N.
Proof. exact rwdemo1. Qed.

(** C48 *)
Theorem C48_ra_stack_transfer_wrap c M ns tr s i j t o r v e W :
  c_tagmod c = Some M -> (2 <= M)%N -> c_throws c = false -> rwreach c true M ns tr s ->
  call_returns tr.*1 i j t o r -> gives r v -> tr !! j = Some (e, W) ->
  exists i' u o' V, tr !! i' = Some (Inv u o', V) /\ pushes o' v /\ vle V W.
Proof. exact (fun Hc HM Hth => ra_transfer_wrap c M Hc HM Hth ns tr s i j t o r v e W). Qed.
Print Assumptions C48_ra_stack_transfer_wrap.

Example C48_wrap_nonvacuous :
  exists tr s e W, rwreach rsmall true 3 [1; 2; 3]%N tr s /\ call_returns tr.*1 4 9 1 SPop (SGot (Some 7%N)) /\
    tr !! 9 = Some (e, W).
Proof. exact rwdemo_transfer. Qed.
