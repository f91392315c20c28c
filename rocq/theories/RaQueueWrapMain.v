(** * Main lemmas: the queue on release/acquire memory with tags that wrap *)
From stdpp Require Import gmap list numbers.
From Verif Require Import Lin PoolModel QueueModel RaMem RaLin RaQueueModel RaQueueSpec RaQueueObs RaQueueMain
  WrapPool RaQueueWrapObs RaQueueWrap RaQueueWrapSim.

Set Default Proof Using "Type".

Section main.
  Context (c : cfg) (M : N) (Hc : c_tagmod c = Some M) (HM : (2 <= M)%N).
  Notation c0 := (nowrap c).

  Lemma rqwreach_sim ns tr s :
    rqwreach c true M ns tr s -> exists s0, rqreach c0 true ns tr s0 /\ msr M s0 s /\ rclear c M s0.
  Proof using Hc HM.
    intros (addr & s1 & k & Hnd & Hnn & Hne & Hi & He).
    destruct (rqwexec_sim c M Hc HM ns addr s1 tr s k Hnd Hnn Hne Hi He) as (s01 & s0 & k0 & Hi0 & He0 & Hm & _ & _ & Hcl).
    exists s0. split; [|done]. by exists addr, s01.
  Qed.

  Lemma rq_safe_wrap ns tr s ch :
    rqwreach c true M ns tr s -> rstep c true s ch <> RRace /\ rstep c true s ch <> RUB.
  Proof using Hc HM.
    intros Hr. destruct (rqwreach_sim _ _ _ Hr) as (s0 & Hr0 & Hm & Hcl).
    pose proof (rstep_mod c true M Hc ltac:(lia) s0 s ch Hm Hcl) as Hst.
    destruct (rq_safe_main c0 eq_refl ns tr s0 ch Hr0) as [H1 H2].
    by destruct (rstep c0 true s0 ch), (rstep c true s ch).
  Qed.

  Lemma rq_order_wrap ns tr s :
    rqwreach c true M ns tr s -> exists S b, hb_order (c_node_based c) tr S b /\ handed_over tr S.
  Proof using Hc HM.
    intros Hr. destruct (rqwreach_sim _ _ _ Hr) as (s0 & Hr0 & _ & _). exact (rq_order_main c0 eq_refl ns tr s0 Hr0).
  Qed.

  Lemma rq_matching_wrap ns tr s : rqwreach c true M ns tr s -> exists src, matching tr src.
  Proof using Hc HM.
    intros Hr. destruct (rqwreach_sim _ _ _ Hr) as (s0 & Hr0 & _ & _). exact (rq_matching_main c0 eq_refl ns tr s0 Hr0).
  Qed.
End main.
