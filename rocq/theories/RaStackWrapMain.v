(** * Main lemmas: the stack on release/acquire memory with tags that wrap *)
From stdpp Require Import gmap list numbers.
From Verif Require Import Lin LinObs PoolModel StackModel StackSpec StackObs WrapPool
  RaMem RaLin RaStackModel RaStackObs RaStackMain RaStackWrapObs RaStackWrap.

Set Default Proof Using "Type".

Section main.
  Context (c : cfg) (M : N) (Hc : c_tagmod c = Some M) (HM : (2 <= M)%N) (Hth : c_throws c = false).
  Notation c0 := (nowrap c).

  Lemma rwreach_sim ns tr s :
    rwreach c true M ns tr s -> exists s0, rreach c0 true ns tr s0 /\ s = mrstate M s0 /\ rclear c true M s0.
  Proof using Hc HM.
    intros (Hnd & Hnull & Hok & k & He). apply (rwexec_sim c M Hc HM) in He as (s0 & k0 & He & -> & _ & _ & Hcl).
    exists s0. split; [by repeat split|]. done.
  Qed.

  Lemma ra_safe_wrap ns tr s ch :
    rwreach c true M ns tr s -> rch_ok ch -> rstep c true s ch <> RRace /\ rstep c true s ch <> RUB.
  Proof using Hc HM Hth.
    intros Hr Hch. destruct (rwreach_sim _ _ _ Hr) as (s0 & Hr0 & -> & Hcl).
    rewrite (rstep_mod c true M Hc ltac:(lia)) by done.
    destruct (ra_safe_main c0 eq_refl Hth ns tr s0 ch Hr0 Hch) as [H1 H2].
    by destruct (rstep c0 true s0 ch).
  Qed.

  Lemma ra_order_wrap ns tr s :
    rwreach c true M ns tr s ->
    exists S b, ra_order [] (sspec (c_node_based c) (c_throws c)) tr S b /\
      published (sspec (c_node_based c) (c_throws c)) tr S.
  Proof using Hc HM Hth.
    intros Hr. destruct (rwreach_sim _ _ _ Hr) as (s0 & Hr0 & _ & _).
    exact (ra_order_main c0 eq_refl Hth ns tr s0 Hr0).
  Qed.

  Lemma ra_transfer_wrap ns tr s i j t o r v e W :
    rwreach c true M ns tr s ->
    call_returns tr.*1 i j t o r -> gives r v -> tr !! j = Some (e, W) ->
    exists i' u o' V, tr !! i' = Some (Inv u o', V) /\ pushes o' v /\ vle V W.
  Proof using Hc HM Hth.
    intros Hr. destruct (rwreach_sim _ _ _ Hr) as (s0 & Hr0 & _ & _).
    exact (ra_transfer_main c0 eq_refl Hth ns tr s0 i j t o r v e W Hr0).
  Qed.
End main.
