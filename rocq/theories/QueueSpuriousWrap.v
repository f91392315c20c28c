(** * The queue with spurious failures and tags that wrap, within one tag period *)
From stdpp Require Import gmap list numbers.
From Verif Require Import Lin LiveSum PoolModel QueueModel QueueSpec QueueObs QueueLive QueueSpurious QueueWrapObs
  WrapPool QueueWrap QueueWrapMain.

Set Default Proof Using "Type".

Section wrap.
  Context (c : cfg) (M : N) (Hc : c_tagmod c = Some M) (HM : (2 <= M)%N).
  Notation c0 := (nowrap c).

  Lemma w_spurious ns hist s k chs h s' :
    qwat c M ns hist s k -> Forall q_sync chs -> qwcont c M s k chs h s' ->
    (forall t r, Res t r ∉ h) ->
    length chs <= length (q_invoked chs) +
      q_bound c (size (q_pcs s) + length (q_invoked chs))
                (msum q_work (q_pcs s) + sum_list (q_opwork <$> q_invoked chs)) +
      q_spurious chs * (2 * c_words c + 22).
  Proof using Hc HM.
    intros (addr & s0 & H1 & H2 & H3 & H4 & H5) HF Hco Hh.
    rewrite (qinit_mod c M Hc ltac:(lia)) in H4. apply fmap_Some in H4 as (s00 & H4 & ->).
    destruct (sim c M Hc HM _ _ _ _ _ _ H1 H2 H3 H4 H5) as (Hk & s1 & -> & Hre & Hn & _).
    destruct (sim_cont c M Hc HM _ _ _ _ _ _ _ Hre Hn Hk Hco) as (s1' & -> & Hr).
    pose proof (spurious_main c0 eq_refl ns hist s1 chs h s1' Hre HF Hr Hh) as Hb.
    change (q_pcs (mstate M s1)) with (mpc M <$> q_pcs s1). rewrite msum_mod, map_size_fmap. exact Hb.
  Qed.
End wrap.
