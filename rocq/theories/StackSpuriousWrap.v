(** * The stack with spurious failures and tags that wrap, within one tag period *)
From stdpp Require Import gmap list numbers.
From Verif Require Import Lin LiveSum PoolModel StackModel StackSpec StackObs StackLive StackSpurious StackWrapObs
  WrapPool StackWrap StackWrapMain.

Set Default Proof Using "Type".

Section wrap.
  Context (c : cfg) (M : N) (Hc : c_tagmod c = Some M) (HM : (2 <= M)%N).
  Notation c0 := (nowrap c).

  Lemma w_spurious ns hist s k chs h s' :
    swat c M ns hist s k -> Forall s_sync chs -> swcont c M s k chs h s' ->
    (forall t r, Res t r ∉ h) ->
    length chs <= length (s_invoked chs) +
      s_bound (size (s_pcs s) + length (s_invoked chs))
              (2 * s_alive s + msum s_work (s_pcs s) + sum_list (s_opwork <$> s_invoked chs))
              (s_alive s + msum s_elems (s_pcs s) + sum_list (s_opelems <$> s_invoked chs)) +
      s_spurious chs *
        (2 * (s_alive s + msum s_elems (s_pcs s) + sum_list (s_opelems <$> s_invoked chs)) + 10).
  Proof using Hc HM.
    intros Hat HF Hco Hh. destruct (sim_at c M Hc HM _ _ _ _ Hat) as (Hk & s1 & -> & Hre & Hn).
    destruct (sim_cont c M Hc HM _ _ _ _ _ Hn Hk Hco) as (s1' & -> & Hr).
    pose proof (spurious_main c0 eq_refl ns hist s1 chs h s1' Hre HF Hr Hh) as Hb.
    rewrite alive_mod. change (s_pcs (mstate M s1)) with (mpc M <$> s_pcs s1).
    rewrite !msum_mod by (apply work_mod || apply elems_mod). by rewrite map_size_fmap.
  Qed.
End wrap.
