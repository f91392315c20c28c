(** * The stack: exceptions with wrapping tags *)
From stdpp Require Import gmap list numbers.
From Verif Require Import Lin PoolModel StackModel StackSpec StackObs StackWrapObs WrapPool StackWrap
  StackWrapMain StackLeakSpec StackLeak.

Set Default Proof Using "Type".

Section wrap.
  Context (c : cfg) (M : N) (Hc : c_tagmod c = Some M) (HM : (2 <= M)%N).
  Notation c0 := (nowrap c).

  Lemma thrown_mod s ch : thrown (mstate M s) ch = thrown s ch.
  Proof.
    destruct ch as [t o|t sp addr thr|t o addrs thr]; [done| |done]. destruct thr; [|done]. simpl.
    rewrite lookup_fmap. by destruct (s_pcs s !! t) as [[]|].
  Qed.

  Lemma wthrown_exec s0 j hist s m : swexec_thrown c M s0 j hist s m -> swexec c M s0 hist s m.
  Proof. induction 1; [constructor|by econstructor]. Qed.

  Lemma sim_thrown ns j hist s1 m :
    swexec_thrown c M (mstate M (sinit c0 ns)) j hist s1 m ->
    exists s, s1 = mstate M s /\ near s m /\ sexec_thrown c0 (sinit c0 ns) j hist s.
  Proof using Hc HM.
    intros Hw. induction Hw as [|j hist s1 m ch i s1' evs Hw IH Ht Hs Hb].
    - exists (sinit c0 ns). split; [done|]. split; [|by constructor].
      intros t pc l y Hpc. exfalso. unfold sinit in Hpc. by destruct (pool_init c0 None ns).
    - destruct IH as (s & -> & Hn & He). pose proof (wthrown_exec _ _ _ _ _ Hw) as Hw'.
      destruct (sim c M Hc HM _ _ _ _ Hw') as (Hk & _).
      destruct (sim_step c M Hc HM _ _ _ _ _ Hn Hk Hs) as (s' & -> & Hs0 & Hn').
      rewrite thrown_mod in Ht. exists s'. split; [done|]. split; [done|]. by econstructor.
  Qed.

  Lemma w_leak_push ns k hist s m a t b v :
    NoDup ns -> c_null c ∉ ns -> swexec_thrown c M (sinit c ns) k hist s m -> hist_ok hist ->
    quiescent s -> scontents c s a -> length a + k < size (s_heap (s_sh s)) ->
    exists j s', srun c s (Invoke t (SPush b v) :: replicate j (Run t false None false)) =
        Some ([Lin.Inv t (SPush b v); Res t (SBool true)], s') /\
      quiescent s' /\ scontents c s' (v :: a).
  Proof using Hc HM.
    intros Hnd Hnn Hw Hok Hq Ha Hlt. rewrite (sinit_mod c M ltac:(lia)) in Hw.
    destruct (sim_thrown _ _ _ _ _ Hw) as (s0 & -> & _ & He).
    apply quiescent_mod in Hq. apply contents_mod in Ha. rewrite heap_size in Hlt.
    destruct (leak_push c0 eq_refl ns k hist s0 a t b v Hnd Hnn He Hok Hq Ha Hlt) as (j & s' & Hr & Hq' & Ha').
    exists j, (mstate M s'). split; [|split].
    - apply (mod_run c M Hc HM s0 s' _ _ t); [apply solo_call|done|exact Hr].
    - by apply quiescent_mod.
    - by apply contents_mod.
  Qed.

  Lemma w_leak_dtor ns k hist s m a :
    NoDup ns -> c_null c ∉ ns -> swexec_thrown c M (sinit c ns) k hist s m -> hist_ok hist ->
    quiescent s -> scontents c s a ->
    exists l, sdtor c (s_sh s) = Some (a, l) /\ NoDup l /\
      (forall n, n ∈ l -> is_Some (s_heap (s_sh s) !! n)) /\ size (s_heap (s_sh s)) <= length l + k.
  Proof using Hc HM.
    intros Hnd Hnn Hw Hok Hq Ha. rewrite (sinit_mod c M ltac:(lia)) in Hw.
    destruct (sim_thrown _ _ _ _ _ Hw) as (s0 & -> & _ & He).
    apply quiescent_mod in Hq. apply contents_mod in Ha. rewrite heap_size.
    destruct (leak_dtor c0 eq_refl ns k hist s0 a Hnd Hnn He Hok Hq Ha) as (l & H1 & H2 & H3 & H4).
    exists l. split; [|split; [done|split; [|done]]].
    - change (s_sh (mstate M s0)) with (mshared M (s_sh s0)). by rewrite (sdtor_mod c M Hc HM).
    - intros n Hn. by apply heap_is_Some, H3.
  Qed.
End wrap.
