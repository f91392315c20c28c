(** * The queue: exceptions with wrapping tags *)
From stdpp Require Import gmap list numbers.
From Verif Require Import Lin PoolModel QueueModel QueueSpec QueueObs QueueWrapObs WrapPool QueueWrap
  QueueWrapMain QueueLeakSpec QueueLeak.

Set Default Proof Using "Type".

Section wrap.
  Context (c : cfg) (M : N) (Hc : c_tagmod c = Some M) (HM : (2 <= M)%N).
  Notation c0 := (nowrap c).

  Lemma thrown_mod s ch : thrown (mstate M s) ch = thrown s ch.
  Proof.
    destruct ch as [t o tf|t sp addr thr|t o addrs thr]; [done| |done]. destruct thr; [|done]. simpl.
    rewrite lookup_fmap. by destruct (q_pcs s !! t) as [[]|].
  Qed.

  Lemma wthrown_exec s0 j hist s m : qwexec_thrown c M s0 j hist s m -> qwexec c M s0 hist s m.
  Proof. induction 1; [constructor|by econstructor]. Qed.

  Lemma sim_thrown ns j hist s1 s0 m addr :
    NoDup ns -> c_null c ∉ ns -> (ns <> [] \/ c_node_based c = true) ->
    qinit c0 ns addr = Some s0 -> qwexec_thrown c M (mstate M s0) j hist s1 m ->
    exists s, s1 = mstate M s /\ near s m /\ qexec_thrown c0 s0 j hist s.
  Proof using Hc HM.
    intros Hnd Hnn Hne Hi Hw. induction Hw as [|j hist s1 m ch s1' evs Hw IH Hs Hb].
    - exists s0. split; [done|]. split; [|by constructor]. intros t pc l y Hpc. exfalso.
      assert (q_pcs s0 = ∅) as H0; [|by rewrite H0, lookup_empty in Hpc].
      unfold qinit in Hi. destruct (pool_init c0 (qd0 c0) ns) as [h p].
      destruct (alloc_unsafe c0 (qd0 c0) false h p addr) as [?|h1 p' n| | | |]; try done.
      + destruct (h1 !! n); [|done]. by injection Hi as <-.
      + by injection Hi as <-.
    - destruct IH as (s & -> & Hn & He). pose proof (wthrown_exec _ _ _ _ _ Hw) as Hw'.
      destruct (sim c M Hc HM _ _ _ _ _ _ Hnd Hnn Hne Hi Hw') as (Hk & _).
      assert (qreach c0 ns hist s) as Hre.
      { exists addr, s0. do 4 (split; [done|]). by eapply thrown_exec. }
      destruct (sim_step c M Hc HM _ _ _ _ _ _ _ Hre Hn Hk Hs) as (s' & -> & Hs0 & _ & Hn').
      rewrite thrown_mod. exists s'. split; [done|]. split; [done|]. by econstructor.
  Qed.

  Lemma wreach_thrown ns k hist s1 :
    qwreach_thrown c M ns k hist s1 -> exists s, s1 = mstate M s /\ qreach_thrown c0 ns k hist s.
  Proof using Hc HM.
    intros (addr & s0 & m & Hnd & Hnn & Hne & Hi & Hw).
    rewrite (qinit_mod c M Hc ltac:(lia)) in Hi. apply fmap_Some in Hi as (s00 & Hi & ->).
    destruct (sim_thrown _ _ _ _ _ _ _ Hnd Hnn Hne Hi Hw) as (s & -> & _ & He). exists s. split; [done|].
    exists addr, s00. by do 4 (split; [done|]).
  Qed.

  Lemma w_leak_push ns k hist s a t b v tf :
    qwreach_thrown c M ns k hist s -> quiescent s -> qcontents c s a -> length v = c_words c ->
    S (length a) + k < size (q_heap (q_sh s)) ->
    exists j s', qrun c s (Invoke t (Push b v) tf :: replicate j (Run t false None false)) =
        Some ([Lin.Inv t (Push b v); Res t (RBool true)], s') /\
      quiescent s' /\ qcontents c s' (a ++ [v]).
  Proof using Hc HM.
    intros H Hq Ha Hv Hlt. destruct (wreach_thrown _ _ _ _ H) as (s0 & -> & Hre).
    apply quiescent_mod in Hq. apply contents_mod in Ha. rewrite heap_size in Hlt.
    destruct (leak_push c0 eq_refl ns k hist s0 a t b v tf Hre Hq Ha Hv Hlt) as (j & s' & Hr & Hq' & Ha').
    exists j, (mstate M s'). split; [|split].
    - apply (mod_run c M Hc HM s0 s' _ _ t); [apply solo_call|done|exact Hr].
    - by apply quiescent_mod.
    - by apply contents_mod.
  Qed.

  Lemma w_leak_dtor ns k hist s :
    qwreach_thrown c M ns k hist s -> quiescent s ->
    exists l, qdtor c (q_sh s) = Some l /\ NoDup l /\
      (forall n, n ∈ l -> is_Some (q_heap (q_sh s) !! n)) /\ size (q_heap (q_sh s)) <= length l + k.
  Proof using Hc HM.
    intros H Hq. destruct (wreach_thrown _ _ _ _ H) as (s0 & -> & Hre).
    apply quiescent_mod in Hq. rewrite heap_size.
    destruct (leak_dtor c0 eq_refl ns k hist s0 Hre Hq) as (l & H1 & H2 & H3 & H4).
    exists l. split; [|split; [done|split; [|done]]].
    - change (q_sh (mstate M s0)) with (mshared M (q_sh s0)). by rewrite (qdtor_mod c M Hc HM).
    - intros n Hn. by apply heap_is_Some, H3.
  Qed.
End wrap.
