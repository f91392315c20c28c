From stdpp Require Import gmap list numbers.
From Verif Require Import Lin PoolModel QueueModel QueueSpec QueueObs QueueWrapObs WrapPool QueueWrap
  QueueWrapMain QueuePeak QueuePeakProofs.

Set Default Proof Using "Type".

Section wrap.
  Context (c : cfg) (M : N) (Hc : c_tagmod c = Some M) (HM : (2 <= M)%N).
  Notation c0 := (nowrap c).

  Lemma wall_exec P s0 hist s k : qwexec_all c M P s0 hist s k -> P s /\ qwexec c M s0 hist s k.
  Proof. induction 1 as [|hist s k ch s' evs He [_ IH]]; split; try done; [constructor|by econstructor]. Qed.

  Lemma sim_all P ns hist s1 s0 k addr :
    NoDup ns -> c_null c ∉ ns -> (ns <> [] \/ c_node_based c = true) ->
    qinit c0 ns addr = Some s0 -> qwexec_all c M P (mstate M s0) hist s1 k ->
    exists s, s1 = mstate M s /\ near s k /\ qexec_all c0 (fun s => P (mstate M s)) s0 hist s.
  Proof using Hc HM.
    intros Hnd Hnn Hne Hi Hw. induction Hw as [HP|hist s1 k ch s1' evs Hw IH Hs Hb HP].
    - exists s0. split; [done|]. split; [|by constructor]. intros t pc l y Hpc. exfalso.
      assert (q_pcs s0 = ∅) as H0; [|by rewrite H0, lookup_empty in Hpc].
      unfold qinit in Hi. destruct (pool_init c0 (qd0 c0) ns) as [h p].
      destruct (alloc_unsafe c0 (qd0 c0) false h p addr) as [?|h1 p' n| | | |]; try done.
      + destruct (h1 !! n); [|done]. by injection Hi as <-.
      + by injection Hi as <-.
    - destruct IH as (s & -> & Hn & He). destruct (wall_exec _ _ _ _ _ Hw) as [_ Hw'].
      destruct (sim c M Hc HM _ _ _ _ _ _ Hnd Hnn Hne Hi Hw') as (Hk & _).
      assert (qreach c0 ns hist s) as Hre.
      { exists addr, s0. do 4 (split; [done|]). by eapply all_exec. }
      destruct (sim_step c M Hc HM _ _ _ _ _ _ _ Hre Hn Hk Hs) as (s' & -> & Hs0 & _ & Hn').
      exists s'. split; [done|]. split; [done|]. by econstructor.
  Qed.

  Lemma all_mono (P P' : qstate -> Prop) s0 hist s :
    (forall s, P s -> P' s) -> qexec_all c0 P s0 hist s -> qexec_all c0 P' s0 hist s.
  Proof. intros HP. induction 1; [constructor; auto|econstructor; eauto]. Qed.

  Lemma queue_peak_wrap ns addr s0 B hist s k :
    c_throws c = false -> NoDup ns -> c_null c ∉ ns -> ns <> [] \/ c_node_based c = true ->
    qinit c ns addr = Some s0 -> qwexec_all c M (qneeds c B) s0 hist s k ->
    size (q_heap (q_sh s)) <= length ns `max` B + qreserved hist.
  Proof using Hc HM.
    intros Hth Hnd Hnn Hne Hi Hw.
    rewrite (qinit_mod c M Hc ltac:(lia)) in Hi. apply fmap_Some in Hi as (s00 & Hi & ->).
    destruct (sim_all _ _ _ _ _ _ _ Hnd Hnn Hne Hi Hw) as (s' & -> & _ & He). rewrite heap_size.
    eapply (queue_peak c0 eq_refl); [done..|exact Hi|].
    eapply all_mono; [|exact He]. intros s1 (a & Ha & HB). exists a. split; [by apply (contents_mod c M)|].
    simpl in HB. by rewrite map_size_fmap in HB.
  Qed.
End wrap.
