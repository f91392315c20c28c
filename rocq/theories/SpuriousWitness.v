(** * Concrete executions used as witnesses in PropSpurious.v *)
From stdpp Require Import gmap list numbers.
From Verif Require Import Lin LiveSum PoolModel WrapWitness LiveWitness WrapMainWitness.
From Verif Require QueueModel QueueObs QueueDemo QueueWitness QueueLive QueueSpurious QueueWrapObs.
From Verif Require StackModel StackObs StackDemo StackWitness StackLive StackSpurious StackWrapObs.

Section queue.
  Import QueueModel QueueObs QueueDemo QueueWitness QueueLive QueueSpurious QueueWrapObs.

  (** [k] steps of [t] whose weak compare-exchanges all fail spuriously. *)
  Definition fruns (t k : nat) : list qchoice := replicate k (Run t true None false).

  (** Thread 2 goes on, thread 3 cannot get a node for its push for a while and
      then links it, thread 4 begins a pop whose compare-exchanges fail. *)
  Definition qffrag : list qchoice :=
    runs 2 3 ++ fruns 3 40 ++ runs 3 5 ++ Invoke 4 Pop false :: fruns 4 30.

  Lemma qspurious_demo : exists s s',
    qreach demoN qpool qprehist s /\ Forall q_sync qffrag /\
    q_spurious qffrag = 70 /\ length qffrag = 79 /\
    qrun demoN s qffrag = Some ([Inv 4 Pop], s').
  Proof.
    assert (H : match qfrom demoN qpool None qpre with
      | Some (h, s) => match qrun demoN s qffrag with Some (h', _) => Some (h, h') | None => None end
      | None => None
      end = Some (qprehist, [Inv 4 Pop])) by (vm_compute; reflexivity).
    destruct (qfrom demoN qpool None qpre) as [[h s]|] eqn:Hq; [|discriminate H].
    destruct (qrun demoN s qffrag) as [[h' s']|] eqn:Hr; [|discriminate H].
    injection H as -> ->. exists s, s'.
    split; [eapply qfrom_reach; [exact Hq|apply qpool_ok|apply qpool_ok|by left]|].
    split; [|split; [reflexivity|split; [reflexivity|exact Hr]]].
    cbv [qffrag runs fruns replicate app]. repeat (constructor; [exact I|]). constructor.
  Qed.

  Definition qwffrag : list qchoice :=
    Invoke 1 (Push true [5%N]) false :: runs 1 10 ++ Invoke 2 Pop false :: runs 2 4 ++
    Invoke 3 (Push true [6%N]) false :: fruns 3 20 ++ Invoke 4 Pop false :: runs 4 2.

  Lemma qwspurious_demo : exists s k s', qwat qwcfg 64 [1; 2; 3]%N qwhist s k /\ Forall q_sync qwffrag /\
    qwcont qwcfg 64 s k qwffrag [Inv 1 (Push true [5%N]); Inv 2 Pop; Inv 3 (Push true [6%N]); Inv 4 Pop] s'.
  Proof.
    assert (H : match qwfrom qwcfg 64 [1; 2; 3]%N qwsched with
      | Some (h, s) => match qwrun qwcfg 64 s (fun _ => 0) qwffrag with
                       | Some (h', _) => Some (h, size (q_pcs s), h')
                       | None => None
                       end
      | None => None
      end = Some (qwhist, 0, [Inv 1 (Push true [5%N]); Inv 2 Pop; Inv 3 (Push true [6%N]); Inv 4 Pop]))
      by (vm_compute; reflexivity).
    destruct (qwfrom _ _ _ qwsched) as [[h s]|] eqn:Hq; [|discriminate H].
    destruct (qwrun qwcfg 64 s _ qwffrag) as [[h' s']|] eqn:Hr; [|discriminate H].
    injection H as -> H2 ->. apply map_size_empty_inv in H2.
    destruct (qwfrom_at _ _ _ _ _ _ Hq (proj1 qpool3) (proj2 qpool3) ltac:(discriminate)) as [k Hk].
    exists s, k, s'. split; [exact Hk|]. split.
    - cbv [qwffrag runs fruns replicate app]. repeat (constructor; [exact I|]). constructor.
    - apply (qwrun_cont _ _ _ _ (fun _ => 0)); [|exact Hr].
      intros t l Ht. rewrite H2, lookup_empty in Ht. by destruct Ht.
  Qed.
End queue.

Section stack.
  Import StackModel StackObs StackDemo StackWitness StackLive StackSpurious StackWrapObs.

  Definition sfruns (t k : nat) : list schoice := replicate k (Run t true None false).

  Definition sffrag : list schoice :=
    sfruns 1 20 ++ sruns 3 15 ++ sfruns 2 1 ++ Invoke 4 (SPush true 8%N) :: sfruns 4 20.

  Lemma sspurious_demo : exists s s',
    sreach sdemoN spool sprehist s /\ Forall s_sync sffrag /\
    s_spurious sffrag = 41 /\ length sffrag = 57 /\
    srun sdemoN s sffrag = Some ([Inv 4 (SPush true 8%N)], s').
  Proof.
    assert (H : match srun sdemoN (sinit sdemoN spool) spre with
      | Some (h, s) => match srun sdemoN s sffrag with Some (h', _) => Some (h, h') | None => None end
      | None => None
      end = Some (sprehist, [Inv 4 (SPush true 8%N)])) by (vm_compute; reflexivity).
    assert (Hok : hist_okb sprehist = true) by (vm_compute; reflexivity).
    destruct (srun sdemoN (sinit sdemoN spool) spre) as [[h s]|] eqn:Hq; [|discriminate H].
    destruct (srun sdemoN s sffrag) as [[h' s']|] eqn:Hr; [|discriminate H].
    injection H as -> ->. exists s, s'.
    split; [eapply srun_reach; [exact Hq|exact spool_ok|exact Hok]|].
    split; [|split; [reflexivity|split; [reflexivity|exact Hr]]].
    cbv [sffrag sruns sfruns replicate app]. repeat (constructor; [exact I|]). constructor.
  Qed.

  Definition swffrag : list schoice :=
    Invoke 1 (SPush true 5%N) :: sfruns 1 12 ++ Invoke 2 SPop :: sruns 2 1 ++
    Invoke 3 (SPush true 6%N) :: sruns 3 5 ++ Invoke 4 (SAll true) :: sruns 4 1.

  Lemma swspurious_demo : exists s k s', swat swcfg 32 [1; 2; 3]%N swhist s k /\ Forall s_sync swffrag /\
    swcont swcfg 32 s k swffrag [Inv 1 (SPush true 5%N); Inv 2 SPop; Inv 3 (SPush true 6%N); Inv 4 (SAll true)] s'.
  Proof.
    assert (H : match swrun swcfg 32 (sinit swcfg [1; 2; 3]%N) (fun _ => 0) swsched with
      | Some (h, s) => match swrun swcfg 32 s (fun _ => 0) swffrag with
                       | Some (h', _) => Some (h, size (s_pcs s), h', hist_okb h)
                       | None => None
                       end
      | None => None
      end = Some (swhist, 0, [Inv 1 (SPush true 5%N); Inv 2 SPop; Inv 3 (SPush true 6%N); Inv 4 (SAll true)], true))
      by (vm_compute; reflexivity).
    destruct (swrun swcfg 32 (sinit swcfg [1; 2; 3]%N) _ swsched) as [[h s]|] eqn:Hq; [|discriminate H].
    destruct (swrun swcfg 32 s _ swffrag) as [[h' s']|] eqn:Hr; [|discriminate H].
    injection H as H1 H2 H3 H4. subst h h'. apply map_size_empty_inv in H2.
    destruct (swrun_at _ _ _ _ _ _ Hq (proj1 qpool3) (proj2 qpool3) H4) as [k Hk].
    exists s, k, s'. split; [exact Hk|]. split.
    - cbv [swffrag sruns sfruns replicate app]. repeat (constructor; [exact I|]). constructor.
    - apply (swrun_cont _ _ _ _ (fun _ => 0)); [|exact Hr].
      intros t l Ht. rewrite H2, lookup_empty in Ht. by destruct Ht.
  Qed.
End stack.
