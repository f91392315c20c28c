(** * Concrete executions used as witnesses in PropAlone.v *)
From stdpp Require Import gmap list numbers.
From Verif Require Import Lin LiveSum PoolModel LiveWitness.
From Verif Require QueueModel QueueObs QueueDemo QueueWitness QueueLive.
From Verif Require StackModel StackObs StackDemo StackWitness StackLive.

(** Exactly which keys a map has, computed. *)
Lemma exact_keys {A} (m : gmap nat A) (l ts : list nat) :
  (map_to_list m).*1 = l -> forallb (fun t => bool_decide (t ∈ ts)) l && forallb (fun t => bool_decide (t ∈ l)) ts = true ->
  forall t, t ∈ ts <-> is_Some (m !! t).
Proof.
  intros <- H t. apply andb_true_iff in H as [H1 H2]. split; [by apply inside_keys|].
  intros [x Hx]. rewrite forallb_forall in H1. apply (bool_decide_eq_true_1 (t ∈ ts)), H1, elem_of_list_In.
  apply elem_of_list_fmap. exists (t, x). split; [done|]. by apply elem_of_map_to_list.
Qed.

Section queue.
  Import QueueModel QueueObs QueueDemo QueueWitness QueueLive.

  Definition qsolo : list qchoice :=
    concat (zip_with (fun k t => replicate k (Run t false None false)) [9; 17; 2] [2; 3; 1]).
  Definition qsolores := [RPop (Some v1); RBool true; RBool true].

  Definition qsshow : option (list qevent * list nat * list qevent * nat) :=
    match qfrom demoN qpool None qpre with
    | Some (h, s) =>
        match qrun demoN s qsolo with
        | Some (h', s') => Some (h, (map_to_list (q_pcs s)).*1, h', size (q_pcs s'))
        | None => None
        end
    | None => None
    end.

  Lemma qsolo_demo : exists s s',
    qreach demoN qpool qprehist s /\ (forall t, t ∈ [2; 3; 1] <-> is_Some (q_pcs s !! t)) /\
    qrun demoN s qsolo = Some (zip_with Res [2; 3; 1] qsolores, s') /\ q_pcs s' = ∅.
  Proof.
    assert (H : qsshow = Some (qprehist, [1; 3; 2], zip_with Res [2; 3; 1] qsolores, 0)) by (vm_compute; reflexivity).
    unfold qsshow in H. destruct (qfrom demoN qpool None qpre) as [[h s]|] eqn:Hq; [|discriminate H].
    destruct (qrun demoN s qsolo) as [[h' s']|] eqn:Hr; [|discriminate H].
    injection H as -> Hd -> He. exists s, s'.
    split; [eapply qfrom_reach; [exact Hq|apply qpool_ok|apply qpool_ok|by left]|].
    split; [eapply exact_keys; [exact Hd|vm_compute; reflexivity]|].
    split; [exact Hr|]. by apply map_size_empty_iff.
  Qed.
End queue.

Section stack.
  Import StackModel StackObs StackDemo StackWitness StackLive.

  Definition ssolo : list schoice :=
    concat (zip_with (fun k t => replicate k (Run t false None false)) [2; 16; 4] [2; 3; 1]).
  Definition ssolores := [SGot None; SCount 2 [5; 6]%N; SBool true].

  Definition ssshow : option (list sevent * list nat * list sevent * nat) :=
    match srun sdemoN (sinit sdemoN spool) spre with
    | Some (h, s) =>
        match srun sdemoN s ssolo with
        | Some (h', s') => Some (h, (map_to_list (s_pcs s)).*1, h', size (s_pcs s'))
        | None => None
        end
    | None => None
    end.

  Lemma ssolo_demo : exists s s',
    sreach sdemoN spool sprehist s /\ (forall t, t ∈ [2; 3; 1] <-> is_Some (s_pcs s !! t)) /\
    srun sdemoN s ssolo = Some (zip_with Res [2; 3; 1] ssolores, s') /\ s_pcs s' = ∅.
  Proof.
    assert (H : ssshow = Some (sprehist, [1; 3; 2], zip_with Res [2; 3; 1] ssolores, 0)) by (vm_compute; reflexivity).
    assert (Hok : hist_okb sprehist = true) by (vm_compute; reflexivity).
    unfold ssshow in H. destruct (srun sdemoN (sinit sdemoN spool) spre) as [[h s]|] eqn:Hq; [|discriminate H].
    destruct (srun sdemoN s ssolo) as [[h' s']|] eqn:Hr; [|discriminate H].
    injection H as -> Hd -> He. exists s, s'.
    split; [eapply srun_reach; [exact Hq|exact spool_ok|exact Hok]|].
    split; [eapply exact_keys; [exact Hd|vm_compute; reflexivity]|].
    split; [exact Hr|]. by apply map_size_empty_iff.
  Qed.
End stack.
