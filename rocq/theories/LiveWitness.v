(** * Concrete executions used as witnesses in PropLive.v *)
From stdpp Require Import gmap list numbers.
From Verif Require Import Lin LiveSum PoolModel.
From Verif Require QueueModel QueueObs QueueDemo QueueWitness QueueLive.
From Verif Require StackModel StackObs StackDemo StackWitness StackLive.

(** Which keys a map has, computed. *)
Lemma inside_keys {A} (m : gmap nat A) (ts : list nat) :
  forallb (fun t => bool_decide (t ∈ (map_to_list m).*1)) ts = true ->
  forall t, t ∈ ts -> is_Some (m !! t).
Proof.
  rewrite forallb_forall. intros H t Ht. apply elem_of_list_In, H, bool_decide_eq_true in Ht.
  apply elem_of_list_fmap in Ht as ([t' x] & -> & Hm). apply elem_of_map_to_list in Hm. by eexists.
Qed.

(** ** Queue: thread 1 has linked its node but not moved the tail, thread 2 is in
    the middle of a pop and thread 3 begins a push. *)
Section queue.
  Import QueueModel QueueObs QueueDemo QueueWitness QueueLive.

  Definition qpre : list qchoice :=
    whole 0 (Push true v1) 13 ++ Invoke 1 (Push true v2) false :: runs 1 11 ++
    Invoke 2 Pop false :: runs 2 2 ++ [Invoke 3 (Push true v3) false].
  Definition qprehist : list qevent :=
    [Inv 0 (Push true v1); Res 0 (RBool true); Inv 1 (Push true v2); Inv 2 Pop; Inv 3 (Push true v3)].
  Definition qpool : list N := [1; 2; 3; 4]%N.

  (** Thread 2 goes on, thread 3 helps thread 1, and thread 4 begins a pop; only
      then does the first call complete. *)
  Definition qfrag : list qchoice :=
    runs 2 3 ++ runs 3 14 ++ Invoke 4 Pop false :: runs 4 6 ++ runs 1 2.

  Definition qlshow : option (list qevent * nat * nat * list nat * list qevent) :=
    match qfrom demoN qpool None qpre with
    | Some (h, s) =>
        match qrun demoN s qfrag with
        | Some (h', _) => Some (h, size (q_pcs s), msum q_work (q_pcs s), (map_to_list (q_pcs s)).*1, h')
        | None => None
        end
    | None => None
    end.

  Lemma qpool_ok : NoDup qpool /\ c_null demoN ∉ qpool.
  Proof.
    unfold qpool. split; [|set_solver]. repeat (constructor; [set_solver|]). constructor.
  Qed.

  Lemma qlive_demo : exists s s',
    qreach demoN qpool qprehist s /\ size (q_pcs s) = 3 /\ msum q_work (q_pcs s) = 5 /\
    (forall t, t ∈ [1; 2; 3] -> is_Some (q_pcs s !! t)) /\
    Forall q_fair qfrag /\ length qfrag = 26 /\
    qrun demoN s qfrag = Some ([Inv 4 Pop; Res 1 (RBool true)], s').
  Proof.
    assert (H : qlshow = Some (qprehist, 3, 5, [1; 3; 2], [Inv 4 Pop; Res 1 (RBool true)])) by (vm_compute; reflexivity).
    unfold qlshow in H. destruct (qfrom demoN qpool None qpre) as [[h s]|] eqn:Hq; [|discriminate H].
    destruct (qrun demoN s qfrag) as [[h' s']|] eqn:Hr; [|discriminate H].
    injection H as -> H2 H3 Hd ->. exists s, s'.
    split; [|split; [exact H2|]; split; [exact H3|]; split; [by apply inside_keys; rewrite Hd|];
      split; [|split; [reflexivity|exact Hr]]].
    - eapply qfrom_reach; [exact Hq|apply qpool_ok|apply qpool_ok|by left].
    - cbv [qfrag runs replicate app]. repeat (constructor; [reflexivity || exact I|]). constructor.
  Qed.
End queue.

(** ** Stack: thread 1 is about to put its element on top, thread 2 is in the
    middle of a pop, thread 3 has taken all elements and is reversing them. *)
Section stack.
  Import StackModel StackObs StackDemo StackWitness StackLive.

  Definition spre : list schoice :=
    swhole 0 (SPush true 5%N) 8 ++ swhole 0 (SPush true 6%N) 8 ++ Invoke 1 (SPush true 7%N) :: sruns 1 6 ++
    Invoke 2 SPop :: sruns 2 2 ++ Invoke 3 (SAll true) :: sruns 3 3.
  Definition sprehist : list sevent :=
    [Inv 0 (SPush true 5%N); Res 0 (SBool true); Inv 0 (SPush true 6%N); Res 0 (SBool true);
     Inv 1 (SPush true 7%N); Inv 2 SPop; Inv 3 (SAll true)].
  Definition spool : list N := [1; 2; 3; 4]%N.

  (** Thread 1 has to try again and thread 2 finds the stack empty.  Thread 3 shows the two elements to the
      functor and gives their nodes back, and is the first one to complete. *)
  Definition sfrag : list schoice :=
    sruns 1 1 ++ sruns 2 1 ++ sruns 3 15 ++ Invoke 4 (SPush true 8%N) :: sruns 4 3 ++ sruns 3 1.

  Definition slshow : option (list sevent * nat * nat * nat * nat * list nat * list sevent) :=
    match srun sdemoN (sinit sdemoN spool) spre with
    | Some (h, s) =>
        match srun sdemoN s sfrag with
        | Some (h', _) =>
            Some (h, size (s_pcs s), s_alive s, msum s_work (s_pcs s), msum s_elems (s_pcs s),
                  (map_to_list (s_pcs s)).*1, h')
        | None => None
        end
    | None => None
    end.

  Lemma spool_ok : pool_ok sdemoN spool.
  Proof. unfold spool. pool_tac. Qed.

  Lemma slive_demo : exists s s',
    sreach sdemoN spool sprehist s /\ size (s_pcs s) = 3 /\ s_alive s = 3 /\
    msum s_work (s_pcs s) = 2 /\ msum s_elems (s_pcs s) = 0 /\
    (forall t, t ∈ [1; 2; 3] -> is_Some (s_pcs s !! t)) /\
    Forall s_fair sfrag /\ length sfrag = 22 /\
    srun sdemoN s sfrag = Some ([Inv 4 (SPush true 8%N); Res 3 (SCount 2 [5; 6]%N)], s').
  Proof.
    assert (H : slshow = Some (sprehist, 3, 3, 2, 0, [1; 3; 2], [Inv 4 (SPush true 8%N); Res 3 (SCount 2 [5; 6]%N)]))
      by (vm_compute; reflexivity).
    assert (Hok : hist_okb sprehist = true) by (vm_compute; reflexivity).
    unfold slshow in H. destruct (srun sdemoN (sinit sdemoN spool) spre) as [[h s]|] eqn:Hq; [|discriminate H].
    destruct (srun sdemoN s sfrag) as [[h' s']|] eqn:Hr; [|discriminate H].
    injection H as -> H2 H3 H4 H5 Hd ->. exists s, s'.
    split; [eapply srun_reach; [exact Hq|exact spool_ok|exact Hok]|].
    split; [exact H2|]. split; [exact H3|]. split; [exact H4|]. split; [exact H5|].
    split; [by apply inside_keys; rewrite Hd|].
    split; [|split; [reflexivity|exact Hr]].
    cbv [sfrag sruns replicate app]. repeat (constructor; [first [exact I|reflexivity|split; done]|]). constructor.
  Qed.
End stack.
