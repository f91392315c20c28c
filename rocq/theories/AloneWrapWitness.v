(** * Concrete executions used as witnesses in PropAloneWrap.v: tags modulo 600
    that have wrapped around *)
From stdpp Require Import gmap list numbers.
From Verif Require Import Lin LiveSum PoolModel LiveWitness AloneWitness WrapWitness WrapMainWitness.
From Verif Require QueueModel QueueObs QueueDemo QueueWitness QueueLive QueueWrapObs.
From Verif Require StackModel StackObs StackDemo StackWitness StackLive StackWrapObs.

Section queue.
  Import QueueModel QueueObs QueueDemo QueueWitness QueueLive QueueWrapObs.

  (** Calls begun in the last [n] steps have seen at most [n] updates of a tag. *)
  Lemma qrun_at c b ns chs : forall hist s k n h s',
    qwat c b ns hist s k -> (forall t l, is_Some (q_pcs s !! t) -> k t l <= n) ->
    (N.of_nat (n + length chs) < b)%N -> qrun c s chs = Some (h, s') ->
    exists k', qwat c b ns (hist ++ h) s' k' /\ forall t l, is_Some (q_pcs s' !! t) -> k' t l <= n + length chs.
  Proof.
    induction chs as [|ch chs IH]; intros hist s k n h s' Hat Hk Hb Hr; cbn [qrun length] in *.
    - injection Hr as <- <-. exists k. rewrite app_nil_r, Nat.add_0_r. done.
    - destruct (qstep c s ch) as [s1 evs| |] eqn:Hs; [|discriminate Hr..].
      destruct (qrun c s1 chs) as [[h1 s2]|] eqn:Hr1; [|discriminate Hr]. injection Hr as <- <-.
      assert (Hk1 : forall t l, is_Some (q_pcs s1 !! t) -> qcount k s ch s1 t l <= S n).
      { intros t l Ht. unfold qcount.
        assert (Hx : is_Some (q_pcs s !! t) \/ (exists o tf, ch = Invoke t o tf) \/ q_pcs s1 = ∅).
        { destruct ch as [t' o tf|t' sp ad th|t' o ads th]; simpl in Hs.
          - destruct (q_pcs s !! t') eqn:E; [discriminate Hs|].
            destruct (decide (t' = t)) as [->|Hne]; [by eauto|].
            destruct (qstart c o tf); [|discriminate Hs]. injection Hs as <- _. simpl in Ht.
            rewrite lookup_insert_ne in Ht by done. by left.
          - left. destruct (decide (t' = t)) as [->|Hne]; [destruct (q_pcs s !! t); [by eauto|discriminate Hs]|].
            destruct (q_pcs s !! t') as [pc|] eqn:E; [|discriminate Hs].
            assert (Hd : q_pcs s1 = delete t' (q_pcs s) \/ exists pc', q_pcs s1 = <[t' := pc']> (q_pcs s)).
            { destruct pc; try (destruct (tstep c (q_sh s) _ _ _ _); [injection Hs as <- _; by eauto|discriminate Hs..]).
              injection Hs as <- _. by left. }
            destruct Hd as [Hd|[pc' Hd]]; rewrite Hd in Ht;
              [rewrite lookup_delete_ne in Ht by done|rewrite lookup_insert_ne in Ht by done]; done.
          - right; right. destruct (decide (q_pcs s = ∅)); [|discriminate Hs].
            destruct (ucall c (q_sh s) o ads th); [|discriminate Hs..]. by injection Hs as <- _. }
        destruct Hx as [Hx|[(o & tf & ->)|Hx]].
        - specialize (Hk t l Hx). destruct ch; repeat destruct (decide _); lia.
        - destruct (decide (t = t)); [lia|done].
        - rewrite Hx, lookup_empty in Ht. by destruct Ht. }
      destruct (IH (hist ++ evs) s1 (qcount k s ch s1) (S n) h1 s2) as (k' & Hat' & Hk'); [|done|lia|done|].
      { destruct Hat as (a & s0 & H1 & H2 & H3 & H4 & H5). exists a, s0. do 4 (split; [done|]).
        econstructor; [done|done|]. intros t l Ht. specialize (Hk1 t l Ht). lia. }
      exists k'. rewrite <- app_assoc in Hat'. split; [done|]. intros t l Ht. specialize (Hk' t l Ht). lia.
  Qed.

  Definition qc6 : cfg := Cfg 0%N true (Some 600%N) false 2.
  Definition qwarm : list qchoice := mjoin (replicate 650 (whole 0 (Push true v1) 13 ++ whole 0 Pop 11)).
  Definition qwarmhist : list qevent :=
    mjoin (replicate 650 [Inv 0 (Push true v1); Res 0 (RBool true); Inv 0 Pop; Res 0 (RPop (Some v1))]).

  Definition qw6show : option (list qevent * N * nat * (list qevent * nat * nat * list nat) * (list qevent * nat)) :=
    match qwfrom qc6 600 qpool qwarm with
    | Some (h, s) =>
        match qrun qc6 s qpre with
        | Some (h1, s1) =>
            match qrun qc6 s1 (replicate 9 (Run 2 false None false)) with
            | Some (h2, s2) =>
                Some (h, qtag s LHead, size (q_pcs s),
                      (h1, size (q_pcs s1), msum q_work (q_pcs s1), (map_to_list (q_pcs s1)).*1), (h2, size (q_pcs s2)))
            | None => None
            end
        | None => None
        end
    | None => None
    end.

  Lemma qalone6_demo : exists s k s',
    qwat qc6 600 qpool (qwarmhist ++ qprehist) s k /\
    (forall t, t ∈ [2; 3; 1] <-> is_Some (q_pcs s !! t)) /\
    (forall t l, is_Some (q_pcs s !! t) ->
       (N.of_nat (k t l + S (q_bound qc6 (size (q_pcs s)) (msum q_work (q_pcs s)))) < 600)%N) /\
    qrun qc6 s (replicate 9 (Run 2 false None false)) = Some ([Res 2 (RPop (Some v1))], s').
  Proof.
    assert (H : qw6show = Some (qwarmhist, 50%N, 0, (qprehist, 3, 5, [1; 3; 2]), ([Res 2 (RPop (Some v1))], 2)))
      by (vm_compute; reflexivity).
    assert (Hb : (N.of_nat (30 + S (q_bound qc6 3 5)) < 600)%N) by (vm_compute; reflexivity).
    assert (Hl : length qpre = 30) by reflexivity.
    unfold qw6show in H. destruct (qwfrom qc6 600 qpool qwarm) as [[h s]|] eqn:Hq; [|discriminate H].
    destruct (qrun qc6 s qpre) as [[h1 s1]|] eqn:Hr; [|discriminate H].
    destruct (qrun qc6 s1 _) as [[h2 s2]|] eqn:Hr2; [|discriminate H].
    injection H as -> _ Hz -> H3 H4 H5 -> _. apply map_size_empty_inv in Hz.
    destruct (qwfrom_at _ _ _ _ _ _ Hq (proj1 qpool_ok) (proj2 qpool_ok) ltac:(discriminate)) as [k Hk].
    destruct (qrun_at qc6 600 qpool qpre qwarmhist s k 0 qprehist s1 Hk) as (k' & Hk' & Hle);
      [|rewrite Hl; reflexivity|exact Hr|].
    { intros t l Ht. rewrite Hz, lookup_empty in Ht. by destruct Ht. }
    exists s1, k', s2. split; [exact Hk'|].
    split; [eapply exact_keys; [exact H5|vm_compute; reflexivity]|].
    split; [|exact Hr2]. intros t l Ht. specialize (Hle t l Ht). rewrite Hl in Hle. rewrite H3, H4. lia.
  Qed.
End queue.

Section stack.
  Import StackModel StackObs StackDemo StackWitness StackLive StackWrapObs.

  Lemma srun_at c b ns chs : forall hist s k n h s',
    swat c b ns hist s k -> (forall t l, is_Some (s_pcs s !! t) -> k t l <= n) ->
    (N.of_nat (n + length chs) < b)%N -> srun c s chs = Some (h, s') -> hist_ok h ->
    exists k', swat c b ns (hist ++ h) s' k' /\ forall t l, is_Some (s_pcs s' !! t) -> k' t l <= n + length chs.
  Proof.
    induction chs as [|ch chs IH]; intros hist s k n h s' Hat Hk Hb Hr Hok; cbn [srun length] in *.
    - injection Hr as <- <-. exists k. rewrite app_nil_r, Nat.add_0_r. done.
    - destruct (sstep c s ch) as [s1 evs| |] eqn:Hs; [|discriminate Hr..].
      destruct (srun c s1 chs) as [[h1 s2]|] eqn:Hr1; [|discriminate Hr]. injection Hr as <- <-.
      assert (Hk1 : forall t l, is_Some (s_pcs s1 !! t) -> scount k s ch s1 t l <= S n).
      { intros t l Ht. unfold scount.
        assert (Hx : is_Some (s_pcs s !! t) \/ (exists o, ch = Invoke t o) \/ s_pcs s1 = ∅).
        { destruct ch as [t' o|t' sp ad th|t' o ads th]; simpl in Hs.
          - destruct (s_pcs s !! t') eqn:E; [discriminate Hs|].
            destruct (decide (t' = t)) as [->|Hne]; [by eauto|].
            destruct (sstart c o); [|discriminate Hs]. injection Hs as <- _. simpl in Ht.
            rewrite lookup_insert_ne in Ht by done. by left.
          - left. destruct (decide (t' = t)) as [->|Hne]; [destruct (s_pcs s !! t); [by eauto|discriminate Hs]|].
            destruct (s_pcs s !! t') as [pc|] eqn:E; [|discriminate Hs].
            assert (Hd : s_pcs s1 = delete t' (s_pcs s) \/ exists pc', s_pcs s1 = <[t' := pc']> (s_pcs s)).
            { destruct pc; try (destruct (tstep c (s_sh s) _ _ _ _); [injection Hs as <- _; by eauto|discriminate Hs..]).
              injection Hs as <- _. by left. }
            destruct Hd as [Hd|[pc' Hd]]; rewrite Hd in Ht;
              [rewrite lookup_delete_ne in Ht by done|rewrite lookup_insert_ne in Ht by done]; done.
          - right; right. destruct (decide (s_pcs s = ∅)); [|discriminate Hs].
            destruct (ucall c (s_sh s) o ads th); [|discriminate Hs..]. by injection Hs as <- _. }
        destruct Hx as [Hx|[(o & ->)|Hx]].
        - specialize (Hk t l Hx). destruct ch; repeat destruct (decide _); lia.
        - destruct (decide (t = t)); [lia|done].
        - rewrite Hx, lookup_empty in Ht. by destruct Ht. }
      destruct (IH (hist ++ evs) s1 (scount k s ch s1) (S n) h1 s2) as (k' & Hat' & Hk'); [|done|lia|done| |].
      { destruct Hat as (H1 & H2 & H3 & H5). do 2 (split; [done|]). split.
        - intros t o Hi. apply elem_of_app in Hi as [Hi|Hi]; [by eapply H3|]. apply (Hok t o), elem_of_app. by left.
        - econstructor; [done|done|]. intros t l Ht. specialize (Hk1 t l Ht). lia. }
      { intros t o Hi. apply (Hok t o), elem_of_app. by right. }
      exists k'. rewrite <- app_assoc in Hat'. split; [done|]. intros t l Ht. specialize (Hk' t l Ht). lia.
  Qed.

  Definition sc6 : cfg := Cfg 0%N true (Some 600%N) false 1.
  Definition swarm : list schoice := mjoin (replicate 650 (swhole 0 (SPush true 5%N) 8 ++ swhole 0 SPop 9)).
  Definition swarmhist : list sevent :=
    mjoin (replicate 650 [Inv 0 (SPush true 5%N); Res 0 (SBool true); Inv 0 SPop; Res 0 (SGot (Some 5%N))]).

  Definition sw6show : option (list sevent * N * nat *
      (list sevent * nat * nat * nat * nat * list nat) * (list sevent * nat)) :=
    match swrun sc6 600 (sinit sc6 spool) (fun _ => 0) swarm with
    | Some (h, s) =>
        match srun sc6 s spre with
        | Some (h1, s1) =>
            match srun sc6 s1 (replicate 16 (Run 3 false None false)) with
            | Some (h2, s2) =>
                Some (h, stag s LTos, size (s_pcs s),
                      (h1, size (s_pcs s1), s_alive s1, msum s_work (s_pcs s1), msum s_elems (s_pcs s1),
                       (map_to_list (s_pcs s1)).*1), (h2, size (s_pcs s2)))
            | None => None
            end
        | None => None
        end
    | None => None
    end.

  Lemma salone6_demo : exists s k s',
    swat sc6 600 spool (swarmhist ++ sprehist) s k /\
    (forall t, t ∈ [2; 3; 1] <-> is_Some (s_pcs s !! t)) /\
    (forall t l, is_Some (s_pcs s !! t) ->
       (N.of_nat (k t l + S (s_bound (size (s_pcs s)) (2 * s_alive s + msum s_work (s_pcs s))
                                     (s_alive s + msum s_elems (s_pcs s)))) < 600)%N) /\
    srun sc6 s (replicate 16 (Run 3 false None false)) = Some ([Res 3 (SCount 2 [5; 6]%N)], s').
  Proof.
    assert (H : sw6show = Some (swarmhist, 50%N, 0, (sprehist, 3, 3, 2, 0, [1; 3; 2]),
                                ([Res 3 (SCount 2 [5; 6]%N)], 2))) by (vm_compute; reflexivity).
    assert (Hb : (N.of_nat (32 + S (s_bound 3 (2 * 3 + 2) (3 + 0))) < 600)%N) by (vm_compute; reflexivity).
    assert (Hl : length spre = 32) by reflexivity.
    assert (Hok : hist_okb sprehist = true) by (vm_compute; reflexivity).
    assert (Hokw : hist_okb swarmhist = true) by (vm_compute; reflexivity).
    unfold sw6show in H. destruct (swrun sc6 600 (sinit sc6 spool) (fun _ => 0) swarm) as [[h s]|] eqn:Hq; [|discriminate H].
    destruct (srun sc6 s spre) as [[h1 s1]|] eqn:Hr; [|discriminate H].
    destruct (srun sc6 s1 _) as [[h2 s2]|] eqn:Hr2; [|discriminate H].
    injection H as -> _ Hz -> H3 H4 H5 H6 H7 -> _. apply map_size_empty_inv in Hz.
    destruct (swrun_at _ _ _ _ _ _ Hq (proj1 spool_ok) (proj2 spool_ok) Hokw) as [k Hk].
    destruct (srun_at sc6 600 spool spre swarmhist s k 0 sprehist s1 Hk) as (k' & Hk' & Hle);
      [|rewrite Hl; reflexivity|exact Hr|by apply hist_okb_ok|].
    { intros t l Ht. rewrite Hz, lookup_empty in Ht. by destruct Ht. }
    exists s1, k', s2. split; [exact Hk'|].
    split; [eapply exact_keys; [exact H7|vm_compute; reflexivity]|].
    split; [|exact Hr2]. intros t l Ht. specialize (Hle t l Ht). rewrite Hl in Hle. rewrite H3, H4, H5, H6. lia.
  Qed.
End stack.
