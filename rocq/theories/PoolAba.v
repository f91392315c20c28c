(** * With wrapping tags and a window of a tag period the pool hands a node out twice *)
From stdpp Require Import gmap list numbers.
From Verif Require Import Lin PoolModel PoolMachine PoolMain PoolWrapObs.

Set Default Proof Using "Type".

Section aba.
  Context (nb : bool) (M : N).
  Notation c := (Cfg 0%N nb (Some M) false 1).
  Notation nt := (next_tag c).
  Notation run := (prun c tt).

  (** Thread 1 is before its compare-exchange, with the word [(2, 0)] and the
      link [1] of node 2. *)
  Definition stalled : gmap nat ppc := {[1 := PpAlloc true (ACas (2, 0)%N 1%N)]}.

  Lemma alloc_beside h p out n nd :
    p.1 = n -> n <> 0%N -> h !! n = Some nd ->
    run (PSt h p out stalled) (pcall 2 (PAlloc true) 4) =
      Some ([Inv 2 (PAlloc true); Res 2 (PGot n)], PSt h ((nx nd).1, nt p.2) ({[n]} ∪ out) stalled).
  Proof.
    intros Hp Hn Hnd. unfold pcall, stalled. cbn [replicate prun pstep p_pcs p_heap p_pool p_out].
    rewrite lookup_singleton_ne by done.
    cbn [pstep p_pcs p_heap p_pool p_out]. rewrite lookup_insert. cbn [astep p_pcs p_heap p_pool p_out].
    rewrite lookup_insert. cbn [astep p_pcs p_heap p_pool p_out c_null]. rewrite Hp, decide_False, Hnd by done.
    cbn [p_pcs p_heap p_pool p_out]. rewrite lookup_insert. cbn [astep p_pcs p_heap p_pool p_out].
    rewrite decide_True by done. cbn [p_pcs p_heap p_pool p_out].
    rewrite lookup_insert, !insert_insert, delete_insert by by rewrite lookup_singleton_ne.
    cbn [give app]. by rewrite Hp.
  Qed.

  Lemma free_beside h p out n nd :
    n ∈ out -> h !! n = Some nd ->
    run (PSt h p out stalled) (pcall 2 (PFree n) 4) =
      Some ([Inv 2 (PFree n); Res 2 PUnit],
            PSt (<[n := Node (p.1, (nx nd).2) (dat nd)]> h) (n, p.2) (out ∖ {[n]}) stalled).
  Proof.
    intros Hn Hnd. unfold pcall, stalled. cbn [replicate prun pstep p_pcs p_heap p_pool p_out].
    rewrite lookup_singleton_ne, decide_True by done.
    cbn [pstep p_pcs p_heap p_pool p_out]. rewrite lookup_insert. cbn [dstep p_pcs p_heap p_pool p_out].
    rewrite lookup_insert. cbn [dstep p_pcs p_heap p_pool p_out]. rewrite Hnd.
    cbn [p_pcs p_heap p_pool p_out]. rewrite lookup_insert. cbn [dstep p_pcs p_heap p_pool p_out].
    rewrite decide_True by done. cbn [p_pcs p_heap p_pool p_out].
    rewrite lookup_insert, !insert_insert, delete_insert by by rewrite lookup_singleton_ne.
    by destruct p.
  Qed.

  (** Only node 2 is in the pool; thread 2 takes it and gives it back. *)
  Definition shape (s : pstate unit) (τ : N) : Prop :=
    exists h a out, s = PSt h (2%N, τ) out stalled /\ h !! 2%N = Some (Node (0%N, a) tt) /\
      h !! 1%N = Some (Node (0%N, 0%N) tt).

  Definition cyc : list pevent := [Inv 2 (PAlloc true); Res 2 (PGot 2); Inv 2 (PFree 2); Res 2 PUnit].

  Lemma cycle s τ : shape s τ -> exists chs s', run s chs = Some (cyc, s') /\ shape s' (nt τ).
  Proof.
    intros (h & a & out & -> & H2 & H1).
    pose proof (alloc_beside h (2, τ)%N out 2 _ eq_refl ltac:(done) H2) as R1. cbn [nx dat fst snd] in R1.
    pose proof (free_beside h (0%N, nt τ) ({[2%N]} ∪ out) 2 _ ltac:(set_solver) H2) as R2. cbn [nx dat fst snd] in R2.
    eexists _, _. split; [eapply (prun_app c tt _ _ _ _ _ _ _ R1 R2)|].
    eexists _, a, _. split; [reflexivity|]. by rewrite lookup_insert, lookup_insert_ne.
  Qed.

  Fixpoint iter_nt (k : nat) (τ : N) : N := match k with O => τ | S k => iter_nt k (nt τ) end.
  Lemma iter_nt_val k : forall τ, (τ < M)%N -> iter_nt k τ = ((τ + N.of_nat k) mod M)%N.
  Proof.
    induction k as [|k IH]; intros τ Hτ.
    - simpl. rewrite N.add_0_r. symmetry. by apply N.mod_small.
    - change (iter_nt (S k) τ) with (iter_nt k (nt τ)). rewrite IH.
      + unfold next_tag. simpl. rewrite N.add_mod_idemp_l by lia. f_equal. lia.
      + unfold next_tag. simpl. apply N.mod_lt. lia.
  Qed.

  Fixpoint spin (k : nat) : list pevent := match k with O => [] | S k => cyc ++ spin k end.

  Lemma spin_run k : forall s τ,
    shape s τ -> exists chs s', run s chs = Some (spin k, s') /\ shape s' (iter_nt k τ).
  Proof.
    induction k as [|k IH]; intros s τ Hs; [by exists [], s|].
    destruct (cycle _ _ Hs) as (ch1 & s1 & Hr1 & Hs1).
    destruct (IH _ _ Hs1) as (ch2 & s2 & Hr2 & Hs2).
    exists (ch1 ++ ch2), s2. split; [|exact Hs2]. by eapply prun_app.
  Qed.

  (** The pool is 2, 1.  Thread 1 begins to allocate, has read both nodes and
      stalls before its compare-exchange.  Thread 2 allocates both nodes and
      gives node 2 back, and then takes it and gives it back until the tag is
      what it was.  Thread 1 continues and makes node 1, which thread 2 holds,
      the first node of the pool.  Thread 3 allocates it. *)
  Definition paba_hist : list pevent :=
    [Inv 1 (PAlloc true)] ++
    [Inv 2 (PAlloc true); Res 2 (PGot 2)] ++
    [Inv 2 (PAlloc true); Res 2 (PGot 1)] ++
    [Inv 2 (PFree 2); Res 2 PUnit] ++
    spin (N.to_nat M - 2) ++
    [Res 1 (PGot 2)] ++
    [Inv 3 (PAlloc true); Res 3 (PGot 1)].

  Lemma paba_run : M <> 0%N -> exists chs s, run (pinit c tt [1; 2]%N) chs = Some (paba_hist, s).
  Proof.
    intros HM.
    set (h0 := <[2%N := Node (1%N, 0%N) tt]> (<[1%N := Node (0%N, 0%N) tt]> ∅) : gmap N (node unit)).
    assert (E0 : run (pinit c tt [1; 2]%N) (pcall 1 (PAlloc true) 2) =
      Some ([Inv 1 (PAlloc true)], PSt h0 (2, 0)%N ∅ stalled)).
    { unfold pcall, stalled, pinit. cbn [replicate prun pstep p_pcs p_heap p_pool p_out].
      rewrite lookup_empty. cbn [pstep p_pcs p_heap p_pool p_out]. rewrite lookup_insert.
      cbn [astep p_pcs p_heap p_pool p_out]. rewrite lookup_insert. cbn [astep p_pcs p_heap p_pool p_out].
      change (pool_init c tt [1; 2]%N) with (h0, (2, 0)%N). cbn [fst snd c_null]. rewrite decide_False by done.
      change (h0 !! 2%N) with (Some (Node (1, 0)%N tt)). cbn [nx fst]. by rewrite !insert_insert. }
    pose proof (alloc_beside h0 (2, 0)%N ∅ 2 _ eq_refl ltac:(done) eq_refl) as R1. cbn [nx dat fst snd] in R1.
    pose proof (alloc_beside h0 (1%N, nt 0) ({[2%N]} ∪ ∅) 1 _ eq_refl ltac:(done) eq_refl) as R2. cbn [nx dat fst snd] in R2.
    pose proof (free_beside h0 (0%N, nt (nt 0)) ({[1%N]} ∪ ({[2%N]} ∪ ∅)) 2 _ ltac:(set_solver) eq_refl) as R3.
    cbn [nx dat fst snd] in R3.
    match type of R3 with _ = Some (_, ?s) => set (s3 := s) in R3 end.
    assert (S3 : shape s3 (nt (nt 0))).
    { eexists _, 0%N, _. split; [reflexivity|]. by rewrite lookup_insert. }
    destruct (spin_run (N.to_nat M - 2) _ _ S3) as (ch4 & s4 & R4 & S4).
    change (iter_nt (N.to_nat M - 2) (nt (nt 0))) with (iter_nt (S (S (N.to_nat M - 2))) 0) in S4.
    rewrite iter_nt_val in S4 by lia.
    assert (E : ((0 + N.of_nat (S (S (N.to_nat M - 2)))) mod M = 0)%N).
    { destruct (decide (M = 1%N)) as [->|HM1]; [done|].
      replace (0 + N.of_nat (S (S (N.to_nat M - 2))))%N with M by lia. by apply N.mod_same. }
    rewrite E in S4. destruct S4 as (h4 & a4 & out4 & -> & H42 & H41).
    assert (R5 : run (PSt h4 (2, 0)%N out4 stalled) (replicate 2 (PRun 1 false None)) =
      Some ([Res 1 (PGot 2)], PSt h4 (1%N, nt 0) ({[2%N]} ∪ out4) ∅)).
    { unfold stalled. cbn [replicate prun pstep p_pcs p_heap p_pool p_out]. rewrite lookup_singleton.
      cbn [astep]. rewrite decide_True by done. cbn [p_pcs p_heap p_pool p_out]. rewrite lookup_insert.
      cbn [give app]. rewrite insert_singleton, delete_singleton. done. }
    pose proof (alloc_one c tt h4 (1%N, nt 0) ({[2%N]} ∪ out4) 3 1 _ eq_refl ltac:(done) H41) as R6.
    eexists _, _. unfold paba_hist.
    eapply prun_app; [exact E0|]. eapply prun_app; [exact R1|]. eapply prun_app; [exact R2|].
    eapply prun_app; [exact R3|]. eapply prun_app; [exact R4|]. eapply prun_app; [exact R5|exact R6].
  Qed.

  Lemma spin_no_free k t : Inv t (PFree 1) ∉ spin k /\ Inv t (PUFree 1) ∉ spin k.
  Proof.
    induction k as [|k [IH1 IH2]]; [split; apply not_elem_of_nil|]. cbn [spin cyc app].
    rewrite !not_elem_of_cons. done.
  Qed.

  Lemma paba_twice : handed_out_twice paba_hist 1.
  Proof.
    exists [Inv 1 (PAlloc true); Inv 2 (PAlloc true); Res 2 (PGot 2); Inv 2 (PAlloc true)], 2.
    exists ([Inv 2 (PFree 2); Res 2 PUnit] ++ spin (N.to_nat M - 2) ++ [Res 1 (PGot 2); Inv 3 (PAlloc true)]), 3, [].
    split.
    - unfold paba_hist. simpl. rewrite <- !app_assoc. done.
    - intros t. destruct (spin_no_free (N.to_nat M - 2) t) as [H1 H2].
      rewrite !elem_of_app, !elem_of_cons, !elem_of_nil. split; intros [[|[|[]]]|[|[|[|[]]]]]; congruence.
  Qed.
End aba.

Lemma paba_main M nb : M <> 0%N ->
  exists c ns hist (s : pstate unit) n,
    c_tagmod c = Some M /\ c_node_based c = nb /\ preach c tt ns hist s /\ handed_out_twice hist n.
Proof.
  intros HM. destruct (paba_run nb M HM) as (chs & s & Hr).
  exists (Cfg 0%N nb (Some M) false 1), [1; 2]%N, (paba_hist M), s, 1%N. split; [done|]. split; [done|].
  split; [|apply paba_twice]. eapply prun_reach; [exact Hr|by apply (bool_decide_unpack _)..].
Qed.
