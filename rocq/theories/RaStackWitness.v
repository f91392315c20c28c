(** * Concrete executions used as witnesses in PropRaStack.v *)
From stdpp Require Import gmap list numbers.
From Verif Require Import Lin PoolModel StackModel StackSpec StackObs StackDemo StackWitness RaMem RaLin RaStackModel RaStackObs
  RaStackDemo.

Lemma rdemo1 : exists tr s, rreach sdemoN true [1; 2; 3]%N tr s /\ tr.*1 = rhist1.
Proof.
  destruct (rshow_reach sdemoN true [1; 2; 3]%N rsched1 (fun _ _ => tt) rhist1 tt) as (tr & s & H1 & H2 & _);
    [vm_compute; reflexivity|pool_tac|].
  exists tr, s. auto.
Qed.

(** Thread 1 pops after thread 0 has pushed, and does not see it. *)
Definition rsched2 : list rdo := dwhole 0 (SPush true 5%N) 8 ++ DCall 1 SPop :: DStep 1 1 :: dsteps 1 1.
Definition rhist2 : list sevent :=
  [Inv 0 (SPush true 5%N); Res 0 (SBool true); Inv 1 SPop; Res 1 (SGot None)].

Lemma rhist2_not_lin : ~ hw_linearizable [] (sspec true false) rhist2.
Proof.
  intros (S & b & Hnd & Hcalls & Hcomp & Htime & Hleg).
  assert (H0 : (0, SPush true 5%N, SBool true) ∈ S).
  { apply (Hcomp 0 1 0). split; [done|]. split; [lia|]. split; [done|]. intros k e Hk. lia. }
  assert (H2 : (2, SPop, SGot None) ∈ S).
  { apply (Hcomp 2 3 1). split; [done|]. split; [lia|]. split; [done|]. intros k e Hk. lia. }
  assert (Hin : forall i o r, (i, o, r) ∈ S -> i = 0 \/ i = 2).
  { intros i o r Hin. destruct (Hcalls i o r Hin) as [t Ht].
    destruct i as [|[|[|[|i]]]]; simpl in Ht; try done; auto. }
  assert (Hone : forall i o r o' r', (i, o, r) ∈ S -> (i, o', r') ∈ S -> (o, r) = (o', r')).
  { clear -Hnd. induction S as [|[[i0 o0] r0] S IH]; intros i o r o' r' Ha Hb; [by apply elem_of_nil in Ha|].
    simpl in Hnd. apply list.NoDup_cons in Hnd as [Hni Hnd]. apply elem_of_cons in Ha. apply elem_of_cons in Hb.
    assert (Hx : forall o r, (i0, o, r) ∈ S -> False).
    { intros o1 r1 H1. apply Hni. rewrite <- list_fmap_compose. apply elem_of_list_fmap. by exists (i0, o1, r1). }
    destruct Ha as [Ha|Ha], Hb as [Hb|Hb].
    - congruence.
    - injection Ha as -> -> ->. by destruct (Hx _ _ Hb).
    - injection Hb as -> -> ->. by destruct (Hx _ _ Ha).
    - by eapply IH. }
  (* the push cannot come after the pop *)
  apply elem_of_list_split in H2 as (S1 & S3 & E).
  assert (H0' : (0, SPush true 5%N, SBool true) ∈ S1).
  { rewrite E in H0. apply elem_of_app in H0 as [H0|H0]; [done|]. apply elem_of_cons in H0 as [H0|H0]; [done|].
    apply elem_of_list_split in H0 as (S4 & S5 & E').
    assert (2 <= 1); [|lia].
    apply (Htime S1 (2, SPop, SGot None) S4 (0, SPush true 5%N, SBool true) S5 0 1 0 (SPush true 5%N) (SBool true)).
    - by rewrite E, E'.
    - done.
    - split; [done|]. split; [lia|]. split; [done|]. intros k e Hk. lia. }
  apply elem_of_list_split in H0' as (S4 & S5 & ->).
  (* nothing else is in the order *)
  assert (S4 = [] /\ S5 = []) as [-> ->].
  { assert (Hx : forall i o r, (i, o, r) ∈ S4 \/ (i, o, r) ∈ S5 -> False).
    { intros i o r Hi. rewrite E in Hnd. rewrite !fmap_app in Hnd. simpl in Hnd. rewrite <- !app_assoc in Hnd. simpl in Hnd.
      apply NoDup_app in Hnd as (_ & Hd1 & Hnd). apply list.NoDup_cons in Hnd as [Hd2 Hnd].
      apply NoDup_app in Hnd as (_ & Hd3 & _).
      assert (Hi' : i = 0 \/ i = 2).
      { apply (Hin i o r). rewrite E, <- app_assoc. set_solver. }
      assert (Hf : forall T : list (nat * sop * sret), (i, o, r) ∈ T -> i ∈ T.*1.*1).
      { intros T HT. rewrite <- list_fmap_compose. apply elem_of_list_fmap. by exists (i, o, r). }
      destruct Hi as [Hi|Hi]; apply Hf in Hi.
      - apply (Hd1 i Hi). destruct Hi' as [ -> | -> ]; set_solver.
      - destruct Hi' as [ -> | -> ]; [|apply (Hd3 2 Hi); set_solver]. apply Hd2. set_solver. }
    split.
    - destruct S4 as [|[[i o] r] S4]; [done|]. destruct (Hx i o r). left. left.
    - destruct S5 as [|[[i o] r] S5]; [done|]. destruct (Hx i o r). right. left. }
  rewrite E in Hleg. simpl in Hleg.
  inversion Hleg as [|? ? ? ? a1 ? ? Hs1 Hl1]; subst. inversion Hs1; subst.
  inversion Hl1 as [|? ? ? ? a2 ? ? Hs2 Hl2]; subst. inversion Hs2.
Qed.

Lemma rdemo_real_time :
  exists tr s, rreach sdemoN true [1; 2; 3]%N tr s /\ ~ hw_linearizable [] (sspec true false) tr.*1.
Proof.
  destruct (rshow_reach sdemoN true [1; 2; 3]%N rsched2 (fun _ _ => tt) rhist2 tt) as (tr & s & H1 & H2 & _);
    [vm_compute; reflexivity|pool_tac|].
  exists tr, s. split; [done|]. rewrite H2. apply rhist2_not_lin.
Qed.

(** With relaxed loads thread 1 takes the top node's link from the time when the
    node was in the pool. *)
Definition rsched3 : list rdo :=
  dwhole 0 (SPush true 5%N) 8 ++ DCall 1 SPop :: DStep 1 0 :: DStep 1 1 :: dsteps 1 7 ++ DCall 1 SPop :: dsteps 1 3.
Lemma rdemo_relaxed :
  exists tr s ch, rreach sdemoN false [1; 2; 3]%N tr s /\ rch_ok ch /\ rstep sdemoN false s ch = RUB.
Proof.
  destruct (rshow_reach sdemoN false [1; 2; 3]%N rsched3
      (fun _ s => match rstep sdemoN false s (RRun 1 0 false None) with RUB => true | _ => false end)
      [Inv 0 (SPush true 5%N); Res 0 (SBool true); Inv 1 SPop; Res 1 (SGot (Some 5%N)); Inv 1 SPop] true)
    as (tr & s & H1 & _ & H3);
    [vm_compute; reflexivity|pool_tac|].
  exists tr, s, (RRun 1 0 false None). split; [done|]. split; [done|].
  by destruct (rstep sdemoN false s (RRun 1 0 false None)).
Qed.

(** Thread 1 is about to read the link of a node that thread 2 has meanwhile
    returned to the pool. *)
Definition rsched4 : list rdo :=
  dwhole 0 (SPush true 5%N) 8 ++ DCall 1 SPop :: DStep 1 0 :: dwhole 2 SPop 9.
Lemma rdemo_link_race :
  exists tr s pc n, rreach sdemoN true [1; 2; 3]%N tr s /\ r_pcs s !! 1 = Some pc /\
    saccess sdemoN true pc = XRead n /\ r_view s 1 (LNext n) < length (w_next (r_w s) n).
Proof.
  destruct (rshow_reach sdemoN true [1; 2; 3]%N rsched4
      (fun _ s => match r_pcs s !! 1 with
                  | Some (PcCNext old) => bool_decide (r_view s 1 (LNext old.1) < length (w_next (r_w s) old.1))
                  | _ => false
                  end)
      [Inv 0 (SPush true 5%N); Res 0 (SBool true); Inv 1 SPop; Inv 2 SPop; Res 2 (SGot (Some 5%N))] true)
    as (tr & s & H1 & _ & H3);
    [vm_compute; reflexivity|pool_tac|].
  destruct (r_pcs s !! 1) as [pc|] eqn:Hpc; [|done]. destruct pc; try done.
  eexists tr, s, _, _. split; [done|]. split; [done|]. split; [reflexivity|]. by apply bool_decide_eq_true in H3.
Qed.

Lemma rdemo_transfer :
  exists tr s e W, rreach sdemoN true [1; 2; 3]%N tr s /\ call_returns tr.*1 4 9 1 SPop (SGot (Some 7%N)) /\
    tr !! 9 = Some (e, W).
Proof.
  destruct rdemo1 as (tr & s & H & E). destruct (lookup_lt_is_Some_2 tr 9) as [[e W] HW].
  { rewrite <- (fmap_length fst), E. simpl. lia. }
  exists tr, s, e, W. split; [done|]. split; [|done]. rewrite E. split; [done|]. split; [lia|]. split; [done|].
  intros k e' Hk. do 10 (destruct k as [|k]; [try lia; simpl; intros [= <-]; simpl; lia|]). lia.
Qed.
