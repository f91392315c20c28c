(** * Concrete executions used as witnesses in PropRaQueue.v *)
From stdpp Require Import gmap list numbers.
From Verif Require Import Lin PoolModel QueueModel QueueDemo RaMem RaLin RaQueueModel RaQueueSpec RaQueueObs
  RaQueueMain RaQueueDemo.

(** Thread 1 starts to pop, thread 2 pops, thread 1 overlooks this and reads
    the element of what is the dummy node now, fails and retries; thread 3 sees
    the initial values only. *)
Definition qsched1 : list rdo :=
  dwhole 0 (Push true [5; 6]%N) 13 ++ dwhole 0 (Push true [7; 8]%N) 13 ++
  DCall 1 Pop :: dsteps 1 3 ++ dwhole 2 Pop 11 ++ DStep 1 1 :: dsteps 1 3 ++
  dwhole 0 (Push true [1; 2]%N) 13 ++ dsteps 1 11 ++ DCall 3 Pop :: replicate 5 (DStep 3 9).
Definition qhist1 : list qevent :=
  [Inv 0 (Push true [5; 6]%N); Res 0 (RBool true); Inv 0 (Push true [7; 8]%N); Res 0 (RBool true);
   Inv 1 Pop; Inv 2 Pop; Res 2 (RPop (Some [5; 6]%N));
   Inv 0 (Push true [1; 2]%N); Res 0 (RBool true); Res 1 (RPop (Some [7; 8]%N)); Inv 3 Pop; Res 3 (RPop None)].

Lemma qdemo1 : exists tr s, rqreach demoN true [1; 2; 3; 4]%N tr s /\ tr.*1 = qhist1.
Proof.
  destruct (rshow_reach demoN true [1; 2; 3; 4]%N qsched1 (fun _ _ => tt) qhist1 tt) as (tr & s & H1 & H2 & _);
    [vm_compute; reflexivity|vm_compute; reflexivity|].
  exists tr, s. auto.
Qed.

(** A pop that reports an empty queue after a push needs a pop in between. *)
Lemma empty_after nb S1 i2 S3 b i1 b1 v :
  legal (rqspec nb) [] (S1 ++ (i2, Pop, RPop None) :: S3) b -> (i1, Push b1 v, RBool true) ∈ S1 ->
  exists i, (i, Pop, RPop (Some v)) ∈ S1.
Proof.
  intros Hl Hin. apply elem_of_list_split in Hin as (T1 & T2 & ->).
  pose proof (legal_app_inv _ _ _ _ _ Hl) as (m & H1 & H2).
  destruct (legal_state _ _ _ _ H1) as [Em Hle]. simpl in Em, Hle.
  inversion H2 as [|? ? ? ? a1 ? ? Hs _]; subst. inversion Hs as [| | | |E| | |].
  symmetry in E. apply (f_equal length) in E. rewrite drop_length, fmap_length in E. simpl in E.
  assert (Hk : length (filter is_put T1) < takes (T1 ++ (i1, Push b1 v, RBool true) :: T2)).
  { assert (length (filter is_put T1) < length (filter is_put (T1 ++ (i1, Push b1 v, RBool true) :: T2))); [|lia].
    rewrite list.filter_app, app_length, filter_cons, decide_True by done. simpl. lia. }
  apply lookup_lt_is_Some_2 in Hk as [[[i o] r] Hy].
  destruct (filter_nth _ _ _ _ Hy) as (U1 & U2 & EU & Ht & Hlen).
  unfold take_call in Ht. simpl in Ht. destruct o; try done. destruct r as [|[v'|]| |]; try done.
  pose proof H1 as H1'. rewrite EU in H1'. destruct (legal_took _ _ _ _ _ _ H1') as (x & Hx & Hv).
  assert (pv x = v) as Hv'.
  { unfold takes in Hx. rewrite Hlen in Hx. apply (lookup_app_l_Some _ (filter is_put ((i, Pop, RPop (Some v')) :: U2))) in Hx.
    rewrite <- list.filter_app, <- EU, list.filter_app, lookup_app_r, Nat.sub_diag in Hx by lia.
    rewrite filter_cons, decide_True in Hx by done. injection Hx as <-. done. }
  exists i. rewrite EU. apply elem_of_app. right. rewrite <- Hv', Hv. left.
Qed.

(** Thread 1 pops after thread 0 has pushed, and does not see it. *)
Definition qsched2 : list rdo :=
  dwhole 0 (Push true [5%N]) 12 ++ DCall 1 Pop :: DStep 1 0 :: DStep 1 1 :: DStep 1 1 :: dsteps 1 2.
Definition qhist2 : list qevent := [Inv 0 (Push true [5%N]); Res 0 (RBool true); Inv 1 Pop; Res 1 (RPop None)].

Ltac returned := split; [done|]; split; [lia|]; split; [done|];
  let k := fresh in let e := fresh in let Hk := fresh in intros k e Hk; do 9 (destruct k as [|k]; [try lia; simpl; intros [= <-]; simpl; lia|]); lia.

Lemma qhist2_not_lin : ~ hw_linearizable [] (rqspec false) qhist2.
Proof.
  intros (S & b & Hnd & Hcalls & Hcomp & Htime & Hleg).
  assert (H0 : (0, Push true [5%N], RBool true) ∈ S) by (apply (Hcomp 0 1 0); returned).
  assert (H2 : (2, Pop, RPop None) ∈ S) by (apply (Hcomp 2 3 1); returned).
  apply elem_of_list_split in H2 as (S1 & S3 & ->).
  assert (H0' : (0, Push true [5%N], RBool true) ∈ S1).
  { apply elem_of_app in H0 as [H0|H0]; [done|]. apply elem_of_cons in H0 as [H0|H0]; [done|].
    apply elem_of_list_split in H0 as (S4 & S5 & ->).
    assert (2 <= 1); [|lia].
    apply (Htime S1 (2, Pop, RPop None) S4 (0, Push true [5%N], RBool true) S5 0 1 0 (Push true [5%N]) (RBool true));
      [done|done|returned]. }
  destruct (empty_after _ _ _ _ _ _ _ _ Hleg H0') as [i Hi].
  assert (Hi' : (i, Pop, RPop (Some [5%N])) ∈ S1 ++ (2, Pop, RPop None) :: S3) by (apply elem_of_app; by left).
  destruct (Hcalls _ _ _ Hi') as [t Ht]. destruct i as [|[|[|[|i]]]]; try done.
  assert (H2 : (2, Pop, RPop None) ∈ S1 ++ (2, Pop, RPop None) :: S3) by (apply elem_of_app; right; left).
  pose proof (split_same _ _ _ Hnd Hi' H2 eq_refl) as E. done.
Qed.

Lemma qdemo_real_time :
  exists tr s, rqreach demoF true [1; 2; 3]%N tr s /\ ~ hw_linearizable [] (rqspec false) tr.*1.
Proof.
  destruct (rshow_reach demoF true [1; 2; 3]%N qsched2 (fun _ _ => tt) qhist2 tt) as (tr & s & H1 & H2 & _);
    [vm_compute; reflexivity|vm_compute; reflexivity|].
  exists tr, s. split; [done|]. rewrite H2. apply qhist2_not_lin.
Qed.

(** Thread 1 is about to link its node behind the dummy node; thread 2 pushes and
    pops, and the dummy node returns to the pool; thread 1 takes the pool's null
    link for the end of the queue. *)
Definition qsched3 : list rdo :=
  DCall 1 (Push true [9%N]) :: dsteps 1 7 ++ dwhole 2 (Push true [5%N]) 12 ++ dwhole 2 Pop 10 ++
  [DStep 1 0; DStep 1 1] ++ dsteps 1 3 ++ DCall 1 Pop :: dsteps 1 5.
Definition qhist3 : list qevent :=
  [Inv 1 (Push true [9%N]); Inv 2 (Push true [5%N]); Res 2 (RBool true); Inv 2 Pop; Res 2 (RPop (Some [5%N]));
   Res 1 (RBool true); Inv 1 Pop; Res 1 (RPop None)].

Definition clock_le (tr : list (qevent * view)) (t i j : nat) : bool :=
  match tr !! i, tr !! j with
  | Some (_, V), Some (_, W) => bool_decide (V (LClk t) <= W (LClk t))
  | _, _ => false
  end.

Lemma qdemo_relaxed :
  exists tr s, rqreach demoF false [1; 2; 3]%N tr s /\ tr.*1 = qhist3 /\ ~ exists S b, hb_order false tr S b.
Proof.
  destruct (rshow_reach demoF false [1; 2; 3]%N qsched3 (fun tr _ => clock_le tr 1 5 6) qhist3 true)
    as (tr & s & H1 & E & Hclk); [vm_compute; reflexivity|vm_compute; reflexivity|].
  exists tr, s. split; [done|]. split; [done|]. intros (S & b & [Hnd Hcalls Hcomp Hhb _ Hleg]).
  pose proof (E : @fmap list list_fmap (event qop qret * view) (event qop qret) fst tr = qhist3) as E2.
  rewrite E2 in Hcalls, Hcomp.
  assert (H0 : (0, Push true [9%N], RBool true) ∈ S) by (apply (Hcomp 0 5 1); returned).
  assert (H3 : (3, Pop, RPop (Some [5%N])) ∈ S) by (apply (Hcomp 3 4 2); returned).
  assert (H6 : (6, Pop, RPop None) ∈ S) by (apply (Hcomp 6 7 1); returned).
  pose proof H6 as H6'. apply elem_of_list_split in H6' as (S1 & S3 & ES).
  assert (H0' : (0, Push true [9%N], RBool true) ∈ S1).
  { rewrite ES in H0. apply elem_of_app in H0 as [H0|H0]; [done|]. apply elem_of_cons in H0 as [H0|H0]; [done|].
    apply elem_of_list_split in H0 as (S4 & S5 & E'). exfalso. rewrite E' in ES.
    unfold clock_le in Hclk. destruct (tr !! 5) as [[e V]|] eqn:H5; [|done].
    destruct (tr !! 6) as [[e' W]|] eqn:H6'; [|done]. apply bool_decide_eq_true in Hclk.
    eapply (Hhb S1 (6, Pop, RPop None) S4 (0, Push true [9%N], RBool true) S5 5 1 (Push true [9%N]) (RBool true)); [exact ES| |exact H5|exact H6'|exact Hclk].
    rewrite E2. simpl. returned. }
  rewrite ES in Hleg. destruct (empty_after _ _ _ _ _ _ _ _ Hleg H0') as [i Hi].
  assert (Hi' : (i, Pop, RPop (Some [9%N])) ∈ S) by (rewrite ES; apply elem_of_app; by left).
  destruct (Hcalls _ _ _ Hi') as [t Ht]. destruct i as [|[|[|[|[|[|[|[|i]]]]]]]]; try done.
  - pose proof (split_same _ _ _ Hnd Hi' H3 eq_refl). done.
  - pose proof (split_same _ _ _ Hnd Hi' H6 eq_refl). done.
Qed.

(** The pop of [7; 8] in the first execution. *)
Lemma qdemo_matching :
  exists tr s e W, rqreach demoN true [1; 2; 3; 4]%N tr s /\
    call_returns tr.*1 4 9 1 Pop (RPop (Some [7; 8]%N)) /\ tr !! 9 = Some (e, W) /\
    call_returns tr.*1 0 1 0 (Push true [5; 6]%N) (RBool true) /\
    tr.*1 !! 2 = Some (Inv 0 (Push true [7; 8]%N)).
Proof.
  destruct qdemo1 as (tr & s & H & E). destruct (lookup_lt_is_Some_2 tr 9) as [[e W] HW].
  { rewrite <- (fmap_length fst), E. simpl. lia. }
  exists tr, s, e, W. rewrite E. split; [done|]. split; [returned|]. split; [done|]. split; [returned|done].
Qed.

(** Thread 1 is about to copy the element out of a node; meanwhile thread 2 pops
    it, the node becomes the dummy node, returns to the pool and is used for
    another element. *)
Definition qsched4 : list rdo :=
  dwhole 0 (Push true [5%N]) 12 ++ DCall 1 Pop :: dsteps 1 4 ++
  dwhole 2 Pop 10 ++ dwhole 2 (Push true [6%N]) 12 ++ dwhole 2 Pop 10 ++ DCall 2 (Push true [7%N]) :: dsteps 2 4.
Lemma qdemo_element_race :
  exists tr s pc n k, rqreach demoF true [1; 2; 3]%N tr s /\ r_pcs s !! 1 = Some pc /\
    qaccess demoF pc = XGet n k /\ r_view s 1 (LData n) < w_acc (r_w s) n.
Proof.
  destruct (rshow_reach demoF true [1; 2; 3]%N qsched4
      (fun _ s => match r_pcs s !! 1 with
                  | Some (PcOCopy hd np []) => bool_decide (r_view s 1 (LData np) < w_acc (r_w s) np)
                  | _ => false
                  end)
      [Inv 0 (Push true [5%N]); Res 0 (RBool true); Inv 1 Pop; Inv 2 Pop; Res 2 (RPop (Some [5%N]));
       Inv 2 (Push true [6%N]); Res 2 (RBool true); Inv 2 Pop; Res 2 (RPop (Some [6%N])); Inv 2 (Push true [7%N])] true)
    as (tr & s & H1 & _ & H3); [vm_compute; reflexivity|vm_compute; reflexivity|].
  destruct (r_pcs s !! 1) as [pc|] eqn:Hpc; [|done]. destruct pc as [| | | | | | | | | | | | | |? ? [|]| | | | | | |]; try done.
  eexists tr, s, _, _, _. split; [done|]. split; [done|]. split; [reflexivity|]. by apply bool_decide_eq_true in H3.
Qed.
