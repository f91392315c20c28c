(** * Concrete executions of the queue used as witnesses in PropQueue.v *)
From stdpp Require Import gmap list numbers.
From Verif Require Import Lin LinObs PoolModel QueueModel QueueSpec QueueObs QueueDemo.

Definition v1 : val := [1; 1]%N.
Definition v2 : val := [2; 2]%N.
Definition v3 : val := [3; 3]%N.

(** Two pushes; thread 1 starts to pop and has copied one word when thread 2
    pops the same element and thread 0 pushes again, reusing the freed dummy;
    then thread 1 goes on, fails its compare-exchange and pops the next
    element. *)
Definition sched1 : list qchoice :=
  whole 0 (Push true v1) 13 ++ whole 0 (Push true v2) 13 ++
  Invoke 1 Pop false :: runs 1 5 ++ whole 2 Pop 11 ++ whole 0 (Push true v3) 13 ++ runs 1 13.
Definition hist1 : list qevent :=
  [Inv 0 (Push true v1); Res 0 (RBool true); Inv 0 (Push true v2); Res 0 (RBool true);
   Inv 1 Pop; Inv 2 Pop; Res 2 (RPop (Some v1)); Inv 0 (Push true v3); Res 0 (RBool true);
   Res 1 (RPop (Some v2))].
Definition pool1 : list N := [1; 2; 3]%N.

Lemma demo1 : exists s, qreach demoN pool1 hist1 s /\ quiescent s /\ qcontents demoN s [v3].
Proof.
  destruct (qshow_reach demoN pool1 None sched1 hist1 [v3] 0) as (s & H1 & H2 & H3).
  - vm_compute. reflexivity.
  - unfold pool1. repeat (constructor; [set_solver|]). constructor.
  - set_solver.
  - by left.
  - exists s. auto.
Qed.

(** A fixed-size queue for two elements, filled. *)
Definition pool2 : list N := [0; 1; 2]%N.
Definition sched2 : list qchoice :=
  whole 0 (Push false [7%N]) 12 ++ whole 0 (Push false [8%N]) 12 ++ whole 0 (Push false [9%N]) 3.
Definition hist2 : list qevent :=
  [Inv 0 (Push false [7%N]); Res 0 (RBool true); Inv 0 (Push false [8%N]); Res 0 (RBool true);
   Inv 0 (Push false [9%N]); Res 0 (RBool false)].

Lemma pool2_ok : NoDup pool2 /\ c_null demoF ∉ pool2 /\ (pool2 <> [] \/ c_node_based demoF = true).
Proof.
  split; [|split].
  - unfold pool2. repeat (constructor; [set_solver|]). constructor.
  - unfold pool2. simpl. set_solver.
  - by left.
Qed.

Lemma demo2 : exists s, qreach demoF pool2 hist2 s /\ quiescent s /\ qcontents demoF s [[7%N]; [8%N]].
Proof.
  destruct pool2_ok as (P1 & P2 & P3).
  destruct (qshow_reach demoF pool2 None sched2 hist2 [[7%N]; [8%N]] 0) as (s & H1 & H2 & H3);
    [vm_compute; reflexivity|done|done|done|].
  exists s. auto.
Qed.

(** The failing push of [hist2] and a failing pop as calls. *)
Lemma demo_push_fail : exists w, qcallret demoF pool2 0 (Push false [9%N]) w (RBool false).
Proof.
  destruct pool2_ok as (P1 & P2 & P3).
  destruct (wshow_callret demoF pool2 None (whole 0 (Push false [7%N]) 12 ++ whole 0 (Push false [8%N]) 12)
              0 (Push false [9%N]) false (runs 0 2) (replicate 3 (Some [[7%N]; [8%N]])) [true; true; true]
              (RBool false)) as (w & H & _); [vm_compute; reflexivity|done|done|done|done|].
  eauto.
Qed.

(** A pop that starts on the queue [7], during which another thread pops 7. *)
Lemma demo_pop_empty : exists w, qcallret demoF pool2 1 Pop w (RPop None).
Proof.
  destruct pool2_ok as (P1 & P2 & P3).
  destruct (wshow_callret demoF pool2 None (whole 0 (Push false [7%N]) 12) 1 Pop false
              (runs 1 1 ++ whole 2 Pop 10 ++ runs 1 7)
              (replicate 8 (Some [[7%N]]) ++ replicate 12 (Some [])) (replicate 20 true)
              (RPop None)) as (w & H & _); [vm_compute; reflexivity|done|done|done|done|].
  eauto.
Qed.

(** Thread 1 calls empty() on a queue holding one element and loads head_; two
    pushes and a pop by others recycle the dummy node, which is the last node
    when thread 1 loads tail_. *)
Definition pool3 : list N := [0; 1; 2; 3]%N.
Lemma demo_empty_wrong :
  exists w, qcallret demoF pool3 1 Empty w (RBool true) /\
    Forall (fun s => exists v a, qcontents demoF s (v :: a)) w.
Proof.
  assert (P1 : NoDup pool3) by (unfold pool3; repeat (constructor; [set_solver|]); constructor).
  assert (P2 : c_null demoF ∉ pool3) by (unfold pool3; simpl; set_solver).
  destruct (wshow_callret demoF pool3 None (whole 0 (Push false [7%N]) 12) 1 Empty false
     (runs 1 1 ++ whole 0 (Push false [8%N]) 12 ++ whole 2 Pop 10 ++ whole 0 (Push false [9%N]) 12 ++ runs 1 1)
     (replicate 12 (Some [[7%N]]) ++ replicate 9 (Some [[7%N]; [8%N]]) ++ replicate 15 (Some [[8%N]]) ++
      replicate 4 (Some [[8%N]; [9%N]]))
     (replicate 40 true) (RBool true)) as (w & H & HF);
    [vm_compute; reflexivity|done|done|done|by left|].
  exists w. split; [done|]. eapply Forall2_Forall_l; [exact HF|].
  repeat (apply Forall_app; split); apply Forall_replicate; intros s Hs; eauto.
Qed.

(** A false answer of empty(), while the only element is popped. *)
Lemma demo_empty_false : exists w, qcallret demoF pool2 1 Empty w (RBool false).
Proof.
  destruct pool2_ok as (P1 & P2 & P3).
  destruct (wshow_callret demoF pool2 None (whole 0 (Push false [7%N]) 12) 1 Empty false
              (runs 1 1 ++ whole 2 Pop 10 ++ runs 1 1)
              (replicate 8 (Some [[7%N]]) ++ replicate 6 (Some [])) (replicate 14 true)
              (RBool false)) as (w & H & _); [vm_compute; reflexivity|done|done|done|done|].
  eauto.
Qed.

(** The copy constructor throws in push: the node is lost to the pool. *)
Definition demoT : cfg := Cfg 0%N true None true 1.
Definition sched4 : list qchoice :=
  Invoke 0 (Push true [7%N]) false :: runs 0 3 ++ [Run 0 false None true; Run 0 false None false].
Lemma demo_leak :
  exists s, qreach demoT [1; 2]%N [Inv 0 (Push true [7%N]); Res 0 RExn] s /\ quiescent s /\ qcontents demoT s [] /\
    qdtor demoT (q_sh s) = Some [2%N] /\ is_Some (q_heap (q_sh s) !! 1%N) /\
    (q_pool (q_sh s)).1 = c_null demoT.
Proof.
  pose (chk := match qfrom demoT [1; 2]%N None sched4 with
               | Some (h, s) =>
                   (h, contentsb demoT s, size (q_pcs s), qdtor demoT (q_sh s),
                    match q_heap (q_sh s) !! 1%N with Some _ => true | None => false end, (q_pool (q_sh s)).1)
               | None => ([], None, 1, None, false, 1%N)
               end).
  assert (Hc : chk = ([Inv 0 (Push true [7%N]); Res 0 RExn], Some [], 0, Some [2%N], true, 0%N))
    by (vm_compute; reflexivity).
  unfold chk in Hc. destruct (qfrom demoT [1; 2]%N None sched4) as [[h s]|] eqn:Hf; [|done].
  injection Hc as -> H2 H3 H4 H5 H6. exists s. split.
  { eapply qfrom_reach; [exact Hf| | |by left].
    - repeat (constructor; [set_solver|]). constructor.
    - simpl. set_solver. }
  split; [by apply map_size_empty_inv|]. split; [by apply contentsb_ok|]. split; [done|].
  split; [|done]. destruct (q_heap (q_sh s) !! 1%N); [by eexists|done].
Qed.

(** A conversion throws in pop: the element is still there, and another pop takes
    it; then the same without synchronization, and a throwing copy in
    unsynchronized_push. *)
Definition sched_exn : list qchoice :=
  whole 0 (Push true [7%N]) 12 ++ whole 0 (Push true [8%N]) 12 ++
  Invoke 1 Pop false :: runs 1 4 ++ Invoke 2 Pop false :: Run 1 false None true :: runs 1 1 ++ runs 2 10.
Definition hist_exn : list qevent :=
  [Inv 0 (Push true [7%N]); Res 0 (RBool true); Inv 0 (Push true [8%N]); Res 0 (RBool true);
   Inv 1 Pop; Inv 2 Pop; Res 1 RExn; Res 2 (RPop (Some [7%N]))].
Lemma demo_exn :
  exists s s1 s2, qreach demoT pool1 hist_exn s /\ quiescent s /\ qcontents demoT s [[8%N]] /\
    qstep demoT s (Unsync 3 UPop [] true) = QNext s1 [Inv 3 UPop; Res 3 RExn] /\
    qstep demoT s (Unsync 3 (UPush [9%N]) [None] true) = QNext s2 [Inv 3 (UPush [9%N]); Res 3 RExn].
Proof.
  pose (evs := fun s ch => match qstep demoT s ch with QNext _ evs => evs | _ => [] end).
  pose (chk := match qfrom demoT pool1 None sched_exn with
               | Some (h, s) =>
                   (h, contentsb demoT s, size (q_pcs s), evs s (Unsync 3 UPop [] true),
                    evs s (Unsync 3 (UPush [9%N]) [None] true))
               | None => ([], None, 1, [], [])
               end).
  assert (Hc : chk = (hist_exn, Some [[8%N]], 0, [Inv 3 UPop; Res 3 RExn],
                      [Inv 3 (UPush [9%N]); Res 3 RExn])) by (vm_compute; reflexivity).
  unfold chk in Hc. destruct (qfrom demoT pool1 None sched_exn) as [[h s]|] eqn:Hf; [|done].
  unfold evs in Hc.
  destruct (qstep demoT s (Unsync 3 UPop [] true)) as [s1 e1| |] eqn:E1; [|discriminate Hc..].
  destruct (qstep demoT s (Unsync 3 (UPush [9%N]) [None] true)) as [s2 e2| |] eqn:E2; [|discriminate Hc..].
  injection Hc as -> H2 H3 -> ->. exists s, s1, s2. split.
  { eapply qfrom_reach; [exact Hf|apply (bool_decide_unpack _); vm_compute; exact I..|by left]. }
  split; [by apply map_size_empty_inv|]. split; [by apply contentsb_ok|exact (conj E1 E2)].
Qed.

(** A fixed-size queue without nodes: capacity SIZE_MAX, where the node count
    n + 1 wraps to 0 (queue.hpp:232 etc.). *)
Lemma demo_no_nodes :
  exists s0 s1 evs1 s2 evs2 s3 evs3,
    qinit demoF [] None = Some s0 /\ qstep demoF s0 (Invoke 0 Pop false) = QNext s1 evs1 /\
    qstep demoF s1 (Run 0 false None false) = QNext s2 evs2 /\
    qstep demoF s2 (Run 0 false None false) = QNext s3 evs3 /\
    qstep demoF s3 (Run 0 false None false) = QUB.
Proof.
  do 7 eexists. split; [reflexivity|]. split; [reflexivity|]. split; [reflexivity|].
  split; [reflexivity|]. vm_compute. reflexivity.
Qed.

(** reserve(2) on a node-based queue whose pool is exhausted. *)
Definition sched5 : list qchoice :=
  Invoke 0 (Reserve 2) false ::
  [Run 0 false (Some 5%N) false; Run 0 false None false; Run 0 false None false; Run 0 false None false;
   Run 0 false (Some 6%N) false; Run 0 false None false; Run 0 false None false; Run 0 false None false;
   Run 0 false None false; Run 0 false None false].
Lemma demo_reserve :
  exists s0 s h, qreach demoN [1%N] [] s0 /\ quiescent s0 /\ qcontents demoN s0 [] /\
    qrun demoN s0 sched5 = Some (h, s) /\ Res 0 RUnit ∈ h.
Proof.
  pose (chk := match qinit demoN [1%N] None with
               | Some s0 => (contentsb demoN s0, size (q_pcs s0), option_map fst (qrun demoN s0 sched5))
               | None => (None, 1, None)
               end).
  assert (Hc : chk = (Some [], 0, Some [Inv 0 (Reserve 2); Res 0 RUnit])) by (vm_compute; reflexivity).
  unfold chk in Hc. clear chk. destruct (qinit demoN [1%N] None) as [s0|] eqn:Hi; [|done].
  destruct (qrun demoN s0 sched5) as [[h s]|] eqn:Hr; [|done]. injection Hc as H1 H2 ->.
  exists s0, s, [Inv 0 (Reserve 2); Res 0 RUnit]. split; [|split; [|split; [|split]]].
  - exists None, s0. split; [|split; [|split; [|split]]].
    + repeat (constructor; [set_solver|]). constructor.
    + simpl. set_solver.
    + by left.
    + done.
    + constructor.
  - by apply map_size_empty_inv.
  - by apply contentsb_ok.
  - done.
  - set_solver.
Qed.
