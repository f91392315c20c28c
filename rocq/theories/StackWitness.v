(** * Concrete executions of the stack used as witnesses in PropStack.v *)
From stdpp Require Import gmap list numbers.
From Verif Require Import Lin LinObs PoolModel StackModel StackSpec StackObs StackDemo.

Ltac pool_tac := split; [repeat (constructor; [set_solver|]); constructor|simpl; set_solver].

(** The result of a call only. *)
Definition wresult (c : cfg) (ns : list N) (pre : list schoice) (t : nat) (o : sop) (chs : list schoice) :
    option sret :=
  match wshow c ns pre t o chs with
  | Some (_, r, true) => r
  | _ => None
  end.
Lemma wresult_callret c ns pre t o chs r :
  wresult c ns pre t o chs = Some r -> pool_ok c ns -> exists w, scallret c ns t o w r.
Proof.
  unfold wresult. destruct (wshow c ns pre t o chs) as [[[cs r'] []]|] eqn:Hw; [|done..].
  intros -> Hp. destruct (wshow_callret c ns pre t o chs cs r Hw Hp) as (w & H & _). by exists w.
Qed.

(** Thread 1 starts to pop and has read the top node's successor when thread 2
    pops that node and thread 0 pushes again, with the same node; the tag makes
    thread 1's compare-exchange fail. *)
Definition ssched1 : list schoice :=
  swhole 0 (SPush true 5%N) 8 ++ swhole 0 (SPush true 6%N) 8 ++
  Invoke 1 SPop :: sruns 1 2 ++ swhole 2 SPop 9 ++ swhole 0 (SPush true 7%N) 8 ++ sruns 1 9.
Definition shist1 : list sevent :=
  [Inv 0 (SPush true 5%N); Res 0 (SBool true); Inv 0 (SPush true 6%N); Res 0 (SBool true);
   Inv 1 SPop; Inv 2 SPop; Res 2 (SGot (Some 6%N)); Inv 0 (SPush true 7%N); Res 0 (SBool true);
   Res 1 (SGot (Some 7%N))].
Lemma sdemo1 : exists s, sreach sdemoN [1; 2; 3]%N shist1 s /\ quiescent s /\ scontents sdemoN s [5%N].
Proof.
  destruct (sshow_reach sdemoN [1; 2; 3]%N ssched1 shist1 [5%N] 0) as (s & H1 & H2 & H3 & _);
    [vm_compute; reflexivity|pool_tac|].
  exists s. auto.
Qed.

(** A bounded range push of four elements onto a stack with three nodes, whose
    first compare-exchange fails because thread 1 pushes (with a fourth node
    from the allocator). *)
Definition schedR : list schoice :=
  sruns 0 20 ++ Invoke 1 (SPush false 4%N) :: Run 1 false None false :: Run 1 false (Some 5%N) false ::
  sruns 1 5 ++ sruns 0 3.
Lemma sdemo_range : exists w, scallret sdemoN [1; 2; 3]%N 0 (SRange true [6; 7; 8; 9]%N) w (SIter 3).
Proof. eapply (wresult_callret _ _ [] _ _ schedR); [vm_compute; reflexivity|pool_tac]. Qed.

(** consume_all_atomic on a stack onto which thread 0 pushes 4 before and 5 after
    the removal. *)
Definition push3 : list schoice :=
  swhole 0 (SPush false 1%N) 8 ++ swhole 0 (SPush false 2%N) 8 ++ swhole 0 (SPush false 3%N) 8.
Definition schedA (k : nat) : list schoice :=
  sruns 1 1 ++ swhole 0 (SPush false 4%N) 8 ++ sruns 1 2 ++ swhole 0 (SPush false 5%N) 8 ++ sruns 1 k.
Lemma sdemo_all : exists w, scallret sdemoF [0; 1; 2; 3; 4]%N 1 (SAll false) w (SCount 4 [4; 3; 2; 1]%N).
Proof. eapply (wresult_callret _ _ push3 _ _ (schedA 24)); [vm_compute; reflexivity|pool_tac]. Qed.
Lemma sdemo_all_rev : exists w, scallret sdemoF [0; 1; 2; 3; 4]%N 1 (SAll true) w (SCount 4 [1; 2; 3; 4]%N).
Proof. eapply (wresult_callret _ _ push3 _ _ (schedA 32)); [vm_compute; reflexivity|pool_tac]. Qed.

Lemma sdemo_pop : exists w, scallret sdemoF [0; 1; 2; 3; 4]%N 1 SPop w (SGot (Some 3%N)).
Proof. eapply (wresult_callret _ _ push3 _ _ (sruns 1 8)); [vm_compute; reflexivity|pool_tac]. Qed.

Lemma sdemo_empty :
  (exists w, scallret sdemoF [0; 1; 2; 3; 4]%N 1 SEmpty w (SBool false)) /\
  (exists w, scallret sdemoF [0; 1; 2; 3; 4]%N 1 SEmpty w (SBool true)).
Proof.
  split.
  - eapply (wresult_callret _ _ push3 _ _ (sruns 1 1)); [vm_compute; reflexivity|pool_tac].
  - eapply (wresult_callret _ _ (swhole 0 (SPush false 1%N) 8) _ _ (swhole 2 SPop 9 ++ sruns 1 1));
      [vm_compute; reflexivity|pool_tac].
Qed.

Lemma sdemo_push_fail : exists w, scallret sdemoF [0; 1]%N 1 (SPush false 3%N) w (SBool false).
Proof.
  eapply (wresult_callret _ _ (swhole 0 (SPush false 1%N) 8 ++ swhole 0 (SPush false 2%N) 8) _ _ (sruns 1 2));
    [vm_compute; reflexivity|pool_tac].
Qed.

(** Copying the third element of a range throws; copying a single element
    throws. *)
Lemma sdemo_exn :
  (exists w, scallret sdemoT [1; 2; 3; 4]%N 0 (SRange true [6; 7; 8; 9]%N) w (SExn [])) /\
  (exists w, scallret sdemoT [1; 2; 3]%N 0 (SPush false 6%N) w (SExn [])).
Proof.
  split.
  - eapply (wresult_callret _ _ (swhole 0 (SPush true 1%N) 0 ++ sruns 0 8) _ _
              (sruns 0 14 ++ Run 0 false None true :: sruns 0 10)); [vm_compute; reflexivity|pool_tac].
  - eapply (wresult_callret _ _ [] _ _ (sruns 0 3 ++ [Run 0 false None true]));
      [vm_compute; reflexivity|pool_tac].
Qed.

(** The copy constructor throws in push: the node is lost to the pool. *)
Definition schedL : list schoice :=
  Invoke 0 (SPush true 7%N) :: sruns 0 3 ++ [Run 0 false None true; Run 0 false None false].
Lemma sdemo_leak :
  exists s, sreach sdemoT [1%N] [Inv 0 (SPush true 7%N); Res 0 (SExn [])] s /\ quiescent s /\
    scontents sdemoT s [] /\ is_Some (s_heap (s_sh s) !! 1%N) /\ sdtor sdemoT (s_sh s) = Some ([], []) /\
    exists s', srun sdemoT s (Invoke 0 (SPush true 8%N) :: replicate 3 (Run 0 false None false)) =
                 Some ([Inv 0 (SPush true 8%N); Res 0 (SBool false)], s').
Proof.
  pose (chk := match srun sdemoT (sinit sdemoT [1%N]) schedL with
               | Some (h, s) =>
                   (h, contentsb sdemoT s, size (s_pcs s), sdtor sdemoT (s_sh s),
                    match s_heap (s_sh s) !! 1%N with Some _ => true | None => false end,
                    option_map fst (srun sdemoT s (Invoke 0 (SPush true 8%N) :: replicate 3 (Run 0 false None false))))
               | None => ([], None, 1, None, false, None)
               end).
  assert (Hc : chk = ([Inv 0 (SPush true 7%N); Res 0 (SExn [])], Some [], 0, Some ([], []), true,
                      Some [Inv 0 (SPush true 8%N); Res 0 (SBool false)]))
    by (vm_compute; reflexivity).
  unfold chk in Hc. clear chk. destruct (srun sdemoT (sinit sdemoT [1%N]) schedL) as [[h s]|] eqn:Hf; [|done].
  destruct (srun sdemoT s (Invoke 0 (SPush true 8%N) :: replicate 3 (Run 0 false None false)))
    as [[h' s']|] eqn:Hr; [|done].
  injection Hc as -> H2 H3 H4 H5 ->. exists s. split.
  { eapply srun_reach; [exact Hf|pool_tac|reflexivity]. }
  split; [by apply map_size_empty_inv|]. split; [by apply contentsb_ok|].
  split; [destruct (s_heap (s_sh s) !! 1%N); [by eexists|done]|]. split; [done|].
  by exists s'.
Qed.

(** reserve(2) on a node-based stack without nodes. *)
Definition schedV : list schoice :=
  [Run 0 false (Some 5%N) false; Run 0 false None false; Run 0 false None false; Run 0 false None false;
   Run 0 false (Some 6%N) false; Run 0 false None false; Run 0 false None false; Run 0 false None false;
   Run 0 false None false; Run 0 false None false].
Lemma sdemo_reserve :
  exists s h, sreach sdemoN [] [] (sinit sdemoN []) /\ quiescent (sinit sdemoN []) /\
    scontents sdemoN (sinit sdemoN []) [] /\
    srun sdemoN (sinit sdemoN []) (Invoke 0 (SReserve 2) :: schedV) = Some (h, s) /\ Res 0 SUnit ∈ h.
Proof.
  pose (chk := option_map fst (srun sdemoN (sinit sdemoN []) (Invoke 0 (SReserve 2) :: schedV))).
  assert (Hc : chk = Some [Inv 0 (SReserve 2); Res 0 SUnit]) by (vm_compute; reflexivity).
  unfold chk in Hc. clear chk. destruct (srun sdemoN _ _) as [[h s]|] eqn:Hr; [|done].
  injection Hc as ->. eexists s, _. split; [|split; [done|split; [constructor|split; [done|set_solver]]]].
  split; [constructor|]. split; [set_solver|]. split; [|constructor]. intros t o Hin. by apply elem_of_nil in Hin.
Qed.

(** A range [begin, begin): every call of a range push dereferences begin. *)
Lemma sdemo_empty_range c s t b :
  c_node_based c = true -> s_pcs s !! t = None ->
  exists s1, sstep c s (Invoke t (SRange b [])) = SNext s1 [Inv t (SRange b [])] /\
    forall sp addr thr, sstep c s1 (Run t sp addr thr) = SUB.
Proof.
  intros Hnb Hp. eexists. split.
  - cbn [sstep]. rewrite Hp. cbn [sstart]. rewrite Hnb. reflexivity.
  - intros sp addr thr. cbn [sstep set_pc s_pcs]. by rewrite lookup_insert.
Qed.
Lemma sdemo_empty_urange c s t addrs thr :
  c_node_based c = true -> quiescent s -> sstep c s (Unsync t (SURange []) addrs thr) = SUB.
Proof.
  intros Hnb Hq. cbn [sstep]. rewrite decide_True by done. cbn [ucall]. by rewrite Hnb.
Qed.
