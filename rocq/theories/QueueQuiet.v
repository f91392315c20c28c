(** * The queue when no (other) call is running: tail, capacity, destruction *)
From stdpp Require Import gmap list numbers.
From Verif Require Import Lin PoolModel Chain PoolProofs QueueModel QueueSpec QueueObs
  QueueInv QueueStep QueueSafe QueueObsProofs.

Set Default Proof Using "Type".

Section quiet.
  Context (c : cfg).
  Notation null := (c_null c).
  Notation spec := (qspec (c_node_based c) (c_throws c)).
  Notation GI := (GI c).
  Notation Inv := (Inv c).

  (** ** Memory is never given back while the queue lives *)

  Lemma ureserve_dom n x addrs x' r :
    ureserve c n x addrs = UDone x' r -> dom (q_heap x) ⊆ dom (q_heap x').
  Proof.
    revert x addrs. induction n as [|n IH]; intros x addrs; simpl; [by intros [= <- _]|].
    destruct addrs as [|[a|] addrs]; [done| |by intros [= <- _]].
    destruct (decide _); [|done]. rewrite (dealloc_unsafe_ok _ _ _ _ (lookup_insert _ _ _)).
    intros H. apply IH in H. simpl in H. set_solver.
  Qed.

  Lemma upush_loop_dom fuel x n x' r :
    upush_loop c fuel x n = UDone x' r -> dom (q_heap x') = dom (q_heap x).
  Proof.
    revert x. induction fuel as [|fuel IH]; intros x; simpl; [done|].
    destruct (q_heap x !! (q_tail x).1) as [nd|] eqn:Hnd; [|done].
    destruct (decide _).
    - intros [= <- _]. simpl. by eapply dom_insert_lookup_L.
    - intros H. apply IH in H. done.
  Qed.

  Lemma upop_loop_dom fuel x thr x' r :
    upop_loop c fuel x thr = UDone x' r -> dom (q_heap x') = dom (q_heap x).
  Proof.
    revert x. induction fuel as [|fuel IH]; intros x; simpl; [done|].
    destruct (q_heap x !! (q_head x).1) as [nd|] eqn:Hnd; [|done].
    destruct (decide _).
    - destruct (decide _); [by intros [= <- _]|]. intros H. apply IH in H. done.
    - destruct (decide _); [apply IH|]. destruct (q_heap x !! (nx nd).1) as [nd2|]; [|done].
      destruct thr; [destruct (c_throws c); [by intros [= <- _]|done]|].
      rewrite (dealloc_unsafe_ok _ _ _ _ Hnd). intros [= <- _]. simpl. by eapply dom_insert_lookup_L.
  Qed.

  Lemma upop_loop_noexn fuel x x' : upop_loop c fuel x false <> UDone x' RExn.
  Proof.
    revert x. induction fuel as [|fuel IH]; intros x; simpl; [done|].
    destruct (q_heap x !! (q_head x).1) as [nd|] eqn:Hnd; [|done].
    destruct (decide _).
    - destruct (decide _); [done|]. apply IH.
    - destruct (decide _); [apply IH|]. destruct (q_heap x !! (nx nd).1) as [nd2|]; [|done].
      by rewrite (dealloc_unsafe_ok _ _ _ _ Hnd).
  Qed.

  (** Program counters at which a step may call the allocator. *)
  Definition may_alloc (pc : qpc) : bool :=
    match pc with
    | PcAlloc b _ _ => c_node_based c && negb b
    | PcReserve _ | PcDealloc _ _ (KReserve _) => true
    | _ => false
    end.
  Lemma tstep_dom x pc sp addr thr x' pc' :
    tstep c x pc sp addr thr = TGo x' pc' ->
    dom (q_heap x) ⊆ dom (q_heap x') /\
    (may_alloc pc = false -> dom (q_heap x') = dom (q_heap x) /\ may_alloc pc' = false).
  Proof.
    assert (Hins : forall (h : gmap N qnode) n nd nd', h !! n = Some nd -> dom (<[n := nd']> h) = dom h).
    { intros. by eapply dom_insert_lookup_L. }
    assert (Hsame : forall h : gmap N qnode, dom h ⊆ dom h) by done.
    destruct pc as [b v a|v n k|n tag|n|n tl|n tl nx'|n tl nx'|n tl|n tl np| |hd|hd tl|hd tl nx'|tl np
                   |hd np acc|n d k|k| |h| |tl|r]; simpl.
    - destruct a as [|old|old nxt]; simpl.
      + by intros [= <- <-].
      + destruct (decide _).
        * destruct (c_node_based c && negb b) eqn:Hb; [|by intros [= <- <-]].
          destruct addr as [n|]; [|by intros [= <- <-]]. destruct (decide _); [|done].
          intros [= <- <-]. simpl. split; [set_solver|done].
        * destruct (q_heap x !! old.1); [|done]. by intros [= <- <-].
      + destruct (decide _); by intros [= <- <-].
    - destruct (q_heap x !! n) as [nd|] eqn:Hnd; [|done]. destruct thr.
      { destruct (c_throws c); [|done]. by intros [= <- <-]. }
      destruct (v !! k); intros [= <- <-]; simpl; [|done]. by rewrite (Hins _ _ _ _ Hnd).
    - destruct (q_heap x !! n) as [nd|] eqn:Hnd; [|done]. intros [= <- <-]. simpl.
      by rewrite (Hins _ _ _ _ Hnd).
    - by intros [= <- <-].
    - destruct (q_heap x !! tl.1) as [nd|]; [|done]. by intros [= <- <-].
    - destruct (decide _); [|by intros [= <- <-]]. destruct (decide _); by intros [= <- <-].
    - destruct (q_heap x !! tl.1) as [nd|] eqn:Hnd; [|done]. destruct (decide _); intros [= <- <-]; [|done].
      simpl. by rewrite (Hins _ _ _ _ Hnd).
    - intros [= <- <-]. destruct (decide _); done.
    - intros [= <- <-]. destruct (decide _); done.
    - by intros [= <- <-].
    - by intros [= <- <-].
    - destruct (q_heap x !! hd.1) as [nd|]; [|done]. by intros [= <- <-].
    - repeat (destruct (decide _)); by intros [= <- <-].
    - intros [= <- <-]. destruct (decide _); done.
    - destruct thr; [destruct (c_throws c); [by intros [= <- <-]|done]|].
      destruct (decide _).
      + destruct (q_heap x !! np) as [nd|]; [|done]. destruct (dat nd !! length acc); [|done].
        by intros [= <- <-].
      + destruct (decide _); by intros [= <- <-].
    - destruct d as [|old|old]; simpl.
      + by intros [= <- <-].
      + destruct (q_heap x !! n) as [nd|] eqn:Hnd; [|done]. intros [= <- <-]. simpl.
        by rewrite (Hins _ _ _ _ Hnd).
      + destruct (decide _); intros [= <- <-]; [|done]. split; [done|]. simpl.
        by destruct k.
    - destruct k as [|k]; [by intros [= <- <-]|].
      destruct addr as [n|]; [|by intros [= <- <-]]. destruct (decide _); [|done].
      intros [= <- <-]. simpl. split; [set_solver|done].
    - by intros [= <- <-].
    - by intros [= <- <-].
    - by intros [= <- <-].
    - by intros [= <- <-].
    - done.
  Qed.

  Lemma ucall_dom x o addrs thr x' r :
    ucall c x o addrs thr = UDone x' r ->
    dom (q_heap x) ⊆ dom (q_heap x') /\ (allocates c o = false -> dom (q_heap x') = dom (q_heap x)).
  Proof.
    destruct o as [b v| | |n|v| |n]; simpl; try done.
    - destruct (decide _) as [[Hnb _]|]; [|done]. rewrite Hnb. intros H. split; [|done].
      unfold upush, alloc_unsafe in H. rewrite Hnb in H. cbn [andb negb] in H.
      destruct (decide _).
      + destruct addrs as [|[n|] addrs]; [by injection H as <- _| |by injection H as <- _].
        destruct (decide _); [|done]. rewrite lookup_insert in H.
        destruct thr; [destruct (c_throws c); [|done]; injection H as <- _; simpl; set_solver|].
        apply upush_loop_dom in H. rewrite H. simpl. set_solver.
      + destruct (q_heap x !! (q_pool x).1) as [nd|] eqn:Hnd; [|done]. rewrite Hnd in H.
        destruct thr; [destruct (c_throws c); [|done]; by injection H as <- _|].
        apply upush_loop_dom in H. rewrite H. simpl. set_solver.
    - intros H. apply upop_loop_dom in H. rewrite H. done.
    - destruct (c_node_based c); [|done]. intros H. apply ureserve_dom in H. done.
  Qed.

  Lemma qstep_dom s ch s' evs :
    qstep c s ch = QNext s' evs -> dom (q_heap (q_sh s)) ⊆ dom (q_heap (q_sh s')).
  Proof.
    destruct ch as [t o tf|t sp addr thr|t o addrs thr]; intros H.
    - simpl in H. destruct (q_pcs s !! t); [done|]. destruct (qstart c o tf); [|done].
      by injection H as <- _.
    - apply qstep_run in H as (pc & _ & [(r & _ & -> & _)|(x' & pc' & H & -> & _)]); [done|].
      by apply tstep_dom in H as [H _].
    - simpl in H. destruct (decide _); [|done]. destruct (ucall c (q_sh s) o addrs thr) as [x' r| |] eqn:Hu; [|done..].
      injection H as <- _. by apply ucall_dom in Hu as [Hu _].
  Qed.

  Lemma qexec_dom s0 hist s :
    qexec c s0 hist s -> dom (q_heap (q_sh s0)) ⊆ dom (q_heap (q_sh s)).
  Proof. induction 1 as [|hist s ch s' evs He IH Hs]; [done|]. apply qstep_dom in Hs. set_solver. Qed.

  Lemma tstep_compat o x pc sp addr thr x' pc' :
    tstep c x pc sp addr thr = TGo x' pc' -> compat o pc -> compat o pc'.
  Proof.
    destruct pc as [b v a|v n k|n tag|n|n tl|n tl nx'|n tl nx'|n tl|n tl np| |hd|hd tl|hd tl nx'|tl np
                   |hd np acc|n d k|k| |h| |tl|r]; cbn [tstep].
    - destruct (astep _ _ _ _ _ _ _ _); intros [= <- <-]; simpl; eauto.
    - destruct (q_heap x !! n) as [nd|]; [|done]. destruct thr.
      { destruct (c_throws c); [|done]. by intros [= <- <-]. }
      destruct (v !! k); by intros [= <- <-].
    - destruct (q_heap x !! n) as [nd|]; [|done]. by intros [= <- <-].
    - by intros [= <- <-].
    - destruct (q_heap x !! tl.1) as [nd|]; [|done]. by intros [= <- <-].
    - destruct (decide _); [|by intros [= <- <-]]. destruct (decide _); by intros [= <- <-].
    - destruct (q_heap x !! tl.1) as [nd|]; [|done]. destruct (decide _); by intros [= <- <-].
    - by intros [= <- <-].
    - by intros [= <- <-].
    - by intros [= <- <-].
    - by intros [= <- <-].
    - destruct (q_heap x !! hd.1) as [nd|]; [|done]. by intros [= <- <-].
    - repeat (destruct (decide _)); by intros [= <- <-].
    - by intros [= <- <-].
    - destruct thr; [destruct (c_throws c); [by intros [= <- <-]|done]|].
      destruct (decide _).
      + destruct (q_heap x !! np) as [nd|]; [|done]. destruct (dat nd !! length acc); [|done].
        by intros [= <- <-].
      + destruct (decide _); intros [= <- <-]; simpl; eauto.
    - destruct (dstep _ _ _ _ _); intros [= <- <-]; simpl; [done|]. by destruct k.
    - destruct k as [|k]; [by intros [= <- <-]|].
      destruct addr as [n|]; [|by intros [= <- <-]]. destruct (decide _); [|done].
      by intros [= <- <-].
    - by intros [= <- <-].
    - by intros [= <- <-].
    - by intros [= <- <-].
    - by intros [= <- <-].
    - done.
  Qed.

  Lemma qcall_compat s0 t o w s :
    qcall c s0 t o w s -> exists pc, q_pcs s !! t = Some pc /\ compat o pc /\
      (forall n, o = Reserve n -> c_node_based c = true).
  Proof.
    induction 1 as [hist s tf s' evs He Hs|w s ch s' evs Hc (pc & Hpc & Hco & Hr) Hs Hin].
    - simpl in Hs. destruct (q_pcs s !! t); [done|]. destruct (qstart c o tf) as [pc|] eqn:Hst; [|done].
      injection Hs as <- <-. exists pc. simpl. rewrite lookup_insert. split; [done|].
      destruct o as [b v| | |n|v| |n]; simpl in Hst; try done.
      + destruct (decide _); [|done]. by injection Hst as <-.
      + by injection Hst as <-.
      + destruct tf; by injection Hst as <-.
      + destruct (c_node_based c); [|done]. injection Hst as <-. split; [by exists n|done].
    - destruct ch as [t' o' tf|t' sp addr thr|t' o' addrs thr].
      + simpl in Hs. destruct (q_pcs s !! t') eqn:Hn; [done|]. destruct (qstart c o' tf); [|done].
        injection Hs as <- _. exists pc. simpl. rewrite lookup_insert_ne by congruence. done.
      + apply qstep_run in Hs as (pc0 & Hpc0 & Hs).
        destruct (decide (t' = t)) as [->|Hne].
        * rewrite Hpc in Hpc0. injection Hpc0 as <-.
          destruct Hs as [(r & -> & -> & ->)|(x' & pc' & Hst & -> & ->)].
          -- destruct Hin as [pc0 Hin]. simpl in Hin. by rewrite lookup_delete in Hin.
          -- exists pc'. simpl. rewrite lookup_insert. split; [done|]. split; [|done].
             by eapply tstep_compat.
        * exists pc. destruct Hs as [(r & -> & -> & ->)|(x' & pc' & Hst & -> & ->)]; simpl.
          -- by rewrite lookup_delete_ne.
          -- by rewrite lookup_insert_ne.
      + simpl in Hs. destruct (decide (q_pcs s = ∅)) as [He|]; [|done]. by rewrite He, lookup_empty in Hpc.
  Qed.

  Lemma compat_noalloc o pc :
    compat o pc -> (forall n, o = Reserve n -> c_node_based c = true) ->
    allocates c o = false -> may_alloc pc = false.
  Proof.
    destruct pc as [b v a|v n k|n tag|n|n tl|n tl nx'|n tl nx'|n tl|n tl np| |hd|hd tl|hd tl nx'|tl np
                   |hd np acc|n d k|k| |h| |tl|r]; simpl; try done.
    - by intros ->.
    - destruct k; [done|]. intros [m ->] Hr. simpl. by rewrite (Hr m).
    - intros [m ->] Hr. simpl. by rewrite (Hr m).
  Qed.

  Lemma qcall_noalloc s0 t o w s sp addr thr s' evs :
    qcall c s0 t o w s -> allocates c o = false ->
    qstep c s (Run t sp addr thr) = QNext s' evs -> dom (q_heap (q_sh s')) = dom (q_heap (q_sh s)).
  Proof.
    intros Hc Ho Hs. destruct (qcall_compat _ _ _ _ _ Hc) as (pc & Hpc & Hco & Hr).
    apply qstep_run in Hs as (pc0 & Hpc0 & Hs). rewrite Hpc in Hpc0. injection Hpc0 as <-.
    destruct Hs as [(r & -> & -> & ->)|(x' & pc' & Hst & -> & ->)]; [done|].
    apply tstep_dom in Hst as [_ Hst]. apply Hst. by eapply compat_noalloc.
  Qed.

  (** Executions without calls that may allocate. *)
  Lemma qexec_noalloc s0 hist s :
    (forall t pc, q_pcs s0 !! t = Some pc -> may_alloc pc = false) ->
    qexec c s0 hist s ->
    (forall t o, Lin.Inv t o ∈ hist -> allocates c o = false) ->
    dom (q_heap (q_sh s)) = dom (q_heap (q_sh s0)) /\
    (forall t pc, q_pcs s !! t = Some pc -> may_alloc pc = false).
  Proof.
    intros H0. induction 1 as [|hist s ch s' evs He IH Hs]; intros Hin; [done|].
    destruct IH as [IH1 IH2].
    { intros t o Ht. apply (Hin t). apply elem_of_app. by left. }
    destruct ch as [t o tf|t sp addr thr|t o addrs thr].
    - simpl in Hs. destruct (q_pcs s !! t); [done|]. destruct (qstart c o tf) as [pc|] eqn:Hst; [|done].
      injection Hs as <- <-. simpl. split; [done|]. intros t' pc'.
      rewrite lookup_insert_Some. intros [[_ <-]|[_ H]]; [|eauto].
      assert (Ho : allocates c o = false).
      { apply (Hin t). apply elem_of_app. right. left. }
      destruct o as [b v| | |n|v| |n]; simpl in Hst; try done.
      + destruct (decide _); [|done]. by injection Hst as <-.
      + by injection Hst as <-.
      + injection Hst as <-. by destruct tf.
      + simpl in Ho. by rewrite Ho in Hst.
    - apply qstep_run in Hs as (pc & Hpc & [(r & -> & -> & ->)|(x' & pc' & H & -> & ->)]).
      + split; [done|]. intros t' pc'. simpl. rewrite lookup_delete_Some. intros [_ ?]. eauto.
      + apply tstep_dom in H as [_ H]. destruct (H (IH2 _ _ Hpc)) as [Hd Hm]. simpl.
        split; [by rewrite Hd|]. intros t' pc''. rewrite lookup_insert_Some.
        intros [[_ <-]|[_ ?]]; eauto.
    - simpl in Hs. destruct (decide _); [|done]. destruct (ucall c (q_sh s) o addrs thr) as [x' r| |] eqn:Hu; [|done..].
      injection Hs as <- <-. apply ucall_dom in Hu as [_ Hu]. simpl. rewrite Hu, IH1.
      + split; [done|]. intros t' pc'. by rewrite lookup_empty.
      + apply (Hin t). apply elem_of_app. right. left.
  Qed.

  Lemma pool_add_dom ns : forall (h : gmap N qnode) p d0,
    dom (pool_add d0 ns h p).1 = dom h ∪ list_to_set ns.
  Proof.
    induction ns as [|n ns IH]; intros h p d0; simpl; [set_solver|].
    rewrite IH. set_solver.
  Qed.

  Lemma pool_add_first ns : forall (h : gmap N qnode) p d0,
    ns <> [] -> NoDup ns -> (pool_add d0 ns h p).2.1 ∈ ns.
  Proof.
    induction ns as [|n ns IH]; intros h p d0 Hne Hnd; [done|]. simpl.
    apply list.NoDup_cons in Hnd as [Hn Hnd]. destruct ns as [|m ns].
    - simpl. left.
    - right. by apply IH.
  Qed.

  Lemma qinit_dom ns addr s :
    qinit c ns addr = Some s -> ns <> [] -> NoDup ns -> null ∉ ns ->
    dom (q_heap (q_sh s)) = list_to_set ns.
  Proof.
    intros Hi Hne Hnd Hnn. unfold qinit, pool_init in Hi.
    pose proof (pool_add_dom ns ∅ (null, 0%N) (qd0 c)) as Hd.
    pose proof (pool_add_first ns ∅ (null, 0%N) (qd0 c) Hne Hnd) as Hf.
    destruct (pool_add (qd0 c) ns ∅ (null, 0%N)) as [h p]. simpl in Hd, Hf.
    unfold alloc_unsafe in Hi. rewrite decide_False in Hi by (intros Hp; by rewrite Hp in Hf).
    destruct (h !! p.1) as [nd|] eqn:Hp; [|done]. rewrite Hp in Hi. injection Hi as <-. simpl.
    rewrite (dom_insert_lookup_L _ _ _ (mk_is_Some _ _ Hp)). set_solver.
  Qed.

  (** ** Counting nodes *)

  Lemma gi_len_a x g : GI x g -> length (g_qn g) = S (length (g_a g)).
  Proof.
    intros HG. pose proof (Forall2_length _ _ _ (gi_a _ _ _ HG)) as H.
    destruct (gi_head_cons _ _ _ HG) as [q Hq]. rewrite Hq in H |- *. simpl in *.
    rewrite drop_0 in H. lia.
  Qed.

  Lemma gi_nodes_nodup x g : GI x g -> NoDup (g_qn g ++ g_fn g).
  Proof.
    intros HG. apply NoDup_app. split; [apply (gi_qnodup _ _ _ HG)|]. split; [|apply (gi_pi _ _ _ HG)].
    intros n Hq Hf. apply (gi_qmem _ _ _ HG) in Hq. apply (pi_mem _ _ _ _ _ (gi_pi _ _ _ HG)) in Hf.
    congruence.
  Qed.

  Lemma size_list (h : gmap N qnode) l :
    NoDup l -> (forall n, n ∈ l -> is_Some (h !! n)) -> length l <= size h.
  Proof.
    intros Hnd Hl. rewrite <- size_dom, <- (size_list_to_set (C := gset N) l Hnd).
    apply subseteq_size. intros n Hn. apply elem_of_list_to_set in Hn. apply elem_of_dom. auto.
  Qed.

  Lemma gi_size x g : GI x g -> S (length (g_a g)) + length (g_fn g) <= size (q_heap x).
  Proof.
    intros HG. rewrite <- (gi_len_a _ _ HG), <- app_length. apply size_list; [by eapply gi_nodes_nodup|].
    intros n Hn. apply elem_of_app in Hn as [Hn|Hn].
    - by eapply gi_qdom.
    - eapply seg_dom; [apply (pi_seg _ _ _ _ _ (gi_pi _ _ _ HG))|done].
  Qed.

  Lemma inv_quiet_own s g n :
    c_throws c = false -> Inv s g -> q_pcs s = ∅ ->
    is_Some (q_heap (q_sh s) !! n) <-> n ∈ g_qn g ++ g_fn g.
  Proof.
    intros Hth [HG HT] He. split.
    - intros Hn. apply (pi_dom _ _ _ _ _ (gi_pi _ _ _ HG)) in Hn as [o Ho]. apply elem_of_app.
      destruct o as [| |t|].
      + left. by apply (gi_qmem _ _ _ HG).
      + right. by apply (pi_mem _ _ _ _ _ (gi_pi _ _ _ HG)).
      + exfalso. specialize (HT t). rewrite He, lookup_empty in HT. by apply HT in Ho.
      + exfalso. by eapply (gi_leak _ _ _ HG Hth).
    - intros Hn. apply elem_of_app in Hn as [Hn|Hn].
      + by eapply gi_qdom.
      + eapply seg_dom; [apply (pi_seg _ _ _ _ _ (gi_pi _ _ _ HG))|done].
  Qed.

  Lemma inv_quiet_size s g :
    c_throws c = false -> Inv s g -> q_pcs s = ∅ ->
    size (q_heap (q_sh s)) = S (length (g_a g)) + length (g_fn g).
  Proof.
    intros Hth HI He. pose proof HI as [HG _].
    rewrite <- (gi_len_a _ _ HG), <- app_length.
    rewrite <- size_dom, <- (size_list_to_set (C := gset N) _ (gi_nodes_nodup _ _ HG)).
    f_equal. apply set_eq. intros n. rewrite elem_of_dom, elem_of_list_to_set.
    by apply inv_quiet_own.
  Qed.

  (** ** The tail lags behind only while a push is about to advance it *)

  Definition Lag (s : qstate) : Prop :=
    forall np, nxp (q_heap (q_sh s)) (q_tail (q_sh s)).1 = Some np -> np <> null ->
      exists t n, q_pcs s !! t = Some (PcPDone n (q_tail (q_sh s))).

  Definition nonlag (x : qshared) : Prop := nxp (q_heap x) (q_tail x).1 = Some null.

  Lemma lag_quiet s g : Inv s g -> Lag s -> q_pcs s = ∅ -> nonlag (q_sh s).
  Proof.
    intros [HG _] HL He. destruct (gi_tail_dom _ _ _ HG) as [nd Hnd].
    unfold nonlag. rewrite (nxp_Some _ _ _ Hnd).
    destruct (decide ((nx nd).1 = null)) as [->|Hn]; [done|].
    destruct (HL _ (nxp_Some _ _ _ Hnd) Hn) as (t & n & Ht). by rewrite He, lookup_empty in Ht.
  Qed.

  Lemma tail_next_null x g np :
    GI x g -> nxp (q_heap x) (q_tail x).1 = Some np -> np <> null -> nxp (q_heap x) np = Some null.
  Proof.
    intros HG Hx Hn. apply nxp_inv in Hx as (nd & Hnd & <-).
    destruct (tail_cases _ _ _ _ HG Hnd) as [?|(_ & _ & nd2 & Hnd2 & Hx2)]; [done|].
    rewrite (nxp_Some _ _ _ Hnd2). by rewrite Hx2.
  Qed.

  (** Steps that leave the tail and its link alone. *)
  Lemma lag_keep s t pc x' pc' :
    Lag s -> q_pcs s !! t = Some pc -> (forall n, pc <> PcPDone n (q_tail (q_sh s))) ->
    q_tail x' = q_tail (q_sh s) ->
    nxp (q_heap x') (q_tail (q_sh s)).1 = nxp (q_heap (q_sh s)) (q_tail (q_sh s)).1 ->
    Lag (QSt x' (<[t := pc']> (q_pcs s))).
  Proof.
    intros HL Hpc Hne Ht Hx np. simpl. rewrite Ht, Hx. intros Hnp Hn.
    destruct (HL np Hnp Hn) as (t' & n & Ht'). exists t', n.
    rewrite lookup_insert_ne; [done|]. intros <-. rewrite Hpc in Ht'. injection Ht' as ->. by eapply Hne.
  Qed.

  Lemma lag_swing s g t pc np tg pc' :
    Inv s g -> Lag s -> q_pcs s !! t = Some pc -> np <> null ->
    nxp (q_heap (q_sh s)) (q_tail (q_sh s)).1 = Some np ->
    Lag (QSt (set_tail (q_sh s) (np, tg)) (<[t := pc']> (q_pcs s))).
  Proof.
    intros [HG _] HL Hpc Hn Hx np' Hnp' Hn'. exfalso. simpl in Hnp'.
    rewrite (tail_next_null _ _ _ HG Hx Hn) in Hnp'. congruence.
  Qed.

  Context (Htag : c_tagmod c = None).

  Lemma tstep_lag s g t pc sp addr thr x' pc' :
    Inv s g -> Lag s -> q_pcs s !! t = Some pc ->
    tstep c (q_sh s) pc sp addr thr = TGo x' pc' -> Lag (QSt x' (<[t := pc']> (q_pcs s))).
  Proof using Htag.
    intros HI HL Hpc Hst. pose proof HI as [HG HT]. specialize (HT t). rewrite Hpc in HT.
    destruct HT as [HT HH].
    assert (Hown : forall n, g_own g !! n = Some (OT t) -> n <> (q_tail (q_sh s)).1).
    { intros n Hn ->. rewrite (gi_tail_Q _ _ _ HG) in Hn. done. }
    destruct (gi_tail_dom _ _ _ HG) as [ndt Hndt].
    assert (Hfresh : forall n, q_heap (q_sh s) !! n = None -> n <> (q_tail (q_sh s)).1).
    { intros n Hn ->. congruence. }
    destruct pc as [b v a|v n k|n tag|n|n tl|n tl nx'|n tl nx'|n tl|n tl np| |hd|hd tl|hd tl nx'|tl np
                   |hd np acc|n d k|k| |h| |tl|r]; simpl in Hst.
    - destruct a as [|old|old nxt]; simpl in Hst.
      + injection Hst as <- <-. by eapply lag_keep.
      + destruct (decide _).
        * destruct (c_node_based c && negb b); [|injection Hst as <- <-; by eapply lag_keep].
          destruct addr as [n|]; [|injection Hst as <- <-; by eapply lag_keep].
          destruct (decide _) as [[Hf _]|]; [|done]. injection Hst as <- <-.
          eapply lag_keep; [done..|]. simpl. rewrite nxp_insert_ne; [done|]. auto.
        * destruct (q_heap (q_sh s) !! old.1); [|done]. injection Hst as <- <-. by eapply lag_keep.
      + destruct (decide _); injection Hst as <- <-; by eapply lag_keep.
    - destruct HT as (b & _ & _ & Ho & _).
      destruct (q_heap (q_sh s) !! n) as [nd|]; [|done]. destruct thr.
      { destruct (c_throws c); [|done]. injection Hst as <- <-. by eapply lag_keep. }
      destruct (v !! k); injection Hst as <- <-; (eapply lag_keep; [done..|]); [|done].
      simpl. rewrite nxp_insert_ne; [done|]. auto.
    - destruct HT as (b & nd0 & _ & Ho & _).
      destruct (q_heap (q_sh s) !! n) as [nd|]; [|done]. injection Hst as <- <-.
      eapply lag_keep; [done..|]. simpl. rewrite nxp_insert_ne; [done|]. auto.
    - injection Hst as <- <-. by eapply lag_keep.
    - destruct (q_heap (q_sh s) !! tl.1); [|done]. injection Hst as <- <-. by eapply lag_keep.
    - destruct (decide _); [destruct (decide _)|]; injection Hst as <- <-; by eapply lag_keep.
    - destruct HT as (Hp & Hn0 & nd0 & Hnd0 & Hle & Heq). rewrite Hnd0 in Hst.
      destruct (decide _) as [[_ Hx]|]; injection Hst as <- <-; [|by eapply lag_keep].
      destruct (Heq ltac:(by rewrite Hx)) as (_ & _ & Htl). intros np _ _. simpl.
      exists t, n. by rewrite lookup_insert, Htl.
    - destruct HT as (_ & _ & Hn & Hx). injection Hst as <- <-. destruct (decide _) as [He|He].
      + eapply lag_swing; [done|done|done|done|]. rewrite He. auto.
      + eapply lag_keep; [done|done| |done|done]. intros m [= _ Hm]. congruence.
    - destruct HT as (_ & _ & Hn & Hx). injection Hst as <- <-. destruct (decide _) as [He|He].
      + eapply lag_swing; [done|done|done|done|]. rewrite He. auto.
      + by eapply lag_keep.
    - injection Hst as <- <-. by eapply lag_keep.
    - injection Hst as <- <-. by eapply lag_keep.
    - destruct (q_heap (q_sh s) !! hd.1); [|done]. injection Hst as <- <-. by eapply lag_keep.
    - repeat (destruct (decide _)); injection Hst as <- <-; by eapply lag_keep.
    - destruct HT as (_ & _ & Hn & Hx). injection Hst as <- <-. destruct (decide _) as [He|He].
      + eapply lag_swing; [done|done|done|done|]. rewrite He. auto.
      + by eapply lag_keep.
    - destruct thr; [destruct (c_throws c); [|done]; injection Hst as <- <-; by eapply lag_keep|].
      destruct (decide _).
      + destruct (q_heap (q_sh s) !! np) as [nd|]; [|done]. destruct (dat nd !! length acc); [|done].
        injection Hst as <- <-. by eapply lag_keep.
      + destruct (decide _); injection Hst as <- <-; by eapply lag_keep.
    - destruct HT as (Ho & _ & _). destruct d as [|old|old]; simpl in Hst.
      + injection Hst as <- <-. by eapply lag_keep.
      + destruct (q_heap (q_sh s) !! n) as [nd|]; [|done]. injection Hst as <- <-.
        eapply lag_keep; [done..|]. simpl. rewrite nxp_insert_ne; [done|]. auto.
      + destruct (decide _); injection Hst as <- <-; by eapply lag_keep.
    - destruct k as [|k]; [injection Hst as <- <-; by eapply lag_keep|].
      destruct addr as [n|]; [|injection Hst as <- <-; by eapply lag_keep].
      destruct (decide _) as [[Hf _]|]; [|done]. injection Hst as <- <-.
      eapply lag_keep; [done..|]. simpl. rewrite nxp_insert_ne; [done|]. auto.
    - injection Hst as <- <-. by eapply lag_keep.
    - injection Hst as <- <-. by eapply lag_keep.
    - injection Hst as <- <-. by eapply lag_keep.
    - injection Hst as <- <-. by eapply lag_keep.
    - done.
  Qed.

  Lemma nonlag_loop fuel x n x' r :
    upush_loop c fuel x n = UDone x' r -> n <> (q_tail x).1 -> (forall m, nxp (q_heap x) m <> Some n) ->
    nxp (q_heap x) n = Some null -> nonlag x'.
  Proof.
    revert x. induction fuel as [|fuel IH]; intros x; simpl; [done|].
    destruct (q_heap x !! (q_tail x).1) as [nd|] eqn:Hnd; [|done]. intros H Hne Hno Hn.
    destruct (decide _).
    - injection H as <- _. unfold nonlag. simpl. by rewrite nxp_insert_ne.
    - eapply IH; [done| |done|done]. simpl. intros ->. by eapply (Hno (q_tail x).1), nxp_Some.
  Qed.

  Lemma ureserve_tail n x addrs x' r nd :
    ureserve c n x addrs = UDone x' r -> q_heap x !! (q_tail x).1 = Some nd ->
    q_tail x' = q_tail x /\ q_heap x' !! (q_tail x).1 = Some nd.
  Proof.
    revert x addrs. induction n as [|n IH]; intros x addrs; simpl; [by intros [= <- _]|].
    destruct addrs as [|[a|] addrs]; [done| |by intros [= <- _]].
    destruct (decide _) as [[Hf _]|]; [|done]. rewrite (dealloc_unsafe_ok _ _ _ _ (lookup_insert _ _ _)).
    intros H Hnd. apply IH in H; simpl in *; [done|].
    rewrite !lookup_insert_ne; [done| |]; intros ->; congruence.
  Qed.

  Lemma ucall_lag s g o addrs thr x' r :
    Inv s g -> q_pcs s = ∅ -> nonlag (q_sh s) -> ucall c (q_sh s) o addrs thr = UDone x' r -> nonlag x'.
  Proof using Htag.
    intros HI He HL Hu. pose proof HI as [HG HT].
    destruct (gi_tail_dom _ _ _ HG) as [ndt Hndt].
    destruct o as [b v| | |n|v| |n]; simpl in Hu; try done.
    - destruct (decide _) as [[Hnb Hlen]|]; [|done]. unfold upush in Hu.
      pose proof (alloc_unsafe_ok c Htag (qd0 c) false _ _ _ _
        (match addrs with a :: _ => a | [] => None end) (gi_pi _ _ _ HG)) as Hok.
      destruct (alloc_unsafe _ _ _ _ _ _) as [? ? ?|h p n| | | |]; try done.
      + destruct Hok as [(-> & Hn & Hpn & Hp2 & Hx & fn' & Hfn)|(Hf & Hn & -> & -> & _)].
        * apply nxp_inv in Hx as (nd & Hnd & Hx). rewrite Hnd in Hu.
          destruct thr; [destruct (c_throws c); [|done]; by injection Hu as <- _|].
          assert (Hof : g_own g !! n = Some OF).
          { apply (pi_mem _ _ _ _ _ (gi_pi _ _ _ HG)). rewrite Hfn. left. }
          (* walk the loop by hand: the tail does not lag *)
          assert (Hnt : n <> (q_tail (q_sh s)).1).
          { intros ->. rewrite (gi_tail_Q _ _ _ HG) in Hof. done. }
          simpl in Hu. rewrite lookup_insert_ne in Hu by done. rewrite Hndt in Hu.
          unfold nonlag in HL. rewrite (nxp_Some _ _ _ Hndt) in HL. injection HL as HL.
          rewrite decide_True in Hu by done. injection Hu as <- _. unfold nonlag. simpl.
          rewrite nxp_insert_ne by done. by rewrite nxp_insert.
        * rewrite lookup_insert in Hu.
          destruct thr.
          { destruct (c_throws c); [|done]. injection Hu as <- _. unfold nonlag in *. simpl.
            rewrite nxp_insert_ne; [done|]. intros ->. congruence. }
          simpl in Hu.
          assert (Hnt : n <> (q_tail (q_sh s)).1) by (intros ->; congruence).
          rewrite !lookup_insert_ne in Hu by done. rewrite Hndt in Hu.
          unfold nonlag in HL. rewrite (nxp_Some _ _ _ Hndt) in HL. injection HL as HL.
          rewrite decide_True in Hu by done. injection Hu as <- _. unfold nonlag. simpl.
          rewrite nxp_insert_ne by done. by rewrite nxp_insert.
      + injection Hu as <- _. done.
      + injection Hu as <- _. done.
    - unfold upop in Hu. revert Hu. generalize (size (q_heap (q_sh s))) as fuel. intros fuel Hu.
      unfold nonlag in HL. rewrite (nxp_Some _ _ _ Hndt) in HL. injection HL as HL.
      destruct (gi_head_dom _ _ _ HG) as [nd Hnd].
      simpl in Hu. rewrite Hnd in Hu. destruct (decide _) as [Hht|Hht].
      + assert (nd = ndt) as -> by congruence. rewrite decide_True in Hu by done.
        injection Hu as <- _. unfold nonlag. rewrite (nxp_Some _ _ _ Hndt). by rewrite HL.
      + destruct (decide ((nx nd).1 = null)) as [Hn|Hn].
        * exfalso. destruct (gi_head_cons _ _ _ HG) as [q Hq]. pose proof (gi_qseg _ _ _ HG) as Hsg.
          rewrite Hq in Hsg. destruct Hsg as (_ & y & Hy & Hsg).
          rewrite (nxp_Some _ _ _ Hnd) in Hy. injection Hy as <-. destruct q as [|z q].
          -- pose proof (gi_tail_in _ _ _ HG) as Hti. rewrite Hq in Hti.
             apply elem_of_list_singleton in Hti. congruence.
          -- destruct Hsg as [Hz _]. apply (gi_null_nin _ _ _ HG). rewrite Hq, <- Hn, Hz. right. left.
        * destruct (q_heap (q_sh s) !! (nx nd).1) as [nd2|]; [|done].
          destruct thr.
          { destruct (c_throws c); [|done]. injection Hu as <- _. unfold nonlag.
            rewrite (nxp_Some _ _ _ Hndt). by rewrite HL. }
          rewrite (dealloc_unsafe_ok _ _ _ _ Hnd) in Hu. injection Hu as <- _. unfold nonlag. simpl.
          rewrite nxp_insert_ne by done. rewrite (nxp_Some _ _ _ Hndt). by rewrite HL.
    - destruct (c_node_based c); [|done]. destruct (ureserve_tail _ _ _ _ _ _ Hu Hndt) as [Ht Hx].
      unfold nonlag in *. rewrite Ht, (nxp_Some _ _ _ Hx). by rewrite (nxp_Some _ _ _ Hndt) in HL.
  Qed.

  Lemma qstep_lag s g ch s' evs :
    Inv s g -> Lag s -> qstep c s ch = QNext s' evs -> Lag s'.
  Proof using Htag.
    intros HI HL Hs. destruct ch as [t o tf|t sp addr thr|t o addrs thr].
    - simpl in Hs. destruct (q_pcs s !! t) eqn:Hpc; [done|]. destruct (qstart c o tf) as [pc|]; [|done].
      injection Hs as <- _. intros np Hx Hn. simpl in *. destruct (HL np Hx Hn) as (t' & n & Ht').
      exists t', n. rewrite lookup_insert_ne; [done|]. congruence.
    - apply qstep_run in Hs as (pc & Hpc & [(r & -> & -> & ->)|(x' & pc' & H & -> & ->)]).
      + intros np Hx Hn. simpl in *. destruct (HL np Hx Hn) as (t' & n & Ht').
        exists t', n. rewrite lookup_delete_ne; [done|]. intros <-. congruence.
      + by eapply tstep_lag.
    - simpl in Hs. destruct (decide _) as [He|]; [|done].
      destruct (ucall c (q_sh s) o addrs thr) as [x' r| |] eqn:Hu; [|done..].
      injection Hs as <- _. intros np Hx Hn. exfalso. simpl in *.
      pose proof (ucall_lag _ _ _ _ _ _ _ HI He (lag_quiet _ _ HI HL He) Hu) as HL'.
      unfold nonlag in HL'. congruence.
  Qed.

  (** Everything known about a reachable state. *)
  Lemma qreach_ok ns hist s :
    qreach c ns hist s ->
    exists g, Inv s g /\ erase (g_l g) = hist /\ Lag s.
  Proof using Htag.
    intros (addr & s0 & Hnd & Hnn & Hne & Hi & He).
    destruct (qinit_ok c Htag _ _ _ Hnd Hnn Hne Hi) as (g0 & HI0 & Hl0 & Ha0 & _).
    assert (HL0 : Lag s0).
    { intros np Hx Hn. exfalso. destruct HI0 as [HG0 _].
      destruct (tail_next _ _ _ _ HG0 Hx Hn) as (pre & Hq).
      pose proof (gi_len_a _ _ HG0) as Hlen. rewrite Hq, Ha0, app_length in Hlen. simpl in Hlen. lia. }
    induction He as [|hist s ch s' evs He (g & HI & Hl & HL) Hs].
    - exists g0. by rewrite Hl0.
    - pose proof (qstep_ok c Htag _ _ ch HI) as Hok. rewrite Hs in Hok.
      destruct Hok as (g' & HI' & Hl' & _). exists g'. split; [done|]. split; [by rewrite Hl', Hl|].
      eapply qstep_lag; [exact HI|exact HL|exact Hs].
  Qed.
End quiet.
