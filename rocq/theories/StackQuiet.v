(** * The stack: use of the allocator, calls that run alone, destruction *)
From stdpp Require Import gmap list numbers.
From Verif Require Import Lin PoolModel Chain PoolProofs StackModel StackSpec StackObs
  StackInv StackStep StackSafe StackObsProofs.

Set Default Proof Using "Type".

Section quiet.
  Context (c : cfg).
  Notation null := (c_null c).
  Notation spec := (sspec (c_node_based c) (c_throws c)).
  Notation GI := (GI c).
  Notation Inv := (Inv c).

  (** ** Memory is never given back while the stack lives *)

  Lemma ureserve_dom n x addrs x' r :
    ureserve c n x addrs = UDone x' r -> dom (s_heap x) ⊆ dom (s_heap x').
  Proof.
    revert x addrs. induction n as [|n IH]; intros x addrs; simpl; [by intros [= <- _]|].
    destruct addrs as [|[a|] addrs]; [done| |by intros [= <- _]].
    destruct (decide _); [|done]. rewrite (dealloc_unsafe_ok _ _ _ _ (lookup_insert _ _ _)).
    intros H. apply IH in H. simpl in H. set_solver.
  Qed.

  Lemma ulink_dom x top bot r x' r' : ulink x top bot r = UDone x' r' -> dom (s_heap x') = dom (s_heap x).
  Proof.
    unfold ulink. destruct (s_heap x !! bot) as [nd|] eqn:Hnd; [|done]. intros [= <- _]. simpl.
    by eapply dom_insert_lookup_L.
  Qed.

  Lemma uundo_dom fuel x cur x' r : uundo c fuel x cur = UDone x' r -> dom (s_heap x') = dom (s_heap x).
  Proof.
    revert x cur. induction fuel as [|fuel IH]; intros x cur; simpl.
    - destruct (decide _); [by intros [= <- _]|done].
    - destruct (decide _); [by intros [= <- _]|].
      destruct (s_heap x !! cur) as [[lk [v|]]|] eqn:Hnd; try done.
      rewrite (dealloc_unsafe_ok _ _ _ _ (lookup_insert _ _ _)).
      intros H. apply IH in H. rewrite H. simpl.
      rewrite !dom_insert_lookup_L; [done|by eexists|rewrite lookup_insert; by eexists].
  Qed.

  Lemma ucatch_dom x te x' r : ucatch c x te = UDone x' r -> dom (s_heap x') = dom (s_heap x).
  Proof. destruct te; simpl; [apply uundo_dom|by intros [= <- _]]. Qed.

  Lemma alloc_unsafe_dom b (x : sshared) addr h p n :
    alloc_unsafe c None b (s_heap x) (s_pool x) addr = AGot h p n -> dom (s_heap x) ⊆ dom h.
  Proof.
    unfold alloc_unsafe. destruct (decide _).
    - destruct (c_node_based c && negb b); [|done]. destruct addr as [m|]; [|done].
      destruct (decide _); [|done]. intros [= <- _ _]. set_solver.
    - destruct (s_heap x !! (s_pool x).1); [|done]. by intros [= <- _ _].
  Qed.

  Lemma upush_dom x v addr thr x' r :
    upush c x v addr thr = UDone x' r ->
    dom (s_heap x) ⊆ dom (s_heap x') /\ (c_node_based c = false -> dom (s_heap x') = dom (s_heap x)).
  Proof.
    unfold upush. intros H.
    destruct (alloc_unsafe c None false (s_heap x) (s_pool x) addr) as [h p a|h p n| | | |] eqn:Ha;
      try done; try (injection H as <- _; done).
    assert (Hd : dom (s_heap x') = dom h).
    { destruct (h !! n) as [[lk [?|]]|] eqn:Hn; try done. destruct thr.
      - destruct (c_throws c); [|done]. by injection H as <- _.
      - apply ulink_dom in H. rewrite H. simpl. rewrite dom_insert_lookup_L; [done|by eexists]. }
    rewrite Hd. split; [by eapply alloc_unsafe_dom|]. intros Hnb. unfold alloc_unsafe in Ha.
    rewrite Hnb in Ha. destruct (decide _); [done|].
    destruct (s_heap x !! (s_pool x).1); [|done]. by injection Ha as <- _ _.
  Qed.

  Lemma urange_dom vs : forall x k te addrs thr x' r,
    urange c x vs k te addrs thr = UDone x' r -> dom (s_heap x) ⊆ dom (s_heap x').
  Proof.
    induction vs as [|v vs IH]; intros x k te addrs thr x' r; cbn [urange].
    - destruct te; [|done]. intros H. apply ulink_dom in H. by rewrite H.
    - intros H.
      destruct (alloc_unsafe c None false (s_heap x) (s_pool x) _) as [h p a|h p n| | | |] eqn:Ha; try done.
      + apply alloc_unsafe_dom in Ha.
        destruct (h !! n) as [[lk [?|]]|] eqn:Hn; try done. destruct (decide (thr = Some k)).
        * destruct (c_throws c); [|done]. apply ucatch_dom in H. rewrite H. done.
        * apply IH in H. simpl in H. set_solver.
      + destruct te; [|by injection H as <- _]. apply ulink_dom in H. by rewrite H.
      + apply ucatch_dom in H. by rewrite H.
  Qed.

  Lemma upop_dom x thr x' r : upop c x thr = UDone x' r -> dom (s_heap x') = dom (s_heap x).
  Proof.
    unfold upop. destruct (decide _); [by intros [= <- _]|].
    destruct (s_heap x !! (s_tos x).1) as [[lk [v|]]|] eqn:Hnd; try done.
    destruct thr; [destruct (c_throws c); [|done]; by intros [= <- _]|].
    rewrite (dealloc_unsafe_ok _ _ _ _ (lookup_insert _ _ _)). intros [= <- _]. simpl.
    rewrite !dom_insert_lookup_L; [done|by eexists|rewrite lookup_insert; by eexists].
  Qed.

  Lemma ucall_dom x o addrs thr x' r :
    ucall c x o addrs thr = UDone x' r ->
    dom (s_heap x) ⊆ dom (s_heap x') /\ (allocates c o = false -> dom (s_heap x') = dom (s_heap x)).
  Proof.
    destruct o as [b v|b vs| |rev| |n|v|vs| |n]; simpl; try done.
    - apply upush_dom.
    - destruct (c_node_based c); [|done]. intros H. apply urange_dom in H. done.
    - intros H. apply upop_dom in H. by rewrite H.
    - destruct (c_node_based c); [|done]. intros H. apply ureserve_dom in H. done.
  Qed.

  (** Program counters from which a call may come to the allocator. *)
  Definition may_alloc (pc : spc) : bool :=
    match pc with
    | PcAlloc b _ _ | PcRFirst b _ | PcRAlloc b _ _ _ _ | PcRCons b _ _ _ _ | PcRLink b _ _ _ _ =>
        c_node_based c && negb b
    | PcReserve _ | PcDealloc _ _ (KReserve _) | PcDestroy _ (KReserve _) => true
    | _ => false
    end.

  Lemma kgo_alloc n d k : may_alloc (PcDealloc n d k) = false -> may_alloc (kgo c k) = false.
  Proof. destruct k; simpl; try done; intros _; by destruct (decide _). Qed.

  Lemma astep_dom b (x : sshared) a sp addr :
    match astep c None b (s_heap x) (s_pool x) a sp addr with
    | ACont h p a' => h = s_heap x
    | AGot h p n => dom (s_heap x) ⊆ dom h /\ (c_node_based c && negb b = false -> dom h = dom (s_heap x))
    | _ => True
    end.
  Proof.
    destruct a as [|old|old nxt]; simpl.
    - done.
    - destruct (decide _).
      + destruct (c_node_based c && negb b); [|done]. destruct addr as [n|]; [|done].
        destruct (decide _); [|done]. split; [set_solver|done].
      + by destruct (s_heap x !! old.1).
    - by destruct (decide _).
  Qed.

  Lemma tstep_dom x pc sp addr thr x' pc' :
    tstep c x pc sp addr thr = TGo x' pc' ->
    dom (s_heap x) ⊆ dom (s_heap x') /\
    (may_alloc pc = false -> dom (s_heap x') = dom (s_heap x) /\ may_alloc pc' = false).
  Proof.
    assert (Hins : forall (h : gmap N snode) n nd nd', h !! n = Some nd -> dom (<[n := nd']> h) = dom h).
    { intros. by eapply dom_insert_lookup_L. }
    destruct pc as [b v a|v m|top bot r|top bot old r|top bot old r|b vs|b vs k te a|b vs k te m
      |b vs k te m|cur| |old|old nxt|m|rev|rev old|m lst|m lst nxt|m k acc|m k acc|m k|m d k|k| |r];
      cbn [tstep].
    - pose proof (astep_dom b x a sp addr) as Hd.
      destruct (astep c None b (s_heap x) (s_pool x) a sp addr); try done; intros [= <- <-]; simpl; try done.
      + by subst h.
      + destruct Hd as [H1 H2]. split; [done|]. auto.
    - destruct (s_heap x !! m) as [[lk [?|]]|] eqn:Hnd; try done. destruct thr.
      + destruct (c_throws c); [|done]. by intros [= <- <-].
      + intros [= <- <-]. simpl. by rewrite (Hins _ _ _ _ Hnd).
    - by intros [= <- <-].
    - destruct (s_heap x !! bot) as [nd|] eqn:Hnd; [|done]. intros [= <- <-]. simpl.
      by rewrite (Hins _ _ _ _ Hnd).
    - destruct (decide _); by intros [= <- <-].
    - destruct vs; [done|]. by intros [= <- <-].
    - pose proof (astep_dom b x a sp addr) as Hd.
      destruct (astep c None b (s_heap x) (s_pool x) a sp addr); try done; intros [= <- <-]; simpl.
      + by subst h.
      + destruct Hd as [H1 H2]. split; [done|]. auto.
      + by destruct te.
      + by destruct te.
    - destruct (s_heap x !! m) as [[lk [?|]]|] eqn:Hnd; try done. destruct (vs !! k); [|done]. destruct thr.
      + destruct (c_throws c); [|done]. intros [= <- <-]. by destruct te.
      + intros [= <- <-]. simpl. by rewrite (Hins _ _ _ _ Hnd).
    - destruct (s_heap x !! m) as [nd|] eqn:Hnd; [|done]. intros [= <- <-]. simpl.
      rewrite (Hins _ _ _ _ Hnd). split; [done|]. intros H. split; [done|]. unfold r_next.
      by destruct (decide _).
    - destruct (s_heap x !! cur); [|done]. by intros [= <- <-].
    - intros [= <- <-]. unfold c_test. by destruct (decide _).
    - destruct (s_heap x !! old.1); [|done]. by intros [= <- <-].
    - destruct (decide _); intros [= <- <-]; [done|]. unfold c_test. by destruct (decide _).
    - destruct (s_heap x !! m) as [[lk [?|]]|]; try done. destruct thr.
      + destruct (c_throws c); [|done]. by intros [= <- <-].
      + by intros [= <- <-].
    - intros [= <- <-]. unfold a_test. by destruct (decide _).
    - destruct (decide _); intros [= <- <-]; [by destruct rev|]. unfold a_test. by destruct (decide _).
    - destruct (s_heap x !! m); [|done]. by intros [= <- <-].
    - destruct (s_heap x !! m) as [nd|] eqn:Hnd; [|done]. intros [= <- <-]. simpl.
      rewrite (Hins _ _ _ _ Hnd). split; [done|]. intros _. split; [done|]. by destruct (decide _).
    - destruct (s_heap x !! m) as [[lk [?|]]|]; try done. destruct thr.
      + destruct (c_throws c); [|done]. by intros [= <- <-].
      + by intros [= <- <-].
    - destruct (s_heap x !! m); [|done]. by intros [= <- <-].
    - destruct (s_heap x !! m) as [[lk [?|]]|] eqn:Hnd; try done. intros [= <- <-]. simpl.
      rewrite (Hins _ _ _ _ Hnd). by destruct k.
    - destruct d as [|old|old]; simpl.
      + intros [= <- <-]. done.
      + destruct (s_heap x !! m) as [nd|] eqn:Hnd; [|done]. intros [= <- <-]. simpl.
        by rewrite (Hins _ _ _ _ Hnd).
      + destruct (decide _); intros [= <- <-]; [|done]. split; [done|]. intros H. split; [done|].
        by eapply (kgo_alloc m DLoad).
    - destruct k as [|k]; [by intros [= <- <-]|].
      destruct addr as [n|]; [|by intros [= <- <-]]. destruct (decide _); [|done].
      intros [= <- <-]. simpl. split; [set_solver|done].
    - by intros [= <- <-].
    - done.
  Qed.

  Lemma sstep_dom s ch s' evs :
    sstep c s ch = SNext s' evs -> dom (s_heap (s_sh s)) ⊆ dom (s_heap (s_sh s')).
  Proof.
    destruct ch as [t o|t sp addr thr|t o addrs thr]; intros H.
    - simpl in H. destruct (s_pcs s !! t); [done|]. destruct (sstart c o); [|done].
      by injection H as <- _.
    - apply sstep_run in H as (pc & _ & [(r & _ & -> & _)|(x' & pc' & H & -> & _)]); [done|].
      by apply tstep_dom in H as [H _].
    - cbn [sstep] in H. destruct (decide _); [|done].
      destruct (ucall c (s_sh s) o addrs thr) as [x' r| |] eqn:Hu; [|done..].
      injection H as <- _. by apply ucall_dom in Hu as [Hu _].
  Qed.

  Lemma sexec_dom s0 hist s :
    sexec c s0 hist s -> dom (s_heap (s_sh s0)) ⊆ dom (s_heap (s_sh s)).
  Proof. induction 1 as [|hist s ch s' evs He IH Hs]; [done|]. apply sstep_dom in Hs. set_solver. Qed.

  Lemma sstart_alloc o pc : sstart c o = Some pc -> may_alloc pc = allocates c o.
  Proof.
    destruct o as [b v|b vs| |rev| |n|v|vs| |n]; simpl; try done;
      try (destruct (c_node_based c) eqn:Hnb; [|done]); intros [= <-]; simpl; by rewrite ?Hnb.
  Qed.

  Lemma scall_alloc ns t o w s :
    scall c ns t o w s -> allocates c o = false ->
    exists pc, s_pcs s !! t = Some pc /\ may_alloc pc = false.
  Proof.
    intros Hc Ho. induction Hc as [hist s s' evs He Hne Hs|w s ch s' evs Hc (pc & Hpc & Hal) Hch Hs Hin].
    - cbn [sstep] in Hs. destruct (s_pcs s !! t); [done|]. destruct (sstart c o) as [pc|] eqn:Hst; [|done].
      injection Hs as <- <-. exists pc. simpl. rewrite lookup_insert. split; [done|].
      by rewrite (sstart_alloc _ _ Hst).
    - destruct ch as [t' o'|t' sp addr thr|t' o' addrs thr].
      + cbn [sstep] in Hs. destruct (s_pcs s !! t') eqn:Hn; [done|]. destruct (sstart c o'); [|done].
        injection Hs as <- _. exists pc. simpl. rewrite lookup_insert_ne by congruence. done.
      + apply sstep_run in Hs as (pc0 & Hpc0 & Hs).
        destruct (decide (t' = t)) as [->|Hne].
        * rewrite Hpc in Hpc0. injection Hpc0 as <-.
          destruct Hs as [(r & -> & -> & ->)|(x' & pc' & Hst & -> & ->)].
          -- destruct Hin as [pc0 Hin]. simpl in Hin. by rewrite lookup_delete in Hin.
          -- exists pc'. simpl. rewrite lookup_insert. split; [done|].
             apply tstep_dom in Hst as [_ Hst]. by apply Hst.
        * exists pc. destruct Hs as [(r & -> & -> & ->)|(x' & pc' & Hst & -> & ->)]; simpl.
          -- by rewrite lookup_delete_ne.
          -- by rewrite lookup_insert_ne.
      + cbn [sstep] in Hs. destruct (decide (s_pcs s = ∅)) as [He|]; [|done].
        by rewrite He, lookup_empty in Hpc.
  Qed.

  Lemma scall_noalloc ns t o w s sp addr thr s' evs :
    scall c ns t o w s -> allocates c o = false ->
    sstep c s (Run t sp addr thr) = SNext s' evs -> dom (s_heap (s_sh s')) = dom (s_heap (s_sh s)).
  Proof.
    intros Hc Ho Hs. destruct (scall_alloc _ _ _ _ _ Hc Ho) as (pc & Hpc & Hal).
    apply sstep_run in Hs as (pc0 & Hpc0 & Hs). rewrite Hpc in Hpc0. injection Hpc0 as <-.
    destruct Hs as [(r & -> & -> & ->)|(x' & pc' & Hst & -> & ->)]; [done|].
    apply tstep_dom in Hst as [_ Hst]. by apply Hst.
  Qed.

  (** Executions without calls that may allocate. *)
  Lemma sexec_noalloc s0 hist s :
    (forall t pc, s_pcs s0 !! t = Some pc -> may_alloc pc = false) ->
    sexec c s0 hist s ->
    (forall t o, Lin.Inv t o ∈ hist -> allocates c o = false) ->
    dom (s_heap (s_sh s)) = dom (s_heap (s_sh s0)) /\
    (forall t pc, s_pcs s !! t = Some pc -> may_alloc pc = false).
  Proof.
    intros H0. induction 1 as [|hist s ch s' evs He IH Hs]; intros Hin; [done|].
    destruct IH as [IH1 IH2].
    { intros t o Ht. apply (Hin t). apply elem_of_app. by left. }
    destruct ch as [t o|t sp addr thr|t o addrs thr].
    - cbn [sstep] in Hs. destruct (s_pcs s !! t); [done|]. destruct (sstart c o) as [pc|] eqn:Hst; [|done].
      injection Hs as <- <-. simpl. split; [done|]. intros t' pc'.
      rewrite lookup_insert_Some. intros [[_ <-]|[_ H]]; [|eauto].
      rewrite (sstart_alloc _ _ Hst). apply (Hin t). apply elem_of_app. right. left.
    - apply sstep_run in Hs as (pc & Hpc & [(r & -> & -> & ->)|(x' & pc' & H & -> & ->)]).
      + split; [done|]. intros t' pc'. simpl. rewrite lookup_delete_Some. intros [_ ?]. eauto.
      + apply tstep_dom in H as [_ H]. destruct (H (IH2 _ _ Hpc)) as [Hd Hm]. simpl.
        split; [by rewrite Hd|]. intros t' pc''. rewrite lookup_insert_Some.
        intros [[_ <-]|[_ ?]]; eauto.
    - cbn [sstep] in Hs. destruct (decide _); [|done].
      destruct (ucall c (s_sh s) o addrs thr) as [x' r| |] eqn:Hu; [|done..].
      injection Hs as <- <-. apply ucall_dom in Hu as [_ Hu]. simpl. rewrite Hu, IH1.
      + split; [done|]. intros t' pc'. by rewrite lookup_empty.
      + apply (Hin t). apply elem_of_app. right. left.
  Qed.

  Lemma pool_add_dom ns : forall (h : gmap N snode) p d0,
    dom (pool_add d0 ns h p).1 = dom h ∪ list_to_set ns.
  Proof.
    induction ns as [|n ns IH]; intros h p d0; simpl; [set_solver|].
    rewrite IH. set_solver.
  Qed.

  Lemma sinit_dom ns : dom (s_heap (s_sh (sinit c ns))) = list_to_set ns.
  Proof.
    unfold sinit, pool_init. pose proof (pool_add_dom ns ∅ (null, 0%N) None) as Hd.
    destruct (pool_add None ns ∅ (null, 0%N)) as [h p]. simpl in *. set_solver.
  Qed.

  (** ** Counting nodes *)

  Lemma gi_nodes_nodup x g : GI x g -> NoDup (g_sn g ++ g_fn g).
  Proof.
    intros HG. apply NoDup_app. split; [apply HG|]. split; [|apply (gi_pi _ _ _ HG)].
    intros n Hn Hf. apply (gi_mem _ _ _ HG) in Hn. apply (pi_mem _ _ _ _ _ (gi_pi _ _ _ HG)) in Hf.
    congruence.
  Qed.

  Lemma gi_size x g : GI x g -> length (g_a g) + length (g_fn g) <= size (s_heap x).
  Proof.
    intros HG. rewrite <- (vals_length _ _ _ (gi_a _ _ _ HG)), <- app_length.
    apply size_dom_ge; [by eapply gi_nodes_nodup|]. intros n Hn.
    apply (pi_dom _ _ _ _ _ (gi_pi _ _ _ HG)). apply elem_of_app in Hn as [Hn|Hn].
    - exists OQ. by apply (gi_mem _ _ _ HG).
    - exists OF. by apply (pi_mem _ _ _ _ _ (gi_pi _ _ _ HG)).
  Qed.

  Lemma inv_quiet_own s g n :
    c_throws c = false -> Inv s g -> s_pcs s = ∅ ->
    is_Some (s_heap (s_sh s) !! n) <-> n ∈ g_sn g ++ g_fn g.
  Proof.
    intros Hth [HG HT] He. rewrite <- (pi_dom _ _ _ _ _ (gi_pi _ _ _ HG)), elem_of_app.
    rewrite (gi_mem _ _ _ HG), (pi_mem _ _ _ _ _ (gi_pi _ _ _ HG)). split.
    - intros [[| |t|] Ho]; auto.
      + exfalso. pose proof (HT t) as Ht. rewrite He, lookup_empty in Ht. apply Ht in Ho.
        by apply elem_of_nil in Ho.
      + exfalso. by apply (gi_leak _ _ _ HG Hth n).
    - intros [H|H]; eauto.
  Qed.

  Lemma inv_quiet_size s g :
    c_throws c = false -> Inv s g -> s_pcs s = ∅ ->
    size (s_heap (s_sh s)) = length (g_a g) + length (g_fn g).
  Proof.
    intros Hth HI He. pose proof HI as [HG HT].
    rewrite <- (vals_length _ _ _ (gi_a _ _ _ HG)), <- app_length.
    rewrite <- size_dom, <- (size_list_to_set (C := gset N) _ (gi_nodes_nodup _ _ HG)).
    f_equal. apply set_eq. intros n. rewrite elem_of_dom, elem_of_list_to_set.
    by apply inv_quiet_own.
  Qed.

  (** ** A call that runs alone *)

  (** Steps of one thread without spurious failures and without answers of the
      allocator. *)
  Inductive tsteps : sshared -> spc -> nat -> sshared -> spc -> Prop :=
    | ts_nil x pc : tsteps x pc 0 x pc
    | ts_cons x pc x1 pc1 k x' pc' :
        tstep c x pc false None false = TGo x1 pc1 ->
        tsteps x1 pc1 k x' pc' -> tsteps x pc (S k) x' pc'.

  Lemma tsteps_run t x pc k x' r :
    tsteps x pc k x' (PcRet r) ->
    srun c (SSt x {[t := pc]}) (replicate (S k) (Run t false None false)) =
      Some ([Res t r], SSt x' ∅).
  Proof.
    remember (PcRet r) as pr. induction 1 as [x pc|x pc x1 pc1 k x' pc' Hst H IH]; subst.
    - cbn [replicate srun sstep s_pcs]. rewrite lookup_singleton. cbn [s_sh].
      by rewrite delete_singleton.
    - specialize (IH eq_refl). change (replicate (S (S k)) ?a) with (a :: replicate (S k) a).
      cbn [srun].
      assert (Hs : sstep c (SSt x {[t := pc]}) (Run t false None false) = SNext (SSt x1 {[t := pc1]}) []).
      { cbn [sstep s_pcs s_sh]. rewrite lookup_singleton.
        destruct pc; try (rewrite Hst, insert_singleton; reflexivity). done. }
      rewrite Hs, IH. done.
  Qed.

  Lemma srun_call s t o pc k x' r :
    s_pcs s = ∅ -> sstart c o = Some pc -> tsteps (s_sh s) pc k x' (PcRet r) ->
    srun c s (Invoke t o :: replicate (S k) (Run t false None false)) =
      Some ([Lin.Inv t o; Res t r], SSt x' ∅).
  Proof.
    intros He Hst Hts. cbn [srun]. cbn [sstep]. rewrite He, lookup_empty, Hst.
    unfold set_pc. rewrite He.
    assert (Hi : <[t := pc]> (∅ : gmap nat spc) = {[t := pc]}) by done.
    rewrite Hi, (tsteps_run _ _ _ _ _ _ Hts). done.
  Qed.

  (** Following links of a list. *)
  Lemma pool_dtor_seg {D} fuel : forall (h : gmap N (node D)) p fn,
    seg h p fn null -> NoDup fn -> null ∉ fn -> length fn <= fuel ->
    pool_dtor c fuel h p = Some fn.
  Proof.
    induction fuel as [|fuel IH]; intros h p fn Hs Hnd Hn Hl.
    - destruct fn as [|z fn]; [|simpl in Hl; lia]. simpl in *. by rewrite decide_True.
    - destruct fn as [|z fn].
      + simpl in *. by rewrite decide_True.
      + destruct Hs as (-> & y & Hy & Hs). simpl.
        apply not_elem_of_cons in Hn as [Hz0 Hn]. rewrite decide_False by congruence.
        apply nxp_inv in Hy as (nd & Hnd' & <-). rewrite Hnd'.
        apply list.NoDup_cons in Hnd as [Hz Hnd].
        rewrite (IH _ _ fn); [done| |done|done|simpl in Hl; lia].
        eapply seg_ext; [|exact Hs]. intros w Hw. unfold nxp. rewrite lookup_delete_ne; [done|].
        intros ->. done.
  Qed.

  Context (Htag : c_tagmod c = None).

  Lemma sreach_ok ns hist s :
    sreach c ns hist s -> exists g, Inv s g /\ erase (g_l g) = hist.
  Proof using Htag.
    intros (Hnd & Hnn & Hh & He). destruct (sinit_ok c ns Hnd Hnn) as (g0 & HI0 & Hl0 & _).
    eapply sexec_ok; [done|exact HI0|by rewrite Hl0|exact He|exact Hh].
  Qed.

  Lemma tsteps_ok t o a x pc k x' pc' :
    tsteps x pc k x' pc' -> forall g, GI x g -> tinv c t pc x g ->
    (pend g t o /\ g_a g = a) \/ (exists r, fin g t o r /\ spec a o r (g_a g)) ->
    exists g', GI x' g' /\ tinv c t pc' x' g' /\
      ((pend g' t o /\ g_a g' = a) \/ (exists r, fin g' t o r /\ spec a o r (g_a g'))).
  Proof using Htag.
    induction 1 as [x pc|x pc x1 pc1 k x' pc' Hst H IH]; intros g HG HT HP; [by exists g|].
    pose proof (tstep_ok c Htag t x g pc false None false HG HT) as Hok. rewrite Hst in Hok.
    destruct Hok as (g1 & HG1 & HT1 & _ & _ & Htr & _). eapply IH; [exact HG1|exact HT1|].
    destruct Htr as [[Hph Ha]|[(o1 & r1 & Hp1 & Hf1 & Hsp1)|(o1 & r1 & r2 & Hf1 & Hf2 & Ha & Hsp1)]].
    - unfold pend, fin. by rewrite Hph, Ha.
    - right. destruct HP as [[Hp <-]|(r & Hf & Hsp)]; [|unfold pend, fin in *; congruence].
      assert (o1 = o) as -> by (unfold pend in *; congruence). eauto.
    - right. destruct HP as [[Hp <-]|(r & Hf & Hsp)]; [unfold pend, fin in *; congruence|].
      assert (o1 = o /\ r1 = r) as [-> ->] by (unfold fin in *; split; congruence).
      exists r2. split; [done|]. rewrite Ha. by apply Hsp1.
  Qed.

  (** Hence what it does is what the specification says. *)
  Lemma solo_ok s g (t : nat) o pc k x' r :
    Inv s g -> s_pcs s = ∅ -> nonempty_op o -> sstart c o = Some pc ->
    tsteps (s_sh s) pc k x' (PcRet r) ->
    exists a', spec (g_a g) o r a' /\ scontents c (SSt x' ∅) a'.
  Proof using Htag.
    intros [HG HT] He Hne Hst Hts. pose proof (HT t) as Ht. rewrite He, lookup_empty in Ht.
    destruct Ht as [Hph Ho]. destruct (act_inv c _ _ _ o HG Hph) as [HG1 _].
    match type of HG1 with StackInv.GI _ _ ?g1 => set (g1' := g1) in * end.
    assert (Hp1 : pend g1' t o) by (unfold pend; simpl; by rewrite lookup_insert).
    destruct (tsteps_ok t o (g_a g) _ _ _ _ _ Hts g1' HG1) as (g2 & HG2 & (_ & o2 & Hf2) & HP2).
    { eapply sstart_ok; [exact Hst|exact Hne|exact Ho|exact Hp1]. }
    { by left. }
    destruct HP2 as [[Hp2 _]|(r2 & Hf2' & Hsp)]; [unfold pend, fin in *; congruence|].
    assert (r2 = r) as -> by (unfold fin in *; congruence).
    exists (g_a g2). split; [done|]. by apply (gi_contents _ (SSt x' ∅)).
  Qed.

  Lemma push_solo_fail x g b v :
    GI x g -> g_fn g = [] -> c_node_based c = false \/ b = true ->
    tsteps x (PcAlloc b v ALoad) 2 x (PcRet (SBool false)).
  Proof.
    intros HG Hfn Hb. apply (gi_pool_null c _ _ HG) in Hfn.
    econstructor; [simpl; reflexivity|]. rewrite set_heap_pool_id.
    econstructor; [|constructor]. simpl. rewrite decide_True by done.
    destruct (c_node_based c); [|done]. destruct b; [done|]. by destruct Hb.
  Qed.

  Lemma push_solo x g b v :
    GI x g -> g_fn g <> [] ->
    exists k x', tsteps x (PcAlloc b v ALoad) k x' (PcRet (SBool true)) /\
      (s_pool x').2 = next_tag c (s_pool x).2 /\ (s_tos x').2 = (s_tos x).2.
  Proof.
    intros HG Hfn. destruct (g_fn g) as [|n fn] eqn:Hf; [done|]. clear Hfn.
    pose proof (gi_pi _ _ _ HG) as HP. pose proof (pi_seg _ _ _ _ _ HP) as Hs. rewrite Hf in Hs.
    destruct Hs as (Hpn & y & Hy & Hs).
    assert (HnF : g_own g !! n = Some OF) by (apply (pi_mem _ _ _ _ _ HP); rewrite Hf; left).
    assert (Hnn : n <> null) by (by eapply (gi_own_not_null c x g n OF)).
    destruct (gi_raw _ _ _ HG n HnF) as [lk Hlk].
    eexists 7, _. split; [|split; [|]].
    econstructor; [simpl; reflexivity|]. rewrite set_heap_pool_id.
    econstructor.
    { simpl. rewrite decide_False by congruence. rewrite Hpn, Hlk. reflexivity. }
    rewrite set_heap_pool_id. econstructor.
    { simpl. rewrite decide_True by done. rewrite Hpn. reflexivity. }
    econstructor.
    { simpl. rewrite Hlk. reflexivity. }
    econstructor; [simpl; reflexivity|].
    econstructor.
    { simpl. rewrite lookup_insert. reflexivity. }
    econstructor; [|apply ts_nil].
    { simpl. rewrite decide_True by done. reflexivity. }
    { done. }
    { done. }
  Qed.

  (** bounded_push (push, if fixed-size) without other calls. *)
  Lemma push_quiet ns hist s a t b v :
    c_throws c = false -> sreach c ns hist s -> quiescent s -> scontents c s a ->
    c_node_based c = false \/ b = true ->
    exists k s', srun c s (Invoke t (SPush b v) :: replicate k (Run t false None false)) =
        Some ([Lin.Inv t (SPush b v); Res t (SBool (bool_decide (length a < size (s_heap (s_sh s)))))], s') /\
      quiescent s' /\
      scontents c s' (if decide (length a < size (s_heap (s_sh s))) then v :: a else a).
  Proof using Htag.
    intros Hth Hr Hq Ha Hb. destruct (sreach_ok _ _ _ Hr) as (g & HI & _).
    assert (a = g_a g) as -> by (by eapply inv_contents).
    pose proof (inv_quiet_size _ _ Hth HI Hq) as Hsz. pose proof HI as [HG _].
    destruct (g_fn g) as [|n fn] eqn:Hfn; simpl in Hsz.
    - pose proof (push_solo_fail _ _ b v HG Hfn Hb) as Hts.
      exists 3, (SSt (s_sh s) ∅). rewrite decide_False by lia. rewrite bool_decide_eq_false_2 by lia.
      split; [by apply (srun_call s t (SPush b v) (PcAlloc b v ALoad) 2 _ _ Hq eq_refl)|]. split; [done|].
      apply (gi_contents _ (SSt (s_sh s) ∅)), HG.
    - destruct (push_solo _ _ b v HG ltac:(by rewrite Hfn)) as (k & x' & Hts & _).
      exists (S k), (SSt x' ∅). rewrite decide_True by lia. rewrite bool_decide_eq_true_2 by lia.
      split; [by apply (srun_call s t (SPush b v) (PcAlloc b v ALoad) k _ _ Hq eq_refl)|]. split; [done|].
      destruct (solo_ok s g t (SPush b v) _ k x' _ HI Hq I eq_refl Hts) as (a' & Hsp & Hc).
      inversion Hsp; subst. done.
  Qed.

  (** ** reserve *)

  Inductive rsv (t n m0 : nat) (a : list N) : sshared -> spc -> Prop :=
    | rsv_loop x g k : GI x g -> pend g t (SReserve n) -> owns t g [] -> g_a g = a -> k <= n ->
        size (s_heap x) + k = m0 + n -> rsv t n m0 a x (PcReserve k)
    | rsv_dealloc x g m d k : GI x g -> tinv c t (PcDealloc m d (KReserve k)) x g ->
        pend g t (SReserve n) -> g_a g = a -> k <= n ->
        size (s_heap x) + k = m0 + n -> rsv t n m0 a x (PcDealloc m d (KReserve k))
    | rsv_done x g : GI x g -> g_a g = a -> size (s_heap x) = m0 + n -> rsv t n m0 a x (PcRet SUnit)
    | rsv_exn x g : GI x g -> g_a g = a -> m0 <= size (s_heap x) <= m0 + n -> rsv t n m0 a x (PcRet (SExn [])).

  Lemma rsv_step t n m0 a x pc sp addr thr x' pc' :
    m0 <= size (s_heap x) ->
    rsv t n m0 a x pc -> tstep c x pc sp addr thr = TGo x' pc' ->
    rsv t n m0 a x' pc' /\ m0 <= size (s_heap x').
  Proof using Htag.
    intros Hm0. destruct 1 as [x g k HG Hp Ho Ha Hk Hsz|x g m d k HG HT Hp Ha Hk Hsz|x g HG Ha Hsz|x g HG Ha Hsz];
      intros Hst; [| |done..].
    - assert (HT : tinv c t (PcReserve k) x g) by (split; [done|by exists n]).
      pose proof (tstep_ok c Htag t x g _ sp addr thr HG HT) as Hok. rewrite Hst in Hok.
      destruct Hok as (g' & HG' & HT' & _ & _ & Htr & _).
      simpl in Hst. destruct k as [|k].
      + injection Hst as <- <-. split; [|done]. apply (rsv_done _ _ _ _ _ g); [done|done|lia].
      + destruct addr as [m|].
        * destruct (decide _) as [[Hf Hn]|]; [|done]. injection Hst as <- <-.
          assert (Hsz' : size (<[m := Node (null, 0%N) None]> (s_heap x)) = S (size (s_heap x))).
          { by rewrite map_size_insert_None. }
          split; [|simpl; lia].
          pose proof HT' as (L & _ & _ & _ & (_ & m' & Hp')).
          destruct Htr as [[Hph Ha']|[(o1 & r1 & Hp1 & Hf1 & Hsp1)|(o1 & r1 & r2 & Hf1 & Hf2 & Ha' & Hsp1)]];
            [|unfold pend, fin in *; congruence..].
          eapply rsv_dealloc; [exact HG'|exact HT'|unfold pend in *; congruence|congruence|lia|].
          simpl. rewrite Hsz'. lia.
        * injection Hst as <- <-. split; [|done]. apply (rsv_exn _ _ _ _ _ g); [done|done|lia].
    - pose proof (tstep_ok c Htag t x g _ sp addr thr HG HT) as Hok. rewrite Hst in Hok.
      destruct Hok as (g' & HG' & HT' & _ & _ & Htr & _).
      assert (Hsz' : size (s_heap x') = size (s_heap x)).
      { cbn [tstep] in Hst. destruct d as [|old|old]; simpl in Hst.
        - by injection Hst as <- _.
        - destruct (s_heap x !! m) as [nd|] eqn:Hnd; [|done]. injection Hst as <- _. simpl.
          by rewrite map_size_insert, Hnd.
        - destruct (decide _); by injection Hst as <- _. }
      split; [|lia].
      assert (Hpc' : (exists d', pc' = PcDealloc m d' (KReserve k)) \/ pc' = PcReserve k).
      { cbn [tstep] in Hst. destruct (dstep _ _ _ _ _); [| |done]; injection Hst as _ <-; eauto. }
      destruct Hpc' as [[d' ->]| ->].
      + pose proof HT' as (L & _ & _ & _ & (_ & m' & Hp')).
        destruct Htr as [[Hph Ha']|[(o1 & r1 & Hp1 & Hf1 & Hsp1)|(o1 & r1 & r2 & Hf1 & Hf2 & Ha' & Hsp1)]];
          [|unfold pend, fin in *; congruence..].
        eapply rsv_dealloc; [exact HG'|exact HT'|unfold pend in *; congruence|congruence|done|lia].
      + pose proof HT' as (Ho' & m' & Hp').
        destruct Htr as [[Hph Ha']|[(o1 & r1 & Hp1 & Hf1 & Hsp1)|(o1 & r1 & r2 & Hf1 & Hf2 & Ha' & Hsp1)]];
          [|unfold pend, fin in *; congruence..].
        eapply rsv_loop; [exact HG'|unfold pend in *; congruence|done|congruence|done|lia].
  Qed.

  Definition is_run (t : nat) (ch : schoice) : Prop := exists sp addr thr, ch = Run t sp addr thr.

  Lemma rsv_run n m0 a t chs : forall x pc h s',
    m0 <= size (s_heap x) -> rsv t n m0 a x pc -> Forall (is_run t) chs ->
    srun c (SSt x {[t := pc]}) chs = Some (h, s') -> Res t SUnit ∈ h ->
    size (s_heap (s_sh s')) = m0 + n /\ scontents c s' a /\ s_pcs s' = ∅.
  Proof using Htag.
    induction chs as [|ch chs IH]; intros x pc h s' Hm0 HR HF Hrun Hin.
    - simpl in Hrun. injection Hrun as <- <-. by apply elem_of_nil in Hin.
    - apply Forall_cons_1 in HF as [(sp & addr & thr & ->) HF]. cbn [srun] in Hrun.
      destruct (sstep c (SSt x {[t := pc]}) (Run t sp addr thr)) as [s1 evs| |] eqn:Hs; [|done..].
      apply sstep_run in Hs as (pc0 & Hpc0 & Hs). simpl in Hpc0. rewrite lookup_singleton in Hpc0.
      injection Hpc0 as <-. destruct Hs as [(r & -> & -> & ->)|(x' & pc' & Hst & -> & ->)].
      + simpl in Hrun. rewrite delete_singleton in Hrun.
        destruct chs as [|ch chs].
        * simpl in Hrun. injection Hrun as <- <-. apply elem_of_list_singleton in Hin. injection Hin as <-.
          inversion HR as [| |x' g HG Ha Hsz|]; subst. simpl. split; [done|]. split; [|done].
          by apply gi_contents.
        * exfalso. apply Forall_cons_1 in HF as [(sp' & addr' & thr' & ->) HF]. cbn [srun sstep s_pcs] in Hrun.
          by rewrite lookup_empty in Hrun.
      + simpl in Hrun. rewrite insert_singleton in Hrun.
        destruct (srun c (SSt x' {[t := pc']}) chs) as [[h' s'']|] eqn:Hr; [|done].
        simpl in Hrun. injection Hrun as <- <-.
        destruct (rsv_step _ _ _ _ _ _ _ _ _ _ _ Hm0 HR Hst) as [HR' Hm0'].
        by eapply IH.
  Qed.

  Lemma reserve_main ns hist s a t n chs h s' :
    sreach c ns hist s -> quiescent s -> scontents c s a ->
    Forall (is_run t) chs ->
    srun c s (Invoke t (SReserve n) :: chs) = Some (h, s') -> Res t SUnit ∈ h ->
    size (s_heap (s_sh s')) = size (s_heap (s_sh s)) + n /\ scontents c s' a /\ quiescent s'.
  Proof using Htag.
    intros Hr He Ha HF Hrun Hin. destruct (sreach_ok _ _ _ Hr) as (g & HI & _).
    assert (a = g_a g) as -> by (by eapply inv_contents).
    destruct HI as [HG HT]. unfold quiescent in He. cbn [srun] in Hrun. cbn [sstep] in Hrun.
    rewrite He, lookup_empty in Hrun.
    destruct (sstart c (SReserve n)) as [pc|] eqn:Hst; [|done].
    simpl in Hst. destruct (c_node_based c); [|done]. injection Hst as <-.
    unfold set_pc in Hrun. rewrite He in Hrun.
    assert (Hi : <[t := PcReserve n]> (∅ : gmap nat spc) = {[t := PcReserve n]}) by done.
    rewrite Hi in Hrun.
    destruct (srun c (SSt (s_sh s) {[t := PcReserve n]}) chs) as [[h' s'']|] eqn:Hrr; [|done].
    injection Hrun as <- <-. apply elem_of_cons in Hin as [Hin|Hin]; [done|].
    pose proof (HT t) as Ht. rewrite He, lookup_empty in Ht. destruct Ht as [Hn Ho].
    destruct (act_inv c _ _ _ (SReserve n) HG Hn) as [HG1 _].
    eapply (rsv_run n (size (s_heap (s_sh s))) (g_a g) t chs); [done| |exact HF|exact Hrr|exact Hin].
    eapply rsv_loop; [exact HG1|unfold pend; simpl; by rewrite lookup_insert|exact Ho|done|done|done].
  Qed.

  (** ** Destruction *)

  Lemma upop_enabled x : upop c x false <> UDisabled.
  Proof.
    unfold upop. destruct (decide _); [done|]. destruct (s_heap x !! (s_tos x).1) as [[lk [v|]]|]; try done.
    by rewrite (dealloc_unsafe_ok _ _ _ _ (lookup_insert _ _ _)).
  Qed.

  Lemma dtor_pop fuel : forall s g,
    Inv s g -> s_pcs s = ∅ -> length (g_a g) < fuel ->
    exists x' g', sdtor_pop c fuel (s_sh s) = Some (x', g_a g) /\ Inv (SSt x' ∅) g' /\ g_a g' = [] /\
                  dom (s_heap x') = dom (s_heap (s_sh s)) /\ lossless g g'.
  Proof using Htag.
    induction fuel as [|fuel IH]; intros s g HI He Hf; [lia|].
    pose proof (ustep_ok c Htag s g 0 SUPop [] None I HI He) as Hok. cbn [ucall] in Hok.
    rewrite bool_decide_eq_false_2 in Hok by (by intros [? ?]).
    simpl. pose proof (upop_enabled (s_sh s)) as Hen.
    destruct (upop c (s_sh s) false) as [x' r| |] eqn:Hu; [|done|done].
    destruct Hok as (g' & HI' & _ & Hsp & HK). apply lossy_none in HK.
    pose proof (upop_dom _ _ _ _ Hu) as Hdom.
    assert (Hr : forall vs, r <> SExn vs).
    { intros vs ->. unfold upop in Hu. destruct (decide _); [done|].
      destruct (s_heap (s_sh s) !! (s_tos (s_sh s)).1) as [[lk [v|]]|]; try done.
      by rewrite (dealloc_unsafe_ok _ _ _ _ (lookup_insert _ _ _)) in Hu. }
    inversion Hsp as [| | | | | | | | | | | | | | | | | |a v Ha| | | |]; subst; try (by edestruct Hr).
    - destruct (IH (SSt x' ∅) g' HI' eq_refl) as (x2 & g2 & H1 & H2 & H3 & H4 & H5).
      { rewrite <- Ha in Hf. simpl in Hf. lia. }
      exists x2, g2. simpl in *. rewrite H1, H4, Hdom. do 4 (split; [done|]).
      intros n Hn. by apply HK, H5.
    - exists x', g'. done.
  Qed.

  Lemma dtor_inv s g :
    c_throws c = false -> Inv s g -> s_pcs s = ∅ ->
    exists l, sdtor c (s_sh s) = Some (g_a g, l) /\ NoDup l /\
      forall n, n ∈ l <-> is_Some (s_heap (s_sh s) !! n).
  Proof using Htag.
    intros Hth HI He. unfold sdtor.
    destruct (dtor_pop (S (size (s_heap (s_sh s)))) s g HI He) as (x' & g' & -> & HI' & Ha' & Hdom & _).
    { pose proof HI as [HG _]. pose proof (gi_size _ _ HG). lia. }
    pose proof HI' as [HG' HT']. simpl in HG'. exists (g_fn g').
    pose proof (gi_pi _ _ _ HG') as HP. pose proof (gi_size _ _ HG') as Hsz. rewrite Ha' in Hsz.
    split; [|split; [apply HP|]].
    - rewrite (pool_dtor_seg _ _ _ (g_fn g')); [done|apply HP|apply HP| |lia].
      intros Hn. apply (pi_mem _ _ _ _ _ HP) in Hn. by eapply PI_not_null in Hn.
    - intros n. rewrite <- elem_of_dom, <- Hdom, elem_of_dom.
      pose proof (inv_quiet_own (SSt x' ∅) g' n Hth HI' eq_refl) as Hown. simpl in Hown.
      rewrite Hown. by rewrite (proj2 (gi_a_nil c _ _ HG') Ha').
  Qed.

  Lemma dtor_main ns hist s a :
    c_throws c = false -> sreach c ns hist s -> quiescent s -> scontents c s a ->
    exists l, sdtor c (s_sh s) = Some (a, l) /\ NoDup l /\
      forall n, n ∈ l <-> is_Some (s_heap (s_sh s) !! n).
  Proof using Htag.
    intros Hth Hr He Ha. destruct (sreach_ok _ _ _ Hr) as (g & HI & _).
    assert (a = g_a g) as -> by (by eapply inv_contents). by apply dtor_inv.
  Qed.
End quiet.
