(** * Calls that run alone, and the destructor *)
From stdpp Require Import gmap list numbers.
From Verif Require Import Lin PoolModel Chain PoolProofs QueueModel QueueSpec QueueObs
  QueueInv QueueStep QueueSafe QueueObsProofs QueueQuiet.

Set Default Proof Using "Type".

Section solo.
  Context (c : cfg).
  Notation null := (c_null c).
  Notation spec := (qspec (c_node_based c) (c_throws c)).
  Notation GI := (GI c).
  Notation Inv := (Inv c).
  Notation nonlag := (nonlag c).

  (** Steps of one thread without spurious failures and without answers of the
      allocator. *)
  Inductive tsteps : qshared -> qpc -> nat -> qshared -> qpc -> Prop :=
    | ts_nil x pc : tsteps x pc 0 x pc
    | ts_cons x pc x1 pc1 k x' pc' :
        tstep c x pc false None false = TGo x1 pc1 ->
        tsteps x1 pc1 k x' pc' -> tsteps x pc (S k) x' pc'.

  Lemma tsteps_app x pc k x1 pc1 k' x' pc' :
    tsteps x pc k x1 pc1 -> tsteps x1 pc1 k' x' pc' -> tsteps x pc (k + k') x' pc'.
  Proof. induction 1; [done|]. intros. simpl. econstructor; eauto. Qed.

  Lemma tsteps_run t x pc k x' r :
    tsteps x pc k x' (PcRet r) ->
    qrun c (QSt x {[t := pc]}) (replicate (S k) (Run t false None false)) =
      Some ([Res t r], QSt x' ∅).
  Proof.
    remember (PcRet r) as pr. induction 1 as [x pc|x pc x1 pc1 k x' pc' Hst H IH]; subst.
    - cbn [replicate qrun qstep q_pcs]. rewrite lookup_singleton. cbn [q_sh].
      by rewrite delete_singleton.
    - specialize (IH eq_refl). change (replicate (S (S k)) ?a) with (a :: replicate (S k) a).
      cbn [qrun]. 
      assert (Hs : qstep c (QSt x {[t := pc]}) (Run t false None false) = QNext (QSt x1 {[t := pc1]}) []).
      { cbn [qstep q_pcs q_sh]. rewrite lookup_singleton.
        destruct pc; try (rewrite Hst, insert_singleton; reflexivity). done. }
      rewrite Hs, IH. done.
  Qed.

  Lemma qrun_call s t o tf pc k x' r :
    q_pcs s = ∅ -> qstart c o tf = Some pc -> tsteps (q_sh s) pc k x' (PcRet r) ->
    qrun c s (Invoke t o tf :: replicate (S k) (Run t false None false)) =
      Some ([Lin.Inv t o; Res t r], QSt x' ∅).
  Proof.
    intros He Hst Hts. cbn [qrun]. cbn [qstep]. rewrite He, lookup_empty, Hst.
    unfold set_pc. rewrite He.
    assert (Hi : <[t := pc]> (∅ : gmap nat qpc) = {[t := pc]}) by done.
    rewrite Hi, (tsteps_run _ _ _ _ _ _ Hts). done.
  Qed.

  (** Copying the words of an element. *)
  Lemma tsteps_words v n : forall m k x lk d,
    length v = k + m -> q_heap x !! n = Some (Node lk d) -> length d = length v ->
    take k d = take k v ->
    tsteps x (PcWord v n k) m (set_heap x (<[n := Node lk v]> (q_heap x))) (PcWord v n (length v)).
  Proof.
    induction m as [|m IH]; intros k x lk d Hl Hn Hd Ht.
    - assert (k = length v) as -> by lia. rewrite <- Hd in Ht at 1. rewrite !firstn_all in Ht. subst d.
      rewrite insert_id by done. destruct x. constructor.
    - destruct (lookup_lt_is_Some_2 v k) as [w Hw]; [lia|].
      econstructor.
      + simpl. rewrite Hn, Hw. reflexivity.
      + set (x1 := set_heap x _).
        replace (set_heap x (<[n:=Node lk v]> (q_heap x)))
          with (set_heap x1 (<[n:=Node lk v]> (q_heap x1))).
        * apply (IH (S k) x1 lk (<[k := w]> d)).
          -- lia.
          -- simpl. by rewrite lookup_insert.
          -- by rewrite insert_length.
          -- by apply take_S_insert.
        * unfold x1, set_heap. simpl. by rewrite insert_insert.
  Qed.

  (** Copying an element out. *)
  Lemma tsteps_copy hd np : forall m acc x nd,
    q_heap x !! np = Some nd -> length (dat nd) = c_words c -> c_words c = length acc + m ->
    acc = take (length acc) (dat nd) ->
    tsteps x (PcOCopy hd np acc) m x (PcOCopy hd np (dat nd)).
  Proof.
    induction m as [|m IH]; intros acc x nd Hn Hl Hw Ha.
    - assert (acc = dat nd) as ->; [|constructor].
      rewrite Ha. apply take_ge. lia.
    - destruct (lookup_lt_is_Some_2 (dat nd) (length acc)) as [w Hv]; [lia|].
      econstructor.
      + simpl. rewrite decide_True by lia. rewrite Hn, Hv. reflexivity.
      + apply IH; [done|done|rewrite app_length; simpl; lia|].
        rewrite app_length. simpl. rewrite Nat.add_1_r, (take_S_r _ _ _ Hv), <- Ha. done.
  Qed.

  Lemma gi_pool_null x g : GI x g -> (q_pool x).1 = null <-> g_fn g = [].
  Proof.
    intros HG. pose proof (gi_pi _ _ _ HG) as HP. pose proof (pi_seg _ _ _ _ _ HP) as Hs.
    destruct (g_fn g) as [|z fn]; [done|]. destruct Hs as [Hz _]. split; [|done].
    intros Hn. exfalso. eapply (PI_not_null c _ _ _ _ z OF HP); [|congruence].
    apply (pi_mem _ _ _ _ _ HP). left.
  Qed.

  Context (Htag : c_tagmod c = None).

  Lemma push_solo_fail x g b v :
    GI x g -> g_fn g = [] -> c_node_based c = false \/ b = true ->
    tsteps x (PcAlloc b v ALoad) 2 x (PcRet (RBool false)).
  Proof.
    intros HG Hfn Hb. apply (gi_pool_null _ _ HG) in Hfn.
    econstructor; [simpl; reflexivity|]. rewrite set_heap_pool_id.
    econstructor; [|constructor]. simpl. rewrite decide_True by done.
    destruct (c_node_based c); [|done]. destruct b; [done|]. by destruct Hb.
  Qed.

  Lemma push_solo x g t b v :
    GI x g -> pend g t (Push b v) -> length v = c_words c -> nonlag x -> g_fn g <> [] ->
    exists k x' g', tsteps x (PcAlloc b v ALoad) k x' (PcRet (RBool true)) /\
      GI x' g' /\ g_a g' = g_a g ++ [v] /\
      (q_pool x').2 = next_tag c (q_pool x).2 /\ q_head x' = q_head x.
  Proof using Htag.
    intros HG Hp Hv HL Hfn. destruct (g_fn g) as [|n fn] eqn:Hf; [done|]. clear Hfn.
    pose proof (gi_pi _ _ _ HG) as HP. pose proof (pi_seg _ _ _ _ _ HP) as Hs. rewrite Hf in Hs.
    destruct Hs as (Hpn & y & Hy & Hs).
    assert (HnF : g_own g !! n = Some OF) by (apply (pi_mem _ _ _ _ _ HP); rewrite Hf; left).
    assert (Hnn : n <> null) by (by eapply (gi_own_not_null c x g n OF)).
    destruct (gi_tail_dom _ _ _ HG) as [ndt Hndt].
    assert (Hnt : n <> (q_tail x).1).
    { intros ->. rewrite (gi_tail_Q _ _ _ HG) in HnF. done. }
    unfold nonlag in HL. rewrite (nxp_Some _ _ _ Hndt) in HL. injection HL as HL.
    apply nxp_inv in Hy as (nd & Hnd & Hy). destruct nd as [lk d]. simpl in Hy.
    pose proof (gi_len _ _ _ HG _ _ Hnd) as Hd. simpl in Hd.
    (* the states *)
    destruct (act_pool_pop c x g t n fn (y, next_tag c (q_pool x).2) HG Hf) as [HG1 _].
    { rewrite (nxp_Some _ _ _ Hnd). by rewrite <- Hy. }
    { simpl. by apply next_tag_succ. }
    match type of HG1 with GI ?x1 ?g1 => set (x1' := x1) in *; set (g1' := g1) in * end.
    destruct (act_write c x1' g1' t n (Node lk d) (Node lk v) HG1) as [HG2 _].
    { simpl. by rewrite lookup_insert. }
    { done. }
    { simpl. lia. }
    { done. }
    match type of HG2 with GI ?x2 _ => set (x2' := x2) in * end.
    destruct (act_write c x2' g1' t n (Node lk v) (Node (null, next_tag c lk.2) v) HG2) as [HG3 _].
    { simpl. by rewrite lookup_insert. }
    { simpl. by rewrite lookup_insert. }
    { simpl. rewrite next_tag_succ by done. lia. }
    { done. }
    match type of HG3 with GI ?x3 _ => set (x3' := x3) in * end.
    destruct (act_link c x3' g1' t (Push b v) (RBool true) n (Node (null, next_tag c lk.2) v) ndt
                (next_tag c (nx ndt).2) HG3) as [HG4 _].
    { done. }
    { constructor. }
    { simpl. by rewrite lookup_insert. }
    { simpl. by rewrite lookup_insert. }
    { done. }
    { simpl. by rewrite !lookup_insert_ne. }
    { done. }
    { rewrite next_tag_succ by done. lia. }
    match type of HG4 with GI ?x4 ?g4 => set (x4' := x4) in *; set (g4' := g4) in * end.
    destruct (act_tail c x4' g4' t n (next_tag c (q_tail x).2) HG4) as [HG5 _].
    { simpl. by rewrite nxp_insert. }
    { done. }
    { simpl. rewrite next_tag_succ by done. lia. }
    eexists (3 + (length v + 7)), _, g4'. split; [|split; [exact HG5|done]].
    eapply tsteps_app.
    { econstructor; [simpl; reflexivity|]. rewrite set_heap_pool_id.
      econstructor.
      { simpl. rewrite decide_False by congruence. rewrite Hpn, Hnd. reflexivity. }
      rewrite set_heap_pool_id. econstructor; [|apply ts_nil].
      simpl. rewrite decide_True by done. rewrite Hpn. reflexivity. }
    assert (Hx1 : set_heap_pool x (q_heap x) (lk.1, next_tag c (q_pool x).2) = x1').
    { unfold x1'. by rewrite Hy. }
    rewrite Hx1. eapply tsteps_app.
    { apply (tsteps_words v n (length v) 0 x1' lk d); [done|done|congruence|done]. }
    fold x2'. econstructor.
    { simpl. rewrite lookup_insert. rewrite (lookup_ge_None_2 v (length v)) by lia. reflexivity. }
    econstructor.
    { simpl. rewrite lookup_insert. reflexivity. }
    fold x3'.
    econstructor; [simpl; reflexivity|].
    econstructor.
    { simpl. rewrite !lookup_insert_ne by done. rewrite Hndt. reflexivity. }
    econstructor.
    { simpl. rewrite decide_True by done. rewrite decide_True by done. reflexivity. }
    econstructor.
    { simpl. rewrite !lookup_insert_ne by done. rewrite Hndt. rewrite decide_True by done. reflexivity. }
    econstructor; [|apply ts_nil].
    { simpl. rewrite decide_True by done. reflexivity. }
  Qed.

  Lemma head_next_null x g nd :
    GI x g -> q_heap x !! (q_head x).1 = Some nd ->
    ((nx nd).1 = null <-> g_a g = []) /\
    (nonlag x -> (q_head x).1 = (q_tail x).1 <-> g_a g = []) /\
    ((nx nd).1 <> null -> exists nd2 a, q_heap x !! (nx nd).1 = Some nd2 /\ g_a g = dat nd2 :: a).
  Proof.
    intros HG Hnd. destruct (gi_head_cons _ _ _ HG) as [q Hq]. pose proof (gi_qseg _ _ _ HG) as Hsg.
    pose proof (gi_a _ _ _ HG) as HF. rewrite Hq in HF. simpl in HF. rewrite drop_0 in HF.
    rewrite Hq in Hsg. destruct Hsg as (_ & y & Hy & Hsg).
    rewrite (nxp_Some _ _ _ Hnd) in Hy. injection Hy as <-.
    pose proof (gi_tail_in _ _ _ HG) as Hti. rewrite Hq in Hti.
    destruct q as [|z q].
    - apply Forall2_nil_inv_l in HF. simpl in Hsg. apply elem_of_list_singleton in Hti.
      split; [done|]. split; [by rewrite Hti|]. done.
    - destruct Hsg as [Hz Hsg].
      assert (Hn : (nx nd).1 <> null).
      { rewrite Hz. intros ->. apply (gi_null_nin _ _ _ HG). rewrite Hq. right. left. }
      destruct (g_a g) as [|v a]; [by inversion HF|].
      apply Forall2_cons_1 in HF as [(nd2 & Hnd2 & <-) HF]. rewrite Hz in *.
      split; [done|]. split; [|eauto]. intros HL. split; [|done]. intros Heq. exfalso.
      unfold QueueQuiet.nonlag in HL. rewrite <- Heq, (nxp_Some _ _ _ Hnd) in HL. congruence.
  Qed.

  Lemma pop_solo_empty x g :
    GI x g -> nonlag x -> g_a g = [] -> tsteps x PcOHead 4 x (PcRet (RPop None)).
  Proof.
    intros HG HL Ha. destruct (gi_head_dom _ _ _ HG) as [nd Hnd].
    destruct (head_next_null _ _ _ HG Hnd) as (H1 & H2 & _).
    econstructor; [simpl; reflexivity|]. econstructor; [simpl; reflexivity|].
    econstructor; [simpl; rewrite Hnd; reflexivity|].
    econstructor; [|apply ts_nil]. simpl. rewrite decide_True by done.
    rewrite decide_True by (by apply H2). rewrite decide_True by (by apply H1). done.
  Qed.

  Lemma pop_solo x g t v a :
    GI x g -> pend g t Pop -> nonlag x -> g_a g = v :: a ->
    exists k x' g', tsteps x PcOHead k x' (PcRet (RPop (Some v))) /\ GI x' g' /\ g_a g' = a /\
      (q_pool x').2 = (q_pool x).2 /\ (q_head x').2 = next_tag c (q_head x).2.
  Proof using Htag.
    intros HG Hp HL Ha. destruct (gi_head_dom _ _ _ HG) as [nd Hnd].
    destruct (head_next_null _ _ _ HG Hnd) as (H1 & H2 & H3).
    assert (Hn : (nx nd).1 <> null) by (intros Hn; apply H1 in Hn; congruence).
    destruct (H3 Hn) as (nd2 & a2 & Hnd2 & Ha2). rewrite Ha in Ha2. injection Ha2 as Hv <-.
    assert (Hht : (q_head x).1 <> (q_tail x).1).
    { intros He. apply H2 in He; [congruence|done]. }
    destruct (act_head c x g t Pop (RPop (Some (dat nd2))) (nx nd).1 nd2 (next_tag c (q_head x).2)
                HG Hp (fun a' => sp_pop _ _ a' _)) as (a' & Ha' & HG1 & _); try done.
    { by apply nxp_Some. }
    { rewrite next_tag_succ by done. lia. }
    rewrite Ha in Ha'. injection Ha' as _ <-.
    match type of HG1 with GI ?x1 ?g1 => set (x1' := x1) in *; set (g1' := g1) in * end.
    destruct (act_write c x1' g1' t (q_head x).1 nd (Node ((q_pool x).1, (nx nd).2) (dat nd)) HG1)
      as [HG2 _].
    { simpl. by rewrite lookup_insert. }
    { done. }
    { simpl. lia. }
    { simpl. by eapply gi_len. }
    match type of HG2 with GI ?x2 _ => set (x2' := x2) in * end.
    destruct (act_pool_push c x2' g1' t (q_head x).1 HG2) as [HG3 _].
    { simpl. by rewrite lookup_insert. }
    { simpl. by rewrite nxp_insert. }
    eexists (4 + (c_words c + 4)), _, _. split; [|split; [exact HG3|done]].
    eapply tsteps_app.
    { econstructor; [simpl; reflexivity|]. econstructor; [simpl; reflexivity|].
      econstructor; [simpl; rewrite Hnd; reflexivity|].
      econstructor; [|apply ts_nil]. simpl. rewrite decide_True by done.
      rewrite decide_False by done. rewrite decide_False by done. reflexivity. }
    pose proof (gi_len _ _ _ HG _ _ Hnd2) as Hlen.
    eapply tsteps_app.
    { by apply (tsteps_copy _ _ (c_words c) [] x nd2). }
    econstructor.
    { simpl. rewrite decide_False by lia. rewrite decide_True by done. reflexivity. }
    fold x1'. econstructor; [simpl; reflexivity|].
    econstructor; [simpl; rewrite Hnd; reflexivity|].
    econstructor; [|apply ts_nil]. simpl. rewrite decide_True by done. rewrite Hv. reflexivity.
  Qed.

  Lemma empty_solo x g (tf : bool) :
    GI x g -> nonlag x ->
    tsteps x (if tf then PcETail else PcEHead) 2 x (PcRet (RBool (bool_decide (g_a g = [])))).
  Proof.
    intros HG HL. destruct (gi_head_dom _ _ _ HG) as [nd Hnd].
    destruct (head_next_null _ _ _ HG Hnd) as (_ & H2 & _). specialize (H2 HL).
    destruct tf; (econstructor; [simpl; reflexivity|]); (econstructor; [|apply ts_nil]); simpl;
      by rewrite (bool_decide_ext ((q_head x).1 = (q_tail x).1) (g_a g = []) H2).
  Qed.

  (** ** reserve *)

  (** A call of [Reserve n] running alone, from [x0] with [m0] nodes. *)
  Inductive rsv (n m0 : nat) (a : list val) : qshared -> qpc -> Prop :=
    | rsv_loop x g t k : GI x g -> pend g t (Reserve n) -> g_a g = a -> k <= n ->
        size (q_heap x) + k = m0 + n -> rsv n m0 a x (PcReserve k)
    | rsv_dealloc x g t m d k : GI x g -> pend g t (Reserve n) -> g_a g = a -> k <= n ->
        g_own g !! m = Some (OT t) -> dinv (q_heap x) m d ->
        size (q_heap x) + k = m0 + n -> rsv n m0 a x (PcDealloc m d (KReserve k))
    | rsv_done x g : GI x g -> g_a g = a -> size (q_heap x) = m0 + n -> rsv n m0 a x (PcRet RUnit)
    | rsv_exn x g : GI x g -> g_a g = a -> m0 <= size (q_heap x) <= m0 + n -> rsv n m0 a x (PcRet RExn).

  Lemma rsv_step n m0 a x pc sp addr thr x' pc' :
    m0 <= size (q_heap x) ->
    rsv n m0 a x pc -> tstep c x pc sp addr thr = TGo x' pc' ->
    rsv n m0 a x' pc' /\ m0 <= size (q_heap x').
  Proof using Htag.
    intros Hm0. destruct 1 as [x g t k HG Hp Ha Hk Hsz|x g t m d k HG Hp Ha Hk Ho Hd Hsz|x g HG Ha Hsz|x g HG Ha Hsz];
      intros Hst; [| |done..].
    - simpl in Hst. destruct k as [|k].
      + injection Hst as <- <-. split; [|done]. econstructor; [done|done|lia].
      + destruct addr as [m|].
        * destruct (decide _) as [[Hf Hn]|]; [|done]. injection Hst as <- <-.
          destruct (act_fresh c x g t m (Node (null, 0%N) (qd0 c)) HG Hf Hn) as [HG1 _].
          { apply replicate_length. }
          assert (Hsz' : size (<[m := Node (null, 0%N) (qd0 c)]> (q_heap x)) = S (size (q_heap x))).
          { by rewrite map_size_insert_None. }
          split; [|simpl; lia].
          econstructor; [exact HG1|exact Hp|done|lia|simpl; by rewrite lookup_insert|done|].
          simpl. rewrite Hsz'. lia.
        * injection Hst as <- <-. split; [|done]. econstructor; [done|done|lia].
    - cbn [tstep] in Hst.
      pose proof (dstep_ok c _ _ _ _ _ _ _ sp (gi_pi _ _ _ HG) Ho Hd) as Hok.
      destruct (dstep m (q_heap x) (q_pool x) d sp) as [h p d'|h p|]; [| |done].
      + injection Hst as <- <-. destruct Hok as (-> & Hd' & Hh).
        destruct Hh as [->|(nd & y & Hnd & ->)].
        * rewrite set_heap_pool_id. split; [|done]. by eapply rsv_dealloc.
        * rewrite set_heap_pool_heap.
          destruct (act_write c x g t m nd (Node (y, (nx nd).2) (dat nd)) HG Ho Hnd) as [HG1 _].
          { simpl. lia. }
          { simpl. by eapply gi_len. }
          assert (Hsz' : size (<[m := Node (y, (nx nd).2) (dat nd)]> (q_heap x)) = size (q_heap x)).
          { rewrite map_size_insert, Hnd. done. }
          split; [|simpl; lia]. eapply rsv_dealloc; [exact HG1|exact Hp|done|done|done|done|].
          simpl. lia.
      + injection Hst as <- <-. destruct Hok as (-> & -> & Hx).
        destruct (act_pool_push c x g t m HG Ho Hx) as [HG1 _]. split; [|done].
        eapply rsv_loop; [exact HG1|exact Hp|done|done|done].
  Qed.

  Definition is_run (t : nat) (ch : qchoice) : Prop := exists sp addr thr, ch = Run t sp addr thr.

  Lemma rsv_run n m0 a t chs : forall x pc h s',
    m0 <= size (q_heap x) -> rsv n m0 a x pc -> Forall (is_run t) chs ->
    qrun c (QSt x {[t := pc]}) chs = Some (h, s') -> Res t RUnit ∈ h ->
    size (q_heap (q_sh s')) = m0 + n /\ qcontents c s' a /\ h = [Res t RUnit] /\ q_pcs s' = ∅.
  Proof using Htag.
    induction chs as [|ch chs IH]; intros x pc h s' Hm0 HR HF Hrun Hin.
    - simpl in Hrun. injection Hrun as <- <-. by apply elem_of_nil in Hin.
    - apply Forall_cons_1 in HF as [(sp & addr & thr & ->) HF]. cbn [qrun] in Hrun.
      destruct (qstep c (QSt x {[t := pc]}) (Run t sp addr thr)) as [s1 evs| |] eqn:Hs; [|done..].
      apply qstep_run in Hs as (pc0 & Hpc0 & Hs). simpl in Hpc0. rewrite lookup_singleton in Hpc0.
      injection Hpc0 as <-. destruct Hs as [(r & -> & -> & ->)|(x' & pc' & Hst & -> & ->)].
      + simpl in Hrun. rewrite delete_singleton in Hrun.
        destruct chs as [|ch chs].
        * simpl in Hrun. injection Hrun as <- <-. apply elem_of_list_singleton in Hin. injection Hin as <-.
          inversion HR as [| |x' g HG Ha Hsz|]; subst. simpl. split; [done|]. split; [|done].
          by apply gi_contents.
        * exfalso. apply Forall_cons_1 in HF as [(sp' & addr' & thr' & ->) HF]. cbn [qrun qstep q_pcs] in Hrun.
          by rewrite lookup_empty in Hrun.
      + simpl in Hrun. rewrite insert_singleton in Hrun.
        destruct (qrun c (QSt x' {[t := pc']}) chs) as [[h' s'']|] eqn:Hr; [|done].
        simpl in Hrun. injection Hrun as <- <-.
        destruct (rsv_step _ _ _ _ _ _ _ _ _ _ Hm0 HR Hst) as [HR' Hm0'].
        by eapply IH.
  Qed.

  Lemma reserve_solo s g t n tf chs h s' :
    Inv s g -> q_pcs s = ∅ -> Forall (is_run t) chs ->
    qrun c s (Invoke t (Reserve n) tf :: chs) = Some (h, s') -> Res t RUnit ∈ h ->
    size (q_heap (q_sh s')) = size (q_heap (q_sh s)) + n /\ qcontents c s' (g_a g) /\ q_pcs s' = ∅.
  Proof using Htag.
    intros [HG HT] He HF Hrun Hin. cbn [qrun] in Hrun. cbn [qstep] in Hrun.
    rewrite He, lookup_empty in Hrun.
    destruct (qstart c (Reserve n) tf) as [pc|] eqn:Hst; [|done].
    simpl in Hst. destruct (c_node_based c); [|done]. injection Hst as <-.
    unfold set_pc in Hrun. rewrite He in Hrun.
    assert (Hi : <[t := PcReserve n]> (∅ : gmap nat qpc) = {[t := PcReserve n]}) by done.
    rewrite Hi in Hrun.
    destruct (qrun c (QSt (q_sh s) {[t := PcReserve n]}) chs) as [[h' s'']|] eqn:Hr; [|done].
    injection Hrun as <- <-. apply elem_of_cons in Hin as [Hin|Hin]; [done|].
    assert (Hn : g_ph g !! t = None).
    { pose proof (HT t) as Ht. rewrite He, lookup_empty in Ht. apply Ht. }
    destruct (act_inv c _ _ _ (Reserve n) HG Hn) as [HG1 _].
    destruct (rsv_run n (size (q_heap (q_sh s))) (g_a g) t chs _ _ _ _
               ltac:(done) (rsv_loop n _ (g_a g) _ _ t n HG1 ltac:(unfold pend; simpl; by rewrite lookup_insert)
                 eq_refl ltac:(done) eq_refl) HF Hr Hin) as (H1 & H2 & _ & H3).
    done.
  Qed.

  (** ** Destruction *)

  Lemma dtor_pop fuel : forall s g,
    Inv s g -> q_pcs s = ∅ -> length (g_a g) < fuel ->
    exists x' g', qdtor_pop c fuel (q_sh s) = Some x' /\ Inv (QSt x' ∅) g' /\ g_a g' = [] /\
                  dom (q_heap x') = dom (q_heap (q_sh s)) /\ lossless g g'.
  Proof using Htag.
    induction fuel as [|fuel IH]; intros s g HI He Hf; [lia|].
    pose proof (ustep_ok c Htag s g 0 UPop [] false HI He) as Hok. cbn [ucall] in Hok.
    simpl. destruct (upop c (q_sh s) false) as [x' r| |] eqn:Hu; [|done|].
    - destruct Hok as (g' & HI' & _ & Hsp & HK). apply lossy_none in HK.
      assert (Hdom : dom (q_heap x') = dom (q_heap (q_sh s))).
      { by apply upop_loop_dom in Hu. }
      inversion Hsp as [| | | | | | | | | | | |a v Ha| | | |]; subst; [| |exfalso; by eapply upop_loop_noexn].
      + destruct (IH (QSt x' ∅) g' HI' eq_refl) as (x2 & g2 & H1 & H2 & H3 & H4 & H5).
        { rewrite <- Ha in Hf. simpl in Hf. lia. }
        exists x2, g2. simpl in *. rewrite H4, Hdom. do 4 (split; [done|]).
        intros n Hn. by apply HK, H5.
      + exists x', g'. done.
    - exfalso. clear Hok. unfold upop in Hu. revert Hu. generalize (S (size (q_heap (q_sh s)))).
      intros f. generalize (q_sh s). induction f as [|f IHf]; intros x; simpl; [done|].
      destruct (q_heap x !! (q_head x).1) as [nd|] eqn:Hnd; [|done].
      destruct (decide _); [destruct (decide _); [done|apply IHf]|].
      destruct (decide _); [apply IHf|]. destruct (q_heap x !! (nx nd).1); [|done].
      by rewrite (dealloc_unsafe_ok _ _ _ _ Hnd).
  Qed.

  Lemma pool_dtor_seg {D} fuel : forall (h : gmap N (node D)) p fn,
    seg h p fn null -> NoDup fn -> null ∉ fn -> length fn <= fuel ->
    pool_dtor c fuel h p = Some fn.
  Proof.
    clear Htag. induction fuel as [|fuel IH]; intros h p fn Hs Hnd Hn Hl.
    - destruct fn as [|z fn]; [|simpl in Hl; lia]. simpl in *. by rewrite decide_True.
    - destruct fn as [|z fn].
      + simpl in *. by rewrite decide_True.
      + destruct Hs as (-> & y & Hy & Hs). simpl. rewrite decide_False by set_solver.
        apply nxp_inv in Hy as (nd & Hnd' & <-). rewrite Hnd'.
        apply list.NoDup_cons in Hnd as [Hz Hnd].
        rewrite (IH _ _ fn); [done| |done|set_solver|simpl in Hl; lia].
        eapply seg_ext; [|exact Hs]. intros w Hw. unfold nxp. rewrite lookup_delete_ne; [done|].
        intros ->. done.
  Qed.

  Lemma dtor_ok s g :
    c_throws c = false -> Inv s g -> q_pcs s = ∅ ->
    exists l, qdtor c (q_sh s) = Some l /\ NoDup l /\
      forall n, n ∈ l <-> is_Some (q_heap (q_sh s) !! n).
  Proof using Htag.
    intros Hth HI He. unfold qdtor.
    destruct (dtor_pop (S (size (q_heap (q_sh s)))) s g HI He) as (x' & g' & -> & HI' & Ha' & Hdom & _).
    { pose proof HI as [HG _]. pose proof (gi_size _ _ _ HG). lia. }
    pose proof HI' as [HG' HT']. simpl in HG'.
    destruct (gi_head_dom _ _ _ HG') as [nd Hnd]. rewrite (dealloc_unsafe_ok _ _ _ _ Hnd).
    pose proof (gi_len_a _ _ _ HG') as Hlen. rewrite Ha' in Hlen. simpl in Hlen.
    destruct (gi_head_cons _ _ _ HG') as [q Hq].
    assert (q = []) as -> by (destruct q; [done|rewrite Hq in Hlen; simpl in Hlen; lia]).
    pose proof (gi_nodes_nodup _ _ _ HG') as Hdup. rewrite Hq in Hdup. simpl in Hdup.
    exists ((q_head x').1 :: g_fn g').
    pose proof (gi_size _ _ _ HG') as Hsz.
    pose proof (gi_pi _ _ _ HG') as HP.
    split; [|split; [done|]].
    - apply pool_dtor_seg.
      + cbn [fst]. split; [done|]. eexists. rewrite nxp_insert. split; [done|]. simpl.
        apply seg_insert_ne; [by apply list.NoDup_cons in Hdup as [? _]|apply HP].
      + done.
      + intros Hn. apply elem_of_cons in Hn as [Hn|Hn].
        * apply (gi_null_nin _ _ _ HG'). rewrite Hq, Hn. left.
        * apply (pi_mem _ _ _ _ _ HP) in Hn. by eapply PI_not_null in Hn.
      + rewrite map_size_insert, Hnd. simpl. lia.
    - intros n. rewrite <- elem_of_dom, <- Hdom, elem_of_dom.
      pose proof (inv_quiet_own c (QSt x' ∅) g' n Hth HI' eq_refl) as Hown. simpl in Hown.
      rewrite Hown, Hq. done.
  Qed.
End solo.
