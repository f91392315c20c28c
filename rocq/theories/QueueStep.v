(** * Every step of the queue machine preserves the invariant *)
From stdpp Require Import gmap list numbers.
From Verif Require Import Lin PoolModel Chain PoolProofs QueueModel QueueSpec QueueObs QueueInv.

Set Default Proof Using "Type".

Section step.
  Context (c : cfg).
  Notation null := (c_null c).
  Notation spec := (qspec (c_node_based c) (c_throws c)).
  Notation GI := (GI c).
  Notation rely := (rely c).
  Notation tinv := (tinv c).
  Notation canl := (canl c).
  Notation Inv := (Inv c).

  (** ** Ghost updates *)

  Definition g_mem (g : ghost) own qn fn : ghost :=
    Gh own qn fn (g_l g) (g_ph g) (g_a g).
  Definition g_tr (g : ghost) l ph a : ghost :=
    Gh (g_own g) (g_qn g) (g_fn g) l ph a.

  (** Appending the linearization point of [t]. *)
  Lemma canl_lin g g' t t' o r o' r' a' :
    lruns spec ∅ [] (g_l g) (g_ph g) (g_a g) ->
    pend g t o -> spec (g_a g) o r a' ->
    g_l g' = g_l g ++ [Lin t o r] -> g_ph g' = <[t := Done o r]> (g_ph g) -> g_a g' = a' ->
    t' <> t -> canl g t' o' r' -> canl g' t' o' r'.
  Proof.
    intros Hr Hp Hs Hl Hph Ha Hne Hc. unfold canl. rewrite Hl, Hph, Ha.
    eapply canlin_ext; [exact Hc| |].
    - rewrite <- (app_nil_l [Lin t o r]). econstructor; [constructor|exact Hp|exact Hs].
    - apply Forall_singleton. simpl. done.
  Qed.

  (** Steps that do not touch the queue's own nodes nor the trace. *)
  Lemma rely_mem t x g x' g' :
    g_l g' = g_l g -> g_ph g' = g_ph g -> g_a g' = g_a g ->
    q_head x' = q_head x -> q_tail x' = q_tail x ->
    prely (q_heap x) (q_pool x) (g_own g) (q_heap x') (q_pool x') (g_own g') ->
    (forall n nd, q_heap x !! n = Some nd ->
       exists nd', q_heap x' !! n = Some nd' /\ ((nx nd).2 <= (nx nd').2)%N) ->
    (forall n, g_own g !! n = Some (OT t) ->
       g_own g' !! n = Some (OT t) /\ q_heap x' !! n = q_heap x !! n) ->
    (forall n, g_own g !! n = Some OQ ->
       g_own g' !! n = Some OQ /\ q_heap x' !! n = q_heap x !! n) ->
    (forall n, g_own g' !! n = Some (OT t) -> g_own g !! n = Some (OT t)) ->
    rely t x g x' g'.
  Proof.
    intros Hl Hph Ha Hh Ht Hp Hm Ho Hq Hb. split; try done.
    - by left.
    - by left.
    - intros n nd Hn Hnd. destruct (Hq n Hn) as [Hn' Hnd']. exists nd.
      rewrite Hnd'. split; [done|]. split; [done|]. split; by left.
    - by rewrite Hph.
    - intros o r. unfold canl. by rewrite Hl, Hph, Ha.
  Qed.

  Lemma rely_refl t x g : rely t x g x g.
  Proof.
    apply rely_mem; try done. intros n nd Hnd. exists nd. split; [done|lia].
  Qed.

  Lemma rely_trans_same t x g1 g2 g3 :
    rely t x g1 x g2 -> rely t x g2 x g3 -> rely t x g1 x g3.
  Proof.
    intros R1 R2. split; try done.
    - by left.
    - by left.
    - split; [lia|]. intros _ n Hn. destruct (rl_pool _ _ _ _ _ _ R1) as [_ H1].
      destruct (rl_pool _ _ _ _ _ _ R2) as [_ H2]. by apply H2, H1.
    - intros n nd Hnd. exists nd. split; [done|lia].
    - intros n Hn. split; [|done]. by apply (rl_own _ _ _ _ _ _ R2), (rl_own _ _ _ _ _ _ R1).
    - intros n nd Ho Hnd. exists nd. split; [done|]. split; [done|]. split; [by left|].
      destruct (rl_Q _ _ _ _ _ _ R1 _ _ Ho Hnd) as (_ & _ & _ & _ & [Ho2|[? _]]); [|lia].
      destruct (rl_Q _ _ _ _ _ _ R2 _ _ Ho2 Hnd) as (_ & _ & _ & _ & [Ho3|[? _]]); [|lia].
      by left.
    - by rewrite (rl_ph _ _ _ _ _ _ R2), (rl_ph _ _ _ _ _ _ R1).
    - intros o r Hc. by apply (rl_can _ _ _ _ _ _ R2), (rl_can _ _ _ _ _ _ R1).
    - intros n Hn. by apply (rl_back _ _ _ _ _ _ R1), (rl_back _ _ _ _ _ _ R2).
  Qed.

  (** *** Commit to a linearization point in the past *)
  Lemma act_commit x g t o r :
    GI x g -> canl g t o r ->
    exists g', GI x g' /\ g_ph g' !! t = Some (Done o r) /\
      g_own g' = g_own g /\ g_qn g' = g_qn g /\ g_fn g' = g_fn g /\ g_a g' = g_a g /\
      erase (g_l g') = erase (g_l g) /\
      (forall t', t' <> t -> rely t' x g x g').
  Proof.
    intros HG Hc.
    destruct (canlin_commit [] spec (qspec_det _ _) _ _ _ _ _ _ Hc) as (l' & He & Hr & Hother).
    exists (g_tr g l' (<[t := Done o r]> (g_ph g)) (g_a g)).
    split; [|split; [by simpl; rewrite lookup_insert|]].
    { destruct HG. by split. }
    do 4 (split; [done|]). split; [done|].
    intros t' Hne. split; try done.
    - by left.
    - by left.
    - intros n nd Hnd. exists nd. split; [done|lia].
    - intros n nd Ho Hnd. exists nd. split; [done|]. split; [done|]. split; by left.
    - simpl. by rewrite lookup_insert_ne.
    - intros o' r'. unfold canl; simpl. by apply Hother.
  Qed.

  Lemma gi_a_ext (h h' : gmap N qnode) qn (a : list val) :
    (forall n, n ∈ qn -> h' !! n = h !! n) ->
    Forall2 (fun n v => exists nd, h !! n = Some nd /\ dat nd = v) (drop 1 qn) a ->
    Forall2 (fun n v => exists nd, h' !! n = Some nd /\ dat nd = v) (drop 1 qn) a.
  Proof.
    intros Heq HF. apply Forall2_same_length_lookup. split; [by eapply Forall2_length|].
    intros i n v Hn Hv.
    destruct (Forall2_lookup_lr _ _ _ _ _ _ HF Hn Hv) as (nd & Hnd & Hd).
    exists nd. rewrite Heq; [done|]. rewrite lookup_drop in Hn. by eapply elem_of_list_lookup_2.
  Qed.

  (** *** The thread writes a node it owns *)
  Lemma act_write x g t n nd nd' :
    GI x g -> g_own g !! n = Some (OT t) -> q_heap x !! n = Some nd ->
    ((nx nd).2 <= (nx nd').2)%N -> length (dat nd') = c_words c ->
    let x' := set_heap x (<[n := nd']> (q_heap x)) in
    GI x' g /\ (forall t', t' <> t -> rely t' x g x' g).
  Proof.
    intros HG Ho Hnd Hle Hlen x'.
    assert (Hnq : n ∉ g_qn g).
    { intros Hi. apply (gi_qmem _ _ _ HG) in Hi. congruence. }
    split.
    - destruct HG. split; simpl; try done.
      + eapply (PI_write _ _ _ _ _ _ (OT t)); done.
      + by apply seg_insert_ne.
      + eapply gi_a_ext; [|exact gi_a]. intros m Hm.
        rewrite lookup_insert_ne; [done|]. by intros ->.
      + intros m ndm. destruct (decide (n = m)) as [->|Hne].
        * rewrite lookup_insert. intros [= <-]. done.
        * rewrite lookup_insert_ne by done. eauto.
    - intros t' Hne. apply rely_mem; try done; simpl.
      + split; [lia|]. intros _ m Hm. split; [done|]. rewrite lookup_insert_ne; [done|]. congruence.
      + intros m ndm Hm. destruct (decide (n = m)) as [->|Hnm].
        * rewrite lookup_insert. exists nd'. split; [done|]. congruence.
        * rewrite lookup_insert_ne by done. exists ndm. split; [done|lia].
      + intros m Hm. split; [done|]. rewrite lookup_insert_ne; [done|]. congruence.
      + intros m Hm. split; [done|]. rewrite lookup_insert_ne; [done|]. congruence.
  Qed.

  (** *** A fresh node from the allocator *)
  Lemma act_fresh x g t n nd :
    GI x g -> q_heap x !! n = None -> n <> null -> length (dat nd) = c_words c ->
    let x' := set_heap x (<[n := nd]> (q_heap x)) in
    let g' := g_mem g (<[n := OT t]> (g_own g)) (g_qn g) (g_fn g) in
    GI x' g' /\ (forall t', t' <> t -> rely t' x g x' g').
  Proof.
    intros HG Hf Hn Hlen x' g'.
    assert (Hno : g_own g !! n = None).
    { apply eq_None_not_Some. rewrite (pi_dom _ _ _ _ _ (gi_pi _ _ _ HG)), Hf. intros [? ?]. done. }
    assert (Hnq : n ∉ g_qn g).
    { intros Hi. apply (gi_qmem _ _ _ HG) in Hi. congruence. }
    split.
    - destruct HG. split; simpl; try done.
      + by apply PI_fresh.
      + intros m. rewrite gi_qmem. destruct (decide (n = m)) as [->|Hne].
        * rewrite lookup_insert, Hno. done.
        * by rewrite lookup_insert_ne.
      + by apply seg_insert_ne.
      + eapply gi_a_ext; [|exact gi_a]. intros m Hm.
        rewrite lookup_insert_ne; [done|]. by intros ->.
      + intros m ndm. destruct (decide (n = m)) as [->|Hne].
        * rewrite lookup_insert. intros [= <-]. done.
        * rewrite lookup_insert_ne by done. eauto.
      + intros Hth m. rewrite lookup_insert_Some. intros [[_ ?]|[_ ?]]; [done|]. by eapply gi_leak.
    - intros t' Hne.
      assert (Hk : forall m o, g_own g !! m = Some o ->
                (<[n:=OT t]> (g_own g)) !! m = Some o /\ (<[n:=nd]> (q_heap x)) !! m = q_heap x !! m).
      { intros m o Hm. rewrite !lookup_insert_ne; [done|congruence|congruence]. }
      apply rely_mem; try done; simpl; try (intros; by eapply Hk).
      + split; [lia|]. intros _ m Hm. by eapply Hk.
      + intros m ndm Hm. rewrite lookup_insert_ne by congruence. exists ndm. split; [done|lia].
      + intros m. rewrite lookup_insert_Some. intros [[_ ?]|[_ ?]]; congruence.
  Qed.

  (** *** Taking a node from the pool *)
  Lemma act_pool_pop x g t n fn' p' :
    GI x g -> g_fn g = n :: fn' -> nxp (q_heap x) n = Some p'.1 -> p'.2 = ((q_pool x).2 + 1)%N ->
    let x' := set_heap_pool x (q_heap x) p' in
    let g' := g_mem g (<[n := OT t]> (g_own g)) (g_qn g) fn' in
    GI x' g' /\ (forall t', t' <> t -> rely t' x g x' g').
  Proof.
    intros HG Hfn Hx Hp x' g'.
    assert (Hno : g_own g !! n = Some OF).
    { apply (pi_mem _ _ _ _ _ (gi_pi _ _ _ HG)). rewrite Hfn. left. }
    split.
    - destruct HG. split; simpl; try done.
      + eapply PI_pop; [done| |done]. by rewrite <- Hfn.
      + intros m. rewrite gi_qmem. destruct (decide (n = m)) as [->|Hne].
        * rewrite lookup_insert, Hno. done.
        * by rewrite lookup_insert_ne.
      + intros Hth m. rewrite lookup_insert_Some. intros [[_ ?]|[_ ?]]; [done|]. by eapply gi_leak.
    - intros t' Hne. apply rely_mem; try done; simpl.
      + split; lia.
      + intros m nd Hm. exists nd. split; [done|lia].
      + intros m Hm. rewrite lookup_insert_ne; [done|congruence].
      + intros m Hm. rewrite lookup_insert_ne; [done|congruence].
      + intros m. rewrite lookup_insert_Some. intros [[_ ?]|[_ ?]]; congruence.
  Qed.

  (** *** Giving a node back to the pool *)
  Lemma act_pool_push x g t n :
    GI x g -> g_own g !! n = Some (OT t) -> nxp (q_heap x) n = Some (q_pool x).1 ->
    let x' := set_heap_pool x (q_heap x) (n, (q_pool x).2) in
    let g' := g_mem g (<[n := OF]> (g_own g)) (g_qn g) (n :: g_fn g) in
    GI x' g' /\ (forall t', t' <> t -> rely t' x g x' g').
  Proof.
    intros HG Ho Hx x' g'. split.
    - destruct HG. split; simpl; try done.
      + eapply (PI_push _ _ _ _ _ _ (OT t)); done.
      + intros m. rewrite gi_qmem. destruct (decide (n = m)) as [->|Hne].
        * rewrite lookup_insert, Ho. done.
        * by rewrite lookup_insert_ne.
      + intros Hth m. rewrite lookup_insert_Some. intros [[_ ?]|[_ ?]]; [done|]. by eapply gi_leak.
    - intros t' Hne. apply rely_mem; try done; simpl.
      + split; [simpl; lia|]. intros _ m Hm.
        destruct (decide (n = m)) as [->|Hnm]; [congruence|]. by rewrite lookup_insert_ne.
      + intros m nd Hm. exists nd. split; [done|lia].
      + intros m Hm. rewrite lookup_insert_ne; [done|congruence].
      + intros m Hm. rewrite lookup_insert_ne; [done|congruence].
      + intros m. rewrite lookup_insert_Some. intros [[_ ?]|[_ ?]]; congruence.
  Qed.

  (** *** Losing a node (the copy constructor throws) *)
  Lemma act_leak x g t n :
    c_throws c = true -> GI x g -> g_own g !! n = Some (OT t) ->
    let g' := g_mem g (<[n := OL]> (g_own g)) (g_qn g) (g_fn g) in
    GI x g' /\ (forall t', t' <> t -> rely t' x g x g').
  Proof.
    intros Hth HG Ho g'. split.
    - destruct HG. split; simpl; try done.
      + eapply (PI_own _ _ _ _ _ _ (OT t)); done.
      + intros m. rewrite gi_qmem. destruct (decide (n = m)) as [->|Hne].
        * rewrite lookup_insert, Ho. done.
        * by rewrite lookup_insert_ne.
      + congruence.
    - intros t' Hne. apply rely_mem; try done; simpl.
      + split; [simpl; lia|]. intros _ m Hm.
        rewrite lookup_insert_ne; [done|congruence].
      + intros m nd Hm. exists nd. split; [done|lia].
      + intros m Hm. rewrite lookup_insert_ne; [done|congruence].
      + intros m Hm. rewrite lookup_insert_ne; [done|congruence].
      + intros m. rewrite lookup_insert_Some. intros [[_ ?]|[_ ?]]; congruence.
  Qed.

  (** *** Swinging tail_ to the successor *)
  Lemma gi_nonempty x g n : GI x g -> n ∈ drop 1 (g_qn g) -> g_a g <> [].
  Proof.
    intros HG Hn Ha. pose proof (gi_a _ _ _ HG) as HF. rewrite Ha in HF.
    apply Forall2_nil_inv_r in HF. rewrite HF in Hn. by apply elem_of_nil in Hn.
  Qed.

  Lemma tail_next x g np :
    GI x g -> nxp (q_heap x) (q_tail x).1 = Some np -> np <> null ->
    exists pre, g_qn g = pre ++ [(q_tail x).1; np].
  Proof.
    intros HG Hx Hnp. destruct (gi_tail _ _ _ HG) as (pre & [Hq|(y & Hq)]).
    - exfalso. pose proof (gi_qseg _ _ _ HG) as Hs. rewrite Hq in Hs.
      apply seg_snoc in Hs as [_ Hs]. congruence.
    - exists pre. pose proof (gi_qseg _ _ _ HG) as Hs. rewrite Hq in Hs |- *.
      apply seg_app in Hs as (m & _ & Hs). destruct Hs as (_ & y' & Hy & Hs & _).
      rewrite Hx in Hy. injection Hy as <-. by rewrite Hs.
  Qed.

  Lemma act_tail x g t np tg :
    GI x g -> nxp (q_heap x) (q_tail x).1 = Some np -> np <> null -> ((q_tail x).2 < tg)%N ->
    let x' := set_tail x (np, tg) in
    GI x' g /\ (forall t', t' <> t -> rely t' x g x' g).
  Proof.
    intros HG Hx Hnp Hlt x'. destruct (tail_next _ _ _ HG Hx Hnp) as (pre & Hq).
    assert (Hdrop : np ∈ drop 1 (g_qn g)).
    { rewrite Hq. destruct pre; simpl; [left|]. set_solver. }
    split.
    - destruct HG. split; simpl; try done.
      exists (pre ++ [(q_tail x).1]). left. rewrite <- app_assoc. done.
    - intros t' Hne. split; try done; simpl.
      + by left.
      + right. split; [done|].
        assert (np <> (q_head x).1).
        { intros Heq. destruct (gi_head_cons _ _ _ HG) as [q Hc].
          pose proof (gi_qnodup _ _ _ HG) as Hnd. rewrite Hc in Hnd, Hdrop.
          apply list.NoDup_cons in Hnd as [Hni _]. simpl in Hdrop. rewrite drop_0 in Hdrop. congruence. }
        split; [done|]. split; [done|].
        apply nxp_inv in Hx as (nd & Hnd & Hx). exists nd. split; [done|congruence].
      + intros n nd Hnd. exists nd. split; [done|lia].
      + intros n nd Ho Hnd. exists nd. split; [done|]. split; [done|]. split; by left.
      + intros _ Hp. eapply canlin_now; [apply HG|done|]. constructor. by eapply gi_nonempty.
      + intros _. by eapply gi_nonempty.
  Qed.

  (** *** Linking a node at the end: the linearization point of push *)
  Lemma act_link x g t o r n nd ndt tg :
    GI x g -> pend g t o -> spec (g_a g) o r (g_a g ++ [dat nd]) -> g_own g !! n = Some (OT t) ->
    q_heap x !! n = Some nd -> (nx nd).1 = null ->
    q_heap x !! (q_tail x).1 = Some ndt -> (nx ndt).1 = null -> ((nx ndt).2 < tg)%N ->
    let x' := set_heap x (<[(q_tail x).1 := Node (n, tg) (dat ndt)]> (q_heap x)) in
    let g' := Gh (<[n := OQ]> (g_own g)) (g_qn g ++ [n]) (g_fn g)
                 (g_l g ++ [Lin t o r]) (<[t := Done o r]> (g_ph g)) (g_a g ++ [dat nd]) in
    GI x' g' /\ (forall t', t' <> t -> rely t' x g x' g').
  Proof.
    intros HG Hp HspecT Ho Hnd Hxn Hndt Hxt Hlt x' g'.
    set (T := (q_tail x).1) in *.
    pose proof (gi_tail_in _ _ _ HG) as HTin. fold T in HTin.
    pose proof (gi_tail_Q _ _ _ HG) as HTQ. fold T in HTQ.
    assert (Hnq : n ∉ g_qn g).
    { intros Hi. apply (gi_qmem _ _ _ HG) in Hi. congruence. }
    assert (HnT : n <> T) by (intros ->; done).
    assert (Hlast : exists pre, g_qn g = pre ++ [T]).
    { eapply seg_last; [apply (gi_qseg _ _ _ HG)|done|by eapply gi_null_nin|].
      rewrite (nxp_Some _ _ _ Hndt). by rewrite Hxt. }
    destruct Hlast as (pre & Hq).
    split.
    - pose proof HG as HG0. destruct HG. split; simpl.
      + eapply (PI_own _ _ _ _ _ _ (OT t)); [done|done| |done].
        eapply (PI_write _ _ _ _ _ _ OQ); done.
      + apply NoDup_app. split; [done|]. split; [|apply NoDup_singleton].
        intros m Hm Hm'. apply elem_of_list_singleton in Hm'. by subst.
      + intros m. rewrite elem_of_app, elem_of_list_singleton, gi_qmem.
        destruct (decide (n = m)) as [->|Hne].
        * rewrite lookup_insert. split; [done|]. by right.
        * rewrite lookup_insert_ne by done. split; [by intros [|]|by left].
      + rewrite Hq. rewrite Hq in gi_qseg, gi_qnodup. apply seg_snoc. split.
        * apply seg_snoc. apply seg_snoc in gi_qseg as [Hs _]. split.
          -- apply seg_insert_ne; [|done]. apply NoDup_app in gi_qnodup as (_ & Hd & _).
             intros Hi. apply (Hd _ Hi). left.
          -- by rewrite nxp_insert.
        * rewrite nxp_insert_ne by done. rewrite (nxp_Some _ _ _ Hnd). by rewrite Hxn.
      + exists pre. right. exists n. rewrite Hq. rewrite <- app_assoc. done.
      + assert (Hd : drop 1 (g_qn g ++ [n]) = drop 1 (g_qn g) ++ [n]).
        { rewrite Hq. destruct pre; done. }
        rewrite Hd. apply Forall2_app.
        * apply Forall2_same_length_lookup. split; [by eapply Forall2_length|].
          intros i m v Hm Hv. destruct (Forall2_lookup_lr _ _ _ _ _ _ gi_a Hm Hv) as (ndm & Hndm & Hdm).
          destruct (decide (T = m)) as [<-|HTm].
          -- rewrite lookup_insert. eexists. split; [done|]. simpl. congruence.
          -- rewrite lookup_insert_ne by done. eauto.
        * constructor; [|constructor]. exists nd.
          rewrite lookup_insert_ne by done. done.
      + intros m ndm. destruct (decide (T = m)) as [->|Hne].
        * rewrite lookup_insert. intros [= <-]. simpl. eauto.
        * rewrite lookup_insert_ne by done. eauto.
      + intros Hth m. rewrite lookup_insert_Some. intros [[_ ?]|[_ ?]]; [done|]. by eapply gi_leak.
      + by econstructor.
    - intros t' Hne. split; try done; simpl.
      + by left.
      + by left.
      + split; [lia|]. intros _ m Hm. rewrite lookup_insert_ne; [|congruence].
        split; [done|]. rewrite lookup_insert_ne; [done|congruence].
      + intros m ndm Hm. destruct (decide (T = m)) as [->|HTm].
        * rewrite lookup_insert. eexists. split; [done|]. simpl. simplify_eq. lia.
        * rewrite lookup_insert_ne by done. exists ndm. split; [done|lia].
      + intros m Hm. rewrite !lookup_insert_ne; [done|congruence|congruence].
      + intros m ndm Hm Hndm. destruct (decide (n = m)) as [->|Hnm]; [congruence|].
        destruct (decide (T = m)) as [<-|HTm].
        * rewrite lookup_insert. eexists. split; [done|]. simplify_eq. simpl. split; [done|].
          split; [by right|]. left. by rewrite lookup_insert_ne.
        * rewrite !lookup_insert_ne by done. exists ndm. split; [done|]. split; [done|].
          split; by left.
      + by rewrite lookup_insert_ne.
      + intros o' r'. eapply canl_lin; [apply HG|done|done|done|done|done|done].
      + intros m. rewrite lookup_insert_Some. intros [[_ ?]|[_ ?]]; congruence.
  Qed.

  (** *** Advancing head_: the linearization point of a successful pop *)
  Lemma act_head x g t o r np nd tg :
    GI x g -> pend g t o -> (forall a', spec (dat nd :: a') o r a') -> nxp (q_heap x) (q_head x).1 = Some np -> np <> null ->
    (q_tail x).1 <> (q_head x).1 -> q_heap x !! np = Some nd -> ((q_head x).2 < tg)%N ->
    let x' := set_head x (np, tg) in
    exists a', g_a g = dat nd :: a' /\
    let g' := Gh (<[(q_head x).1 := OT t]> (g_own g)) (drop 1 (g_qn g)) (g_fn g)
                 (g_l g ++ [Lin t o r]) (<[t := Done o r]> (g_ph g)) a' in
    GI x' g' /\ (forall t', t' <> t -> rely t' x g x' g').
  Proof.
    intros HG Hp Hsp Hx Hnp Hne Hnd Hlt x'. set (H := (q_head x).1) in *.
    destruct (gi_head_cons _ _ _ HG) as [q Hq]. fold H in Hq.
    pose proof (gi_qseg _ _ _ HG) as Hs. fold H in Hs. rewrite Hq in Hs.
    destruct Hs as (_ & y & Hy & Hs). rewrite Hx in Hy. injection Hy as <-.
    destruct q as [|z q]; [by simpl in Hs|].
    assert (np = z) as -> by apply Hs.
    pose proof (gi_a _ _ _ HG) as HF. rewrite Hq in HF. simpl in HF.
    apply Forall2_cons_inv_l in HF as (v & a' & (nd' & Hnd' & Hv) & HF & Ha).
    rewrite Hnd in Hnd'. injection Hnd' as <-.
    exists a'. split; [congruence|]. intros g'.
    pose proof (gi_qnodup _ _ _ HG) as Hdup. rewrite Hq in Hdup.
    apply list.NoDup_cons in Hdup as [Hni Hdup].
    assert (HHQ : g_own g !! H = Some OQ). { apply (gi_qmem _ _ _ HG). rewrite Hq. left. }
    assert (Hspec : spec (g_a g) o r a').
    { rewrite Ha, <- Hv. apply Hsp. }
    split.
    - pose proof HG as HG0. destruct HG. subst g'. rewrite Hq. simpl. split; simpl.
      + eapply (PI_own _ _ _ _ _ _ OQ); done.
      + done.
      + intros m. destruct (decide (H = m)) as [<-|Hm].
        * rewrite lookup_insert. split; [|done]. by intros Hi.
        * rewrite lookup_insert_ne by done. rewrite <- gi_qmem, Hq. set_solver.
      + done.
      + destruct gi_tail as (pre & Ht). rewrite Hq in Ht.
        destruct pre as [|p0 pre]; simpl in Ht.
        * exfalso. destruct Ht as [Ht|(y & Ht)]; by simplify_eq.
        * exists pre. destruct Ht as [Ht|(y & Ht)]; simplify_eq; eauto.
      + done.
      + done.
      + intros Hth m. rewrite lookup_insert_Some. intros [[_ ?]|[_ ?]]; [done|]. by eapply gi_leak.
      + by econstructor.
    - intros t' Htne. split; try done; simpl.
      + right. done.
      + by left.
      + split; [lia|]. intros _ m Hm. rewrite lookup_insert_ne; [done|]. congruence.
      + intros m ndm Hm. exists ndm. split; [done|lia].
      + intros m Hm. rewrite lookup_insert_ne; [done|]. congruence.
      + intros m ndm Hm Hndm. exists ndm. split; [done|]. split; [done|]. split; [by left|].
        destruct (decide (H = m)) as [<-|HHm].
        * right. split; [done|]. rewrite (nxp_Some _ _ _ Hndm) in Hx. congruence.
        * left. by rewrite lookup_insert_ne.
      + by rewrite lookup_insert_ne.
      + intros o' r'. apply (canl_lin g _ t t' o r _ _ a'); [apply HG|exact Hp|exact Hspec|done..].
      + intros _ Hpe. apply (canl_lin g _ t t' o r _ _ a'); [apply HG|exact Hp|exact Hspec|done..|].
        eapply canlin_now; [apply HG|done|]. constructor. by rewrite Ha.
      + intros m. rewrite lookup_insert_Some. intros [[_ ?]|[_ ?]]; congruence.
      + intros _. by rewrite Ha.
  Qed.

  (** ** One step of one thread *)

  Context (Htag : c_tagmod c = None).

  (** At most [m] nodes are lost between the two states. *)
  Definition lossless (g g' : ghost) : Prop :=
    forall n, g_own g' !! n = Some OL -> g_own g !! n = Some OL.
  Definition lossy (m : nat) (g g' : ghost) : Prop :=
    exists K : list N, (forall n, g_own g' !! n = Some OL -> g_own g !! n = Some OL \/ n ∈ K) /\
      length K <= m.

  (** How many nodes a step may lose: one, if the copy of an element throws. *)
  Definition cost (pc : qpc) (thr : bool) : nat :=
    if thr then match pc with PcWord _ _ _ => 1 | _ => 0 end else 0.

  Lemma lossless_lossy m g g' : lossless g g' -> lossy m g g'.
  Proof. intros H. exists []. split; [intros n Hn; left; by apply H|simpl; lia]. Qed.
  Lemma lossy_refl m g : lossy m g g.
  Proof. apply lossless_lossy. intros n Hn. exact Hn. Qed.
  Lemma lossy_none g g' : lossy 0 g g' -> lossless g g'.
  Proof.
    intros (K & HK & Hm) n Hn. destruct K; [|simpl in Hm; lia].
    destruct (HK n Hn) as [?|Hi]; [done|]. by apply elem_of_nil in Hi.
  Qed.
  Lemma lossy_own m g g' : g_own g' = g_own g -> lossy m g g'.
  Proof. intros He. apply lossless_lossy. intros n. by rewrite He. Qed.
  Lemma lossy_insert m g g' n o : o <> OL -> g_own g' = <[n := o]> (g_own g) -> lossy m g g'.
  Proof.
    intros Ho He. apply lossless_lossy. intros k. rewrite He, lookup_insert_Some.
    intros [[_ ?]|[_ ?]]; congruence.
  Qed.
  Lemma lossy_trans m m' g g1 g' : lossy m g g1 -> lossy m' g1 g' -> lossy (m + m') g g'.
  Proof.
    intros (K & HK & Hm) (K' & HK' & Hm'). exists (K ++ K'). rewrite app_length. split; [|lia].
    intros n Hn. rewrite elem_of_app. destruct (HK' n Hn) as [H|H]; [|auto]. destruct (HK n H); auto.
  Qed.
  Lemma lossy_leak g n qn fn : lossy 1 g (g_mem g (<[n := OL]> (g_own g)) qn fn).
  Proof.
    exists [n]. split; [|simpl; lia]. intros m. simpl. rewrite lookup_insert_Some.
    intros [[-> _]|[_ ?]]; [right; left|by left].
  Qed.

  Definition ok (m0 : nat) (t : nat) x g x' pc' : Prop :=
    exists g', GI x' g' /\ tinv t pc' x' g' /\ hinv t pc' g' /\ erase (g_l g') = erase (g_l g) /\
      (forall t', t' <> t -> rely t' x g x' g') /\ lossy m0 g g'.

  Lemma ok_same {m0} t x g pc' : GI x g -> hinv t pc' g -> tinv t pc' x g -> ok m0 t x g x pc'.
  Proof.
    intros HG HH HT. exists g. split; [done|]. split; [done|]. split; [done|]. split; [done|].
    split; [intros; apply rely_refl|apply lossy_refl].
  Qed.

  Lemma ok_commit {m0} t x g o r : GI x g -> hinv t (PcRet r) g -> canl g t o r -> ok m0 t x g x (PcRet r).
  Proof.
    intros HG HH Hc. destruct (act_commit _ _ _ _ _ HG Hc) as (g' & HG' & Hph & Ho & _ & _ & _ & He & R).
    exists g'. split; [done|]. split; [by exists o|].
    split; [|split; [done|split; [done|by apply lossy_own]]].
    intros n. rewrite Ho. apply HH.
  Qed.

  Lemma canl_now x g t o r : GI x g -> pend g t o -> spec (g_a g) o r (g_a g) -> canl g t o r.
  Proof. intros HG. apply canlin_now. apply HG. Qed.

  Lemma ok_now {m0} t x g o r :
    GI x g -> hinv t (PcRet r) g -> pend g t o -> spec (g_a g) o r (g_a g) -> ok m0 t x g x (PcRet r).
  Proof. intros HG HH Hp Hs. eapply ok_commit; [done|done|]. by eapply canl_now. Qed.

  (** Ownership after a change of one node. *)
  Lemma hinv_take t pc pc' g n l ph a qn fn :
    hinv t pc g -> holds pc = None -> holds pc' = Some n ->
    hinv t pc' (Gh (<[n := OT t]> (g_own g)) qn fn l ph a).
  Proof.
    intros HH Hn Hn' m. simpl. rewrite lookup_insert_Some. intros [[<- _]|[_ Hm]]; [done|].
    apply HH in Hm. congruence.
  Qed.

  Lemma hinv_give t pc pc' g n o l ph a qn fn :
    hinv t pc g -> holds pc = Some n -> o <> OT t ->
    hinv t pc' (Gh (<[n := o]> (g_own g)) qn fn l ph a).
  Proof.
    intros HH Hn Ho m. simpl. rewrite lookup_insert_Some. intros [[<- [= ?]]|[Hne Hm]]; [done|].
    apply HH in Hm. congruence.
  Qed.

  (** Swinging the tail, when the compare-exchange may fail. *)
  Lemma ok_tail {m0} t x g tl np pc' :
    GI x g -> snap (q_tail x) tl -> np <> null ->
    (q_tail x = tl -> nxp (q_heap x) tl.1 = Some np) ->
    (forall x', q_heap x' = q_heap x -> tinv t pc' x' g) ->
    hinv t pc' g -> ok m0 t x g (if decide (q_tail x = tl) then set_tail x (np, next_tag c tl.2) else x) pc'.
  Proof using Htag.
    intros HG Hs Hnp Hx HT HH. destruct (decide _) as [Heq|].
    - subst tl. destruct (act_tail x g t np (next_tag c (q_tail x).2) HG (Hx eq_refl) Hnp) as [HG' R].
      { rewrite next_tag_succ by done. lia. }
      exists g. split; [done|]. split; [by apply HT|]. do 3 (split; [done|]). apply lossy_refl.
    - apply ok_same; [done|done|]. by apply HT.
  Qed.

  Lemma set_heap_pool_id x : set_heap_pool x (q_heap x) (q_pool x) = x.
  Proof. by destruct x. Qed.
  Lemma set_heap_pool_heap x h : set_heap_pool x h (q_pool x) = set_heap x h.
  Proof. by destruct x. Qed.

  Lemma step_alloc {m0} t x g b v a sp addr thr :
    GI x g -> hinv t (PcAlloc b v a) g -> tinv t (PcAlloc b v a) x g ->
    match tstep c x (PcAlloc b v a) sp addr thr with
    | TUB => False | TDisabled => True | TGo x' pc' => ok m0 t x g x' pc' end.
  Proof using Htag.
    intros HG HH (Hp & Hl & Ha). simpl.
    pose proof (astep_ok c Htag (qd0 c) b _ _ _ _ a sp addr (gi_pi _ _ _ HG) Ha) as Hok.
    destruct (astep c (qd0 c) b (q_heap x) (q_pool x) a sp addr) as [h p a'|h p n| | | |]; try done.
    - destruct Hok as (-> & -> & Ha'). rewrite set_heap_pool_id. by apply ok_same.
    - destruct Hok as [(-> & Hn & Hpn & Hp2 & Hx & fn' & Hfn)|(Hf & Hn & -> & -> & _)].
      + destruct (act_pool_pop x g t n fn' p HG Hfn Hx Hp2) as [HG' R].
        eexists. split; [exact HG'|]. split; [|split; [by eapply hinv_take|do 2 (split; [done|]); by apply (lossy_insert _ g _ n (OT t))]].
        simpl. exists b.
        split; [done|]. split; [done|]. split; [by rewrite lookup_insert|]. split; [lia|].
        apply nxp_inv in Hx as (nd & Hnd & _). by exists nd.
      + rewrite set_heap_pool_heap.
        destruct (act_fresh x g t n (Node (null, 0%N) (qd0 c)) HG Hf Hn) as [HG' R].
        { apply replicate_length. }
        eexists. split; [exact HG'|]. split; [|split; [by eapply hinv_take|do 2 (split; [done|]); by apply (lossy_insert _ g _ n (OT t))]].
        simpl. exists b.
        split; [done|]. split; [done|]. split; [by rewrite lookup_insert|]. split; [lia|].
        eexists. rewrite lookup_insert. done.
    - eapply ok_now; [done|done|done|]. by constructor.
    - eapply ok_now; [done|done|done|]. constructor. by right.
  Qed.

  Lemma take_S_insert (v d : val) k w :
    v !! k = Some w -> length d = length v -> take k d = take k v ->
    take (S k) (<[k := w]> d) = take (S k) v.
  Proof.
    intros Hv Hl Htk. assert (k < length d) by (rewrite Hl; by eapply lookup_lt_Some).
    rewrite (take_S_r _ _ w); [|by apply list_lookup_insert].
    rewrite (take_S_r v _ w) by done. by rewrite take_insert by done; rewrite Htk.
  Qed.

  Lemma step_word t x g v n k sp addr thr :
    GI x g -> hinv t (PcWord v n k) g -> tinv t (PcWord v n k) x g ->
    match tstep c x (PcWord v n k) sp addr thr with
    | TUB => False | TDisabled => True | TGo x' pc' => ok (cost (PcWord v n k) thr) t x g x' pc' end.
  Proof using Htag.
    intros HG HH (b & Hp & Hl & Ho & Hk & nd & Hnd & Htk). simpl. rewrite Hnd.
    pose proof (gi_len _ _ _ HG _ _ Hnd) as Hld.
    destruct thr.
    - destruct (c_throws c) eqn:Hthr; [|done].
      destruct (act_leak x g t n Hthr HG Ho) as [HG1 R1]. set (g1 := g_mem _ _ _ _) in *.
      destruct (act_commit x g1 t (Push b v) RExn HG1) as (g' & HG' & Hph & Ho1 & _ & _ & _ & He & R).
      { eapply canl_now; [done|done|]. constructor. by left. }
      exists g'. split; [done|]. split; [by exists (Push b v)|]. split; [|split; [done|split]].
      { intros m. rewrite Ho1. by eapply hinv_give. }
      { intros t' Hne. eapply rely_trans_same; eauto. }
      simpl. apply (lossy_trans 1 0 g g1 g'); [apply lossy_leak|by apply lossy_own].
    - destruct (v !! k) as [w|] eqn:Hw.
      + destruct (act_write x g t n nd (Node (nx nd) (<[k := w]> (dat nd))) HG Ho Hnd) as [HG' R].
        { simpl. lia. }
        { simpl. by rewrite insert_length. }
        exists g. split; [done|]. split; [|do 3 (split; [done|]); apply lossy_refl]. simpl. exists b.
        split; [done|]. split; [done|]. split; [done|].
        assert (k < length v) by (by eapply lookup_lt_Some). split; [lia|].
        eexists. rewrite lookup_insert. split; [done|]. simpl.
        apply take_S_insert; [done|lia|done].
      + apply ok_same; [done|done|]. simpl. exists b, nd.
        assert (length v <= k) by (by apply lookup_ge_None).
        assert (dat nd = v) as ->.
        { rewrite !take_ge in Htk by lia. done. }
        done.
  Qed.

  Lemma tstep_ok t x g pc sp addr thr :
    GI x g -> hinv t pc g -> tinv t pc x g ->
    match tstep c x pc sp addr thr with
    | TUB => False | TDisabled => True | TGo x' pc' => ok (cost pc thr) t x g x' pc' end.
  Proof using Htag.
    intros HG HH HT.
    destruct pc as [b v a|v n k|n tag|n|n tl|n tl nx'|n tl nx'|n tl|n tl np| |hd|hd tl|hd tl nx'|tl np
                   |hd np acc|n d k|k| |h| |tl|r].
    - by apply step_alloc.
    - by apply step_word.
    - destruct HT as (b & nd & Hp & Ho & Hnd & Htg). simpl. rewrite Hnd.
      destruct (act_write x g t n nd (Node (null, next_tag c tag) (dat nd)) HG Ho Hnd) as [HG' R].
      { simpl. rewrite next_tag_succ by done. lia. }
      { simpl. by eapply gi_len. }
      exists g. split; [done|]. split; [|do 3 (split; [done|]); apply lossy_refl]. simpl.
      exists b, (Node (null, next_tag c tag) (dat nd)). simpl. rewrite lookup_insert. done.
    - apply ok_same; [done|done|]. split; [done|]. split; [apply snap_refl|by eapply gi_tail_dom].
    - destruct HT as (Hpu & Hs & [nd Hnd]). simpl. rewrite Hnd. apply ok_same; [done|done|].
      split; [done|]. split; [done|]. exists nd. split; [done|]. split; [lia|]. intros _. by left.
    - destruct HT as (Hpu & Hs & nd & Hnd & Hle & Hx). simpl.
      destruct (decide (tl = q_tail x)) as [Ht|]; [|by apply ok_same].
      symmetry in Ht. specialize (Hx Ht).
      destruct (decide (nx'.1 = null)) as [Hn|Hn].
      + apply ok_same; [done|done|]. split; [done|]. split; [done|]. exists nd. split; [done|].
        split; [done|]. intros Htg. destruct Hx as [Hx|[_ Hlt]]; [|lia].
        split; [done|]. split; [|done]. rewrite <- Ht. by eapply gi_tail_Q.
      + apply ok_same; [done|done|]. split; [done|]. split; [done|]. split; [done|].
        intros _. destruct Hx as [Hx|[Hx _]]; [|done]. rewrite (nxp_Some _ _ _ Hnd). congruence.
    - destruct HT as ((b & ndn & Hp & Ho & Hndn & Hxn) & Hn & nd & Hnd & Hle & Hx).
      simpl. rewrite Hnd. destruct (decide _) as [[_ Heq]|].
      + destruct Hx as (_ & HQ & Ht); [by rewrite Heq|]. subst tl.
        destruct (act_link x g t _ (RBool true) n ndn nd (next_tag c nx'.2) HG Hp (sp_push _ _ _ _ _)
                    Ho Hndn Hxn Hnd) as [HG' R].
        { by rewrite Heq. }
        { rewrite Heq, next_tag_succ by done. lia. }
        eexists. split; [exact HG'|]. split; [|split; [by eapply hinv_give|split; [simpl; by rewrite erase_app, app_nil_r|
          split; [done|by apply (lossy_insert _ g _ n OQ)]]]].
        simpl. split; [eexists; by rewrite lookup_insert|]. split; [apply snap_refl|].
        split; [by eapply (gi_own_not_null c x g n (OT t))|]. intros _. by rewrite nxp_insert.
      + apply ok_same; [done|done|]. by exists b, ndn.
    - destruct HT as (Hd & Hs & Hn & Hx). apply ok_tail; try done.
    - destruct HT as (Hpu & Hs & Hn & Hx). apply ok_tail; try done.
      intros x' Hh. destruct Hpu as (b & nd & Hpu). exists b, nd. by rewrite Hh.
    - apply ok_same; [done|done|]. split; [done|]. split; [apply snap_refl|by eapply gi_head_dom].
    - destruct HT as (Hp & Hs & Hd). apply ok_same; [done|done|]. split; [done|]. split; [done|].
      split; [done|]. split; [apply snap_refl|done].
    - destruct HT as (Hp & Hs & [nd Hnd] & Hst & Hne). simpl. rewrite Hnd.
      apply ok_same; [done|done|]. split; [done|]. split; [done|]. split; [done|]. split; [done|].
      exists nd. split; [done|]. split; [|done].
      intros Hh Hn. eapply canl_now; [done|done|].
      destruct (gi_head_cons _ _ _ HG) as [q Hq]. pose proof (gi_qseg _ _ _ HG) as Hsg.
      rewrite Hq in Hsg. destruct Hsg as (_ & y & Hy & Hsg).
      rewrite Hh, (nxp_Some _ _ _ Hnd) in Hy. injection Hy as <-. rewrite Hn in Hsg.
      destruct q as [|z q].
      + pose proof (gi_a _ _ _ HG) as HF. rewrite Hq in HF. simpl in HF.
        apply Forall2_nil_inv_l in HF as ->. constructor.
      + exfalso. destruct Hsg as [<- _]. apply (gi_null_nin _ _ _ HG). rewrite Hq. right. left.
    - destruct HT as (Hp & Hs & Hst & Hne & nd & Hnd & Hc & Hxh & Hxt). simpl.
      destruct (decide (hd = q_head x)) as [Hh|]; [|by apply ok_same]. symmetry in Hh.
      destruct (decide (hd.1 = tl.1)) as [Hht|Hht].
      + destruct (decide (nx'.1 = null)) as [Hn|Hn].
        * eapply ok_commit; [done|done|]. by apply Hc.
        * apply ok_same; [done|done|]. split; [done|]. split; [done|]. split; [done|].
          intros Ht. rewrite <- Hht, (nxp_Some _ _ _ Hnd). f_equal. by rewrite Hxt.
      + destruct (decide (nx'.1 = null)) as [Hn|Hn]; [by apply ok_same|].
        apply ok_same; [done|done|]. specialize (Hxh Hh Hn).
        assert (Hnx : nxp (q_heap x) hd.1 = Some nx'.1).
        { rewrite (nxp_Some _ _ _ Hnd). by rewrite Hxh. }
        assert (Hin : nx'.1 ∈ g_qn g).
        { destruct (gi_head_cons _ _ _ HG) as [q Hq]. pose proof (gi_qseg _ _ _ HG) as Hsg.
          rewrite Hq in Hsg |- *. destruct Hsg as (_ & y & Hy & Hsg).
          rewrite Hh, Hnx in Hy. injection Hy as <-.
          destruct q as [|z q]; [by simpl in Hsg|]. destruct Hsg as [-> _]. right. left. }
        destruct (gi_qdom _ _ _ _ HG Hin) as [nd2 Hnd2].
        split; [done|]. split; [done|]. split; [done|]. split; [simpl; lia|].
        exists nd2. split; [done|]. intros _. split; [done|]. split; [|done].
        apply Hne; [done|]. congruence.
    - destruct HT as (Hp & Hs & Hn & Hx). apply ok_tail; try done.
    - destruct HT as (Hp & Hs & Hn & Hl & nd & Hnd & Hx). simpl.
      pose proof (gi_len _ _ _ HG _ _ Hnd) as Hld.
      destruct thr.
      { destruct (c_throws c) eqn:Hthr; [|done]. eapply ok_now; [done|done|done|]. by constructor. }
      destruct (decide (length acc < c_words c)) as [Hlt|Hge].
      + rewrite Hnd. destruct (lookup_lt_is_Some_2 (dat nd) (length acc)) as [w Hw]; [lia|].
        rewrite Hw. apply ok_same; [done|done|]. split; [done|]. split; [done|]. split; [done|].
        split; [rewrite app_length; simpl; lia|]. exists nd. split; [done|].
        intros Hh. destruct (Hx Hh) as (Hx1 & Hx2 & Hacc). split; [done|]. split; [done|].
        rewrite app_length. simpl. rewrite Nat.add_1_r. rewrite (take_S_r _ _ w) by done. congruence.
      + destruct (decide _) as [[_ Hh]|]; [|by apply ok_same].
        destruct (Hx Hh) as (Hx1 & Hx2 & Hacc). rewrite take_ge in Hacc by lia. subst hd.
        destruct (act_head x g t Pop (RPop (Some (dat nd))) np nd (next_tag c (q_head x).2) HG Hp
                    (fun a' => sp_pop _ _ a' _) Hx1 Hn Hx2 Hnd) as (a' & Ha & HG' & R).
        { rewrite next_tag_succ by done. lia. }
        eexists. split; [exact HG'|]. split; [|split; [by eapply hinv_take|split; [simpl; by rewrite erase_app, app_nil_r|
          split; [done|by apply (lossy_insert _ g _ (q_head x).1 (OT t))]]]].
        simpl. split; [by rewrite lookup_insert|]. split; [|done].
        eexists. rewrite lookup_insert. by rewrite Hacc.
    - destruct HT as (Ho & Hk & Hd). simpl.
      pose proof (dstep_ok c _ _ _ _ t n d sp (gi_pi _ _ _ HG) Ho Hd) as Hok.
      destruct (dstep n (q_heap x) (q_pool x) d sp) as [h p d'|h p|]; [| |done].
      + destruct Hok as (-> & Hd' & [->|(nd & y & Hnd & ->)]).
        * rewrite set_heap_pool_id. by apply ok_same.
        * rewrite set_heap_pool_heap.
          destruct (act_write x g t n nd (Node (y, (nx nd).2) (dat nd)) HG Ho Hnd) as [HG' R].
          { simpl. lia. }
          { simpl. by eapply gi_len. }
          exists g. split; [done|]. do 4 (split; [done|]). apply lossy_refl.
      + destruct Hok as (-> & -> & Hx).
        destruct (act_pool_push x g t n HG Ho Hx) as [HG' R].
        eexists. split; [exact HG'|]. split; [|split; [by eapply hinv_give|do 2 (split; [done|]);
          by apply (lossy_insert _ g _ n OF)]]. by destruct k.
    - destruct HT as [m Hp]. destruct k as [|k]; simpl.
      + eapply ok_now; [done|done|done|]. constructor.
      + destruct addr as [n|].
        * destruct (decide _) as [[Hf Hn]|]; [|done].
          destruct (act_fresh x g t n (Node (null, 0%N) (qd0 c)) HG Hf Hn) as [HG' R].
          { apply replicate_length. }
          eexists. split; [exact HG'|]. split; [|split; [by eapply hinv_take|do 2 (split; [done|]);
            by apply (lossy_insert _ g _ n (OT t))]]. simpl.
          split; [by rewrite lookup_insert|]. split; [by exists m|done].
        * eapply ok_now; [done|done|done|]. constructor.
    - apply ok_same; [done|done|]. split; [done|]. exists (q_head x).2.
      rewrite <- surjective_pairing. split; [apply snap_refl|done].
    - destruct HT as (Hp & tg & Hs & Hx). simpl.
      destruct (bool_decide_reflect (h = (q_tail x).1)) as [Heq|Hne].
      + eapply ok_now; [done|done|done|]. constructor.
      + destruct (decide (q_head x = (h, tg))) as [Hh|Hh]; [|by eapply ok_commit; [| |apply Hx]].
        eapply ok_now; [done|done|done|]. constructor.
        destruct (gi_head_cons _ _ _ HG) as [q Hq]. pose proof (gi_tail_in _ _ _ HG) as Hti.
        intros Ha. pose proof (gi_a _ _ _ HG) as HF. rewrite Ha, Hq in HF. simpl in HF. rewrite drop_0 in HF.
        apply Forall2_nil_inv_r in HF. subst q. rewrite Hq, Hh in Hti.
        apply elem_of_list_singleton in Hti. done.
    - apply ok_same; [done|done|]. split; [done|]. exists (q_tail x).2.
      rewrite <- surjective_pairing. split; [apply snap_refl|done].
    - destruct HT as (Hp & tg & Hs & Hx). simpl.
      destruct (bool_decide_reflect ((q_head x).1 = tl)) as [Heq|Hne].
      + eapply ok_now; [done|done|done|]. constructor.
      + destruct (decide (q_tail x = (tl, tg))) as [Hh|Hh]; [|by eapply ok_commit; [| |apply Hx]].
        eapply ok_now; [done|done|done|]. constructor.
        destruct (gi_head_cons _ _ _ HG) as [q Hq]. pose proof (gi_tail_in _ _ _ HG) as Hti.
        intros Ha. pose proof (gi_a _ _ _ HG) as HF. rewrite Ha, Hq in HF. simpl in HF. rewrite drop_0 in HF.
        apply Forall2_nil_inv_r in HF. subst q. rewrite Hq, Hh in Hti.
        apply elem_of_list_singleton in Hti. done.
    - done.
  Qed.
End step.
