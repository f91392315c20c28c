From stdpp Require Import gmap list numbers.
From Verif Require Import Lin PoolModel Chain PoolProofs QueueModel QueueSpec QueueObs QueueInv
  QueueObsProofs QueueQuiet QueueMain LiveSum PeakSum QueuePeak.

Set Default Proof Using "Type".

Section peak.
  Context (c : cfg).
  Notation null := (c_null c).

  (** Calls that have found the pool empty and not yet asked the allocator;
      calls that hold a node; nodes that a reserve still has to obtain. *)
  Definition wants (pc : qpc) : nat :=
    match pc with PcAlloc _ _ (ATest old) => if decide (old.1 = null) then 1 else 0 | _ => 0 end.
  Definition held (pc : qpc) : nat := match holds pc with Some _ => 1 | None => 0 end.
  Definition rest (pc : qpc) : nat :=
    match pc with PcReserve k | PcDealloc _ _ (KReserve k) => k | _ => 0 end.

  Lemma tstep_peak x pc sp addr thr x' pc' :
    tstep c x pc sp addr thr = TGo x' pc' ->
    rest pc' <= rest pc /\
    (size (q_heap x') + wants pc' + rest pc' <= size (q_heap x) + wants pc + rest pc \/
     (q_pool x').1 = null /\ rest pc' = 0).
  Proof.
    assert (Hins : forall (h : gmap N qnode) n nd nd', h !! n = Some nd ->
              size (<[n := nd']> h) = size h).
    { intros. apply map_size_insert_Some. eauto. }
    assert (Hnew : forall (h : gmap N qnode) n nd', h !! n = None -> size (<[n := nd']> h) = S (size h)).
    { intros. by apply map_size_insert_None. }
    destruct pc as [b v a|v n k|n tag|n|n tl|n tl nx'|n tl nx'|n tl|n tl np| |hd|hd tl|hd tl nx'|tl np
                   |hd np acc|n d k|k| |h| |tl|r]; simpl.
    - destruct a as [|old|old nxt]; simpl.
      + intros [= <- <-]. simpl. split; [lia|]. destruct (decide _); [by right|left; lia].
      + destruct (decide _).
        * destruct (c_node_based c && negb b) eqn:Hb; [|intros [= <- <-]; simpl; lia].
          destruct addr as [n|]; [|intros [= <- <-]; simpl; lia]. destruct (decide _) as [[Hn _]|]; [|done].
          intros [= <- <-]. simpl. rewrite Hnew by done. lia.
        * destruct (q_heap x !! old.1); [|done]. intros [= <- <-]. simpl. lia.
      + destruct (decide _); intros [= <- <-]; simpl; [lia|]. split; [lia|].
        destruct (decide _); [by right|left; lia].
    - destruct (q_heap x !! n) as [nd|] eqn:Hnd; [|done]. destruct thr.
      { destruct (c_throws c); [|done]. intros [= <- <-]. simpl. lia. }
      destruct (v !! k); intros [= <- <-]; simpl; [|lia]. rewrite (Hins _ _ _ _ Hnd). lia.
    - destruct (q_heap x !! n) as [nd|] eqn:Hnd; [|done]. intros [= <- <-]. simpl.
      rewrite (Hins _ _ _ _ Hnd). lia.
    - intros [= <- <-]. simpl. lia.
    - destruct (q_heap x !! tl.1) as [nd|]; [|done]. intros [= <- <-]. simpl. lia.
    - destruct (decide _); [|intros [= <- <-]; simpl; lia]. destruct (decide _); intros [= <- <-]; simpl; lia.
    - destruct (q_heap x !! tl.1) as [nd|] eqn:Hnd; [|done].
      destruct (decide _); intros [= <- <-]; simpl; rewrite ?(Hins _ _ _ _ Hnd); lia.
    - intros [= <- <-]. destruct (decide _); simpl; lia.
    - intros [= <- <-]. destruct (decide _); simpl; lia.
    - intros [= <- <-]. simpl. lia.
    - intros [= <- <-]. simpl. lia.
    - destruct (q_heap x !! hd.1) as [nd|]; [|done]. intros [= <- <-]. simpl. lia.
    - repeat (destruct (decide _)); intros [= <- <-]; simpl; lia.
    - intros [= <- <-]. destruct (decide _); simpl; lia.
    - destruct thr; [destruct (c_throws c); [|done]; intros [= <- <-]; simpl; lia|].
      destruct (decide _).
      + destruct (q_heap x !! np) as [nd|]; [|done]. destruct (dat nd !! length acc); [|done].
        intros [= <- <-]. simpl. lia.
      + destruct (decide _); intros [= <- <-]; simpl; lia.
    - destruct d as [|old|old]; simpl.
      + intros [= <- <-]. simpl. lia.
      + destruct (q_heap x !! n) as [nd|] eqn:Hnd; [|done]. intros [= <- <-]. simpl.
        rewrite (Hins _ _ _ _ Hnd). lia.
      + destruct (decide _); intros [= <- <-]; simpl; destruct k; simpl; lia.
    - destruct k as [|k]; [intros [= <- <-]; simpl; lia|].
      destruct addr as [n|]; [|intros [= <- <-]; simpl; lia]. destruct (decide _) as [[Hn _]|]; [|done].
      intros [= <- <-]. simpl. rewrite Hnew by done. lia.
    - intros [= <- <-]. simpl. lia.
    - intros [= <- <-]. simpl. lia.
    - intros [= <- <-]. simpl. lia.
    - intros [= <- <-]. simpl. lia.
    - done.
  Qed.

  Lemma upush_loop_peak fuel : forall x n x' r,
    upush_loop c fuel x n = UDone x' r -> size (q_heap x') = size (q_heap x) /\ q_pool x' = q_pool x.
  Proof.
    induction fuel as [|fuel IH]; intros x n x' r H; simpl in H; [done|].
    destruct (q_heap x !! (q_tail x).1) as [nd|] eqn:Hnd; [|done].
    destruct (decide _).
    - injection H as <- _. simpl. split; [|done]. apply map_size_insert_Some. eauto.
    - apply IH in H. done.
  Qed.

  Lemma ureserve_peak n : forall x addrs x' r,
    ureserve c n x addrs = UDone x' r -> size (q_heap x') <= size (q_heap x) + n.
  Proof.
    induction n as [|n IH]; intros x addrs x' r H; simpl in H; [injection H as <- _; lia|].
    destruct addrs as [|[a|] addrs]; [done| |injection H as <- _; lia].
    destruct (decide _) as [[Ha _]|]; [|done]. unfold dealloc_unsafe in H. rewrite lookup_insert in H.
    apply IH in H. simpl in H.
    rewrite map_size_insert_Some in H by (rewrite lookup_insert; eauto).
    rewrite map_size_insert_None in H by done. lia.
  Qed.

  Lemma ucall_peak x o addrs thr x' r :
    ucall c x o addrs thr = UDone x' r ->
    size (q_heap x') <= size (q_heap x) + qasked (Lin.Inv 0 o : qevent) \/ (q_pool x').1 = null.
  Proof.
    destruct o as [b v| | |n|v| |n]; simpl; try done.
    - destruct (decide _) as [[Hnb _]|]; [|done]. intros H.
      unfold upush, alloc_unsafe in H. rewrite Hnb in H. cbn [andb negb] in H.
      destruct (decide ((q_pool x).1 = null)) as [Hp|].
      + destruct addrs as [|[n|] addrs]; [injection H as <- _; lia| |injection H as <- _; lia].
        destruct (decide _); [|done]. rewrite lookup_insert in H.
        destruct thr; [destruct (c_throws c); [|done]; injection H as <- _; by right|].
        apply upush_loop_peak in H as [_ ->]. by right.
      + destruct (q_heap x !! (q_pool x).1) as [nd|] eqn:Hnd; [|done]. rewrite Hnd in H.
        destruct thr; [destruct (c_throws c); [|done]; injection H as <- _; simpl; lia|].
        apply upush_loop_peak in H as [-> _]. left. simpl.
        rewrite map_size_insert_Some by eauto. lia.
    - intros H. left. apply upop_loop_dom in H. rewrite <- !size_dom, H. lia.
    - destruct (c_node_based c); [|done]. intros H. left. by apply ureserve_peak in H.
  Qed.

  Lemma nodes_det h p l : nodes c h p l -> forall l', nodes c h p l' -> l' = l.
  Proof.
    induction 1 as [|p nd l Hp Hnd Hl IH]; intros l' H'; inversion H' as [|p' nd' l1 Hp' Hnd' Hl']; subst; try done.
    rewrite Hnd in Hnd'. injection Hnd' as <-. f_equal. by apply IH.
  Qed.

  Definition holders (m : gmap nat qpc) : list N := omap (fun p => holds p.2) (map_to_list m).

  Lemma holders_len m : length (holders m) = msum held m.
  Proof.
    unfold holders, msum, held. induction (map_to_list m) as [|[t pc] l IH]; [done|]. simpl.
    destruct (holds pc); simpl; by rewrite <- IH.
  Qed.

  Lemma holders_in m t pc n : m !! t = Some pc -> holds pc = Some n -> n ∈ holders m.
  Proof.
    intros Hm Hn. apply elem_of_list_omap. exists (t, pc). split; [|done]. by apply elem_of_map_to_list.
  Qed.

  (** With an empty pool the nodes are the elements, the dummy, and what the
      calls in progress hold. *)
  Lemma empty_peak s g :
    c_throws c = false -> Inv c s g -> (q_pool (q_sh s)).1 = null ->
    size (q_heap (q_sh s)) <= S (length (g_a g)) + msum held (q_pcs s).
  Proof.
    intros Hth HI Hp. destruct (inv_exhausted c s g Hth HI Hp) as (_ & l & Hl & Hx).
    destruct HI as [HG _]. rewrite (nodes_det _ _ _ (gi_nodes c _ _ HG) _ Hl) in Hx.
    rewrite <- (gi_len_a c _ _ HG), <- holders_len, <- app_length. apply size_le.
    intros n Hn. apply elem_of_app. destruct (Hx n Hn) as [|(t & pc & Ht & Hh)]; [by left|].
    right. by eapply holders_in.
  Qed.

  Lemma wants_held (m : gmap nat qpc) : msum wants m + msum held m <= size m.
  Proof.
    revert m. refine (map_ind _ _ _); [done|]. intros t pc m Hm IH.
    rewrite !msum_insert_new, map_size_insert_None by done.
    assert (wants pc + held pc <= 1); [|lia].
    destruct pc as [b v [|old|old nxt]|v n k|n tag|n|n tl|n tl nx'|n tl nx'|n tl|n tl np| |hd|hd tl|hd tl nx'|tl np
                   |hd np acc|n d k|k| |h| |tl|r]; cbn; repeat (destruct (decide _)); lia.
  Qed.

  Lemma reserved_app h1 h2 : qreserved (h1 ++ h2) = qreserved h1 + qreserved h2.
  Proof. apply sum_list_with_app. Qed.

  (** What is there and what calls in progress are about to obtain. *)
  Definition total (s : qstate) : nat :=
    size (q_heap (q_sh s)) + msum wants (q_pcs s) + msum rest (q_pcs s).

  Lemma step_peak s ch s' evs :
    qstep c s ch = QNext s' evs ->
    msum rest (q_pcs s') <= msum rest (q_pcs s) + qreserved evs /\
    (total s' <= total s + qreserved evs \/ (q_pool (q_sh s')).1 = null).
  Proof.
    destruct ch as [t o tf|t sp addr thr|t o addrs thr]; intros H.
    - simpl in H. destruct (q_pcs s !! t) eqn:Ht; [done|]. destruct (qstart c o tf) as [pc|] eqn:Hs; [|done].
      injection H as <- <-. unfold total. simpl. rewrite !msum_insert_new by done.
      assert (wants pc = 0 /\ rest pc <= qasked (Lin.Inv t o : qevent)) as [? ?].
      { destruct o; simpl in Hs; repeat case_decide; try destruct (c_node_based c); try destruct tf;
          simplify_eq/=; lia. }
      simpl in *. lia.
    - apply qstep_run in H as (pc & Ht & [(r & -> & -> & ->)|(x' & pc' & H & -> & ->)]).
      + unfold total, qreserved. simpl. pose proof (msum_delete wants _ _ _ Ht).
        pose proof (msum_delete rest _ _ _ Ht). simpl in *. lia.
      + unfold total, qreserved. simpl.
        pose proof (msum_insert wants _ _ _ pc' Ht). pose proof (msum_insert rest _ _ _ pc' Ht).
        apply tstep_peak in H as [Hr [Hle|[Hp _]]]; [|split; [lia|by right]]. lia.
    - cbn [qstep] in H. destruct (decide _) as [He|]; [|done].
      destruct (ucall c (q_sh s) o addrs thr) as [x' r| |] eqn:Hu; [|done..]. injection H as <- <-.
      apply ucall_peak in Hu. unfold total, qreserved. rewrite He. cbn [q_pcs q_sh].
      change (msum rest ∅) with 0. change (msum wants ∅) with 0.
      cbn [sum_list_with qasked]. split; [lia|]. destruct Hu as [Hu|]; [left|by right].
      cbn [qasked] in Hu. destruct o; lia.
  Qed.

  Lemma all_exec P s0 hist s : qexec_all c P s0 hist s -> qexec c s0 hist s.
  Proof. induction 1; [constructor|by econstructor]. Qed.

  Lemma all_last P s0 hist s : qexec_all c P s0 hist s -> P s.
  Proof. by destruct 1. Qed.

  Lemma init_peak ns addr s0 :
    NoDup ns -> null ∉ ns -> qinit c ns addr = Some s0 ->
    q_pcs s0 = ∅ /\ size (q_heap (q_sh s0)) <= length ns `max` 1.
  Proof.
    intros Hnd Hnn Hi. destruct (decide (ns = [])) as [->|Hne].
    - unfold qinit, pool_init in Hi. simpl in Hi. unfold alloc_unsafe in Hi. simpl in Hi.
      rewrite decide_True in Hi by done. destruct (c_node_based c && true).
      + destruct addr as [n|]; [|done]. destruct (decide _); [|done]. rewrite lookup_insert in Hi.
        injection Hi as <-. split; [done|]. cbn [q_heap q_sh]. rewrite insert_insert, map_size_insert_None by done. rewrite map_size_empty. simpl. lia.
      + injection Hi as <-. simpl. split; [done|]. rewrite map_size_empty. lia.
    - pose proof (qinit_dom c _ _ _ Hi Hne Hnd Hnn) as Hd. split.
      + unfold qinit in Hi. destruct (pool_init c (qd0 c) ns) as [h p].
        destruct (alloc_unsafe c (qd0 c) false h p addr) as [?|h' p' n| | | |]; try done.
        * destruct (h' !! n); [|done]. by injection Hi as <-.
        * by injection Hi as <-.
      + rewrite <- size_dom, Hd, size_list_to_set by done. lia.
  Qed.

  Context (Htag : c_tagmod c = None).

  Lemma queue_peak ns addr s0 B hist s :
    c_throws c = false -> NoDup ns -> null ∉ ns -> ns <> [] \/ c_node_based c = true ->
    qinit c ns addr = Some s0 -> qexec_all c (qneeds c B) s0 hist s ->
    size (q_heap (q_sh s)) <= length ns `max` B + qreserved hist.
  Proof using Htag.
    intros Hth Hnd Hnn Hns Hi He.
    destruct (init_peak _ _ _ Hnd Hnn Hi) as [Hp0 Hs0].
    enough (msum rest (q_pcs s) <= qreserved hist /\ total s <= length ns `max` B + qreserved hist) as [_ H].
    { unfold total in H. lia. }
    induction He as [(a & Ha & HB)|hist s ch s' evs He IH Hs HP].
    - unfold total, qreserved. rewrite Hp0. change (msum rest ∅) with 0. change (msum wants ∅) with 0. simpl. lia.
    - destruct IH as [IH1 IH2]. destruct (step_peak _ _ _ _ Hs) as [Hr Ht]. rewrite reserved_app.
      split; [lia|]. destruct Ht as [Ht|Ht]; [lia|].
      destruct HP as (a & Ha & HB).
      assert (qreach c ns (hist ++ evs) s') as Hreach.
      { exists addr, s0. do 4 (split; [done|]). econstructor; [by eapply all_exec|done]. }
      destruct (qreach_ok c Htag _ _ _ Hreach) as (g & HI & _).
      rewrite (inv_contents c _ _ _ HI Ha) in HB.
      pose proof (empty_peak _ _ Hth HI Ht). pose proof (wants_held (q_pcs s')).
      unfold total. lia.
  Qed.
End peak.
