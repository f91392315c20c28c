(** * What the results of queue calls say about the states during the call *)
From stdpp Require Import gmap list numbers.
From Verif Require Import Lin PoolModel Chain PoolProofs QueueModel QueueSpec QueueObs
  QueueInv QueueStep QueueSafe.

Set Default Proof Using "Type".

Section obs.
  Context (c : cfg).
  Notation null := (c_null c).
  Notation GI := (GI c).
  Notation rely := (rely c).
  Notation Inv := (Inv c).

  Lemma qstep_run s t sp addr thr s' evs :
    qstep c s (Run t sp addr thr) = QNext s' evs ->
    exists pc, q_pcs s !! t = Some pc /\
      ((exists r, pc = PcRet r /\ s' = QSt (q_sh s) (delete t (q_pcs s)) /\ evs = [Res t r]) \/
       (exists x' pc', tstep c (q_sh s) pc sp addr thr = TGo x' pc' /\
          s' = QSt x' (<[t := pc']> (q_pcs s)) /\ evs = [])).
  Proof.
    cbn [qstep]. destruct (q_pcs s !! t) as [pc|]; [|done]. intros H. exists pc. split; [done|].
    destruct pc; try (destruct (tstep c (q_sh s) _ sp addr thr) as [x' pc'| |] eqn:Hst; try done;
      injection H as <- <-; right; exists x', pc'; done).
    injection H as <- <-. left. eauto.
  Qed.

  Lemma chain_det h p a1 a2 : chain c h p a1 -> chain c h p a2 -> a1 = a2.
  Proof.
    intros H1. revert a2. induction H1 as [|p nd a Hp Hnd H1 IH]; intros a2 H2.
    - inversion H2; subst; done.
    - inversion H2 as [|p' nd' a' Hp' Hnd' H2']; subst; [done|].
      rewrite Hnd in Hnd'. injection Hnd' as <-. f_equal. by apply IH.
  Qed.

  Lemma qcontents_det s a1 a2 : qcontents c s a1 -> qcontents c s a2 -> a1 = a2.
  Proof.
    intros (nd1 & H1 & C1) (nd2 & H2 & C2). rewrite H1 in H2. injection H2 as <-.
    by eapply chain_det.
  Qed.

  Lemma nodes_det h p l1 l2 : nodes c h p l1 -> nodes c h p l2 -> l1 = l2.
  Proof.
    intros H1. revert l2. induction H1 as [|p nd l Hp Hnd H1 IH]; intros l2 H2.
    - inversion H2; subst; done.
    - inversion H2 as [|p' nd' l' Hp' Hnd' H2']; subst; [done|].
      rewrite Hnd in Hnd'. injection Hnd' as <-. f_equal. by apply IH.
  Qed.

  Lemma seg_nodes h p l : seg h p l null -> null ∉ l -> nodes c h p l.
  Proof.
    revert p. induction l as [|x l IH]; intros p Hs Hn; simpl in Hs.
    - subst p. constructor.
    - destruct Hs as (-> & y & Hy & Hs). apply nxp_inv in Hy as (nd & Hnd & <-).
      econstructor; [set_solver|done|]. apply IH; [done|set_solver].
  Qed.

  Lemma seg_chain h p l a :
    seg h p l null -> null ∉ l ->
    Forall2 (fun n v => exists nd, h !! n = Some nd /\ dat nd = v) l a -> chain c h p a.
  Proof.
    intros Hs Hn HF. revert p Hs. induction HF as [|x v l a (nd & Hnd & <-) HF IH]; intros p Hs.
    - simpl in Hs. subst p. constructor.
    - destruct Hs as (-> & y & Hy & Hs). rewrite (nxp_Some _ _ _ Hnd) in Hy. injection Hy as <-.
      econstructor; [set_solver|done|]. apply IH; [set_solver|done].
  Qed.

  Lemma gi_nodes x g : GI x g -> nodes c (q_heap x) (q_head x).1 (g_qn g).
  Proof.
    intros HG. apply seg_nodes; [apply (gi_qseg _ _ _ HG)|by eapply gi_null_nin].
  Qed.

  Lemma gi_contents s g : GI (q_sh s) g -> qcontents c s (g_a g).
  Proof.
    intros HG. destruct (gi_head_cons _ _ _ HG) as [q Hq].
    pose proof (gi_qseg _ _ _ HG) as Hs. rewrite Hq in Hs. destruct Hs as (_ & y & Hy & Hs).
    apply nxp_inv in Hy as (nd & Hnd & Hy). exists nd. split; [done|]. rewrite Hy.
    eapply seg_chain; [exact Hs| |].
    - intros Hn. apply (gi_null_nin _ _ _ HG). rewrite Hq. by right.
    - pose proof (gi_a _ _ _ HG) as HF. rewrite Hq in HF. simpl in HF. by rewrite drop_0 in HF.
  Qed.

  Lemma inv_contents s g a : Inv s g -> qcontents c s a -> a = g_a g.
  Proof. intros [HG _] Ha. eapply qcontents_det; [done|]. by apply gi_contents. Qed.

  (** With an empty pool list every node is accounted for. *)
  Lemma inv_exhausted s g :
    c_throws c = false -> Inv s g -> (q_pool (q_sh s)).1 = null -> exhausted c s.
  Proof.
    intros Hth [HG HT] Hp. split; [done|]. exists (g_qn g). split; [by apply gi_nodes|].
    intros n Hn. apply (pi_dom _ _ _ _ _ (gi_pi _ _ _ HG)) in Hn as [o Ho].
    destruct o as [| |t|].
    - left. by apply (gi_qmem _ _ _ HG).
    - exfalso. pose proof (gi_pi _ _ _ HG) as HP. apply (pi_mem _ _ _ _ _ HP) in Ho.
      pose proof (pi_seg _ _ _ _ _ HP) as Hs. destruct (g_fn g) as [|z fn]; [by apply elem_of_nil in Ho|].
      destruct Hs as [Hz _].
      eapply (PI_not_null c _ _ _ _ z OF HP); [|congruence].
      apply (pi_mem _ _ _ _ _ HP). left.
    - right. exists t. pose proof (HT t) as Ht. destruct (q_pcs s !! t) as [pc|].
      + exists pc. split; [done|]. by apply Ht.
      + exfalso. by apply Ht in Ho.
    - exfalso. by eapply (gi_leak _ _ _ HG Hth).
  Qed.

  (** ** The states since an invocation *)

  Definition seen (P : qstate -> Prop) (w : list qstate) : Prop := exists s, s ∈ w /\ P s.

  Definition Pfull (s : qstate) : Prop :=
    (q_pool (q_sh s)).1 = null /\ (c_throws c = false -> exhausted c s).
  Definition Pemp (s : qstate) : Prop := qcontents c s [].
  Definition Pne (s : qstate) : Prop := exists v a, qcontents c s (v :: a).

  Lemma seen_app P w w' : seen P w -> seen P (w ++ w').
  Proof. intros (s & Hs & HP). exists s. split; [|done]. apply elem_of_app. by left. Qed.
  Lemma seen_last (P : qstate -> Prop) w s : P s -> seen P (w ++ [s]).
  Proof. intros HP. exists s. split; [|done]. apply elem_of_app. right. by apply elem_of_list_singleton. Qed.

  (** Program counters of an operation. *)
  Definition compat (o : qop) (pc : qpc) : Prop :=
    match pc with
    | PcAlloc b v _ => o = Push b v
    | PcWord _ _ _ | PcNStore _ _ | PcPTail _ | PcPNext _ _ | PcPCheck _ _ _ | PcPLink _ _ _
    | PcPDone _ _ | PcPSwing _ _ _ => exists b v, o = Push b v
    | PcOHead | PcOTail _ | PcONext _ _ | PcOCheck _ _ _ | PcOSwing _ _ | PcOCopy _ _ _ => o = Pop
    | PcDealloc _ _ (KRet r) => o = Pop /\ exists v, r = RPop (Some v)
    | PcDealloc _ _ (KReserve _) | PcReserve _ => exists n, o = Reserve n
    | PcEHead | PcEHeadTail _ | PcETail | PcETailHead _ => o = Empty
    | PcRet _ => True
    end.

  Definition J (o : qop) (w : list qstate) (pc : qpc) (x : qshared) : Prop :=
    match pc with
    | PcAlloc b v (ATest old) => old.1 = null -> seen Pfull w
    | PcOCheck hd tl nx' => q_head x = hd -> nx'.1 = null -> seen Pemp w
    | PcEHeadTail h => exists s1, s1 ∈ w /\ (q_head (q_sh s1)).1 = h /\
                         (q_head x = q_head (q_sh s1) \/ seen Pne w)
    | PcETailHead tl => exists s1, s1 ∈ w /\ (q_tail (q_sh s1)).1 = tl /\
                         (q_tail x = q_tail (q_sh s1) \/ seen Pne w)
    | PcRet r =>
        match o, r with
        | Push b _, RBool false => seen Pfull w /\ (c_node_based c = false \/ b = true)
        | Pop, RPop None => seen Pemp w
        | Empty, RBool false => seen Pne w
        | _, _ => True
        end
    | _ => True
    end.

  Lemma Pne_inv s g : Inv s g -> g_a g <> [] -> Pne s.
  Proof.
    intros [HG _] Ha. destruct (g_a g) as [|v a] eqn:E; [done|].
    exists v, a. rewrite <- E. by apply gi_contents.
  Qed.

  Lemma J_other o w pc s g s' g' t :
    Inv s g -> q_pcs s !! t = Some pc -> s ∈ w ->
    rely t (q_sh s) g (q_sh s') g' -> J o w pc (q_sh s) -> J o (w ++ [s']) pc (q_sh s').
  Proof.
    intros HI Hpc Hsw R. pose proof HI as [HG HT]. specialize (HT t). rewrite Hpc in HT.
    destruct HT as [HT _].
    destruct pc as [b v a|v n k|n tag|n|n tl|n tl nx'|n tl nx'|n tl|n tl np| |hd|hd tl|hd tl nx'|tl np
                   |hd np acc|n d k|k| |h| |tl|r]; simpl; try done.
    - destruct a as [|old|old nxt]; try done. intros H Hn. apply seen_app. auto.
    - destruct HT as (_ & Hs & _). intros H Hh Hn. apply seen_app.
      destruct (snap_back _ _ _ Hs (rl_head _ _ _ _ _ _ R) Hh) as [Hh' _]. auto.
    - intros (s1 & H1 & H2 & H3). exists s1. split; [apply elem_of_app; by left|]. split; [done|].
      destruct H3 as [H3|H3]; [|right; by apply seen_app].
      destruct (decide (q_head (q_sh s') = q_head (q_sh s))) as [He|He]; [left; congruence|right].
      exists s. split; [apply elem_of_app; by left|]. eapply Pne_inv; [done|].
      by apply (rl_a_head _ _ _ _ _ _ R).
    - intros (s1 & H1 & H2 & H3). exists s1. split; [apply elem_of_app; by left|]. split; [done|].
      destruct H3 as [H3|H3]; [|right; by apply seen_app].
      destruct (decide (q_tail (q_sh s') = q_tail (q_sh s))) as [He|He]; [left; congruence|right].
      exists s. split; [apply elem_of_app; by left|]. eapply Pne_inv; [done|].
      by apply (rl_a_tail _ _ _ _ _ _ R).
    - destruct o, r as [[]| | |]; try done.
      + intros [H1 H2]. split; [by apply seen_app|done].
      + destruct r; [done|]. apply seen_app.
      + apply seen_app.
  Qed.

  Lemma Pfull_inv s g : Inv s g -> (q_pool (q_sh s)).1 = null -> Pfull s.
  Proof. intros HI Hp. split; [done|]. intros. by eapply inv_exhausted. Qed.

  Context (Htag : c_tagmod c = None).

  Lemma J_own o w s g t pc sp addr thr x' pc' :
    Inv s g -> s ∈ w -> q_pcs s !! t = Some pc -> compat o pc -> J o w pc (q_sh s) ->
    tstep c (q_sh s) pc sp addr thr = TGo x' pc' ->
    compat o pc' /\ J o (w ++ [QSt x' (<[t := pc']> (q_pcs s))]) pc' x'.
  Proof using Htag.
    intros HI Hsw Hpc Hco HJ Hst. pose proof HI as [HG HT]. specialize (HT t). rewrite Hpc in HT.
    destruct HT as [HT HH].
    assert (HI' : exists g', Inv (QSt x' (<[t := pc']> (q_pcs s))) g').
    { pose proof (qstep_ok c Htag s g (Run t sp addr thr) HI) as Hok. simpl in Hok. rewrite Hpc in Hok.
      destruct pc; try done; rewrite Hst in Hok; destruct Hok as (g' & HI' & _); by exists g'. }
    destruct HI' as [g' HI']. set (s' := QSt x' (<[t := pc']> (q_pcs s))) in *.
    assert (Hx' : x' = q_sh s') by done.
    assert (Hnull : (q_pool x').1 = null -> seen Pfull (w ++ [s'])).
    { intros Hp. apply seen_last. eapply Pfull_inv; [exact HI'|exact Hp]. }
    destruct pc as [b v a|v n k|n tag|n|n tl|n tl nx'|n tl nx'|n tl|n tl np| |hd|hd tl|hd tl nx'|tl np
                   |hd np acc|n d k|k| |h| |tl|r]; simpl in Hst.
    - destruct a as [|old|old nxt]; simpl in Hst.
      + injection Hst as <- <-. done.
      + destruct (decide (old.1 = null)) as [Hn|Hn].
        * simpl in HJ. specialize (HJ Hn). simpl in Hco.
          destruct (c_node_based c) eqn:Hnb; simpl in Hst.
          -- destruct b; simpl in Hst.
             ++ injection Hst as Hx <-. split; [done|]. simpl. rewrite Hco. split; [by apply seen_app|].
                by right.
             ++ destruct addr as [m|]; [|injection Hst as Hx <-; split; [done|]; simpl; by subst o].
                destruct (decide _); [|done]. injection Hst as Hx <-. split; [|done]. by exists false, v.
          -- injection Hst as Hx <-. split; [done|]. simpl. rewrite Hco. split; [by apply seen_app|].
             by left.
        * destruct (q_heap (q_sh s) !! old.1); [|done]. by injection Hst as <- <-.
      + destruct (decide _).
        * injection Hst as Hx <-. split; [|done]. by exists b, v.
        * injection Hst as Hx <-. split; [done|]. simpl. intros Hp. apply Hnull. by rewrite <- Hx.
    - destruct (q_heap (q_sh s) !! n) as [nd|]; [|done].
      destruct thr.
      { destruct (c_throws c); [|done]. injection Hst as Hx <-. split; [done|]. simpl.
        destruct Hco as (b & v' & ->). done. }
      destruct (v !! k); injection Hst as Hx <-; (split; [|done]); done.
    - destruct (q_heap (q_sh s) !! n) as [nd|]; [|done]. by injection Hst as Hx <-.
    - by injection Hst as Hx <-.
    - destruct (q_heap (q_sh s) !! tl.1) as [nd|]; [|done]. by injection Hst as Hx <-.
    - destruct (decide _); [|by injection Hst as Hx <-].
      destruct (decide _); by injection Hst as Hx <-.
    - destruct (q_heap (q_sh s) !! tl.1) as [nd|]; [|done].
      destruct (decide _); by injection Hst as Hx <-.
    - injection Hst as Hx <-. split; [done|]. simpl. destruct Hco as (b & v' & ->). done.
    - by injection Hst as Hx <-.
    - by injection Hst as Hx <-.
    - by injection Hst as Hx <-.
    - destruct HT as (Hp & Hs & _ & _ & Hne).
      destruct (q_heap (q_sh s) !! hd.1) as [nd|] eqn:Hnd; [|done]. injection Hst as Hx <-.
      split; [done|]. simpl. intros Hh Hn. apply seen_last. unfold Pemp.
      destruct HI' as [HG' _]. rewrite <- Hx in Hh.
      assert (Ha : g_a g' = []).
      { destruct (gi_head_cons _ _ _ HG') as [q Hq]. pose proof (gi_qseg _ _ _ HG') as Hsg.
        rewrite Hq in Hsg. destruct Hsg as (_ & y & Hy & Hsg). simpl in Hy. rewrite <- Hx in Hy.
        rewrite Hh, (nxp_Some _ _ _ Hnd) in Hy. injection Hy as <-. rewrite Hn in Hsg.
        destruct q as [|z q].
        - pose proof (gi_a _ _ _ HG') as HF. rewrite Hq in HF. simpl in HF.
          by apply Forall2_nil_inv_l in HF.
        - exfalso. destruct Hsg as [<- _]. apply (gi_null_nin _ _ _ HG'). rewrite Hq. right. left. }
      rewrite <- Ha. by apply gi_contents.
    - simpl in HJ. destruct (decide (hd = _)) as [Hh|]; [|by injection Hst as Hx <-].
      destruct (decide (hd.1 = tl.1)).
      + destruct (decide (nx'.1 = null)) as [Hn|Hn]; injection Hst as Hx <-; [|done].
        split; [done|]. simpl. rewrite Hco. apply seen_app. auto.
      + destruct (decide (nx'.1 = null)); by injection Hst as Hx <-.
    - by injection Hst as Hx <-.
    - destruct thr.
      { destruct (c_throws c); [|done]. injection Hst as Hx <-. split; [done|]. simpl. by rewrite Hco. }
      destruct (decide (length acc < _)).
      + destruct (q_heap (q_sh s) !! np) as [nd|]; [|done]. destruct (dat nd !! length acc); [|done].
        by injection Hst as Hx <-.
      + destruct (decide _); injection Hst as Hx <-; [|done]. split; [|done]. simpl. eauto.
    - destruct (dstep n (q_heap (q_sh s)) (q_pool (q_sh s)) d sp); [| |done]; injection Hst as Hx <-.
      + done.
      + destruct k as [r|k]; [|done]. split; [done|]. simpl. destruct Hco as [-> [v ->]]. done.
    - destruct k as [|k].
      + injection Hst as Hx <-. split; [done|]. simpl. destruct Hco as [m ->]. done.
      + destruct addr as [m|]; [|injection Hst as Hx <-; split; [done|]; simpl; destruct Hco as [m' ->]; done].
        destruct (decide _); [|done]. injection Hst as Hx <-. done.
    - injection Hst as Hx <-. split; [done|]. simpl. exists s'.
      split; [apply elem_of_app; right; by apply elem_of_list_singleton|].
      rewrite <- Hx'. rewrite Hx. split; [done|by left].
    - simpl in HJ. destruct HJ as (s1 & H1 & H2 & H3). injection Hst as Hx <-. split; [done|].
      simpl. rewrite Hco.
      destruct (bool_decide_reflect (h = (q_tail (q_sh s)).1)) as [|Hne]; [done|].
      destruct H3 as [H3|H3]; [|by apply seen_app]. apply seen_app.
      exists s. split; [done|]. eapply Pne_inv; [done|]. intros Ha.
      destruct (gi_head_cons _ _ _ HG) as [q Hq]. pose proof (gi_tail_in _ _ _ HG) as Hti.
      pose proof (gi_a _ _ _ HG) as HF. rewrite Ha, Hq in HF. simpl in HF. rewrite drop_0 in HF.
      apply Forall2_nil_inv_r in HF. subst q. rewrite Hq, H3 in Hti.
      apply elem_of_list_singleton in Hti. congruence.
    - injection Hst as Hx <-. split; [done|]. simpl. exists s'.
      split; [apply elem_of_app; right; by apply elem_of_list_singleton|].
      rewrite <- Hx'. rewrite Hx. split; [done|by left].
    - simpl in HJ. destruct HJ as (s1 & H1 & H2 & H3). injection Hst as Hx <-. split; [done|].
      simpl. rewrite Hco.
      destruct (bool_decide_reflect ((q_head (q_sh s)).1 = tl)) as [|Hne]; [done|].
      destruct H3 as [H3|H3]; [|by apply seen_app]. apply seen_app.
      exists s. split; [done|]. eapply Pne_inv; [done|]. intros Ha.
      destruct (gi_head_cons _ _ _ HG) as [q Hq]. pose proof (gi_tail_in _ _ _ HG) as Hti.
      pose proof (gi_a _ _ _ HG) as HF. rewrite Ha, Hq in HF. simpl in HF. rewrite drop_0 in HF.
      apply Forall2_nil_inv_r in HF. subst q. rewrite Hq, H3 in Hti.
      apply elem_of_list_singleton in Hti. congruence.
    - done.
  Qed.

  Lemma qcall_ok s0 g0 t o w s :
    Inv s0 g0 -> erase (g_l g0) = [] -> qcall c s0 t o w s ->
    s ∈ w /\ exists g pc, Inv s g /\ q_pcs s !! t = Some pc /\ compat o pc /\ J o w pc (q_sh s).
  Proof using Htag.
    intros HI0 Hl0. induction 1 as [hist s tf s' evs He Hs|w s ch s' evs Hc IH Hs Hin].
    - split; [by apply elem_of_list_singleton|].
      destruct (qexec_ok c Htag _ _ _ _ HI0 Hl0 He) as (g & HI & _).
      pose proof (qstep_ok c Htag _ _ (Invoke t o tf) HI) as Hok. rewrite Hs in Hok.
      destruct Hok as (g' & HI' & _). simpl in Hs.
      destruct (q_pcs s !! t); [done|]. destruct (qstart c o tf) as [pc|] eqn:Hst; [|done].
      injection Hs as <- <-. exists g', pc. split; [done|]. split; [simpl; by rewrite lookup_insert|].
      destruct o as [b v| | |n|v| |n]; simpl in Hst; try done.
      + destruct (decide _); [|done]. by injection Hst as <-.
      + by injection Hst as <-.
      + destruct tf; by injection Hst as <-.
      + destruct (c_node_based c); [|done]. injection Hst as <-. split; [by exists n|done].
    - destruct IH as (Hsw & g & pc & HI & Hpc & Hco & HJ).
      split; [apply elem_of_app; right; by apply elem_of_list_singleton|].
      pose proof (qstep_ok c Htag _ _ ch HI) as Hok. rewrite Hs in Hok.
      destruct Hok as (g' & HI' & _ & Hoth & _).
      destruct (decide (ch_thread ch = t)) as [Ht|Ht].
      + exists g'. destruct ch as [t' o' tf|t' sp addr thr|t' o' addrs thr]; simpl in Ht; subst t'.
        * simpl in Hs. by rewrite Hpc in Hs.
        * apply qstep_run in Hs as (pc0 & Hpc0 & Hs). rewrite Hpc in Hpc0. injection Hpc0 as <-.
          destruct Hs as [(r & -> & -> & ->)|(x' & pc' & Hst & -> & ->)].
          -- destruct Hin as [pc0 Hin]. simpl in Hin. by rewrite lookup_delete in Hin.
          -- destruct (J_own _ _ _ _ _ _ _ _ _ _ _ HI Hsw Hpc Hco HJ Hst) as [Hc' HJ'].
             exists pc'. split; [done|]. simpl. rewrite lookup_insert. done.
        * simpl in Hs. destruct (decide (q_pcs s = ∅)) as [He|]; [|done]. by rewrite He, lookup_empty in Hpc.
      + destruct (Hoth _ _ Hpc Ht) as [Hpc' R]. exists g', pc. split; [done|]. split; [done|].
        split; [done|]. eapply J_other; [exact HI|exact Hpc|exact Hsw|exact R|exact HJ].
  Qed.

  Lemma qcallret_ok ns t o w r :
    qcallret c ns t o w r -> compat o (PcRet r) /\ exists x, J o w (PcRet r) x.
  Proof using Htag.
    intros (addr & s0 & s & Hnd & Hnn & Hne & Hi & Hc & (sp & ad & thr & s' & Hr)).
    destruct (qinit_ok c Htag _ _ _ Hnd Hnn Hne Hi) as (g0 & HI0 & Hl0 & _).
    assert (He0 : erase (g_l g0) = []) by (by rewrite Hl0).
    destruct (qcall_ok _ _ _ _ _ _ HI0 He0 Hc) as (_ & g & pc & HI & Hpc & Hco & HJ).
    apply qstep_run in Hr as (pc0 & Hpc0 & Hr). rewrite Hpc in Hpc0. injection Hpc0 as <-.
    destruct Hr as [(r' & -> & -> & Hr)|(x' & pc' & _ & _ & Hr)]; [|done].
    injection Hr as <-. split; [done|]. by exists (q_sh s).
  Qed.
End obs.
