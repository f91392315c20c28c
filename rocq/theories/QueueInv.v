(** * Invariant of the queue machine (tags without wrap-around) *)
From stdpp Require Import gmap list numbers.
From Verif Require Import Lin PoolModel Chain PoolProofs QueueModel QueueSpec QueueObs.

(** Ghost state: ownership of nodes, the node lists of queue (dummy first) and
    pool, and the linearization built so far. *)
Record ghost := Gh {
  g_own : gmap N owner;
  g_qn : list N;
  g_fn : list N;
  g_l : list (levent qop qret);
  g_ph : gmap nat (phase qop qret);
  g_a : list val;
}.

Set Default Proof Using "Type".

Section inv.
  Context (c : cfg).
  Notation null := (c_null c).
  Notation spec := (qspec (c_node_based c) (c_throws c)).

  Definition canl (g : ghost) (t : nat) (o : qop) (r : qret) : Prop :=
    canlin [] spec (g_l g) (g_ph g) (g_a g) t o r.

  Record GI (x : qshared) (g : ghost) : Prop := {
    gi_pi : PI c (q_heap x) (q_pool x) (g_own g) (g_fn g);
    gi_qnodup : NoDup (g_qn g);
    gi_qmem : forall n, n ∈ g_qn g <-> g_own g !! n = Some OQ;
    gi_qseg : seg (q_heap x) (q_head x).1 (g_qn g) null;
    gi_tail : exists pre, g_qn g = pre ++ [(q_tail x).1] \/
                          exists y, g_qn g = pre ++ [(q_tail x).1; y];
    gi_a : Forall2 (fun n v => exists nd, q_heap x !! n = Some nd /\ dat nd = v)
                   (drop 1 (g_qn g)) (g_a g);
    gi_len : forall n nd, q_heap x !! n = Some nd -> length (dat nd) = c_words c;
    gi_leak : c_throws c = false -> forall n, g_own g !! n <> Some OL;
    gi_run : lruns spec ∅ [] (g_l g) (g_ph g) (g_a g);
  }.

  (** What the other threads may do, as seen by thread [t]. *)
  Record rely (t : nat) (x : qshared) (g : ghost) (x' : qshared) (g' : ghost) : Prop := {
    rl_head : cell_le (q_head x) (q_head x');
    rl_tail : q_tail x' = q_tail x \/
              ((q_tail x).2 < (q_tail x').2)%N /\ (q_tail x').1 <> (q_head x).1 /\
              (q_head x' = q_head x) /\
              exists nd, q_heap x !! (q_tail x).1 = Some nd /\ (nx nd).1 <> null;
    rl_pool : prely (q_heap x) (q_pool x) (g_own g) (q_heap x') (q_pool x') (g_own g');
    rl_heap : forall n nd, q_heap x !! n = Some nd ->
                exists nd', q_heap x' !! n = Some nd' /\ ((nx nd).2 <= (nx nd').2)%N;
    rl_own : forall n, g_own g !! n = Some (OT t) ->
                g_own g' !! n = Some (OT t) /\ q_heap x' !! n = q_heap x !! n;
    rl_Q : forall n nd, g_own g !! n = Some OQ -> q_heap x !! n = Some nd ->
             exists nd', q_heap x' !! n = Some nd' /\ dat nd' = dat nd /\
               (nx nd' = nx nd \/ (nx nd).1 = null /\ ((nx nd).2 < (nx nd').2)%N) /\
               (g_own g' !! n = Some OQ \/
                ((q_head x).2 < (q_head x').2)%N /\ (nx nd).1 <> null);
    rl_ph : g_ph g' !! t = g_ph g !! t;
    rl_can : forall o r, canl g t o r -> canl g' t o r;
    rl_ne_head : q_head x' <> q_head x -> g_ph g !! t = Some (Pending Empty) ->
                 canl g' t Empty (RBool false);
    rl_ne_tail : q_tail x' <> q_tail x -> g_ph g !! t = Some (Pending Empty) ->
                 canl g' t Empty (RBool false);
    rl_back : forall n, g_own g' !! n = Some (OT t) -> g_own g !! n = Some (OT t);
    rl_a_head : q_head x' <> q_head x -> g_a g <> [];
    rl_a_tail : q_tail x' <> q_tail x -> g_a g <> [];
  }.

  (** ** What each thread knows at each program counter *)

  Definition pend (g : ghost) (t : nat) (o : qop) : Prop := g_ph g !! t = Some (Pending o).

  (** [t] holds node [n], ready to be linked, for its pending push. *)
  Definition pushing (t : nat) (n : N) (x : qshared) (g : ghost) : Prop :=
    exists b nd, pend g t (Push b (dat nd)) /\ g_own g !! n = Some (OT t) /\
                 q_heap x !! n = Some nd /\ (nx nd).1 = null.

  Definition kinv (g : ghost) (t : nat) (k : qkont) : Prop :=
    match k with
    | KRet r => exists o, g_ph g !! t = Some (Done o r)
    | KReserve _ => exists m, pend g t (Reserve m)
    end.

  Definition tinv (t : nat) (pc : qpc) (x : qshared) (g : ghost) : Prop :=
    match pc with
    | PcAlloc b v a =>
        pend g t (Push b v) /\ length v = c_words c /\
        ainv c (q_heap x) (q_pool x) (g_own g) a
    | PcWord v n k =>
        exists b, pend g t (Push b v) /\ length v = c_words c /\ g_own g !! n = Some (OT t) /\
        k <= c_words c /\ exists nd, q_heap x !! n = Some nd /\ take k (dat nd) = take k v
    | PcNStore n tag =>
        exists b nd, pend g t (Push b (dat nd)) /\ g_own g !! n = Some (OT t) /\
        q_heap x !! n = Some nd /\ (nx nd).2 = tag
    | PcPTail n => pushing t n x g
    | PcPNext n tl => pushing t n x g /\ snap (q_tail x) tl /\ is_Some (q_heap x !! tl.1)
    | PcPCheck n tl nx' =>
        pushing t n x g /\ snap (q_tail x) tl /\
        exists nd, q_heap x !! tl.1 = Some nd /\ (nx'.2 <= (nx nd).2)%N /\
          (q_tail x = tl -> nx nd = nx' \/ (nx'.1 = null /\ (nx'.2 < (nx nd).2)%N))
    | PcPLink n tl nx' =>
        pushing t n x g /\ nx'.1 = null /\
        exists nd, q_heap x !! tl.1 = Some nd /\ (nx'.2 <= (nx nd).2)%N /\
          (nx'.2 = (nx nd).2 -> nx nd = nx' /\ g_own g !! tl.1 = Some OQ /\ q_tail x = tl)
    | PcPDone n tl =>
        (exists o, g_ph g !! t = Some (Done o (RBool true))) /\ snap (q_tail x) tl /\ n <> null /\
        (q_tail x = tl -> nxp (q_heap x) tl.1 = Some n)
    | PcPSwing n tl np =>
        pushing t n x g /\ snap (q_tail x) tl /\ np <> null /\
        (q_tail x = tl -> nxp (q_heap x) tl.1 = Some np)
    | PcOHead => pend g t Pop
    | PcOTail hd => pend g t Pop /\ snap (q_head x) hd /\ is_Some (q_heap x !! hd.1)
    | PcONext hd tl =>
        pend g t Pop /\ snap (q_head x) hd /\ is_Some (q_heap x !! hd.1) /\ snap (q_tail x) tl /\
        (q_head x = hd -> tl.1 <> hd.1 -> (q_tail x).1 <> hd.1)
    | PcOCheck hd tl nx' =>
        pend g t Pop /\ snap (q_head x) hd /\ snap (q_tail x) tl /\
        (q_head x = hd -> tl.1 <> hd.1 -> (q_tail x).1 <> hd.1) /\
        exists nd, q_heap x !! hd.1 = Some nd /\
          (q_head x = hd -> nx'.1 = null -> canl g t Pop (RPop None)) /\
          (q_head x = hd -> nx'.1 <> null -> nx nd = nx') /\
          (q_tail x = tl -> tl.1 = hd.1 -> nx'.1 <> null -> nx nd = nx')
    | PcOSwing tl np =>
        pend g t Pop /\ snap (q_tail x) tl /\ np <> null /\
        (q_tail x = tl -> nxp (q_heap x) tl.1 = Some np)
    | PcOCopy hd np acc =>
        pend g t Pop /\ snap (q_head x) hd /\ np <> null /\ length acc <= c_words c /\
        exists nd, q_heap x !! np = Some nd /\
          (q_head x = hd -> nxp (q_heap x) hd.1 = Some np /\ (q_tail x).1 <> hd.1 /\
                            acc = take (length acc) (dat nd))
    | PcDealloc n d k =>
        g_own g !! n = Some (OT t) /\ kinv g t k /\ dinv (q_heap x) n d
    | PcReserve _ => exists m, pend g t (Reserve m)
    | PcEHead | PcETail => pend g t Empty
    | PcEHeadTail h =>
        pend g t Empty /\ exists tg, snap (q_head x) (h, tg) /\
          (q_head x <> (h, tg) -> canl g t Empty (RBool false))
    | PcETailHead tl =>
        pend g t Empty /\ exists tg, snap (q_tail x) (tl, tg) /\
          (q_tail x <> (tl, tg) -> canl g t Empty (RBool false))
    | PcRet r => exists o, g_ph g !! t = Some (Done o r)
    end.

  (** The nodes owned by a thread are the ones its program counter holds. *)
  Definition hinv (t : nat) (pc : qpc) (g : ghost) : Prop :=
    forall n, g_own g !! n = Some (OT t) -> holds pc = Some n.

  Definition Inv (s : qstate) (g : ghost) : Prop :=
    GI (q_sh s) g /\
    forall t, match q_pcs s !! t with
              | None => g_ph g !! t = None /\ forall n, g_own g !! n <> Some (OT t)
              | Some pc => tinv t pc (q_sh s) g /\ hinv t pc g
              end.

  Lemma hinv_stable t pc x g x' g' : rely t x g x' g' -> hinv t pc g -> hinv t pc g'.
  Proof. intros R H n Hn. apply H. by apply (rl_back _ _ _ _ _ R). Qed.

  (** ** Facts about the global invariant *)

  Lemma gi_qdom x g n : GI x g -> n ∈ g_qn g -> is_Some (q_heap x !! n).
  Proof. intros HG Hn. eapply seg_dom; [apply (gi_qseg _ _ HG)|done]. Qed.

  Lemma gi_null_nin x g : GI x g -> null ∉ g_qn g.
  Proof.
    intros HG Hn. destruct (gi_qdom _ _ _ HG Hn) as [nd Hnd].
    rewrite (pi_null _ _ _ _ _ (gi_pi _ _ HG)) in Hnd. done.
  Qed.

  Lemma gi_tail_in x g : GI x g -> (q_tail x).1 ∈ g_qn g.
  Proof.
    intros HG. destruct (gi_tail _ _ HG) as (pre & [->|(y & ->)]);
      set_solver.
  Qed.

  Lemma gi_head_cons x g : GI x g -> exists q, g_qn g = (q_head x).1 :: q.
  Proof.
    intros HG. pose proof (gi_qseg _ _ HG) as Hs. pose proof (gi_tail_in _ _ HG) as Ht.
    destruct (g_qn g) as [|z q]; [by apply elem_of_nil in Ht|].
    destruct Hs as [<- _]. eauto.
  Qed.

  Lemma gi_head_in x g : GI x g -> (q_head x).1 ∈ g_qn g.
  Proof. intros HG. destruct (gi_head_cons _ _ HG) as [q ->]. left. Qed.

  Lemma gi_tail_Q x g : GI x g -> g_own g !! (q_tail x).1 = Some OQ.
  Proof. intros HG. apply (gi_qmem _ _ HG). by apply gi_tail_in. Qed.
  Lemma gi_head_Q x g : GI x g -> g_own g !! (q_head x).1 = Some OQ.
  Proof. intros HG. apply (gi_qmem _ _ HG). by apply gi_head_in. Qed.

  Lemma gi_tail_dom x g : GI x g -> is_Some (q_heap x !! (q_tail x).1).
  Proof. intros HG. eapply gi_qdom; [done|]. by apply gi_tail_in. Qed.
  Lemma gi_head_dom x g : GI x g -> is_Some (q_heap x !! (q_head x).1).
  Proof. intros HG. eapply gi_qdom; [done|]. by apply gi_head_in. Qed.

  Lemma gi_own_not_null x g n o : GI x g -> g_own g !! n = Some o -> n <> null.
  Proof using. intros HG. eapply PI_not_null. apply (gi_pi _ _ HG). Qed.

  Lemma gi_own_dom x g n o : GI x g -> g_own g !! n = Some o -> is_Some (q_heap x !! n).
  Proof. intros HG Ho. apply (pi_dom _ _ _ _ _ (gi_pi _ _ HG)). eauto. Qed.

  (** ** Stability *)

  Lemma rely_tail_le t x g x' g' : rely t x g x' g' -> cell_le (q_tail x) (q_tail x').
  Proof. intros R. destruct (rl_tail _ _ _ _ _ R) as [->|(H & _)]; [by left|by right]. Qed.

  Lemma rely_dom t x g x' g' n :
    rely t x g x' g' -> is_Some (q_heap x !! n) -> is_Some (q_heap x' !! n).
  Proof. intros R [nd Hnd]. destruct (rl_heap _ _ _ _ _ R _ _ Hnd) as (nd' & -> & _). eauto. Qed.

  Lemma pushing_stable t n x g x' g' : rely t x g x' g' -> pushing t n x g -> pushing t n x' g'.
  Proof.
    intros R (b & nd & Hp & Ho & Hnd & Hx).
    destruct (rl_own _ _ _ _ _ R _ Ho) as [Ho' Hh].
    exists b, nd. unfold pend. rewrite (rl_ph _ _ _ _ _ R), Hh. done.
  Qed.

  Lemma pend_stable t o x g x' g' : rely t x g x' g' -> pend g t o -> pend g' t o.
  Proof. intros R. unfold pend. by rewrite (rl_ph _ _ _ _ _ R). Qed.

  (** The link of the tail node, once set, stays while tail_ stays. *)
  Lemma tail_link_stable t x g x' g' tl np :
    GI x g -> rely t x g x' g' -> snap (q_tail x) tl -> np <> null ->
    (q_tail x = tl -> nxp (q_heap x) tl.1 = Some np) ->
    (q_tail x' = tl -> nxp (q_heap x') tl.1 = Some np).
  Proof.
    intros HG R Hs Hnp H Ht'.
    destruct (snap_back _ _ _ Hs (rely_tail_le _ _ _ _ _ R) Ht') as [Ht _].
    specialize (H Ht). apply nxp_inv in H as (nd & Hnd & Hx).
    destruct (rl_Q _ _ _ _ _ R tl.1 nd) as (nd' & Hnd' & _ & Hlink & _).
    - rewrite <- Ht. by apply gi_tail_Q.
    - done.
    - rewrite (nxp_Some _ _ _ Hnd'). destruct Hlink as [->|[Hl _]]; congruence.
  Qed.

  Lemma kinv_stable t k x g x' g' : rely t x g x' g' -> kinv g t k -> kinv g' t k.
  Proof.
    intros R. destruct k; simpl; intros [o Ho]; exists o.
    - by rewrite (rl_ph _ _ _ _ _ R).
    - by eapply pend_stable.
  Qed.

  Lemma head_not_tail_stable t x g x' g' hd tl :
    GI x g -> rely t x g x' g' -> snap (q_head x) hd ->
    (q_head x = hd -> tl <> hd.1 -> (q_tail x).1 <> hd.1) ->
    (q_head x' = hd -> tl <> hd.1 -> (q_tail x').1 <> hd.1).
  Proof.
    intros HG R Hs H Hh' Hne.
    destruct (snap_back _ _ _ Hs (rl_head _ _ _ _ _ R) Hh') as [Hh _].
    destruct (rl_tail _ _ _ _ _ R) as [->|(_ & Hn & _)]; [auto|]. by rewrite Hh in Hn.
  Qed.

  Lemma tinv_stable t pc x g x' g' :
    GI x g -> rely t x g x' g' -> tinv t pc x g -> tinv t pc x' g'.
  Proof.
    intros HG R. pose proof (rely_tail_le _ _ _ _ _ R) as Htl.
    pose proof (rl_head _ _ _ _ _ R) as Hhl.
    destruct pc as [b v a|v n k|n tag|n|n tl|n tl nx'|n tl nx'|n tl|n tl np| |hd|hd tl|hd tl nx'|tl np
                   |hd np acc|n d k|k| |h| |tl|r]; simpl.
    - intros (Hp & Hl & Ha). split; [by eapply pend_stable|]. split; [done|].
      eapply ainv_stable; [apply R| |done]. intros. by eapply rely_dom.
    - intros (b & Hp & Hl & Ho & Hk & nd & Hnd & Htk). exists b.
      destruct (rl_own _ _ _ _ _ R _ Ho) as [Ho' Hh]. rewrite Hh.
      split; [by eapply pend_stable|]. eauto 10.
    - intros (b & nd & Hp & Ho & Hnd & Htg). exists b, nd.
      destruct (rl_own _ _ _ _ _ R _ Ho) as [Ho' Hh]. rewrite Hh.
      split; [by eapply pend_stable|]. done.
    - by apply pushing_stable.
    - intros (H1 & H2 & H3). split; [by eapply pushing_stable|].
      split; [by eapply snap_mono|by eapply rely_dom].
    - intros (H1 & H2 & nd & Hnd & Hle & Hx). split; [by eapply pushing_stable|].
      split; [by eapply snap_mono|].
      destruct (rl_heap _ _ _ _ _ R _ _ Hnd) as (nd' & Hnd' & Hle').
      exists nd'. split; [done|]. split; [lia|]. intros Ht'.
      destruct (snap_back _ _ _ H2 Htl Ht') as [Ht _].
      destruct (rl_Q _ _ _ _ _ R tl.1 nd) as (nd'' & Hnd'' & _ & Hlink & _); [|done|].
      { rewrite <- Ht. by apply gi_tail_Q. }
      rewrite Hnd' in Hnd''. injection Hnd'' as <-.
      destruct (Hx Ht) as [Heq|[Hn Hlt]].
      + destruct Hlink as [Hl|[Hl1 Hl2]].
        * left. congruence.
        * right. rewrite <- Heq. done.
      + right. split; [done|]. lia.
    - intros (H1 & H2 & nd & Hnd & Hle & Hx). split; [by eapply pushing_stable|].
      split; [done|].
      destruct (rl_heap _ _ _ _ _ R _ _ Hnd) as (nd' & Hnd' & Hle').
      exists nd'. split; [done|]. split; [lia|]. intros Htg.
      destruct Hx as (Heq & Ho & Ht); [lia|].
      destruct (rl_Q _ _ _ _ _ R tl.1 nd Ho Hnd) as (nd'' & Hnd'' & _ & Hlink & Ho').
      rewrite Hnd' in Hnd''. injection Hnd'' as <-.
      split; [|split].
      + destruct Hlink as [->|[_ Hlt]]; [done|]. lia.
      + destruct Ho' as [|[_ Hnn]]; [done|]. rewrite Heq in Hnn. done.
      + destruct (rl_tail _ _ _ _ _ R) as [->|(_ & _ & _ & nd2 & Hnd2 & Hnn)]; [done|].
        rewrite Ht, Hnd in Hnd2. injection Hnd2 as <-. rewrite Heq in Hnn. done.
    - intros ((o & Ho) & H1 & H2 & H3). split; [exists o; by rewrite (rl_ph _ _ _ _ _ R)|].
      split; [by eapply snap_mono|]. split; [done|]. by eapply tail_link_stable.
    - intros (H0 & H1 & H2 & H3). split; [by eapply pushing_stable|].
      split; [by eapply snap_mono|]. split; [done|]. by eapply tail_link_stable.
    - by eapply pend_stable.
    - intros (H0 & H1 & H2). split; [by eapply pend_stable|].
      split; [by eapply snap_mono|by eapply rely_dom].
    - intros (H0 & H1 & H2 & H3 & H4). split; [by eapply pend_stable|].
      split; [by eapply snap_mono|]. split; [by eapply rely_dom|].
      split; [by eapply snap_mono|]. by eapply head_not_tail_stable.
    - intros (H0 & H1 & H2 & H3 & nd & Hnd & Hc & Hh & Ht).
      split; [by eapply pend_stable|].
      split; [by eapply snap_mono|]. split; [by eapply snap_mono|].
      split; [by eapply head_not_tail_stable|].
      destruct (rl_heap _ _ _ _ _ R _ _ Hnd) as (nd' & Hnd' & Hle').
      exists nd'. split; [done|].
      assert (HQ : g_own g !! hd.1 = Some OQ -> nx'.1 <> null -> nx nd = nx' -> nx nd' = nx').
      { intros Ho Hn He. destruct (rl_Q _ _ _ _ _ R _ _ Ho Hnd) as (nd'' & Hnd'' & _ & Hlink & _).
        rewrite Hnd' in Hnd''. injection Hnd'' as <-.
        destruct Hlink as [->|[Hl _]]; [done|]. congruence. }
      split; [|split].
      + intros Hh' Hn. destruct (snap_back _ _ _ H1 Hhl Hh') as [Hhd _].
        eapply rl_can; [done|]. auto.
      + intros Hh' Hn. destruct (snap_back _ _ _ H1 Hhl Hh') as [Hhd _].
        apply HQ; [|done|auto]. rewrite <- Hhd. by apply gi_head_Q.
      + intros Ht' Heq Hn. destruct (snap_back _ _ _ H2 Htl Ht') as [Htd _].
        apply HQ; [|done|auto]. rewrite <- Heq, <- Htd. by apply gi_tail_Q.
    - intros (H0 & H1 & H2 & H3). split; [by eapply pend_stable|].
      split; [by eapply snap_mono|]. split; [done|]. by eapply tail_link_stable.
    - intros (H0 & H1 & Hnp & Hl & nd & Hnd & H2).
      split; [by eapply pend_stable|].
      split; [by eapply snap_mono|]. split; [done|]. split; [done|].
      destruct (rl_heap _ _ _ _ _ R _ _ Hnd) as (nd' & Hnd' & Hle').
      exists nd'. split; [done|]. intros Hh'.
      destruct (snap_back _ _ _ H1 Hhl Hh') as [Hhd Hheq].
      destruct (H2 Hhd) as (Hx & Htn & Hacc).
      assert (HoH : g_own g !! hd.1 = Some OQ) by (rewrite <- Hhd; by apply gi_head_Q).
      assert (HoN : g_own g !! np = Some OQ).
      { apply (gi_qmem _ _ HG). apply (gi_qmem _ _ HG) in HoH.
        destruct (seg_next _ _ _ _ _ _ (gi_qseg _ _ HG) HoH Hx Hnp) as (l1 & l2 & ->). set_solver. }
      split; [|split].
      + apply nxp_inv in Hx as (nh & Hnh & Hxn).
        destruct (rl_Q _ _ _ _ _ R _ _ HoH Hnh) as (nh' & Hnh' & _ & Hlink & _).
        rewrite (nxp_Some _ _ _ Hnh'). destruct Hlink as [->|[Hl' _]]; congruence.
      + destruct (rl_tail _ _ _ _ _ R) as [->|(_ & Hn & _)]; [done|]. by rewrite Hhd in Hn.
      + destruct (rl_Q _ _ _ _ _ R _ _ HoN Hnd) as (nd'' & Hnd'' & Hd & _).
        rewrite Hnd' in Hnd''. injection Hnd'' as <-. by rewrite Hd.
    - intros (Ho & Hk & Hd). destruct (rl_own _ _ _ _ _ R _ Ho) as [Ho' Hh].
      split; [done|]. split; [by eapply kinv_stable|].
      destruct d; simpl in *; try done. unfold nxp in *. by rewrite Hh.
    - intros (m & Hm). exists m. by eapply pend_stable.
    - by eapply pend_stable.
    - intros (H0 & tg & H1 & H2). split; [by eapply pend_stable|].
      exists tg. split; [by eapply snap_mono|]. intros Hne.
      destruct (decide (q_head x = (h, tg))) as [Heq|Hne'].
      + eapply rl_ne_head; [done| |done]. congruence.
      + eapply rl_can; [done|]. auto.
    - by eapply pend_stable.
    - intros (H0 & tg & H1 & H2). split; [by eapply pend_stable|].
      exists tg. split; [by eapply snap_mono|]. intros Hne.
      destruct (decide (q_tail x = (tl, tg))) as [Heq|Hne'].
      + eapply rl_ne_tail; [done| |done]. congruence.
      + eapply rl_can; [done|]. auto.
    - intros (o & Ho). exists o. by rewrite (rl_ph _ _ _ _ _ R).
  Qed.
End inv.
