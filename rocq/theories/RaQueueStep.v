(** * Steps of the queue on release/acquire memory *)
From stdpp Require Import gmap list numbers.
From Verif Require Import Lin PoolModel Chain PoolProofs QueueModel QueueObs RaMem RaFacts RaLog RaQueueSpec RaQueueModel
  RaQueueInv RaQueueKeep.

Set Default Proof Using "Type".
#[local] Arguments hist : simpl never.
#[local] Arguments views : simpl never.

(** ** What a thread knows *)

Definition at_tail (x : qshared) (w : wmem) (V : view) (tl : tagged) (m : nat) : Prop :=
  exists mv : view, hist RTail x w !! m = Some (tl, mv) /\ m <= V (LRoot 2).
Definition at_head (x : qshared) (w : wmem) (V : view) (hd : tagged) (i : nat) : Prop :=
  exists mv : view, hist RHead x w !! i = Some (hd, mv) /\ i <= V (LRoot 1).
(** The link behind entry [m], to node [np], has been seen. *)
Definition link_seen (x : qshared) (w : wmem) (es : list ent) (V : view) (m : nat) (np : N) : Prop :=
  exists e e' v (lv : view), es !! m = Some e /\ es !! S m = Some e' /\ e_n e' = np /\
    nh x w (e_n e) !! S (e_l e) = Some (v, lv) /\ vle lv V.

Section step.
  Context (c : cfg).
  Notation null := (c_null c).
  Notation QI := (QI c).
  Notation phase := (phase qop qret).

  (** The node of a push after its constructor. *)
  Definition built (x : qshared) (own : gmap N owner) (t : nat) (n : N) (v : val) : Prop :=
    own !! n = Some (OT t) /\ exists nd, q_heap x !! n = Some nd /\ dat nd = v /\ (nx nd).1 = null.

  Definition tva (x : qshared) (w : wmem) (V : view) (a : apc) : Prop :=
    match a with
    | ATest old => old.2 = (q_pool x).2 -> old.1 <> null -> freshn w V old.1
    | _ => True
    end.

  (** [V]: the view of the thread; [iv]: its view when it made the call; [p]: the call. *)
  Definition tinv (x : qshared) (w : wmem) (es : list ent) (own : gmap N owner) (t : nat) (V iv : view)
      (p : phase) (pc : qpc) : Prop :=
    match pc with
    | PcAlloc b v a => p = Pending (Push b v) /\ length v = c_words c /\
        ainv c (q_heap x) (q_pool x) own a /\ tva x w V a
    | PcWord v n k => (exists b, p = Pending (Push b v)) /\ length v = c_words c /\ own !! n = Some (OT t) /\
        k <= length v /\ exists nd, q_heap x !! n = Some nd /\ take k (dat nd) = take k v
    | PcNStore n tag => exists b v nd, p = Pending (Push b v) /\ own !! n = Some (OT t) /\
        q_heap x !! n = Some nd /\ dat nd = v /\ (nx nd).2 = tag
    | PcPTail n => exists b v, p = Pending (Push b v) /\ built x own t n v
    | PcPNext n tl => exists b v m, p = Pending (Push b v) /\ built x own t n v /\ at_tail x w V tl m
    | PcPCheck n tl nx => exists b v m e j (nv : view), p = Pending (Push b v) /\ built x own t n v /\ at_tail x w V tl m /\
        es !! m = Some e /\ e_l e <= j /\ nh x w (e_n e) !! j = Some (nx, nv) /\ vle nv V
    | PcPLink n tl nx => exists b v m e (nv : view), p = Pending (Push b v) /\ built x own t n v /\ at_tail x w V tl m /\
        es !! m = Some e /\ nh x w (e_n e) !! e_l e = Some (nx, nv) /\ vle nv V
    | PcPDone n tl => exists b v m, p = Done (Push b v) (RBool true) /\ at_tail x w V tl m /\ link_seen x w es V m n
    | PcPSwing n tl np => exists b v m, p = Pending (Push b v) /\ built x own t n v /\ at_tail x w V tl m /\
        link_seen x w es V m np
    | PcOHead => p = Pending Pop
    | PcOTail hd => p = Pending Pop /\ exists i, at_head x w V hd i
    | PcONext hd tl => p = Pending Pop /\ exists i m, at_head x w V hd i /\ at_tail x w V tl m /\ i <= m
    | PcOCheck hd tl nx => p = Pending Pop /\ exists i m e j (nv hv Vr : view), at_head x w V hd i /\ at_tail x w V tl m /\
        i <= m /\ es !! i = Some e /\ e_l e <= j /\ nh x w (e_n e) !! j = Some (nx, nv) /\ vle nv V /\
        (forall e', es !! m = Some e' -> e_n e' = e_n e -> e_l e' <= j) /\
        hist RHead x w !! i = Some (hd, hv) /\ vle hv Vr /\ vle iv Vr /\ Vr (LNext (e_n e)) = j
    | PcOSwing tl np => p = Pending Pop /\ exists m, at_tail x w V tl m /\ link_seen x w es V m np
    | PcOCopy hd np acc => p = Pending Pop /\ exists i e', at_head x w V hd i /\ link_seen x w es V i np /\
        S i <= V (LRoot 2) /\ es !! S i = Some e' /\ length acc <= c_words c /\
        (length (w_head w) = i -> acc = take (length acc) (e_v e'))
    | PcDealloc n d k => own !! n = Some (OT t) /\ dinv (q_heap x) n d /\
        match k with KRet r => exists o, p = Done o r | KReserve _ => exists m, p = Pending (Reserve m) end
    | PcReserve _ => exists m, p = Pending (Reserve m)
    | PcEHead | PcEHeadTail _ | PcETail | PcETailHead _ => p = Pending Empty
    | PcRet r => exists o, p = Done o r
    end.

  (** ** What the other threads may do *)

  Record adv (t : nat) (x : qshared) (w : wmem) (es : list ent) (own : gmap N owner)
      (x' : qshared) (w' : wmem) (es' : list ent) (own' : gmap N owner) : Prop := {
    av_hist : forall i j m, hist i x w !! j = Some m -> hist i x' w' !! j = Some m;
    av_nh : forall n j m, nh x w n !! j = Some m -> nh x' w' n !! j = Some m;
    av_es : exists r, es' = es ++ r;
    av_head : length (w_head w) <= length (w_head w');
    av_mine : forall u n, u <> t -> own !! n = Some (OT u) -> own' !! n = Some (OT u) /\ q_heap x' !! n = q_heap x !! n;
    av_pool : prely (q_heap x) (q_pool x) own (q_heap x') (q_pool x') own';
    av_fresh : (q_pool x).2 = (q_pool x').2 -> forall n, own !! n = Some OF -> w_next w' n = w_next w n;
    av_dom : forall n, is_Some (q_heap x !! n) -> is_Some (q_heap x' !! n);
  }.

  Lemma at_tail_le x w V V' tl m : vle V V' -> at_tail x w V tl m -> at_tail x w V' tl m.
  Proof. intros H (mv & H1 & H2). exists mv. split; [done|]. specialize (H (LRoot 2)). lia. Qed.
  Lemma at_head_le x w V V' tl m : vle V V' -> at_head x w V tl m -> at_head x w V' tl m.
  Proof. intros H (mv & H1 & H2). exists mv. split; [done|]. specialize (H (LRoot 1)). lia. Qed.
  Lemma link_seen_le x w es V V' m np : vle V V' -> link_seen x w es V m np -> link_seen x w es V' m np.
  Proof.
    intros H (e & e' & v & lv & H1 & H2 & H3 & H4 & H5). exists e, e', v, lv. do 4 (split; [done|]). by eapply vle_trans.
  Qed.

  Lemma tinv_le x w es own t V V' iv p pc :
    vle V V' -> okv w V' -> tinv x w es own t V iv p pc -> tinv x w es own t V' iv p pc.
  Proof.
    intros Hle HV. destruct pc; simpl; try done.
    - intros (H1 & H2 & H3 & H4). do 3 (split; [done|]). destruct a; simpl in *; try done.
      intros Ht Hn. eapply freshn_le; eauto.
    - intros (b & v & m & H1 & H2 & H3). exists b, v, m. do 2 (split; [done|]). by eapply at_tail_le.
    - intros (b & v & m & e & j & nv & H1 & H2 & H3 & H4 & H5 & H6 & H7). exists b, v, m, e, j, nv.
      do 2 (split; [done|]). split; [by eapply at_tail_le|]. do 3 (split; [done|]). by eapply vle_trans.
    - intros (b & v & m & e & nv & H1 & H2 & H3 & H4 & H6 & H7). exists b, v, m, e, nv.
      do 2 (split; [done|]). split; [by eapply at_tail_le|]. do 2 (split; [done|]). by eapply vle_trans.
    - intros (b & v & m & H1 & H2 & H3). exists b, v, m. split; [done|]. split; [by eapply at_tail_le|by eapply link_seen_le].
    - intros (b & v & m & H0 & H1 & H2 & H3). exists b, v, m. split; [done|]. split; [done|].
      split; [by eapply at_tail_le|by eapply link_seen_le].
    - intros (H1 & i & H2). split; [done|]. exists i. by eapply at_head_le.
    - intros (H1 & i & m & H2 & H3 & H4). split; [done|]. exists i, m.
      split; [by eapply at_head_le|]. split; [by eapply at_tail_le|done].
    - intros (H1 & i & m & e & j & nv & hv & Vr & H2 & H3 & H4 & H5 & H6 & H7 & H8 & H9). split; [done|].
      exists i, m, e, j, nv, hv, Vr. split; [by eapply at_head_le|]. split; [by eapply at_tail_le|].
      do 4 (split; [done|]). split; [by eapply vle_trans|done].
    - intros (H1 & m & H2 & H3). split; [done|]. exists m. split; [by eapply at_tail_le|by eapply link_seen_le].
    - intros (H1 & i & e' & H2 & H3 & H4 & H5). split; [done|]. exists i, e'. split; [by eapply at_head_le|].
      split; [by eapply link_seen_le|]. split; [specialize (Hle (LRoot 2)); lia|done].
  Qed.

  Lemma at_tail_adv t x w es own x' w' es' own' V tl m :
    adv t x w es own x' w' es' own' -> at_tail x w V tl m -> at_tail x' w' V tl m.
  Proof. intros HA (mv & H1 & H2). exists mv. split; [|done]. by apply (av_hist _ _ _ _ _ _ _ _ _ HA). Qed.
  Lemma at_head_adv t x w es own x' w' es' own' V tl m :
    adv t x w es own x' w' es' own' -> at_head x w V tl m -> at_head x' w' V tl m.
  Proof. intros HA (mv & H1 & H2). exists mv. split; [|done]. by apply (av_hist _ _ _ _ _ _ _ _ _ HA). Qed.
  Lemma av_ent t x w es own x' w' es' own' i e :
    adv t x w es own x' w' es' own' -> es !! i = Some e -> es' !! i = Some e.
  Proof. intros HA H. destruct (av_es _ _ _ _ _ _ _ _ _ HA) as [r ->]. by apply lookup_app_l_Some. Qed.
  Lemma link_seen_adv t x w es own x' w' es' own' V m np :
    adv t x w es own x' w' es' own' -> link_seen x w es V m np -> link_seen x' w' es' V m np.
  Proof.
    intros HA (e & e' & v & lv & H1 & H2 & H3 & H4 & H5). exists e, e', v, lv.
    split; [by eapply av_ent|]. split; [by eapply av_ent|]. split; [done|]. split; [|done].
    by apply (av_nh _ _ _ _ _ _ _ _ _ HA).
  Qed.
  Lemma built_adv t x w es own x' w' es' own' u n v :
    adv t x w es own x' w' es' own' -> u <> t -> built x own u n v -> built x' own' u n v.
  Proof.
    intros HA Hu (H1 & H2). destruct (av_mine _ _ _ _ _ _ _ _ _ HA u n Hu H1) as [H3 H4]. split; [done|]. by rewrite H4.
  Qed.

  Lemma tinv_adv t x w es own fn vw x' w' es' own' u V iv p pc :
    QI x w es own fn vw -> adv t x w es own x' w' es' own' -> u <> t ->
    tinv x w es own u V iv p pc -> tinv x' w' es' own' u V iv p pc.
  Proof.
    intros HI HA Hu.
    pose proof (fun n => av_mine _ _ _ _ _ _ _ _ _ HA u n Hu) as Hmi.
    pose proof (av_nh _ _ _ _ _ _ _ _ _ HA) as Hnh. pose proof (av_hist _ _ _ _ _ _ _ _ _ HA) as Hhi.
    pose proof (fun i e => av_ent _ _ _ _ _ _ _ _ _ i e HA) as Hen.
    destruct pc; simpl; try done.
    - intros (H1 & H2 & H3 & H4). do 2 (split; [done|]). split.
      + eapply ainv_stable; [apply (av_pool _ _ _ _ _ _ _ _ _ HA)|apply (av_dom _ _ _ _ _ _ _ _ _ HA)|done].
      + destruct a as [|old|]; simpl in *; try done. intros Ht Hn. destruct H3 as (A1 & A2 & A3).
        destruct (av_pool _ _ _ _ _ _ _ _ _ HA) as [B1 B2]. assert (Hp : (q_pool x).2 = (q_pool x').2) by lia.
        assert (Ho : own !! old.1 = Some OF) by (apply A3; [lia|done]).
        unfold freshn. rewrite (av_fresh _ _ _ _ _ _ _ _ _ HA Hp _ Ho). apply H4; [lia|done].
    - intros (H1 & H2 & H3 & H4 & H5). destruct (Hmi n H3) as [H6 H7]. rewrite H7. done.
    - intros (b & v & nd & H1 & H2 & H3). destruct (Hmi n H2) as [H6 H7]. exists b, v, nd. rewrite H7. done.
    - intros (b & v & H1 & H2). exists b, v. split; [done|]. by eapply built_adv.
    - intros (b & v & m & H1 & H2 & H3). exists b, v, m. split; [done|]. split; [by eapply built_adv|by eapply at_tail_adv].
    - intros (b & v & m & e & j & nv & H1 & H2 & H3 & H4 & H5 & H6 & H7). exists b, v, m, e, j, nv.
      split; [done|]. split; [by eapply built_adv|]. split; [by eapply at_tail_adv|]. split; [by apply Hen|].
      split; [done|]. split; [by apply Hnh|done].
    - intros (b & v & m & e & nv & H1 & H2 & H3 & H4 & H6 & H7). exists b, v, m, e, nv.
      split; [done|]. split; [by eapply built_adv|]. split; [by eapply at_tail_adv|]. split; [by apply Hen|].
      split; [by apply Hnh|done].
    - intros (b & v & m & H1 & H2 & H3). exists b, v, m. split; [done|].
      split; [by eapply at_tail_adv|by eapply link_seen_adv].
    - intros (b & v & m & H1 & H2 & H3 & H4). exists b, v, m. split; [done|]. split; [by eapply built_adv|].
      split; [by eapply at_tail_adv|by eapply link_seen_adv].
    - intros (H1 & i & H2). split; [done|]. exists i. by eapply at_head_adv.
    - intros (H1 & i & m & H2 & H3 & H4). split; [done|]. exists i, m.
      split; [by eapply at_head_adv|]. split; [by eapply at_tail_adv|done].
    - intros (H1 & i & m & e & j & nv & hv & Vr & H2 & H3 & H4 & H5 & H6 & H7 & H8 & H9 & H10 & H11). split; [done|].
      exists i, m, e, j, nv, hv, Vr. split; [by eapply at_head_adv|]. split; [by eapply at_tail_adv|].
      split; [done|]. split; [by apply Hen|]. split; [done|]. split; [by apply Hnh|]. split; [done|].
      split; [|split; [by apply Hhi|done]].
      intros e' He'. destruct H3 as (mv & H3 & _). destruct (qi_tail _ _ _ _ _ _ _ HI m tl mv H3) as (e2 & He2 & _).
      pose proof (Hen _ _ He2) as He3. rewrite He' in He3. injection He3 as ->. by apply H9.
    - intros (H1 & m & H2 & H3). split; [done|]. exists m. split; [by eapply at_tail_adv|by eapply link_seen_adv].
    - intros (H1 & i & e' & H2 & H3 & H4 & H5 & H6 & H7). split; [done|]. exists i, e'. split; [by eapply at_head_adv|].
      split; [by eapply link_seen_adv|]. split; [done|]. split; [by apply Hen|]. split; [done|]. intros Hi. apply H7.
      destruct H2 as (mv & H2 & _). pose proof (av_head _ _ _ _ _ _ _ _ _ HA).
      assert (i < length (views RHead w)) by (eapply lookup_lt_Some; by eapply hist_view).
      rewrite views_len in *. lia.
    - intros (H1 & H2 & H3). destruct (Hmi n H1) as [H6 H7]. split; [done|]. split; [|done].
      destruct d; simpl in *; try done. unfold nxp in *. by rewrite H7.
  Qed.

  Lemma adv_refl t x w es own : adv t x w es own x w es own.
  Proof. split; try done. exists []. by rewrite app_nil_r. Qed.

  (** A step on a node outside the queue, or on the pool. *)
  Lemma adv_node t x w es own x' w' own' n :
    (forall u, u <> t -> own !! n <> Some (OT u)) ->
    (forall i j m, hist i x w !! j = Some m -> hist i x' w' !! j = Some m) ->
    w_head w' = w_head w ->
    (forall m, m <> n -> q_heap x' !! m = q_heap x !! m /\ own' !! m = own !! m /\
       w_next w' m = w_next w m /\ nh x' w' m = nh x w m) ->
    (forall j m, nh x w n !! j = Some m -> nh x' w' n !! j = Some m) ->
    is_Some (q_heap x' !! n) ->
    ((q_pool x).2 <= (q_pool x').2)%N ->
    ((q_pool x).2 = (q_pool x').2 -> own !! n <> Some OF) ->
    adv t x w es own x' w' es own'.
  Proof.
    intros HnT Hh Ehd Hoth Hnh Hs Hp Hof. split.
    - done.
    - intros m j a. destruct (decide (m = n)) as [->|Hm]; [apply Hnh|]. destruct (Hoth m Hm) as (_ & _ & _ & ->). done.
    - exists []. by rewrite app_nil_r.
    - by rewrite Ehd.
    - intros u m Hu Ho. destruct (decide (m = n)) as [->|Hm]; [by destruct (HnT u Hu)|].
      destruct (Hoth m Hm) as (-> & -> & _). done.
    - split; [done|]. intros Ht m Ho. destruct (decide (m = n)) as [->|Hm]; [by destruct (Hof Ht)|].
      destruct (Hoth m Hm) as (-> & -> & _). done.
    - intros Ht m Ho. destruct (decide (m = n)) as [->|Hm]; [by destruct (Hof Ht)|].
      by destruct (Hoth m Hm) as (_ & _ & -> & _).
    - intros m Ho. destruct (decide (m = n)) as [->|Hm]; [done|]. by destruct (Hoth m Hm) as (-> & _).
  Qed.

  (** ** The effect of a step on the record of calls *)

  Inductive kind (w : wmem) (es : list ent) (iv : view) (p : phase) (w' : wmem) (es' : list ent) (V : view)
      : phase -> Prop :=
    | k_none : es' = es -> views RHead w' = views RHead w -> kind w es iv p w' es' V p
    | k_neutral o r : p = Pending o -> (forall a, rqspec (c_node_based c) a o r a) ->
        es' = es -> views RHead w' = views RHead w -> kind w es iv p w' es' V (Done o r)
    | k_push b v n l : p = Pending (Push b v) -> es' = es ++ [Ent n l v iv] ->
        views RHead w' = views RHead w -> length es <= kn es' V -> kind w es iv p w' es' V (Done (Push b v) (RBool true))
    | k_pop v : p = Pending Pop -> es' = es -> views RHead w' = views RHead w ++ [V] ->
        (e_v <$> es) !! length (views RHead w) = Some v -> length (views RHead w) <= kn es V ->
        (forall j e, j <= length (views RHead w) -> es !! j = Some e -> vle (e_pv e) V) ->
        kind w es iv p w' es' V (Done Pop (RPop (Some v)))
    | k_look i mv : p = Pending Pop -> es' = es -> views RHead w' = views RHead w ->
        views RHead w !! i = Some mv -> kn es mv <= i -> kn es iv <= i -> i <= kn es V ->
        (forall j W, j <= i -> views RHead w !! j = Some W -> vle W mv) ->
        kind w es iv p w' es' V (Done Pop (RPop None)).

  (** Every node that belongs to the queue is the node of an entry from [head_] on. *)
  Definition qcov (w : wmem) (es : list ent) (own : gmap N owner) : Prop :=
    forall n, own !! n = Some OQ -> exists i e, length (w_head w) <= i /\ es !! i = Some e /\ e_n e = n.

  (** The nodes owned by [t] are those its program counter holds; nodes are not lost. *)
  Definition omove (t : nat) (w : wmem) (es : list ent) (own : gmap N owner)
      (w' : wmem) (es' : list ent) (own' : gmap N owner) (h h' : option N) : Prop :=
    (forall u n, u <> t -> own' !! n = Some (OT u) -> own !! n = Some (OT u)) /\
    ((forall n, own !! n <> Some OL) -> forall n, own' !! n <> Some OL) /\
    ((forall n, own !! n = Some (OT t) -> h = Some n) -> forall n, own' !! n = Some (OT t) -> h' = Some n) /\
    (qcov w es own -> qcov w' es' own').

  Lemma omove_same t w w' es own h h' : w_head w' = w_head w -> h = None \/ h' = h -> omove t w es own w' es own h h'.
  Proof.
    intros Hw H. split; [done|]. split; [done|]. split; [|unfold qcov; by rewrite Hw].
    intros Ho n Hn. apply Ho in Hn. destruct H; congruence.
  Qed.
  Lemma omove_take t w w' es own n h h' :
    length (w_head w') = length (w_head w) \/
      length (w_head w') = S (length (w_head w)) /\ (forall e, es !! length (w_head w) = Some e -> e_n e = n) ->
    h = None -> h' = Some n -> omove t w es own w' es (<[n := OT t]> own) h h'.
  Proof.
    intros Hw -> ->. split; [|split; [|split]].
    - intros u m Hu. destruct (decide (n = m)) as [->|]; [rewrite lookup_insert; congruence|by rewrite lookup_insert_ne].
    - intros Ho m. destruct (decide (n = m)) as [->|]; [by rewrite lookup_insert|rewrite lookup_insert_ne by done; apply Ho].
    - intros Ho m. destruct (decide (n = m)) as [->|]; [done|]. rewrite lookup_insert_ne by done.
      intros Hm. by specialize (Ho m Hm).
    - intros Hq m Hm. destruct (decide (n = m)) as [->|Hne]; [by rewrite lookup_insert in Hm|].
      rewrite lookup_insert_ne in Hm by done. destruct (Hq m Hm) as (i & e & Hi & He & En). exists i, e.
      split; [|done]. destruct Hw as [->|[-> Hw]]; [done|].
      destruct (decide (i = length (w_head w))) as [->|]; [|lia]. specialize (Hw e He). congruence.
  Qed.
  Lemma omove_give t w w' es es' own n o h h' :
    w_head w' = w_head w -> es `prefix_of` es' ->
    (o = OF \/ o = OQ /\ exists i e, length (w_head w) <= i /\ es' !! i = Some e /\ e_n e = n) ->
    h = Some n -> omove t w es own w' es' (<[n := o]> own) h h'.
  Proof.
    intros Hw [r ->] Ho' ->. assert (Hot : o <> OL /\ forall u, o <> OT u).
    { destruct Ho' as [ -> |[ -> _]]; done. }
    destruct Hot as [Hol Hot]. split; [|split; [|split]].
    - intros u m Hu. destruct (decide (n = m)) as [->|]; [rewrite lookup_insert; congruence|by rewrite lookup_insert_ne].
    - intros Ho m. destruct (decide (n = m)) as [->|]; [rewrite lookup_insert; congruence|rewrite lookup_insert_ne by done; apply Ho].
    - intros Ho m. destruct (decide (n = m)) as [->|]; [rewrite lookup_insert; congruence|]. rewrite lookup_insert_ne by done.
      intros Hm. specialize (Ho m Hm). congruence.
    - intros Hq m Hm. unfold qcov in *. rewrite Hw. destruct (decide (n = m)) as [->|Hne].
      + rewrite lookup_insert in Hm. destruct Ho' as [ -> |[_ ?]]; done.
      + rewrite lookup_insert_ne in Hm by done. destruct (Hq m Hm) as (i & e & Hi & He & En). exists i, e.
        split; [done|]. split; [by apply lookup_app_l_Some|done].
  Qed.

  Definition rok (t : nat) (x : qshared) (w : wmem) (es : list ent) (own : gmap N owner) (vw : nat -> view)
      (iv : view) (p : phase) (h : option N) (out : rout) : Prop :=
    match out with
    | RGo x' w' V pc => exists es' own' fn' p',
        QI x' w' es' own' fn' (set_view vw t V) /\ adv t x w es own x' w' es' own' /\
        tinv x' w' es' own' t V iv p' pc /\ kind w es iv p w' es' V p' /\ vle (vw t) V /\
        omove t w es own w' es' own' h (holds pc)
    | RGRace => False
    | RGUB => False
    | RGDisabled => True
    end.

  Lemma rok_same t x w es own fn vw iv p h p' V pc :
    QI x w es own fn vw -> vle (vw t) V -> okv w V -> tinv x w es own t V iv p' pc -> kind w es iv p w es V p' ->
    h = None \/ holds pc = h -> rok t x w es own vw iv p h (RGo x w V pc).
  Proof.
    intros HI Hle HV HT HK Hh. exists es, own, fn, p'. split; [by apply qi_set_view|]. split; [apply adv_refl|].
    do 3 (split; [done|]). by apply omove_same.
  Qed.
End step.
