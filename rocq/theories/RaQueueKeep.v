(** * The changes of the shared state keep the invariant *)
From stdpp Require Import gmap list numbers.
From Verif Require Import Lin PoolModel Chain PoolProofs QueueModel RaMem RaFacts RaLog RaQueueSpec RaQueueModel
  RaQueueInv.

Set Default Proof Using "Type".

Lemma prefix_lookup_S {A} (l k : list A) i a : l `prefix_of` k -> l !! i = Some a -> k !! i = Some a.
Proof. intros [r ->] H. by apply lookup_app_l_Some. Qed.
Lemma lookup_snoc_inv {A} (l : list A) (a b : A) i :
  (l ++ [a]) !! i = Some b -> l !! i = Some b \/ (i = length l /\ b = a).
Proof.
  intros H. apply lookup_app_Some in H as [H|[Hi H]]; [by left|]. right.
  destruct (i - length l) as [|k] eqn:E; simpl in H.
  - injection H as ->. split; [lia|done].
  - by rewrite lookup_nil in H.
Qed.
Lemma lookup_snoc_last {A} (l : list A) (a : A) : (l ++ [a]) !! length l = Some a.
Proof. rewrite lookup_app_r by lia. by rewrite Nat.sub_diag. Qed.

(** [lia] up to the abbreviations [tagged] and [view]. *)
Ltac ulia := unfold tagged, view in *; lia.

Section keep.
  Context (c : cfg).
  Notation null := (c_null c).
  Notation QI := (QI c).

  Lemma qi_set_view x w es own fn vw t V :
    QI x w es own fn vw -> vle (vw t) V -> okv w V -> QI x w es own fn (set_view vw t V).
  Proof.
    intros HI Hle HV. split; try apply HI.
    - intros u n Hn. pose proof (qi_own _ _ _ _ _ _ _ HI u n Hn) as Hm. destruct (decide (u = t)) as [->|Hu].
      + rewrite set_view_eq. by eapply mine_le.
      + by rewrite set_view_ne.
    - intros u. destruct (decide (u = t)) as [->|Hu]; [by rewrite set_view_eq|]. rewrite set_view_ne by done. apply HI.
  Qed.

  (** ** A node outside the queue *)

  Lemma qi_node x w es own fn vw t n x' w' own' fn' (V : view) :
    QI x w es own fn vw ->
    own !! n <> Some OQ -> (forall u, u <> t -> own !! n <> Some (OT u)) ->
    q_head x' = q_head x -> q_tail x' = q_tail x ->
    w_head w' = w_head w -> w_headv w' = w_headv w -> w_tail w' = w_tail w -> w_tailv w' = w_tailv w ->
    (forall m, m <> n -> q_heap x' !! m = q_heap x !! m /\ own' !! m = own !! m /\
       w_next w' m = w_next w m /\ w_nextv w' m = w_nextv w m /\ w_acc w' m = w_acc w m) ->
    vle (vw t) V -> okv w' V ->
    (views RPool w' = views RPool w \/
     views RPool w' = views RPool w ++ [V] /\ V (LRoot 0) = length (views RPool w)) ->
    w_acc w n <= w_acc w' n -> length (w_next w n) <= length (w_next w' n) ->
    PI c (q_heap x') (q_pool x') own' fn' ->
    (exists nd, q_heap x' !! n = Some nd /\ length (dat nd) = c_words c) ->
    (forall j m, nh x w n !! j = Some m -> nh x' w' n !! j = Some m) ->
    (forall j v (mv : view), nh x' w' n !! j = Some (v, mv) -> nh x w n !! j = Some (v, mv) \/
       (mv (LNext n) = j /\ (forall i e, es !! i = Some e -> e_n e = n -> i < mv (LRoot 1)) /\
        (forall j' v' (mv' : view), j' <= j -> nh x' w' n !! j' = Some (v', mv') -> (v'.2 <= v.2)%N))) ->
    (forall mv, mv ∈ nviews w' n -> mv ∈ nviews w n \/ mv = V) ->
    (own' !! n = Some (OT t) /\ mine w' es n V \/ own' !! n = Some OF /\ mine w' es n (w_poolv w')) ->
    vle (w_poolv w) (w_poolv w') ->
    (forall v mv, (v, mv) ∈ hist RPool x' w' -> known_pool c x' w' own' v mv) ->
    QI x' w' es own' fn' (set_view vw t V).
  Proof.
    intros HI HnQ HnT Eqh Eqt Eh Ehv Et Etv Hoth Hle HV Hpool Hacc Hnx HPI Hnd Hnh Hnew Hnv Hmine Hpv Hkp.
    assert (HhR : hist RHead x' w' = hist RHead x w) by (simpl; by rewrite Eqh, Eh, Ehv).
    assert (HtR : hist RTail x' w' = hist RTail x w) by (simpl; by rewrite Eqt, Et, Etv).
    assert (Hview : forall i, views i w `prefix_of` views i w').
    { intros [| |]; simpl.
      - simpl in Hpool. destruct Hpool as [->|[-> _]]; [done|by eexists].
      - by rewrite Eh, Ehv.
      - by rewrite Et, Etv. }
    assert (Hlen : forall m, length (w_next w m) <= length (w_next w' m)).
    { intros m. destruct (decide (m = n)) as [->|Hm]; [done|]. destruct (Hoth m Hm) as (_ & _ & -> & _). done. }
    assert (Hal : forall m, w_acc w m <= w_acc w' m).
    { intros m. destruct (decide (m = n)) as [->|Hm]; [done|]. destruct (Hoth m Hm) as (_ & _ & _ & _ & ->). done. }
    assert (Hok : forall W, okv w W -> okv w' W) by (intros W HW; by eapply okv_ext).
    assert (Hnhm : forall m, m <> n -> nh x' w' m = nh x w m).
    { intros m Hm. unfold nh, nhist. destruct (Hoth m Hm) as (-> & _ & -> & -> & _). done. }
    assert (Hnha : forall m j a, nh x w m !! j = Some a -> nh x' w' m !! j = Some a).
    { intros m j a. destruct (decide (m = n)) as [->|Hm]; [apply Hnh|by rewrite Hnhm]. }
    assert (HQ : forall m, own !! m = Some OQ -> m <> n) by (intros m Hm ->; done).
    assert (Hkn : forall i W, knows w es i W -> knows w' es i W).
    { intros i W (e & He & H1 & H2 & H3 & H4 & H5). exists e. do 5 (split; [done|]).
      rewrite Eh. intros Hi. destruct (qi_in _ _ _ _ _ _ _ HI i e Hi He) as (Ho & _).
      destruct (Hoth _ (HQ _ Ho)) as (_ & _ & _ & _ & Ea). unfold freshd. rewrite Ea. by apply H5. }
    assert (Hmn : forall m W, m <> n -> mine w es m W -> mine w' es m W).
    { intros m W Hm [[H1 H2] H3]. destruct (Hoth m Hm) as (_ & _ & E1 & _ & E2). split; [|done].
      split; [unfold freshn; by rewrite E1|unfold freshd; by rewrite E2]. }
    split.
    - done.
    - intros m nd Hm. destruct (decide (m = n)) as [->|Hne].
      + destruct Hnd as (nd' & Hn' & Hl). rewrite Hn' in Hm. by injection Hm as <-.
      + destruct (Hoth m Hne) as (E & _). rewrite E in Hm. by eapply (qi_dat _ _ _ _ _ _ _ HI).
    - rewrite Eh, Et. apply HI.
    - rewrite HhR. apply HI.
    - rewrite HtR. intros i v mv Hv. destruct (qi_tail _ _ _ _ _ _ _ HI i v mv Hv) as (e & He & E & Hk). eauto.
    - intros i j mv Hv. destruct i.
      + destruct Hpool as [E|[E HVl]]; rewrite E in Hv.
        * by apply (qi_self _ _ _ _ _ _ _ HI RPool).
        * apply lookup_snoc_inv in Hv as [Hv|[-> ->]]; [by apply (qi_self _ _ _ _ _ _ _ HI RPool)|done].
      + simpl in Hv. rewrite Eh, Ehv in Hv. by apply (qi_self _ _ _ _ _ _ _ HI RHead).
      + simpl in Hv. rewrite Et, Etv in Hv. by apply (qi_self _ _ _ _ _ _ _ HI RTail).
    - intros i e He. destruct (qi_null _ _ _ _ _ _ _ HI i e He) as (tg & mv & Hn). eauto.
    - intros i e e' He He'. destruct (qi_link _ _ _ _ _ _ _ HI i e e' He He') as (tg & mv & lv & H1 & H2 & H3).
      exists tg, mv, lv. auto.
    - rewrite Eh. intros i e Hi He. destruct (qi_in _ _ _ _ _ _ _ HI i e Hi He) as (H1 & H2 & H3).
      destruct (Hoth _ (HQ _ H1)) as (-> & -> & -> & _ & _). done.
    - apply HI.
    - intros m i j v v' mv mv' Hij Hi Hj. destruct (decide (m = n)) as [->|Hm].
      + destruct (Hnew _ _ _ Hj) as [Hj'|(_ & _ & Ht)]; [|by eapply Ht].
        assert (Hi' : nh x w n !! i = Some (v, mv)).
        { destruct (lookup_lt_is_Some_2 (nh x w n) i) as [a Ha].
          { eapply Nat.le_lt_trans; [exact Hij|]. by eapply lookup_lt_Some. }
          pose proof (eq_trans (eq_sym Hi) (Hnh _ _ Ha)) as Ha'. injection Ha' as <-. exact Ha. }
        by eapply (qi_tag _ _ _ _ _ _ _ HI n i j).
      + rewrite Hnhm in Hi, Hj by done. by eapply (qi_tag _ _ _ _ _ _ _ HI m i j).
    - intros m j v mv Hj. destruct (decide (m = n)) as [->|Hm].
      + destruct (Hnew _ _ _ Hj) as [Hj'|(Ht & _)]; [|done]. by eapply (qi_nself _ _ _ _ _ _ _ HI).
      + rewrite Hnhm in Hj by done. by eapply (qi_nself _ _ _ _ _ _ _ HI).
    - intros i e j v mv He Hj Hl. destruct (decide (e_n e = n)) as [Hm|Hm].
      + rewrite Hm in Hj. destruct (Hnew _ _ _ Hj) as [Hj'|(_ & Hp & _)]; [|by eapply Hp].
        eapply (qi_past _ _ _ _ _ _ _ HI i e j v); [done|by rewrite Hm|done].
      + rewrite Hnhm in Hj by done. by eapply (qi_past _ _ _ _ _ _ _ HI i e j v).
    - intros u m Hm. destruct (decide (m = n)) as [->|Hne].
      + destruct Hmine as [[Ho Hmi]|[Ho _]]; [|congruence]. rewrite Ho in Hm. injection Hm as <-. by rewrite set_view_eq.
      + destruct (Hoth m Hne) as (_ & E & _). rewrite E in Hm. pose proof (qi_own _ _ _ _ _ _ _ HI u m Hm) as Hmi.
        apply Hmn in Hmi; [|done]. destruct (decide (u = t)) as [->|Hu].
        * rewrite set_view_eq. by eapply mine_le.
        * by rewrite set_view_ne.
    - assert (Hokp : okv w' (w_poolv w')).
      { destruct Hpool as [E|[E _]].
        - assert (w_poolv w' = w_poolv w) as ->.
          { pose proof (f_equal (@list.last view) E) as El. simpl in El. rewrite !list.last_snoc in El. by injection El as ->. }
          apply Hok. by eapply qi_okpool.
        - assert (w_poolv w' = V) as ->.
          { pose proof (f_equal (@list.last view) E) as El. simpl in El. rewrite !list.last_snoc in El. by injection El as ->. }
          done. }
      intros m Hm. destruct (decide (m = n)) as [->|Hne].
      + destruct Hmine as [[Ho _]|[_ Hmi]]; [congruence|done].
      + destruct (Hoth m Hne) as (_ & E & _). rewrite E in Hm. pose proof (qi_free _ _ _ _ _ _ _ HI m Hm) as Hmi.
        apply Hmn in Hmi; [|done]. by eapply mine_le.
    - done.
    - intros u. destruct (decide (u = t)) as [->|Hu]; [by rewrite set_view_eq|]. rewrite set_view_ne by done. apply Hok, HI.
    - intros i mv Hmv. destruct i.
      + destruct Hpool as [E|[E _]]; rewrite E in Hmv.
        * apply Hok. by eapply (qi_views _ _ _ _ _ _ _ HI RPool).
        * apply elem_of_app in Hmv as [Hmv|Hmv]; [apply Hok; by eapply (qi_views _ _ _ _ _ _ _ HI RPool)|].
          by apply elem_of_list_singleton in Hmv as ->.
      + simpl in Hmv. rewrite Eh, Ehv in Hmv. apply Hok. by eapply (qi_views _ _ _ _ _ _ _ HI RHead).
      + simpl in Hmv. rewrite Et, Etv in Hmv. apply Hok. by eapply (qi_views _ _ _ _ _ _ _ HI RTail).
    - intros m mv Hmv. destruct (decide (m = n)) as [->|Hne].
      + destruct (Hnv _ Hmv) as [H|H]; [|by rewrite H]. apply Hok. by eapply (qi_nviews _ _ _ _ _ _ _ HI n).
      + unfold nviews in Hmv. destruct (Hoth m Hne) as (_ & _ & E1 & E2 & _). rewrite E1, E2 in Hmv.
        apply Hok. by eapply (qi_nviews _ _ _ _ _ _ _ HI m).
    - intros m Hm. destruct (decide (m = n)) as [->|Hne].
      + destruct Hnd as (nd & Hn' & _). congruence.
      + destruct (Hoth m Hne) as (E & _ & -> & -> & ->). rewrite E in Hm. by apply (qi_none _ _ _ _ _ _ _ HI).
  Qed.

  (** ** Appending a node *)

  Lemma qi_linked x w es own fn vw t n nn L e nd v pv (V : view) :
    QI x w es own fn vw -> S L = length es -> es !! L = Some e -> length es = S (length (w_tail w)) ->
    own !! n = Some (OT t) -> q_heap x !! n = Some nn -> (nx nn).1 = null -> dat nn = v ->
    q_heap x !! e_n e = Some nd ->
    let w' := push_next nd w (e_n e) V in
    let x' := set_heap x (<[e_n e := Node (n, ((nx nd).2 + 1)%N) (dat nd)]> (q_heap x)) in
    vle (vw t) V -> okv w' V -> V (LNext (e_n e)) = S (length (w_next w (e_n e))) ->
    L <= kn es V -> L <= V (LRoot 2) -> vle pv V -> vle (w_nextv w (e_n e)) V ->
    QI x' w' (es ++ [Ent n (length (w_next w n)) v pv]) (<[n := OQ]> own) fn (set_view vw t V).
  Proof.
    intros HI HL He Hlt Hown Hnn Hnull Hv Hnd w' x' Hle HV HVn HVk HVt HVp HVc.
    pose proof (qi_ord _ _ _ _ _ _ _ HI) as Hord.
    destruct (qi_in _ _ _ _ _ _ _ HI L e ltac:(lia) He) as (HoQ & _ & HlenL). rewrite decide_True in HlenL by lia.
    assert (Hne : e_n e <> n) by (intros E; rewrite E in HoQ; congruence).
    set (e' := Ent n (length (w_next w n)) v pv). set (es' := es ++ [e']).
    destruct (qi_null _ _ _ _ _ _ _ HI L e He) as (tg & cv & Hcv).
    assert (Hnd1 : nx nd = (null, tg) /\ w_nextv w (e_n e) = cv).
    { rewrite <- HlenL, (nh_last _ _ _ _ Hnd) in Hcv. injection Hcv as E1 E2. by split. }
    destruct Hnd1 as [Enx Ecv].
    assert (Hnhe : nh x' w' (e_n e) = nh x w (e_n e) ++ [((n, (tg + 1)%N), V)]).
    { unfold nh. unfold x'. simpl. rewrite lookup_insert, Hnd. unfold nhist. simpl. rewrite !fupd_eq. unfold nhist. by rewrite Enx. }
    assert (Hnhm : forall m, m <> e_n e -> nh x' w' m = nh x w m).
    { intros m Hm. unfold nh, nhist. unfold x'. simpl. rewrite lookup_insert_ne by done.
      destruct (q_heap x !! m); [|done]. by rewrite !fupd_ne. }
    assert (Hnha : forall m j a, nh x w m !! j = Some a -> nh x' w' m !! j = Some a).
    { intros m j a Ha. destruct (decide (m = e_n e)) as [->|Hm]; [|by rewrite Hnhm].
      rewrite Hnhe. by apply lookup_app_l_Some. }
    assert (Hlene : length (nh x w (e_n e)) = S (e_l e)) by (rewrite (nh_len _ _ _ _ Hnd), HlenL; done).
    assert (Hview : forall i, views i w' = views i w) by (intros []; done).
    assert (Hlen : forall m, length (w_next w m) <= length (w_next w' m)).
    { intros m. simpl. unfold fupd. case_decide as E; [|done]. subst m. unfold nhist. rewrite app_length. lia. }
    assert (Hok : forall W, okv w W -> okv w' W).
    { intros W HW. eapply okv_ext; [done|intros i; by rewrite Hview|done|done]. }
    assert (Hkn : forall i W, knows w es i W -> knows w' es' i W).
    { intros i W (a & Ha & H1 & H2 & H3 & H4 & H5). exists a. split; [by apply lookup_app_l_Some|].
      split; [done|]. split; [pose proof (kn_app es [e'] W); unfold es'; lia|]. split; [done|]. split; [done|]. apply H5. }
    assert (Hes : forall i a, es' !! i = Some a -> es !! i = Some a \/ (i = S L /\ a = e')).
    { intros i a Ha. apply lookup_snoc_inv in Ha as [Ha|[-> ->]]; [by left|]. right. split; [lia|done]. }
    assert (Hesl : es' !! S L = Some e') by (rewrite HL; apply lookup_snoc_last).
    assert (Hknn : knows w' es' (S L) V).
    { destruct (qi_own _ _ _ _ _ _ _ HI t n Hown) as [[Hf1 Hf2] _]. exists e'. split; [done|]. simpl.
      split.
      { unfold freshn in Hf1. rewrite <- Hf1. apply Hle. }
      split.
      { apply kn_spec. intros i Hi. destruct (decide (i = L)) as [->|HiL].
        - exists e. split; [by apply lookup_app_l_Some|]. rewrite HVn, HlenL. done.
        - destruct (proj1 (kn_spec es V L) HVk i ltac:(lia)) as (a & Ha & Hl). exists a. split; [by apply lookup_app_l_Some|done]. }
      split; [lia|]. split; [done|]. intros _. unfold freshd in *. simpl. pose proof (Hle (LData n)) as HlD.
      pose proof (ok_data _ _ HV n) as HdD. simpl in HdD. lia. }
    assert (Hmn : forall m W, m <> n -> m <> e_n e -> mine w es m W -> mine w' es' m W).
    { intros m W Hm Hm2 [[H1 H2] H3]. split; [split; [unfold freshn; simpl; by rewrite fupd_ne|done]|].
      intros i a Ha Ea. apply Hes in Ha as [Ha|[-> ->]]; [by eapply H3|]. done. }
    split.
    - eapply PI_own; [| | |exact Hown]; [done|done|]. eapply PI_write; [|apply HI|exact HoQ]. done.
    - intros m nm. simpl. destruct (decide (m = e_n e)) as [->|Hm].
      + rewrite lookup_insert. intros [= <-]. simpl. by eapply (qi_dat _ _ _ _ _ _ _ HI).
      + rewrite lookup_insert_ne by done. apply HI.
    - unfold es'. rewrite app_length. simpl. lia.
    - intros i a mv Ha. destruct (qi_head _ _ _ _ _ _ _ HI i a mv Ha) as (e0 & He0 & H1 & H2).
      exists e0. split; [by apply lookup_app_l_Some|done].
    - intros i a mv Ha. destruct (qi_tail _ _ _ _ _ _ _ HI i a mv Ha) as (e0 & He0 & H1 & H2).
      exists e0. split; [by apply lookup_app_l_Some|]. split; [done|]. by apply Hkn.
    - intros i j mv. rewrite Hview. apply HI.
    - intros i a Ha. apply Hes in Ha as [Ha|[-> ->]].
      + destruct (qi_null _ _ _ _ _ _ _ HI i a Ha) as (tg' & mv & H). eauto.
      + simpl. destruct nn as [[p q] d]. simpl in Hnull. subst p. exists q, (w_nextv w n).
        apply Hnha. exact (nh_last x w n _ Hnn).
    - intros i a b Ha Hb. apply Hes in Hb as [Hb|[Ei ->]].
      + apply Hes in Ha as [Ha|[-> ->]]; [|apply lookup_lt_Some in Hb; lia].
        destruct (qi_link _ _ _ _ _ _ _ HI i a b Ha Hb) as (tg' & mv & lv & H1 & H2 & H3).
        exists tg', mv, lv. split; [by apply Hnha|]. split; [by apply Hnha|]. by apply Hkn.
      + injection Ei as ->. assert (a = e) as ->.
        { apply Hes in Ha as [Ha|[? _]]; [|lia]. rewrite He in Ha. by injection Ha. }
        exists tg, cv, V. split; [by apply Hnha|]. split; [|done]. rewrite Hnhe, <- Hlene. apply lookup_snoc_last.
    - intros i a Hi Ha. simpl in Hi. apply Hes in Ha as [Ha|[-> ->]].
      + destruct (qi_in _ _ _ _ _ _ _ HI i a Hi Ha) as (H1 & (na & Hna & Hda) & H3).
        assert (Hna' : e_n a <> n) by (intros E; rewrite E in H1; congruence).
        split; [by rewrite lookup_insert_ne|]. unfold es'. rewrite app_length. simpl.
        destruct (decide (i = L)) as [->|HiL].
        * rewrite He in Ha. injection Ha as <-. split.
          { rewrite lookup_insert. eexists. split; [done|]. simpl. congruence. }
          rewrite decide_False by lia. rewrite fupd_eq. unfold nhist. rewrite app_length. simpl. lia.
        * assert (e_n a <> e_n e).
          { pose proof (lookup_lt_Some _ _ _ Ha). eapply (qi_inj c); [done|done| |done|done]. lia. }
          split; [rewrite lookup_insert_ne by done; eauto|]. rewrite fupd_ne by done.
          pose proof (lookup_lt_Some _ _ _ Ha). rewrite decide_False by lia. rewrite decide_False in H3 by lia. done.
      + simpl. split; [by rewrite lookup_insert|]. split; [rewrite lookup_insert_ne by done; eauto|].
        rewrite fupd_ne by done. unfold es'. rewrite app_length. simpl. by rewrite decide_True by lia.
    - intros i j a b Hij Ha Hb Eab. apply Hes in Hb as [Hb|[-> ->]].
      + apply Hes in Ha as [Ha|[-> ->]]; [|apply lookup_lt_Some in Hb; lia].
        by eapply (qi_dup _ _ _ _ _ _ _ HI i j a b).
      + apply Hes in Ha as [Ha|[-> _]]; [|lia]. simpl in Eab. simpl.
        (* the node was freed since *)
        destruct (qi_own _ _ _ _ _ _ _ HI t n Hown) as [_ Hpast].
        pose proof (Hpast i a Ha Eab) as Hih.
        destruct (decide (S (S (e_l a)) <= length (w_next w n))) as [|Hbad]; [done|]. exfalso.
        assert (Hil : exists b, es !! S i = Some b).
        { apply lookup_lt_is_Some_2. apply lookup_lt_Some in Ha as Hl. destruct (decide (i = L)) as [->|]; [|lia].
          rewrite He in Ha. injection Ha as <-. done. }
        destruct Hil as [b Hb]. destruct (qi_link _ _ _ _ _ _ _ HI i a b Ha Hb) as (tg' & mv & lv & H1 & H2 & H3).
        rewrite Eab in H2. pose proof (nh_lt _ _ _ _ _ H2) as Hl2. assert (Hl3 : length (w_next w n) = S (e_l a)) by lia.
        rewrite <- Hl3, (nh_last _ _ _ _ Hnn) in H2. injection H2 as E2 _. rewrite E2 in Hnull. simpl in Hnull.
        eapply (qi_nn c); [exact HI|exact Hb|done].
    - intros m i j a b mv mv' Hij Hi Hj. destruct (decide (m = e_n e)) as [->|Hm].
      + rewrite Hnhe in Hi, Hj. apply lookup_snoc_inv in Hj as [Hj|[-> Ej]].
        * apply lookup_snoc_inv in Hi as [Hi|[-> _]].
          -- by eapply (qi_tag _ _ _ _ _ _ _ HI (e_n e) i j).
          -- apply nh_lt in Hj. rewrite HlenL in Hj. ulia.
        * injection Ej as -> ->. apply lookup_snoc_inv in Hi as [Hi|[_ Ei]]; [|by injection Ei as -> ->].
          pose proof (qi_tag _ _ _ _ _ _ _ HI (e_n e) i (e_l e) a _ mv _
            ltac:(apply nh_lt in Hi; rewrite HlenL in Hi; lia) Hi Hcv). simpl in *. lia.
      + rewrite Hnhm in Hi, Hj by done. by eapply (qi_tag _ _ _ _ _ _ _ HI m i j).
    - intros m j a mv Hj. destruct (decide (m = e_n e)) as [->|Hm].
      + rewrite Hnhe in Hj. apply lookup_snoc_inv in Hj as [Hj|[-> Ej]]; [by eapply (qi_nself _ _ _ _ _ _ _ HI)|].
        injection Ej as -> ->. rewrite HVn, Hlene, HlenL. done.
      + rewrite Hnhm in Hj by done. by eapply (qi_nself _ _ _ _ _ _ _ HI).
    - intros i a j b mv Ha Hj Hl. apply Hes in Ha as [Ha|[-> ->]].
      + destruct (decide (e_n a = e_n e)) as [Em|Hm].
        * rewrite Em, Hnhe in Hj. apply lookup_snoc_inv in Hj as [Hj|[-> Ej]].
          -- rewrite <- Em in Hj. by eapply (qi_past _ _ _ _ _ _ _ HI i a j b).
          -- injection Ej as -> ->. assert (Hil : i < L).
             { apply lookup_lt_Some in Ha as Hla. destruct (decide (i = L)) as [->|]; [|lia].
               rewrite He in Ha. injection Ha as <-. rewrite Hlene in Hl. lia. }
             pose proof (qi_dup _ _ _ _ _ _ _ HI i L a e Hil Ha He Em) as Hd.
             (* the constructor of e_n e had seen it *)
             pose proof (qi_past _ _ _ _ _ _ _ HI i a (e_l e) _ cv Ha ltac:(rewrite Em; exact Hcv) Hd) as Hp.
             rewrite Ecv in HVc. specialize (HVc (LRoot 1)). lia.
        * rewrite Hnhm in Hj by done. by eapply (qi_past _ _ _ _ _ _ _ HI i a j b).
      + simpl in *. rewrite Hnhm in Hj by done. apply nh_lt in Hj. lia.
    - intros u m Hm. destruct (decide (m = n)) as [->|Hmn'].
      + rewrite lookup_insert in Hm. done.
      + rewrite lookup_insert_ne in Hm by done. pose proof (qi_own _ _ _ _ _ _ _ HI u m Hm) as Hmi.
        apply Hmn in Hmi; [|done|intros ->; congruence]. destruct (decide (u = t)) as [->|Hu].
        * rewrite set_view_eq. exact (mine_le _ _ _ _ _ Hle HV Hmi).
        * by rewrite set_view_ne.
    - intros m Hm. destruct (decide (m = n)) as [->|Hmn'].
      + rewrite lookup_insert in Hm. done.
      + rewrite lookup_insert_ne in Hm by done. pose proof (qi_free _ _ _ _ _ _ _ HI m Hm) as Hmi.
        apply Hmn in Hmi; [done|done|intros ->; congruence].
    - intros a mv Ha. destruct (qi_pool _ _ _ _ _ _ _ HI a mv Ha) as (H1 & H2 & H3). split; [done|]. split.
      + intros Hn. simpl. apply lookup_insert_is_Some'. right. by apply H2.
      + intros Ht Hn. destruct (H3 Ht Hn) as [H4 H5]. split; [rewrite lookup_insert_ne by (intros ->; congruence); done|].
        unfold freshn. simpl. rewrite fupd_ne by (intros E; rewrite E in H4; congruence). done.
    - intros u. destruct (decide (u = t)) as [->|Hu]; [by rewrite set_view_eq|]. rewrite set_view_ne by done. apply Hok, HI.
    - intros i mv. rewrite Hview. intros Hmv. apply Hok. by eapply HI.
    - intros m mv Hmv. unfold nviews in Hmv. simpl in Hmv. destruct (decide (m = e_n e)) as [->|Hm].
      + rewrite !fupd_eq in Hmv. unfold nhist in Hmv. rewrite fmap_app in Hmv.
        apply elem_of_app in Hmv as [Hmv|Hmv]; [apply Hok; by eapply (qi_nviews _ _ _ _ _ _ _ HI (e_n e))|].
        by apply elem_of_list_singleton in Hmv as ->.
      + rewrite !fupd_ne in Hmv by done. apply Hok. by eapply (qi_nviews _ _ _ _ _ _ _ HI m).
    - intros m. simpl. destruct (decide (m = e_n e)) as [->|Hm]; [by rewrite lookup_insert|].
      rewrite lookup_insert_ne by done. rewrite !fupd_ne by done. apply HI.
  Qed.

  (** ** Moving tail_ *)

  Lemma qi_swing x w es own fn vw t e (V : view) :
    QI x w es own fn vw -> es !! S (length (w_tail w)) = Some e ->
    let w' := push_msg RTail x w V in
    let x' := QSh (q_heap x) (q_pool x) (q_head x) (e_n e, N.of_nat (S (length (w_tail w)))) in
    vle (vw t) V -> okv w' V -> V (LRoot 2) = S (length (w_tail w)) -> knows w es (S (length (w_tail w))) V ->
    QI x' w' es own fn (set_view vw t V).
  Proof.
    intros HI He w' x' Hle HV HVt Hk. pose proof (qi_ord _ _ _ _ _ _ _ HI) as Hord.
    pose proof (lookup_lt_Some _ _ _ He) as Hlt.
    assert (Hview : forall i, views i w `prefix_of` views i w').
    { intros []; [done|done|]. unfold w'. simpl. rewrite fmap_app. by eexists. }
    assert (Hvt : views RTail w' = views RTail w ++ [V]).
    { unfold w'. simpl. by rewrite fmap_app. }
    assert (Hok : forall W, okv w W -> okv w' W) by (intros W HW; by eapply okv_ext).
    assert (Hth : hist RTail x' w' = hist RTail x w ++ [((e_n e, N.of_nat (S (length (w_tail w)))), V)]) by done.
    assert (Hlh : length (hist RTail x w) = S (length (w_tail w))) by (rewrite hist_length, views_len; done).
    split; try apply HI.
    - simpl. rewrite app_length. simpl. lia.
    - rewrite Hth. intros i v mv Hv. apply lookup_snoc_inv in Hv as [Hv|[-> Ev]].
      + by apply HI.
      + injection Ev as -> ->. assert (Hl2 : length (hist RTail x w) = S (length (w_tail w))) by done.
        exists e. unfold tagged, view in *. rewrite Hl2. done.
    - intros i j mv Hv. destruct i; [by apply (qi_self _ _ _ _ _ _ _ HI RPool)|by apply (qi_self _ _ _ _ _ _ _ HI RHead)|].
      rewrite Hvt in Hv. apply lookup_snoc_inv in Hv as [Hv|[-> ->]]; [by apply (qi_self _ _ _ _ _ _ _ HI RTail)|].
      simpl rloc. rewrite HVt, views_len. done.
    - intros u n Hn. pose proof (qi_own _ _ _ _ _ _ _ HI u n Hn) as Hm.
      destruct (decide (u = t)) as [->|Hu]; [|by rewrite set_view_ne]. rewrite set_view_eq.
      exact (mine_le w' es n _ _ Hle HV Hm).
    - intros u. destruct (decide (u = t)) as [->|Hu]; [by rewrite set_view_eq|]. rewrite set_view_ne by done. apply Hok, HI.
    - intros i mv Hmv. destruct i.
      + apply Hok. by eapply (qi_views _ _ _ _ _ _ _ HI RPool).
      + apply Hok. by eapply (qi_views _ _ _ _ _ _ _ HI RHead).
      + rewrite Hvt in Hmv. apply elem_of_app in Hmv as [Hmv|Hmv].
        * apply Hok. by eapply (qi_views _ _ _ _ _ _ _ HI RTail).
        * by apply elem_of_list_singleton in Hmv as ->.
    - intros n mv Hmv. apply Hok. by eapply (qi_nviews _ _ _ _ _ _ _ HI n).
  Qed.

  (** ** Moving head_ *)

  Lemma qi_popped x w es own fn vw t e0 e (V : view) :
    QI x w es own fn vw -> es !! length (w_head w) = Some e0 -> es !! S (length (w_head w)) = Some e ->
    S (length (w_head w)) <= length (w_tail w) ->
    let w' := push_msg RHead x w V in
    let x' := QSh (q_heap x) (q_pool x) (e_n e, N.of_nat (S (length (w_head w)))) (q_tail x) in
    vle (vw t) V -> okv w' V -> V (LRoot 1) = S (length (w_head w)) -> S (length (w_head w)) <= V (LRoot 2) ->
    fresh w V (e_n e0) ->
    QI x' w' es (<[e_n e0 := OT t]> own) fn (set_view vw t V).
  Proof.
    intros HI He0 He Hht w' x' Hle HV HVh HVt Hf. pose proof (qi_ord _ _ _ _ _ _ _ HI) as Hord.
    pose proof (lookup_lt_Some _ _ _ He) as Hlt.
    destruct (qi_in _ _ _ _ _ _ _ HI _ e0 ltac:(apply Nat.le_refl) He0) as (HoQ & (nd0 & Hnd0 & _) & Hl0).
    rewrite decide_False in Hl0 by lia.
    assert (Hview : forall i, views i w `prefix_of` views i w').
    { intros []; [done| |done]. unfold w'. simpl. rewrite fmap_app. by eexists. }
    assert (Hvt : views RHead w' = views RHead w ++ [V]).
    { unfold w'. simpl. by rewrite fmap_app. }
    assert (Hok : forall W, okv w W -> okv w' W) by (intros W HW; by eapply okv_ext).
    assert (Hth : hist RHead x' w' = hist RHead x w ++ [((e_n e, N.of_nat (S (length (w_head w)))), V)]) by done.
    assert (Hlh : length (hist RHead x w) = S (length (w_head w))) by (rewrite hist_length, views_len; done).
    assert (Hlw : length (w_head w') = S (length (w_head w))) by (simpl; rewrite app_length; simpl; lia).
    assert (Hkn : forall i W, knows w es i W -> knows w' es i W).
    { intros i W (a & Ha & H1 & H2 & H3 & H4 & H5). exists a. do 5 (split; [done|]). rewrite Hlw. intros Hi. apply H5. lia. }
    assert (Hpast : forall i a, es !! i = Some a -> e_n a = e_n e0 -> i <= length (w_head w)).
    { intros i a Ha Ea. destruct (decide (i <= length (w_head w))) as [|Hi]; [done|]. exfalso.
      eapply (qi_inj c x w es own fn vw HI (length (w_head w)) i e0 a); [done|lia|done|done|done]. }
    split; try apply HI.
    - eapply PI_own; [| |apply HI|exact HoQ]; done.
    - rewrite Hlw. simpl. lia.
    - rewrite Hth. intros i v mv Hv. apply lookup_snoc_inv in Hv as [Hv|[-> Ev]].
      + by apply HI.
      + injection Ev as -> ->. exists e. unfold tagged, view in *. rewrite Hlh. done.
    - intros i v mv Hv. destruct (qi_tail _ _ _ _ _ _ _ HI i v mv Hv) as (a & Ha & E & Hk). eauto.
    - intros i j mv Hv. destruct i; [by apply (qi_self _ _ _ _ _ _ _ HI RPool)| |by apply (qi_self _ _ _ _ _ _ _ HI RTail)].
      rewrite Hvt in Hv. apply lookup_snoc_inv in Hv as [Hv|[-> ->]]; [by apply (qi_self _ _ _ _ _ _ _ HI RHead)|].
      simpl rloc. rewrite HVh, views_len. done.
    - intros i a b Ha Hb. destruct (qi_link _ _ _ _ _ _ _ HI i a b Ha Hb) as (tg & mv & lv & H1 & H2 & H3).
      exists tg, mv, lv. auto.
    - rewrite Hlw. intros i a Hi Ha. destruct (qi_in _ _ _ _ _ _ _ HI i a ltac:(lia) Ha) as (H1 & H2 & H3).
      rewrite lookup_insert_ne; [done|]. intros Ea. specialize (Hpast i a Ha (eq_sym Ea)). lia.
    - intros u n Hn. destruct (decide (n = e_n e0)) as [->|Hne].
      + rewrite lookup_insert in Hn. injection Hn as <-. rewrite set_view_eq. split; [done|].
        intros i a Ha Ea. specialize (Hpast i a Ha Ea). lia.
      + rewrite lookup_insert_ne in Hn by done. pose proof (qi_own _ _ _ _ _ _ _ HI u n Hn) as Hm.
        destruct (decide (u = t)) as [->|Hu]; [|by rewrite set_view_ne]. rewrite set_view_eq.
        exact (mine_le w' es n _ _ Hle HV Hm).
    - intros n Hn. destruct (decide (n = e_n e0)) as [->|Hne]; [rewrite lookup_insert in Hn; done|].
      rewrite lookup_insert_ne in Hn by done. by apply (qi_free _ _ _ _ _ _ _ HI).
    - intros a mv Ha. destruct (qi_pool _ _ _ _ _ _ _ HI a mv Ha) as (H1 & H2 & H3). split; [done|]. split; [done|].
      intros Ht Hn. destruct (H3 Ht Hn) as [H4 H5]. split; [|done]. rewrite lookup_insert_ne; [done|]. intros E. rewrite <- E in H4. congruence.
    - intros u. destruct (decide (u = t)) as [->|Hu]; [by rewrite set_view_eq|]. rewrite set_view_ne by done. apply Hok, HI.
    - intros i mv Hmv. destruct i.
      + apply Hok. by eapply (qi_views _ _ _ _ _ _ _ HI RPool).
      + rewrite Hvt in Hmv. apply elem_of_app in Hmv as [Hmv|Hmv].
        * apply Hok. by eapply (qi_views _ _ _ _ _ _ _ HI RHead).
        * by apply elem_of_list_singleton in Hmv as ->.
      + apply Hok. by eapply (qi_views _ _ _ _ _ _ _ HI RTail).
    - intros n mv Hmv. apply Hok. by eapply (qi_nviews _ _ _ _ _ _ _ HI n).
  Qed.

  (** ** Nodes outside the queue: the cases *)

  Lemma known_pool_keep x w own x' w' own' v V :
    known_pool c x w own v V -> q_pool x' = q_pool x ->
    (forall n, is_Some (q_heap x !! n) -> is_Some (q_heap x' !! n)) ->
    (forall n, own !! n = Some OF -> own' !! n = Some OF /\ w_next w' n = w_next w n) ->
    known_pool c x' w' own' v V.
  Proof.
    intros (H1 & H2 & H3) Ep Hd Ho. unfold known_pool. rewrite Ep. split; [done|]. split; [auto|].
    intros Ht Hn. destruct (H3 Ht Hn) as [H4 H5]. destruct (Ho _ H4) as [H6 H7]. split; [done|]. unfold freshn. by rewrite H7.
  Qed.

  (** A thread writes to the element of its node. *)
  Lemma qi_put x w es own fn vw t n nd d :
    QI x w es own fn vw -> own !! n = Some (OT t) -> q_heap x !! n = Some nd -> length d = length (dat nd) ->
    QI (set_heap x (<[n := Node (nx nd) d]> (q_heap x))) (push_acc w n) es own fn
       (set_view vw t (vset (vw t) (LData n) (S (w_acc w n)))).
  Proof.
    intros HI Ho Hnd Hd. destruct (qi_own _ _ _ _ _ _ _ HI t n Ho) as [[Hf1 Hf2] Hp].
    assert (Hle : vle (vw t) (vset (vw t) (LData n) (S (w_acc w n)))).
    { apply vle_vset. unfold freshd in Hf2. lia. }
    assert (Hnh : nh (set_heap x (<[n := Node (nx nd) d]> (q_heap x))) (push_acc w n) n = nh x w n).
    { unfold nh. simpl. rewrite lookup_insert, Hnd. done. }
    eapply (qi_node _ _ _ _ _ _ t n); try done.
    - by rewrite Ho.
    - intros u Hu. rewrite Ho. congruence.
    - intros m Hm. simpl. rewrite lookup_insert_ne by done. rewrite fupd_ne by done. done.
    - pose proof (qi_vw _ _ _ _ _ _ _ HI t) as HV. split.
      + intros i. rewrite vset_ne by (by destruct i). pose proof (ok_root _ _ HV i). by destruct i.
      + intros i j mv Hj Hv. rewrite vset_ne in Hj by (by destruct i). eapply vle_trans; [|exact Hle].
        eapply (ok_cl _ _ HV i j); [done|]. by destruct i.
      + intros m. rewrite vset_ne by done. apply (ok_next _ _ HV).
      + intros m. simpl. destruct (decide (m = n)) as [->|Hm]; [by rewrite vset_eq, fupd_eq|].
        rewrite vset_ne by congruence. rewrite fupd_ne by done. apply (ok_data _ _ HV).
    - by left.
    - simpl. rewrite fupd_eq. lia.
    - eapply PI_write; [|apply HI|exact Ho]. done.
    - simpl. rewrite lookup_insert. eexists. split; [done|]. simpl. rewrite Hd. by eapply (qi_dat _ _ _ _ _ _ _ HI).
    - intros j m. by rewrite Hnh.
    - intros j v mv. rewrite Hnh. by left.
    - intros mv. by left.
    - left. split; [done|]. split; [split|].
      + unfold freshn. rewrite vset_ne by done. done.
      + unfold freshd. rewrite vset_eq. simpl. by rewrite fupd_eq.
      + intros i e He En. rewrite vset_ne by done. by eapply Hp.
    - apply vle_refl.
    - intros v mv Hv. eapply known_pool_keep; [by apply (qi_pool _ _ _ _ _ _ _ HI)|done| |].
      + intros m Hm. simpl. apply lookup_insert_is_Some'. by right.
      + done.
  Qed.

  (** A thread stores to the link of its node (with release). *)
  Lemma qi_store x w es own fn vw t n nd l :
    QI x w es own fn vw -> own !! n = Some (OT t) -> q_heap x !! n = Some nd -> ((nx nd).2 <= l.2)%N ->
    let V := vset (vw t) (LNext n) (S (length (w_next w n))) in
    QI (set_heap x (<[n := Node l (dat nd)]> (q_heap x))) (push_next nd w n V) es own fn (set_view vw t V).
  Proof.
    intros HI Ho Hnd Hl V. destruct (qi_own _ _ _ _ _ _ _ HI t n Ho) as [[Hf1 Hf2] Hp].
    assert (Hle : vle (vw t) V). { apply vle_vset. unfold freshn in Hf1. lia. }
    set (x' := set_heap x _). set (w' := push_next nd w n V).
    assert (Hnh : nh x' w' n = nh x w n ++ [(l, V)]).
    { unfold nh, x'. simpl. rewrite lookup_insert, Hnd. unfold nhist. simpl. rewrite !fupd_eq. done. }
    assert (Hlen : length (nh x w n) = S (length (w_next w n))) by (by eapply nh_len).
    eapply (qi_node _ _ _ _ _ _ t n); try done.
    - by rewrite Ho.
    - intros u Hu. rewrite Ho. congruence.
    - intros m Hm. unfold x'. simpl. rewrite lookup_insert_ne by done. rewrite !fupd_ne by done. done.
    - pose proof (qi_vw _ _ _ _ _ _ _ HI t) as HV. split.
      + intros i. unfold V. rewrite vset_ne by (by destruct i). pose proof (ok_root _ _ HV i). by destruct i.
      + intros i j mv Hj Hv. unfold V in Hj. rewrite vset_ne in Hj by (by destruct i). eapply vle_trans; [|exact Hle].
        eapply (ok_cl _ _ HV i j); [done|]. by destruct i.
      + intros m. unfold V. simpl. destruct (decide (m = n)) as [->|Hm].
        * rewrite vset_eq, fupd_eq. unfold nhist. rewrite app_length. simpl. lia.
        * rewrite vset_ne by congruence. rewrite fupd_ne by done. apply (ok_next _ _ HV).
      + intros m. unfold V. rewrite vset_ne by done. apply (ok_data _ _ HV).
    - by left.
    - simpl. rewrite fupd_eq. unfold nhist. rewrite app_length. lia.
    - eapply PI_write; [|apply HI|exact Ho]. done.
    - simpl. rewrite lookup_insert. eexists. split; [done|]. simpl. by eapply (qi_dat _ _ _ _ _ _ _ HI).
    - intros j m. rewrite Hnh. intros Hj. by apply lookup_app_l_Some.
    - intros j v mv. rewrite Hnh. intros Hj. apply lookup_snoc_inv in Hj as [Hj|[-> Ej]]; [by left|]. right.
      injection Ej as -> ->. split; [unfold V; rewrite vset_eq; ulia|]. split.
      + intros i e He En. unfold V. rewrite vset_ne by done. by eapply Hp.
      + intros j' v' mv' Hj' Hv'. apply lookup_snoc_inv in Hv' as [Hv'|[_ Ej]]; [|by injection Ej as -> ->].
        pose proof (qi_tag _ _ _ _ _ _ _ HI n j' (length (w_next w n)) v' _ mv' _ ltac:(by eapply nh_lt) Hv' (nh_last _ _ _ _ Hnd)).
        lia.
    - intros mv Hmv. unfold nviews, w' in Hmv. simpl in Hmv. rewrite !fupd_eq in Hmv. unfold nhist in Hmv.
      rewrite fmap_app in Hmv. apply elem_of_app in Hmv as [Hmv|Hmv]; [by left|].
      apply elem_of_list_singleton in Hmv. by right.
    - left. split; [done|]. split; [split|].
      + unfold freshn. unfold V, w'. rewrite vset_eq. simpl. rewrite fupd_eq. unfold nhist. rewrite app_length. simpl. lia.
      + unfold freshd, V. rewrite vset_ne by done. done.
      + intros i e He En. unfold V. rewrite vset_ne by done. by eapply Hp.
    - apply vle_refl.
    - intros v mv Hv. eapply known_pool_keep; [by apply (qi_pool _ _ _ _ _ _ _ HI)|done| |].
      + intros m Hm. unfold x'. simpl. apply lookup_insert_is_Some'. by right.
      + intros m Hm. split; [done|]. unfold w'. simpl. rewrite fupd_ne; [done|]. intros ->. congruence.
  Qed.

  (** A node comes from the allocator. *)
  Lemma qi_new x w es own fn vw t n d :
    QI x w es own fn vw -> q_heap x !! n = None -> n <> null -> length d = c_words c ->
    QI (set_heap x (<[n := Node (null, 0%N) d]> (q_heap x))) w es (<[n := OT t]> own) fn vw.
  Proof.
    intros HI Hn Hnn Hd. destruct (qi_none _ _ _ _ _ _ _ HI n Hn) as (E1 & E2 & E3).
    assert (Ho : own !! n = None).
    { apply eq_None_not_Some. rewrite (pi_dom _ _ _ _ _ (qi_pi _ _ _ _ _ _ _ HI)), Hn. by intros [? ?]. }
    set (x' := set_heap x _).
    assert (Hnh : nh x' w n = [((null, 0%N), v0)]).
    { unfold nh, x'. simpl. rewrite lookup_insert. unfold nhist. by rewrite E1, E2. }
    assert (Hno : forall i e, es !! i = Some e -> e_n e <> n).
    { intros i e He En. destruct (qi_dom _ _ _ _ _ _ _ HI i e He) as [nd Hnd]. congruence. }
    assert (HQ : QI x' w es (<[n := OT t]> own) fn (set_view vw t (vw t))).
    { eapply (qi_node _ _ _ _ _ _ t n); try done.
      - by rewrite Ho.
      - intros u _. by rewrite Ho.
      - intros m Hm. unfold x'. simpl. rewrite !lookup_insert_ne by done. done.
      - apply vle_refl.
      - apply HI.
      - by left.
      - eapply PI_fresh; [|apply HI|done|done]. done.
      - unfold x'. simpl. rewrite lookup_insert. eauto.
      - intros j m Hj. destruct (nh_dom _ _ _ _ _ Hj). congruence.
      - intros j v mv. rewrite Hnh. destruct j as [|j]; [|done]. simpl. intros [= <- <-]. right. split; [done|].
        split; [intros i e He En; by destruct (Hno i e He)|]. intros [|j'] v' mv' Hj'; [|lia]. by intros [= <- <-].
      - by left.
      - left. rewrite lookup_insert. split; [done|]. pose proof (qi_vw _ _ _ _ _ _ _ HI t) as HV. split; [split|].
        + unfold freshn. pose proof (ok_next _ _ HV n) as Hx. rewrite E1 in *. simpl in *. lia.
        + unfold freshd. pose proof (ok_data _ _ HV n) as Hx. rewrite E3 in *. lia.
        + intros i e He En. by destruct (Hno i e He).
      - apply vle_refl.
    - intros v mv Hv. eapply known_pool_keep; [by apply (qi_pool _ _ _ _ _ _ _ HI)|done| |].
        + intros m Hm. unfold x'. simpl. apply lookup_insert_is_Some'. by right.
        + intros m Hm. split; [|done]. rewrite lookup_insert_ne; [done|]. intros ->. congruence. }
    destruct HQ as [Q1 Q2 Q3 Q4 Q5 Q6 Q7 Q8 Q9 Q10 Q11 Q12 Q13 Q14 Q15 Q16 Q17 Q18 Q19 Q20]. split; try done.
    - intros u m Hm. specialize (Q14 u m Hm). destruct (decide (u = t)) as [->|Hu]; [by rewrite set_view_eq in Q14|].
      by rewrite set_view_ne in Q14.
    - intros u. apply HI.
  Qed.

  (** ** Views after a compare-exchange *)

  Lemma views_push i x w V i' :
    views i' (push_msg i x w V) = if decide (i' = i) then views i w ++ [V] else views i' w.
  Proof. destruct i, i'; simpl; rewrite ?fmap_app; done. Qed.

  Lemma okv_cas i x w (V : view) mv ts :
    okv w V -> okv w mv -> views i w !! ts = Some mv -> S ts = length (views i w) -> mv (rloc i) = ts ->
    okv (push_msg i x w (vset (vjoin V mv) (rloc i) (S ts))) (vset (vjoin V mv) (rloc i) (S ts)).
  Proof.
    intros HV Hmv Hts Hlen Hself. pose proof (okv_join w V mv HV Hmv) as HJ.
    assert (Hle : vle (vjoin V mv) (vset (vjoin V mv) (rloc i) (S ts))).
    { apply vle_vset. pose proof (ok_root _ _ HJ i). lia. }
    set (V' := vset _ _ _) in *. split.
    - intros i'. rewrite views_push. case_decide as E.
      + subst i'. unfold V'. rewrite vset_eq, app_length. simpl. lia.
      + unfold V'. rewrite vset_ne by (by destruct i, i'). apply (ok_root _ _ HJ).
    - intros i' j mv'. rewrite views_push. intros Hj Hv. case_decide as E.
      + subst i'. apply lookup_snoc_inv in Hv as [Hv|[-> ->]]; [|apply vle_refl].
        eapply vle_trans; [|exact Hle]. eapply (ok_cl _ _ HJ i j); [|done].
        assert (j < length (views i w)) by (by eapply lookup_lt_Some). unfold vjoin. lia.
      + unfold V' in Hj. rewrite vset_ne in Hj by (by destruct i, i'). eapply vle_trans; [|exact Hle].
        by eapply (ok_cl _ _ HJ i' j).
    - intros n. unfold V'. rewrite vset_ne by (by destruct i). pose proof (ok_next _ _ HJ n). by destruct i.
    - intros n. unfold V'. rewrite vset_ne by (by destruct i). pose proof (ok_data _ _ HJ n). by destruct i.
  Qed.

  (** The same for the link of a node. *)
  Lemma okv_ncas w n nd (V : view) mv :
    okv w V -> okv w mv ->
    okv (push_next nd w n (vset (vjoin V mv) (LNext n) (S (length (w_next w n)))))
      (vset (vjoin V mv) (LNext n) (S (length (w_next w n)))).
  Proof.
    intros HV Hmv. pose proof (okv_join w V mv HV Hmv) as HJ.
    assert (Hle : vle (vjoin V mv) (vset (vjoin V mv) (LNext n) (S (length (w_next w n))))).
    { apply vle_vset. pose proof (ok_next _ _ HJ n). lia. }
    set (V' := vset _ _ _) in *. split.
    - intros i. unfold V'. rewrite vset_ne by (by destruct i). pose proof (ok_root _ _ HJ i). by destruct i.
    - intros i j mv' Hj Hv. unfold V' in Hj. rewrite vset_ne in Hj by (by destruct i). eapply vle_trans; [|exact Hle].
      eapply (ok_cl _ _ HJ i j); [done|]. by destruct i.
    - intros m. unfold V'. simpl. destruct (decide (m = n)) as [->|Hm].
      + rewrite vset_eq, fupd_eq. unfold nhist. rewrite app_length. simpl. lia.
      + rewrite vset_ne by congruence. rewrite fupd_ne by done. apply (ok_next _ _ HJ).
    - intros m. unfold V'. rewrite vset_ne by done. apply (ok_data _ _ HJ).
  Qed.

  Lemma cas_le i (V mv : view) ts w : okv w V -> okv w mv -> S ts = length (views i w) ->
    vle (vjoin V mv) (vset (vjoin V mv) (rloc i) (S ts)).
  Proof.
    intros HV Hmv Hl. apply vle_vset. pose proof (ok_root _ _ (okv_join w V mv HV Hmv) i). lia.
  Qed.

  (** ** The pool *)

  (** A node leaves the pool. *)
  Lemma qi_alloc x w es own fn vw t n p ts :
    QI x w es own (n :: fn) vw -> q_pool x = (n, (q_pool x).2) -> p.2 = ((q_pool x).2 + 1)%N ->
    nxp (q_heap x) n = Some p.1 -> S ts = length (views RPool w) ->
    let V := vset (vjoin (vw t) (w_poolv w)) (LRoot 0) (S ts) in
    let x' := QSh (q_heap x) p (q_head x) (q_tail x) in
    QI x' (push_msg RPool x w V) es (<[n := OT t]> own) fn (set_view vw t V).
  Proof.
    intros HI Ep Ept Hx Hts V x'. pose proof (qi_pi _ _ _ _ _ _ _ HI) as HP.
    assert (Ho : own !! n = Some OF) by (apply (pi_mem _ _ _ _ _ HP); left).
    destruct (proj1 (pi_dom _ _ _ _ _ HP n) ltac:(eauto)) as [nd Hnd].
    assert (Ets : ts = length (w_pool w)) by (rewrite views_len in Hts; lia).
    assert (Hlast : views RPool w !! ts = Some (w_poolv w)) by (subst ts; apply (views_last RPool)).
    assert (Hself : w_poolv w (LRoot 0) = ts) by (exact (qi_self _ _ _ _ _ _ _ HI RPool ts _ Hlast)).
    pose proof (qi_okpool _ _ _ _ _ _ _ HI) as Hokp. pose proof (qi_vw _ _ _ _ _ _ _ HI t) as HVt.
    pose proof (okv_cas RPool x w (vw t) _ ts HVt Hokp Hlast Hts Hself) as HV. fold V in HV.
    pose proof (cas_le RPool (vw t) (w_poolv w) ts w HVt Hokp Hts) as Hle. fold V in Hle.
    assert (Hm : mine (push_msg RPool x w V) es n V).
    { eapply (mine_le _ _ _ (w_poolv w)); [eapply vle_trans; [apply vle_join_r|exact Hle]|done|].
      exact (qi_free _ _ _ _ _ _ _ HI n Ho). }
    eapply (qi_node x w es own (n :: fn) vw t n); try done.
    - by rewrite Ho.
    - intros u _. by rewrite Ho.
    - intros m Hne. simpl. by rewrite lookup_insert_ne.
    - eapply vle_trans; [apply vle_join_l|exact Hle].
    - right. rewrite views_push, decide_True by done. split; [done|]. unfold V. by rewrite vset_eq.
    - by eapply PI_pop.
    - exists nd. split; [done|]. by eapply (qi_dat _ _ _ _ _ _ _ HI).
    - by left.
    - by left.
    - left. by rewrite lookup_insert.
    - simpl. eapply vle_trans; [apply vle_join_r|exact Hle].
    - intros v mv Hv. simpl in Hv. apply elem_of_app in Hv as [Hv|Hv].
      + destruct (qi_pool _ _ _ _ _ _ _ HI v mv Hv) as (H1 & H2 & _). split; [simpl; lia|]. split; [done|].
        simpl. intros Ht. lia.
      + apply elem_of_list_singleton in Hv. injection Hv as -> ->. unfold known_pool. simpl. split; [lia|].
        assert (HPn : PI c (q_heap x) p (<[n := OT t]> own) fn) by (by eapply PI_pop).
        destruct (ainv_load c _ _ _ _ HPn) as (_ & A2 & A3). split; [done|]. intros _ Hn.
        specialize (A3 eq_refl Hn). split; [done|]. destruct (decide (p.1 = n)) as [E|E]; [rewrite E, lookup_insert in A3; done|].
        rewrite lookup_insert_ne in A3 by done.
        destruct (qi_free _ _ _ _ _ _ _ HI p.1 A3) as [[Hf _] _].
        eapply (freshn_le (push_msg RPool x w V) (w_poolv w)); [|done|exact Hf].
        eapply vle_trans; [apply vle_join_r|exact Hle].
  Qed.

  (** A node enters the pool. *)
  Lemma qi_freed x w es own fn vw t n ts :
    QI x w es own fn vw -> own !! n = Some (OT t) -> nxp (q_heap x) n = Some (q_pool x).1 ->
    S ts = length (views RPool w) ->
    let V := vset (vjoin (vw t) (w_poolv w)) (LRoot 0) (S ts) in
    let x' := QSh (q_heap x) (n, (q_pool x).2) (q_head x) (q_tail x) in
    QI x' (push_msg RPool x w V) es (<[n := OF]> own) (n :: fn) (set_view vw t V).
  Proof.
    intros HI Ho Hx Hts V x'. pose proof (qi_pi _ _ _ _ _ _ _ HI) as HP.
    destruct (proj1 (pi_dom _ _ _ _ _ HP n) ltac:(eauto)) as [nd Hnd].
    assert (Ets : ts = length (w_pool w)) by (rewrite views_len in Hts; lia).
    assert (Hlast : views RPool w !! ts = Some (w_poolv w)) by (subst ts; apply (views_last RPool)).
    assert (Hself : w_poolv w (LRoot 0) = ts) by (exact (qi_self _ _ _ _ _ _ _ HI RPool ts _ Hlast)).
    pose proof (qi_okpool _ _ _ _ _ _ _ HI) as Hokp. pose proof (qi_vw _ _ _ _ _ _ _ HI t) as HVt.
    pose proof (okv_cas RPool x w (vw t) _ ts HVt Hokp Hlast Hts Hself) as HV. fold V in HV.
    pose proof (cas_le RPool (vw t) (w_poolv w) ts w HVt Hokp Hts) as Hle. fold V in Hle.
    assert (Hm : mine (push_msg RPool x w V) es n V).
    { eapply (mine_le _ _ _ (vw t)); [eapply vle_trans; [apply vle_join_l|exact Hle]|done|].
      exact (qi_own _ _ _ _ _ _ _ HI t n Ho). }
    eapply (qi_node x w es own fn vw t n); try done.
    - by rewrite Ho.
    - intros u Hu. rewrite Ho. congruence.
    - intros m Hne. simpl. by rewrite lookup_insert_ne.
    - eapply vle_trans; [apply vle_join_l|exact Hle].
    - right. rewrite views_push, decide_True by done. split; [done|]. unfold V. by rewrite vset_eq.
    - eapply PI_push; [|done|exact Ho|done]. done.
    - exists nd. split; [done|]. by eapply (qi_dat _ _ _ _ _ _ _ HI).
    - by left.
    - by left.
    - right. rewrite lookup_insert. split; [done|]. exact Hm.
    - simpl. eapply vle_trans; [apply vle_join_r|exact Hle].
    - intros v mv Hv. simpl in Hv. apply elem_of_app in Hv as [Hv|Hv].
      + destruct (qi_pool _ _ _ _ _ _ _ HI v mv Hv) as (H1 & H2 & H3). split; [done|]. split; [done|].
        intros Ht Hn. destruct (H3 Ht Hn) as [H4 H5]. split; [|done]. destruct (decide (v.1 = n)) as [->|E]; [by rewrite lookup_insert|].
        by rewrite lookup_insert_ne.
      + apply elem_of_list_singleton in Hv. injection Hv as -> ->. unfold known_pool. simpl. split; [lia|].
        split; [eauto|]. intros _ Hn. rewrite lookup_insert. split; [done|]. by destruct Hm as [[Hf _] _].
  Qed.
End keep.
