(** * Every step of the queue on release/acquire memory keeps the invariant *)
From stdpp Require Import gmap list numbers.
From Verif Require Import Lin PoolModel Chain PoolProofs QueueModel QueueObs RaMem RaFacts RaLog RaQueueSpec RaQueueModel
  RaQueueInv RaQueueKeep RaQueueStep.

Set Default Proof Using "Type".
#[local] Arguments hist : simpl never.
#[local] Arguments views : simpl never.

Lemma vjoin_v0 V l : vjoin V v0 l = V l.
Proof. unfold vjoin, v0. lia. Qed.
Lemma okv_v0 w V : okv w V -> okv w (vjoin V v0).
Proof.
  intros [A1 A2 A3 A4]. split.
  - intros i. rewrite vjoin_v0. apply A1.
  - intros i j mv. rewrite vjoin_v0. intros Hj Hv l. rewrite vjoin_v0. by eapply A2.
  - intros n. rewrite vjoin_v0. apply A3.
  - intros n. rewrite vjoin_v0. apply A4.
Qed.
Lemma hist_S i x w j (v : tagged) (mv : view) : hist i x w !! j = Some (v, mv) -> j < length (views i w).
Proof. intros H. eapply lookup_lt_Some. by eapply hist_view. Qed.

Lemma knows_le2 w es i V W :
  vle V W -> (forall n, W (LData n) <= w_acc w n) -> knows w es i V -> knows w es i W.
Proof.
  intros H Hw (e & He & H1 & H2 & H3 & H4 & H5). exists e. split; [done|].
  split; [specialize (H (LNext (e_n e))); lia|]. split; [pose proof (kn_mono es V W H); lia|].
  split; [specialize (H (LRoot 2)); lia|]. split; [by eapply vle_trans|].
  intros Hi. specialize (H5 Hi). unfold freshd in *. specialize (H (LData (e_n e))). specialize (Hw (e_n e)). lia.
Qed.

Section ok.
  Context (c : cfg) (Htag : c_tagmod c = None).
  Notation null := (c_null c).
  Context (t : nat) (x : qshared) (w : wmem) (es : list ent) (own : gmap N owner) (fn : list N) (vw : nat -> view)
    (iv : view) (p : phase qop qret) (h : option N).
  Context (HI : QI c x w es own fn vw) (Hiv : vle iv (vw t)).
  Notation V := (vw t).
  Notation rok := (rok c t x w es own vw iv p h).
  Notation rtstep := (rtstep c true x w V).

  Lemma HV : okv w V.
  Proof using HI. apply HI. Qed.

  (** ** Loads and compare-exchange operations *)

  Definition goes (V' : view) (out : tout) : Prop :=
    exists x1 pc' p', out = TGo x1 pc' /\ tinv c x w es own t V' iv p' pc' /\ kind c w es iv p w es V' p' /\
      (h = None \/ holds pc' = h).

  Lemma rok_goes V' out : vle V V' -> okv w V' -> goes V' out -> rok (rread x w V' out).
  Proof using HI.
    intros Hle Hok (x1 & pc' & p' & -> & HT & HK & Hh). simpl. by eapply (rok_same c t x w es own fn vw iv p h p').
  Qed.

  Lemma load_ok i ts (v : tagged) (mv : view) :
    hist i x w !! ts = Some (v, mv) -> V (rloc i) <= ts ->
    vle V (vjoin (vset V (rloc i) ts) mv) /\ vle mv (vjoin (vset V (rloc i) ts) mv) /\
    okv w (vjoin (vset V (rloc i) ts) mv) /\ ts <= vjoin (vset V (rloc i) ts) mv (rloc i).
  Proof using HI.
    intros Hts Hle. pose proof (hist_view _ _ _ _ _ _ Hts) as Hv.
    split; [eapply vle_trans; [by apply vle_vset|apply vle_join_l]|]. split; [apply vle_join_r|]. split.
    - eapply okv_load; [apply HV|by eapply qi_okv|done|done|]. by eapply (qi_self _ _ _ _ _ _ _ HI).
    - unfold vjoin. rewrite vset_eq. lia.
  Qed.

  Lemma rok_load pc i ts sp addr junk :
    qaccess c pc = XLoad i ->
    (forall v (mv V' : view), hist i x w !! ts = Some (v, mv) -> V (rloc i) <= ts -> vle V V' -> vle mv V' ->
       okv w V' -> ts <= V' (rloc i) -> goes V' (tstep c (see i x v) pc sp addr false)) ->
    rok (rtstep pc ts sp addr junk).
  Proof using HI.
    intros Ha H. unfold RaQueueModel.rtstep. rewrite Ha.
    destruct (hist i x w !! ts) as [[v mv]|] eqn:Hts; [|done]. case_decide as Hle; [|done].
    destruct (load_ok i ts v mv Hts Hle) as (H1 & H2 & H3 & H4). apply rok_goes; [done|done|]. by apply (H v mv).
  Qed.

  Lemma rok_cas pc i old strong ts sp addr junk :
    qaccess c pc = XCas i old strong ->
    (forall mv : view, hist i x w !! ts = Some (old, mv) -> S ts = length (views i w) ->
       rok (rwrite (push_msg i x w (vset (vjoin V mv) (rloc i) (S ts))) (vset (vjoin V mv) (rloc i) (S ts))
              (tstep c x pc false addr false))) ->
    (forall v (mv V' : view), hist i x w !! ts = Some (v, mv) -> (strong = true -> v <> old) -> vle V V' -> vle mv V' ->
       okv w V' -> goes V' (tstep c (see i x v) pc true addr false)) ->
    rok (rtstep pc ts sp addr junk).
  Proof using HI.
    intros Ha Hs Hf. unfold RaQueueModel.rtstep. rewrite Ha.
    destruct (hist i x w !! ts) as [[v mv]|] eqn:Hts; [|done]. case_decide as Hle; [|done].
    case_decide as Hd.
    - destruct Hd as (Hl & -> & _). apply Hs; [done|]. by rewrite <- hist_length with (x := x).
    - case_decide as Hd2; [done|]. destruct (load_ok i ts v mv Hts Hle) as (H1 & H2 & H3 & H4).
      apply rok_goes; [done|done|]. apply (Hf v mv); try done. intros -> ->. by apply Hd2.
  Qed.

  Lemma nload_ok n nd ts (v : tagged) (mv : view) :
    q_heap x !! n = Some nd -> nhist nd w n !! ts = Some (v, mv) -> V (LNext n) <= ts ->
    nh x w n !! ts = Some (v, mv) /\
    vle V (vjoin (vset V (LNext n) ts) mv) /\ vle mv (vjoin (vset V (LNext n) ts) mv) /\
    okv w (vjoin (vset V (LNext n) ts) mv) /\ vjoin (vset V (LNext n) ts) mv (LNext n) = ts.
  Proof using HI.
    intros Hnd Hts Hle. assert (Hv : nh x w n !! ts = Some (v, mv)) by (unfold nh; by rewrite Hnd). split; [done|].
    split; [eapply vle_trans; [by apply vle_vset|apply vle_join_l]|]. split; [apply vle_join_r|]. split.
    - apply okv_join; [|by eapply qi_okn]. apply okv_vset_next; [apply HV|]. split; [done|]. by eapply nh_lt.
    - unfold vjoin. rewrite vset_eq. rewrite (qi_nself _ _ _ _ _ _ _ HI n ts v mv Hv). lia.
  Qed.

  (** A value of [head_] resp. [tail_] has one number. *)
  Lemma tail_num i j v (mv mv' : view) :
    hist RTail x w !! i = Some (v, mv) -> hist RTail x w !! j = Some (v, mv') -> i = j.
  Proof using HI.
    intros Hi Hj. destruct (qi_tail _ _ _ _ _ _ _ HI _ _ _ Hi) as (e & _ & E & _).
    destruct (qi_tail _ _ _ _ _ _ _ HI _ _ _ Hj) as (e' & _ & E' & _). rewrite E in E'. injection E' as _ E'. lia.
  Qed.
  Lemma head_num i j v (mv mv' : view) :
    hist RHead x w !! i = Some (v, mv) -> hist RHead x w !! j = Some (v, mv') -> i = j.
  Proof using HI.
    intros Hi Hj. destruct (qi_head _ _ _ _ _ _ _ HI _ _ _ Hi) as (e & _ & E & _).
    destruct (qi_head _ _ _ _ _ _ _ HI _ _ _ Hj) as (e' & _ & E' & _). rewrite E in E'. injection E' as _ E'. lia.
  Qed.

  Lemma k_none' V' : kind c w es iv p w es V' p.
  Proof. by apply k_none. Qed.
  #[local] Ltac hs := match goal with Hh : h = _ |- _ => rewrite Hh; simpl; auto end.
  #[local] Ltac kn_tac := split; [apply k_none'|hs].

  (** ** The pool *)

  Lemma pool_known ts v (mv V' : view) :
    hist RPool x w !! ts = Some (v, mv) -> vle mv V' -> okv w V' ->
    ainv c (q_heap x) (q_pool x) own (ATest v) /\ tva c x w V' (ATest v).
  Proof using HI.
    intros Hts Hle Hok. destruct (qi_pool _ _ _ _ _ _ _ HI v mv) as (H1 & H2 & H3); [by eapply elem_of_list_lookup_2|].
    split.
    - simpl. split; [done|]. split; [done|]. intros Ht Hn. by apply H3.
    - simpl. intros Ht Hn. eapply freshn_le; [exact Hle|done|]. by apply H3.
  Qed.

  Lemma hist_pool_push x' V' i j m : q_head x' = q_head x -> q_tail x' = q_tail x ->
    hist i x w !! j = Some m -> hist i x' (push_msg RPool x w V') !! j = Some m.
  Proof.
    intros E1 E2 H. destruct i; unfold hist in *; simpl; unfold hist.
    - by apply lookup_app_l_Some.
    - by rewrite E1.
    - by rewrite E2.
  Qed.

  Lemma new_ok n d : q_heap x !! n = None -> n <> null -> length d = c_words c ->
    QI c (set_heap x (<[n := Node (null, 0%N) d]> (q_heap x))) w es (<[n := OT t]> own) fn (set_view vw t V) /\
    adv t x w es own (set_heap x (<[n := Node (null, 0%N) d]> (q_heap x))) w es (<[n := OT t]> own).
  Proof using HI.
    intros Hn Hnn Hd. split.
    - apply qi_set_view; [by apply qi_new|apply vle_refl|apply HV].
    - assert (Ho : own !! n = None).
      { apply eq_None_not_Some. rewrite (pi_dom _ _ _ _ _ (qi_pi _ _ _ _ _ _ _ HI)), Hn. by intros [? ?]. }
      apply (adv_node _ _ _ _ _ _ _ _ n); simpl.
      + intros u _. by rewrite Ho.
      + intros [] j m; done.
      + done.
      + intros m Hm. unfold nh. simpl. by rewrite !lookup_insert_ne.
      + intros j m Hj. destruct (nh_dom _ _ _ _ _ Hj). congruence.
      + rewrite lookup_insert. eauto.
      + lia.
      + intros _. by rewrite Ho.
  Qed.

  Lemma ok_alloc b v a ts sp addr junk :
    h = holds (PcAlloc b v a) ->
    tinv c x w es own t V iv p (PcAlloc b v a) -> rok (rtstep (PcAlloc b v a) ts sp addr junk).
  Proof using HI Htag.
    intros Hh (Hp & Hlen & Ha & Htv). destruct a as [|old|old nxt].
    - eapply rok_load; [done|]. intros u mv V' Hts Hle H1 H2 H3 H4. exists (see RPool x u), (PcAlloc b v (ATest u)), p.
      split; [done|]. split; [|kn_tac]. destruct (pool_known ts u mv V' Hts H2 H3). done.
    - unfold RaQueueModel.rtstep. simpl qaccess. destruct (decide (old.1 = null)) as [Hn|Hn].
      + simpl. rewrite decide_True by done. destruct (c_node_based c && negb b) eqn:Enb.
        * apply andb_true_iff in Enb as [Enb Eb]. apply negb_true_iff in Eb.
          destruct addr as [n|]; simpl.
          -- case_decide as Hf; [|done]. destruct Hf as [Hf Hnn]. simpl.
             destruct (new_ok n (qd0 c) Hf Hnn) as [HQ HA]; [unfold qd0; by rewrite replicate_length|].
             exists es, (<[n := OT t]> own), fn, p. split; [exact HQ|]. split; [exact HA|].
             split; [|split; [apply k_none'|split; [apply vle_refl|by apply omove_take; [left|..]]]]. simpl. split; [eauto|]. split; [done|].
             rewrite lookup_insert. split; [done|]. split; [lia|]. rewrite lookup_insert. eauto.
          -- apply (rok_same c t x w es own fn vw iv p h (Done (Push b v) RExn) V (PcRet RExn)); [done|apply vle_refl|apply HV|by eexists| |hs].
             apply k_neutral; try done. intros a. by constructor.
        * simpl. apply (rok_same c t x w es own fn vw iv p h (Done (Push b v) (RBool false)) V (PcRet (RBool false)));
            [done|apply vle_refl|apply HV|by eexists| |hs].
          apply k_neutral; try done. intros a. constructor. destruct (c_node_based c); [|by left]. destruct b; [by right|done].
      + destruct Ha as (A1 & A2 & A3). destruct (A2 Hn) as [nd Hnd]. rewrite Hnd. case_decide as Hfr.
        * apply rok_goes; [apply vle_refl|apply HV|]. simpl. rewrite decide_False by done. rewrite Hnd.
          eexists _, _, p. split; [done|]. split; [|kn_tac]. simpl. split; [done|]. split; [done|]. split; [|done].
          split; [done|]. split; [done|]. intros Ht. split; [auto|]. by apply nxp_Some.
        * apply rok_goes; [apply vle_refl|apply HV|]. simpl. rewrite decide_False by done. rewrite lookup_insert.
          eexists _, _, p. split; [done|]. split; [|kn_tac]. simpl. split; [done|]. split; [done|]. split; [|done].
          split; [done|]. split; [done|]. intros Ht. exfalso. apply Hfr. by apply Htv.
    - eapply rok_cas; [done| |].
      + intros mv Hts Hl. pose proof (hist_last_inv _ _ _ _ _ _ Hts ltac:(by rewrite hist_length)) as El. simpl in El.
        injection El as -> ->. simpl. rewrite decide_True by done. simpl.
        destruct Ha as (A1 & A2 & A3). destruct (A3 eq_refl) as [A4 A5].
        assert (Hfn : exists fn', fn = (q_pool x).1 :: fn').
        { apply (pi_mem _ _ _ _ _ (qi_pi _ _ _ _ _ _ _ HI)) in A4. pose proof (pi_seg _ _ _ _ _ (qi_pi _ _ _ _ _ _ _ HI)) as Hs.
          destruct fn as [|y fn']; [by apply elem_of_nil in A4|]. destruct Hs as [-> _]. eauto. }
        destruct Hfn as [fn' Efn].
        assert (HI' : QI c x w es own ((q_pool x).1 :: fn') vw) by (rewrite <- Efn; exact HI).
        pose proof (qi_alloc c x w es own fn' vw t (q_pool x).1 (nxt, next_tag c (q_pool x).2) ts HI'
          ltac:(by destruct (q_pool x)) ltac:(by apply next_tag_succ) A5 Hl) as HQ.
        set (V' := vset _ _ _) in *. eexists es, _, fn', p. split; [exact HQ|].
        destruct (proj1 (pi_dom _ _ _ _ _ (qi_pi _ _ _ _ _ _ _ HI) (q_pool x).1) ltac:(eauto)) as [nd Hnd].
        split; [|split; [|split; [by apply k_none|]]].
        * apply (adv_node _ _ _ _ _ _ _ _ (q_pool x).1); simpl.
          -- intros u _. by rewrite A4.
          -- intros i j m. by apply hist_pool_push.
          -- done.
          -- intros m Hm. unfold nh. simpl. by rewrite lookup_insert_ne.
          -- done.
          -- eauto.
          -- rewrite next_tag_succ by done. lia.
          -- rewrite next_tag_succ by done. lia.
        * simpl. split; [eauto|]. split; [done|]. rewrite lookup_insert. split; [done|]. split; [lia|]. eauto.
        * split; [|by apply omove_take; [left|..]].
          eapply vle_trans; [apply vle_join_l|]. eapply (cas_le RPool); [apply HV|by eapply qi_okpool|done].
      + intros u mv V' Hts _ H1 H2 H3. exists (see RPool x u), (PcAlloc b v (ATest u)), p. split.
        * done.
        * split; [|kn_tac]. destruct (pool_known ts u mv V' Hts H2 H3). done.
  Qed.

  (** Link stores to an own node. *)
  Lemma store_ok n nd l out pc' :
    own !! n = Some (OT t) -> q_heap x !! n = Some nd -> ((nx nd).2 <= l.2)%N ->
    out = TGo (set_heap x (<[n := Node l (dat nd)]> (q_heap x))) pc' ->
    tinv c (set_heap x (<[n := Node l (dat nd)]> (q_heap x)))
      (push_next nd w n (vset V (LNext n) (S (length (w_next w n))))) es own t (vset V (LNext n) (S (length (w_next w n)))) iv p pc' ->
    holds pc' = h -> rok (rstore x w V n true out).
  Proof using HI.
    intros Ho Hnd Hl -> HT Hh. destruct (qi_own _ _ _ _ _ _ _ HI t n Ho) as [[Hf _] _].
    unfold rstore. rewrite Hnd, decide_True by exact Hf. set (V' := vset _ _ _) in *.
    exists es, own, fn, p. split; [by apply qi_store|]. split; [|split; [done|split; [by apply k_none|]]].
    - apply (adv_node _ _ _ _ _ _ _ _ n); simpl.
      + intros u Hu. rewrite Ho. congruence.
      + intros [] j m; done.
      + done.
      + intros m Hm. unfold nh, nhist. simpl. rewrite lookup_insert_ne by done. by rewrite !fupd_ne.
      + intros j m. unfold nh. simpl. rewrite lookup_insert, Hnd. unfold nhist. simpl. rewrite fupd_eq. intros Hj.
        by apply lookup_app_l_Some.
      + rewrite lookup_insert. eauto.
      + lia.
      + intros _. by rewrite Ho.
    - split; [|apply omove_same; [done|by right]]. apply vle_vset. unfold freshn in Hf. lia.
  Qed.

  Lemma ok_dealloc n d k ts sp addr junk :
    h = holds (PcDealloc n d k) ->
    tinv c x w es own t V iv p (PcDealloc n d k) -> rok (rtstep (PcDealloc n d k) ts sp addr junk).
  Proof using HI Htag.
    intros Hh (Ho & Hd & Hk). destruct d as [|old|old].
    - eapply rok_load; [done|]. intros u mv V' Hts Hle H1 H2 H3 H4.
      exists (see RPool x u), (PcDealloc n (DSet u) k), p. split; [done|]. split; [done|kn_tac].
    - destruct (proj1 (pi_dom _ _ _ _ _ (qi_pi _ _ _ _ _ _ _ HI) n) ltac:(eauto)) as [nd Hnd].
      unfold RaQueueModel.rtstep. simpl qaccess. simpl daccess. cbv match.
      eapply (store_ok n nd (old.1, (nx nd).2)); [done|done|simpl; lia| | |].
      + simpl. rewrite Hnd. done.
      + simpl. split; [done|]. split; [|done]. unfold nxp. by rewrite lookup_insert.
      + done.
    - eapply rok_cas; [done| |].
      + intros mv Hts Hl. pose proof (hist_last_inv _ _ _ _ _ _ Hts ltac:(by rewrite hist_length)) as El. simpl in El.
        injection El as -> ->. simpl. rewrite decide_True by done. simpl.
        pose proof (qi_freed c x w es own fn vw t n ts HI Ho Hd Hl) as HQ.
        set (V' := vset _ _ _) in *. exists es, (<[n := OF]> own), (n :: fn), p. split; [exact HQ|].
        destruct (proj1 (pi_dom _ _ _ _ _ (qi_pi _ _ _ _ _ _ _ HI) n) ltac:(eauto)) as [nd Hnd].
        split; [|split; [|split; [by apply k_none|]]].
        * apply (adv_node _ _ _ _ _ _ _ _ n); simpl.
          -- intros u Hu. rewrite Ho. congruence.
          -- intros i j m. by apply hist_pool_push.
          -- done.
          -- intros m Hm. unfold nh. simpl. by rewrite lookup_insert_ne.
          -- done.
          -- eauto.
          -- lia.
          -- intros _. by rewrite Ho.
        * destruct k as [r|k]; simpl; done.
        * split; [|apply omove_give; [done|done|by left|done]].
          eapply vle_trans; [apply vle_join_l|]. eapply (cas_le RPool); [apply HV|by eapply qi_okpool|done].
      + intros u mv V' Hts _ H1 H2 H3. exists (see RPool x u), (PcDealloc n (DSet u) k), p. split.
        * done.
        * split; [done|kn_tac].
  Qed.

  Lemma ok_reserve k ts sp addr junk :
    h = holds (PcReserve k) ->
    tinv c x w es own t V iv p (PcReserve k) -> rok (rtstep (PcReserve k) ts sp addr junk).
  Proof using HI.
    intros Hh [m Hp]. unfold RaQueueModel.rtstep. simpl qaccess. destruct k as [|k]; simpl.
    - apply (rok_same c t x w es own fn vw iv p h (Done (Reserve m) RUnit) V (PcRet RUnit)); [done|apply vle_refl|apply HV|by eexists| |hs].
      apply k_neutral; try done. intros a. by constructor.
    - destruct addr as [n|].
      + case_decide as Hf; [|done]. destruct Hf as [Hf Hnn]. simpl.
        destruct (new_ok n (qd0 c) Hf Hnn) as [HQ HA]; [unfold qd0; by rewrite replicate_length|].
        exists es, (<[n := OT t]> own), fn, p. split; [exact HQ|]. split; [exact HA|].
        split; [|split; [apply k_none'|split; [apply vle_refl|by apply omove_take; [left|..]]]]. simpl. rewrite lookup_insert. eauto.
      + apply (rok_same c t x w es own fn vw iv p h (Done (Reserve m) RExn) V (PcRet RExn)); [done|apply vle_refl|apply HV|by eexists| |hs].
        apply k_neutral; try done. intros a. by constructor.
  Qed.

  (** ** The constructor of a node *)

  Lemma ok_word v n k ts sp addr junk :
    h = holds (PcWord v n k) ->
    tinv c x w es own t V iv p (PcWord v n k) -> rok (rtstep (PcWord v n k) ts sp addr junk).
  Proof using HI.
    intros Hh ([b Hp] & Hlen & Ho & Hk & nd & Hnd & Htk). destruct (qi_own _ _ _ _ _ _ _ HI t n Ho) as [[Hf1 Hf2] _].
    pose proof (qi_dat _ _ _ _ _ _ _ HI n nd Hnd) as Hdl.
    unfold RaQueueModel.rtstep. simpl qaccess. destruct (v !! k) as [a|] eqn:Ek.
    - rewrite decide_True by exact Hf2. simpl. rewrite Hnd, Ek. simpl.
      pose proof (lookup_lt_Some _ _ _ Ek) as Hkl.
      exists es, own, fn, p. split; [apply qi_put; [done|done|done|by rewrite insert_length]|].
      split; [|split; [|split; [by apply k_none|]]].
      + apply (adv_node _ _ _ _ _ _ _ _ n); simpl.
        * intros u Hu. rewrite Ho. congruence.
        * intros [] j m; done.
        * done.
        * intros m Hm. unfold nh. simpl. by rewrite lookup_insert_ne.
        * intros j m. unfold nh. simpl. by rewrite lookup_insert, Hnd.
        * rewrite lookup_insert. eauto.
        * lia.
        * intros _. by rewrite Ho.
      + simpl. split; [eauto|]. split; [done|]. split; [done|]. split; [lia|]. rewrite lookup_insert.
        eexists. split; [done|]. simpl. rewrite (take_S_r v k a) by done.
        rewrite (take_S_r _ k a) by (apply list_lookup_insert; lia). rewrite take_insert by lia. by rewrite Htk.
      + split; [|apply omove_same; [done|by right]]. apply vle_vset. unfold freshd in Hf2. lia.
    - rewrite Hnd. destruct (nhist nd w n !! ts) as [[u mv]|] eqn:Hts; [|done]. case_decide as Hle; [|done].
      assert (Hu : ts = length (w_next w n)).
      { assert (Hv : nh x w n !! ts = Some (u, mv)) by (unfold nh; by rewrite Hnd). apply nh_lt in Hv. unfold freshn in Hf1. lia. }
      assert (Hv : nh x w n !! ts = Some (u, mv)) by (unfold nh; by rewrite Hnd).
      assert (Eu : u = nx nd). { rewrite Hu, (nh_last _ _ _ _ Hnd) in Hv. by injection Hv as <-. }
      apply rok_goes.
      + eapply vle_trans; [by apply vle_vset|apply vle_join_l].
      + apply okv_v0. apply okv_vset_next; [apply HV|]. lia.
      + simpl. rewrite lookup_insert, Ek. simpl. eexists _, _, p. split; [done|]. split; [|kn_tac].
        simpl. exists b, v, nd. split; [done|]. split; [done|]. split; [done|]. split; [|by rewrite Eu].
        apply lookup_ge_None in Ek. rewrite !take_ge in Htk by lia. done.
  Qed.

  Lemma ok_nstore n tag ts sp addr junk :
    h = holds (PcNStore n tag) ->
    tinv c x w es own t V iv p (PcNStore n tag) -> rok (rtstep (PcNStore n tag) ts sp addr junk).
  Proof using HI Htag.
    intros Hh (b & v & nd & Hp & Ho & Hnd & Hd & Ht). unfold RaQueueModel.rtstep. simpl qaccess. cbv match.
    eapply (store_ok n nd (null, next_tag c tag)); [done|done| | | |].
    - simpl. rewrite next_tag_succ by done. lia.
    - simpl. by rewrite Hnd.
    - simpl. exists b, v. split; [done|]. split; [done|]. simpl. rewrite lookup_insert. eauto.
    - done.
  Qed.

  (** ** Entries *)

  Lemma ent_head i e j v (mv : view) :
    es !! i = Some e -> nh x w (e_n e) !! j = Some (v, mv) -> e_l e <= j -> mv (LRoot 1) <= i ->
    (j = e_l e /\ v.1 = null) \/
    (j = S (e_l e) /\ v.1 <> null /\ link_seen x w es mv i v.1).
  Proof using HI.
    intros He Hj Hl Hm. destruct (decide (S (S (e_l e)) <= j)) as [Hp|Hp].
    { pose proof (qi_past _ _ _ _ _ _ _ HI i e j v mv He Hj Hp). lia. }
    destruct (decide (j = e_l e)) as [->|Hne].
    - left. split; [done|]. destruct (qi_null _ _ _ _ _ _ _ HI i e He) as (tg & cv & Hc). rewrite Hc in Hj. by injection Hj as <- <-.
    - assert (j = S (e_l e)) as -> by lia. right. split; [done|].
      assert (exists e', es !! S i = Some e') as [e' He'].
      { apply lookup_lt_is_Some_2. pose proof (lookup_lt_Some _ _ _ He). pose proof (qi_ord _ _ _ _ _ _ _ HI).
        destruct (decide (S i = length es)) as [El|]; [|lia].
        destruct (qi_in _ _ _ _ _ _ _ HI i e ltac:(lia) He) as (_ & _ & Hx). rewrite decide_True in Hx by done.
        apply nh_lt in Hj. lia. }
      destruct (qi_link _ _ _ _ _ _ _ HI i e e' He He') as (tg & cv & lv & H1 & H2 & H3).
      rewrite H2 in Hj. injection Hj as <- <-. simpl. split; [by eapply (qi_nn c); eauto|].
      exists e, e', (e_n e', (tg + 1)%N), lv. do 4 (split; [done|]). apply vle_refl.
  Qed.

  Lemma tail_ent V' tl m : at_tail x w V' tl m -> okv w V' ->
    exists e, es !! m = Some e /\ tl = (e_n e, N.of_nat m) /\ e_l e <= V' (LNext (e_n e)).
  Proof using HI.
    intros (mv & Hm & Hle) Hok. destruct (qi_tail _ _ _ _ _ _ _ HI m tl mv Hm) as (e & He & E & _).
    exists e. split; [done|]. split; [done|]. destruct (knows_tail _ _ _ _ _ _ _ HI V' m Hok Hle) as (e' & He' & H & _).
    rewrite He in He'. by injection He' as <-.
  Qed.
  Lemma head_ent V' hd i : at_head x w V' hd i -> okv w V' ->
    exists e, es !! i = Some e /\ hd = (e_n e, N.of_nat i) /\ e_l e <= V' (LNext (e_n e)).
  Proof using HI.
    intros (mv & Hm & Hle) Hok. destruct (qi_head _ _ _ _ _ _ _ HI i hd mv Hm) as (e & He & E & _).
    exists e. split; [done|]. split; [done|].
    destruct (knows_tail _ _ _ _ _ _ _ HI V' i Hok ltac:(by eapply head_tail)) as (e' & He' & H & _).
    rewrite He in He'. by injection He' as <-.
  Qed.

  (** Someone who has seen the link to entry [S m] knows the entry. *)
  Lemma link_knows V' m np : link_seen x w es V' m np -> okv w V' ->
    knows w es (S m) V' /\ exists e, es !! S m = Some e /\ e_n e = np.
  Proof using HI.
    intros (e & e' & v & lv & He & He' & En & Hl & Hle) Hok. split; [|eauto].
    destruct (qi_link _ _ _ _ _ _ _ HI m e e' He He') as (tg & cv & lv' & _ & H2 & H3).
    pose proof (eq_trans (eq_sym H2) Hl) as Elv. injection Elv as _ <-. by eapply knows_le.
  Qed.

  (** ** push *)

  Lemma ok_ptail n ts sp addr junk :
    h = holds (PcPTail n) ->
    tinv c x w es own t V iv p (PcPTail n) -> rok (rtstep (PcPTail n) ts sp addr junk).
  Proof using HI.
    intros Hh (b & v & Hp & Hb). eapply rok_load; [done|]. intros u mv V' Hts Hle H1 H2 H3 H4.
    exists (see RTail x u), (PcPNext n u), p. split; [done|]. split; [|kn_tac].
    exists b, v, ts. split; [done|]. split; [done|]. by exists mv.
  Qed.

  Lemma ok_pnext n tl ts sp addr junk :
    h = holds (PcPNext n tl) ->
    tinv c x w es own t V iv p (PcPNext n tl) -> rok (rtstep (PcPNext n tl) ts sp addr junk).
  Proof using HI.
    intros Hh (b & v & m & Hp & Hb & Ht). destruct (tail_ent _ _ _ Ht HV) as (e & He & E & Hl).
    destruct (qi_dom _ _ _ _ _ _ _ HI m e He) as [nd Hnd].
    subst tl. unfold RaQueueModel.rtstep. simpl qaccess. cbv match. simpl fst. rewrite Hnd. destruct (nhist nd w (e_n e) !! ts) as [[u mv]|] eqn:Hts; [|done].
    case_decide as Hle; [|done].
    destruct (nload_ok _ _ _ _ _ Hnd Hts Hle) as (H0 & H1 & H2 & H3 & H4).
    apply rok_goes; [done|done|]. simpl. rewrite lookup_insert.
    eexists _, _, p. split; [done|]. split; [|kn_tac]. simpl.
    exists b, v, m, e, ts, mv. split; [done|]. split; [done|]. split; [exact (at_tail_le _ _ _ _ _ _ H1 Ht)|].
    split; [done|]. split; [lia|]. done.
  Qed.

  Lemma ok_pcheck n tl nx ts sp addr junk :
    h = holds (PcPCheck n tl nx) ->
    tinv c x w es own t V iv p (PcPCheck n tl nx) -> rok (rtstep (PcPCheck n tl nx) ts sp addr junk).
  Proof using HI.
    intros Hh (b & v & m & e & j & nv & Hp & Hb & Ht & He & Hj & Hn & Hnv). eapply rok_load; [done|].
    intros u mv V' Hts Hle H1 H2 H3 H4. simpl. case_decide as Hd.
    - subst u. assert (Hm : nv (LRoot 1) <= m).
      { destruct Ht as (mv' & Ht & _). assert (m = ts) as -> by (by eapply tail_num). simpl in Hle.
        destruct (decide (nv (LRoot 1) <= ts)) as [|Hbad]; [done|]. exfalso.
        pose proof (head_tail _ _ _ _ _ _ _ HI V (S ts) HV) as Hht. specialize (Hnv (LRoot 1)). lia. }
      destruct (ent_head m e j nx nv He Hn Hj Hm) as [[-> Hnull]|(-> & Hnull & Hls)].
      + rewrite decide_True by done. eexists _, _, p. split; [done|]. split; [|kn_tac].
        exists b, v, m, e, nv. split; [done|]. split; [done|]. split; [exact (at_tail_le _ _ _ _ _ _ H1 Ht)|]. split; [done|]. split; [done|].
        by eapply vle_trans.
      + rewrite decide_False by done. eexists _, _, p. split; [done|]. split; [|kn_tac].
        exists b, v, m. split; [done|]. split; [done|]. split; [exact (at_tail_le _ _ _ _ _ _ H1 Ht)|].
        eapply link_seen_le; [|exact Hls]. by eapply vle_trans.
    - eexists _, _, p. split; [done|]. split; [|kn_tac]. by exists b, v.
  Qed.

  (** Moving [tail_]. *)
  Lemma swing_ok tl m np ts (mv : view) out pc' :
    at_tail x w V tl m -> link_seen x w es V m np ->
    hist RTail x w !! ts = Some (tl, mv) -> S ts = length (views RTail w) ->
    out = TGo (set_tail x (np, next_tag c tl.2)) pc' ->
    (forall x' w' V', q_heap x' = q_heap x -> tinv c x' w' es own t V' iv p pc') ->
    h = None \/ holds pc' = h ->
    rok (rwrite (push_msg RTail x w (vset (vjoin V mv) (rloc RTail) (S ts))) (vset (vjoin V mv) (rloc RTail) (S ts)) out).
  Proof using HI Htag.
    intros Ht Hl Hts Hlen -> HT Hh. pose proof Ht as (mv' & Hm & Hle). assert (m = ts) as -> by (by eapply tail_num). clear Hm mv'.
    destruct (link_knows _ _ _ Hl HV) as (Hk & e & He & En).
    destruct (tail_ent _ _ _ Ht HV) as (e0 & He0 & E & _).
    assert (Ets : ts = length (w_tail w)) by (rewrite views_len in Hlen; lia).
    pose proof (hist_view _ _ _ _ _ _ Hts) as Hv. pose proof (qi_okh _ _ _ _ _ _ _ HI RTail ts tl mv Hts) as Hokm.
    pose proof (okv_cas RTail x w V mv ts HV Hokm Hv Hlen (qi_self _ _ _ _ _ _ _ HI RTail ts mv Hv)) as HV'.
    pose proof (cas_le RTail V mv ts w HV Hokm Hlen) as Hle'. set (V' := vset _ _ _) in *.
    assert (HVV' : vle V V') by (eapply vle_trans; [apply vle_join_l|exact Hle']).
    simpl rwrite. assert (Ex : set_tail x (np, next_tag c tl.2) = QSh (q_heap x) (q_pool x) (q_head x) (e_n e, N.of_nat (S (length (w_tail w))))).
    { unfold set_tail. rewrite next_tag_succ by done. rewrite E, En. simpl. do 2 f_equal. lia. }
    rewrite Ex. exists es, own, fn, p. split.
    { apply qi_swing; [done|by rewrite <- Ets|done|done| |].
      - unfold V'. simpl. by rewrite vset_eq, Ets.
      - rewrite <- Ets. eapply knows_le2; [exact HVV'| |done]. intros n. apply (ok_data _ _ HV'). }
    split; [|split; [by apply HT|split; [by apply k_none|split; [done|by apply omove_same]]]]. split; try done.
    - intros i j m Hj. destruct i; [done|done|]. by apply (lookup_app_l_Some (hist RTail x w)).
    - exists []. by rewrite app_nil_r.
  Qed.

  Lemma ok_pswing n tl np ts sp addr junk :
    h = holds (PcPSwing n tl np) ->
    tinv c x w es own t V iv p (PcPSwing n tl np) -> rok (rtstep (PcPSwing n tl np) ts sp addr junk).
  Proof using HI Htag.
    intros Hh (b & v & m & Hp & Hb & Ht & Hl). eapply rok_cas; [done| |].
    - intros mv Hts Hlen. eapply swing_ok; [done|done|done|done| | |].
      + simpl. pose proof (hist_last_inv _ _ _ _ _ _ Hts ltac:(by rewrite hist_length)) as El. injection El as <- _.
        by rewrite decide_True.
      + intros x' w' V' Eh. exists b, v. split; [done|]. unfold built. by rewrite Eh.
      + hs.
    - intros u mv V' Hts Hne H1 H2 H3. simpl. rewrite decide_False by (by apply Hne). eexists _, _, p. split; [done|].
      split; [|kn_tac]. by exists b, v.
  Qed.

  Lemma ok_pdone n tl ts sp addr junk :
    h = holds (PcPDone n tl) ->
    tinv c x w es own t V iv p (PcPDone n tl) -> rok (rtstep (PcPDone n tl) ts sp addr junk).
  Proof using HI Htag.
    intros Hh (b & v & m & Hp & Ht & Hl). eapply rok_cas; [done| |].
    - intros mv Hts Hlen. eapply swing_ok; [done|done|done|done| | |].
      + simpl. pose proof (hist_last_inv _ _ _ _ _ _ Hts ltac:(by rewrite hist_length)) as El. injection El as <- _.
        by rewrite decide_True.
      + intros x' w' V' Eh. by eexists.
      + hs.
    - intros u mv V' Hts Hne H1 H2 H3. simpl. rewrite decide_False by (by apply Hne). eexists _, _, p. split; [done|].
      split; [|kn_tac]. by eexists.
  Qed.

  Lemma ok_oswing tl np ts sp addr junk :
    h = holds (PcOSwing tl np) ->
    tinv c x w es own t V iv p (PcOSwing tl np) -> rok (rtstep (PcOSwing tl np) ts sp addr junk).
  Proof using HI Htag.
    intros Hh (Hp & m & Ht & Hl). eapply rok_cas; [done| |].
    - intros mv Hts Hlen. eapply swing_ok; [done|done|done|done| | |].
      + simpl. pose proof (hist_last_inv _ _ _ _ _ _ Hts ltac:(by rewrite hist_length)) as El. injection El as <- _.
        by rewrite decide_True.
      + done.
      + hs.
    - intros u mv V' Hts Hne H1 H2 H3. simpl. rewrite decide_False by (by apply Hne). eexists _, _, p. split; [done|].
      split; [done|kn_tac].
  Qed.

  Lemma ok_plink n tl nx ts sp addr junk :
    h = holds (PcPLink n tl nx) ->
    tinv c x w es own t V iv p (PcPLink n tl nx) -> rok (rtstep (PcPLink n tl nx) ts sp addr junk).
  Proof using HI Htag Hiv.
    intros Hh (b & v & m & e & nv & Hp & Hb & Ht & He & Hn & Hnv).
    destruct (tail_ent _ _ _ Ht HV) as (e0 & He0 & E & Hl). rewrite He in He0. injection He0 as <-.
    destruct (qi_dom _ _ _ _ _ _ _ HI m e He) as [nd Hnd].
    subst tl. unfold RaQueueModel.rtstep. simpl qaccess. cbv match. simpl fst. rewrite Hnd. destruct (nhist nd w (e_n e) !! ts) as [[u mv]|] eqn:Hts; [|done].
    case_decide as Hle; [|done]. case_decide as Hd.
    - (* the link *)
      destruct Hd as (Hlen & -> & _).
      assert (Ets : ts = length (w_next w (e_n e))).
      { unfold nhist in Hlen. rewrite app_length in Hlen. simpl in Hlen. lia. }
      assert (Hlast : nh x w (e_n e) !! ts = Some (nx, mv)) by (unfold nh; by rewrite Hnd).
      assert (El : RaQueueModel.nhist nd w (e_n e) !! ts = Some (nx, mv)) by done. clear El.
      rewrite Ets, (nh_last _ _ _ _ Hnd) in Hlast. injection Hlast as Enx Emv.
      destruct (qi_null _ _ _ _ _ _ _ HI m e He) as (tg & cv & Hc). pose proof (eq_trans (eq_sym Hc) Hn) as Ec. injection Ec as <- <-.
      pose proof (qi_ord _ _ _ _ _ _ _ HI) as Hord. pose proof (lookup_lt_Some _ _ _ He) as Hml.
      assert (HL : S m = length es).
      { destruct (decide (S m = length es)) as [|Hne]; [done|]. exfalso.
        destruct (lookup_lt_is_Some_2 es (S m) ltac:(lia)) as [e2 He2].
        destruct (qi_link _ _ _ _ _ _ _ HI m e e2 He He2) as (tg' & cv' & lv & H1 & H2 & _).
        pose proof (eq_trans (eq_sym Hc) H1) as Ec. injection Ec as <- _.
        pose proof (qi_tag _ _ _ _ _ _ _ HI (e_n e) _ _ _ _ _ _ (nh_lt _ _ _ _ _ H2) H2 (nh_last _ _ _ _ Hnd)) as Htg.
        rewrite Enx in Htg. simpl in Htg. lia. }
      assert (Hlt : length es = S (length (w_tail w))).
      { destruct Ht as (mv' & Ht & _). apply hist_S in Ht. rewrite views_len in Ht. lia. }
      destruct Hb as (Hown & nn & Hnn & Hdn & Hnn1).
      assert (Hokm : okv w mv). { eapply (qi_nviews _ _ _ _ _ _ _ HI (e_n e)). unfold nviews. rewrite Emv. apply elem_of_app. right. left. }
      pose proof (okv_ncas w (e_n e) nd V mv HV Hokm) as HV'. rewrite <- Ets in HV'.
      set (V' := vset (vjoin V mv) (LNext (e_n e)) (S ts)) in *.
      assert (Hle' : vle (vjoin V mv) V').
      { apply vle_vset. pose proof (ok_next _ _ (okv_join w V mv HV Hokm) (e_n e)). lia. }
      assert (HVV' : vle V V') by (eapply vle_trans; [apply vle_join_l|exact Hle']).
      assert (HmV : vle mv V') by (eapply vle_trans; [apply vle_join_r|exact Hle']).
      destruct Ht as (mv' & Ht & Hmt).
      assert (HQ : QI c (set_heap x (<[e_n e := Node (n, ((PoolModel.nx nd).2 + 1)%N) (dat nd)]> (q_heap x)))
                     (push_next nd w (e_n e) V') (es ++ [Ent n (length (w_next w n)) v iv]) (<[n := OQ]> own) fn
                     (set_view vw t V')).
      { eapply (qi_linked c x w es own fn vw t n nn m e nd v iv V'); try done.
        - unfold V'. by rewrite vset_eq, Ets.
        - destruct (knows_tail _ _ _ _ _ _ _ HI V m HV Hmt) as (_ & _ & _ & Hk & _). pose proof (kn_mono es V V' HVV'). lia.
        - specialize (HVV' (LRoot 2)). lia.
        - by eapply vle_trans.
        - by rewrite Emv. }
      simpl tstep. rewrite Hnd. rewrite decide_True by done. simpl rwrite. rewrite next_tag_succ by done.
      rewrite Enx in HQ. simpl in HQ. set (x' := set_heap x _) in *. set (w' := push_next nd w (e_n e) V') in *.
      set (es' := es ++ _) in *.
      assert (Hnh' : nh x' w' (e_n e) = nh x w (e_n e) ++ [((n, (tg + 1)%N), V')]).
      { unfold nh, x'. simpl. rewrite lookup_insert, Hnd. unfold nhist. simpl. by rewrite !fupd_eq. }
      assert (Hne : n <> e_n e).
      { intros E'. destruct (qi_in _ _ _ _ _ _ _ HI m e ltac:(lia) He) as (Ho & _). rewrite <- E' in Ho. congruence. }
      assert (HoQ : own !! e_n e = Some OQ) by (apply (qi_in _ _ _ _ _ _ _ HI m e ltac:(lia) He)).
      assert (Hel : length (w_next w (e_n e)) = e_l e).
      { destruct (qi_in _ _ _ _ _ _ _ HI m e ltac:(lia) He) as (_ & _ & Hx). by rewrite decide_True in Hx. }
      assert (Hlm : nh x' w' (e_n e) !! S (e_l e) = Some ((n, (tg + 1)%N), V')).
      { rewrite Hnh'. replace (S (e_l e)) with (length (nh x w (e_n e))) by (rewrite (nh_len _ _ _ _ Hnd); lia).
        apply lookup_snoc_last. }
      assert (Hem : es' !! m = Some e) by (by apply lookup_app_l_Some).
      assert (HeS : es' !! S m = Some (Ent n (length (w_next w n)) v iv)) by (rewrite HL; apply lookup_snoc_last).
      exists es', (<[n := OQ]> own), fn, (Done (Push b v) (RBool true)). split; [exact HQ|].
      split; [|split; [|split; [|split; [done|apply omove_give; [done|by eexists|right; split; [done|]; exists (S m); eexists; split; [lia|]; split; [exact HeS|done]|done]]]]].
      + split.
        * intros [] j a Hj; done.
        * intros k j a Ha. destruct (decide (k = e_n e)) as [->|Hk].
          -- rewrite Hnh'. by apply lookup_app_l_Some.
          -- unfold nh, nhist, x'. simpl. rewrite lookup_insert_ne by done. rewrite !fupd_ne by done. done.
        * by eexists.
        * done.
        * intros u k Hu Hk. unfold x'. simpl. split; [rewrite lookup_insert_ne by congruence; done|].
          by rewrite lookup_insert_ne by congruence.
        * split; [simpl; lia|]. intros _ k Hk. unfold x'. simpl. split; [rewrite lookup_insert_ne by congruence; done|].
          by rewrite lookup_insert_ne by congruence.
        * intros _ k Hk. simpl. by rewrite fupd_ne by congruence.
        * intros k Hk. unfold x'. simpl. apply lookup_insert_is_Some'. by right.
      + exists b, v, m. split; [done|]. split.
        * exists mv'. split; [exact Ht|]. specialize (HVV' (LRoot 2)). lia.
        * exists e, (Ent n (length (w_next w n)) v iv), (n, (tg + 1)%N), V'. do 4 (split; [done|]). apply vle_refl.
      + eapply k_push; [done|done|done|].
        destruct (qi_link _ _ _ _ _ _ _ HQ m e _ Hem HeS) as (tg' & cv' & lv & _ & H2 & (e2 & _ & _ & H3 & _)).
        pose proof (eq_trans (eq_sym Hlm) H2) as Ec. injection Ec as _ <-. rewrite <- HL. done.
    - destruct (nload_ok _ _ _ _ _ Hnd Hts Hle) as (H0 & H1 & H2 & H3 & H4).
      apply rok_goes; [done|done|]. simpl. rewrite lookup_insert. simpl.
      eexists _, _, p. split; [done|]. split; [|kn_tac]. by exists b, v.
  Qed.

  (** ** pop *)

  Lemma ok_ohead ts sp addr junk :
    h = holds PcOHead ->
    tinv c x w es own t V iv p PcOHead -> rok (rtstep PcOHead ts sp addr junk).
  Proof using HI.
    intros Hh Hp. eapply rok_load; [done|]. intros u mv V' Hts Hle H1 H2 H3 H4.
    exists (see RHead x u), (PcOTail u), p. split; [done|]. split; [|kn_tac].
    split; [done|]. exists ts. by exists mv.
  Qed.

  Lemma ok_otail hd ts sp addr junk :
    h = holds (PcOTail hd) ->
    tinv c x w es own t V iv p (PcOTail hd) -> rok (rtstep (PcOTail hd) ts sp addr junk).
  Proof using HI.
    intros Hho (Hp & i & Hh). eapply rok_load; [done|]. intros u mv V' Hts Hle H1 H2 H3 H4.
    exists (see RTail x u), (PcONext hd u), p. split; [done|]. split; [|kn_tac].
    split; [done|]. exists i, ts. split; [exact (at_head_le _ _ _ _ _ _ H1 Hh)|]. split; [by exists mv|].
    destruct Hh as (mv' & Hh & Hi). pose proof (head_tail _ _ _ _ _ _ _ HI V i HV Hi). simpl in Hle. lia.
  Qed.

  Lemma ok_onext hd tl ts sp addr junk :
    h = holds (PcONext hd tl) ->
    tinv c x w es own t V iv p (PcONext hd tl) -> rok (rtstep (PcONext hd tl) ts sp addr junk).
  Proof using HI Hiv.
    intros Hho (Hp & i & m & Hh & Ht & Him). destruct (head_ent _ _ _ Hh HV) as (e & He & E & Hl).
    destruct (qi_dom _ _ _ _ _ _ _ HI i e He) as [nd Hnd].
    subst hd. unfold RaQueueModel.rtstep. simpl qaccess. cbv match. simpl fst. rewrite Hnd. destruct (nhist nd w (e_n e) !! ts) as [[u mv]|] eqn:Hts; [|done].
    case_decide as Hle; [|done].
    destruct (nload_ok _ _ _ _ _ Hnd Hts Hle) as (H0 & H1 & H2 & H3 & H4).
    apply rok_goes; [done|done|]. simpl. rewrite lookup_insert.
    eexists _, _, p. split; [done|]. split; [|kn_tac]. simpl. split; [done|].
    pose proof Hh as (hv & Hhv & Hi).
    exists i, m, e, ts, mv, hv, (vjoin (vset V (LNext (e_n e)) ts) mv). split; [exact (at_head_le _ _ _ _ _ _ H1 Hh)|].
    split; [exact (at_tail_le _ _ _ _ _ _ H1 Ht)|]. split; [done|]. split; [done|]. split; [lia|]. split; [done|]. split; [done|].
    split.
    { intros e' He' En. destruct (tail_ent _ _ _ Ht HV) as (e2 & He2 & _ & Hl2). rewrite He' in He2. injection He2 as <-.
      rewrite En in Hl2. lia. }
    split; [done|]. split; [|split; [by eapply vle_trans|done]].
    eapply vle_trans; [|exact H1]. eapply okv_head; [apply HV|exact Hi|by eapply hist_view].
  Qed.

  Lemma ok_ocheck hd tl nx ts sp addr junk :
    h = holds (PcOCheck hd tl nx) ->
    tinv c x w es own t V iv p (PcOCheck hd tl nx) -> rok (rtstep (PcOCheck hd tl nx) ts sp addr junk).
  Proof using HI.
    intros Hho (Hp & i & m & e & j & nv & hv & Vr & Hh & Ht & Him & He & Hj & Hn & Hnv & Hdup & Hhv & HVr & HVi & HVn).
    eapply rok_load; [done|]. intros u mv V' Hts Hle H1 H2 H3 H4.
    assert (Hback : goes V' (TGo (see RHead x u) PcOHead)) by (eexists _, _, p; split; [done|]; split; [done|kn_tac]).
    simpl. case_decide as Hd; [|done]. subst u. assert (i = ts) as -> by (by eapply head_num).
    assert (Hm : nv (LRoot 1) <= ts) by (specialize (Hnv (LRoot 1)); simpl in Hle; lia).
    destruct (tail_ent _ _ _ Ht HV) as (em & Hem & Etl & _). destruct (head_ent _ _ _ Hh HV) as (e1 & He1 & Ehd & _).
    rewrite He in He1. injection He1 as <-.
    destruct (ent_head ts e j nx nv He Hn Hj Hm) as [[-> Hnull]|(-> & Hnull & Hls)]; case_decide as Hht.
    - (* empty *)
      rewrite decide_True by done. eexists _, _, (Done Pop (RPop None)). split; [done|]. split; [by eexists|]. split; [|hs].
      pose proof (hist_view _ _ _ _ _ _ Hhv) as Hvv.
      eapply (k_look c w es iv p w es V' ts hv); try done.
      + eapply kn_le; [exact He|]. rewrite <- HVn. apply HVr.
      + eapply kn_le; [exact He|]. rewrite <- HVn. apply HVi.
      + destruct (knows_tail _ _ _ _ _ _ _ HI V' ts H3) as (_ & _ & _ & Hk & _); [|done].
        destruct Hh as (? & _ & Hi). eapply head_tail; [exact HI|done|]. specialize (H1 (LRoot 1)). lia.
      + intros k W Hk HW. eapply okv_head; [by eapply qi_okv| |exact HW].
        pose proof (qi_self _ _ _ _ _ _ _ HI RHead ts hv Hvv) as Hs. simpl in Hs. lia.
    - by rewrite decide_True.
    - rewrite decide_False by done. eexists _, _, p. split; [done|]. split; [|kn_tac]. split; [done|].
      assert (m = ts) as ->.
      { destruct (decide (m = ts)) as [|Hne]; [done|]. exfalso. rewrite Ehd, Etl in Hht. simpl in Hht.
        pose proof (qi_dup _ _ _ _ _ _ _ HI ts m e em ltac:(lia) He Hem Hht) as Hdd.
        specialize (Hdup em Hem (eq_sym Hht)). lia. }
      exists ts. split; [exact (at_tail_le _ _ _ _ _ _ H1 Ht)|]. eapply link_seen_le; [|exact Hls]. by eapply vle_trans.
    - rewrite decide_False by done. eexists _, _, p. split; [done|]. split; [|kn_tac]. split; [done|].
      destruct Hls as (a & e' & v & lv & Ha & He' & En & Hlv & Hlle).
      exists ts, e'. split; [exact (at_head_le _ _ _ _ _ _ H1 Hh)|]. split.
      { exists a, e', v, lv. do 4 (split; [done|]). eapply vle_trans; [exact Hlle|]. by eapply vle_trans. }
      split.
      { assert (ts <> m). { intros <-. apply Hht. rewrite Ehd, Etl. rewrite He in Hem. by injection Hem as <-. }
        destruct Ht as (_ & _ & Hmt). specialize (H1 (LRoot 2)). lia. }
      split; [done|]. split; [simpl; lia|]. done.
  Qed.

  Lemma ok_ocopy hd np acc ts sp addr junk :
    h = holds (PcOCopy hd np acc) ->
    tinv c x w es own t V iv p (PcOCopy hd np acc) -> rok (rtstep (PcOCopy hd np acc) ts sp addr junk).
  Proof using HI Htag.
    intros Hho (Hp & i & e' & Hh & Hls & HiT & He' & Hacc & Hval).
    destruct (link_knows _ _ _ Hls HV) as (Hk & e2 & He2 & En). rewrite He' in He2. injection He2 as <-.
    destruct (qi_dom _ _ _ _ _ _ _ HI _ _ He') as [nd Hnd]. rewrite En in Hnd.
    destruct (decide (length acc < c_words c)) as [Hlt|Hge].
    - (* a word of the element *)
      assert (Ha : qaccess c (PcOCopy hd np acc) = XGet np (length acc)) by (simpl; by rewrite decide_True).
      pose proof (qi_dat _ _ _ _ _ _ _ HI np nd Hnd) as Hdl.
      unfold RaQueueModel.rtstep. rewrite Ha, Hnd. case_decide as Hfr.
      + apply rok_goes; [apply vle_refl|apply HV|]. simpl. rewrite decide_True by done. rewrite Hnd.
        destruct (lookup_lt_is_Some_2 (dat nd) (length acc) ltac:(lia)) as [a Hda]. rewrite Hda.
        eexists _, _, p. split; [done|]. split; [|kn_tac]. split; [done|]. exists i, e'.
        do 4 (split; [done|]). rewrite app_length. simpl. split; [lia|]. intros Hi.
        destruct (qi_in _ _ _ _ _ _ _ HI (S i) e' ltac:(lia) He') as (_ & (nd' & Hnd' & Hd') & _).
        rewrite En, Hnd in Hnd'. injection Hnd' as <-. rewrite Nat.add_1_r, (take_S_r _ _ a); [by rewrite <- Hval|by rewrite <- Hd'].
      + apply rok_goes; [apply vle_refl|apply HV|]. simpl. rewrite decide_True by done. rewrite lookup_insert. simpl.
        rewrite list_lookup_insert by lia.
        eexists _, _, p. split; [done|]. split; [|kn_tac]. split; [done|]. exists i, e'.
        do 4 (split; [done|]). rewrite app_length. simpl. split; [lia|]. intros Hi. exfalso. apply Hfr.
        destruct Hk as (e3 & He3 & _ & _ & _ & _ & Hf). rewrite He' in He3. injection He3 as <-. rewrite <- En. apply Hf. lia.
    - assert (Ha : qaccess c (PcOCopy hd np acc) = XCas RHead hd false) by (simpl; by rewrite decide_False).
      eapply rok_cas; [done| |].
      + intros mv Hts Hlen. pose proof Hh as (mv' & Hm & Hle). assert (i = ts) as -> by (by eapply head_num). clear Hm mv'.
        destruct (head_ent _ _ _ Hh HV) as (e0 & He0 & E & _).
        assert (Ets : ts = length (w_head w)) by (rewrite views_len in Hlen; lia).
        pose proof (hist_view _ _ _ _ _ _ Hts) as Hv. pose proof (qi_okh _ _ _ _ _ _ _ HI RHead ts hd mv Hts) as Hokm.
        pose proof (okv_cas RHead x w V mv ts HV Hokm Hv Hlen (qi_self _ _ _ _ _ _ _ HI RHead ts mv Hv)) as HV'.
        pose proof (cas_le RHead V mv ts w HV Hokm Hlen) as Hle'.
        pose proof (hist_last_inv _ _ _ _ _ _ Hts ltac:(by rewrite hist_length)) as El. simpl in El. injection El as Ehd _.
        set (V' := vset _ _ _) in *.
        assert (HVV' : vle V V') by (eapply vle_trans; [apply vle_join_l|exact Hle']).
        simpl tstep. rewrite decide_False by done. rewrite decide_True by done. simpl rwrite.
        assert (Ex : set_head x (np, next_tag c hd.2) = QSh (q_heap x) (q_pool x) (e_n e', N.of_nat (S (length (w_head w)))) (q_tail x)).
        { unfold set_head. rewrite next_tag_succ by done. rewrite E, En. simpl. do 2 f_equal. lia. }
        assert (Hacc' : acc = e_v e').
        { destruct (qi_in _ _ _ _ _ _ _ HI (S ts) e' ltac:(lia) He') as (_ & (nd' & Hnd' & Hd') & _).
          rewrite Hval by done. apply take_ge. rewrite <- Hd', (qi_dat _ _ _ _ _ _ _ HI _ _ Hnd'). lia. }
        rewrite Ex, E. simpl fst. exists es, (<[e_n e0 := OT t]> own), fn, (Done Pop (RPop (Some acc))).
        split; [|split; [|split; [|split; [|split; [done|apply omove_take; [right; simpl; unfold hist; rewrite app_length; simpl; split; [lia|]; intros e3 He3; rewrite <- Ets in He3; congruence|done|done]]]]]].
        * apply qi_popped with (e := e'); [done|by rewrite <- Ets|by rewrite <- Ets| |done|done| | |].
          -- pose proof (ok_root _ _ HV RTail) as Hr. rewrite views_len in Hr. simpl in Hr. lia.
          -- unfold V'. simpl. by rewrite vset_eq, Ets.
          -- specialize (HVV' (LRoot 2)). lia.
          -- eapply (fresh_le (push_msg RHead x w V') V); [done|done|].
             destruct (qi_in _ _ _ _ _ _ _ HI ts e0 ltac:(lia) He0) as (_ & _ & Hnl).
             rewrite decide_False in Hnl by (apply lookup_lt_Some in He'; lia).
             destruct Hls as (a & a' & v & lv & Ha0 & _ & _ & Hlv & Hlle). rewrite He0 in Ha0. injection Ha0 as <-. split.
             ++ unfold freshn. simpl. pose proof (qi_nself _ _ _ _ _ _ _ HI _ _ _ _ Hlv) as Hs. specialize (Hlle (LNext (e_n e0))).
                pose proof (ok_next _ _ HV (e_n e0)). lia.
             ++ destruct (knows_tail _ _ _ _ _ _ _ HI V ts HV ltac:(lia)) as (e3 & He3 & _ & _ & _ & _ & Hf).
                rewrite He0 in He3. injection He3 as <-. apply Hf. lia.
        * assert (HoQ : own !! e_n e0 = Some OQ) by (apply (qi_in _ _ _ _ _ _ _ HI ts e0 ltac:(lia) He0)).
          split; try done.
          -- intros k j m Hj. destruct k; [done| |done]. by apply (lookup_app_l_Some (hist RHead x w)).
          -- exists []. by rewrite app_nil_r.
          -- simpl. unfold hist. rewrite app_length. lia.
          -- intros u k Hu Hk'. split; [|done]. by rewrite lookup_insert_ne by congruence.
          -- split; [simpl; lia|]. intros _ k Hk'. split; [|done]. by rewrite lookup_insert_ne by congruence.
        * simpl. rewrite lookup_insert. eauto.
        * eapply k_pop; [done|done| | | |].
          -- exact (views_push RHead x w V' RHead).
          -- rewrite <- Hlen, list_lookup_fmap, He'. simpl. by rewrite Hacc'.
          -- rewrite <- Hlen. destruct Hk as (_ & _ & _ & Hk & _). pose proof (kn_mono es V V' HVV'). lia.
          -- intros k e3 Hk' He3. destruct (knows_tail _ _ _ _ _ _ _ HI V k HV ltac:(lia)) as (e4 & He4 & _ & _ & _ & Hpv & _).
             rewrite He3 in He4. injection He4 as <-. by eapply vle_trans.
      + intros u mv V' Hts _ H1 H2 H3. simpl. rewrite decide_False by done.
        eexists _, _, p. split; [done|]. split; [done|kn_tac].
  Qed.

  (** ** empty *)

  Lemma ok_empty pc ts sp addr junk :
    match pc with PcEHead | PcETail | PcEHeadTail _ | PcETailHead _ => True | _ => False end ->
    h = holds pc ->
    tinv c x w es own t V iv p pc -> rok (rtstep pc ts sp addr junk).
  Proof using HI.
    intros Hpc Hh HT. destruct pc; try done; (eapply rok_load; [done|]); intros u mv V' Hts Hle H1 H2 H3 H4; simpl.
    - eexists _, _, p. split; [done|]. split; [done|kn_tac].
    - eexists _, _, (Done Empty (RBool _)). split; [done|]. split; [by eexists|]. split; [|by left]. apply k_neutral; try done. intros a. constructor.
    - eexists _, _, p. split; [done|]. split; [done|kn_tac].
    - eexists _, _, (Done Empty (RBool _)). split; [done|]. split; [by eexists|]. split; [|by left]. apply k_neutral; try done. intros a. constructor.
  Qed.

  (** ** All steps *)

  Lemma rtstep_ok pc ts sp addr junk :
    (forall r, pc <> PcRet r) ->
    h = holds pc ->
    tinv c x w es own t V iv p pc -> rok (rtstep pc ts sp addr junk).
  Proof using HI Htag Hiv.
    intros Hpc Hh HT. destruct pc.
    - by apply ok_alloc.
    - by apply ok_word.
    - by apply ok_nstore.
    - by apply ok_ptail.
    - by apply ok_pnext.
    - by apply ok_pcheck.
    - by apply ok_plink.
    - by apply ok_pdone.
    - by apply ok_pswing.
    - by apply ok_ohead.
    - by apply ok_otail.
    - by apply ok_onext.
    - by apply ok_ocheck.
    - by apply ok_oswing.
    - by apply ok_ocopy.
    - by apply ok_dealloc.
    - by apply ok_reserve.
    - by apply ok_empty.
    - by apply ok_empty.
    - by apply ok_empty.
    - by apply ok_empty.
    - by destruct (Hpc r).
  Qed.
End ok.
