(** * The queue on release/acquire memory: every execution satisfies the invariant *)
From stdpp Require Import gmap list numbers.
From Verif Require Import Lin PoolModel Chain PoolProofs QueueModel QueueObs RaMem RaFacts RaLog RaQueueSpec RaQueueModel
  RaQueueLog RaQueueInv RaQueueKeep RaQueueStep RaQueueOk.

Set Default Proof Using "Type".

(** ** Where the views come from *)

Lemma made_two (P : view -> Prop) (V mv V' : view) :
  P V -> P mv -> vle V V' -> vle mv V' -> (forall t, V' (LClk t) = V (LClk t) `max` mv (LClk t)) -> made P V'.
Proof.
  intros H1 H2 H3 H4 E t. destruct (decide (mv (LClk t) <= V (LClk t))) as [Hle|Hgt].
  - exists V. split; [done|]. split; [done|]. rewrite E. lia.
  - exists mv. split; [done|]. split; [done|]. rewrite E. lia.
Qed.
Lemma made_one (P : view -> Prop) (V V' : view) :
  P V -> vle V V' -> (forall t, V' (LClk t) = V (LClk t)) -> made P V'.
Proof. intros H1 H2 E t. exists V. done. Qed.

Definition grown (w w' : wmem) : Prop :=
  (forall i, views i w `prefix_of` views i w') /\ (forall n, length (w_next w n) <= length (w_next w' n)) /\
  (forall n, w_acc w n <= w_acc w' n).
Lemma grown_refl w : grown w w.
Proof. split; [done|]. split; intros; lia. Qed.

(** The views in the memory after a step. *)
Definition news (w w' : wmem) (V : view) : Prop :=
  (forall i A, A ∈ views i w' -> A = V \/ A ∈ views i w) /\ (forall n A, A ∈ nviews w' n -> A = V \/ A ∈ nviews w n).
Lemma news_refl w V : news w w V.
Proof. split; auto. Qed.

Lemma news_push i x w V : news w (push_msg i x w V) V /\ grown w (push_msg i x w V).
Proof.
  split; split.
  - intros j A. rewrite views_push. case_decide; [subst|auto]. rewrite elem_of_app, elem_of_list_singleton. tauto.
  - intros n A. by destruct i; right.
  - intros j. rewrite views_push. case_decide; [subst; by eexists|done].
  - by destruct i.
Qed.
Lemma news_next nd w n V : news w (push_next nd w n V) V /\ grown w (push_next nd w n V).
Proof.
  split; split.
  - intros j A. by destruct j; right.
  - intros m A. unfold nviews. simpl. destruct (decide (m = n)) as [->|Hm].
    + rewrite !fupd_eq. unfold nhist. rewrite fmap_app. simpl.
      rewrite (elem_of_app (_ ++ _)), elem_of_list_singleton. tauto.
    + rewrite !fupd_ne by done. auto.
  - intros j. by destruct j.
  - split; [|done]. intros m. simpl. destruct (decide (m = n)) as [->|Hm]; [|by rewrite fupd_ne].
    rewrite fupd_eq. unfold nhist. rewrite app_length. simpl. lia.
Qed.
Lemma news_acc w n V : news w (push_acc w n) V /\ grown w (push_acc w n).
Proof.
  split; split.
  - intros j A. by destruct j; right.
  - by right.
  - intros j. by destruct j.
  - split; [done|]. intros m. simpl. destruct (decide (m = n)) as [->|Hm]; [|by rewrite fupd_ne].
    rewrite fupd_eq. lia.
Qed.

Section made.
  Context (w : wmem) (V : view).
  Definition src (A : view) : Prop := A = V \/ (exists i, A ∈ views i w) \/ (exists n, A ∈ nviews w n).

  Lemma made_id : made src V.
  Proof. apply (made_one _ V); [by left|apply vle_refl|done]. Qed.
  Lemma made_vset l k : (forall t, l <> LClk t) -> V l <= k -> made src (vset V l k).
  Proof.
    intros Hl Hk. apply (made_one _ V); [by left|by apply vle_vset|]. intros t. rewrite vset_ne; [done|]. intros E. by apply (Hl t).
  Qed.
  Lemma made_load l k mv : (forall t, l <> LClk t) -> V l <= k -> src mv -> made src (vjoin (vset V l k) mv).
  Proof.
    intros Hl Hk Hm. apply (made_two _ V mv); [by left|done| | |].
    - eapply vle_trans; [by apply vle_vset|apply vle_join_l].
    - apply vle_join_r.
    - intros t. unfold vjoin. rewrite vset_ne; [done|]. intros E. by apply (Hl t).
  Qed.
  Lemma made_cas l k mv : (forall t, l <> LClk t) -> V l <= k -> mv l <= k -> src mv -> made src (vset (vjoin V mv) l k).
  Proof.
    intros Hl Hk Hk' Hm.
    assert (Hle : vle (vjoin V mv) (vset (vjoin V mv) l k)) by (apply vle_vset; unfold vjoin; lia).
    apply (made_two _ V mv); [by left|done| | |].
    - eapply vle_trans; [apply vle_join_l|exact Hle].
    - eapply vle_trans; [apply vle_join_r|exact Hle].
    - intros t. rewrite vset_ne; [done|]. intros E. by apply (Hl t).
  Qed.
End made.

Lemma nhist_views nd w n ts (v : tagged) (mv : view) : nhist nd w n !! ts = Some (v, mv) -> mv ∈ nviews w n.
Proof.
  intros H. apply elem_of_list_lookup_2 in H. unfold nhist in H. unfold nviews. apply elem_of_app in H as [H|H].
  - apply elem_of_app. left. apply elem_of_list_fmap. by exists (v, mv).
  - apply elem_of_list_singleton in H. injection H as _ ->. apply elem_of_app. right. left.
Qed.

Lemma rtstep_made c x w V pc ts sp addr junk x' w' V' pc' :
  okv w V -> (forall i mv, mv ∈ views i w -> okv w mv) -> (forall n mv, mv ∈ nviews w n -> okv w mv) ->
  rtstep c true x w V pc ts sp addr junk = RGo x' w' V' pc' ->
  made (src w V) V' /\ news w w' V' /\ grown w w'.
Proof.
  intros HV Hv Hn. assert (Hr : forall i t, rloc i <> LClk t) by (by intros []).
  assert (Hid : made (src w V) V /\ news w w V /\ grown w w) by (split; [apply made_id|split; [apply news_refl|apply grown_refl]]).
  assert (Hld : forall U, made (src w V) U -> made (src w V) U /\ news w w U /\ grown w w).
  { intros U HU. split; [done|]. split; [apply news_refl|apply grown_refl]. }
  assert (Hv0 : forall U : view, made (src w V) U -> made (src w V) (vjoin U v0)).
  { intros U HU t. destruct (HU t) as (A & HA & H1 & H2). exists A. split; [done|].
    split; [intros l; rewrite vjoin_v0; apply H1|by rewrite vjoin_v0]. }
  unfold rtstep. destruct (qaccess c pc) as [|i|i old strong|n a|n old|n|n|n|n|n k].
  - unfold rwrite. destruct (tstep c x pc sp addr false); intros [= <- <- <- <-]. done.
  - destruct (hist i x w !! ts) as [[v mv]|] eqn:Hh; [|done]. case_decide; [|done].
    unfold rread. destruct (tstep c (see i x v) pc sp addr false); intros [= <- <- <- <-].
    apply Hld. apply made_load; [done|done|]. right. left. exists i. eapply views_in. by eapply hist_view.
  - destruct (hist i x w !! ts) as [[v mv]|] eqn:Hh; [|done]. apply hist_view in Hh. apply views_in in Hh as Hin.
    assert (Hs : src w V mv) by (right; left; eauto).
    case_decide; [|done]. case_decide as Hc.
    + unfold rwrite. destruct (tstep c x pc false addr false); intros [= <- <- <- <-].
      split; [|apply news_push]. apply made_cas; [done|lia| |done].
      pose proof (ok_root _ _ (Hv _ _ Hin) i) as Hlt. destruct Hc as [Hl _]. rewrite hist_length in Hl. lia.
    + case_decide; [done|]. unfold rread. destruct (tstep c (see i x v) pc true addr false); intros [= <- <- <- <-].
      apply Hld. by apply made_load.
  - destruct (q_heap x !! n) as [nd|]; [|done]. destruct (nhist nd w n !! ts) as [[v mv]|] eqn:Hh; [|done].
    case_decide; [|done]. unfold rread.
    destruct (tstep c (see_next x n v nd) pc sp addr false); intros [= <- <- <- <-]. apply Hld.
    destruct a; [|by apply Hv0, made_vset]. apply made_load; [done|done|]. right. right. exists n. by eapply nhist_views.
  - destruct (q_heap x !! n) as [nd|]; [|done]. destruct (nhist nd w n !! ts) as [[v mv]|] eqn:Hh; [|done].
    apply nhist_views in Hh as Hin. assert (Hs : src w V mv) by (right; right; eauto).
    case_decide; [|done]. case_decide as Hc.
    + unfold rwrite. destruct (tstep c x pc false addr false); intros [= <- <- <- <-].
      split; [|apply news_next]. apply made_cas; [done|lia| |done].
      pose proof (ok_next _ _ (Hn _ _ Hin) n) as Hlt. destruct Hc as [Hl _]. unfold nhist in Hl. rewrite app_length in Hl.
      simpl in Hl. lia.
    + unfold rread. destruct (tstep c (see_next x n v nd) pc true addr false); intros [= <- <- <- <-].
      apply Hld. by apply made_load.
  - unfold rstore. destruct (q_heap x !! n) as [nd|]; [|done]. case_decide; [|done]. unfold rwrite.
    destruct (tstep c x pc sp addr false); intros [= <- <- <- <-]. split; [|apply news_next]. apply made_vset; [done|lia].
  - destruct (q_heap x !! n) as [nd|]; [|done]. case_decide; unfold rread;
      destruct (tstep c _ pc sp addr false); intros [= <- <- <- <-]; done.
  - unfold rstore. destruct (q_heap x !! n) as [nd|]; [|done]. case_decide; [|done]. unfold rwrite.
    destruct (tstep c x pc sp addr false); intros [= <- <- <- <-]. split; [|apply news_next]. apply made_vset; [done|lia].
  - case_decide; [|done]. unfold rwrite.
    destruct (tstep c x pc sp addr false); intros [= <- <- <- <-]. split; [|apply news_acc]. apply made_vset; [done|lia].
  - destruct (q_heap x !! n) as [nd|]; [|done]. case_decide; unfold rread;
      destruct (tstep c _ pc sp addr false); intros [= <- <- <- <-]; done.
Qed.

Section safe.
  Context (c : cfg) (Htag : c_tagmod c = None).
  Notation null := (c_null c).
  Notation nb := (c_node_based c).
  Notation QI := (QI c).
  Notation tinv := (tinv c).
  Notation rstep := (rstep c true).

  Record ghost := Gh {
    g_es : list ent;
    g_own : gmap N owner;
    g_fn : list N;
    g_ph : gmap nat (phase qop qret);
    g_cur : gmap nat nat;
    g_l : list item;
  }.

  Definition live (s : rstate) (tr : list vevent) (A : view) : Prop :=
    (exists u, A = r_view s u) \/ (exists i, A ∈ views i (r_w s)) \/ (exists n, A ∈ nviews (r_w s) n) \/
    (exists p e, tr !! p = Some (e, A)).

  Definition thread (s : rstate) (tr : list vevent) (g : ghost) (t : nat) (pc : qpc) : Prop :=
    exists i o (iv : view) p, g_cur g !! t = Some i /\ tr !! i = Some (Inv t o, iv) /\ g_ph g !! t = Some p /\
      tinv (r_x s) (r_w s) (g_es g) (g_own g) t (r_view s t) iv p pc.

  Record RInv (s : rstate) (tr : list vevent) (g : ghost) : Prop := {
    in_q : QI (r_x s) (r_w s) (g_es g) (g_own g) (g_fn g) (r_view s);
    in_t : forall t, match r_pcs s !! t with None => g_ph g !! t = None | Some pc => thread s tr g t pc end;
    in_l : QL nb tr (g_ph g) (g_cur g) (g_l g) (e_v <$> g_es g) (e_pv <$> g_es g) (views RHead (r_w s)) (kn (g_es g)) (r_view s);
    in_c : CK tr (live s tr) (r_view s);
    in_e : forall p e V, tr !! p = Some (e, V) -> okv (r_w s) V;
    in_m : qcov (r_w s) (g_es g) (g_own g);
    in_k : forall n, g_own g !! n <> Some OL;
    in_o : forall t n, g_own g !! n = Some (OT t) -> exists pc, r_pcs s !! t = Some pc /\ holds pc = Some n;
  }.

  Lemma live_event s tr t e V pcs W :
    live (RSt (r_x s) (r_w s) pcs (set_view (r_view s) t V)) (tr ++ [(e, V)]) W -> live s tr W \/ W = V.
  Proof.
    intros [[u ->]|[H|[H|(p & e' & Hp)]]].
    - simpl. unfold set_view. case_decide; [by right|]. left. left. eauto.
    - left. right. by left.
    - left. right. right. by left.
    - apply lookup_snoc_inv in Hp as [Hp|[_ Hp]]; [left; right; right; right; eauto|right; congruence].
  Qed.

  Lemma start_ok x w es own t V iv o tf pc :
    qstart c o tf = Some pc -> tinv x w es own t V iv (Pending o) pc.
  Proof.
    destruct o as [b v| | |n|v| |n]; simpl; try done.
    - destruct (decide _) as [Hl|]; [|done]. intros [= <-]. done.
    - by intros [= <-].
    - destruct tf; by intros [= <-].
    - destruct (c_node_based c); [|done]. intros [= <-]. by exists n.
  Qed.

  Lemma rstep_ok s tr g ch :
    RInv s tr g ->
    match rstep s ch with
    | RRace | RUB => False
    | RDisabled => True
    | RNext s' evs => exists g', RInv s' (tr ++ evs) g'
    end.
  Proof using Htag.
    intros [HQ HT HL HC HE HM HK HO]. destruct g as [es own fn ph cur l]. simpl in *.
    destruct ch as [t o tf|t ts sp addr junk|t u]; simpl.
    - (* call *)
      pose proof (HT t) as Ht. destruct (r_pcs s !! t) as [pc|] eqn:Hpc; [done|].
      destruct (qstart c o tf) as [pc|] eqn:Hs; [|done].
      set (V := tick t (r_view s t)).
      assert (Hle : vle (r_view s t) V) by apply vle_tick.
      assert (HV : okv (r_w s) V) by (apply okv_tick, HQ).
      exists (Gh es own fn (<[t := Pending o]> ph) (<[t := length tr]> cur) l). split; simpl.
      + by apply qi_set_view.
      + intros u. destruct (decide (t = u)) as [<-|Hne].
        * rewrite lookup_insert. exists (length tr), o, V, (Pending o). simpl. rewrite !lookup_insert.
          split; [done|]. split; [apply lookup_snoc_last|]. split; [done|]. by eapply start_ok.
        * rewrite !lookup_insert_ne by done. pose proof (HT u) as Hu.
          destruct (r_pcs s !! u) as [pc'|]; [|done]. destruct Hu as (i & o' & iv & p & H1 & H2 & H3 & H4).
          exists i, o', iv, p. simpl. rewrite !lookup_insert_ne by done. split; [done|].
          split; [by apply lookup_app_l_Some|]. split; [done|]. by rewrite set_view_ne.
      + by apply ql_inv.
      + apply (ck_event tr (live s tr)); [done|done| | |].
        * intros W HW. by eapply live_event.
        * intros u. left. by exists u.
        * intros p e' W Hp. do 3 right. eauto.
      + intros p e W Hp. apply lookup_snoc_inv in Hp as [Hp|[_ Hp]]; [by eapply HE|]. by injection Hp as _ ->.
      + done.
      + done.
      + intros u n Hn. destruct (HO u n Hn) as (pc' & Hu & Hh). exists pc'. split; [|done].
        rewrite lookup_insert_ne; [done|]. intros <-. congruence.
    - (* step *)
      pose proof (HT t) as Ht. destruct (r_pcs s !! t) as [pc|] eqn:Hpc; [|done].
      assert (Hret : forall r, pc = PcRet r -> exists g',
        RInv (RSt (r_x s) (r_w s) (delete t (r_pcs s)) (set_view (r_view s) t (tick t (r_view s t))))
             (tr ++ [(Res t r, tick t (r_view s t))]) g').
      { intros r ->. set (V := tick t (r_view s t)).
        assert (Hle : vle (r_view s t) V) by apply vle_tick.
        assert (HV : okv (r_w s) V) by (apply okv_tick, HQ).
        destruct Ht as (i & o & iv & p & H1 & H2 & H3 & [o' ->]).
        exists (Gh es own fn (delete t ph) (delete t cur) l). split; simpl.
        + by apply qi_set_view.
        + intros u. destruct (decide (t = u)) as [<-|Hne].
          * by rewrite !lookup_delete.
          * rewrite !lookup_delete_ne by done. pose proof (HT u) as Hu.
            destruct (r_pcs s !! u) as [pc'|]; [|done]. destruct Hu as (i' & o0 & iv' & p & H1' & H2' & H3' & H4').
            exists i', o0, iv', p. simpl. rewrite !lookup_delete_ne by done. split; [done|].
            split; [by apply lookup_app_l_Some|]. split; [done|]. by rewrite set_view_ne.
        + by eapply ql_res.
        + apply (ck_event tr (live s tr)); [done|done| | |].
          * intros W HW. by eapply live_event.
          * intros u. left. by exists u.
          * intros p e' W Hp. do 3 right. eauto.
        + intros p e W Hp. apply lookup_snoc_inv in Hp as [Hp|[_ Hp]]; [by eapply HE|]. by injection Hp as _ ->.
        + done.
        + done.
        + intros u n Hn. destruct (HO u n Hn) as (pc' & Hu & Hh). exists pc'. split; [|done].
          rewrite lookup_delete_ne; [done|]. intros <-. rewrite Hpc in Hu. by injection Hu as <-. }
      assert (Hgo : (forall r, pc <> PcRet r) ->
        match rtstep c true (r_x s) (r_w s) (r_view s t) pc ts sp addr junk with
        | RGo x w V pc' => exists g',
            RInv (RSt x w (<[t := pc']> (r_pcs s)) (set_view (r_view s) t V)) (tr ++ []) g'
        | RGRace | RGUB => False
        | RGDisabled => True
        end).
      { intros Hnr. destruct Ht as (i & o & iv & p & H1 & H2 & H3 & H4). simpl in *.
        assert (Hiv : vle iv (r_view s t)).
        { destruct (ql_cur _ _ _ _ _ _ _ _ _ _ HL t i H1) as (o' & V0 & Hi & Hv & _). rewrite H2 in Hi. by injection Hi as _ <-. }
        pose proof (rtstep_ok c Htag t _ _ _ _ _ _ _ _ _ HQ Hiv pc ts sp addr junk Hnr eq_refl H4) as Hok.
        destruct (rtstep c true (r_x s) (r_w s) (r_view s t) pc ts sp addr junk) as [x' w' V' pc'| | |] eqn:Hst;
          [|done|done|done].
        destruct Hok as (es' & own' & fn' & p' & HQ' & HA & HT' & HKd & Hle & (Hm1 & Hm2 & Hm3 & Hm4)).
        destruct (rtstep_made _ _ _ _ _ _ _ _ _ _ _ _ _
          (qi_vw _ _ _ _ _ _ _ HQ t) (qi_views _ _ _ _ _ _ _ HQ) (qi_nviews _ _ _ _ _ _ _ HQ) Hst) as (Hm & [Hn1 Hn2] & (Hg1 & Hg2 & Hg3)).
        assert (Hrest : (exists l', QL nb tr (<[t := p']> ph) cur l' (e_v <$> es') (e_pv <$> es') (views RHead w') (kn es')
          (set_view (r_view s) t V')) ->
          exists g', RInv (RSt x' w' (<[t := pc']> (r_pcs s)) (set_view (r_view s) t V')) (tr ++ []) g').
        { intros [l' HL']. rewrite app_nil_r. exists (Gh es' own' fn' (<[t := p']> ph) cur l'). split; simpl.
          - done.
          - intros u. destruct (decide (t = u)) as [<-|Hne].
            + rewrite lookup_insert. exists i, o, iv, p'. simpl. rewrite lookup_insert, set_view_eq. done.
            + rewrite !lookup_insert_ne by done. pose proof (HT u) as Hu.
              destruct (r_pcs s !! u) as [pc0|]; [|done]. destruct Hu as (i' & o0 & iv' & p0 & H1' & H2' & H3' & H4').
              exists i', o0, iv', p0. simpl. rewrite lookup_insert_ne by done. do 3 (split; [done|]).
              rewrite set_view_ne by done. eapply (tinv_adv c t); [exact HQ|exact HA|congruence|exact H4'].
          - done.
          - apply (ck_made tr (live s tr)); [done| |done| | |].
            + intros u. destruct (Hm u) as (A & HA' & Hx1 & Hx2). exists A. split; [|done].
              destruct HA' as [->|[Hi|Hi]]; [left; eauto|right; by left|right; right; by left].
            + intros W [[u ->]|[[j Hi]|[[n Hi]|(q & e' & Hp)]]].
              * simpl. unfold set_view. case_decide; [by right|]. left. left. eauto.
              * simpl in Hi. destruct (Hn1 _ _ Hi) as [->|Hi']; [by right|]. left. right. left. eauto.
              * simpl in Hi. destruct (Hn2 _ _ Hi) as [->|Hi']; [by right|]. left. right. right. left. eauto.
              * left. do 3 right. eauto.
            + intros u. left. by exists u.
            + intros q e' W Hp. do 3 right. eauto.
          - intros q e W Hp. eapply okv_ext; [by eapply HE|done|done|done].
          - by apply Hm4.
          - by apply Hm2.
          - intros u n Hn. destruct (decide (t = u)) as [<-|Hne].
            + rewrite lookup_insert. exists pc'. split; [done|]. apply Hm3; [|done].
              intros m Hm'. destruct (HO t m Hm') as (pc0 & Hu & Hh). rewrite Hpc in Hu. by injection Hu as <-.
            + rewrite lookup_insert_ne by done. apply HO. by apply Hm1. }
        apply Hrest. pose proof (ql_view _ _ _ _ _ _ _ _ _ _ t V' HL Hle) as HLv.
        assert (Hpend : forall o', p = Pending o' -> tr !! i = Some (Inv t o', iv)).
        { intros o' ->. destruct (ql_pending _ _ _ _ _ _ _ _ _ _ t o' HL H3) as (i' & V0 & Hc' & Hi' & _).
          rewrite H1 in Hc'. injection Hc' as <-. rewrite H2 in Hi'. injection Hi' as <- <-. done. }
        destruct HKd as [E1 E2|o' r Hp Hne E1 E2|b v n k Hp E1 E2 E3|v Hp E1 E2 E3 E4 E5|k mv Hp E1 E2 E3 E4 E5 E6 E7].
        - rewrite E1, E2. rewrite insert_id by done. eauto.
        - pose proof (kn_lt _ _ _ _ _ _ _ HQ' _ (qi_vw _ _ _ _ _ _ _ HQ' t)) as Hlt.
          rewrite E1, E2 in *. subst p. eapply ql_neutral; [done|done|done|]. by rewrite fmap_length.
        - rewrite E2. subst p. rewrite E1, !fmap_app. simpl. rewrite <- E1.
          pose proof (HE _ _ _ H2) as Hok.
          assert (Hkv : QL nb tr ph cur l (e_v <$> es) (e_pv <$> es) (views RHead (r_w s)) (kn es') (set_view (r_view s) t V')).
          { eapply ql_kv; [exact HLv| | | |].
            - intros A B. apply kn_mono.
            - intros q e W Hq. rewrite E1. eapply kn_old; [exact HQ|by eapply HE].
            - intros A HA'. rewrite E1. eapply kn_old; [exact HQ|]. by eapply (qi_views _ _ _ _ _ _ _ HQ).
            - intros u. rewrite E1. apply kn_app. }
          pose proof (kn_lt _ _ _ _ _ _ _ HQ iv Hok) as Hlt.
          eapply (ql_push _ _ _ _ _ _ _ _ _ _ t b v i iv (length es - 1)); [exact Hkv|done|done|by apply Hpend| | |].
          + rewrite fmap_length. lia.
          + rewrite E1, (kn_old _ _ _ _ _ _ _ HQ _ _ Hok). lia.
          + rewrite set_view_eq. lia.
        - rewrite E1, E2. subst p. rewrite views_len in E3, E4, E5.
          eapply (ql_pop _ _ _ _ _ _ _ _ _ _ t v i iv V' (length (w_head (r_w s)))); [exact HLv|done|done|by apply Hpend| |done| | |].
          + by rewrite views_len.
          + by eapply vle_trans.
          + by rewrite set_view_eq.
          + intros j W Hj HW. rewrite set_view_eq. rewrite list_lookup_fmap in HW.
            destruct (es !! j) as [e|] eqn:He; [|done]. injection HW as <-. by eapply E5.
        - rewrite E1, E2. subst p.
          eapply (ql_look _ _ _ _ _ _ _ _ _ _ t i iv mv k); [exact HLv|done|done|by apply Hpend|done|done|done| |done].
          by rewrite set_view_eq. }
      destruct pc; try (specialize (Hgo ltac:(done));
        destruct (rtstep c true (r_x s) (r_w s) (r_view s t) _ ts sp addr junk); exact Hgo).
      by apply Hret.
    - (* synchronization outside the queue *)
      set (V := vjoin (r_view s u) (r_view s t)).
      assert (Hle : vle (r_view s u) V) by apply vle_join_l.
      assert (HV : okv (r_w s) V) by (apply okv_join; apply HQ).
      exists (Gh es own fn ph cur l). rewrite app_nil_r. split; simpl.
      + by apply qi_set_view.
      + intros t'. pose proof (HT t') as Ht'. destruct (r_pcs s !! t') as [pc|]; [|done].
        destruct Ht' as (i & o & iv & p & H1 & H2 & H3 & H4). exists i, o, iv, p. simpl. do 3 (split; [done|]).
        destruct (decide (t' = u)) as [->|Hne]; [|by rewrite set_view_ne].
        rewrite set_view_eq. by eapply tinv_le.
      + by apply ql_view.
      + apply (ck_made tr (live s tr)); [done| |done| | |].
        * apply (made_two _ (r_view s u) (r_view s t)); [left; eauto|left; eauto|done|apply vle_join_r|done].
        * intros W [[v ->]|Hi].
          -- simpl. unfold set_view. case_decide; [by right|]. left. left. eauto.
          -- left. by right.
        * intros v. left. by exists v.
        * intros p e' W Hp. do 3 right. eauto.
      + done.
      + done.
      + done.
      + done.
  Qed.

  (** ** Initial state *)

  Lemma okv_init : okv (WMem [] v0 [] v0 [] v0 (fun _ => []) (fun _ => v0) (fun _ => 0)) v0.
  Proof.
    split; simpl.
    - intros []; simpl; unfold v0; lia.
    - intros i j mv Hj Hv. unfold v0 in Hj. assert (j = 0) as -> by lia.
      destruct i; simpl in Hv; injection Hv as <-; apply vle_refl.
    - intros n. unfold v0. lia.
    - intros n. unfold v0. lia.
  Qed.

  Lemma rinit_mk h p own fn n nd :
    PI c h p own fn -> own !! n = Some (OT 0) ->
    (forall m, own !! m = Some OF \/ own !! m = None \/ m = n) -> h !! n = Some nd ->
    (forall n nd, h !! n = Some nd -> length (dat nd) = c_words c) ->
    exists g, RInv (RSt (QSh (<[n := Node (null, 0%N) (dat nd)]> h) p (n, 0%N) (n, 0%N))
      (WMem [] v0 [] v0 [] v0 (fun _ => []) (fun _ => v0) (fun _ => 0)) ∅ (fun _ => v0)) [] g.
  Proof.
    intros HP Hon Hq Hn Hl. set (x := QSh _ _ _ _). set (w := WMem _ _ _ _ _ _ _ _ _).
    exists (Gh [Ent n 0 (dat nd) v0] (<[n := OQ]> own) fn ∅ ∅ []).
    assert (Hokv : okv w v0) by apply okv_init.
    assert (Hone : forall i e, [Ent n 0 (dat nd) v0] !! i = Some e -> i = 0 /\ e = Ent n 0 (dat nd) v0).
    { intros i e He. destruct i as [|i]; [|by destruct i]. by injection He as <-. }
    assert (HP' : PI c (q_heap x) (q_pool x) (<[n := OQ]> own) fn).
    { eapply (PI_own _ _ _ _ _ _ (OT 0)); [done|done| |done]. eapply (PI_write _ _ _ _ _ _ (OT 0)); done. }
    assert (Hown : forall m o, <[n := OQ]> own !! m = Some o -> (m = n /\ o = OQ) \/ (m <> n /\ o = OF)).
    { intros m o Hm. destruct (decide (n = m)) as [->|Hne].
      - rewrite lookup_insert in Hm. injection Hm as <-. by left.
      - rewrite lookup_insert_ne in Hm by done. right. split; [done|]. destruct (Hq m) as [?|[?|?]]; congruence. }
    assert (Hnh : forall m j a, nh x w m !! j = Some a -> exists nd', q_heap x !! m = Some nd' /\ j = 0 /\ a = (nx nd', v0)).
    { intros m j a Hj. destruct (nh_dom _ _ _ _ _ Hj) as [nd' Hnd']. exists nd'. split; [done|].
      rewrite (nh_Some _ _ _ _ Hnd') in Hj. destruct j as [|j]; [by injection Hj as <-|by destruct j]. }
    assert (Hhn : nh x w n = [((null, 0%N), v0)]).
    { unfold nh, x. simpl. by rewrite lookup_insert. }
    split; simpl.
    - split.
      + done.
      + intros m ndm. simpl. destruct (decide (n = m)) as [->|Hm].
        * rewrite lookup_insert. intros [= <-]. simpl. by eapply Hl.
        * rewrite lookup_insert_ne by done. apply Hl.
      + simpl. lia.
      + intros i v mv Hi. destruct i as [|i]; [|by destruct i]. injection Hi as <- <-. by eexists.
      + intros i v mv Hi. destruct i as [|i]; [|by destruct i]. injection Hi as <- <-.
        eexists. split; [done|]. split; [done|]. eexists. split; [done|]. simpl. unfold v0. split; [lia|]. split; [lia|].
        split; [lia|]. split; [intros ?; lia|]. done.
      + intros i j mv Hj. destruct i, j as [|j]; simpl in Hj; try (by injection Hj as <-); by destruct j.
      + intros i e He. destruct (Hone i e He) as [-> ->]. simpl. rewrite Hhn. by eexists _, _.
      + intros i e e' He He'. destruct (Hone _ _ He') as [? _]. done.
      + intros i e _ He. destruct (Hone _ _ He) as [-> ->]. simpl. rewrite !lookup_insert. split; [done|]. split; [|done].
        by eexists.
      + intros i j e e' Hij He He'. destruct (Hone _ _ He) as [-> _]. destruct (Hone _ _ He') as [-> _]. lia.
      + intros m i j v v' mv mv' _ Hi Hj. destruct (Hnh _ _ _ Hi) as (a & Ha & _ & E). destruct (Hnh _ _ _ Hj) as (b & Hb & _ & E').
        rewrite Ha in Hb. simplify_eq. done.
      + intros m j v mv Hj. destruct (Hnh _ _ _ Hj) as (a & Ha & -> & E). by simplify_eq.
      + intros i e j v mv _ Hj Hlt. destruct (Hnh _ _ _ Hj) as (a & Ha & -> & E). lia.
      + intros t m Hm. destruct (Hown _ _ Hm) as [[_ ?]|[_ ?]]; done.
      + intros m Hm. destruct (Hown _ _ Hm) as [[_ ?]|[Hne _]]; [done|]. split; [done|].
        intros i e He En. destruct (Hone _ _ He) as [_ ->]. by simpl in En.
      + intros v mv Hv. apply elem_of_list_singleton in Hv. simplify_eq.
        destruct (ainv_load c _ _ _ _ HP') as (A1 & A2 & A3). split; [done|]. split; [done|].
        intros Ht Hnn. split; [by apply A3|done].
      + done.
      + intros i mv Hm. destruct i; simpl in Hm; apply elem_of_list_singleton in Hm; by subst mv.
      + intros m mv Hm. unfold nviews in Hm. simpl in Hm. apply elem_of_list_singleton in Hm. by subst mv.
      + done.
    - intros t. by rewrite !lookup_empty.
    - split; simpl; try done.
      + exists 0, 0. done.
      + constructor.
      + intros V W. apply (kn_mono [Ent n 0 (dat nd) v0]).
      + intros it Hin. by apply elem_of_nil in Hin.
      + intros t [? Hc]. by rewrite lookup_empty in Hc.
      + intros i j t o r (Hc & _). done.
      + intros x0 y j t o r Hx. by apply elem_of_nil in Hx.
      + intros x0 y j t o r Hb. by apply before_in, proj1, elem_of_nil in Hb.
    - split; simpl; try done.
      + intros W t [[u ->]|[[i Hi]|[[m Hi]|(q & e & Hp)]]]; [done| | |done].
        * destruct i; simpl in Hi; apply elem_of_list_singleton in Hi; by subst W.
        * unfold nviews in Hi. simpl in Hi. apply elem_of_list_singleton in Hi. by subst W.
      + intros t. left. by exists t.
    - done.
    - intros m Hm. destruct (Hown _ _ Hm) as [[-> _]|[_ ?]]; [|done]. exists 0. eexists. split; [simpl; lia|]. done.
    - intros m Hm. destruct (Hown _ _ Hm) as [[_ ?]|[_ ?]]; done.
    - intros t m Hm. destruct (Hown _ _ Hm) as [[_ ?]|[_ ?]]; done.
  Qed.

  Lemma rinit_ok ns addr s :
    NoDup ns -> null ∉ ns -> (ns <> [] \/ c_node_based c = true) ->
    rinit c ns addr = Some s -> exists g, RInv s [] g.
  Proof using Htag.
    intros Hnd Hnn Hne. unfold rinit, qinit.
    destruct (pool_add_ok c (qd0 c) ns ∅ (null, 0%N) ∅ [] (PI_empty c 0%N) Hnd)
      as (own & HP & Ht & Ho & Hd & Hr).
    { intros n Hn. split; [by rewrite lookup_empty|]. by intros ->. }
    unfold pool_init. destruct (pool_add (qd0 c) ns ∅ (null, 0%N)) as [h p]. simpl in *.
    rewrite app_nil_r in HP.
    pose proof (alloc_unsafe_ok c Htag (qd0 c) false _ _ _ _ addr HP) as Hok.
    assert (Hlen : forall n nd, h !! n = Some nd -> length (dat nd) = c_words c).
    { intros n nd Hn. destruct (decide (n ∈ ns)) as [Hi|Hi].
      - destruct (Hd n Hi) as [y Hy]. rewrite Hn in Hy. injection Hy as ->. apply replicate_length.
      - rewrite Hr, lookup_empty in Hn by done. done. }
    assert (HnQ : forall n, own !! n = Some OF \/ own !! n = None).
    { intros n. rewrite Ho. destruct (decide _); [by left|]. rewrite lookup_empty. by right. }
    destruct (alloc_unsafe c (qd0 c) false h p addr) as [?|h' p' n| | | |]; try done.
    - destruct Hok as [(-> & Hn & Hpn & Hp2 & Hx & fn' & Hfn)|(Hf & Hn & -> & -> & _ & _ & Hfn)].
      + destruct (h !! n) as [nd|] eqn:Hhn; [|done]. intros [= <-].
        eapply (rinit_mk h p' (<[n := OT 0]> own) fn').
        * rewrite Hfn in HP. by eapply PI_pop.
        * by rewrite lookup_insert.
        * intros m. destruct (decide (n = m)) as [->|Hm]; [by right; right|].
          rewrite lookup_insert_ne by done. destruct (HnQ m); auto.
        * done.
        * done.
      + rewrite lookup_insert. intros [= <-]. simpl.
        eapply (rinit_mk _ p (<[n := OT 0]> own) (reverse ns) n (Node (null, 0%N) (qd0 c))).
        * by apply PI_fresh.
        * by rewrite lookup_insert.
        * intros m. destruct (decide (n = m)) as [->|Hm]; [by right; right|].
          rewrite lookup_insert_ne by done. destruct (HnQ m); auto.
        * by rewrite lookup_insert.
        * intros m ndm. destruct (decide (n = m)) as [->|Hm].
          -- rewrite lookup_insert. intros [= <-]. apply replicate_length.
          -- rewrite lookup_insert_ne by done. apply Hlen.
    - destruct Hok as [Hnil [Hnb|?]]; [|done]. intros _. exfalso.
      apply (f_equal reverse) in Hnil. rewrite reverse_involutive in Hnil.
      destruct Hne as [Hne|Hne]; [by rewrite Hnil in Hne|congruence].
  Qed.

  Lemma rexec_ok ns addr s0 tr s :
    NoDup ns -> null ∉ ns -> (ns <> [] \/ c_node_based c = true) ->
    rinit c ns addr = Some s0 -> rexec c true s0 tr s -> exists g, RInv s tr g.
  Proof using Htag.
    intros Hnd Hnn Hne Hi. induction 1 as [|tr s ch s' evs He IH Hs]; [by eapply rinit_ok|].
    destruct IH as [g HI]. pose proof (rstep_ok s tr g ch HI) as Hst. by rewrite Hs in Hst.
  Qed.
End safe.
