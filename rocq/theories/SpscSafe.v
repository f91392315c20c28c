(** * The invariant holds in all executions *)
From stdpp Require Import gmap list numbers.
From Verif Require Import Lin SpscModel SpscSpec SpscArith SpscInv SpscStep SpscProd SpscCons.

Set Default Proof Using "Type".

Section safe.
  Context {V : Type} (c : xcfg).
  Notation M := (x_max c).
  Notation sc := (x_sc c).
  Notation spec := (xspec (M - 1) sc).
  Notation ghost := (xghost V).
  Implicit Types (ws rs : list msg) (sl : gmap N (slot V)) (tp tc th : thread V) (g : ghost) (s : xstate V).

  Lemma pinv_stable pc rs rs' tp g g' :
    pinv c pc rs tp g -> cframe rs rs' g g' -> pinv c pc rs' tp g'.
  Proof.
    intros H (E1 & E2 & E3 & E4 & [r2 ->] & [v2 E5] & _).
    assert (Hspc : forall n, spc c rs tp g n -> spc c (rs ++ r2) tp g' n).
    { intros n (k & m & x & H1 & H2 & H3). exists k, m, x. rewrite E5, E1.
      split; [by apply lookup_app_l_Some|]. split; [by apply lookup_app_l_Some|done]. }
    destruct pc as [[]|]; simpl in *; unfold nbatch, npos in *; rewrite ?E1, ?E2, ?E3, ?E4; try done.
    - destruct H as (? & ? & ? & ? & ?). eauto 10.
    - destruct H as (us & ? & ? & ? & ? & ? & ?). exists us. do 4 (split; [done|]). split; [by apply Hspc|done].
    - destruct H as (us & ? & ? & ? & ? & ? & ?). exists us. do 5 (split; [done|]). by apply Hspc.
  Qed.

  Lemma wknow_stable ws ws' tc g g' n :
    wknow ws tc g n -> pframe ws ws' g g' -> wknow ws' tc g' n.
  Proof.
    intros [->|(k & m & x & H1 & H2 & H3)] (E1 & _ & _ & _ & _ & [w2 ->] & [v2 E5] & _); [by left|].
    right. exists k, m, x. rewrite E5, E1.
    split; [by apply lookup_app_l_Some|]. split; [by apply lookup_app_l_Some|done].
  Qed.

  Lemma binv_stable kd i e e2 nr acc ws ws' tc g g' :
    binv c kd i e e2 nr acc ws tc g -> exclusive (bop (V := V) kd) = None -> pframe ws ws' g g' ->
    binv c kd i e e2 nr acc ws' tc g'.
  Proof.
    intros (H1 & H2 & n & H3 & H4 & H5 & H6 & H7) He Hf.
    pose proof Hf as (E1 & E2 & E3 & _ & [q2 E5] & _).
    split; [by rewrite E2|]. split.
    { rewrite E2, E5, take_app_le; [done|]. apply (f_equal length) in H2. rewrite take_length in H2. lia. }
    exists n. split; [rewrite E5, app_length; lia|]. split.
    { destruct kd; simpl in *; try done; by rewrite E3. }
    split; [by eapply wknow_stable|]. split; [by rewrite E1|]. unfold bpos in *. by rewrite E1.
  Qed.

  Lemma cinv_stable pc ws ws' tc known g g' :
    cinv c pc ws tc known None g -> pframe ws ws' g g' -> cinv c pc ws' tc known None g'.
  Proof.
    intros H Hf. pose proof Hf as (E1 & E2 & E3 & E4 & [q2 E5] & _).
    destruct pc as [[]|]; simpl in *; rewrite ?E1, ?E2, ?E3, ?E4; try done.
    - destruct H as [Ha H]. split; [done|]. destruct H as [H|(? & ? & ? & ?)]; [by left|]. right.
      do 2 (split; [done|]). split; [by eapply wknow_stable|]. rewrite E5, app_length. lia.
    - destruct H as (? & ? & ? & ? & ?). do 3 (split; [done|]). split; [by eapply wknow_stable|].
      rewrite E5, app_length. lia.
    - destruct H as (? & ? & ? & ? & ?). do 3 (split; [done|]). split; [by eapply wknow_stable|].
      rewrite E5. by apply lookup_app_l_Some.
    - destruct H as (? & ? & ? & ?). do 3 (split; [done|]). rewrite E5. by apply lookup_app_l_Some.
    - destruct H as [Ha (n & ? & ? & ? & ? & Hu & H)]. split; [done|]. exists n. do 2 (split; [done|]).
      split; [by eapply wknow_stable|]. split; [rewrite E5, app_length; lia|]. split; [|done].
      intros Hk. exfalso. destruct kd; try done; destruct H as [(_ & _ & _ & ?)|(_ & _ & _ & _ & ?)]; done.
    - destruct H as [(? & ? & He) H]. split; [done|]. eapply binv_stable; [done| |done]. done.
    - destruct H as ((? & ? & He) & H & ? & ?). split; [done|]. split; [by eapply binv_stable|].
      split; [done|]. rewrite E5. by apply lookup_app_l_Some.
    - destruct H as ((? & ? & He) & Hl & H & Hc & Hn). split; [done|]. split; [done|]. split.
      { rewrite E5, take_app_le; [done|]. apply (f_equal length) in H. rewrite take_length in H. lia. }
      split; [|done]. destruct kd; simpl in *; try done; by rewrite E3.
    - destruct H as (? & ? & ?). done.
  Qed.

  Lemma Inv_init : Inv c (xinit (V := V)) (XG 0 0 [0%N] [0%N] [] [] 0 0 0 [] ∅) \/ (M = 0)%N.
  Proof.
    destruct (decide (M = 0%N)) as [|HM]; [by right|]. left. split; [|by repeat split].
    assert (Hsing : forall x y : N, forall k, [x] !! k = Some y -> y = x).
    { intros x y k Hk. by apply list_lookup_singleton_Some in Hk as [_ ->]. }
    split; simpl.
    - split; simpl; try done.
      + intros k m n Hm Hn. apply Hsing in Hn as ->. apply list_lookup_singleton_Some in Hm as [_ <-]. by rewrite N.mod_0_l.
      + intros k m n Hm Hn. apply Hsing in Hn as ->. apply list_lookup_singleton_Some in Hm as [_ <-]. by rewrite N.mod_0_l.
      + intros k m Hm. by apply list_lookup_singleton_Some in Hm as [_ <-].
      + intros i j x y Hij Hx Hy. apply Hsing in Hx as ->. apply Hsing in Hy as ->. done.
      + intros i j x y Hij Hx Hy. apply Hsing in Hx as ->. apply Hsing in Hy as ->. done.
      + intros k m Hm. apply list_lookup_singleton_Some in Hm as [_ <-]. simpl. lia.
      + intros k m Hm. apply list_lookup_singleton_Some in Hm as [_ <-]. simpl. lia.
      + exists 0%N. split; [done|]. lia.
      + exists 0%N. split; [done|]. lia.
    - assert (Hs : forall i, slot_at (∅ : gmap N (slot V)) i = raw).
      { intros i. unfold slot_at. by rewrite lookup_empty. }
      split; simpl; try done; try (intros; rewrite ?Hs; done).
      + intros k m n Hm Hn. apply Hsing in Hn as ->. lia.
      + intros k m n Hm Hn j _. rewrite Hs. simpl. lia.
    - by left.
    - constructor.
  Qed.

  Lemma joinp_ok ws rs sl tp tc g pc :
    GI c ws rs sl tp tc g -> GI c ws rs sl (join_threads tp tc pc) tc g.
  Proof. intros HG. pose proof (gi_seen _ _ _ _ _ _ _ HG). eapply GI_tp; [done|..]; simpl; lia. Qed.
  Lemma joinc_ok ws rs sl tp tc g tp' pc :
    GI c ws rs sl tp tc g -> t_sw tp' < length ws -> t_sr tp' < length rs ->
    GI c ws rs sl tp (join_threads tc tp' pc) g.
  Proof. intros HG H1 H2. pose proof (gi_seen _ _ _ _ _ _ _ HG). eapply GI_tc; [done|..]; simpl; lia. Qed.
  Lemma GI_pcp ws rs sl tp tc g pc :
    GI c ws rs sl tp tc g -> GI c ws rs sl (Thread (t_sw tp) (t_sr tp) (t_p tp) (t_c tp) pc) tc g.
  Proof. intros HG. pose proof (gi_seen _ _ _ _ _ _ _ HG). eapply GI_tp; [done|..]; simpl; lia. Qed.
  Lemma GI_pcc ws rs sl tp tc g pc :
    GI c ws rs sl tp tc g -> GI c ws rs sl tp (Thread (t_sw tc) (t_sr tc) (t_p tc) (t_c tc) pc) g.
  Proof. intros HG. pose proof (gi_seen _ _ _ _ _ _ _ HG). eapply GI_tc; [done|..]; simpl; lia. Qed.

  Definition sok s g (o : xoutcome V) : Prop :=
    match o with
    | XNext s' evs => exists g', Inv c s' g' /\ exists l2, g_l g' = g_l g ++ l2 /\ erase l2 = evs
    | XErr _ => False
    | XDisabled => True
    end.

  Lemma sok_prod s g o :
    x_dead s = false -> Inv c s g -> x_excl s = None ->
    pok c (x_w s) (x_r s) (x_cons s) g o -> sok s g (lift s RP o).
  Proof.
    intros Hd HI He Ho. unfold Inv in HI. rewrite Hd in HI. destruct HI as (HG & HP & HC & HX).
    destruct o as [ws' rs' sl' tp'| |]; [|done..]. destruct Ho as (-> & g' & pc' & Hpc & HG' & HP' & Hf).
    pose proof Hf as (_ & _ & _ & _ & _ & _ & _ & l2 & Hl & Hel).
    exists g'. split; [|by exists l2]. unfold Inv. simpl. rewrite Hd, He, Hpc. split; [done|].
    split; [done|]. split; [|done]. rewrite He in HC. by eapply cinv_stable.
  Qed.

  Lemma sok_cons s g o :
    x_dead s = false -> Inv c s g ->
    cok c (x_w s) (x_r s) (x_prod s) (x_cons s) (x_known s) (x_excl s) g o -> sok s g (lift s RC o).
  Proof.
    intros Hd HI Ho. unfold Inv in HI. rewrite Hd in HI. destruct HI as (HG & HP & HC & HX).
    destruct o as [ws' rs' sl' tc'| |]; [|done..]. destruct Ho as (-> & g' & pc' & Hpc & HG' & HC' & Hf & Hv).
    pose proof Hf as (_ & _ & _ & _ & _ & _ & l2 & Hl & Hel).
    exists g'. split; [|by exists l2]. unfold Inv. simpl. rewrite Hd, Hpc. split; [done|].
    split; [by eapply pinv_stable|]. split; [done|]. intros Hxe. destruct (HX Hxe) as [H1 H2]. split; [done|].
    pose proof (gi_seen _ _ _ _ _ _ _ HG'). lia.
  Qed.

  Lemma pinv_same g g' pc rs tp :
    pinv c pc rs tp g -> g_np g' = g_np g -> g_up g' = g_up g -> g_kp g' = g_kp g ->
    g_cr g' = g_cr g -> g_ph g' !! 0 = g_ph g !! 0 -> pinv c pc rs tp g'.
  Proof.
    intros H E1 E2 E3 E4 E5. assert (Hspc : forall n, spc c rs tp g n -> spc c rs tp g' n).
    { intros n H'. unfold spc in *. by rewrite E1, E4. }
    destruct pc as [[]|]; simpl in *; unfold nbatch, npos in *; rewrite ?E1, ?E2, ?E3, ?E5; try done.
    - destruct H as (? & ? & ? & ? & ?). eauto 10.
    - destruct H as (us & ? & ? & ? & ? & ? & ?). exists us. do 4 (split; [done|]). split; [by apply Hspc|done].
    - destruct H as (us & ? & ? & ? & ? & ? & ?). exists us. do 5 (split; [done|]). by apply Hspc.
  Qed.

  Lemma cinv_same g g' pc ws tc known excl :
    cinv c pc ws tc known excl g -> g_nc g' = g_nc g -> g_q g' = g_q g -> g_ac g' = g_ac g ->
    g_kc g' = g_kc g -> g_cw g' = g_cw g -> g_ph g' !! 1 = g_ph g !! 1 -> cinv c pc ws tc known excl g'.
  Proof.
    intros H E1 E2 E3 E4 E5 E6. assert (Hk : forall n, wknow ws tc g n -> wknow ws tc g' n).
    { intros n H'. unfold wknow in *. by rewrite E1, E5. }
    destruct pc as [[]|]; simpl in *; unfold binv, bpos in *; rewrite ?E1, ?E2, ?E3, ?E4, ?E6; try done.
    - destruct H as [Ha H]. split; [done|]. destruct H as [H|(? & ? & ? & ?)]; [by left|]. right. eauto 12.
    - destruct H as (? & ? & ? & ? & ?). eauto 12.
    - destruct H as (? & ? & ? & ? & ?). eauto 12.
    - destruct H as [Ha (n & ? & ? & ? & ?)]. split; [done|]. exists n. eauto 12.
    - destruct H as (? & ? & ? & n & ? & ? & ? & ?). do 3 (split; [done|]). exists n.
      split; [done|]. split; [|eauto 12]. destruct kd; simpl in *; by rewrite ?E4, ?E2.
    - destruct H as (? & (? & ? & n & ? & ? & ? & ?) & ?). split; [done|]. split; [|done].
      do 2 (split; [done|]). exists n.
      split; [done|]. split; [|eauto 12]. destruct kd; simpl in *; by rewrite ?E4, ?E2.
    - destruct H as (? & ? & ? & ? & ?). do 3 (split; [done|]). split; [|done].
      destruct kd; simpl in *; by rewrite ?E4, ?E2.
  Qed.

  Context (HM : (0 < M <= 2 ^ 63)%N)
          (Hord : x_acqR c = true /\ x_relW c = true /\ x_acqW c = true /\ x_relR c = true)
          (Hthr : x_triv c = true \/ x_bthrow c = false) (Hchk : x_unchecked c = false).

  Lemma start_pinv o pc rs tp g :
    xstart c RP o = Some pc -> pinv c None rs tp g ->
    pinv c (Some pc) rs tp (ginv g 0 o).
  Proof.
    intros Hs [Hp Hu]. destruct o as [| | |[]| | | | | | | |]; simplify_eq/=; by rewrite lookup_insert.
  Qed.
  Lemma start_cinv s o pc ws tc g :
    xstart c RC o = Some pc -> cinv c None ws tc (x_known s) None g -> may_start c s o = true ->
    cinv c (Some pc) ws tc (x_known s) (exclusive o) (ginv g 1 o).
  Proof using Hchk Hthr.
    intros Hs (Hp & Hkn & _ & Hac) Hm.
    destruct o as [| | |[]| | | | | | | |]; simpl in Hs; try done;
      try (injection Hs as <-; simpl; rewrite lookup_insert; done).
    - injection Hs as <-. simpl in *. rewrite lookup_insert, Hchk in *. simpl in Hm. apply N.ltb_lt in Hm.
      rewrite Hkn. done.
    - destruct (x_triv c) eqn:Ht; injection Hs as <-; simpl; rewrite lookup_insert; done.
  Qed.

  Lemma xstep_ok s g ch : Inv c s g -> sok s g (xstep c s ch).
  Proof using HM Hord Hthr Hchk.
    intros HI. destruct Hord as (HaR & HrW & HaW & HrR). unfold xstep.
    destruct (x_dead s) eqn:Hd; [done|]. pose proof HI as HI0. unfold Inv in HI. rewrite Hd in HI.
    destruct HI as (HG & HP & HC & HX). destruct ch as [[] o|[] k thr|].
    - (* invocation by the producer *)
      destruct (t_pc (x_prod s)) eqn:Hpc; [done|]. destruct (x_excl s) eqn:He; [done|].
      destruct (xstart c RP o) as [pc|] eqn:Hs; [|done].
      exists (ginv g 0 o). split; [|by exists [Ev (Lin.Inv 0 o)]]. unfold Inv.
        cbn [x_w x_r x_slots x_prod x_cons x_known x_excl x_dead t_pc set_pc idle join_threads].
      split; [apply GI_pcp, GI_inv; [done|by destruct HP]|]. split.
      { eapply pinv_view; [by eapply start_pinv|done..]. }
      split; [|done]. eapply cinv_same; [done..|]. simpl. by rewrite lookup_insert_ne.
    - (* invocation by the consumer *)
      destruct (t_pc (x_cons s)) eqn:Hpc; [done|]. destruct (xstart c RC o) as [pc|] eqn:Hs; [|done].
      destruct (may_start c s o) eqn:Hm; [|done]. pose proof HC as (HCp & _ & HCx & _).
      rewrite HCx in HC. pose proof (start_cinv s o pc (x_w s) (x_cons s) g Hs HC Hm) as HC'.
      destruct (exclusive o) eqn:He; [destruct (t_pc (x_prod s)) eqn:Hpp; [done|]|].
      + exists (ginv g 1 o). split; [|by exists [Ev (Lin.Inv 1 o)]]. unfold Inv.
        cbn [x_w x_r x_slots x_prod x_cons x_known x_excl x_dead t_pc set_pc idle join_threads].
        pose proof (gi_seen _ _ _ _ _ _ _ HG) as Hseen.
        pose proof (wi_ownp _ _ _ _ _ _ (gi_wi _ _ _ _ _ _ _ HG)) as Hown.
        split; [apply joinc_ok; [by apply GI_inv|lia..]|]. rewrite Hpp. split.
        { eapply pinv_same; [done..|]. simpl. by rewrite lookup_insert_ne. }
        split; [eapply cinv_view; [done|simpl; lia..]|]. intros _. split; [done|]. simpl. lia.
      + exists (ginv g 1 o). split; [|by exists [Ev (Lin.Inv 1 o)]]. unfold Inv.
        cbn [x_w x_r x_slots x_prod x_cons x_known x_excl x_dead t_pc set_pc idle join_threads].
        split; [apply GI_pcc, GI_inv; [done|by destruct HC]|]. split.
        { eapply pinv_same; [done..|]. simpl. by rewrite lookup_insert_ne. }
        split; [|done]. by eapply cinv_view.
    - (* the producer runs *)
      destruct (t_pc (x_prod s)) as [pc|] eqn:Hpc; [|done].
      assert (He : x_excl s = None).
      { destruct (x_excl s) eqn:He; [|done]. by destruct (HX ltac:(done)). }
      destruct pc; try (apply sok_prod; [done|done|done|by apply pstep_ok]);
        try (apply sok_prod; [done|done|done|by apply pestep_ok]).
      destruct HP as [[o Hp] Hu]. exists (gres g 0 r). split; [|by exists [Ev (Res 0 r)]]. unfold Inv.
        cbn [x_w x_r x_slots x_prod x_cons x_known x_excl x_dead t_pc set_pc idle join_threads].
      split; [by eapply GI_pcp, GI_res|]. rewrite He in *. split; [split; [apply lookup_delete|done]|].
      split; [|done]. eapply cinv_same; [done..|]. simpl. by rewrite lookup_delete_ne.
    - (* the consumer runs *)
      destruct (t_pc (x_cons s)) as [pc|] eqn:Hpc; [|done].
      destruct pc; try (apply sok_cons; [done|done|apply cstep_ok; try done; by apply HX]);
        try (apply sok_cons; [done|done|by apply cestep_ok]).
      + (* reset of trivial elements *)
        destruct HC as (Hac & (Hp & Hkn & Hxc) & Ht). destruct (HX ltac:(by rewrite Hxc)) as [Hpp Hsw].
        rewrite Hpp in HP. destruct HP as [HPp Hup].
        destruct (store_w false 0 (x_w s) (x_cons s)) as [ws' th1] eqn:Hst1.
        destruct (store_r true 0 (x_r s) th1) as [rs' th2] eqn:Hst2.
        exists (greset c g). split; [|by exists [Lin 1 OReset RUnit]]. unfold Inv.
        cbn [x_w x_r x_slots x_prod x_cons x_known x_excl x_dead t_pc set_pc idle join_threads].
        split; [by eapply GI_reset|]. simpl. rewrite lookup_insert_ne by done. split; [done|].
        rewrite lookup_insert, Hxc. split.
        { split; [done|]. split; [|done]. eexists. done. }
        intros _. split; [done|]. simpl. injection Hst1 as <- <-. injection Hst2 as <- <-. simpl.
        rewrite app_length. simpl. lia.
      + (* return *)
        destruct HC as (Hac & (o & Hp & Hkn & Hxc) & Hqe). destruct (x_excl s) as [d|] eqn:He.
        * destruct (HX ltac:(done)) as [Hpp Hsw]. rewrite Hpp in HP. destruct HP as [HPp Hup].
          exists (gres g 1 r). split; [|by exists [Ev (Res 1 r)]]. unfold Inv.
        cbn [x_w x_r x_slots x_prod x_cons x_known x_excl x_dead t_pc set_pc idle join_threads].
          split; [by eapply GI_pcc, joinp_ok, GI_res|]. destruct d.
          -- split; [by apply Hqe|done].
          -- split; [split; [simpl; by rewrite lookup_delete_ne|done]|]. split; [|done].
             split; [apply lookup_delete|]. done.
        * exists (gres g 1 r). split; [|by exists [Ev (Res 1 r)]]. unfold Inv.
        cbn [x_w x_r x_slots x_prod x_cons x_known x_excl x_dead t_pc set_pc idle join_threads].
          split; [by eapply GI_pcc, GI_res|]. split.
          { eapply pinv_same; [done..|]. simpl. by rewrite lookup_delete_ne. }
          split; [|done]. split; [apply lookup_delete|]. done.
    - (* synchronization *)
      destruct (t_pc (x_prod s)) eqn:Hpp; [done|]. destruct (t_pc (x_cons s)) eqn:Hpc; [done|].
      exists g. split; [|exists []; by rewrite app_nil_r]. unfold Inv.
        cbn [x_w x_r x_slots x_prod x_cons x_known x_excl x_dead t_pc set_pc idle join_threads].
      pose proof (gi_seen _ _ _ _ _ _ _ HG) as Hseen.
      split; [apply joinc_ok; [by apply joinp_ok|lia..]|].
      split; [done|]. split; [done|]. destruct HC as (_ & _ & -> & _). done.
  Qed.

  Lemma xsteps_ok w h s :
    xsteps c xinit w h s -> exists g, Inv c s g /\ erase (g_l g) = h.
  Proof using HM Hord Hthr Hchk.
    induction 1 as [|w h s ch s' evs _ (g & HI & He) Hs].
    - destruct Inv_init as [HI|?]; [|lia]. eexists. split; [exact HI|done].
    - pose proof (xstep_ok s g ch HI) as Hok. rewrite Hs in Hok.
      destruct Hok as (g' & HI' & l2 & Hl & Hel). exists g'. split; [done|]. by rewrite Hl, erase_app, He, Hel.
  Qed.
End safe.
