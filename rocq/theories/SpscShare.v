(** Lemmas for C61: what threads have seen grows, and the lock makes many threads one. *)
From stdpp Require Import gmap list numbers.
From Verif Require Import Lin SpscModel SpscShareModel.
Set Default Proof Using "Type".

Section mono.
  Context {V : Type} (c : xcfg).

  Definition tle (a b : thread V) : Prop :=
    t_sw a <= t_sw b /\ t_sr a <= t_sr b /\ (t_p a <= t_p b)%N /\ (t_c a <= t_c b)%N.
  Definition tgood (ws rs : list msg) (a : thread V) : Prop := t_sw a <= length ws /\ t_sr a <= length rs.
  Definition mgood (ws rs : list msg) : Prop :=
    (forall m, m ∈ ws -> m_sw m <= length ws /\ m_sr m <= length rs) /\
    (forall m, m ∈ rs -> m_sw m <= length ws /\ m_sr m <= length rs).

  (** What a step does to a thread. *)
  Definition adv (ws rs : list msg) (th : thread V) (ws' rs' : list msg) (th' : thread V) : Prop :=
    mgood ws' rs' /\ tgood ws' rs' th' /\ tle th th' /\ length ws <= length ws' /\ length rs <= length rs'.

  Lemma adv_pc ws rs th ws' rs' th' pc : adv ws rs th ws' rs' th' -> adv ws rs th ws' rs' (set_pc th' pc).
  Proof. done. Qed.

  Lemma load_w_adv sc acq k ws rs th x th' :
    mgood ws rs -> tgood ws rs th -> load_w sc acq k ws th = Some (x, th') -> adv ws rs th ws rs th'.
  Proof.
    intros Hm [H1 H2] Hl. unfold load_w in Hl. destruct (ws !! k) as [m|] eqn:Hk; [|done].
    destruct (decide _) as [[Hle _]|]; [|done]. injection Hl as <- <-.
    pose proof (lookup_lt_Some _ _ _ Hk) as Hlt. pose proof (elem_of_list_lookup_2 _ _ _ Hk) as Hi.
    destruct (proj1 Hm m Hi) as [Hs1 Hs2].
    split; [exact Hm|].
    destruct (acq && m_rel m); unfold tgood, tle, join_msg; cbn [t_sw t_sr t_p t_c]; repeat split; lia.
  Qed.
  Lemma load_r_adv sc acq k ws rs th x th' :
    mgood ws rs -> tgood ws rs th -> load_r sc acq k rs th = Some (x, th') -> adv ws rs th ws rs th'.
  Proof.
    intros Hm [H1 H2] Hl. unfold load_r in Hl. destruct (rs !! k) as [m|] eqn:Hk; [|done].
    destruct (decide _) as [[Hle _]|]; [|done]. injection Hl as <- <-.
    pose proof (lookup_lt_Some _ _ _ Hk) as Hlt. pose proof (elem_of_list_lookup_2 _ _ _ Hk) as Hi.
    destruct (proj2 Hm m Hi) as [Hs1 Hs2].
    split; [exact Hm|].
    destruct (acq && m_rel m); unfold tgood, tle, join_msg; cbn [t_sw t_sr t_p t_c]; repeat split; lia.
  Qed.
  Lemma store_w_adv rel x ws rs th ws' th' :
    mgood ws rs -> tgood ws rs th -> store_w rel x ws th = (ws', th') -> adv ws rs th ws' rs th'.
  Proof.
    intros [Hm1 Hm2] [H1 H2] Hl. unfold store_w in Hl. injection Hl as <- <-.
    unfold adv, mgood, tgood, tle; simpl. rewrite app_length; simpl. split; [|repeat split; lia].
    split; intros m Hm.
    - apply elem_of_app in Hm as [Hm|Hm]; [destruct (Hm1 m Hm); lia|].
      apply elem_of_list_singleton in Hm as ->. simpl. lia.
    - destruct (Hm2 m Hm); lia.
  Qed.
  Lemma store_r_adv rel x ws rs th rs' th' :
    mgood ws rs -> tgood ws rs th -> store_r rel x rs th = (rs', th') -> adv ws rs th ws rs' th'.
  Proof.
    intros [Hm1 Hm2] [H1 H2] Hl. unfold store_r in Hl. injection Hl as <- <-.
    unfold adv, mgood, tgood, tle; simpl. rewrite app_length; simpl. split; [|repeat split; lia].
    split; intros m Hm.
    - destruct (Hm1 m Hm); lia.
    - apply elem_of_app in Hm as [Hm|Hm]; [destruct (Hm2 m Hm); lia|].
      apply elem_of_list_singleton in Hm as ->. simpl. lia.
  Qed.
  Lemma adv_refl ws rs th : mgood ws rs -> tgood ws rs th -> adv ws rs th ws rs th.
  Proof. intros H1 H2. split; [done|]. split; [done|]. unfold tle. repeat split; lia. Qed.
  Lemma adv_trans ws rs th ws1 rs1 th1 ws2 rs2 th2 :
    adv ws rs th ws1 rs1 th1 -> adv ws1 rs1 th1 ws2 rs2 th2 -> adv ws rs th ws2 rs2 th2.
  Proof.
    intros (_ & _ & (A1 & A2 & A3 & A4) & A5 & A6) (B1 & B2 & (B3 & B4 & B5 & B6) & B7 & B8).
    split; [done|]. split; [done|]. unfold tle. repeat split; lia.
  Qed.
  Lemma acc_p_adv sl ws rs th v x th' :
    mgood ws rs -> tgood ws rs th -> acc_p sl th v = Some (x, th') -> adv ws rs th ws rs th'.
  Proof.
    intros Hm Ht Ha. unfold acc_p in Ha. destruct (decide _); [|done]. injection Ha as _ <-.
    split; [done|]. split; [done|]. unfold tle; simpl. repeat split; lia.
  Qed.
  Lemma acc_c_adv wr sl ws rs th v x th' :
    mgood ws rs -> tgood ws rs th -> acc_c wr sl th v = Some (x, th') -> adv ws rs th ws rs th'.
  Proof.
    intros Hm Ht Ha. unfold acc_c in Ha. destruct (decide _); [|done]. injection Ha as _ <-.
    split; [done|]. split; [done|]. unfold tle; simpl. repeat split; lia.
  Qed.

  Ltac step Hm Ht H :=
    repeat first
      [ discriminate H
      | match type of H with
        | TNext _ _ _ _ = TNext _ _ _ _ => fail 1
        | context [load_w ?s ?a ?k ?ws ?th] =>
            let E := fresh "E" in destruct (load_w s a k ws th) as [[??]|] eqn:E;
            [eapply load_w_adv in E; [|exact Hm|exact Ht]|]
        | context [load_r ?s ?a ?k ?rs ?th] =>
            let E := fresh "E" in destruct (load_r s a k rs th) as [[??]|] eqn:E;
            [eapply load_r_adv in E; [|exact Hm|exact Ht]|]
        | context [acc_p ?a ?b ?v] =>
            let E := fresh "E" in destruct (acc_p a b v) as [[??]|] eqn:E;
            [eapply acc_p_adv in E; [|exact Hm|exact Ht]|]
        | context [acc_c ?w ?a ?b ?v] =>
            let E := fresh "E" in destruct (acc_c w a b v) as [[??]|] eqn:E;
            [eapply acc_c_adv in E; [|exact Hm|exact Ht]|]
        | context [store_w ?r ?x ?ws ?th] =>
            let E := fresh "E" in destruct (store_w r x ws th) as [??] eqn:E;
            eapply store_w_adv in E; [|exact Hm|exact Ht]
        | context [store_r ?r ?x ?rs ?th] =>
            let E := fresh "E" in destruct (store_r r x rs th) as [??] eqn:E;
            eapply store_r_adv in E; [|exact Hm|exact Ht]
        | context [match ?x with _ => _ end] =>
            lazymatch x with context [match _ with _ => _ end] => fail | _ => destruct x end
        end ];
    injection H as <- <- <- <-;
    first [assumption | apply adv_pc; assumption | apply adv_pc, adv_refl; assumption | apply adv_refl; assumption | idtac].

  Lemma pstep_adv ws rs sl th pc k thr ws' rs' sl' th' :
    mgood ws rs -> tgood ws rs th -> pstep c ws rs sl th pc k thr = TNext ws' rs' sl' th' -> adv ws rs th ws' rs' th'.
  Proof.
    intros Hm Ht H. unfold pstep, construct in H.
    destruct pc as [v|v w|v w nx|nx|vs|vs w|se vs rest ba i kk nw|ba i|kk nw| |w|rf|rf x| |w|r|r x|nr x|kd|kd w
                   |kd i e e2 nr acc|kd i e e2 nr acc x|kd nr acc| |r| |w| |r]; try discriminate H; step Hm Ht H.
  Qed.
  Lemma estep_adv ws rs sl th pc k ws' rs' sl' th' :
    mgood ws rs -> tgood ws rs th -> estep c ws rs sl th pc k = TNext ws' rs' sl' th' -> adv ws rs th ws' rs' th'.
  Proof. intros Hm Ht H. unfold estep in H. destruct pc; try discriminate H; step Hm Ht H. Qed.
  Lemma cstep_adv ws rs sl th pc k thr ws' rs' sl' th' :
    mgood ws rs -> tgood ws rs th -> cstep c ws rs sl th pc k thr = TNext ws' rs' sl' th' -> adv ws rs th ws' rs' th'.
  Proof. intros Hm Ht H. unfold cstep, consume, destroy in H. destruct pc; try discriminate H; step Hm Ht H. Qed.
End mono.

Section step.
  Context {V : Type} (c : xcfg).

  Definition xgood (x : xstate V) : Prop :=
    mgood (x_w x) (x_r x) /\ tgood (x_w x) (x_r x) (x_prod x) /\ tgood (x_w x) (x_r x) (x_cons x).
  Definition xadv (x x' : xstate V) : Prop :=
    xgood x' /\ tle (x_prod x) (x_prod x') /\ tle (x_cons x) (x_cons x').

  Lemma tle_refl (a : thread V) : tle a a.
  Proof. unfold tle. repeat split; lia. Qed.
  Lemma tgood_le ws rs ws' rs' (a : thread V) :
    tgood ws rs a -> length ws <= length ws' -> length rs <= length rs' -> tgood ws' rs' a.
  Proof. unfold tgood. lia. Qed.

  Lemma lift_adv s t o x evs :
    xgood s -> lift s t o = XNext x evs ->
    (forall ws rs sl th, o = TNext ws rs sl th ->
       adv (x_w s) (x_r s) (match t with RP => x_prod s | RC => x_cons s end) ws rs th) ->
    xadv s x /\ evs = [].
  Proof.
    intros (Hm & Hp & Hcn) Hl Ho. destruct o as [ws rs sl th| |]; [|done|done].
    destruct (Ho _ _ _ _ eq_refl) as (H1 & H2 & H3 & H4 & H5).
    destruct t; simpl in Hl; injection Hl as <- <-; (split; [|done]); unfold xadv, xgood; simpl;
      (split; [split; [done|]; split|split]); try done; try apply tle_refl; by eapply tgood_le.
  Qed.

  Lemma xstep_adv s ch x evs :
    xgood s -> xstep c s ch = XNext x evs -> xadv s x /\ side <$> evs = evs.
  Proof.
    intros Hg Hs. pose proof Hg as (Hm & Hp & Hcn).
    assert (Hlp : forall (o : tout V), lift s RP o = XNext x evs ->
      (forall ws rs sl th, o = TNext ws rs sl th -> adv (x_w s) (x_r s) (x_prod s) ws rs th) ->
      xadv s x /\ side <$> evs = evs).
    { intros o Hl Ho. by destruct (lift_adv _ _ _ _ _ Hg Hl Ho) as [? ->]. }
    assert (Hlc : forall (o : tout V), lift s RC o = XNext x evs ->
      (forall ws rs sl th, o = TNext ws rs sl th -> adv (x_w s) (x_r s) (x_cons s) ws rs th) ->
      xadv s x /\ side <$> evs = evs).
    { intros o Hl Ho. by destruct (lift_adv _ _ _ _ _ Hg Hl Ho) as [? ->]. }
    unfold xstep in Hs. destruct (x_dead s); [discriminate Hs|].
    destruct ch as [[] o|[] k thr|].
    - destruct (t_pc (x_prod s)); [discriminate Hs|]. destruct (x_excl s); [discriminate Hs|].
      destruct (xstart c RP o); [|discriminate Hs]. injection Hs as <- <-. split; [|done].
      split; [done|]. exact (conj (tle_refl (x_prod s)) (tle_refl (x_cons s))).
    - destruct (t_pc (x_cons s)); [discriminate Hs|]. destruct (xstart c RC o); [|discriminate Hs].
      destruct (may_start c s o); [|discriminate Hs]. destruct (exclusive o).
      + destruct (t_pc (x_prod s)); [discriminate Hs|]. injection Hs as <- <-. split; [|done].
        unfold xadv, xgood, tgood, tle, join_threads in *; cbn [x_w x_r x_prod x_cons t_sw t_sr t_p t_c].
        split; [split; [done|]; lia|]. lia.
      + injection Hs as <- <-. split; [|done]. split; [done|]. exact (conj (tle_refl (x_prod s)) (tle_refl (x_cons s))).
    - destruct (t_pc (x_prod s)) as [pc|] eqn:Hpc; [|discriminate Hs].
      assert (Hd : (exists r, pc = XRet r) \/ (exists b, pc = E1 b) \/ (exists b y, pc = E2 b y) \/
                   lift s RP (pstep c (x_w s) (x_r s) (x_slots s) (x_prod s) pc k thr) = XNext x evs).
      { destruct pc; eauto 6. }
      destruct Hd as [[r ->]|[[b ->]|[(b & y & ->)|Hd]]].
      + injection Hs as <- <-. split; [|done]. split; [done|]. exact (conj (tle_refl (x_prod s)) (tle_refl (x_cons s))).
      + eapply Hlp; [exact Hs|]. intros ws rs sl th. by apply estep_adv.
      + eapply Hlp; [exact Hs|]. intros ws rs sl th. by apply estep_adv.
      + eapply Hlp; [exact Hd|]. intros ws rs sl th. by apply pstep_adv.
    - destruct (t_pc (x_cons s)) as [pc|] eqn:Hpc; [|discriminate Hs].
      assert (Hd : (exists r, pc = XRet r) \/ (exists b, pc = E1 b) \/ (exists b y, pc = E2 b y) \/ pc = S1 \/
                   lift s RC (cstep c (x_w s) (x_r s) (x_slots s) (x_cons s) pc k thr) = XNext x evs).
      { destruct pc; eauto 7. }
      destruct Hd as [[r ->]|[[b ->]|[(b & y & ->)|[->|Hd]]]].
      + destruct (x_excl s); injection Hs as <- <-; (split; [|done]).
        * unfold xadv, xgood, tgood, tle, join_threads, idle in *; cbn [x_w x_r x_prod x_cons t_sw t_sr t_p t_c].
          split; [split; [done|]; lia|]. lia.
        * split; [done|]. exact (conj (tle_refl (x_prod s)) (tle_refl (x_cons s))).
      + eapply Hlc; [exact Hs|]. intros ws rs sl th. by apply estep_adv.
      + eapply Hlc; [exact Hs|]. intros ws rs sl th. by apply estep_adv.
      + destruct (store_w false 0 (x_w s) (x_cons s)) as [ws th1] eqn:E1.
        destruct (store_r true 0 (x_r s) th1) as [rs th2] eqn:E2.
        pose proof (store_w_adv _ _ _ _ _ _ _ Hm Hcn E1) as A1.
        pose proof (store_r_adv _ _ _ _ _ _ _ (proj1 A1) (proj1 (proj2 A1)) E2) as A2.
        destruct (adv_trans _ _ _ _ _ _ _ _ _ A1 A2) as (B1 & B2 & B3 & B4 & B5).
        injection Hs as <- <-. split; [|done].
        unfold xadv, xgood, tgood, tle, join_threads, set_pc in *; cbn [x_w x_r x_prod x_cons t_sw t_sr t_p t_c].
        split; [split; [done|]; lia|]. lia.
      + eapply Hlc; [exact Hd|]. intros ws rs sl th. by apply cstep_adv.
    - destruct (t_pc (x_prod s)); [discriminate Hs|]. destruct (t_pc (x_cons s)); [discriminate Hs|].
      injection Hs as <- <-. split; [|done].
      unfold xadv, xgood, tgood, tle, join_threads in *; cbn [x_w x_r x_prod x_cons t_sw t_sr t_p t_c].
      split; [split; [done|]; lia|]. lia.
  Qed.
End step.

Section sim.
  Context {V : Type} (c : xcfg).

  (** The thread that held the lock last has seen everything the others have. *)
  Definition behind (f : nat -> thread V) (l : nat) : Prop :=
    forall i, i <> l -> t_pc (f i) = None /\ tle (f i) (f l).
  Definition Sim (hist : list (event (xop V) (xret V))) (s : mstate V) : Prop :=
    xreach c (side <$> hist) (pair_of s (m_lastp s) (m_lastc s)) /\
    xgood (pair_of s (m_lastp s) (m_lastc s)) /\
    behind (m_prods s) (m_lastp s) /\ behind (m_conss s) (m_lastc s).

  Lemma tle_trans (a b d : thread V) : tle a b -> tle b d -> tle a d.
  Proof. unfold tle. intros (?&?&?&?) (?&?&?&?). repeat split; lia. Qed.

  Lemma upd_same {A} (f : nat -> A) i x : upd f i x i = x.
  Proof. unfold upd. by rewrite decide_True. Qed.
  Lemma upd_other {A} (f : nat -> A) i x j : j <> i -> upd f i x j = f j.
  Proof. intros. unfold upd. by rewrite decide_False. Qed.

  Lemma behind_upd f l x : behind f l -> tle (f l) x -> behind (upd f l x) l.
  Proof.
    intros Hb Hle i Hi. rewrite upd_same, upd_other by done. destruct (Hb i Hi) as [? ?].
    split; [done|]. by eapply tle_trans.
  Qed.

  Lemma join_last f l i :
    behind f l -> t_pc (f l) = None -> join_threads (f i) (f l) (t_pc (f i)) = f l.
  Proof.
    intros Hb Hl. destruct (decide (i = l)) as [->|Hi].
    - destruct (f l) as [a b d e pc]. unfold join_threads; cbn [t_sw t_sr t_p t_c t_pc]. f_equal; lia.
    - destruct (Hb i Hi) as [Hpc (H1 & H2 & H3 & H4)]. unfold join_threads.
      destruct (f l) as [a b d e pc]. cbn [t_sw t_sr t_p t_c t_pc] in *. subst pc. rewrite Hpc. f_equal; lia.
  Qed.
  Lemma behind_join f l i :
    behind f l -> t_pc (f l) = None -> behind (upd f i (f l)) i.
  Proof.
    intros Hb Hl j Hj. rewrite upd_same, upd_other by done. destruct (decide (j = l)) as [->|Hjl].
    - split; [done|]. apply tle_refl.
    - by apply Hb.
  Qed.

  Lemma side_at i j (e : event (xop V) (xret V)) : side (ev_at i j e) = side e.
  Proof.
    destruct e as [t o|t r]; unfold side, ev_at; f_equal; rewrite (Nat.mul_comm 2); by apply Nat.mod_add.
  Qed.

  Lemma xreach_step h (x : xstate V) ch x' evs :
    xreach c h x -> xstep c x ch = XNext x' evs -> xreach c (h ++ evs) x'.
  Proof. intros [w Hw] Hs. eexists. by econstructor. Qed.

  Lemma go_sim hist s ch x evs :
    Sim hist s -> xstep c (pair_of s (m_lastp s) (m_lastc s)) ch = XNext x evs ->
    Sim (hist ++ (ev_at (m_lastp s) (m_lastc s) <$> evs)) (put_back s (m_lastp s) (m_lastc s) x).
  Proof.
    intros (Hre & Hg & Hbp & Hbc) Hs. destruct (xstep_adv c _ _ _ _ Hg Hs) as ((Hg' & Hlp & Hlc) & He).
    assert (Hpair : pair_of (put_back s (m_lastp s) (m_lastc s) x) (m_lastp s) (m_lastc s) = x).
    { unfold pair_of, put_back; simpl. rewrite !upd_same. by destruct x. }
    unfold Sim. change (m_lastp (put_back s (m_lastp s) (m_lastc s) x)) with (m_lastp s).
    change (m_lastc (put_back s (m_lastp s) (m_lastc s) x)) with (m_lastc s). rewrite Hpair.
    split; [|split; [done|split; simpl; by apply behind_upd]].
    rewrite fmap_app.
    assert (Hev : side <$> (ev_at (m_lastp s) (m_lastc s) <$> evs) = evs).
    { rewrite <- list_fmap_compose. rewrite <- He at 2. apply list_fmap_ext. intros k e _. apply side_at. }
    rewrite Hev. by eapply xreach_step.
  Qed.

  Lemma lockp_sim hist s i :
    Sim hist s -> t_pc (m_prods s (m_lastp s)) = None -> Sim hist (lockp s i).
  Proof.
    intros (Hre & Hg & Hbp & Hbc) Hl.
    assert (Hpair : pair_of (lockp s i) i (m_lastc s) = pair_of s (m_lastp s) (m_lastc s)).
    { unfold pair_of, lockp; simpl. by rewrite upd_same, join_last. }
    unfold Sim. change (m_lastp (lockp s i)) with i. change (m_lastc (lockp s i)) with (m_lastc s). rewrite Hpair.
    do 2 (split; [done|]). split; [|done]. simpl. rewrite join_last by done. by apply behind_join.
  Qed.
  Lemma lockc_sim hist s i :
    Sim hist s -> t_pc (m_conss s (m_lastc s)) = None -> Sim hist (lockc s i).
  Proof.
    intros (Hre & Hg & Hbp & Hbc) Hl.
    assert (Hpair : pair_of (lockc s i) (m_lastp s) i = pair_of s (m_lastp s) (m_lastc s)).
    { unfold pair_of, lockc; simpl. by rewrite upd_same, join_last. }
    unfold Sim. change (m_lastp (lockc s i)) with (m_lastp s). change (m_lastc (lockc s i)) with i. rewrite Hpair.
    do 3 (split; [done|]). simpl. rewrite join_last by done. by apply behind_join.
  Qed.

  (** Which state the step is made from. *)
  Definition from (s : mstate V) (i : nat) (ch : xchoice V) : mstate V :=
    match ch with XInvoke RP _ => lockp s i | XInvoke RC _ => lockc s i | _ => s end.

  Lemma mstep_from hist s i ch :
    Sim hist s -> mstep c true s i ch <> MDisabled ->
    Sim hist (from s i ch) /\
    mstep c true s i ch =
      match xstep c (pair_of (from s i ch) (m_lastp (from s i ch)) (m_lastc (from s i ch))) ch with
      | XNext x evs => MNext (put_back (from s i ch) (m_lastp (from s i ch)) (m_lastc (from s i ch)) x)
                             (ev_at (m_lastp (from s i ch)) (m_lastc (from s i ch)) <$> evs)
      | XErr e => MErr e
      | XDisabled => MDisabled
      end.
  Proof.
    intros HS Hd. destruct ch as [[] o|[] k thr|]; unfold mstep in *; cbn [from andb] in *.
    - destruct (t_pc (m_prods s (m_lastp s))) eqn:E; [done|]. split; [by apply lockp_sim|done].
    - destruct (t_pc (m_conss s (m_lastc s))) eqn:E; [done|]. split; [by apply lockc_sim|done].
    - destruct (bool_decide (i = m_lastp s)) eqn:E; cbn [negb] in *; [|done].
      apply bool_decide_eq_true in E as ->. done.
    - destruct (bool_decide (i = m_lastc s)) eqn:E; cbn [negb] in *; [|done].
      apply bool_decide_eq_true in E as ->. done.
    - done.
  Qed.

  Lemma msteps_sim hist s : msteps c true hist s -> Sim hist s.
  Proof.
    induction 1 as [|hist s i ch s' evs H IH Hs].
    - split; [exists []; constructor|]. split.
      + assert (Hm : mgood (x_w (xinit (V := V))) (x_r (xinit (V := V)))).
        { split; intros m Hm; apply elem_of_list_singleton in Hm as ->; simpl; lia. }
        split; [exact Hm|]. unfold tgood; simpl. lia.
      + split; intros i _; (split; [done|apply tle_refl]).
    - destruct (mstep_from hist s i ch IH ltac:(by rewrite Hs)) as [HS He]. rewrite Hs in He.
      destruct (xstep c _ ch) as [x e'| |] eqn:Hx; [|done|done]. injection He as -> ->. by eapply go_sim.
  Qed.

  Lemma reach_main hist (s : mstate V) :
    msteps c true hist s -> xreach c (side (V := V) <$> hist) (pair_of s (m_lastp s) (m_lastc s)).
  Proof. intros H. by destruct (msteps_sim _ _ H). Qed.

  Lemma err_main hist (s : mstate V) i ch e :
    msteps c true hist s -> mstep c true s i ch = MErr e ->
    exists h (x : xstate V), xreach c h x /\ xstep c x ch = XErr e.
  Proof.
    intros H Hs. apply msteps_sim in H.
    destruct (mstep_from hist s i ch H ltac:(by rewrite Hs)) as [HS He]. rewrite Hs in He.
    destruct (xstep c _ ch) as [x e'|e'|] eqn:Hx; [done| |done]. injection He as ->.
    eexists _, _. split; [apply HS|exact Hx].
  Qed.
End sim.
