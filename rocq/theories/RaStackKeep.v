(** * The view part of the invariant is preserved by every kind of access *)
From stdpp Require Import gmap list numbers.
From Verif Require Import Lin PoolModel Chain PoolProofs StackModel StackSpec StackObs StackInv StackStep
  RaMem RaFacts RaStackModel RaStackInv.

Set Default Proof Using "Type".

Lemma set_view_eq vw t V : set_view vw t V t = V.
Proof. unfold set_view. by rewrite decide_True. Qed.
Lemma set_view_ne vw t V u : u <> t -> set_view vw t V u = vw u.
Proof. intros. unfold set_view. by rewrite decide_False. Qed.
Lemma fupd_eq {A} (f : N -> A) n a : fupd f n a n = a.
Proof. unfold fupd. by rewrite decide_True. Qed.
Lemma fupd_ne {A} (f : N -> A) n a m : m <> n -> fupd f n a m = f m.
Proof. intros. unfold fupd. by rewrite decide_False. Qed.

Section keep.
  Context (c : cfg).
  Notation null := (c_null c).
  Notation GI := (GI c).
  Notation RI := (RI c).
  Notation known_tos := (known_tos c).
  Notation known_pool := (known_pool c).

  Section step.
    Context (t : nat) (x : sshared) (g : ghost) (x' : sshared) (g' : ghost).
    Context (w : wmem) (vw : nat -> view) (V' : view).
    Context (HG : GI x g) (HG' : GI x' g') (R : forall t', t' <> t -> rely t' x g x' g').
    Context (Hth : c_throws c = false).
    Context (HR : RI x w g vw).
    Notation vw' := (set_view vw t V').

    Lemma ri_none_keep w' :
      (forall n, s_heap x !! n = None -> w_next w' n = w_next w n /\ w_acc w' n = w_acc w n) ->
      forall n, s_heap x' !! n = None -> w_next w' n = [] /\ w_acc w' n = 0.
    Proof using HR R.
      intros Heq n Hn.
      assert (Hx : s_heap x !! n = None).
      { apply eq_None_not_Some. intros Hs. apply (fl_dom t _ _ _ _ R) in Hs. rewrite Hn in Hs.
        by destruct Hs. }
      destruct (Heq n Hx) as [-> ->]. by apply (ri_none _ _ _ _ _ HR).
    Qed.

    (** *** Steps that do not change the weak part *)
    Lemma keep_view :
      s_tos x' = s_tos x -> s_pool x' = s_pool x -> vle (vw t) V' -> wfv w V' ->
      RI x' w g' vw'.
    Proof using HG HG' R Hth HR.
      intros Ht Hp Hle Hwf. split.
      - intros u. destruct (decide (u = t)) as [->|Hne]; [by rewrite set_view_eq|].
        rewrite set_view_ne by done. apply HR.
      - intros i v mv Hi. apply (ri_wfh _ _ _ _ _ HR i v). revert Hi.
        destruct i; simpl; unfold pool_hist, tos_hist; [rewrite Hp|rewrite Ht]; exact id.
      - by apply ri_none_keep.
      - intros u n Hn. destruct (decide (u = t)) as [->|Hne].
        + rewrite set_view_eq.
          destruct (fl_mine c t x g x' g' HG R Hth n Hn) as [Ho|[[_ Ho]|[[_ Ho]|[_ Ho]]]].
          * eapply fresh_le; [exact Hle|done|]. by apply HR.
          * apply fresh_none; [done|]. by apply HR.
          * by rewrite Ht in Ho.
          * by rewrite Hp in Ho.
        + rewrite set_view_ne by done. apply HR. by apply (fl_other t x g x' g' R).
      - intros n Hn. apply HR. by eapply (fl_q_back c t x g x' g').
      - intros n Hn. apply HR. by eapply (fl_f_back c t x g x' g').
      - intros v mv Hi. unfold tos_hist in Hi. rewrite Ht in Hi.
        destruct (ri_tos _ _ _ _ _ HR v mv Hi) as (H1 & H2 & H3).
        unfold RaStackInv.known_tos. rewrite Ht. split; [done|].
        split; [intros Hn; apply (fl_dom t _ _ _ _ R); auto|]. intros Hv Hn.
        destruct (H3 Hv Hn) as [H4 H5]. split; [|done]. apply (fl_q t _ _ _ _ R); [by rewrite Ht|done].
      - intros v mv Hi. unfold pool_hist in Hi. rewrite Hp in Hi.
        destruct (ri_pool _ _ _ _ _ HR v mv Hi) as (H1 & H2 & H3).
        unfold RaStackInv.known_pool. rewrite Hp. split; [done|].
        split; [intros Hn; apply (fl_dom t _ _ _ _ R); auto|]. intros Hv Hn.
        destruct (H3 Hv Hn) as [H4 H5]. split; [|done]. apply (fl_f t _ _ _ _ R); [by rewrite Hp|done].
    Qed.

    (** *** Access to a node that [t] owns: its link or its element *)
    Lemma keep_node n w' :
      g_own g !! n = Some (OT t) ->
      s_tos x' = s_tos x -> s_pool x' = s_pool x ->
      w_pool w' = w_pool w -> w_poolv w' = w_poolv w -> w_tos w' = w_tos w -> w_tosv w' = w_tosv w ->
      (forall m, m <> n -> w_next w' m = w_next w m /\ w_acc w' m = w_acc w m) ->
      length (w_next w n) <= length (w_next w' n) -> w_acc w n <= w_acc w' n ->
      V' (LNext n) = length (w_next w' n) -> V' (LData n) = w_acc w' n ->
      (forall l, l <> LNext n -> l <> LData n -> V' l = vw t l) ->
      RI x' w' g' vw'.
    Proof using HG HG' R Hth HR.
      intros Hn Ht Hp E1 E2 E3 E4 Em Hl1 Hl2 HV1 HV2 HV3.
      assert (Wf : forall V, wfv w V -> wfv w' V).
      { intros V [W1 W2 W3 W4]. split; [by rewrite E1|by rewrite E3|..]; intros m; destruct (decide (m = n)) as [->|Hne].
        - specialize (W3 n). lia.
        - destruct (Em m Hne) as [-> _]. auto.
        - specialize (W4 n). lia.
        - destruct (Em m Hne) as [_ ->]. auto. }
      assert (Wt : wfv w' V').
      { destruct (Wf _ (ri_wf _ _ _ _ _ HR t)) as [W1 W2 W3 W4]. split.
        - by rewrite HV3.
        - by rewrite HV3.
        - intros m. destruct (decide (m = n)) as [->|Hne]; [lia|]. rewrite HV3 by congruence. auto.
        - intros m. destruct (decide (m = n)) as [->|Hne]; [lia|]. rewrite HV3 by congruence. auto. }
      assert (Fn : forall V m, m <> n -> freshn w V m -> freshn w' V m).
      { intros V m Hne. unfold freshn. by destruct (Em m Hne) as [-> _]. }
      assert (Fr : forall V m, m <> n -> fresh w V m -> fresh w' V m).
      { intros V m Hne [F1 F2]. split; [by apply Fn|]. unfold freshd in *. by destruct (Em m Hne) as [_ ->]. }
      split.
      - intros u. destruct (decide (u = t)) as [->|Hne]; [by rewrite set_view_eq|].
        rewrite set_view_ne by done. apply Wf, HR.
      - intros i v mv Hi. apply Wf, (ri_wfh _ _ _ _ _ HR i v). revert Hi.
        destruct i; simpl; unfold pool_hist, tos_hist; [rewrite Hp, E1, E2|rewrite Ht, E3, E4]; exact id.
      - apply ri_none_keep. intros m Hm. apply Em. intros ->.
        destruct (gi_own_dom _ _ _ _ _ HG Hn) as [? ?]. congruence.
      - intros u m Hm. destruct (decide (u = t)) as [->|Hne].
        + rewrite set_view_eq. destruct (decide (m = n)) as [->|Hne]; [by split|].
          assert (fresh w' (vw t) m) as [F1 F2].
          { destruct (fl_mine c t x g x' g' HG R Hth m Hm) as [Ho|[[_ Ho]|[[_ Ho]|[_ Ho]]]].
            * apply Fr; [done|]. by apply HR.
            * apply Fr; [done|]. apply fresh_none; [apply HR|by apply HR].
            * by rewrite Ht in Ho.
            * by rewrite Hp in Ho. }
          split; [unfold freshn in *|unfold freshd in *]; rewrite HV3 by congruence; done.
        + rewrite set_view_ne by done. apply (fl_other t x g x' g' R) in Hm; [|done]. apply Fr; [congruence|].
          by apply HR.
      - intros m Hm. apply (fl_q_back c t x g x' g') in Hm; [|done..]. rewrite E4. apply Fr; [congruence|].
        by apply HR.
      - intros m Hm. apply (fl_f_back c t x g x' g') in Hm; [|done..]. rewrite E2. apply Fr; [congruence|].
        by apply HR.
      - intros v mv Hi. unfold tos_hist in Hi. rewrite Ht, E3, E4 in Hi.
        destruct (ri_tos _ _ _ _ _ HR v mv Hi) as (H1 & H2 & H3).
        unfold RaStackInv.known_tos. rewrite Ht. split; [done|].
        split; [intros Hv; apply (fl_dom t _ _ _ _ R); auto|]. intros Hv Hvn.
        destruct (H3 Hv Hvn) as [H4 H5]. split; [|apply Fn; [congruence|done]].
        apply (fl_q t _ _ _ _ R); [by rewrite Ht|done].
      - intros v mv Hi. unfold pool_hist in Hi. rewrite Hp, E1, E2 in Hi.
        destruct (ri_pool _ _ _ _ _ HR v mv Hi) as (H1 & H2 & H3).
        unfold RaStackInv.known_pool. rewrite Hp. split; [done|].
        split; [intros Hv; apply (fl_dom t _ _ _ _ R); auto|]. intros Hv Hvn.
        destruct (H3 Hv Hvn) as [H4 H5]. split; [|apply Fn; [congruence|done]].
        apply (fl_f t _ _ _ _ R); [by rewrite Hp|done].
    Qed.

    (** *** A successful compare-exchange of [tos] *)
    Lemma keep_cas_tos :
      s_heap x' = s_heap x -> s_pool x' = s_pool x -> ((s_tos x).2 <= (s_tos x').2)%N ->
      V' = vset (vjoin (vw t) (w_tosv w)) (LRoot 1) (length (tos_hist x w)) ->
      RI x' (push_msg RTos x w V') g' vw'.
    Proof using HG HG' R Hth HR.
      intros Hh Hp Hle HV.
      assert (Wj : wfv w (vjoin (vw t) (w_tosv w))).
      { apply wfv_join; [apply HR|]. apply (ri_wfh _ _ _ _ _ HR RTos (s_tos x)).
        simpl. unfold tos_hist. apply elem_of_app. right. left. }
      assert (Hlen : length (tos_hist x w) = S (length (w_tos w))).
      { unfold tos_hist. rewrite app_length. simpl. lia. }
      assert (Wf : forall V, wfv w V -> wfv (push_msg RTos x w V') V).
      { intros V [W1 W2 W3 W4]. split; simpl; [done| |done|done]. lia. }
      assert (Hle' : vle (vjoin (vw t) (w_tosv w)) V').
      { rewrite HV. apply vle_vset. pose proof (wf_tos _ _ Wj). lia. }
      assert (Wt : wfv (push_msg RTos x w V') V').
      { destruct (Wf _ Wj) as [W1 W2 W3 W4]. rewrite HV.
        split; simpl; [by rewrite vset_ne|rewrite vset_eq; lia|..]; intros m; rewrite vset_ne by done; [apply W3|apply W4]. }
      assert (Fr : forall V m, fresh w V m -> fresh (push_msg RTos x w V') V m) by done.
      assert (L1 : vle (vw t) V'). { eapply vle_trans; [apply vle_join_l|done]. }
      assert (L2 : vle (w_tosv w) V'). { eapply vle_trans; [apply vle_join_r|done]. }
      split.
      - intros u. destruct (decide (u = t)) as [->|Hne]; [by rewrite set_view_eq|].
        rewrite set_view_ne by done. apply Wf, HR.
      - intros i v mv Hi. destruct i; simpl in Hi.
        + apply Wf, (ri_wfh _ _ _ _ _ HR RPool v). simpl. unfold pool_hist in *. simpl in Hi. by rewrite Hp in Hi.
        + unfold tos_hist in Hi at 1. simpl in Hi. apply elem_of_app in Hi as [Hi|Hi].
          * apply Wf, (ri_wfh _ _ _ _ _ HR RTos v). done.
          * apply elem_of_list_singleton in Hi. injection Hi as _ ->. done.
      - by apply ri_none_keep.
      - intros u m Hm. destruct (decide (u = t)) as [->|Hne].
        + rewrite set_view_eq.
          destruct (fl_mine c t x g x' g' HG R Hth m Hm) as [Ho|[[_ Ho]|[[Ho _]|[_ Ho]]]].
          * eapply fresh_le; [exact L1|done|]. apply Fr. by apply HR.
          * apply fresh_none; [done|]. simpl. by apply HR.
          * eapply fresh_le; [exact L2|done|]. apply Fr. by apply HR.
          * by rewrite Hp in Ho.
        + rewrite set_view_ne by done. apply Fr, HR. by apply (fl_other t x g x' g' R).
      - intros m Hm. simpl.
        apply (fl_to_q c t x g x' g') in Hm; [|done|done|done|done|by rewrite Hp|by rewrite Hh].
        destruct Hm as [Hm|Hm].
        + eapply fresh_le; [exact L2|done|]. apply Fr. by apply HR.
        + eapply fresh_le; [exact L1|done|]. apply Fr. by apply HR.
      - intros m Hm. apply Fr. simpl. apply HR. by eapply (fl_f_back c t x g x' g').
      - intros v mv Hi. unfold tos_hist in Hi at 1. simpl in Hi. apply elem_of_app in Hi as [Hi|Hi].
        + destruct (ri_tos _ _ _ _ _ HR v mv Hi) as (H1 & H2 & H3). split; [lia|].
          split; [by rewrite Hh|]. intros Hv Hn. destruct (H3 ltac:(lia) Hn) as [H4 H5].
          split; [|done]. apply (fl_q t _ _ _ _ R); [lia|done].
        + apply elem_of_list_singleton in Hi. injection Hi as -> ->. split; [lia|].
          assert (HQ : (s_tos x').1 <> null -> g_own g' !! (s_tos x').1 = Some OQ).
          { intros Hn. destruct (gi_tos_cons _ _ _ HG' Hn) as [l Hl]. apply (gi_mem _ _ _ HG'). rewrite Hl. left. }
          split; [intros Hn; eapply gi_own_dom; [exact HG'|auto]|]. intros _ Hn.
          specialize (HQ Hn). split; [done|].
          apply (fl_to_q c t x g x' g') in HQ; [|done|done|done|done|by rewrite Hp|by rewrite Hh].
          destruct HQ as [Hm|Hm].
          * eapply freshn_le; [exact L2|done|]. by apply HR.
          * eapply freshn_le; [exact L1|done|]. by apply (ri_own _ _ _ _ _ HR t).
      - intros v mv Hi. unfold pool_hist in Hi. simpl in Hi. rewrite Hp in Hi.
        destruct (ri_pool _ _ _ _ _ HR v mv Hi) as (H1 & H2 & H3).
        unfold RaStackInv.known_pool. rewrite Hp. split; [done|].
        split; [by rewrite Hh|]. intros Hv Hn.
        destruct (H3 Hv Hn) as [H4 H5]. split; [|done]. apply (fl_f t _ _ _ _ R); [by rewrite Hp|done].
    Qed.

    (** *** A successful compare-exchange of [pool_] *)
    Lemma keep_cas_pool :
      s_heap x' = s_heap x -> s_tos x' = s_tos x -> ((s_pool x).2 <= (s_pool x').2)%N ->
      V' = vset (vjoin (vw t) (w_poolv w)) (LRoot 0) (length (pool_hist x w)) ->
      RI x' (push_msg RPool x w V') g' vw'.
    Proof using HG HG' R Hth HR.
      intros Hh Hp Hle HV.
      assert (Wj : wfv w (vjoin (vw t) (w_poolv w))).
      { apply wfv_join; [apply HR|]. apply (ri_wfh _ _ _ _ _ HR RPool (s_pool x)).
        simpl. unfold pool_hist. apply elem_of_app. right. left. }
      assert (Hlen : length (pool_hist x w) = S (length (w_pool w))).
      { unfold pool_hist. rewrite app_length. simpl. lia. }
      assert (Wf : forall V, wfv w V -> wfv (push_msg RPool x w V') V).
      { intros V [W1 W2 W3 W4]. split; simpl; [|done..]. lia. }
      assert (Hle' : vle (vjoin (vw t) (w_poolv w)) V').
      { rewrite HV. apply vle_vset. pose proof (wf_pool _ _ Wj). lia. }
      assert (Wt : wfv (push_msg RPool x w V') V').
      { destruct (Wf _ Wj) as [W1 W2 W3 W4]. rewrite HV.
        split; simpl; [rewrite vset_eq; lia|by rewrite vset_ne|..]; intros m; rewrite vset_ne by done; [apply W3|apply W4]. }
      assert (Fr : forall V m, fresh w V m -> fresh (push_msg RPool x w V') V m) by done.
      assert (L1 : vle (vw t) V'). { eapply vle_trans; [apply vle_join_l|done]. }
      assert (L2 : vle (w_poolv w) V'). { eapply vle_trans; [apply vle_join_r|done]. }
      split.
      - intros u. destruct (decide (u = t)) as [->|Hne]; [by rewrite set_view_eq|].
        rewrite set_view_ne by done. apply Wf, HR.
      - intros i v mv Hi. destruct i; simpl in Hi.
        + unfold pool_hist in Hi at 1. simpl in Hi. apply elem_of_app in Hi as [Hi|Hi].
          * apply Wf, (ri_wfh _ _ _ _ _ HR RPool v). done.
          * apply elem_of_list_singleton in Hi. injection Hi as _ ->. done.
        + apply Wf, (ri_wfh _ _ _ _ _ HR RTos v). simpl. unfold tos_hist in *. simpl in Hi. by rewrite Hp in Hi.
      - by apply ri_none_keep.
      - intros u m Hm. destruct (decide (u = t)) as [->|Hne].
        + rewrite set_view_eq.
          destruct (fl_mine c t x g x' g' HG R Hth m Hm) as [Ho|[[_ Ho]|[[_ Ho]|[Ho _]]]].
          * eapply fresh_le; [exact L1|done|]. apply Fr. by apply HR.
          * apply fresh_none; [done|]. simpl. by apply HR.
          * by rewrite Hp in Ho.
          * eapply fresh_le; [exact L2|done|]. apply Fr. by apply HR.
        + rewrite set_view_ne by done. apply Fr, HR. by apply (fl_other t x g x' g' R).
      - intros m Hm. apply Fr. simpl. apply HR. by eapply (fl_q_back c t x g x' g').
      - intros m Hm. simpl.
        apply (fl_to_f c t x g x' g') in Hm; [|done|done|done|done|by rewrite Hp|by rewrite Hh].
        destruct Hm as [Hm|Hm].
        + eapply fresh_le; [exact L2|done|]. apply Fr. by apply HR.
        + eapply fresh_le; [exact L1|done|]. apply Fr. by apply HR.
      - intros v mv Hi. unfold tos_hist in Hi. simpl in Hi. rewrite Hp in Hi.
        destruct (ri_tos _ _ _ _ _ HR v mv Hi) as (H1 & H2 & H3).
        unfold RaStackInv.known_tos. rewrite Hp. split; [done|].
        split; [by rewrite Hh|]. intros Hv Hn.
        destruct (H3 Hv Hn) as [H4 H5]. split; [|done]. apply (fl_q t _ _ _ _ R); [by rewrite Hp|done].
      - intros v mv Hi. unfold pool_hist in Hi at 1. simpl in Hi. apply elem_of_app in Hi as [Hi|Hi].
        + destruct (ri_pool _ _ _ _ _ HR v mv Hi) as (H1 & H2 & H3). split; [lia|].
          split; [by rewrite Hh|]. intros Hv Hn. destruct (H3 ltac:(lia) Hn) as [H4 H5].
          split; [|done]. apply (fl_f t _ _ _ _ R); [lia|done].
        + apply elem_of_list_singleton in Hi. injection Hi as -> ->. split; [lia|].
          assert (HQ : (s_pool x').1 <> null -> g_own g' !! (s_pool x').1 = Some OF).
          { intros Hn. apply (ainv_load _ _ _ _ _ (gi_pi _ _ _ HG')); done. }
          split; [intros Hn; eapply gi_own_dom; [exact HG'|auto]|]. intros _ Hn.
          specialize (HQ Hn). split; [done|].
          apply (fl_to_f c t x g x' g') in HQ; [|done|done|done|done|by rewrite Hp|by rewrite Hh].
          destruct HQ as [Hm|Hm].
          * eapply freshn_le; [exact L2|done|]. by apply HR.
          * eapply freshn_le; [exact L1|done|]. by apply (ri_own _ _ _ _ _ HR t).
    Qed.

    (** *** What the other threads know stays true *)
    Lemma tv_keep w' u pc :
      u <> t -> StackInv.tinv c u pc x g ->
      (forall n V, g_own g !! n = Some OQ \/ g_own g !! n = Some OF -> freshn w V n -> freshn w' V n) ->
      tv c x w (vw u) pc -> tv c x' w' (vw u) pc.
    Proof using R.
      intros Hne HT Hf.
      destruct (rl_tos _ _ _ _ _ (R u Hne)) as [T1 T2].
      destruct (rl_pool _ _ _ _ _ (R u Hne)) as [P1 P2].
      assert (Ha : forall a, ainv c (s_heap x) (s_pool x) (g_own g) a ->
                tva c x w (vw u) a -> tva c x' w' (vw u) a).
      { intros a Hi. destruct a as [|old|old nxt]; simpl; [done| |done].
        destruct Hi as (H1 & H2 & H3). intros Hv Hp Hn.
        assert (old.2 = (s_pool x).2) as Hp' by lia. apply Hf; [right; auto|auto]. }
      destruct pc; simpl in *; try done.
      - apply Ha, HT.
      - apply Ha, HT.
      - destruct HT as (_ & _ & H1 & H2 & H3 & H4). intros Hv Ht.
        assert (old.2 = (s_tos x).2) as Ht' by lia. apply Hf; [left; auto|auto].
    Qed.
  End step.
End keep.
