(** * The stack on release/acquire memory: every execution satisfies the invariant *)
From stdpp Require Import gmap list numbers.
From Verif Require Import Lin PoolModel Chain PoolProofs StackModel StackSpec StackObs StackInv StackStep StackSafe
  RaMem RaFacts RaLin RaLog RaStackModel RaStackInv RaStackKeep RaStackStep.

Set Default Proof Using "Type".

(** A pending call can be forgotten. *)
Lemma lruns_cancel {op ret st} (spec : st -> op -> ret -> st -> Prop) a0 l ph a t o :
  lruns spec ∅ a0 l ph a -> ph !! t = Some (Pending o) -> exists l', lruns spec ∅ a0 l' (delete t ph) a.
Proof.
  intros HL. induction HL as [|l ph a t' o' HL IH Hn|l ph a t' o' r a' HL IH Hp Hs|l ph a t' o' r HL IH Hd];
    intros Ht.
  - by rewrite lookup_empty in Ht.
  - destruct (decide (t' = t)) as [->|Hne].
    + exists l. by rewrite delete_insert.
    + rewrite lookup_insert_ne in Ht by done. destruct (IH Ht) as [l' HL'].
      exists (l' ++ [Ev (Lin.Inv t' o')]). rewrite delete_insert_ne by done.
      constructor; [done|]. by rewrite lookup_delete_ne.
  - destruct (decide (t' = t)) as [->|Hne]; [by rewrite lookup_insert in Ht|].
    rewrite lookup_insert_ne in Ht by done. destruct (IH Ht) as [l' HL'].
    exists (l' ++ [Lin t' o' r]). rewrite delete_insert_ne by done.
    eapply lrun_lin; [done| |done]. by rewrite lookup_delete_ne.
  - destruct (decide (t' = t)) as [->|Hne]; [by rewrite lookup_delete in Ht|].
    rewrite lookup_delete_ne in Ht by done. destruct (IH Ht) as [l' HL'].
    exists (l' ++ [Ev (Res t' r)]). rewrite delete_commute. eapply lrun_res; [done|].
    by rewrite lookup_delete_ne.
Qed.

(** The views of the messages of an atomic word. *)
Definition views (i : root) (w : wmem) : list view :=
  match i with RPool => (w_pool w).*2 ++ [w_poolv w] | RTos => (w_tos w).*2 ++ [w_tosv w] end.

Lemma hist_views i x w : (hist i x w).*2 = views i w.
Proof. destruct i; simpl; unfold pool_hist, tos_hist; by rewrite fmap_app. Qed.

Lemma views_hist i x w A : A ∈ views i w <-> exists v, (v, A) ∈ hist i x w.
Proof.
  rewrite <- (hist_views i x), elem_of_list_fmap. split.
  - intros ([v A'] & -> & Hin). eauto.
  - intros [v Hin]. by exists (v, A).
Qed.

(** Where the views come from. *)
Lemma rtstep_made c acq x w V pc ts sp addr x' w' V' pc' :
  (forall i v A, (v, A) ∈ hist i x w -> wfv w A) -> (forall n, V (LNext n) <= length (w_next w n)) ->
  (forall n, V (LData n) <= w_acc w n) ->
  rtstep c acq x w V pc ts sp addr = RGo x' w' V' pc' ->
  made (fun A => A = V \/ exists i, A ∈ views i w) V' /\
  (forall i A, A ∈ views i w' -> A = V' \/ A ∈ views i w).
Proof.
  intros Hwf Hvn Hvd.
  assert (Hset : forall l k, (forall t, l <> LClk t) -> V l <= k ->
    made (fun A => A = V \/ exists i, A ∈ views i w) (vset V l k)).
  { intros l k Hl Hk t. exists V. split; [by left|]. split; [by apply vle_vset|].
    rewrite vset_ne; [done|]. intros E. by apply (Hl t). }
  assert (Hjoin : forall i v mv l k, (v, mv) ∈ hist i x w -> (forall t, l <> LClk t) -> V l <= k ->
    made (fun A => A = V \/ exists i, A ∈ views i w) (vjoin (vset V l k) mv)).
  { intros i v mv l k Hin Hl Hk t. destruct (decide (mv (LClk t) <= V (LClk t))) as [Hle|Hgt].
    - exists V. split; [by left|]. split; [eapply vle_trans; [by apply vle_vset|apply vle_join_l]|].
      unfold vjoin. rewrite vset_ne; [lia|]. intros E. by apply (Hl t).
    - exists mv. split; [right; exists i; apply (views_hist i x); eauto|]. split; [apply vle_join_r|].
      unfold vjoin. rewrite vset_ne; [lia|]. intros E. by apply (Hl t). }
  assert (Hid : made (fun A => A = V \/ exists i, A ∈ views i w) V).
  { intros t. exists V. split; [by left|]. split; [apply vle_refl|done]. }
  assert (Hr : forall i t, rloc i <> LClk t) by (by intros []).
  unfold rtstep. destruct (saccess c acq pc) as [|i a|i old|n|n|n] eqn:Ha.
  - unfold rwrite. destruct (tstep c x pc sp addr false); intros [= <- <- <- <-]. auto.
  - destruct (hist i x w !! ts) as [[v mv]|] eqn:Hh; [|done]. case_decide; [|done].
    unfold rread. destruct (tstep c (see i x v) pc sp addr false); intros [= <- <- <- <-].
    split; [|auto]. apply elem_of_list_lookup_2 in Hh. destruct a; [by eapply Hjoin|].
    assert (E : forall l, vjoin (vset V (rloc i) ts) v0 l = vset V (rloc i) ts l).
    { intros l. unfold vjoin, v0. lia. }
    intros t. destruct (Hset (rloc i) ts (Hr i) ltac:(done) t) as (A & HA & Hle & Hc).
    exists A. split; [done|]. split; [intros l; rewrite E; apply Hle|by rewrite E].
  - destruct (hist i x w !! ts) as [[v mv]|] eqn:Hh; [|done]. apply elem_of_list_lookup_2 in Hh.
    case_decide; [|done]. case_decide as Hc.
    + unfold rwrite. destruct (tstep c x pc false addr false); intros [= <- <- <- <-].
      split.
      * intros t. assert (E : vset (vjoin V mv) (rloc i) (S ts) (LClk t) = V (LClk t) `max` mv (LClk t)).
        { rewrite vset_ne; [done|]. intros E'. by apply (Hr i t). }
        assert (L1 : vle V (vset (vjoin V mv) (rloc i) (S ts))).
        { intros l. unfold vset, vjoin. case_decide; subst; lia. }
        destruct (decide (mv (LClk t) <= V (LClk t))) as [Hle|Hgt].
        -- exists V. split; [by left|]. split; [done|lia].
        -- exists mv. split; [right; exists i; apply (views_hist i x); eauto|]. split; [|lia].
           intros l. unfold vset, vjoin. case_decide as El; [subst l|lia].
           destruct Hc as (Hl & _). destruct (Hwf _ _ _ Hh) as [W1 W2 _ _].
           destruct i; simpl in *; unfold pool_hist, tos_hist in Hl; rewrite app_length in Hl; simpl in Hl; lia.
      * intros j A. destruct i, j; simpl; unfold pool_hist, tos_hist; rewrite ?fmap_app; simpl; auto;
          rewrite elem_of_app, elem_of_list_singleton; intros [?|?]; auto.
    + unfold rread. destruct (tstep c (see i x v) pc true addr false); intros [= <- <- <- <-].
      split; [by eapply Hjoin|auto].
  - destruct (s_heap x !! n) as [nd|]; [|done]. destruct (next_hist nd w n !! ts) as [p|]; [|done].
    case_decide; [|done]. unfold rread.
    destruct (tstep c (see_next x n p nd) pc sp addr false); intros [= <- <- <- <-]. split; [by apply Hset|auto].
  - destruct (s_heap x !! n) as [nd|]; [|done]. case_decide; [|done]. unfold rwrite.
    destruct (tstep c x pc sp addr false); intros [= <- <- <- <-].
    split; [apply Hset; [done|lia]|]. intros i A. by destruct i; right.
  - case_decide; [|done]. unfold rwrite.
    destruct (tstep c x pc sp addr false); intros [= <- <- <- <-].
    split; [apply Hset; [done|lia]|]. intros i A. by destruct i; right.
Qed.

Section safe.
  Context (c : cfg) (Htag : c_tagmod c = None) (Hth : c_throws c = false).
  Notation null := (c_null c).
  Notation spec := (sspec (c_node_based c) (c_throws c)).
  Notation GI := (GI c).
  Notation tinv := (tinv c).
  Notation RI := (RI c).
  Notation tv := (tv c).
  Notation rstep := (rstep c true).

  Record lghost := LGh {
    lg_ph : gmap nat (phase sop sret);
    lg_cur : gmap nat nat;
    lg_log : list (nat * (nat * sop * sret));
    lg_conts : list (list N);
  }.

  Definition live (s : rstate) (tr : list (sevent * view)) (A : view) : Prop :=
    (exists u, A = r_view s u) \/ (exists i, A ∈ views i (r_w s)) \/ (exists p e, tr !! p = Some (e, A)).

  (** A thread is inside a call that it has not yet told the old ghost state, but
      that is decided in the new one. *)
  Definition skip (t : nat) (pc : spc) (g : ghost) (ph : gmap nat (phase sop sret)) : Prop :=
    exists o r, pc = PcRet r /\ pend g t o /\ owns t g [] /\ ph !! t = Some (Done o r).

  Definition rthread (t : nat) (pc : spc) (s : rstate) (g : ghost) (ph : gmap nat (phase sop sret)) : Prop :=
    (tinv t pc (r_x s) g /\ tv (r_x s) (r_w s) (r_view s t) pc /\ ph !! t = g_ph g !! t) \/ skip t pc g ph.

  Record RInv (s : rstate) (tr : list (sevent * view)) (g : ghost) (lg : lghost) : Prop := {
    in_g : GI (r_x s) g;
    in_r : RI (r_x s) (r_w s) g (r_view s);
    in_t : forall t, match r_pcs s !! t with
                     | None => g_ph g !! t = None /\ lg_ph lg !! t = None /\ owns t g []
                     | Some pc => rthread t pc s g (lg_ph lg)
                     end;
    in_l : RL [] spec (LRoot 1) tr (lg_ph lg) (lg_cur lg) (lg_log lg) (lg_conts lg)
             (views RTos (r_w s)) (r_view s);
    in_c : CK tr (live s tr) (r_view s);
    in_a : list.last (lg_conts lg) = Some (g_a g);
    in_n : forall k v mv a, tos_hist (r_x s) (r_w s) !! k = Some (v, mv) -> lg_conts lg !! k = Some a ->
             v.1 = null <-> a = [];
  }.

  (** ** Stability *)

  Lemma rthread_stable t u pc s g ph s' g' ph' :
    u <> t -> rely u (r_x s) g (r_x s') g' -> r_view s' u = r_view s u -> ph' !! u = ph !! u ->
    (tinv u pc (r_x s) g -> tv (r_x s) (r_w s) (r_view s u) pc -> tv (r_x s') (r_w s') (r_view s u) pc) ->
    rthread u pc s g ph -> rthread u pc s' g' ph'.
  Proof.
    intros Hne R Hv Hp Htv [(H1 & H2 & H3)|(o & r & H1 & H2 & H3 & H4)].
    - left. split; [by eapply tinv_stable|]. split; [rewrite Hv; by apply Htv|].
      rewrite Hp, H3. symmetry. apply (rl_ph _ _ _ _ _ R).
    - right. exists o, r. split; [done|]. split; [by eapply pend_stable|]. split; [by eapply owns_stable|].
      by rewrite Hp.
  Qed.

  Lemma act_cancel x g t o :
    GI x g -> pend g t o -> exists l, let g' := g_tr g l (delete t (g_ph g)) (g_a g) in
      GI x g' /\ (forall t', t' <> t -> rely t' x g x g').
  Proof.
    intros HG Hp. destruct (lruns_cancel spec [] _ _ _ t o (gi_run _ _ _ HG) Hp) as [l HL].
    exists l. split.
    - destruct HG. split; try done.
    - intros t' Hne. apply (rely_mem t); try done; simpl. by rewrite lookup_delete_ne.
  Qed.

  Lemma views_len w : length (views RTos w) = S (length (w_tos w)).
  Proof. simpl. rewrite app_length, fmap_length. simpl. lia. Qed.

  Lemma wfv_len w V : wfv w V -> V (LRoot 1) < length (views RTos w).
  Proof. intros [_ H _ _]. rewrite views_len. lia. Qed.

  Lemma start_tv o pc x w V : sstart c o = Some pc -> tv x w V pc.
  Proof.
    destruct o; simpl; try done; try (destruct (c_node_based c); [|done]); by intros [= <-].
  Qed.

  (** An event of [t] that only changes its view, its call and the phases. *)
  Lemma live_event s tr t e V pcs W :
    live (RSt (r_x s) (r_w s) pcs (set_view (r_view s) t V)) (tr ++ [(e, V)]) W -> live s tr W \/ W = V.
  Proof.
    intros [[u ->]|[H|(p & e' & Hp)]].
    - simpl. unfold set_view. case_decide; [by right|]. left. left. eauto.
    - left. right. by left.
    - apply lookup_snoc_inv in Hp as [[Hp _]|[_ Hp]]; [left; right; right; eauto|right; congruence].
  Qed.

  Lemma ri_view x w g vw t V :
    GI x g -> RI x w g vw -> vle (vw t) V -> wfv w V -> RI x w g (set_view vw t V).
  Proof using Hth.
    intros HG HR Hle Hwf. apply (keep_view c t x g x g w vw V HG HG); try done.
  Qed.

  Lemma rstep_ok s tr g lg ch :
    RInv s tr g lg -> (forall t o, ch = RInvoke t o -> nonempty_op o) ->
    match rstep s ch with
    | RRace | RUB => False
    | RDisabled => True
    | RNext s' evs => exists g' lg', RInv s' (tr ++ evs) g' lg'
    end.
  Proof using Htag Hth.
    intros [HG HR HT HL HC Ha Hn] Hch. destruct ch as [t o|t ts sp addr|t u]; simpl.
    - (* call *)
      pose proof (HT t) as Ht. destruct (r_pcs s !! t) as [pc|] eqn:Hpc; [done|].
      destruct (sstart c o) as [pc|] eqn:Hs; [|done].
      destruct Ht as (Ht1 & Ht2 & HN). destruct (act_inv c _ _ _ o HG Ht1) as [HG' R].
      exists (g_tr g (g_l g ++ [Ev (Lin.Inv t o)]) (<[t := Pending o]> (g_ph g)) (g_a g)).
      exists (LGh (<[t := Pending o]> (lg_ph lg)) (<[t := length tr]> (lg_cur lg)) (lg_log lg) (lg_conts lg)).
      set (V := tick t (r_view s t)).
      assert (Hle : vle (r_view s t) V) by apply vle_tick.
      assert (Hwf : wfv (r_w s) V) by (apply wfv_tick, HR).
      split; simpl.
      + done.
      + apply (keep_view c t _ _ _ _ (r_w s) (r_view s) V HG HG' R Hth HR); done.
      + intros u. destruct (decide (t = u)) as [<-|Hne].
        * rewrite lookup_insert. left. simpl. split; [|split].
          -- eapply sstart_ok; [done|by eapply Hch|done|]. unfold pend. simpl. by rewrite lookup_insert.
          -- by eapply start_tv.
          -- by rewrite !lookup_insert.
        * rewrite !lookup_insert_ne by done. pose proof (HT u) as Hu.
          destruct (r_pcs s !! u) as [pc'|]; [|done].
          eapply (rthread_stable t); [done| | | | |exact Hu]; simpl.
          -- by apply R.
          -- by rewrite set_view_ne.
          -- by rewrite lookup_insert_ne.
          -- done.
      + apply lo_inv; [done|done|done|]. unfold V, tick. by rewrite vset_ne.
      + apply (ck_event tr (live s tr)); [done|done| | |].
        * intros W HW. by eapply live_event.
        * intros u. left. by exists u.
        * intros p e' W Hp. right. right. eauto.
      + done.
      + done.
    - (* step *)
      pose proof (HT t) as Ht. destruct (r_pcs s !! t) as [pc|] eqn:Hpc; [|done].
      assert (Hret : forall r, pc = PcRet r -> exists g' lg',
        RInv (RSt (r_x s) (r_w s) (delete t (r_pcs s)) (set_view (r_view s) t (tick t (r_view s t))))
             (tr ++ [(Res t r, tick t (r_view s t))]) g' lg').
      { intros r ->. set (V := tick t (r_view s t)).
        assert (Hle : vle (r_view s t) V) by apply vle_tick.
        assert (Hwf : wfv (r_w s) V) by (apply wfv_tick, HR).
        assert (Hg' : exists l, let g' := g_tr g l (delete t (g_ph g)) (g_a g) in
          GI (r_x s) g' /\ (forall u, u <> t -> rely u (r_x s) g (r_x s) g') /\ owns t g' [] /\
          exists o, lg_ph lg !! t = Some (Done o r)).
        { destruct Ht as [((Ho & o & Hf) & _ & Hp)|(o & r' & Hr & Hp & Ho & Hd)].
          - exists (g_l g ++ [Ev (Res t r)]). destruct (act_res c _ _ _ _ _ HG Hf) as [HG' R].
            split; [done|]. split; [done|]. split; [done|]. exists o. by rewrite Hp.
          - injection Hr as ->. destruct (act_cancel _ _ _ _ HG Hp) as (l & HG' & R). exists l.
            split; [done|]. split; [done|]. split; [done|]. by exists o. }
        destruct Hg' as (l & HG' & R & Ho & o & Hd).
        exists (g_tr g l (delete t (g_ph g)) (g_a g)).
        exists (LGh (delete t (lg_ph lg)) (delete t (lg_cur lg)) (lg_log lg) (lg_conts lg)).
        split; simpl.
        + done.
        + apply (keep_view c t _ _ _ _ (r_w s) (r_view s) V HG HG' R Hth HR); done.
        + intros u. destruct (decide (t = u)) as [<-|Hne].
          * rewrite !lookup_delete. done.
          * rewrite !lookup_delete_ne by done. pose proof (HT u) as Hu.
            destruct (r_pcs s !! u) as [pc'|]; [|done].
            eapply (rthread_stable t); [done| | | | |exact Hu]; simpl.
            -- by apply R.
            -- by rewrite set_view_ne.
            -- by rewrite lookup_delete_ne.
            -- done.
        + eapply lo_res; [done|done|done|]. unfold V, tick. by rewrite vset_ne.
        + apply (ck_event tr (live s tr)); [done|done| | |].
          * intros W HW. by eapply live_event.
          * intros u. left. by exists u.
          * intros p e' W Hp. right. right. eauto.
        + done.
        + done. }
      assert (Hgo : (forall r, pc <> PcRet r) ->
        match rtstep c true (r_x s) (r_w s) (r_view s t) pc ts sp addr with
        | RGo x w V pc' => exists g' lg',
            RInv (RSt x w (<[t := pc']> (r_pcs s)) (set_view (r_view s) t V)) (tr ++ []) g' lg'
        | RGRace | RGUB => False
        | RGDisabled => True
        end).
      { intros Hnr. destruct Ht as [(HTi & Htv & Hph)|(o & r & Hr & _)]; [|by destruct (Hnr r)].
        pose proof (rtstep_ok c Htag Hth t _ _ _ _ pc ts sp addr Hnr HG HR HTi Htv) as Hok.
        destruct (rtstep c true (r_x s) (r_w s) (r_view s t) pc ts sp addr) as [x' w' V' pc'| | |] eqn:Hst;
          [|done|done|done].
        destruct Hok as (g' & HG' & HR' & Hle & R & Hoth & Hout).
        destruct (rtstep_made _ _ _ _ _ _ _ _ _ _ _ _ _
          (ri_wfh _ _ _ _ _ HR) (wf_next _ _ (ri_wf _ _ _ _ _ HR t)) (wf_data _ _ (ri_wf _ _ _ _ _ HR t)) Hst) as [Hm Hv].
        assert (Hwf' : wfv w' V').
        { pose proof (ri_wf _ _ _ _ _ HR' t) as Hw. by rewrite set_view_eq in Hw. }
        (* everything except the log *)
        assert (Hrest : forall ph cur log conts,
          RL [] spec (LRoot 1) tr ph cur log conts (views RTos w') (set_view (r_view s) t V') ->
          list.last conts = Some (g_a g') ->
          (forall u, u <> t -> ph !! u = lg_ph lg !! u) ->
          (forall k v mv a, tos_hist x' w' !! k = Some (v, mv) -> conts !! k = Some a -> v.1 = null <-> a = []) ->
          rthread t pc' (RSt x' w' (<[t := pc']> (r_pcs s)) (set_view (r_view s) t V')) g' ph ->
          exists g' lg', RInv (RSt x' w' (<[t := pc']> (r_pcs s)) (set_view (r_view s) t V')) (tr ++ []) g' lg').
        { intros ph cur log conts HL' Ha' Hph' Hn' Ht'. rewrite app_nil_r.
          exists g', (LGh ph cur log conts). split; simpl.
          - done.
          - done.
          - intros u. destruct (decide (t = u)) as [<-|Hne]; [by rewrite lookup_insert|].
            rewrite !lookup_insert_ne by done. pose proof (HT u) as Hu.
            destruct (r_pcs s !! u) as [pc0|].
            + eapply (rthread_stable t); [done| | | | |exact Hu]; simpl.
              * by apply R.
              * by rewrite set_view_ne.
              * by apply Hph'.
              * intros H1 H2. by apply Hoth.
            + destruct Hu as (Hu1 & Hu2 & Hu3). rewrite (rl_ph _ _ _ _ _ (R u ltac:(done))), Hph' by done.
              split; [done|]. split; [done|]. eapply owns_stable; [by apply R|done].
          - done.
          - apply (ck_made tr (live s tr)); [done| |done| | |].
            + intros u. destruct (Hm u) as (A & HA & H1 & H2). exists A. split; [|done].
              destruct HA as [->|[i Hi]]; [left; eauto|right; left; eauto].
            + intros W [[u ->]|[[i Hi]|(p & e' & Hp)]].
              * simpl. unfold set_view. case_decide; [by right|]. left. left. eauto.
              * simpl in Hi. destruct (Hv _ _ Hi) as [->|Hi']; [by right|]. left. right. left. eauto.
              * left. right. right. eauto.
            + intros u. left. by exists u.
            + intros p e' W Hp. right. right. eauto.
          - done.
          - done. }
        destruct Hout as [(HTi' & Htv' & Hk)|(-> & -> & -> & Hlook)].
        - assert (Htl : forall a, tos_hist x' w' = tos_hist (r_x s) (r_w s) -> a = g_a g ->
            list.last (lg_conts lg) = Some a) by (by intros a _ ->).
          assert (Hvv : tos_hist x' w' = tos_hist (r_x s) (r_w s) -> views RTos w' = views RTos (r_w s)).
          { intros E. rewrite <- (hist_views RTos x'), <- (hist_views RTos (r_x s)). simpl. by rewrite E. }
          destruct Hk as [E1 E2 E3|o r P F Hneu E2 E3|o r P F Hsp E3 E4 E5].
          + apply (Hrest (lg_ph lg) (lg_cur lg) (lg_log lg) (lg_conts lg)).
            * rewrite (Hvv E3). apply lo_view; [done|done|]. rewrite <- (Hvv E3). by apply wfv_len.
            * by rewrite E2.
            * done.
            * rewrite E3. done.
            * left. simpl. rewrite set_view_eq. split; [done|]. split; [done|]. by rewrite Hph.
          + assert (Hp : lg_ph lg !! t = Some (Pending o)) by (rewrite Hph; exact P).
            destruct (lookup_lt_is_Some_2 (lg_conts lg) (r_view s t (LRoot 1))) as [a Hka].
            { rewrite (lo_len _ _ _ _ _ _ _ _ _ _ HL). apply (lo_wf _ _ _ _ _ _ _ _ _ _ HL). }
            destruct (lo_look _ _ _ _ _ _ _ _ _ _ t o r V' (r_view s t (LRoot 1)) a HL Hp Hle) as [log' HL'].
            * rewrite <- (Hvv E3). by apply wfv_len.
            * specialize (Hle (LRoot 1)). lia.
            * done.
            * by apply Hneu.
            * intros Hc. by destruct Hc.
            * eapply Hrest.
              -- rewrite (Hvv E3). exact HL'.
              -- by rewrite E2.
              -- intros u Hu. by rewrite lookup_insert_ne.
              -- rewrite E3. done.
              -- left. simpl. rewrite set_view_eq. split; [done|]. split; [done|]. rewrite lookup_insert.
                 symmetry. exact F.
          + assert (Hp : lg_ph lg !! t = Some (Pending o)) by (rewrite Hph; exact P).
            assert (Hvv' : views RTos w' = views RTos (r_w s) ++ [V']).
            { rewrite <- (hist_views RTos x'), <- (hist_views RTos (r_x s)). simpl. by rewrite E3, fmap_app. }
            destruct (lo_effect _ _ _ _ _ _ _ _ _ _ t o r V' (g_a g) (g_a g') (w_tosv (r_w s)) HL Hp Hle) as [log' HL'].
            * rewrite E4. rewrite views_len. unfold tos_hist. rewrite app_length. simpl. lia.
            * done.
            * simpl. by rewrite last_snoc.
            * done.
            * done.
            * eapply Hrest.
              -- rewrite Hvv'. exact HL'.
              -- by rewrite last_snoc.
              -- intros u Hu. by rewrite lookup_insert_ne.
              -- intros k v mv a Hk Hka. rewrite E3 in Hk.
                 assert (Hll : length (lg_conts lg) = length (tos_hist (r_x s) (r_w s))).
                 { rewrite (lo_len _ _ _ _ _ _ _ _ _ _ HL). rewrite views_len. unfold tos_hist. rewrite app_length. simpl. lia. }
                 apply lookup_snoc_inv in Hk as [[Hk Hlt]|[-> Hk]].
                 ++ rewrite lookup_app_l in Hka by (rewrite Hll; by eapply lookup_lt_Some). by eapply Hn.
                 ++ injection Hk as -> ->. rewrite lookup_app_r in Hka by (rewrite Hll; apply Nat.le_refl).
                    rewrite Hll in Hka. setoid_rewrite Nat.sub_diag in Hka.
                    injection Hka as <-. by rewrite (gi_tos_null _ _ _ HG'), (gi_a_nil _ _ _ HG').
              -- left. simpl. rewrite set_view_eq. split; [done|]. split; [done|]. rewrite lookup_insert.
                 symmetry. exact F.
        - (* the call has looked at tos *)
          destruct Hlook as (o & r & k & v & mv & -> & P & Ho & Hk & Hkk & Hmv & Hlk).
          assert (Hp : lg_ph lg !! t = Some (Pending o)) by (rewrite Hph; exact P).
          assert (Hll : length (lg_conts lg) = length (tos_hist (r_x s) (r_w s))).
          { rewrite (lo_len _ _ _ _ _ _ _ _ _ _ HL). rewrite views_len. unfold tos_hist. rewrite app_length. simpl. lia. }
          destruct (lookup_lt_is_Some_2 (lg_conts lg) k) as [a Hka].
          { rewrite Hll. by eapply lookup_lt_Some. }
          assert (Hsp : spec a o r a).
          { pose proof (Hn _ _ _ _ Hk Hka) as Hiff. rewrite (bool_decide_ext _ _ Hiff) in Hlk.
            inversion Hlk as [E1 E2 E3|rev E1 E2 E3|b E1 E2 E3].
            - symmetry in E3. apply bool_decide_eq_true in E3 as ->. constructor.
            - symmetry in E3. apply bool_decide_eq_true in E3 as ->.
              pose proof (ss_all (c_node_based c) (c_throws c) [] rev) as Hsa. by destruct rev.
            - constructor. }
          destruct (lo_look _ _ _ _ _ _ _ _ _ _ t o r V' k a HL Hp Hle) as [log' HL'].
          + by apply wfv_len.
          + done.
          + done.
          + done.
          + intros _. exists mv. split; [|done]. rewrite <- (hist_views RTos (r_x s)), list_lookup_fmap.
            exact (f_equal (fmap snd) Hk).
          + eapply Hrest.
            * exact HL'.
            * done.
            * intros u Hu. by rewrite lookup_insert_ne.
            * done.
            * right. exists o, r. split; [done|]. split; [done|]. split; [done|]. by rewrite lookup_insert. }
      destruct pc; try (specialize (Hgo ltac:(done));
        destruct (rtstep c true (r_x s) (r_w s) (r_view s t) _ ts sp addr); exact Hgo).
      by apply Hret.
    - (* synchronization outside the stack *)
      set (V := vjoin (r_view s u) (r_view s t)).
      assert (Hle : vle (r_view s u) V) by apply vle_join_l.
      assert (Hwf : wfv (r_w s) V) by (apply wfv_join; apply HR).
      exists g, lg. rewrite app_nil_r. split; simpl.
      + done.
      + by apply ri_view.
      + intros t'. pose proof (HT t') as Ht'. destruct (r_pcs s !! t') as [pc|]; [|done].
        destruct Ht' as [(H1 & H2 & H3)|Hsk]; [|by right]. left. simpl. split; [done|]. split; [|done].
        destruct (decide (t' = u)) as [->|Hne]; [|by rewrite set_view_ne].
        rewrite set_view_eq.
        assert (Hfr : forall n, freshn (r_w s) (r_view s u) n -> freshn (r_w s) V n).
        { intros n. by apply freshn_le. }
        destruct pc; simpl in *; try done; try (destruct a; simpl in *; try done; intros; apply Hfr; auto).
        intros; apply Hfr; auto.
      + apply lo_view; [done|done|]. by apply wfv_len.
      + apply (ck_made tr (live s tr)); [done| |done| | |].
        * intros v. destruct (decide (r_view s t (LClk v) <= r_view s u (LClk v))).
          -- exists (r_view s u). split; [left; eauto|]. split; [done|]. unfold V, vjoin. lia.
          -- exists (r_view s t). split; [left; eauto|]. split; [apply vle_join_r|]. unfold V, vjoin. lia.
        * intros W [[v ->]|[Hi|Hp]].
          -- simpl. unfold set_view. case_decide; [by right|]. left. left. eauto.
          -- left. right. by left.
          -- left. right. by right.
        * intros v. left. by exists v.
        * intros p e' W Hp. right. right. eauto.
      + done.
      + done.
  Qed.

  (** ** Initial state *)

  Lemma rinit_ok ns : NoDup ns -> null ∉ ns -> exists g lg, RInv (rinit c ns) [] g lg.
  Proof.
    intros Hnd Hnn. destruct (sinit_ok c ns Hnd Hnn) as (g & [HG HT] & Hl & Ha & _).
    exists g, (LGh ∅ ∅ [] [[]]).
    assert (Hw0 : forall w, wfv w v0) by apply wfv_v0.
    assert (Hph : forall t, g_ph g !! t = None /\ owns t g []).
    { intros t. specialize (HT t). replace (s_pcs (sinit c ns) !! t) with (None : option spc) in HT; [done|].
      unfold sinit. destruct (pool_init c None ns). simpl. by rewrite lookup_empty. }
    split; simpl.
    - done.
    - split; simpl.
      + intros t. apply Hw0.
      + intros i v mv Hi. destruct i; simpl in Hi; apply elem_of_list_singleton in Hi; simplify_eq; apply Hw0.
      + done.
      + intros t n _. done.
      + intros n _. done.
      + intros n _. done.
      + intros v mv Hi. apply elem_of_list_singleton in Hi. simplify_eq.
        split; [lia|]. split.
        * intros Hv. by apply (cinv_load _ _ _ HG).
        * intros _ Hv. split; [|done]. by apply (cinv_load _ _ _ HG).
      + intros v mv Hi. apply elem_of_list_singleton in Hi. simplify_eq.
        destruct (ainv_load c _ _ _ _ (gi_pi _ _ _ HG)) as (A1 & A2 & A3).
        split; [done|]. split; [done|]. intros E Hv. split; [by apply A3|done].
    - intros t. rewrite !lookup_empty. destruct (Hph t). done.
    - split; simpl; try done.
      + intros t. unfold v0. lia.
      + intros k e Hin. by apply elem_of_nil in Hin.
      + intros k a Hk. destruct k; simpl in Hk; [|done]. injection Hk as <-. constructor.
      + constructor.
      + intros k i o r Hin. by apply elem_of_nil in Hin.
      + intros t [? Hc]. by rewrite lookup_empty in Hc.
      + intros i j t o r (Hc & _). done.
    - split; simpl; try done.
      + intros W t [[u ->]|[[i Hi]|(p & e & Hp)]]; [done| |done].
        destruct i; simpl in Hi; apply elem_of_list_singleton in Hi; by subst W.
      + intros t. left. by exists t.
    - by rewrite Ha.
    - intros k v mv a Hk Hka. destruct k; [|done]. simpl in Hk, Hka. simplify_eq.
      rewrite (gi_tos_null _ _ _ HG), (gi_a_nil _ _ _ HG), Ha. done.
  Qed.

  Lemma rexec_ok ns tr s :
    NoDup ns -> null ∉ ns -> rexec c true (rinit c ns) tr s -> hist_ok tr.*1 -> exists g lg, RInv s tr g lg.
  Proof using Htag Hth.
    intros Hnd Hnn. induction 1 as [|tr s ch s' evs He IH Hs]; intros Hok.
    - by apply rinit_ok.
    - rewrite fmap_app in Hok. apply hist_ok_app in Hok as [Hok1 Hok2].
      destruct (IH Hok1) as (g & lg & HI).
      pose proof (rstep_ok s tr g lg ch HI) as Hst. rewrite Hs in Hst. apply Hst.
      intros t o ->. simpl in Hs. destruct (r_pcs s !! t), (sstart c o); try done.
      injection Hs as <- <-. apply (Hok2 t). left.
  Qed.
End safe.
