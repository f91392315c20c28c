(** * Invariant of the stack on release/acquire memory *)
From stdpp Require Import gmap list numbers.
From Verif Require Import Lin PoolModel Chain PoolProofs StackModel StackSpec StackObs StackInv StackStep
  RaMem RaFacts RaStackModel.

Set Default Proof Using "Type".

Section inv.
  Context (c : cfg) (acq : bool).
  Notation null := (c_null c).
  Notation GI := (GI c).
  Notation tinv := (tinv c).

  (** [V] has seen the last write to the link resp. the last access to the
      element of [n]. *)
  Definition freshn (w : wmem) (V : view) (n : N) : Prop := V (LNext n) = length (w_next w n).
  Definition freshd (w : wmem) (V : view) (n : N) : Prop := V (LData n) = w_acc w n.
  Definition fresh (w : wmem) (V : view) (n : N) : Prop := freshn w V n /\ freshd w V n.

  (** [V] does not point into the future. *)
  Record wfv (w : wmem) (V : view) : Prop := {
    wf_pool : V (LRoot 0) <= length (w_pool w);
    wf_tos : V (LRoot 1) <= length (w_tos w);
    wf_next : forall n, V (LNext n) <= length (w_next w n);
    wf_data : forall n, V (LData n) <= w_acc w n;
  }.

  (** What is known about a value that [tos] resp. [pool_] had at some time. *)
  Definition known_tos (x : sshared) (w : wmem) (g : ghost) (v : tagged) (V : view) : Prop :=
    (v.2 <= (s_tos x).2)%N /\ (v.1 <> null -> is_Some (s_heap x !! v.1)) /\
    (v.2 = (s_tos x).2 -> v.1 <> null -> g_own g !! v.1 = Some OQ /\ freshn w V v.1).
  Definition known_pool (x : sshared) (w : wmem) (g : ghost) (v : tagged) (V : view) : Prop :=
    (v.2 <= (s_pool x).2)%N /\ (v.1 <> null -> is_Some (s_heap x !! v.1)) /\
    (v.2 = (s_pool x).2 -> v.1 <> null -> g_own g !! v.1 = Some OF /\ freshn w V v.1).

  Record RI (x : sshared) (w : wmem) (g : ghost) (vw : nat -> view) : Prop := {
    ri_wf : forall t, wfv w (vw t);
    ri_wfh : forall i v mv, (v, mv) ∈ hist i x w -> wfv w mv;
    ri_none : forall n, s_heap x !! n = None -> w_next w n = [] /\ w_acc w n = 0;
    ri_own : forall t n, g_own g !! n = Some (OT t) -> fresh w (vw t) n;
    ri_q : forall n, g_own g !! n = Some OQ -> fresh w (w_tosv w) n;
    ri_f : forall n, g_own g !! n = Some OF -> fresh w (w_poolv w) n;
    ri_tos : forall v mv, (v, mv) ∈ tos_hist x w -> known_tos x w g v mv;
    ri_pool : forall v mv, (v, mv) ∈ pool_hist x w -> known_pool x w g v mv;
  }.

  (** What the view of a thread must have seen at a program counter. *)
  Definition tva (x : sshared) (w : wmem) (V : view) (a : apc) : Prop :=
    match a with
    | ATest old => old.2 = (s_pool x).2 -> old.1 <> null -> freshn w V old.1
    | _ => True
    end.
  Definition tv (x : sshared) (w : wmem) (V : view) (pc : spc) : Prop :=
    match pc with
    | PcAlloc _ _ a | PcRAlloc _ _ _ _ a => tva x w V a
    | PcCNext old => old.2 = (s_tos x).2 -> freshn w V old.1
    | _ => True
    end.

  (** ** Views *)

  Lemma wfv_le w V V' : vle V' V -> wfv w V -> wfv w V'.
  Proof.
    intros Hle [H1 H2 H3 H4]. split; [specialize (Hle (LRoot 0))|specialize (Hle (LRoot 1))| |].
    - lia.
    - lia.
    - intros n. specialize (Hle (LNext n)). specialize (H3 n). lia.
    - intros n. specialize (Hle (LData n)). specialize (H4 n). lia.
  Qed.

  Lemma wfv_join w V V' : wfv w V -> wfv w V' -> wfv w (vjoin V V').
  Proof.
    intros [H1 H2 H3 H4] [K1 K2 K3 K4]. unfold vjoin. split; [lia|lia| |].
    - intros n. specialize (H3 n). specialize (K3 n). lia.
    - intros n. specialize (H4 n). specialize (K4 n). lia.
  Qed.

  Lemma wfv_v0 w : wfv w v0.
  Proof. unfold v0. split; intros; lia. Qed.

  Lemma wfv_tick w V t : wfv w V -> wfv w (tick t V).
  Proof. intros []. split; intros; unfold tick; rewrite vset_ne by done; auto. Qed.

  Lemma freshn_le w V V' n : vle V V' -> wfv w V' -> freshn w V n -> freshn w V' n.
  Proof.
    intros Hle Hw Hf. unfold freshn in *. specialize (Hle (LNext n)).
    pose proof (wf_next _ _ Hw n). lia.
  Qed.

  Lemma fresh_le w V V' n : vle V V' -> wfv w V' -> fresh w V n -> fresh w V' n.
  Proof.
    intros Hle Hw [H1 H2]. split; [by eapply freshn_le|].
    unfold freshd in *. specialize (Hle (LData n)). pose proof (wf_data _ _ Hw n). lia.
  Qed.

  Lemma fresh_none w V n : wfv w V -> w_next w n = [] /\ w_acc w n = 0 -> fresh w V n.
  Proof.
    intros Hw [H1 H2]. unfold fresh, freshn, freshd.
    pose proof (wf_next _ _ Hw n) as Hn. pose proof (wf_data _ _ Hw n) as Hd.
    rewrite H1 in *. rewrite H2 in *. simpl in *. lia.
  Qed.

  Lemma known_tos_le x w g v V V' :
    vle V V' -> wfv w V' -> known_tos x w g v V -> known_tos x w g v V'.
  Proof.
    intros Hle Hw (H1 & H2 & H3). split; [done|]. split; [done|]. intros Ht Hn.
    destruct (H3 Ht Hn) as [H4 H5]. split; [done|]. by eapply freshn_le.
  Qed.
  Lemma known_pool_le x w g v V V' :
    vle V V' -> wfv w V' -> known_pool x w g v V -> known_pool x w g v V'.
  Proof.
    intros Hle Hw (H1 & H2 & H3). split; [done|]. split; [done|]. intros Ht Hn.
    destruct (H3 Ht Hn) as [H4 H5]. split; [done|]. by eapply freshn_le.
  Qed.

  (** ** Ownership in a step of [t] *)

  Section flow.
    Context (t : nat) (x : sshared) (g : ghost) (x' : sshared) (g' : ghost).
    Context (HG : GI x g) (HG' : GI x' g') (R : forall t', t' <> t -> rely t' x g x' g').

    Lemma fl_dom n : is_Some (s_heap x !! n) -> is_Some (s_heap x' !! n).
    Proof using R. apply (rl_dom _ _ _ _ _ (R (S t) ltac:(lia))). Qed.

    Lemma fl_other t' n :
      t' <> t -> g_own g' !! n = Some (OT t') <-> g_own g !! n = Some (OT t').
    Proof using R.
      intros Hne. split.
      - apply (rl_back _ _ _ _ _ (R t' Hne)).
      - intros Hn. by apply (rl_own _ _ _ _ _ (R t' Hne)).
    Qed.

    Lemma fl_q n :
      (s_tos x).2 = (s_tos x').2 -> g_own g !! n = Some OQ ->
      g_own g' !! n = Some OQ /\ s_heap x' !! n = s_heap x !! n.
    Proof using R. intros Ht. by apply (rl_tos _ _ _ _ _ (R (S t) ltac:(lia))). Qed.
    Lemma fl_f n :
      (s_pool x).2 = (s_pool x').2 -> g_own g !! n = Some OF ->
      g_own g' !! n = Some OF /\ s_heap x' !! n = s_heap x !! n.
    Proof using R. intros Ht. by apply (rl_pool _ _ _ _ _ (R (S t) ltac:(lia))). Qed.

    Lemma fl_q_back n : s_tos x' = s_tos x -> g_own g' !! n = Some OQ -> g_own g !! n = Some OQ.
    Proof using HG HG' R.
      intros Ht. rewrite <- (gi_mem _ _ _ HG'), <- (gi_mem _ _ _ HG).
      enough (g_sn g' = g_sn g) as -> by done. eapply seg_unique.
      - apply (gi_seg _ _ _ HG').
      - rewrite Ht. eapply seg_ext; [|apply (gi_seg _ _ _ HG)]. intros m Hm. apply nxp_eq.
        apply fl_q; [by rewrite Ht|]. by apply (gi_mem _ _ _ HG).
      - apply (gi_null_nin _ _ _ HG').
      - apply (gi_null_nin _ _ _ HG).
    Qed.

    Lemma pi_null_nin {D} (h : gmap N (node D)) p own fn : PI c h p own fn -> null ∉ fn.
    Proof.
      intros HP Hn. destruct (seg_dom _ _ _ _ _ (pi_seg _ _ _ _ _ HP) Hn) as [nd Hnd].
      by rewrite (pi_null _ _ _ _ _ HP) in Hnd.
    Qed.

    Lemma fl_f_back n : s_pool x' = s_pool x -> g_own g' !! n = Some OF -> g_own g !! n = Some OF.
    Proof using HG HG' R.
      intros Ht. pose proof (gi_pi _ _ _ HG) as HP. pose proof (gi_pi _ _ _ HG') as HP'.
      rewrite <- (pi_mem _ _ _ _ _ HP'), <- (pi_mem _ _ _ _ _ HP).
      enough (g_fn g' = g_fn g) as -> by done. eapply seg_unique.
      - apply (pi_seg _ _ _ _ _ HP').
      - rewrite Ht. eapply seg_ext; [|apply (pi_seg _ _ _ _ _ HP)]. intros m Hm. apply nxp_eq.
        apply fl_f; [by rewrite Ht|]. by apply (pi_mem _ _ _ _ _ HP).
      - by eapply pi_null_nin.
      - by eapply pi_null_nin.
    Qed.

    Context (Hth : c_throws c = false).

    (** Where a node comes from that [t] owns, or that is in the stack or the pool. *)
    Lemma fl_mine n :
      g_own g' !! n = Some (OT t) ->
      g_own g !! n = Some (OT t) \/ (g_own g !! n = None /\ s_heap x !! n = None) \/
      (g_own g !! n = Some OQ /\ (s_tos x).2 <> (s_tos x').2) \/
      (g_own g !! n = Some OF /\ (s_pool x).2 <> (s_pool x').2).
    Proof using HG R Hth.
      intros Hn. destruct (g_own g !! n) as [[| |t'|]|] eqn:Ho.
      - right. right. left. split; [done|]. intros Ht. apply fl_q in Ho as [Ho _]; [congruence|done].
      - right. right. right. split; [done|]. intros Ht. apply fl_f in Ho as [Ho _]; [congruence|done].
      - destruct (decide (t' = t)) as [->|Hne]; [by left|]. apply fl_other in Ho; [congruence|done].
      - exfalso. by eapply (gi_leak _ _ _ HG).
      - right. left. split; [done|]. apply eq_None_not_Some.
        rewrite <- (pi_dom _ _ _ _ _ (gi_pi _ _ _ HG)), Ho. by intros [? ?].
    Qed.

    Lemma fl_to_q n :
      (s_pool x).2 = (s_pool x').2 -> (forall m, is_Some (s_heap x' !! m) -> is_Some (s_heap x !! m)) ->
      g_own g' !! n = Some OQ -> g_own g !! n = Some OQ \/ g_own g !! n = Some (OT t).
    Proof using HG HG' R Hth.
      intros Hp Hd Hn. destruct (g_own g !! n) as [[| |t'|]|] eqn:Ho.
      - by left.
      - apply fl_f in Ho as [Ho _]; [congruence|done].
      - destruct (decide (t' = t)) as [->|Hne]; [by right|]. apply fl_other in Ho; [congruence|done].
      - exfalso. by eapply (gi_leak _ _ _ HG).
      - exfalso. assert (is_Some (s_heap x' !! n)) as Hs.
        { apply (pi_dom _ _ _ _ _ (gi_pi _ _ _ HG')). eauto. }
        apply Hd in Hs. apply (pi_dom _ _ _ _ _ (gi_pi _ _ _ HG)) in Hs as [? ?]. congruence.
    Qed.

    Lemma fl_to_f n :
      (s_tos x).2 = (s_tos x').2 -> (forall m, is_Some (s_heap x' !! m) -> is_Some (s_heap x !! m)) ->
      g_own g' !! n = Some OF -> g_own g !! n = Some OF \/ g_own g !! n = Some (OT t).
    Proof using HG HG' R Hth.
      intros Hp Hd Hn. destruct (g_own g !! n) as [[| |t'|]|] eqn:Ho.
      - apply fl_q in Ho as [Ho _]; [congruence|done].
      - by left.
      - destruct (decide (t' = t)) as [->|Hne]; [by right|]. apply fl_other in Ho; [congruence|done].
      - exfalso. by eapply (gi_leak _ _ _ HG).
      - exfalso. assert (is_Some (s_heap x' !! n)) as Hs.
        { apply (pi_dom _ _ _ _ _ (gi_pi _ _ _ HG')). eauto. }
        apply Hd in Hs. apply (pi_dom _ _ _ _ _ (gi_pi _ _ _ HG)) in Hs as [? ?]. congruence.
    Qed.
  End flow.
End inv.
