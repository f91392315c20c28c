(** * The last write to every location of a stack on release/acquire memory *)
From stdpp Require Import gmap list numbers.
From Verif Require Import Lin PoolModel Chain PoolProofs StackModel StackSpec StackObs StackInv StackQuiet
  RaMem RaFacts RaLin RaLog RaStackModel RaStackObs RaStackInv RaStackSafe.

Set Default Proof Using "Type".

(** The number of the last write to a location. *)
Definition last_of (w : wmem) (l : loc) : nat :=
  match l with
  | LRoot 0 => length (w_pool w)
  | LRoot 1 => length (w_tos w)
  | LNext n => length (w_next w n)
  | LData n => w_acc w n
  | _ => 0
  end.

Lemma rread_inv x w V out x' w' V' pc' : rread x w V out = RGo x' w' V' pc' -> w' = w /\ V' = V.
Proof. destruct out; intros H; simplify_eq/=; done. Qed.
Lemma rwrite_inv w V out x' w' V' pc' : rwrite w V out = RGo x' w' V' pc' -> w' = w /\ V' = V.
Proof. destruct out; intros H; simplify_eq/=; done. Qed.

(** A thread that writes has seen its write. *)
Lemma rtstep_last c acq x w V pc ts sp addr x' w' V' pc' :
  rtstep c acq x w V pc ts sp addr = RGo x' w' V' pc' ->
  vle V V' /\ forall l, last_of w' l = last_of w l \/ last_of w' l <= V' l.
Proof.
  unfold rtstep. destruct (saccess c acq pc) as [|i a|i old|n|n|n].
  - intros H. apply rwrite_inv in H as [-> ->]. split; [intros l; lia|auto].
  - destruct (hist i x w !! ts) as [[v mv]|]; [|done]. case_decide as Hv; [|done].
    intros H. apply rread_inv in H as [-> ->]. split; [|auto].
    intros l. unfold vjoin, vset. case_decide; subst; lia.
  - destruct (hist i x w !! ts) as [[v mv]|]; [|done]. case_decide as Hv; [|done]. case_decide as Hc.
    + intros H. apply rwrite_inv in H as [-> ->]. split.
      * intros l. unfold vjoin, vset. case_decide; subst; lia.
      * destruct Hc as [Hl _]. intros l. destruct (decide (l = rloc i)) as [->|Hne].
        -- right. rewrite vset_eq, Hl. destruct i; simpl; done.
        -- left. destruct i; simpl in Hne |- *; destruct l as [[|[|k]]|m|m|u]; done.
    + intros H. apply rread_inv in H as [-> ->]. split; [|auto].
      intros l. unfold vjoin, vset. case_decide; subst; lia.
  - destruct (s_heap x !! n) as [nd|]; [|done]. destruct (next_hist nd w n !! ts) as [p|]; [|done].
    case_decide as Hv; [|done]. intros H. apply rread_inv in H as [-> ->]. split; [|auto].
    intros l. unfold vset. case_decide; subst; lia.
  - destruct (s_heap x !! n) as [nd|]; [|done]. case_decide as Hv; [|done].
    intros H. apply rwrite_inv in H as [-> ->]. split.
    + intros l. unfold vset. case_decide; subst; lia.
    + intros l. destruct l as [k|m|m|u]; [by left| |by left|by left]. simpl. unfold fupd, vset.
      case_decide as E; [|by left]. subst m. right. rewrite decide_True by done. rewrite app_length. simpl. lia.
  - case_decide as Hv; [|done]. intros H. apply rwrite_inv in H as [-> ->]. split.
    + intros l. unfold vset. case_decide; subst; lia.
    + intros l. destruct l as [k|m|m|u]; [by left|by left| |by left]. simpl. unfold fupd, vset.
      case_decide as E; [|by left]. subst m. right. rewrite decide_True by done. lia.
Qed.

(** The last write to a location was made by a thread that is still in a call, or
    that has returned from it since. *)
Definition seen (s : rstate) (tr : list (sevent * view)) (l : loc) : Prop :=
  last_of (r_w s) l = 0 \/
  (exists t, is_Some (r_pcs s !! t) /\ last_of (r_w s) l <= r_view s t l) \/
  (exists t r (W : view), (Res t r, W) ∈ tr /\ last_of (r_w s) l <= W l).

Lemma rexec_seen c acq ns tr s l : rexec c acq (rinit c ns) tr s -> seen s tr l.
Proof.
  induction 1 as [|tr s ch s' evs He IH Hs].
  - left. unfold rinit. simpl. destruct l as [[|[|k]]|m|m|u]; done.
  - assert (Hmv : forall u (V : view) pcs x, vle (r_view s u) V -> (forall t, is_Some (r_pcs s !! t) -> is_Some (pcs !! t)) ->
      seen (RSt x (r_w s) pcs (set_view (r_view s) u V)) (tr ++ evs) l).
    { intros u V pcs x Hle Hp. destruct IH as [IH|[(t & Ht & IH)|(t & r & W & Hin & IH)]].
      - by left.
      - right. left. exists t. split; [simpl; auto|]. simpl. unfold set_view. case_decide as E; [|done].
        subst t. specialize (Hle l). lia.
      - right. right. exists t, r, W. split; [|done]. apply elem_of_app. by left. }
    destruct ch as [t o|t ts sp addr|t u]; simpl in Hs.
    + destruct (r_pcs s !! t) eqn:Ht; [done|]. destruct (sstart c o) as [pc|]; [|done]. injection Hs as <- <-.
      apply Hmv; [apply vle_tick|]. intros u Hu. destruct (decide (u = t)) as [->|]; [by rewrite lookup_insert|].
      by rewrite lookup_insert_ne.
    + destruct (r_pcs s !! t) as [pc|] eqn:Ht; [|done].
      assert (Hpc : (exists r, pc = PcRet r) \/
        match rtstep c acq (r_x s) (r_w s) (r_view s t) pc ts sp addr with
        | RGo x w V pc' => RNext (RSt x w (<[t := pc']> (r_pcs s)) (set_view (r_view s) t V)) []
        | RGRace => RRace
        | RGUB => RUB
        | RGDisabled => RDisabled
        end = RNext s' evs) by (destruct pc; eauto).
      destruct Hpc as [[r ->]|Hpc].
      * injection Hs as <- <-. destruct IH as [IH|[(u & Hu & IH)|(u & r' & W & Hin & IH)]].
        -- by left.
        -- destruct (decide (u = t)) as [->|Hne].
           ++ right. right. exists t, r, (tick t (r_view s t)). split; [apply elem_of_app; right; left|].
              simpl. pose proof (vle_tick t (r_view s t) l). lia.
           ++ right. left. exists u. simpl. rewrite lookup_delete_ne by done. split; [done|].
              unfold set_view. by rewrite decide_False.
        -- right. right. exists u, r', W. split; [|done]. apply elem_of_app. by left.
      * destruct (rtstep _ _ _ _ _ _ _ _ _) as [x w V pc'| | |] eqn:Hr; try done.
        injection Hpc as <- <-. apply rtstep_last in Hr as [Hle Hl]. destruct (Hl l) as [E|E].
        -- specialize (Hmv t V (<[t:=pc']> (r_pcs s)) x Hle). unfold seen in *. simpl in *. rewrite E. apply Hmv.
           intros u Hu. destruct (decide (u = t)) as [->|]; [by rewrite lookup_insert|]. by rewrite lookup_insert_ne.
        -- right. left. exists t. simpl. rewrite lookup_insert. split; [done|]. unfold set_view.
           by rewrite decide_True.
    + injection Hs as <- <-. apply Hmv; [apply vle_join_l|done].
Qed.

Section last.
  Context (c : cfg) (Htag : c_tagmod c = None) (Hth : c_throws c = false).
  Notation spec := (sspec (c_node_based c) (c_throws c)).

  Lemma seen_main ns tr s t :
    rreach c true ns tr s -> r_pcs s = ∅ -> synced tr (r_view s t) -> sees_all (r_w s) (r_view s t).
  Proof using Htag Hth.
    intros (H1 & H2 & H3 & H4) He Hsy. destruct (rexec_ok c Htag Hth ns tr s H1 H2 H4 H3) as (g & lg & HI).
    destruct (ri_wf _ _ _ _ _ (in_r _ _ _ _ _ HI) t) as [W1 W2 W3 W4].
    assert (Hge : forall l, last_of (r_w s) l <= r_view s t l).
    { intros l. destruct (rexec_seen _ _ _ _ _ l H4) as [E|[(u & [pc Hu] & _)|(u & r & W & Hin & HW)]].
      - lia.
      - by rewrite He, lookup_empty in Hu.
      - specialize (Hsy u r W Hin l). lia. }
    pose proof (Hge (LRoot 0)) as G0. pose proof (Hge (LRoot 1)) as G1. simpl in G0, G1.
    split; [lia|]. split; [lia|]. intros n.
    pose proof (Hge (LNext n)) as G2. pose proof (Hge (LData n)) as G3. simpl in G2, G3.
    specialize (W3 n). specialize (W4 n). lia.
  Qed.

  Lemma dtor_ra_main ns tr s :
    rreach c true ns tr s -> r_pcs s = ∅ ->
    exists S a l, ra_order [] spec tr S a /\ published spec tr S /\
      sdtor c (r_x s) = Some (a, l) /\ NoDup l /\ forall n, n ∈ l <-> is_Some (s_heap (r_x s) !! n).
  Proof using Htag Hth.
    intros (H1 & H2 & H3 & H4) He. destruct (rexec_ok c Htag Hth ns tr s H1 H2 H4 H3) as (g & lg & HI).
    destruct (lo_order_ok _ _ _ _ _ _ _ _ _ _ _ (in_l _ _ _ _ _ HI) (in_c _ _ _ _ _ HI)) as (S & b & Hb & HS & HP).
    rewrite (in_a _ _ _ _ _ HI) in Hb. injection Hb as <-.
    destruct (dtor_inv c Htag (SSt (r_x s) ∅) g Hth) as (l & D1 & D2 & D3); [|done|].
    - split; [exact (in_g _ _ _ _ _ HI)|]. intros t. simpl. rewrite lookup_empty.
      pose proof (in_t _ _ _ _ _ HI t) as Ht. rewrite He, lookup_empty in Ht. destruct Ht as (A1 & _ & A2). done.
    - exists S, (g_a g), l. done.
  Qed.

  (** A load leaves the memory alone, also in the model without views. *)
  Lemma read_keeps x pc sp addr x1 pc' :
    match saccess c true pc with XLoad _ _ | XRead _ => True | XCas _ _ => sp = true | _ => False end ->
    tstep c x pc sp addr false = TGo x1 pc' -> x1 = x.
  Proof.
    destruct x as [hp pl ts]. intros Ha Hs.
    destruct pc; simpl in Ha, Hs; try done;
      repeat match goal with
        | H : context [aaccess _ _ ?a] |- _ => destruct a; simpl in *
        | H : context [daccess _ _ ?d] |- _ => destruct d; simpl in *
        | H : context [match ?b with _ => _ end] |- _ => destruct b eqn:?; simpl in *
        end; simplify_eq/=; try done; try tauto; naive_solver.
  Qed.

  Lemma last_hist i x w ts v mv :
    length (hist i x w) <= S ts -> hist i x w !! ts = Some (v, mv) -> see i x v = x.
  Proof.
    intros Hl Hh. destruct x as [hp pl to].
    destruct i; simpl in *; unfold pool_hist, tos_hist in *; rewrite app_length in Hl; simpl in Hl;
      (rewrite lookup_app_r in Hh by lia); apply list_lookup_singleton_Some in Hh as [_ [= <- <-]]; done.
  Qed.
  Lemma last_next x w n nd ts p :
    s_heap x !! n = Some nd -> length (next_hist nd w n) <= S ts -> next_hist nd w n !! ts = Some p -> see_next x n p nd = x.
  Proof.
    intros Hn Hl Hh. destruct x as [hp pl to]. simpl in *. unfold next_hist in *. rewrite app_length in Hl. simpl in Hl.
    rewrite lookup_app_r in Hh by lia. apply list_lookup_singleton_Some in Hh as [_ <-].
    unfold see_next. simpl. f_equal. apply insert_id. rewrite Hn. f_equal. destruct nd as [[q tg] d]. done.
  Qed.

  (** A step of a thread that has seen everything is a step on sequentially
      consistent memory. *)
  Lemma rtstep_sc x w V pc ts sp addr x' w' V' pc' :
    sees_all w V -> rtstep c true x w V pc ts sp addr = RGo x' w' V' pc' ->
    exists sp', tstep c x pc sp' addr false = TGo x' pc'.
  Proof.
    intros (G0 & G1 & G2). unfold rtstep. pose proof (read_keeps x pc) as Hk.
    assert (Hw : forall w0 V0 out, rwrite w0 V0 out = RGo x' w' V' pc' -> out = TGo x' pc').
    { intros w0 V0 out. destruct out; intros E; simplify_eq/=; done. }
    assert (Hr : forall x0 V0 out, rread x0 w V0 out = RGo x' w' V' pc' -> x' = x0 /\ exists x1, out = TGo x1 pc').
    { intros x0 V0 out. destruct out; intros E; simplify_eq/=; eauto. }
    assert (Hroot : forall i, length (hist i x w) = S (V (rloc i))).
    { intros i. destruct i; simpl; unfold pool_hist, tos_hist; rewrite app_length; simpl; lia. }
    destruct (saccess c true pc) as [|i a|i old|n|n|n] eqn:Ha.
    - intros H. eauto.
    - destruct (hist i x w !! ts) as [[v mv]|] eqn:Hh; [|done]. case_decide as Hv; [|done].
      intros H. apply Hr in H as [-> [x1 H]]. rewrite (last_hist i x w ts v mv) in H; [|rewrite Hroot; lia|done].
      exists sp. pose proof (Hk _ _ _ _ I H) as ->. done.
    - destruct (hist i x w !! ts) as [[v mv]|] eqn:Hh; [|done]. case_decide as Hv; [|done]. case_decide as Hc; [eauto|].
      intros H. apply Hr in H as [-> [x1 H]]. rewrite (last_hist i x w ts v mv) in H; [|rewrite Hroot; lia|done].
      exists true. pose proof (Hk _ _ _ _ eq_refl H) as ->. done.
    - destruct (s_heap x !! n) as [nd|] eqn:Hn; [|done]. destruct (next_hist nd w n !! ts) as [p|] eqn:Hh; [|done].
      case_decide as Hv; [|done]. intros H. apply Hr in H as [-> [x1 H]]. destruct (G2 n) as [G3 _].
      rewrite (last_next x w n nd ts p) in H; [|done|unfold next_hist; rewrite app_length; simpl; lia|done].
      exists sp. pose proof (Hk _ _ _ _ I H) as ->. done.
    - destruct (s_heap x !! n) as [nd|]; [|done]. case_decide as Hv; [|done]. eauto.
    - case_decide as Hv; [|done]. eauto.
  Qed.

  Lemma alone_main ns tr s t ts sp addr s' evs :
    rreach c true ns tr s -> sees_all (r_w s) (r_view s t) -> rstep c true s (RRun t ts sp addr) = RNext s' evs ->
    sees_all (r_w s') (r_view s' t) /\
    exists sp', sstep c (SSt (r_x s) (r_pcs s)) (Run t sp' addr false) = SNext (SSt (r_x s') (r_pcs s')) evs.*1.
  Proof using Htag Hth.
    intros (H1 & H2 & H3 & H4) Hs Hst.
    assert (Hok : hist_ok (tr ++ evs).*1).
    { rewrite fmap_app. intros u o Hin. apply elem_of_app in Hin as [Hin|Hin]; [by apply (H3 u o)|]. simpl in Hst.
      destruct (r_pcs s !! t) as [pc|]; [|done].
      destruct pc; try (by apply elem_of_list_singleton in Hin);
        try (destruct (rtstep _ _ _ _ _ _ _ _ _) as [| | |]; simplify_eq/=; by apply elem_of_nil in Hin);
        simplify_eq/=; by apply elem_of_list_singleton in Hin. }
    assert (He : rexec c true (rinit c ns) (tr ++ evs) s') by by eapply rexec_step.
    destruct (rexec_ok c Htag Hth ns (tr ++ evs) s' H1 H2 He Hok) as (g & lg & HI).
    destruct (ri_wf _ _ _ _ _ (in_r _ _ _ _ _ HI) t) as [W1 W2 W3 W4].
    simpl in Hst. destruct (r_pcs s !! t) as [pc|] eqn:Ht; [|done].
    assert (Hpc : (exists r, pc = PcRet r) \/
      match rtstep c true (r_x s) (r_w s) (r_view s t) pc ts sp addr with
      | RGo x w V pc' => RNext (RSt x w (<[t := pc']> (r_pcs s)) (set_view (r_view s) t V)) []
      | RGRace => RRace
      | RGUB => RUB
      | RGDisabled => RDisabled
      end = RNext s' evs) by (destruct pc; eauto).
    destruct Hpc as [[r ->]|Hpc].
    - injection Hst as <- <-. split.
      + simpl. unfold set_view. rewrite decide_True by done. exact Hs.
      + exists false. simpl. rewrite Ht. done.
    - destruct (rtstep _ _ _ _ _ _ _ _ _) as [x w V pc'| | |] eqn:Hr; try done.
      assert (Hnr : forall r, pc <> PcRet r).
      { intros r ->. destruct (rtstep_sc _ _ _ _ _ _ _ _ _ _ _ Hs Hr) as [sp' E]. done. }
      destruct (rtstep_sc _ _ _ _ _ _ _ _ _ _ _ Hs Hr) as [sp' E]. apply rtstep_last in Hr as [Hle Hl].
      injection Hpc as <- <-. simpl in *. unfold set_view in *. rewrite decide_True in * by done. split.
      + destruct Hs as (S0 & S1 & S2).
        pose proof (Hl (LRoot 0)) as L0. pose proof (Hle (LRoot 0)) as M0.
        pose proof (Hl (LRoot 1)) as L1. pose proof (Hle (LRoot 1)) as M1. simpl in *.
        split; [lia|]. split; [lia|]. intros n. destruct (S2 n) as [S3 S4].
        pose proof (Hl (LNext n)) as L2. pose proof (Hle (LNext n)) as M2.
        pose proof (Hl (LData n)) as L3. pose proof (Hle (LData n)) as M3. simpl in *.
        specialize (W3 n). specialize (W4 n). lia.
      + exists sp'. rewrite Ht. destruct pc; try by rewrite E. by destruct (Hnr r).
  Qed.
End last.
