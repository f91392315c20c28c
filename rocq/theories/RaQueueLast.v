(** * The last write to every location of a queue on release/acquire memory *)
From stdpp Require Import gmap list numbers.
From Verif Require Import Lin PoolModel Chain PoolProofs QueueModel QueueSpec QueueObs.
From Verif Require QueueInv QueueSolo.
From Verif Require Import RaMem RaFacts RaLog RaQueueModel RaQueueObs RaQueueSpec RaQueueLog RaQueueInv RaQueueStep
  RaQueueOk RaQueueSafe.

Set Default Proof Using "Type".

(** The number of the last write to a location. *)
Definition last_of (w : wmem) (l : loc) : nat :=
  match l with
  | LRoot 0 => length (w_pool w)
  | LRoot 1 => length (w_head w)
  | LRoot 2 => length (w_tail w)
  | LNext n => length (w_next w n)
  | LData n => w_acc w n
  | _ => 0
  end.

Lemma rread_inv x w V out x' w' V' pc' : rread x w V out = RGo x' w' V' pc' -> w' = w /\ V' = V.
Proof. destruct out; intros H; simplify_eq/=; done. Qed.
Lemma rwrite_inv w V out x' w' V' pc' : rwrite w V out = RGo x' w' V' pc' -> w' = w /\ V' = V.
Proof. destruct out; intros H; simplify_eq/=; done. Qed.

Lemma push_next_last nd w n U V k l :
  k = S (length (w_next w n)) -> last_of (push_next nd w n U) l = last_of w l \/ last_of (push_next nd w n U) l <= vset V (LNext n) k l.
Proof.
  intros ->. destruct l as [i|m|m|u]; [by left| |by left|by left]. simpl. unfold fupd, vset.
  case_decide as E; [|by left]. subst m. right. rewrite decide_True by done. unfold nhist. rewrite app_length. simpl. lia.
Qed.

Lemma rstore_last x w V n r out x' w' V' pc' :
  rstore x w V n r out = RGo x' w' V' pc' ->
  vle V V' /\ forall l, last_of w' l = last_of w l \/ last_of w' l <= V' l.
Proof.
  unfold rstore. destruct (q_heap x !! n) as [nd|]; [|done]. case_decide as Hv; [|done].
  intros H. apply rwrite_inv in H as [-> ->]. split.
  - intros l. unfold vset. case_decide; subst; lia.
  - intros l. by apply push_next_last.
Qed.

(** A thread that writes has seen its write. *)
Lemma rtstep_last c rel x w V pc ts sp addr junk x' w' V' pc' :
  rtstep c rel x w V pc ts sp addr junk = RGo x' w' V' pc' ->
  vle V V' /\ forall l, last_of w' l = last_of w l \/ last_of w' l <= V' l.
Proof.
  unfold rtstep. destruct (qaccess c pc) as [|i|i old strong|n a|n old|n|n|n|n|n k].
  - intros H. apply rwrite_inv in H as [-> ->]. split; [intros l; lia|auto].
  - destruct (hist i x w !! ts) as [[v mv]|]; [|done]. case_decide as Hv; [|done].
    intros H. apply rread_inv in H as [-> ->]. split; [|auto].
    intros l. unfold vjoin, vset. case_decide; subst; lia.
  - destruct (hist i x w !! ts) as [[v mv]|]; [|done]. case_decide as Hv; [|done]. case_decide as Hc.
    + intros H. apply rwrite_inv in H as [-> ->]. split.
      * intros l. unfold vjoin, vset. case_decide; subst; lia.
      * destruct Hc as [Hl _]. intros l. destruct (decide (l = rloc i)) as [->|Hne].
        -- right. rewrite vset_eq, Hl. destruct i; simpl; done.
        -- left. destruct i; simpl in Hne |- *; destruct l as [[|[|[|k]]]|m|m|u]; done.
    + case_decide as Hd; [done|]. intros H. apply rread_inv in H as [-> ->]. split; [|auto].
      intros l. unfold vjoin, vset. case_decide; subst; lia.
  - destruct (q_heap x !! n) as [nd|]; [|done]. destruct (nhist nd w n !! ts) as [[v mv]|]; [|done].
    case_decide as Hv; [|done]. intros H. apply rread_inv in H as [-> ->]. split; [|auto].
    intros l. unfold vjoin, vset. case_decide; subst; lia.
  - destruct (q_heap x !! n) as [nd|]; [|done]. destruct (nhist nd w n !! ts) as [[v mv]|]; [|done].
    case_decide as Hv; [|done]. case_decide as Hc.
    + intros H. apply rwrite_inv in H as [-> ->]. split.
      * intros l. unfold vjoin, vset. case_decide; subst; lia.
      * intros l. apply push_next_last. destruct Hc as [-> _]. unfold nhist. rewrite app_length. simpl. lia.
    + intros H. apply rread_inv in H as [-> ->]. split; [|auto].
      intros l. unfold vjoin, vset. case_decide; subst; lia.
  - apply rstore_last.
  - destruct (q_heap x !! n) as [nd|]; [|done].
    case_decide as Hv; intros H; apply rread_inv in H as [-> ->]; (split; [intros l; lia|auto]).
  - apply rstore_last.
  - case_decide as Hv; [|done]. intros H. apply rwrite_inv in H as [-> ->]. split.
    + intros l. unfold vset. case_decide; subst; lia.
    + intros l. destruct l as [k|m|m|u]; [by left|by left| |by left]. simpl. unfold fupd, vset.
      case_decide as E; [|by left]. subst m. right. rewrite decide_True by done. lia.
  - destruct (q_heap x !! n) as [nd|]; [|done].
    case_decide as Hv; intros H; apply rread_inv in H as [-> ->]; (split; [intros l; lia|auto]).
Qed.

(** The last write to a location was made by a thread that is still in a call, or
    that has returned from it since. *)
Definition seen (s : rstate) (tr : list (qevent * view)) (l : loc) : Prop :=
  last_of (r_w s) l = 0 \/
  (exists t, is_Some (r_pcs s !! t) /\ last_of (r_w s) l <= r_view s t l) \/
  (exists t r (W : view), (Res t r, W) ∈ tr /\ last_of (r_w s) l <= W l).

Lemma rexec_seen c rel ns addr s0 tr s l : rinit c ns addr = Some s0 -> rexec c rel s0 tr s -> seen s tr l.
Proof.
  intros Hi. induction 1 as [|tr s ch s' evs He IH Hs].
  - left. unfold rinit in Hi. destruct (qinit c ns addr); [|done]. injection Hi as <-. simpl.
    destruct l as [[|[|[|k]]]|m|m|u]; done.
  - assert (Hmv : forall u (V : view) pcs x, vle (r_view s u) V -> (forall t, is_Some (r_pcs s !! t) -> is_Some (pcs !! t)) ->
      seen (RSt x (r_w s) pcs (set_view (r_view s) u V)) (tr ++ evs) l).
    { intros u V pcs x Hle Hp. destruct IH as [IH|[(t & Ht & IH)|(t & r & W & Hin & IH)]].
      - by left.
      - right. left. exists t. split; [simpl; auto|]. simpl. unfold set_view. case_decide as E; [|done].
        subst t. specialize (Hle l). lia.
      - right. right. exists t, r, W. split; [|done]. apply elem_of_app. by left. }
    destruct ch as [t o tf|t ts sp ad junk|t u]; simpl in Hs.
    + destruct (r_pcs s !! t) eqn:Ht; [done|]. destruct (qstart c o tf) as [pc|]; [|done]. injection Hs as <- <-.
      apply Hmv; [apply vle_tick|]. intros u Hu. destruct (decide (u = t)) as [->|]; [by rewrite lookup_insert|].
      by rewrite lookup_insert_ne.
    + destruct (r_pcs s !! t) as [pc|] eqn:Ht; [|done].
      assert (Hpc : (exists r, pc = PcRet r) \/
        match rtstep c rel (r_x s) (r_w s) (r_view s t) pc ts sp ad junk with
        | RGo x w V pc' => RNext (RSt x w (<[t := pc']> (r_pcs s)) (set_view (r_view s) t V)) []
        | RGRace => RRace
        | RGUB => RUB
        | RGDisabled => RDisabled
        end = RNext s' evs) by (destruct pc; eauto).
      destruct Hpc as [[r ->]|Hpc].
      * injection Hs as <- <-. destruct IH as [IH|[(u & Hu & IH)|(u & r' & W & Hin & IH)]].
        -- by left.
        -- destruct (decide (u = t)) as [->|Hne].
           ++ right. right. exists t, r, (tick t (r_view s t)). split; [apply elem_of_app; right; left|].
              simpl. pose proof (vle_tick t (r_view s t) l). lia.
           ++ right. left. exists u. simpl. rewrite lookup_delete_ne by done. split; [done|].
              unfold set_view. by rewrite decide_False.
        -- right. right. exists u, r', W. split; [|done]. apply elem_of_app. by left.
      * destruct (rtstep _ _ _ _ _ _ _ _ _ _) as [x w V pc'| | |] eqn:Hr; try done.
        injection Hpc as <- <-. apply rtstep_last in Hr as [Hle Hl]. destruct (Hl l) as [E|E].
        -- specialize (Hmv t V (<[t:=pc']> (r_pcs s)) x Hle). unfold seen in *. simpl in *. rewrite E. apply Hmv.
           intros u Hu. destruct (decide (u = t)) as [->|]; [by rewrite lookup_insert|]. by rewrite lookup_insert_ne.
        -- right. left. exists t. simpl. rewrite lookup_insert. split; [done|]. unfold set_view.
           by rewrite decide_True.
    + injection Hs as <- <-. apply Hmv; [apply vle_join_l|done].
Qed.

(** Any list of elements can be pushed. *)
Lemma lruns_pushes nb ct (a : list val) : exists l, lruns (qspec nb ct) ∅ [] l ∅ a.
Proof.
  induction a as [|v a [l IH]] using rev_ind; [exists []; constructor|].
  eexists. rewrite <- (delete_insert ∅ 0 (Done (Push true v) (RBool true))) at 2 by apply lookup_empty.
  eapply lrun_res; [|apply lookup_insert].
  rewrite <- (insert_insert ∅ 0 (Done (Push true v) (RBool true)) (Pending (Push true v))).
  eapply (lrun_lin _ _ _ _ _ a); [|apply lookup_insert|constructor].
  apply lrun_inv; [exact IH|apply lookup_empty].
Qed.

Section last.
  Context (c : cfg) (Htag : c_tagmod c = None).
  Notation null := (c_null c).

  Lemma seen_main ns tr s t :
    rqreach c true ns tr s -> r_pcs s = ∅ -> synced tr (r_view s t) -> sees_all (r_w s) (r_view s t).
  Proof using Htag.
    intros (addr & s0 & H1 & H2 & H3 & H4 & H5) He Hsy.
    destruct (rexec_ok c Htag ns addr s0 tr s H1 H2 H3 H4 H5) as (g & HI).
    destruct (qi_vw _ _ _ _ _ _ _ (in_q _ _ _ _ HI) t) as [W1 _ W3 W4].
    assert (Hge : forall l, last_of (r_w s) l <= r_view s t l).
    { intros l. destruct (rexec_seen _ _ _ _ _ _ _ l H4 H5) as [E|[(u & [pc Hu] & _)|(u & r & W & Hin & HW)]].
      - lia.
      - by rewrite He, lookup_empty in Hu.
      - specialize (Hsy u r W Hin l). lia. }
    pose proof (Hge (LRoot 0)) as G0. pose proof (Hge (LRoot 1)) as G1. pose proof (Hge (LRoot 2)) as G4.
    pose proof (W1 RPool) as W10. pose proof (W1 RHead) as W11. pose proof (W1 RTail) as W12.
    rewrite views_len in W10, W11, W12. simpl in *.
    split; [lia|]. split; [lia|]. split; [lia|]. intros n.
    pose proof (Hge (LNext n)) as G2. pose proof (Hge (LData n)) as G3. simpl in G2, G3.
    specialize (W3 n). specialize (W4 n). lia.
  Qed.

  Section quiet.
    Context (x : qshared) (w : wmem) (es : list ent) (own : gmap N owner) (fn : list N) (vw : nat -> view).
    Context (HI : QI c x w es own fn vw).

    (** The links between the nodes in the queue. *)
    Lemma es_next i e : length (w_head w) <= i -> es !! i = Some e ->
      nxp (q_heap x) (e_n e) = Some (match es !! S i with Some e' => e_n e' | None => null end).
    Proof using HI.
      intros Hi He. destruct (qi_in _ _ _ _ _ _ _ HI i e Hi He) as (_ & (nd & Hnd & _) & Hl).
      pose proof (nh_last x w _ _ Hnd) as Hlast. rewrite (nxp_Some _ _ _ Hnd). f_equal.
      destruct (es !! S i) as [e'|] eqn:He'.
      - rewrite decide_False in Hl by (apply lookup_lt_Some in He'; lia).
        destruct (qi_link _ _ _ _ _ _ _ HI i e e' He He') as (tg & mv & lv & _ & Hlk & _).
        rewrite Hl in Hlast. pose proof (eq_trans (eq_sym Hlast) Hlk) as E. by injection E as ->.
      - rewrite decide_True in Hl by (apply lookup_ge_None in He'; apply lookup_lt_Some in He; lia).
        destruct (qi_null _ _ _ _ _ _ _ HI i e He) as (tg & mv & Hn).
        rewrite Hl in Hlast. pose proof (eq_trans (eq_sym Hlast) Hn) as E. by injection E as ->.
    Qed.

    Lemma es_seg k : forall i, length (w_head w) <= i -> length es = i + k ->
      Chain.seg (q_heap x) (match es !! i with Some e => e_n e | None => null end) (e_n <$> drop i es) null.
    Proof using HI.
      induction k as [|k IH]; intros i Hi Hl.
      - rewrite drop_ge by lia. rewrite lookup_ge_None_2 by lia. done.
      - destruct (lookup_lt_is_Some_2 es i) as [e He]; [lia|]. rewrite He, (drop_S _ _ _ He). simpl. split; [done|].
        eexists. split; [by apply es_next|]. apply IH; lia.
    Qed.

    Lemma es_root i j e v (mv : view) :
      hist i x w !! j = Some (v, mv) -> i <> RPool -> es !! j = Some e -> v.1 = e_n e.
    Proof using HI.
      intros Hh Hi He. destruct i; [done| |].
      - destruct (qi_head _ _ _ _ _ _ _ HI j v mv Hh) as (e' & He' & -> & _). simpl. congruence.
      - destruct (qi_tail _ _ _ _ _ _ _ HI j v mv Hh) as (e' & He' & -> & _). simpl. congruence.
    Qed.

    Lemma quiet_gi : qcov w es own -> (forall n, own !! n <> Some OL) ->
      exists g, QueueInv.GI c x g /\ QueueInv.g_own g = own /\ QueueInv.g_ph g = ∅.
    Proof using HI.
      intros Hm Hk. set (H := length (w_head w)). set (T := length (w_tail w)).
      pose proof (qi_ord _ _ _ _ _ _ _ HI) as Hord. fold H T in Hord.
      destruct (lruns_pushes (c_node_based c) (c_throws c) (e_v <$> drop (S H) es)) as [l Hl].
      exists (QueueInv.Gh own (e_n <$> drop H es) fn l ∅ (e_v <$> drop (S H) es)). split; [|done]. split; simpl.
      - apply HI.
      - apply NoDup_alt. intros i j n. rewrite !list_lookup_fmap, !lookup_drop.
        destruct (es !! (H + i)) as [e|] eqn:He; [|done]. destruct (es !! (H + j)) as [e'|] eqn:He'; [|done].
        simpl. intros [= <-] [= E]. destruct (Nat.lt_trichotomy i j) as [Hij|[Hij|Hij]]; [|done|]; exfalso.
        + apply (qi_inj _ _ _ _ _ _ _ HI (H + i) (H + j) e e'); [lia|lia|done|done|done].
        + apply (qi_inj _ _ _ _ _ _ _ HI (H + j) (H + i) e' e); [lia|lia|done|done|done].
      - intros n. rewrite elem_of_list_fmap. split.
        + intros (e & -> & Hin). apply elem_of_list_lookup in Hin as [i Hi]. rewrite lookup_drop in Hi.
          by apply (qi_in _ _ _ _ _ _ _ HI (H + i) e ltac:(lia) Hi).
        + intros Ho. destruct (Hm n Ho) as (i & e & Hi & He & <-). exists e. split; [done|].
          apply elem_of_list_lookup. exists (i - H). rewrite lookup_drop. by replace (H + (i - H)) with i by (fold H in Hi; lia).
      - pose proof (es_seg (length es - H) H ltac:(done) ltac:(lia)) as Hseg.
        destruct (lookup_lt_is_Some_2 es H) as [e He]; [lia|]. rewrite He in Hseg.
        by rewrite (es_root RHead H e _ _ (hist_last RHead x w) ltac:(done) He).
      - destruct (lookup_lt_is_Some_2 es T) as [e He]; [lia|].
        rewrite (es_root RTail T e _ _ (hist_last RTail x w) ltac:(done) He).
        exists (e_n <$> take (T - H) (drop H es)).
        assert (E : drop H es = take (T - H) (drop H es) ++ e :: drop (S T) es).
        { rewrite <- (take_drop (T - H) (drop H es)) at 1. rewrite drop_drop.
          replace (H + (T - H)) with T by lia. by rewrite (drop_S _ _ _ He). }
        assert (E' : e_n <$> drop H es = (e_n <$> take (T - H) (drop H es)) ++ e_n e :: (e_n <$> drop (S T) es)).
        { rewrite E at 1. rewrite fmap_app. done. }
        rewrite E'. destruct (es !! S T) as [e'|] eqn:He'.
        + right. exists (e_n e'). rewrite (drop_S _ _ _ He'), (drop_ge es (S (S T))) by lia. done.
        + left. rewrite (drop_ge es (S T)) by (by apply lookup_ge_None). done.
      - rewrite <- fmap_drop, drop_drop, Nat.add_1_r. apply Forall2_fmap, Forall_Forall2_diag, list.Forall_forall.
        intros e Hin. apply elem_of_list_lookup in Hin as [i Hi]. rewrite lookup_drop in Hi.
        by apply (qi_in _ _ _ _ _ _ _ HI (S H + i) e ltac:(lia) Hi).
      - apply HI.
      - done.
      - exact Hl.
    Qed.
  End quiet.

  Lemma dtor_ra_main ns tr s :
    c_throws c = false -> rqreach c true ns tr s -> r_pcs s = ∅ ->
    exists l, qdtor c (r_x s) = Some l /\ NoDup l /\ forall n, n ∈ l <-> is_Some (q_heap (r_x s) !! n).
  Proof using Htag.
    intros Hth (addr & s0 & H1 & H2 & H3 & H4 & H5) He.
    destruct (rexec_ok c Htag ns addr s0 tr s H1 H2 H3 H4 H5) as (g & HI).
    destruct (quiet_gi _ _ _ _ _ _ (in_q _ _ _ _ HI) (in_m _ _ _ _ HI) (in_k _ _ _ _ HI)) as (g' & HG & Ho & Hp).
    apply (QueueSolo.dtor_ok c Htag (QSt (r_x s) ∅) g'); [done| |done].
    split; [exact HG|]. intros t. simpl. rewrite lookup_empty, Hp, lookup_empty. split; [done|].
    intros n. rewrite Ho. intros Hn. destruct (in_o _ _ _ _ HI t n Hn) as (pc & Hpc & _).
    by rewrite He, lookup_empty in Hpc.
  Qed.

  (** A load leaves the memory alone, also in the model without views. *)
  Lemma read_keeps x pc sp addr x1 pc' :
    match qaccess c pc with
    | XLoad _ | XNLoad _ _ | XRead _ | XGet _ _ => True
    | XCas RTail old true => q_tail x <> old
    | XCas _ _ strong => strong = false /\ sp = true
    | XNCas _ _ => sp = true
    | _ => False
    end ->
    tstep c x pc sp addr false = TGo x1 pc' -> x1 = x.
  Proof.
    destruct x as [hp pl hd tl]. intros Ha Hs.
    destruct pc; simpl in Ha, Hs; try done;
      repeat match goal with
        | H : context [aaccess _ ?a] |- _ => destruct a; simpl in *
        | H : context [daccess _ ?d] |- _ => destruct d; simpl in *
        | H : context [match ?b with _ => _ end] |- _ => destruct b eqn:?; simpl in *
        end; simplify_eq/=; try done; try tauto; naive_solver.
  Qed.

  Lemma last_hist i x w ts v mv :
    length (hist i x w) <= S ts -> hist i x w !! ts = Some (v, mv) -> see i x v = x.
  Proof.
    intros Hl Hh. destruct x as [hp pl hd tl].
    destruct i; simpl in *; rewrite app_length in Hl; simpl in Hl;
      (rewrite lookup_app_r in Hh by lia); apply list_lookup_singleton_Some in Hh as [_ [= <- <-]]; done.
  Qed.
  Lemma see_next_id x n nd : q_heap x !! n = Some nd -> see_next x n (nx nd) nd = x.
  Proof.
    intros Hn. destruct x as [hp pl hd tl]. unfold see_next, set_heap. simpl in *. f_equal. apply insert_id.
    rewrite Hn. by destruct nd.
  Qed.
  Lemma last_next x w n nd ts v mv :
    q_heap x !! n = Some nd -> length (nhist nd w n) <= S ts -> nhist nd w n !! ts = Some (v, mv) -> see_next x n v nd = x.
  Proof.
    intros Hn Hl Hh. unfold nhist in *. rewrite app_length in Hl. simpl in Hl.
    rewrite lookup_app_r in Hh by lia. apply list_lookup_singleton_Some in Hh as [_ [= <- <-]]. by apply see_next_id.
  Qed.

  (** A step of a thread that has seen everything is a step on sequentially
      consistent memory. *)
  Lemma rtstep_sc x w V pc ts sp addr junk x' w' V' pc' :
    sees_all w V -> rtstep c true x w V pc ts sp addr junk = RGo x' w' V' pc' ->
    exists sp', tstep c x pc sp' addr false = TGo x' pc'.
  Proof.
    intros (G0 & G1 & G4 & G2). unfold rtstep. pose proof (read_keeps x pc) as Hk.
    assert (Hw : forall w0 V0 out, rwrite w0 V0 out = RGo x' w' V' pc' -> out = TGo x' pc').
    { intros w0 V0 out. destruct out; intros E; simplify_eq/=; done. }
    assert (Hst : forall n r out, rstore x w V n r out = RGo x' w' V' pc' -> out = TGo x' pc').
    { intros n r out. unfold rstore. destruct (q_heap x !! n); [|done]. case_decide; [|done]. eauto. }
    assert (Hr : forall x0 V0 out, rread x0 w V0 out = RGo x' w' V' pc' -> x' = x0 /\ exists x1, out = TGo x1 pc').
    { intros x0 V0 out. destruct out; intros E; simplify_eq/=; eauto. }
    assert (Hroot : forall i, length (hist i x w) = S (V (rloc i))).
    { intros i. destruct i; simpl; rewrite app_length; simpl; lia. }
    assert (Hnext : forall n nd, length (nhist nd w n) = S (V (LNext n))).
    { intros n nd. destruct (G2 n) as [G3 _]. unfold nhist. rewrite app_length. simpl. lia. }
    destruct (qaccess c pc) as [|i|i old strong|n a|n old|n|n|n|n|n k] eqn:Ha.
    - intros H. eauto.
    - destruct (hist i x w !! ts) as [[v mv]|] eqn:Hh; [|done]. case_decide as Hv; [|done].
      intros H. apply Hr in H as [-> [x1 H]]. rewrite (last_hist i x w ts v mv) in H; [|rewrite Hroot; lia|done].
      exists sp. pose proof (Hk _ _ _ _ I H) as ->. done.
    - destruct (hist i x w !! ts) as [[v mv]|] eqn:Hh; [|done]. case_decide as Hv; [|done]. case_decide as Hc; [eauto|].
      case_decide as Hd; [done|].
      intros H. apply Hr in H as [-> [x1 H]]. pose proof (last_hist i x w ts v mv) as Hsee. rewrite Hsee in H; [|rewrite Hroot; lia|done].
      exists true. assert (x1 = x) as ->; [|done]. apply (Hk true addr x1 pc'); [|done].
      destruct strong; [|by destruct i]. destruct i.
      + destruct pc; simpl in Ha; try done; repeat case_decide; try done;
          repeat match goal with
            | H : context [aaccess _ ?a] |- _ => destruct a; simpl in *
            | H : context [daccess _ ?d] |- _ => destruct d; simpl in *
            | H : context [match ?b with _ => _ end] |- _ => destruct b eqn:?; simpl in *
            end; done.
      + destruct pc; simpl in Ha; try done; repeat case_decide; try done;
          repeat match goal with
            | H : context [aaccess _ ?a] |- _ => destruct a; simpl in *
            | H : context [daccess _ ?d] |- _ => destruct d; simpl in *
            | H : context [match ?b with _ => _ end] |- _ => destruct b eqn:?; simpl in *
            end; done.
      + intros E. apply Hd. split; [done|]. rewrite <- E, <- Hsee; [done|rewrite Hroot; lia|done].
    - destruct (q_heap x !! n) as [nd|] eqn:Hn; [|done]. destruct (nhist nd w n !! ts) as [[v mv]|] eqn:Hh; [|done].
      case_decide as Hv; [|done]. intros H. apply Hr in H as [-> [x1 H]].
      rewrite (last_next x w n nd ts v mv) in H; [|done|rewrite Hnext; lia|done].
      exists sp. pose proof (Hk _ _ _ _ I H) as ->. done.
    - destruct (q_heap x !! n) as [nd|] eqn:Hn; [|done]. destruct (nhist nd w n !! ts) as [[v mv]|] eqn:Hh; [|done].
      case_decide as Hv; [|done]. case_decide as Hc; [eauto|]. intros H. apply Hr in H as [-> [x1 H]].
      rewrite (last_next x w n nd ts v mv) in H; [|done|rewrite Hnext; lia|done].
      exists true. pose proof (Hk _ _ _ _ eq_refl H) as ->. done.
    - eauto.
    - destruct (q_heap x !! n) as [nd|] eqn:Hn; [|done]. rewrite decide_True by (by destruct (G2 n)).
      intros H. apply Hr in H as [-> [x1 H]]. exists sp. pose proof (Hk _ _ _ _ I H) as ->. done.
    - eauto.
    - case_decide as Hv; [|done]. eauto.
    - destruct (q_heap x !! n) as [nd|] eqn:Hn; [|done]. rewrite decide_True by (by destruct (G2 n)).
      intros H. apply Hr in H as [-> [x1 H]]. exists sp. pose proof (Hk _ _ _ _ I H) as ->. done.
  Qed.

  Lemma alone_main ns tr s t ts sp addr junk s' evs :
    rqreach c true ns tr s -> sees_all (r_w s) (r_view s t) -> rstep c true s (RRun t ts sp addr junk) = RNext s' evs ->
    sees_all (r_w s') (r_view s' t) /\
    exists sp', qstep c (QSt (r_x s) (r_pcs s)) (Run t sp' addr false) = QNext (QSt (r_x s') (r_pcs s')) evs.*1.
  Proof using Htag.
    intros (addr0 & s0 & H1 & H2 & H3 & H4 & H5) Hs Hst.
    assert (He : rexec c true s0 (tr ++ evs) s') by by eapply rexec_step.
    destruct (rexec_ok c Htag ns addr0 s0 (tr ++ evs) s' H1 H2 H3 H4 He) as (g & HI).
    destruct (qi_vw _ _ _ _ _ _ _ (in_q _ _ _ _ HI) t) as [W1 _ W3 W4].
    pose proof (W1 RPool) as W10. pose proof (W1 RHead) as W11. pose proof (W1 RTail) as W12.
    rewrite views_len in W10, W11, W12.
    simpl in Hst. destruct (r_pcs s !! t) as [pc|] eqn:Ht; [|done].
    assert (Hpc : (exists r, pc = PcRet r) \/
      match rtstep c true (r_x s) (r_w s) (r_view s t) pc ts sp addr junk with
      | RGo x w V pc' => RNext (RSt x w (<[t := pc']> (r_pcs s)) (set_view (r_view s) t V)) []
      | RGRace => RRace
      | RGUB => RUB
      | RGDisabled => RDisabled
      end = RNext s' evs) by (destruct pc; eauto).
    destruct Hpc as [[r ->]|Hpc].
    - injection Hst as <- <-. split.
      + simpl. unfold set_view. rewrite decide_True by done. exact Hs.
      + exists false. simpl. rewrite Ht. done.
    - destruct (rtstep _ _ _ _ _ _ _ _ _ _) as [x w V pc'| | |] eqn:Hr; try done.
      destruct (rtstep_sc _ _ _ _ _ _ _ _ _ _ _ _ Hs Hr) as [sp' E]. apply rtstep_last in Hr as [Hle Hl].
      injection Hpc as <- <-. simpl in *. unfold set_view in *. rewrite decide_True in * by done. split.
      + destruct Hs as (S0 & S1 & S5 & S2).
        pose proof (Hl (LRoot 0)) as L0. pose proof (Hle (LRoot 0)) as M0.
        pose proof (Hl (LRoot 1)) as L1. pose proof (Hle (LRoot 1)) as M1.
        pose proof (Hl (LRoot 2)) as L5. pose proof (Hle (LRoot 2)) as M5. simpl in *.
        split; [lia|]. split; [lia|]. split; [lia|]. intros n. destruct (S2 n) as [S3 S4].
        pose proof (Hl (LNext n)) as L2. pose proof (Hle (LNext n)) as M2.
        pose proof (Hl (LData n)) as L3. pose proof (Hle (LData n)) as M3. simpl in *.
        specialize (W3 n). specialize (W4 n). lia.
      + exists sp'. rewrite Ht. destruct pc; try by rewrite E. done.
  Qed.
End last.
