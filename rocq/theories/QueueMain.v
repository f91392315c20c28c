(** * Proofs of the queue properties, assembled *)
From stdpp Require Import gmap list numbers.
From Verif Require Import Lin LinObs LinFacts PoolModel Chain PoolProofs QueueModel QueueSpec QueueObs
  QueueInv QueueStep QueueSafe QueueHist QueueObsProofs QueueQuiet QueueSolo QueueDemo.

Section main.
  Context (c : cfg) (Htag : c_tagmod c = None).
  Notation spec := (qspec (c_node_based c) (c_throws c)).

  Lemma linearizable_main ns hist s :
    qreach c ns hist s ->
    hw_linearizable [] spec hist /\
    exists l ph a, lruns spec ∅ [] l ph a /\ erase l = hist /\ qcontents c s a.
  Proof.
    intros H. destruct (qreach_ok c Htag _ _ _ H) as (g & [HG HT] & Hl & _).
    split.
    - apply linearizable_hw. exists (g_l g), (g_ph g), (g_a g). split; [apply HG|done].
    - exists (g_l g), (g_ph g), (g_a g). split; [apply HG|]. split; [done|]. by apply gi_contents.
  Qed.

  Lemma safe_main ns hist s ch : qreach c ns hist s -> qstep c s ch <> QUB.
  Proof.
    intros H Hub. destruct (qreach_ok c Htag _ _ _ H) as (g & HI & _).
    pose proof (qstep_ok c Htag _ _ ch HI) as Hok. by rewrite Hub in Hok.
  Qed.

  Lemma origin_main ns hist s h1 h2 t v :
    qreach c ns hist s -> hist = h1 ++ Res t (RPop (Some v)) :: h2 ->
    exists t' o, Lin.Inv t' o ∈ h1 /\ pushes o = Some v.
  Proof.
    intros H. destruct (linearizable_main _ _ _ H) as [_ (l & ph & a & Hr & Hl & _)].
    apply (linearizable_origin (c_node_based c) (c_throws c)). by exists l, ph, a.
  Qed.

  Lemma push_fail_main ns t b v w :
    qcallret c ns t (Push b v) w (RBool false) ->
    (c_node_based c = false \/ b = true) /\
    exists s, s ∈ w /\ (q_pool (q_sh s)).1 = c_null c /\ (c_throws c = false -> exhausted c s).
  Proof.
    intros H. destruct (qcallret_ok c Htag _ _ _ _ _ H) as (_ & x & (s & Hs & HP) & Hb).
    split; [done|]. exists s. done.
  Qed.

  Lemma pop_empty_main ns t w :
    qcallret c ns t Pop w (RPop None) -> exists s, s ∈ w /\ qcontents c s [].
  Proof. intros H. by destruct (qcallret_ok c Htag _ _ _ _ _ H) as (_ & x & HJ). Qed.

  Lemma empty_false_main ns t w :
    qcallret c ns t Empty w (RBool false) -> exists s v a, s ∈ w /\ qcontents c s (v :: a).
  Proof.
    intros H. destruct (qcallret_ok c Htag _ _ _ _ _ H) as (_ & x & (s & Hs & v & a & Ha)). eauto.
  Qed.

  Lemma quiet_nil (g : ghost) s : Inv c s g -> quiescent s -> g_ph g = ∅.
  Proof.
    intros [_ HT] Hq. apply map_eq. intros t. rewrite lookup_empty. specialize (HT t).
    rewrite Hq, lookup_empty in HT. apply HT.
  Qed.

  Lemma puts_dones (ds : list (qop * qret)) : omap puts ds ⊆+ omap pushes ds.*1.
  Proof.
    induction ds as [|[o r] ds IH]; [done|]. destruct o as [b v| | |n|v| |n], r as [[]| | |]; simpl;
      first [exact IH|by apply submseteq_skip|by apply submseteq_cons].
  Qed.

  Lemma takes_dones (ds : list (qop * qret)) :
    length (omap takes ds) <= length (filter (fun o => is_pop o = true) ds.*1).
  Proof.
    induction ds as [|[o r] ds IH]; [done|]. rewrite fmap_cons, filter_cons.
    assert (Hc : omap takes ((o, r) :: ds) = (match takes (o, r) with Some v => [v] | None => [] end) ++ omap takes ds).
    { change (omap takes ((o, r) :: ds)) with
        (match takes (o, r) with Some y => y :: omap takes ds | None => omap takes ds end).
      by destruct (takes (o, r)). }
    rewrite Hc, app_length.
    destruct o as [b v| | |n|v| |n]; cbn [takes is_pop fst]; case_decide; try done; cbn [length]; try lia.
    all: destruct r as [x|[w|]| |]; cbn [takes length app]; lia.
  Qed.

  Lemma filter_submseteq (P : qop -> Prop) `{!forall x, Decision (P x)} l1 l2 :
    l1 ⊆+ l2 -> length (filter P l1) <= length (filter P l2).
  Proof.
    intros Hs. apply submseteq_Permutation in Hs as [k Hk]. rewrite Hk, list.filter_app, app_length. lia.
  Qed.

  Lemma conserve_main ns hist s :
    qreach c ns hist s ->
    exists P T a, qcontents c s a /\ P = T ++ a /\
      omap puts (completed hist) ⊆+ P /\
      P ⊆+ omap puts (completed hist) ++ omap pushes (pending hist) /\
      omap takes (completed hist) ⊆+ T /\
      length T <= length (omap takes (completed hist)) +
                  length (filter (fun o => is_pop o = true) (pending hist)).
  Proof.
    intros H. destruct (qreach_ok c Htag _ _ _ H) as (g & [HG HT] & Hl & _).
    pose proof (gi_run _ _ _ HG) as Hr. destruct (lruns_completed _ _ _ _ _ Hr) as [Hph Hp].
    rewrite Hl in Hph, Hp. pose proof (dones_pending _ _ Hph) as Hd.
    exists (omap puts (lins (g_l g))), (omap takes (lins (g_l g))), (g_a g).
    split; [by apply gi_contents|]. split; [by eapply lruns_conserve|].
    rewrite Hp, !omap_app. split; [by apply submseteq_inserts_r|]. split.
    { apply submseteq_app; [done|]. etrans; [apply puts_dones|]. by apply omap_submseteq. }
    split; [by apply submseteq_inserts_r|]. rewrite app_length.
    pose proof (takes_dones (dones (g_ph g))).
    pose proof (filter_submseteq (fun o => is_pop o = true) _ _ Hd). lia.
  Qed.

  Lemma conserve_quiet_main ns hist s :
    qreach c ns hist s -> quiescent s ->
    exists a, qcontents c s a /\
      omap puts (completed hist) ≡ₚ omap takes (completed hist) ++ a.
  Proof.
    intros H Hq. destruct (qreach_ok c Htag _ _ _ H) as (g & HI & Hl & _).
    pose proof HI as [HG HT].
    pose proof (gi_run _ _ _ HG) as Hr. destruct (lruns_completed _ _ _ _ _ Hr) as [Hph Hp].
    exists (g_a g). split; [by apply gi_contents|].
    rewrite (quiet_nil _ _ HI Hq), Hl in Hp. unfold dones in Hp. rewrite map_to_list_empty in Hp.
    simpl in Hp. rewrite app_nil_r in Hp. rewrite <- Hp. by erewrite lruns_conserve.
  Qed.

  Lemma fifo_main ns hist s :
    qreach c ns hist s ->
    forall i1 j1 t1 o1 i2 t2 o2 k1 l1 s1 p1 k2 l2 s2 p2 v1 v2,
      v1 <> v2 ->
      (forall i t o, hist !! i = Some (Lin.Inv t o) -> pushes o = Some v1 -> i = i1) ->
      (forall i t o, hist !! i = Some (Lin.Inv t o) -> pushes o = Some v2 -> i = i2) ->
      call_returns hist i1 j1 t1 o1 (RBool true) -> pushes o1 = Some v1 ->
      hist !! i2 = Some (Lin.Inv t2 o2) -> pushes o2 = Some v2 -> j1 < i2 ->
      call_returns hist k1 l1 s1 p1 (RPop (Some v1)) -> is_pop p1 = true ->
      call_returns hist k2 l2 s2 p2 (RPop (Some v2)) -> is_pop p2 = true ->
      k1 <= l2.
  Proof. intros H. destruct (linearizable_main _ _ _ H) as [Hw _]. by apply (hw_fifo _ _ _ Hw). Qed.

  Lemma quiet_main ns hist s a :
    qreach c ns hist s -> quiescent s -> qcontents c s a ->
    exists g, Inv c s g /\ g_a g = a /\ nonlag c (q_sh s).
  Proof.
    intros H Hq Ha. destruct (qreach_ok c Htag _ _ _ H) as (g & HI & Hl & HL).
    exists g. split; [done|]. split; [symmetry; by eapply inv_contents|].
    by eapply lag_quiet.
  Qed.

  Lemma empty_quiet_main ns hist s a t tf :
    qreach c ns hist s -> quiescent s -> qcontents c s a ->
    qrun c s (Invoke t Empty tf :: replicate 3 (Run t false None false)) =
      Some ([Lin.Inv t Empty; Res t (RBool (bool_decide (a = [])))], s).
  Proof.
    intros H Hq Ha. destruct (quiet_main _ _ _ _ H Hq Ha) as (g & [HG _] & Hg & HL).
    rewrite (qrun_call c s t Empty tf (if tf then PcETail else PcEHead) 2 (q_sh s)
               (RBool (bool_decide (g_a g = [])))); [|done| |by apply empty_solo].
    - rewrite Hg. destruct s as [x pcs]. unfold quiescent in Hq. simpl in *. by subst pcs.
    - done.
  Qed.

  Lemma gi_pend (g : ghost) s t o :
    Inv c s g -> quiescent s ->
    exists g1, GI c (q_sh s) g1 /\ pend g1 t o /\ g_a g1 = g_a g /\ g_fn g1 = g_fn g.
  Proof.
    intros HI Hq. pose proof HI as [HG HT].
    assert (Hn : g_ph g !! t = None) by (by rewrite (quiet_nil _ _ HI Hq), lookup_empty).
    destruct (act_inv c _ _ _ o HG Hn) as [HG1 _]. eexists. split; [exact HG1|].
    split; [|done]. unfold pend. simpl. by rewrite lookup_insert.
  Qed.

  Lemma pop_quiet_main ns hist s a t tf :
    qreach c ns hist s -> quiescent s -> qcontents c s a ->
    exists k s', qrun c s (Invoke t Pop tf :: replicate k (Run t false None false)) =
        Some ([Lin.Inv t Pop; Res t (RPop (head a))], s') /\ quiescent s' /\ qcontents c s' (tail a).
  Proof.
    intros H Hq Ha. destruct (quiet_main _ _ _ _ H Hq Ha) as (g & HI & Hg & HL).
    destruct (gi_pend g s t Pop HI Hq) as (g1 & HG1 & Hp & Ha1 & _).
    destruct a as [|v a]; cbn [head tail].
    - exists 5, (QSt (q_sh s) ∅). split; [|split; [done|]].
      + eapply qrun_call; [done|done|]. eapply pop_solo_empty; [exact HG1|done|congruence].
      + by destruct s.
    - destruct (pop_solo c Htag _ _ t v a HG1 Hp HL) as (k & x' & g' & Hts & HG' & Ha' & _); [congruence|].
      exists (S k), (QSt x' ∅). split; [|split; [done|]].
      + by eapply qrun_call.
      + rewrite <- Ha'. by apply (gi_contents c (QSt x' ∅)).
  Qed.

  Lemma bounds_main ns hist s a :
    ns <> [] -> qreach c ns hist s -> (forall t o, Lin.Inv t o ∈ hist -> allocates c o = false) ->
    size (q_heap (q_sh s)) = length ns /\ (qcontents c s a -> S (length a) <= length ns).
  Proof.
    intros Hne H Hop. pose proof H as (addr & s0 & Hnd & Hnn & _ & Hi & He).
    assert (Hsz : size (q_heap (q_sh s)) = length ns).
    { destruct (qexec_noalloc c s0 hist s) as [Hd _]; [|done|done|].
      - intros t pc. enough (q_pcs s0 = ∅) as -> by (by rewrite lookup_empty).
        unfold qinit in Hi. destruct (pool_init c (qd0 c) ns) as [h p].
        destruct (alloc_unsafe c (qd0 c) false h p addr) as [?|h' p' n| | | |]; try done.
        + destruct (h' !! n); [|done]. by injection Hi as <-.
        + by injection Hi as <-.
      - rewrite <- size_dom, Hd, (qinit_dom c _ _ _ Hi Hne Hnd Hnn).
        by apply size_list_to_set. }
    split; [done|]. intros Ha. destruct (qreach_ok c Htag _ _ _ H) as (g & HI & _).
    rewrite (inv_contents c _ _ _ HI Ha). destruct HI as [HG _].
    pose proof (gi_size _ _ _ HG). lia.
  Qed.

  Lemma push_quiet_main ns hist s a t b v tf :
    c_throws c = false -> qreach c ns hist s -> quiescent s -> qcontents c s a ->
    length v = c_words c -> c_node_based c = false \/ b = true ->
    exists k s', qrun c s (Invoke t (Push b v) tf :: replicate k (Run t false None false)) =
        Some ([Lin.Inv t (Push b v); Res t (RBool (bool_decide (S (length a) < size (q_heap (q_sh s)))))], s') /\
      quiescent s' /\
      qcontents c s' (if decide (S (length a) < size (q_heap (q_sh s))) then a ++ [v] else a).
  Proof.
    intros Hth H Hq Ha Hv Hb. destruct (quiet_main _ _ _ _ H Hq Ha) as (g & HI & Hg & HL).
    destruct (gi_pend g s t (Push b v) HI Hq) as (g1 & HG1 & Hp & Ha1 & Hf1).
    pose proof (inv_quiet_size c _ _ Hth HI Hq) as Hsz. rewrite Hg in Hsz.
    assert (Hst : qstart c (Push b v) tf = Some (PcAlloc b v ALoad)).
    { simpl. by rewrite decide_True. }
    destruct (decide (g_fn g = [])) as [Hfn|Hfn].
    - rewrite Hfn in Hsz. simpl in Hsz. rewrite bool_decide_false, decide_False by lia.
      exists 3, (QSt (q_sh s) ∅). split; [|split; [done|]].
      + eapply qrun_call; [done|done|]. eapply push_solo_fail; [exact HG1|congruence|done].
      + by destruct s.
    - assert (1 <= length (g_fn g)) by (destruct (g_fn g); [done|simpl; lia]).
      rewrite bool_decide_true, decide_True by lia.
      destruct (push_solo c Htag _ _ t b v HG1 Hp Hv HL) as (k & x' & g' & Hts & HG' & Ha' & _); [congruence|].
      exists (S k), (QSt x' ∅). split; [|split; [done|]].
      + by eapply qrun_call.
      + rewrite <- Hg, <- Ha1, <- Ha'. by apply (gi_contents c (QSt x' ∅)).
  Qed.

  Lemma reserve_main ns hist s a t n tf chs h s' :
    qreach c ns hist s -> quiescent s -> qcontents c s a ->
    Forall (fun ch => exists sp addr thr, ch = Run t sp addr thr) chs ->
    qrun c s (Invoke t (Reserve n) tf :: chs) = Some (h, s') -> Res t RUnit ∈ h ->
    size (q_heap (q_sh s')) = size (q_heap (q_sh s)) + n /\ qcontents c s' a /\ quiescent s'.
  Proof.
    intros H Hq Ha HF Hr Hin. destruct (quiet_main _ _ _ _ H Hq Ha) as (g & HI & Hg & HL).
    rewrite <- Hg. by eapply reserve_solo.
  Qed.

  Lemma dtor_main ns hist s :
    c_throws c = false -> qreach c ns hist s -> quiescent s ->
    exists l, qdtor c (q_sh s) = Some l /\ NoDup l /\
      forall n, n ∈ l <-> is_Some (q_heap (q_sh s) !! n).
  Proof.
    intros Hth H Hq. destruct (qreach_ok c Htag _ _ _ H) as (g & HI & _). by eapply dtor_ok.
  Qed.

  Lemma unsync_main ns hist s a t :
    qreach c ns hist s -> quiescent s -> qcontents c s a ->
    (exists s', qstep c s (Unsync t UPop [] false) = QNext s' [Lin.Inv t UPop; Res t (RPop (head a))] /\
       quiescent s' /\ qcontents c s' (tail a)) /\
    (forall v addr, c_node_based c = true -> length v = c_words c ->
       (q_pool (q_sh s)).1 <> c_null c \/
       (exists n, addr = Some n /\ q_heap (q_sh s) !! n = None /\ n <> c_null c) ->
       exists s', qstep c s (Unsync t (UPush v) [addr] false) = QNext s' [Lin.Inv t (UPush v); Res t (RBool true)] /\
         quiescent s' /\ qcontents c s' (a ++ [v])) /\
    (forall v, c_node_based c = true -> length v = c_words c -> (q_pool (q_sh s)).1 = c_null c ->
       exists s', qstep c s (Unsync t (UPush v) [None] false) = QNext s' [Lin.Inv t (UPush v); Res t RExn] /\
         quiescent s' /\ qcontents c s' a) /\
    (forall n addrs thr s' evs, qstep c s (Unsync t (UReserve n) addrs thr) = QNext s' evs ->
       quiescent s' /\ qcontents c s' a) /\
    (forall o addrs thr s' evs, qstep c s (Unsync t o addrs thr) = QNext s' evs -> Res t RExn ∈ evs ->
       quiescent s' /\ qcontents c s' a).
  Proof.
    intros H Hq Ha. destruct (quiet_main _ _ _ _ H Hq Ha) as (g & HI & Hg & HL).
    assert (Hu : forall o addrs thr x' r, ucall c (q_sh s) o addrs thr = UDone x' r ->
      qstep c s (Unsync t o addrs thr) = QNext (QSt x' ∅) [Lin.Inv t o; Res t r] /\
      exists a', qcontents c (QSt x' ∅) a' /\ spec a o r a').
    { intros o addrs thr x' r Hu. simpl. rewrite decide_True by done. rewrite Hu. split; [done|].
      pose proof (ustep_ok c Htag s g t o addrs thr HI Hq) as Hok. rewrite Hu in Hok.
      destruct Hok as (g' & [HG' _] & _ & Hsp & _). rewrite Hg in Hsp. exists (g_a g').
      split; [|done]. by apply (gi_contents c (QSt x' ∅)). }
    split; [|split; [|split; [|split]]].
    - destruct (ucall c (q_sh s) UPop [] false) as [x' r| |] eqn:Hc.
      + destruct (Hu _ _ _ _ _ Hc) as (Hs & a' & Ha' & Hsp). exists (QSt x' ∅).
        inversion Hsp; subst; cbn [head tail]; rewrite Hs; try done. exfalso. by eapply upop_loop_noexn.
      + pose proof (ustep_ok c Htag s g t UPop [] false HI Hq) as Hok. by rewrite Hc in Hok.
      + exfalso. destruct (dtor_pop c Htag (S (length (g_a g))) s g HI Hq) as (x' & _ & Hd & _); [lia|].
        simpl in Hd. simpl in Hc. by rewrite Hc in Hd.
    - intros v addr Hnb Hv Hal.
      pose proof (ustep_ok c Htag s g t (UPush v) [addr] false HI Hq) as Hok.
      destruct (ucall c (q_sh s) (UPush v) [addr] false) as [x' r| |] eqn:Hc.
      + destruct (Hu _ _ _ _ _ Hc) as (Hs & a' & Ha' & Hsp). exists (QSt x' ∅).
        assert (Hr : r <> RExn).
        { intros ->. simpl in Hc. rewrite decide_True in Hc by done. unfold upush in Hc.
          destruct (alloc_unsafe c (qd0 c) false (q_heap (q_sh s)) (q_pool (q_sh s)) addr)
            as [| h p n| | | |] eqn:Hall; try done.
          - destruct (h !! n); [|done]. revert Hc.
            generalize (S (size (<[n:=Node (c_null c, next_tag c (nx n0).2) v]> h))) as fuel.
            generalize (set_heap_pool (q_sh s) (<[n:=Node (c_null c, next_tag c (nx n0).2) v]> h) p).
            intros x fuel. revert x. induction fuel as [|fuel IH]; intros x; simpl; [done|].
            destruct (q_heap x !! (q_tail x).1); [|done]. destruct (decide _); [done|apply IH].
          - unfold alloc_unsafe in Hall. rewrite Hnb in Hall. simpl in Hall.
            destruct Hal as [Hal|(n & -> & Hn1 & Hn2)].
            + rewrite decide_False in Hall by done. by destruct (q_heap (q_sh s) !! _).
            + destruct (decide ((q_pool (q_sh s)).1 = c_null c)).
              * by rewrite decide_True in Hall.
              * by destruct (q_heap (q_sh s) !! (q_pool (q_sh s)).1). }
        inversion Hsp; subst; [|done]. rewrite Hs. done.
      + done.
      + exfalso. clear Hok. simpl in Hc. rewrite decide_True in Hc by done. unfold upush in Hc.
        pose proof HI as [HG _].
        pose proof (alloc_unsafe_ok c Htag (qd0 c) false _ _ _ _ addr (gi_pi _ _ _ HG)) as Hok.
        destruct (alloc_unsafe c (qd0 c) false (q_heap (q_sh s)) (q_pool (q_sh s)) addr)
          as [| h p n| | | |] eqn:Hall; try done.
        * destruct (h !! n); [|done]. revert Hc.
          generalize (S (size (<[n:=Node (c_null c, next_tag c (nx n0).2) v]> h))) as fuel.
          generalize (set_heap_pool (q_sh s) (<[n:=Node (c_null c, next_tag c (nx n0).2) v]> h) p).
          intros x fuel. revert x. induction fuel as [|fuel IH]; intros x; simpl; [done|].
          destruct (q_heap x !! (q_tail x).1); [|done]. destruct (decide _); [done|apply IH].
        * unfold alloc_unsafe in Hall. rewrite Hnb in Hall. simpl in Hall.
          destruct Hal as [Hal|(n & -> & Hn1 & Hn2)].
          -- rewrite decide_False in Hall by done. by destruct (q_heap (q_sh s) !! _).
          -- destruct (decide ((q_pool (q_sh s)).1 = c_null c)).
             ++ by rewrite decide_True in Hall.
             ++ by destruct (q_heap (q_sh s) !! (q_pool (q_sh s)).1).
    - intros v Hnb Hv Hp.
      assert (Hc : ucall c (q_sh s) (UPush v) [None] false = UDone (q_sh s) RExn).
      { simpl. rewrite decide_True by done. unfold upush, alloc_unsafe.
        rewrite decide_True by done. rewrite Hnb. done. }
      destruct (Hu _ _ _ _ _ Hc) as (Hs & a' & Ha' & Hsp). exists (QSt (q_sh s) ∅).
      inversion Hsp; subst. rewrite Hs. done.
    - intros n addrs thr s' evs Hs. pose proof Hs as Hs0. cbn [qstep] in Hs.
      rewrite decide_True in Hs by done.
      destruct (ucall c (q_sh s) (UReserve n) addrs thr) as [x' r| |] eqn:Hc; [|done..].
      injection Hs as <- _. destruct (Hu _ _ _ _ _ Hc) as (_ & a' & Ha' & Hsp).
      inversion Hsp; subst; done.
    - intros o addrs thr s' evs Hs Hin. cbn [qstep] in Hs. rewrite decide_True in Hs by done.
      destruct (ucall c (q_sh s) o addrs thr) as [x' r| |] eqn:Hc; [|done..].
      injection Hs as <- <-. destruct (Hu _ _ _ _ _ Hc) as (_ & a' & Ha' & Hsp).
      apply elem_of_cons in Hin as [[=]|Hin]. apply elem_of_list_singleton in Hin as [= <-].
      inversion Hsp; subst; done.
  Qed.
End main.

Section more.
  Context (c : cfg).

  Lemma qreach_ext ns hist s h s' : qreach c ns hist s -> qexec c s h s' -> qreach c ns (hist ++ h) s'.
  Proof.
    intros (addr & s0 & H1 & H2 & H3 & H4 & H5) He. exists addr, s0. do 4 (split; [done|]).
    by eapply qexec_trans.
  Qed.

  Lemma qreach_step ns hist s ch s' evs :
    qreach c ns hist s -> qstep c s ch = QNext s' evs -> qreach c ns (hist ++ evs) s'.
  Proof.
    intros (addr & s0 & H1 & H2 & H3 & H4 & H5) Hs. exists addr, s0. do 4 (split; [done|]).
    by econstructor.
  Qed.

  Lemma qrun_app chs1 : forall chs2 s h1 s1 h2 s2,
    qrun c s chs1 = Some (h1, s1) -> qrun c s1 chs2 = Some (h2, s2) ->
    qrun c s (chs1 ++ chs2) = Some (h1 ++ h2, s2).
  Proof.
    induction chs1 as [|ch chs1 IH]; intros chs2 s h1 s1 h2 s2 H1 H2; cbn [qrun app] in *.
    - by injection H1 as <- <-.
    - destruct (qstep c s ch) as [s' evs| |]; [|done..].
      destruct (qrun c s' chs1) as [[h' s'']|] eqn:Hr; [|done]. injection H1 as <- <-.
      rewrite (IH _ _ _ _ _ _ Hr H2). by rewrite app_assoc.
  Qed.

  Lemma noalloc_main :
    (forall s0 t o w s sp addr thr s' evs,
       qcall c s0 t o w s -> allocates c o = false ->
       qstep c s (Run t sp addr thr) = QNext s' evs ->
       dom (q_heap (q_sh s')) = dom (q_heap (q_sh s))) /\
    (forall s t o addrs thr s' evs,
       allocates c o = false -> qstep c s (Unsync t o addrs thr) = QNext s' evs ->
       dom (q_heap (q_sh s')) = dom (q_heap (q_sh s))) /\
    (forall ns hist s, ns <> [] -> qreach c ns hist s ->
       (forall t o, Lin.Inv t o ∈ hist -> allocates c o = false) ->
       dom (q_heap (q_sh s)) = list_to_set ns) /\
    (c_node_based c = false -> forall o, allocates c o = false).
  Proof.
    split; [|split; [|split]].
    - apply qcall_noalloc.
    - intros s t o addrs thr s' evs Ho Hs. cbn [qstep] in Hs. destruct (decide _); [|done].
      destruct (ucall c (q_sh s) o addrs thr) as [x' r| |] eqn:Hu; [|done..]. injection Hs as <- _.
      simpl. apply ucall_dom in Hu as [_ Hu]. auto.
    - intros ns hist s Hne (addr & s0 & Hnd & Hnn & _ & Hi & He) Hop.
      destruct (qexec_noalloc c s0 hist s) as [Hd _]; [|done|done|].
      + intros t pc. enough (q_pcs s0 = ∅) as -> by (by rewrite lookup_empty).
        unfold qinit in Hi. destruct (pool_init c (qd0 c) ns) as [h p].
        destruct (alloc_unsafe c (qd0 c) false h p addr) as [?|h' p' n| | | |]; try done.
        * destruct (h' !! n); [|done]. by injection Hi as <-.
        * by injection Hi as <-.
      + by rewrite Hd, (qinit_dom c _ _ _ Hi Hne Hnd Hnn).
    - intros Hnb [b v| | |n|v| |n]; simpl; by rewrite ?Hnb.
  Qed.

  (** ** Several bounded pushes in a row *)

  Context (Htag : c_tagmod c = None).

  Definition push_hist (t : nat) (nodes used : nat) (vs : list val) : list qevent :=
    concat (imap (fun i v => [Lin.Inv t (Push true v);
                              Res t (RBool (bool_decide (used + i < nodes)))]) vs).

  Lemma push_many ns t vs : forall hist s a,
    c_throws c = false -> qreach c ns hist s -> quiescent s -> qcontents c s a ->
    Forall (fun v => length v = c_words c) vs ->
    exists chs s', qrun c s chs = Some (push_hist t (size (q_heap (q_sh s))) (S (length a)) vs, s') /\
      quiescent s' /\ qcontents c s' (a ++ take (size (q_heap (q_sh s)) - S (length a)) vs).
  Proof.
    induction vs as [|v vs IH]; intros hist s a Hth H Hq Ha HF.
    - exists [], s. split; [done|]. split; [done|]. by rewrite take_nil, app_nil_r.
    - apply Forall_cons_1 in HF as [Hv HF].
      destruct (push_quiet_main c Htag ns hist s a t true v false Hth H Hq Ha Hv (or_intror eq_refl))
        as (k & s1 & Hr & Hq1 & Ha1).
      set (m := size (q_heap (q_sh s))) in *.
      assert (He : qexec c s [Lin.Inv t (Push true v); Res t (RBool (bool_decide (S (length a) < m)))] s1)
        by (by eapply qrun_exec).
      assert (Hm : size (q_heap (q_sh s1)) = m).
      { edestruct (qexec_noalloc c s) as [Hd _]; [|exact He| |].
        - intros t' pc. by rewrite Hq, lookup_empty.
        - intros t' o Hin. repeat (apply elem_of_cons in Hin as [Hin|Hin]); [|done|by apply elem_of_nil in Hin].
          injection Hin as -> ->. simpl. by destruct (c_node_based c).
        - subst m. by rewrite <- !size_dom, Hd. }
      destruct (IH _ s1 _ Hth (qreach_ext _ _ _ _ _ H He) Hq1 Ha1 HF) as (chs & s' & Hr' & Hq' & Ha').
      rewrite Hm in Hr', Ha'.
      exists ((Invoke t (Push true v) false :: replicate k (Run t false None false)) ++ chs), s'.
      split; [|split; [done|]].
      + erewrite qrun_app; [|exact Hr|exact Hr']. do 2 f_equal. unfold push_hist. rewrite imap_cons.
        cbn [concat]. rewrite Nat.add_0_r. f_equal. f_equal. apply imap_ext. intros i w _. simpl.
        do 4 f_equal. apply bool_decide_ext. destruct (decide _).
        * rewrite app_length. simpl. lia.
        * lia.
      + destruct (decide (S (length a) < m)) as [Hlt|Hge].
        * rewrite app_length in Ha'. simpl in Ha'.
          replace (m - S (length a)) with (S (m - S (length a + 1))) by lia. simpl.
          by rewrite <- app_assoc in Ha'.
        * replace (m - S (length a)) with 0 in * by lia. done.
  Qed.
End more.
