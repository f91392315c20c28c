(** * A call of the queue that never returns while another thread works *)
From stdpp Require Import gmap list numbers.
From Verif Require Import Lin LinObs LinFacts PoolModel Chain PoolProofs QueueModel QueueSpec QueueObs
  QueueInv QueueStep QueueSafe QueueHist QueueObsProofs QueueQuiet QueueSolo QueueDemo QueueMain
  WaitObs.
Set Default Proof Using "Type".

Notation qcalls := (Forall q_calm).

Lemma q_steps_app t chs1 chs2 : q_steps t (chs1 ++ chs2) = q_steps t chs1 + q_steps t chs2.
Proof. unfold q_steps. by rewrite List.filter_app, app_length. Qed.
Lemma q_steps_own t k : q_steps t (replicate k (QueueModel.Run t false None false)) = k.
Proof.
  induction k as [|k IH]; [done|]. unfold q_steps in *. cbn [replicate List.filter q_own].
  rewrite bool_decide_true by done. cbn [length]. by rewrite IH.
Qed.

Section wait.
  Context (c : cfg).
  Notation Run := QueueModel.Run.
  Notation Invoke := QueueModel.Invoke.

  (** ** Another thread in the middle of a call does not matter *)
  Definition not_of (t : nat) (ch : qchoice) : Prop :=
    match ch with Invoke t' _ _ | Run t' _ _ _ => t' <> t | Unsync _ _ _ _ => False end.

  Lemma qstep_frame t pc s ch s' evs :
    not_of t ch -> qstep c s ch = QNext s' evs ->
    qstep c (QSt (q_sh s) (<[t := pc]> (q_pcs s))) ch =
      QNext (QSt (q_sh s') (<[t := pc]> (q_pcs s'))) evs.
  Proof.
    intros Hn Hs. destruct ch as [t' o tf|t' sp addr thr|]; [| |done]; cbn [not_of qstep q_pcs q_sh] in *.
    - rewrite lookup_insert_ne by done. destruct (q_pcs s !! t'); [done|].
      destruct (qstart c o tf); [|done]. injection Hs as <- <-. unfold set_pc. cbn [q_sh q_pcs].
      by rewrite insert_commute.
    - rewrite lookup_insert_ne by done. destruct (q_pcs s !! t') as [pc'|]; [|done].
      assert (HR : forall r, pc' = PcRet r ->
        QNext (QSt (q_sh s) (delete t' (<[t := pc]> (q_pcs s)))) [Res t' r] =
        QNext (QSt (q_sh s') (<[t := pc]> (q_pcs s'))) evs).
      { intros r ->. injection Hs as <- <-. cbn [q_sh q_pcs]. by rewrite delete_insert_ne. }
      destruct pc'; try (by apply HR);
        (destruct (tstep c (q_sh s) _ sp addr thr) as [x pc1| |]; [|done|done];
         injection Hs as <- <-; cbn [q_sh q_pcs]; by rewrite insert_commute).
  Qed.

  Lemma qrun_frame t pc chs : forall s h s',
    Forall (not_of t) chs -> qrun c s chs = Some (h, s') ->
    qrun c (QSt (q_sh s) (<[t := pc]> (q_pcs s))) chs = Some (h, QSt (q_sh s') (<[t := pc]> (q_pcs s'))).
  Proof.
    induction chs as [|ch chs IH]; intros s h s' Hn Hr; cbn [qrun] in *.
    - by injection Hr as <- <-.
    - inversion Hn as [|? ? Hn1 Hn2]; subst. clear Hn. rename Hn2 into Hn.
      destruct (qstep c s ch) as [s1 evs| |] eqn:Hs; [|done|done].
      rewrite (qstep_frame t pc _ _ _ _ Hn1 Hs).
      destruct (qrun c s1 chs) as [[h1 s2]|] eqn:Hr1; [|done]. injection Hr as <- <-.
      by rewrite (IH _ _ _ Hn Hr1).
  Qed.

  (** The same between states in which nobody else is in a call. *)
  Lemma qrun_beside t pc chs b h b' :
    quiescent b -> quiescent b' -> Forall (not_of t) chs -> qrun c b chs = Some (h, b') ->
    qrun c (QSt (q_sh b) {[t := pc]}) chs = Some (h, QSt (q_sh b') {[t := pc]}).
  Proof.
    intros Hq Hq' Hn Hr. apply (qrun_frame t pc) in Hr; [|done]. rewrite Hq, Hq' in Hr. exact Hr.
  Qed.

  Lemma call_not_of (t u : nat) o tf k :
    t <> u -> Forall (not_of t) (Invoke u o tf :: replicate k (Run u false None false)).
  Proof. intros Hne. constructor; [done|]. apply Forall_replicate. done. Qed.
  Lemma call_calm (u : nat) o tf k : qcalls (Invoke u o tf :: replicate k (Run u false None false)).
  Proof. constructor; [done|]. by apply Forall_replicate. Qed.

  (** A step of the thread itself that only reads. *)
  Lemma qrun_read t pc pc' x :
    tstep c x pc false None false = TGo x pc' ->
    qrun c (QSt x {[t := pc]}) [Run t false None false] = Some ([], QSt x {[t := pc']}).
  Proof.
    intros Hst. cbn [qrun qstep q_pcs q_sh]. rewrite lookup_singleton.
    destruct pc; try (rewrite Hst, insert_singleton; reflexivity). done.
  Qed.

  Context (Htag : c_tagmod c = None) (Hth : c_throws c = false).

  (** ** One whole call of the other thread *)
  Lemma pop_call ns hist s v a u tf :
    qreach c ns hist s -> quiescent s -> qcontents c s (v :: a) ->
    exists k s', qrun c s (Invoke u Pop tf :: replicate k (Run u false None false)) =
        Some ([Lin.Inv u Pop; Res u (RPop (Some v))], s') /\ quiescent s' /\ qcontents c s' a /\
      (q_pool (q_sh s')).2 = (q_pool (q_sh s)).2 /\
      (q_head (q_sh s')).2 = ((q_head (q_sh s)).2 + 1)%N.
  Proof using Htag.
    intros H Hq Ha. destruct (quiet_main c Htag _ _ _ _ H Hq Ha) as (g & HI & Hg & HL).
    destruct (gi_pend c g s u Pop HI Hq) as (g1 & HG1 & Hp & Ha1 & _).
    destruct (pop_solo c Htag _ _ u v a HG1 Hp HL) as (k & x' & g' & Hts & HG' & Ha' & Hpl & Hhd);
      [congruence|].
    rewrite next_tag_succ in Hhd by done.
    exists (S k), (QSt x' ∅). split; [by eapply qrun_call|]. split; [done|]. split; [|done].
    rewrite <- Ha'. by apply (gi_contents c (QSt x' ∅)).
  Qed.

  Lemma push_call ns hist s a u v tf :
    qreach c ns hist s -> quiescent s -> qcontents c s a -> length v = c_words c ->
    S (length a) < size (q_heap (q_sh s)) ->
    exists k s', qrun c s (Invoke u (Push true v) tf :: replicate k (Run u false None false)) =
        Some ([Lin.Inv u (Push true v); Res u (RBool true)], s') /\
      quiescent s' /\ qcontents c s' (a ++ [v]) /\
      (q_pool (q_sh s')).2 = ((q_pool (q_sh s)).2 + 1)%N /\ q_head (q_sh s') = q_head (q_sh s).
  Proof using Htag Hth.
    intros H Hq Ha Hv Hsp. destruct (quiet_main c Htag _ _ _ _ H Hq Ha) as (g & HI & Hg & HL).
    destruct (gi_pend c g s u (Push true v) HI Hq) as (g1 & HG1 & Hp & Ha1 & Hf1).
    pose proof (inv_quiet_size c _ _ Hth HI Hq) as Hsz. rewrite Hg in Hsz.
    assert (Hst : qstart c (Push true v) tf = Some (PcAlloc true v ALoad)).
    { simpl. by rewrite decide_True. }
    destruct (push_solo c Htag _ _ u true v HG1 Hp Hv HL) as (k & x' & g' & Hts & HG' & Ha' & Hpl & Hhd).
    { rewrite Hf1. intros Hfn. rewrite Hfn in Hsz. simpl in Hsz. lia. }
    rewrite next_tag_succ in Hpl by done.
    exists (S k), (QSt x' ∅). split; [by eapply qrun_call|]. split; [done|]. split; [|done].
    rewrite <- Hg, <- Ha1, <- Ha'. by apply (gi_contents c (QSt x' ∅)).
  Qed.

  Lemma run_reach ns hist s chs h s' :
    qreach c ns hist s -> qrun c s chs = Some (h, s') ->
    qreach c ns (hist ++ h) s' /\ dom (q_heap (q_sh s)) ⊆ dom (q_heap (q_sh s')).
  Proof.
    intros H Hr. apply qrun_exec in Hr. split; [by eapply qreach_ext|]. by eapply qexec_dom.
  Qed.

  Lemma dom_size (h h' : gmap N qnode) : dom h ⊆ dom h' -> size h <= size h'.
  Proof. intros Hd. rewrite <- !size_dom. by apply subseteq_size. Qed.
  Lemma dom_Some (h h' : gmap N qnode) n : dom h ⊆ dom h' -> is_Some (h !! n) -> is_Some (h' !! n).
  Proof. intros Hd Hn. apply elem_of_dom. apply Hd. by apply elem_of_dom. Qed.

  (** Every element has a node of its own, and there is a dummy node. *)
  Lemma contents_size ns hist s a :
    qreach c ns hist s -> quiescent s -> qcontents c s a -> S (length a) <= size (q_heap (q_sh s)).
  Proof using Htag.
    intros H Hq Ha. destruct (quiet_main c Htag _ _ _ _ H Hq Ha) as (g & [HG _] & Hg & _).
    pose proof (gi_size _ _ _ HG). subst. lia.
  Qed.

  Lemma head_dom ns hist s a :
    qreach c ns hist s -> quiescent s -> qcontents c s a ->
    is_Some (q_heap (q_sh s) !! (q_head (q_sh s)).1).
  Proof. intros _ _ (nd & Hnd & _). eauto. Qed.

  (** ** pop *)
  Lemma pop_rounds (t u : nat) (v : val) (tf : bool) k : t <> u -> length v = c_words c -> forall ns hist b w a,
    qreach c ns hist b -> quiescent b -> qcontents c b (w :: a) ->
    exists chs ws b', qcalls chs /\ length ws = k /\ q_steps t chs = 4 * k /\
      qrun c (QSt (q_sh b) {[t := PcOHead]}) chs = Some (q_pop_push u v ws, QSt (q_sh b') {[t := PcOHead]}).
  Proof using Htag Hth.
    intros Hne Hv. induction k as [|k IH]; intros ns hist b w a H Hq Ha.
    { exists [], [], b. done. }
    destruct (head_dom _ _ _ _ H Hq Ha) as [nd0 Hnd0].
    destruct (pop_call _ _ _ _ _ u tf H Hq Ha) as (k1 & b1 & Hr1 & Hq1 & Ha1 & _ & Ht1).
    destruct (run_reach _ _ _ _ _ _ H Hr1) as [H1 Hd1].
    pose proof (contents_size _ _ _ _ H Hq Ha) as Hsz. cbn [length] in Hsz.
    destruct (push_call _ _ _ _ u v tf H1 Hq1 Ha1 Hv) as (k2 & b2 & Hr2 & Hq2 & Ha2 & _ & Ht2).
    { apply dom_size in Hd1. lia. }
    destruct (run_reach _ _ _ _ _ _ H1 Hr2) as [H2 Hd2].
    destruct (dom_Some _ _ (q_head (q_sh b)).1 (transitivity Hd1 Hd2) ltac:(eauto)) as [nd Hnd].
    assert (Hhd : q_head (q_sh b) <> q_head (q_sh b2)).
    { rewrite Ht2. intros He. rewrite <- He in Ht1. lia. }
    assert (exists w' a', a ++ [v] = w' :: a') as (w' & a' & Hw').
    { destruct a as [|w' a']; [by exists v, []|by exists w', (a' ++ [v])]. }
    rewrite Hw' in Ha2. destruct (IH _ _ _ _ _ H2 Hq2 Ha2) as (chs & ws & b' & Hc & Hlen & Hst & Hrun).
    exists ([Run t false None false] ++
            (Invoke u Pop tf :: replicate k1 (Run u false None false)) ++
            (Invoke u (Push true v) tf :: replicate k2 (Run u false None false)) ++
            [Run t false None false] ++ [Run t false None false] ++ [Run t false None false] ++ chs),
           (w :: ws), b'.
    split; [|split; [|split]].
    - apply Forall_app. split; [by repeat constructor|]. apply Forall_app. split; [apply call_calm|].
      apply Forall_app. split; [apply call_calm|]. repeat (apply Forall_app; split; [by repeat constructor|]). done.
    - cbn [length]. by rewrite Hlen.
    - rewrite !q_steps_app, Hst.
      assert (Hz : forall o m, q_steps t (Invoke u o tf :: replicate m (Run u false None false)) = 0).
      { intros o m. unfold q_steps. cbn [List.filter q_own]. induction m as [|m IHm]; [done|].
        cbn [replicate List.filter q_own]. rewrite bool_decide_false by congruence. done. }
      rewrite !Hz.
      assert (Ho : q_steps t [Run t false None false] = 1) by (apply (q_steps_own t 1)).
      rewrite !Ho. lia.
    - change (q_pop_push u v (w :: ws)) with
        ([] ++ [Lin.Inv u Pop; Res u (RPop (Some w))] ++ [Lin.Inv u (Push true v); Res u (RBool true)] ++
         [] ++ [] ++ [] ++ q_pop_push u v ws).
      eapply qrun_app; [apply qrun_read; reflexivity|].
      eapply qrun_app; [eapply qrun_beside; [exact Hq|exact Hq1| |exact Hr1]; by apply call_not_of|].
      eapply qrun_app; [eapply qrun_beside; [exact Hq1|exact Hq2| |exact Hr2]; by apply call_not_of|].
      eapply qrun_app; [apply qrun_read; reflexivity|].
      eapply qrun_app; [apply qrun_read; cbn [tstep]; rewrite Hnd; reflexivity|].
      eapply qrun_app; [apply qrun_read; cbn [tstep]; rewrite decide_False by done; reflexivity|].
      exact Hrun.
  Qed.

  Lemma pop_starves ns hist s w a t u v tf k :
    t <> u -> length v = c_words c ->
    qreach c ns hist s -> quiescent s -> qcontents c s (w :: a) ->
    exists chs ws s' pc, qcalls chs /\ length ws = k /\ q_steps t chs = 4 * k /\
      qrun c s (Invoke t Pop tf :: chs) = Some (Lin.Inv t Pop :: q_pop_push u v ws, s') /\
      q_pcs s' !! t = Some pc.
  Proof using Htag Hth.
    intros Hne Hv H Hq Ha.
    destruct (pop_rounds t u v tf k Hne Hv _ _ _ _ _ H Hq Ha) as (chs & ws & b' & Hc & Hlen & Hst & Hrun).
    exists chs, ws, (QSt (q_sh b') {[t := PcOHead]}), PcOHead. do 3 (split; [done|]).
    split; [|cbn [q_pcs]; by rewrite lookup_singleton]. cbn [qrun]. unfold quiescent in Hq.
    assert (Hi : qstep c s (Invoke t Pop tf) = QNext (QSt (q_sh s) {[t := PcOHead]}) [Lin.Inv t Pop]).
    { cbn [qstep]. rewrite Hq, lookup_empty. cbn [qstart]. unfold set_pc. by rewrite Hq. }
    rewrite Hi, Hrun. done.
  Qed.

  (** ** push *)
  Lemma push_rounds (t u : nat) (b : bool) (v v' : val) (tf : bool) k : t <> u -> length v' = c_words c -> forall ns hist s a,
    qreach c ns hist s -> quiescent s -> qcontents c s a -> S (length a) < size (q_heap (q_sh s)) ->
    exists chs ws s', qcalls chs /\ length ws = k /\ q_steps t chs = 2 * k /\
      qrun c (QSt (q_sh s) {[t := PcAlloc b v (ATest (q_pool (q_sh s)))]}) chs =
        Some (q_push_pop u v' ws, QSt (q_sh s') {[t := PcAlloc b v (ATest (q_pool (q_sh s')))]}).
  Proof using Htag Hth.
    intros Hne Hv. induction k as [|k IH]; intros ns hist s a H Hq Ha Hsz.
    { exists [], [], s. done. }
    destruct (push_call _ _ _ _ u v' tf H Hq Ha Hv Hsz) as (k1 & s1 & Hr1 & Hq1 & Ha1 & Ht1 & _).
    destruct (run_reach _ _ _ _ _ _ H Hr1) as [H1 Hd1].
    assert (exists w' a', a ++ [v'] = w' :: a') as (w & a2 & Hw).
    { destruct a as [|w' a']; [by exists v', []|by exists w', (a' ++ [v'])]. }
    assert (Hla : length a2 = length a).
    { apply (f_equal length) in Hw. rewrite app_length in Hw. cbn [length] in Hw. lia. }
    rewrite Hw in Ha1.
    destruct (pop_call _ _ _ _ _ u tf H1 Hq1 Ha1) as (k2 & s2 & Hr2 & Hq2 & Ha2 & Ht2 & _).
    destruct (run_reach _ _ _ _ _ _ H1 Hr2) as [H2 Hd2].
    assert (Hsz2 : S (length a2) < size (q_heap (q_sh s2))).
    { apply dom_size in Hd1. apply dom_size in Hd2. lia. }
    destruct (quiet_main c Htag _ _ _ _ H Hq Ha) as (g & HI & Hg & HL). pose proof HI as [HG _].
    pose proof (inv_quiet_size c _ _ Hth HI Hq) as Hszg. rewrite Hg in Hszg.
    destruct (g_fn g) as [|n fn] eqn:Hfn; [simpl in Hszg; lia|].
    pose proof (pi_seg _ _ _ _ _ (gi_pi _ _ _ HG)) as Hs. rewrite Hfn in Hs.
    destruct Hs as (Hpn & y & Hy & _). apply nxp_inv in Hy as (nd & Hnd & _).
    assert (Hnn : n <> c_null c).
    { eapply (gi_own_not_null c _ g n OF); [done|]. apply (pi_mem _ _ _ _ _ (gi_pi _ _ _ HG)).
      rewrite Hfn. left. }
    assert (Hpl : q_pool (q_sh s2) <> q_pool (q_sh s)).
    { intros He. rewrite He in Ht2. lia. }
    destruct (IH _ _ _ _ H2 Hq2 Ha2 Hsz2) as (chs & ws & s' & Hc & Hlen & Hst & Hrun).
    exists ([Run t false None false] ++
            (Invoke u (Push true v') tf :: replicate k1 (Run u false None false)) ++
            (Invoke u Pop tf :: replicate k2 (Run u false None false)) ++
            [Run t false None false] ++ chs),
           (w :: ws), s'.
    split; [|split; [|split]].
    - apply Forall_app. split; [by repeat constructor|]. apply Forall_app. split; [apply call_calm|].
      apply Forall_app. split; [apply call_calm|]. apply Forall_app; split; [by repeat constructor|]. done.
    - cbn [length]. by rewrite Hlen.
    - rewrite !q_steps_app, Hst.
      assert (Hz : forall o m, q_steps t (Invoke u o tf :: replicate m (Run u false None false)) = 0).
      { intros o m. unfold q_steps. cbn [List.filter q_own]. induction m as [|m IHm]; [done|].
        cbn [replicate List.filter q_own]. rewrite bool_decide_false by congruence. done. }
      rewrite !Hz.
      assert (Ho : q_steps t [Run t false None false] = 1) by (apply (q_steps_own t 1)).
      rewrite !Ho. lia.
    - change (q_push_pop u v' (w :: ws)) with
        ([] ++ [Lin.Inv u (Push true v'); Res u (RBool true)] ++ [Lin.Inv u Pop; Res u (RPop (Some w))] ++
         [] ++ q_push_pop u v' ws).
      eapply qrun_app.
      { apply qrun_read. cbn [tstep astep]. rewrite decide_False by congruence. rewrite Hpn, Hnd.
        rewrite set_heap_pool_id. reflexivity. }
      eapply qrun_app; [eapply qrun_beside; [exact Hq|exact Hq1| |exact Hr1]; by apply call_not_of|].
      eapply qrun_app; [eapply qrun_beside; [exact Hq1|exact Hq2| |exact Hr2]; by apply call_not_of|].
      eapply qrun_app.
      { apply qrun_read. cbn [tstep astep]. rewrite decide_False by (intros [_ He]; done).
        rewrite set_heap_pool_id. reflexivity. }
      exact Hrun.
  Qed.

  Lemma push_starves ns hist s a t u b v v' tf k :
    t <> u -> length v = c_words c -> length v' = c_words c ->
    qreach c ns hist s -> quiescent s -> qcontents c s a -> S (length a) < size (q_heap (q_sh s)) ->
    exists chs ws s' pc, qcalls chs /\ length ws = k /\ q_steps t chs = S (2 * k) /\
      qrun c s (Invoke t (Push b v) tf :: chs) = Some (Lin.Inv t (Push b v) :: q_push_pop u v' ws, s') /\
      q_pcs s' !! t = Some pc.
  Proof using Htag Hth.
    intros Hne Hv Hv' H Hq Ha Hsz.
    destruct (push_rounds t u b v v' tf k Hne Hv' _ _ _ _ H Hq Ha Hsz)
      as (chs & ws & s' & Hc & Hlen & Hst & Hrun).
    exists (Run t false None false :: chs), ws, (QSt (q_sh s') {[t := PcAlloc b v (ATest (q_pool (q_sh s')))]}),
      (PcAlloc b v (ATest (q_pool (q_sh s')))).
    split; [by constructor|]. split; [done|]. split.
    { unfold q_steps in *. cbn [List.filter q_own]. rewrite bool_decide_true by done. cbn [length]. by rewrite Hst. }
    split; [|cbn [q_pcs]; by rewrite lookup_singleton]. unfold quiescent in Hq.
    assert (Hi : qstep c s (Invoke t (Push b v) tf) =
                 QNext (QSt (q_sh s) {[t := PcAlloc b v ALoad]}) [Lin.Inv t (Push b v)]).
    { cbn [qstep]. rewrite Hq, lookup_empty. cbn [qstart]. rewrite decide_True by done.
      unfold set_pc. by rewrite Hq. }
    cbn [qrun]. rewrite Hi.
    assert (H1 : qstep c (QSt (q_sh s) {[t := PcAlloc b v ALoad]}) (Run t false None false) =
                 QNext (QSt (q_sh s) {[t := PcAlloc b v (ATest (q_pool (q_sh s)))]}) []).
    { cbn [qstep q_pcs q_sh]. rewrite lookup_singleton. cbn [tstep astep]. rewrite set_heap_pool_id.
      by rewrite insert_singleton. }
    rewrite H1, Hrun. done.
  Qed.
End wait.
