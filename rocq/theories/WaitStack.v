(** * A call of the stack that never returns while another thread works *)
From stdpp Require Import gmap list numbers.
From Verif Require Import LoopModel LoopStack.
From Verif Require Import Lin LinObs LinFacts PoolModel Chain PoolProofs StackModel StackSpec StackObs
  StackInv StackStep StackSafe StackObsProofs StackQuiet StackDemo StackMain WaitObs.
Set Default Proof Using "Type".

Notation scalls := (Forall s_calm).

Lemma s_steps_app t chs1 chs2 : s_steps t (chs1 ++ chs2) = s_steps t chs1 + s_steps t chs2.
Proof. unfold s_steps. by rewrite List.filter_app, app_length. Qed.
Lemma s_steps_one t : s_steps t [StackModel.Run t false None false] = 1.
Proof. unfold s_steps. cbn [List.filter s_own]. by rewrite bool_decide_true. Qed.
Lemma s_steps_call (t u : nat) o k :
  t <> u -> s_steps t (StackModel.Invoke u o :: replicate k (StackModel.Run u false None false)) = 0.
Proof.
  intros Hne. unfold s_steps. cbn [List.filter s_own]. induction k as [|k IHk]; [done|].
  cbn [replicate List.filter s_own]. by rewrite bool_decide_false by congruence.
Qed.

Section wait.
  Context (c : cfg).

  (** ** Another thread in the middle of a call does not matter *)
  Definition not_of (t : nat) (ch : schoice) : Prop :=
    match ch with Invoke t' _ | Run t' _ _ _ => t' <> t | Unsync _ _ _ _ => False end.

  Lemma sstep_frame t pc s ch s' evs :
    not_of t ch -> sstep c s ch = SNext s' evs ->
    sstep c (SSt (s_sh s) (<[t := pc]> (s_pcs s))) ch =
      SNext (SSt (s_sh s') (<[t := pc]> (s_pcs s'))) evs.
  Proof.
    intros Hn Hs. destruct ch as [t' o|t' sp addr thr|]; [| |done]; cbn [not_of sstep s_pcs s_sh] in *.
    - rewrite lookup_insert_ne by done. destruct (s_pcs s !! t'); [done|].
      destruct (sstart c o); [|done]. injection Hs as <- <-. unfold set_pc. cbn [s_sh s_pcs].
      by rewrite insert_commute.
    - rewrite lookup_insert_ne by done. destruct (s_pcs s !! t') as [pc'|]; [|done].
      assert (HR : forall r, pc' = PcRet r ->
        SNext (SSt (s_sh s) (delete t' (<[t := pc]> (s_pcs s)))) [Res t' r] =
        SNext (SSt (s_sh s') (<[t := pc]> (s_pcs s'))) evs).
      { intros r ->. injection Hs as <- <-. cbn [s_sh s_pcs]. by rewrite delete_insert_ne. }
      destruct pc'; try (by apply HR);
        (destruct (tstep c (s_sh s) _ sp addr thr) as [x pc1| |]; [|done|done];
         injection Hs as <- <-; cbn [s_sh s_pcs]; by rewrite insert_commute).
  Qed.

  Lemma srun_frame t pc chs : forall s h s',
    Forall (not_of t) chs -> srun c s chs = Some (h, s') ->
    srun c (SSt (s_sh s) (<[t := pc]> (s_pcs s))) chs = Some (h, SSt (s_sh s') (<[t := pc]> (s_pcs s'))).
  Proof.
    induction chs as [|ch chs IH]; intros s h s' Hn Hr; cbn [srun] in *.
    - by injection Hr as <- <-.
    - inversion Hn as [|? ? Hn1 Hn2]; subst.
      destruct (sstep c s ch) as [s1 evs| |] eqn:Hs; [|done|done].
      rewrite (sstep_frame t pc _ _ _ _ Hn1 Hs).
      destruct (srun c s1 chs) as [[h1 s2]|] eqn:Hr1; [|done]. injection Hr as <- <-.
      by rewrite (IH _ _ _ Hn2 Hr1).
  Qed.

  (** The same between states in which nobody else is in a call. *)
  Lemma srun_beside t pc chs b h b' :
    quiescent b -> quiescent b' -> Forall (not_of t) chs -> srun c b chs = Some (h, b') ->
    srun c (SSt (s_sh b) {[t := pc]}) chs = Some (h, SSt (s_sh b') {[t := pc]}).
  Proof.
    intros Hq Hq' Hn Hr. apply (srun_frame t pc) in Hr; [|done]. rewrite Hq, Hq' in Hr. exact Hr.
  Qed.

  Lemma call_not_of (t u : nat) o k :
    t <> u -> Forall (not_of t) (Invoke u o :: replicate k (Run u false None false)).
  Proof. intros Hne. constructor; [done|]. apply Forall_replicate. done. Qed.
  Lemma call_calm (u : nat) o k : scalls (Invoke u o :: replicate k (Run u false None false)).
  Proof. constructor; [done|]. by apply Forall_replicate. Qed.

  (** A step of the thread itself that only reads. *)
  Lemma srun_read t pc pc' x :
    tstep c x pc false None false = TGo x pc' ->
    srun c (SSt x {[t := pc]}) [Run t false None false] = Some ([], SSt x {[t := pc']}).
  Proof.
    intros Hst. cbn [srun sstep s_pcs s_sh]. rewrite lookup_singleton.
    destruct pc; try (rewrite Hst, insert_singleton; reflexivity). done.
  Qed.

  Context (Htag : c_tagmod c = None) (Hth : c_throws c = false).

  (** ** One whole call of the other thread *)
  Lemma pop_call ns hist s v a u :
    sreach c ns hist s -> quiescent s -> scontents c s (v :: a) ->
    exists k s', srun c s (Invoke u SPop :: replicate k (Run u false None false)) =
        Some ([Lin.Inv u SPop; Res u (SGot (Some v))], s') /\ quiescent s' /\ scontents c s' a /\
      (s_pool (s_sh s')).2 = (s_pool (s_sh s)).2 /\
      (s_tos (s_sh s')).2 = ((s_tos (s_sh s)).2 + 1)%N.
  Proof using Htag.
    intros Hr Hq Ha. destruct (sreach_ok c Htag _ _ _ Hr) as (g & HI & _).
    assert (Hg : v :: a = g_a g) by (by eapply inv_contents). pose proof HI as [HG _].
    destruct (pop_solo c _ _ HG) as (k & x' & Hts & Hpl & Htos). exists (S k), (SSt x' ∅).
    rewrite <- Hg in Hts, Htos. cbn [head] in Hts. specialize (Htos ltac:(done)).
    rewrite next_tag_succ in Htos by done.
    split; [by apply (srun_call c s u SPop PcCLoad k _ _ Hq eq_refl)|]. split; [done|]. split; [|done].
    destruct (solo_ok c Htag s g u SPop _ k x' _ HI Hq I eq_refl Hts) as (a' & Hsp & Hc).
    rewrite <- Hg in Hsp. inversion Hsp; subst. done.
  Qed.

  Lemma push_call ns hist s a u v :
    sreach c ns hist s -> quiescent s -> scontents c s a ->
    length a < size (s_heap (s_sh s)) ->
    exists k s', srun c s (Invoke u (SPush true v) :: replicate k (Run u false None false)) =
        Some ([Lin.Inv u (SPush true v); Res u (SBool true)], s') /\
      quiescent s' /\ scontents c s' (v :: a) /\
      (s_pool (s_sh s')).2 = ((s_pool (s_sh s)).2 + 1)%N /\
      (s_tos (s_sh s')).2 = (s_tos (s_sh s)).2.
  Proof using Htag Hth.
    intros Hr Hq Ha Hsp. destruct (sreach_ok c Htag _ _ _ Hr) as (g & HI & _).
    assert (a = g_a g) as -> by (by eapply inv_contents).
    pose proof (inv_quiet_size c _ _ Hth HI Hq) as Hsz. pose proof HI as [HG _].
    destruct (push_solo c _ _ true v HG) as (k & x' & Hts & Hpl & Htos).
    { intros Hfn. rewrite Hfn in Hsz. simpl in Hsz. lia. }
    rewrite next_tag_succ in Hpl by done.
    exists (S k), (SSt x' ∅).
    split; [by apply (srun_call c s u (SPush true v) (PcAlloc true v ALoad) k _ _ Hq eq_refl)|].
    split; [done|]. split; [|done].
    destruct (solo_ok c Htag s g u (SPush true v) _ k x' _ HI Hq I eq_refl Hts) as (a' & Hsp' & Hc).
    inversion Hsp'; subst. done.
  Qed.

  Lemma run_reach ns hist s chs h s' :
    sreach c ns hist s -> hist_ok h -> srun c s chs = Some (h, s') ->
    sreach c ns (hist ++ h) s' /\ dom (s_heap (s_sh s)) ⊆ dom (s_heap (s_sh s')).
  Proof.
    intros H Hh Hr. apply srun_exec in Hr. split; [by eapply sreach_ext|]. by eapply sexec_dom.
  Qed.

  Lemma hist_ok_two (u : nat) o r : nonempty_op o -> hist_ok [Lin.Inv u o; Res u r].
  Proof.
    intros Ho t o' Hin. apply elem_of_cons in Hin as [Hin|Hin]; [by injection Hin as -> ->|].
    apply elem_of_list_singleton in Hin. done.
  Qed.

  Lemma dom_size (h h' : gmap N snode) : dom h ⊆ dom h' -> size h <= size h'.
  Proof. intros Hd. rewrite <- !size_dom. by apply subseteq_size. Qed.
  Lemma dom_Some (h h' : gmap N snode) n : dom h ⊆ dom h' -> is_Some (h !! n) -> is_Some (h' !! n).
  Proof. intros Hd Hn. apply elem_of_dom. apply Hd. by apply elem_of_dom. Qed.

  (** Every element has a node of its own. *)
  Lemma contents_size ns hist s a :
    sreach c ns hist s -> quiescent s -> scontents c s a -> length a <= size (s_heap (s_sh s)).
  Proof using Htag Hth.
    intros H Hq Ha. destruct (sreach_ok c Htag _ _ _ H) as (g & HI & _).
    assert (a = g_a g) as -> by (by eapply inv_contents).
    pose proof (inv_quiet_size c _ _ Hth HI Hq) as Hsz. lia.
  Qed.

  Lemma top_dom ns hist s v a :
    sreach c ns hist s -> scontents c s (v :: a) ->
    (s_tos (s_sh s)).1 <> c_null c /\ is_Some (s_heap (s_sh s) !! (s_tos (s_sh s)).1).
  Proof.
    intros _ Ha. unfold scontents in Ha. inversion Ha; subst. eauto.
  Qed.

  (** ** pop *)
  Lemma pop_rounds (t u : nat) (v : N) k : t <> u -> forall ns hist b w a,
    sreach c ns hist b -> quiescent b -> scontents c b (w :: a) ->
    exists chs ws b', scalls chs /\ length ws = k /\ s_steps t chs = 2 * k /\
      srun c (SSt (s_sh b) {[t := PcCNext (s_tos (s_sh b))]}) chs =
        Some (s_pop_push u v ws, SSt (s_sh b') {[t := PcCNext (s_tos (s_sh b'))]}).
  Proof using Htag Hth.
    intros Hne. induction k as [|k IH]; intros ns hist b w a H Hq Ha.
    { exists [], [], b. done. }
    destruct (top_dom _ _ _ _ _ H Ha) as [_ [nd Hnd]].
    destruct (pop_call _ _ _ _ _ u H Hq Ha) as (k1 & b1 & Hr1 & Hq1 & Ha1 & _ & Ht1).
    destruct (run_reach _ _ _ _ _ _ H (hist_ok_two u SPop _ I) Hr1) as [H1 Hd1].
    pose proof (contents_size _ _ _ _ H Hq Ha) as Hsz. cbn [length] in Hsz.
    destruct (push_call _ _ _ _ u v H1 Hq1 Ha1) as (k2 & b2 & Hr2 & Hq2 & Ha2 & _ & Ht2).
    { apply dom_size in Hd1. lia. }
    destruct (run_reach _ _ _ _ _ _ H1 (hist_ok_two u (SPush true v) _ I) Hr2) as [H2 Hd2].
    assert (Htos : s_tos (s_sh b2) <> s_tos (s_sh b)).
    { intros He. rewrite He in Ht2. lia. }
    destruct (top_dom _ _ _ _ _ H2 Ha2) as [Hn2 _].
    destruct (IH _ _ _ _ _ H2 Hq2 Ha2) as (chs & ws & b' & Hc & Hlen & Hst & Hrun).
    exists ([Run t false None false] ++
            (Invoke u SPop :: replicate k1 (Run u false None false)) ++
            (Invoke u (SPush true v) :: replicate k2 (Run u false None false)) ++
            [Run t false None false] ++ chs),
           (w :: ws), b'.
    split; [|split; [|split]].
    - apply Forall_app. split; [by repeat constructor|]. apply Forall_app. split; [apply call_calm|].
      apply Forall_app. split; [apply call_calm|]. apply Forall_app; split; [by repeat constructor|]. done.
    - cbn [length]. by rewrite Hlen.
    - rewrite !s_steps_app, !s_steps_call, !s_steps_one, Hst by done. lia.
    - change (s_pop_push u v (w :: ws)) with
        ([] ++ [Lin.Inv u SPop; Res u (SGot (Some w))] ++ [Lin.Inv u (SPush true v); Res u (SBool true)] ++
         [] ++ s_pop_push u v ws).
      eapply srun_app; [apply srun_read; cbn [tstep]; rewrite Hnd; reflexivity|].
      eapply srun_app; [eapply srun_beside; [exact Hq|exact Hq1| |exact Hr1]; by apply call_not_of|].
      eapply srun_app; [eapply srun_beside; [exact Hq1|exact Hq2| |exact Hr2]; by apply call_not_of|].
      eapply srun_app.
      { apply srun_read. cbn [tstep]. rewrite decide_False by (intros [_ He]; done).
        unfold c_test. rewrite decide_False by done. reflexivity. }
      exact Hrun.
  Qed.

  Lemma pop_starves ns hist s w a t u v k :
    t <> u -> sreach c ns hist s -> quiescent s -> scontents c s (w :: a) ->
    exists chs ws s' pc, scalls chs /\ length ws = k /\ s_steps t chs = S (2 * k) /\
      srun c s (Invoke t SPop :: chs) = Some (Lin.Inv t SPop :: s_pop_push u v ws, s') /\
      s_pcs s' !! t = Some pc.
  Proof using Htag Hth.
    intros Hne H Hq Ha.
    destruct (pop_rounds t u v k Hne _ _ _ _ _ H Hq Ha) as (chs & ws & b' & Hc & Hlen & Hst & Hrun).
    exists (Run t false None false :: chs), ws, (SSt (s_sh b') {[t := PcCNext (s_tos (s_sh b'))]}),
      (PcCNext (s_tos (s_sh b'))).
    split; [by constructor|]. split; [done|]. split.
    { change (Run t false None false :: chs) with ([Run t false None false] ++ chs).
      rewrite s_steps_app, s_steps_one, Hst. done. }
    split; [|cbn [s_pcs]; by rewrite lookup_singleton]. unfold quiescent in Hq.
    assert (Hi : sstep c s (Invoke t SPop) = SNext (SSt (s_sh s) {[t := PcCLoad]}) [Lin.Inv t SPop]).
    { cbn [sstep]. rewrite Hq, lookup_empty. cbn [sstart]. unfold set_pc. by rewrite Hq. }
    cbn [srun]. rewrite Hi.
    assert (H1 : sstep c (SSt (s_sh s) {[t := PcCLoad]}) (Run t false None false) =
                 SNext (SSt (s_sh s) {[t := PcCNext (s_tos (s_sh s))]}) []).
    { cbn [sstep s_pcs s_sh]. rewrite lookup_singleton. cbn [tstep]. unfold c_test.
      rewrite decide_False by (by eapply top_dom). by rewrite insert_singleton. }
    rewrite H1, Hrun. done.
  Qed.

  (** ** push *)
  Lemma push_rounds (t u : nat) (b : bool) (v v' : N) k : t <> u -> forall ns hist s a,
    sreach c ns hist s -> quiescent s -> scontents c s a -> length a < size (s_heap (s_sh s)) ->
    exists chs ws s', scalls chs /\ length ws = k /\ s_steps t chs = 2 * k /\
      srun c (SSt (s_sh s) {[t := PcAlloc b v (ATest (s_pool (s_sh s)))]}) chs =
        Some (s_push_pop u v' ws, SSt (s_sh s') {[t := PcAlloc b v (ATest (s_pool (s_sh s')))]}).
  Proof using Htag Hth.
    intros Hne. induction k as [|k IH]; intros ns hist s a H Hq Ha Hsz.
    { exists [], [], s. done. }
    destruct (push_call _ _ _ _ u v' H Hq Ha Hsz) as (k1 & s1 & Hr1 & Hq1 & Ha1 & Ht1 & _).
    destruct (run_reach _ _ _ _ _ _ H (hist_ok_two u (SPush true v') _ I) Hr1) as [H1 Hd1].
    destruct (pop_call _ _ _ _ _ u H1 Hq1 Ha1) as (k2 & s2 & Hr2 & Hq2 & Ha2 & Ht2 & _).
    destruct (run_reach _ _ _ _ _ _ H1 (hist_ok_two u SPop _ I) Hr2) as [H2 Hd2].
    assert (Hsz2 : length a < size (s_heap (s_sh s2))).
    { apply dom_size in Hd1. apply dom_size in Hd2. lia. }
    destruct (sreach_ok c Htag _ _ _ H) as (g & HI & _).
    assert (Hg : a = g_a g) by (by eapply inv_contents). pose proof HI as [HG _].
    pose proof (inv_quiet_size c _ _ Hth HI Hq) as Hszg. rewrite <- Hg in Hszg.
    destruct (g_fn g) as [|n fn] eqn:Hfn; [simpl in Hszg; lia|].
    pose proof (pi_seg _ _ _ _ _ (gi_pi _ _ _ HG)) as Hs. rewrite Hfn in Hs.
    destruct Hs as (Hpn & y & Hy & _). apply nxp_inv in Hy as (nd & Hnd & _).
    assert (Hnn : n <> c_null c).
    { eapply (gi_own_not_null c _ g n OF); [done|]. apply (pi_mem _ _ _ _ _ (gi_pi _ _ _ HG)).
      rewrite Hfn. left. }
    assert (Hpl : s_pool (s_sh s2) <> s_pool (s_sh s)).
    { intros He. rewrite He in Ht2. lia. }
    destruct (IH _ _ _ _ H2 Hq2 Ha2 Hsz2) as (chs & ws & s' & Hc & Hlen & Hst & Hrun).
    exists ([Run t false None false] ++
            (Invoke u (SPush true v') :: replicate k1 (Run u false None false)) ++
            (Invoke u SPop :: replicate k2 (Run u false None false)) ++
            [Run t false None false] ++ chs),
           (v' :: ws), s'.
    split; [|split; [|split]].
    - apply Forall_app. split; [by repeat constructor|]. apply Forall_app. split; [apply call_calm|].
      apply Forall_app. split; [apply call_calm|]. apply Forall_app; split; [by repeat constructor|]. done.
    - cbn [length]. by rewrite Hlen.
    - rewrite !s_steps_app, !s_steps_call, !s_steps_one, Hst by done. lia.
    - change (s_push_pop u v' (v' :: ws)) with
        ([] ++ [Lin.Inv u (SPush true v'); Res u (SBool true)] ++ [Lin.Inv u SPop; Res u (SGot (Some v'))] ++
         [] ++ s_push_pop u v' ws).
      eapply srun_app.
      { apply srun_read. cbn [tstep astep]. rewrite decide_False by congruence. rewrite Hpn, Hnd.
        rewrite set_heap_pool_id. reflexivity. }
      eapply srun_app; [eapply srun_beside; [exact Hq|exact Hq1| |exact Hr1]; by apply call_not_of|].
      eapply srun_app; [eapply srun_beside; [exact Hq1|exact Hq2| |exact Hr2]; by apply call_not_of|].
      eapply srun_app.
      { apply srun_read. cbn [tstep astep]. rewrite decide_False by (intros [_ He]; done).
        rewrite set_heap_pool_id. reflexivity. }
      exact Hrun.
  Qed.

  Lemma push_starves ns hist s a t u b v v' k :
    t <> u -> sreach c ns hist s -> quiescent s -> scontents c s a -> length a < size (s_heap (s_sh s)) ->
    exists chs ws s' pc, scalls chs /\ length ws = k /\ s_steps t chs = S (2 * k) /\
      srun c s (Invoke t (SPush b v) :: chs) = Some (Lin.Inv t (SPush b v) :: s_push_pop u v' ws, s') /\
      s_pcs s' !! t = Some pc.
  Proof using Htag Hth.
    intros Hne H Hq Ha Hsz.
    destruct (push_rounds t u b v v' k Hne _ _ _ _ H Hq Ha Hsz)
      as (chs & ws & s' & Hc & Hlen & Hst & Hrun).
    exists (Run t false None false :: chs), ws, (SSt (s_sh s') {[t := PcAlloc b v (ATest (s_pool (s_sh s')))]}),
      (PcAlloc b v (ATest (s_pool (s_sh s')))).
    split; [by constructor|]. split; [done|]. split.
    { change (Run t false None false :: chs) with ([Run t false None false] ++ chs).
      rewrite s_steps_app, s_steps_one, Hst. done. }
    split; [|cbn [s_pcs]; by rewrite lookup_singleton]. unfold quiescent in Hq.
    assert (Hi : sstep c s (Invoke t (SPush b v)) =
                 SNext (SSt (s_sh s) {[t := PcAlloc b v ALoad]}) [Lin.Inv t (SPush b v)]).
    { cbn [sstep]. rewrite Hq, lookup_empty. cbn [sstart]. unfold set_pc. by rewrite Hq. }
    cbn [srun]. rewrite Hi.
    assert (H1 : sstep c (SSt (s_sh s) {[t := PcAlloc b v ALoad]}) (Run t false None false) =
                 SNext (SSt (s_sh s) {[t := PcAlloc b v (ATest (s_pool (s_sh s)))]}) []).
    { cbn [sstep s_pcs s_sh]. rewrite lookup_singleton. cbn [tstep astep]. rewrite set_heap_pool_id.
      by rewrite insert_singleton. }
    rewrite H1, Hrun. done.
  Qed.
End wait.
