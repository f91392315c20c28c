(** * stack::consume_all *)
From stdpp Require Import gmap list numbers.
From Verif Require Import Lin LinObs LinFacts PoolModel Chain PoolProofs StackModel StackSpec StackObs StackInv StackStep
  StackSafe StackObsProofs StackQuiet StackMain StackDemo StackFlow StackCons
  LoopModel LoopObs LoopFacts.

Set Default Proof Using "Type".

Section stack.
  Context (c : cfg).
  Notation sltrace := (ltrace sop sret N).
  Notation slstate := (@lstate sstate N).

  Lemma sbelow_next s x s' evs : sbelow c s x = BNext s' evs -> sstep c s x = SNext s' evs.
  Proof. unfold sbelow. by destruct (sstep c s x); intros H; [injection H as <- <-|..]. Qed.

  Lemma sbelow_exec s0 h s : bexec (sbelow c) s0 h s -> sexec c s0 h s.
  Proof. induction 1 as [|h b x b' evs H IH Hs]; [constructor|]. econstructor; [exact IH|by apply sbelow_next]. Qed.

  Lemma slreach_below ns tr s : slreach c ns tr s -> sreach c ns (omap below tr) (l_st s).
  Proof.
    intros (H1 & H2 & H3 & H). do 3 (split; [done|]).
    apply sbelow_exec. apply lexec_below in H. done.
  Qed.

  (** ** Events of the machine below *)

  Lemma s_inv b t b' evs : sbelow c b (Invoke t SPop) = BNext b' evs -> evs = [Lin.Inv t SPop].
  Proof.
    intros H%sbelow_next. cbn [sstep] in H. destruct (s_pcs b !! t); [done|]. cbn [sstart] in H. by injection H.
  Qed.

  Lemma s_own b x b' evs : sbelow c b x = BNext b' evs -> Forall (fun e => ev_thread e = ch_thread x) evs.
  Proof.
    intros H%sbelow_next. destruct x as [t o|t sp addr thr|t o addrs thr]; cbn [sstep ch_thread] in *.
    - destruct (s_pcs b !! t); [done|]. destruct (sstart c o); [|done]. injection H as <- <-. by repeat constructor.
    - destruct (s_pcs b !! t) as [pc|]; [|done].
      assert (Hcase : (exists r, pc = PcRet r) \/ evs = []).
      { destruct pc; try (left; eauto; fail); right;
          match type of H with match ?e with _ => _ end = _ => destruct e end; try done; by injection H. }
      destruct Hcase as [[r ->]| ->]; [|constructor]. injection H as <- <-. by repeat constructor.
    - case_decide; [|done]. destruct (ucall c (s_sh b) o addrs thr); try done. injection H as <- <-. by repeat constructor.
  Qed.

  Lemma s_one r v : sgot r = GotOne v -> r = SGot (Some v).
  Proof. destruct r as [|[w|]| | | |[|? []]]; try done. intros H. by injection H as ->. Qed.
  Lemma s_none r : sgot r = GotNone -> r = SGot None.
  Proof. by destruct r as [|[w|]| | | |[|? []]]. Qed.

  (** ** A thread in consume_all is inside pop or not inside a call *)

  (** Results of pop. *)
  Definition pop_ret (r : sret) : Prop :=
    match r with SGot _ | SExn [_] => True | _ => False end.
  Definition pop_pc (pc : spc) : Prop :=
    match pc with
    | PcCLoad | PcCNext _ | PcCCas _ _ | PcCFun _ => True
    | PcDestroy _ (KRet r) | PcDealloc _ _ (KRet r) | PcRet r => pop_ret r
    | _ => False
    end.

  Lemma c_test_pop old : pop_pc (c_test c old).
  Proof. unfold c_test. by case_decide. Qed.

  Lemma pop_pc_step x pc sp addr thr x' pc' : pop_pc pc -> tstep c x pc sp addr thr = TGo x' pc' -> pop_pc pc'.
  Proof.
    destruct pc as [| | | | | | | | | | |old|old nxt|n| | | | | | |n k|n d k| | |r]; try done; intros Hp; cbn [tstep].
    - intros H'; injection H' as <- <-. apply c_test_pop.
    - destruct (s_heap x !! old.1); [|done]. intros H'; by injection H' as <- <-.
    - case_decide; intros H'; injection H' as <- <-; [done|apply c_test_pop].
    - destruct (s_heap x !! n) as [[lk [v|]]|]; [|done|done]. destruct thr.
      + destruct (c_throws c); [|done]. intros H'; by injection H' as <- <-.
      + intros H'; by injection H' as <- <-.
    - destruct (s_heap x !! n) as [[lk [v|]]|]; [|done|done]. intros H'; injection H' as <- <-. by destruct k.
    - destruct (dstep n (s_heap x) (s_pool x) d sp); [| |done]; intros H'; injection H' as <- <-; [done|].
      by destruct k.
  Qed.

  Definition lok (s : slstate) : Prop :=
    forall t p, l_in s !! t = Some p ->
      match p with
      | LPop _ => exists pc, s_pcs (l_st s) !! t = Some pc /\ pop_pc pc
      | _ => s_pcs (l_st s) !! t = None
      end.

  (** A step below leaves other threads alone. *)
  Lemma sstep_other b x b' evs t : sstep c b x = SNext b' evs -> ch_thread x <> t -> sunsync x = false ->
    s_pcs b' !! t = s_pcs b !! t.
  Proof.
    destruct x as [u o|u sp addr thr|u o addrs thr]; cbn [sstep ch_thread sunsync]; intros H Hne Hu; [| |done].
    - destruct (s_pcs b !! u); [done|]. destruct (sstart c o); [|done]. injection H as <- <-.
      unfold set_pc. cbn [s_pcs]. by rewrite lookup_insert_ne.
    - destruct (s_pcs b !! u) as [pc|]; [|done].
      assert (Hcase : (exists r, pc = PcRet r) \/
        exists x' pc', b' = SSt x' (<[u := pc']> (s_pcs b))).
      { destruct pc; try (left; eauto; fail); right;
          match type of H with match ?e with _ => _ end = _ => destruct e end; try done; injection H as <- _; eauto. }
      destruct Hcase as [[r ->]|(x' & pc' & ->)].
      + injection H as <- <-. cbn [s_pcs]. by rewrite lookup_delete_ne.
      + cbn [s_pcs]. by rewrite lookup_insert_ne.
  Qed.

  (** A step of a thread inside pop. *)
  Lemma sstep_pop b x b' evs t pc :
    sstep c b x = SNext b' evs -> ch_thread x = t -> sunsync x = false -> s_pcs b !! t = Some pc -> pop_pc pc ->
    (evs = [] /\ exists pc', s_pcs b' !! t = Some pc' /\ pop_pc pc') \/
    (exists r, evs = [Res t r] /\ pop_ret r /\ s_pcs b' !! t = None).
  Proof.
    destruct x as [u o|u sp addr thr|u o addrs thr]; cbn [sstep ch_thread sunsync]; intros H -> Hu Hpc Hp; [| |done].
    { by rewrite Hpc in H. }
    rewrite Hpc in H. assert (Hcase : (exists r, pc = PcRet r) \/
        exists x' pc', tstep c (s_sh b) pc sp addr thr = TGo x' pc' /\ b' = SSt x' (<[t := pc']> (s_pcs b)) /\ evs = []).
    { destruct pc; try (left; eauto; fail); right;
        match type of H with match ?e with _ => _ end = _ => destruct e end; try done; injection H as <- <-; eauto. }
    destruct Hcase as [[r ->]|(x' & pc' & Hst & -> & ->)].
    - right. injection H as <- <-. exists r. cbn [s_pcs]. by rewrite lookup_delete.
    - left. split; [done|]. exists pc'. cbn [s_pcs]. rewrite lookup_insert. split; [done|]. by eapply pop_pc_step.
  Qed.

  Lemma lok_step s x s' evs : lok s -> slstep c s x = BNext s' evs -> lok s'.
  Proof.
    intros HL Hs. unfold slstep in Hs. destruct x as [y|u|u y thr]; cbn [lstep] in Hs.
    - case_decide as Hd; [|done]. destruct Hd as [Hd Hu]. destruct (sbelow c (l_st s) y) as [b bevs| |] eqn:E; [|done|done].
      injection Hs as <- <-. apply sbelow_next in E. intros t p Hp. cbn [l_in l_st] in *.
      assert (Hne : ch_thread y <> t) by congruence.
      assert (Huy : sunsync y = false).
      { destruct (sunsync y); [|done]. rewrite (Hu eq_refl), lookup_empty in Hp. done. }
      rewrite (sstep_other _ _ _ _ t E Hne Huy). by apply HL.
    - case_decide as Hd; [|done]. destruct Hd as [Hd Hu]. injection Hs as <- <-.
      intros t p. unfold lset. cbn [l_in l_st]. destruct (decide (u = t)) as [->|Hne].
      + rewrite lookup_insert. intros H. injection H as <-. unfold sbusy in Hu.
        apply bool_decide_eq_false in Hu. by apply eq_None_not_Some.
      + rewrite lookup_insert_ne by done. apply HL.
    - destruct (l_in s !! u) as [[n|n|n v|n]|] eqn:Ep; [..|done].
      + destruct (sbelow c (l_st s) (Invoke u SPop)) as [b bevs| |] eqn:E; [|done|done].
        injection Hs as <- <-. apply sbelow_next in E. intros t p. cbn [l_in l_st].
        destruct (decide (u = t)) as [->|Hne].
        * rewrite lookup_insert. intros H. injection H as <-. cbn [sstep] in E.
          destruct (s_pcs (l_st s) !! t); [done|]. cbn [sstart] in E. injection E as <- _.
          unfold set_pc. cbn [s_pcs]. rewrite lookup_insert. by exists PcCLoad.
        * rewrite lookup_insert_ne by done. rewrite (sstep_other _ _ _ _ t E) by done. apply HL.
      + case_decide as Hd; [|done]. destruct Hd as [Hw Hu].
        destruct (HL _ _ Ep) as (pc & Hpc & Hpp).
        destruct (sbelow c (l_st s) y) as [b bevs| |] eqn:E; [|done|done]. apply sbelow_next in E.
        assert (Hoth : forall t, u <> t -> s_pcs b !! t = s_pcs (l_st s) !! t).
        { intros t Hne. apply (sstep_other _ _ _ _ t E); [congruence|done]. }
        destruct (sstep_pop _ _ _ _ _ _ E Hw Hu Hpc Hpp) as [[-> (pc' & Hpc' & Hpp')]|(r & -> & Hpr & Hno)].
        * injection Hs as <- <-. intros t p. cbn [l_in l_st]. destruct (decide (u = t)) as [->|Hne].
          -- rewrite Ep. intros H. injection H as <-. eauto.
          -- rewrite Hoth by done. apply HL.
        * destruct (sgot r) as [v| |v| |]; try done; injection Hs as <- <-; intros t p; cbn [l_in l_st];
            (destruct (decide (u = t)) as [->|Hne];
             [rewrite ?lookup_insert, ?lookup_delete; intros H; by first [injection H as <-|done]
             |rewrite ?lookup_insert_ne, ?lookup_delete_ne, Hoth by done; apply HL]).
      + pose proof (HL _ _ Ep) as Hno. destruct thr; [done|]. injection Hs as <- <-; intros t p; unfold lset; cbn [l_in l_st].
        destruct (decide (u = t)) as [->|Hne];
            [rewrite lookup_insert; intros H; by injection H as <-|rewrite lookup_insert_ne by done; apply HL].
      + injection Hs as <- <-; intros t p; cbn [l_in l_st].
        destruct (decide (u = t)) as [->|Hne]; [by rewrite lookup_delete|rewrite lookup_delete_ne by done; apply HL].
  Qed.

  Lemma lok_exec s0 tr s : lok s0 -> slexec c s0 tr s -> lok s.
  Proof. intros H0. induction 1 as [|tr s x s' evs H IH Hs]; [done|]. by eapply lok_step. Qed.

  Lemma lok_init b : lok (LSt b ∅).
  Proof. intros t p. cbn [l_in]. by rewrite lookup_empty. Qed.

  Lemma lok_reach ns tr s : slreach c ns tr s -> lok s.
  Proof. intros (_ & _ & _ & H). eapply lok_exec; [|exact H]. apply lok_init. Qed.

  Context (Htag : c_tagmod c = None).

  Lemma below_safe ns tr s y : slreach c ns tr s -> ch_ok y -> sbelow c (l_st s) y <> BUB.
  Proof using Htag.
    intros H Hy. pose proof (safe_main c Htag _ _ _ y (slreach_below _ _ _ H) Hy) as Hsafe.
    unfold sbelow. by destruct (sstep c (l_st s) y).
  Qed.

  Lemma sl_safe ns tr s x : slreach c ns tr s -> slch_ok x -> slstep c s x <> BUB.
  Proof using Htag.
    intros H Hx. pose proof (lok_reach _ _ _ H) as HL. unfold slstep.
    destruct x as [y|u|u y thr]; cbn [lstep].
    - case_decide; [|done]. pose proof (below_safe _ _ _ y H Hx). by destruct (sbelow c (l_st s) y).
    - by case_decide.
    - destruct (l_in s !! u) as [[n|n|n v|n]|] eqn:Ep; [..|done].
      + pose proof (below_safe _ _ _ (Invoke u SPop) H I). by destruct (sbelow c (l_st s) (Invoke u SPop)).
      + case_decide as Hd; [|done]. destruct Hd as [Hw Hu].
        destruct (HL _ _ Ep) as (pc & Hpc & Hpp).
        assert (Hub : sbelow c (l_st s) y <> BUB).
        { destruct y as [u' o|u' sp addr thr'|u' o addrs thr']; [| |done].
          - cbn [ch_thread] in Hw. subst u'. unfold sbelow. cbn [sstep]. by rewrite Hpc.
          - by apply (below_safe _ _ _ _ H). }
        destruct (sbelow c (l_st s) y) as [b bevs| |] eqn:E; [|done|done]. apply sbelow_next in E.
        destruct (sstep_pop _ _ _ _ _ _ E Hw Hu Hpc Hpp) as [[-> _]|(r & -> & Hpr & _)]; [done|].
        destruct r as [|[w|]| | | |[|? []]]; done.
      + by destruct thr.
      + done.
  Qed.

  Lemma sl_call ns tr s t p m n q :
    slreach c ns tr s -> tr = p ++ AllCall t :: m ++ AllRet t n :: q -> AllCall t ∉ m ->
    exists vs, n = length vs /\
      of_thread t m = rounds SPop (fun v => SGot (Some v)) t vs ++ last_round SPop (SGot None) t.
  Proof.
    intros (_ & _ & _ & H) Heq Hm.
    eapply (lexec_call (sbelow c) sbusy ch_thread sunsync (fun t => Invoke t SPop) sgot false SPop
      (fun v => SGot (Some v)) (SGot None) s_inv s_own s_one s_none (LSt (sinit c ns) ∅));
      [done|exact H|exact Heq|done].
  Qed.

  (** ** The stack was empty at an instant *)

  Lemma slstep_reach ns tr s x s' evs :
    slreach c ns tr s -> slch_ok x -> slstep c s x = BNext s' evs -> slreach c ns (tr ++ evs) s'.
  Proof.
    intros (H1 & H2 & H3 & H) Hx Hs. do 2 (split; [done|]). split; [|by econstructor].
    rewrite omap_app. apply hist_ok_app2; [done|].
    pose proof (lok_exec _ _ _ (lok_init _) H) as HL.
    destruct (lstep_below _ _ _ _ _ _ _ _ _ _ _ Hs) as [[_ ->]|(y & Hy & Hcase)].
    { intros t o Hin. by apply elem_of_nil in Hin. }
    apply sbelow_next in Hy. pose proof (sstep_evs _ _ _ _ _ Hy) as Hev.
    destruct Hcase as [->|(t & z & thr & -> & [->| ->])]; [by apply Hev|by apply Hev|].
    unfold slstep in Hs. cbn [lstep] in Hs. destruct (l_in s !! t) as [[n|n|n v|n]|] eqn:Ep; [..|done].
    - destruct (sbelow c (l_st s) (Invoke t SPop)) as [b bevs| |] eqn:E; [|done|done].
      injection Hs as <- <-. rewrite below_sub. apply sbelow_next, sstep_evs in E. by apply E.
    - case_decide as Hd; [|done]. destruct Hd as [Hw Hu]. destruct (HL _ _ Ep) as (pc & Hpc & Hpp).
      destruct (sstep_pop _ _ _ _ _ _ Hy Hw Hu Hpc Hpp) as [[-> _]|(r & -> & _)]; intros t' o Hin.
      + by apply elem_of_nil in Hin.
      + apply elem_of_list_singleton in Hin. done.
    - destruct thr; [done|]. injection Hs as <- <-. intros t' o Hin. by apply elem_of_nil in Hin.
    - injection Hs as <- <-. intros t' o Hin. by apply elem_of_nil in Hin.
  Qed.

  Lemma slcall_reach ns t w s : slcall c ns t w s -> exists tr, slreach c ns tr s.
  Proof.
    induction 1 as [tr s s' evs H Hs|w s x s' evs H IH Hx Hs Hin].
    - eexists. eapply slstep_reach; [exact H| |exact Hs]. done.
    - destruct IH as [tr IH]. eexists. by eapply slstep_reach.
  Qed.

  (** The windows of the pops inside are parts of that of the call. *)
  Lemma slcall_window ns t w s :
    slcall c ns t w s ->
    match l_in s !! t with
    | Some (LPop _) => exists w', scall c ns t SPop w' (l_st s) /\ (r_post <$> w') ⊆ (l_st <$> w)
    | Some (LEnd _) => exists s', s' ∈ w /\ scontents c (l_st s') []
    | _ => True
    end.
  Proof using Htag.
    induction 1 as [tr s s' evs H Hs|w s x s' evs H IH Hx Hs Hin].
    - unfold slstep in Hs. cbn [lstep] in Hs. case_decide; [|done]. injection Hs as <- <-.
      unfold lset. cbn [l_in]. by rewrite lookup_insert.
    - destruct (slcall_reach _ _ _ _ H) as [tr Hr]. pose proof (lok_reach _ _ _ Hr) as HL.
      destruct (l_in s' !! t) as [p'|] eqn:Ep'; [|done].
      assert (Hsub : forall w' : list sstate, w' ⊆ l_st <$> w -> w' ⊆ l_st <$> (w ++ [s'])).
      { intros w' Hw' z Hz. rewrite fmap_app. apply elem_of_app. left. by apply Hw'. }
      assert (Hsub' : forall (w' : list srec) pre ch, (r_post <$> w') ⊆ l_st <$> w ->
        (r_post <$> (w' ++ [SRec pre ch (l_st s')])) ⊆ l_st <$> (w ++ [s'])).
      { intros w' pre ch Hw' z Hz. rewrite (fmap_app r_post) in Hz. rewrite (fmap_app l_st). apply elem_of_app.
        apply elem_of_app in Hz as [Hz|Hz]; [left; by apply Hw'|by right]. }
      assert (Hend : forall z, z ∈ w /\ scontents c (l_st z) [] -> exists z', z' ∈ w ++ [s'] /\ scontents c (l_st z') []).
      { intros z [Hz Hc]. exists z. split; [apply elem_of_app; by left|done]. }
      unfold slstep in Hs. destruct x as [y|u|u y thr]; cbn [lstep] in Hs.
      + case_decide as Hd; [|done]. destruct Hd as [Hd Hu].
        destruct (sbelow c (l_st s) y) as [b bevs| |] eqn:E; [|done|done]. injection Hs as <- <-. cbn [l_in l_st] in *.
        rewrite Ep' in IH. destruct p' as [n|n|n v|n]; [done| |done|].
        * destruct IH as (w' & Hc & Hw). exists (w' ++ [SRec (l_st s) y b]). split; [|by apply Hsub'].
          eapply scall_step; [exact Hc|exact Hx|by apply sbelow_next|]. apply sbelow_next in E.
          assert (Huy : sunsync y = false).
          { destruct (sunsync y); [|done]. rewrite (Hu eq_refl), lookup_empty in Ep'. done. }
          rewrite (sstep_other _ _ _ _ t E); [|congruence|done].
          destruct (HL _ _ Ep') as (pc & Hpc & _). by rewrite Hpc.
        * destruct IH as (z & Hz). by apply Hend in Hz.
      + case_decide as Hd; [|done]. injection Hs as <- <-. unfold lset in *. cbn [l_in l_st] in *.
        destruct (decide (u = t)) as [->|Hne].
        * rewrite lookup_insert in Ep'. by injection Ep' as <-.
        * rewrite lookup_insert_ne in Ep' by done. rewrite Ep' in IH. destruct p' as [n|n|n v|n]; [done| |done|].
          -- destruct IH as (w' & Hc & Hw). exists w'. split; [done|]. by apply Hsub.
          -- destruct IH as (z & Hz). by apply Hend in Hz.
      + destruct (decide (u = t)) as [->|Hne].
        * destruct (l_in s !! t) as [[n|n|n v|n]|] eqn:Ep; [..|done].
          -- destruct (sbelow c (l_st s) (Invoke t SPop)) as [b bevs| |] eqn:E; [|done|done].
             injection Hs as <- <-. cbn [l_in l_st] in *. rewrite lookup_insert in Ep'. injection Ep' as <-.
             exists [SRec (l_st s) (Invoke t SPop) b]. split.
             { eapply scall_start; [by eapply slreach_below|done|by apply sbelow_next]. }
             intros z Hz. apply elem_of_list_singleton in Hz as ->. rewrite fmap_app. apply elem_of_app. right. left.
          -- case_decide as Hd; [|done]. destruct Hd as [Hw Hu]. destruct (HL _ _ Ep) as (pc & Hpc & Hpp).
             destruct IH as (w' & Hc & Hww).
             destruct (sbelow c (l_st s) y) as [b bevs| |] eqn:E; [|done|done]. apply sbelow_next in E.
             assert (Hy : exists sp addr' thr', y = Run t sp addr' thr').
             { destruct y as [u' o|u' sp addr' thr'|]; [|cbn [ch_thread] in Hw; subst u'; eauto|done].
               cbn [ch_thread] in Hw. subst u'. cbn [sstep] in E. by rewrite Hpc in E. }
             destruct Hy as (sp & addr' & thr' & ->).
             destruct (sstep_pop _ _ _ _ _ _ E Hw Hu Hpc Hpp) as [[-> (pc' & Hpc' & Hpp')]|(r & -> & Hpr & Hno)].
             ++ injection Hs as <- <-. cbn [l_in l_st] in *. rewrite Ep in Ep'. injection Ep' as <-.
                exists (w' ++ [SRec (l_st s) (Run t sp addr' thr') b]). split; [|by apply Hsub'].
                eapply scall_step; [exact Hc|done|exact E|]. by rewrite Hpc'.
             ++ destruct (sgot r) as [v| |v| |] eqn:Eg; try done; injection Hs as <- <-; cbn [l_in l_st] in *;
                  rewrite ?lookup_insert, ?lookup_delete in Ep'; try done; injection Ep' as <-; [done|].
                apply s_none in Eg as ->.
                destruct (pop_main c Htag ns t w' None) as (a & Heff & Ha).
                { exists (l_st s). split; [done|]. by exists sp, addr', thr', b. }
                destruct a as [|v a]; [|done]. destruct Heff as (w1 & st & w2 & -> & _ & _ & Hpost & _).
                assert (Hz : r_post st ∈ l_st <$> w).
                { apply Hww. rewrite fmap_app. apply elem_of_app. right. rewrite fmap_cons. left. }
                apply elem_of_list_fmap in Hz as (z' & Hz & Hz').
                exists z'. split; [apply elem_of_app; by left|]. rewrite <- Hz. done.
          -- destruct thr; [done|]. injection Hs as <- <-; unfold lset in *; cbn [l_in l_st] in *.
             rewrite lookup_insert in Ep'. by injection Ep' as <-.
          -- injection Hs as <- <-. cbn [l_in] in *. by rewrite lookup_delete in Ep'.
        * (* another thread in consume_all *)
          assert (Hgen : l_in s' !! t = l_in s !! t /\
            (l_st s' = l_st s \/
             exists z evs', sstep c (l_st s) z = SNext (l_st s') evs' /\ ch_thread z = u /\ sunsync z = false /\ ch_ok z)).
          { destruct (l_in s !! u) as [[n|n|n v|n]|] eqn:Ep; [..|done].
            - destruct (sbelow c (l_st s) (Invoke u SPop)) as [b bevs| |] eqn:E; [|done|done].
              injection Hs as <- <-. cbn [l_in l_st]. rewrite lookup_insert_ne by done. split; [done|right].
              apply sbelow_next in E. by exists (Invoke u SPop), bevs.
            - case_decide as Hd; [|done]. destruct Hd as [Hw Hu]. destruct (HL _ _ Ep) as (pc & Hpc & Hpp).
              destruct (sbelow c (l_st s) y) as [b bevs| |] eqn:E; [|done|done]. apply sbelow_next in E.
              assert (Hy : ch_ok y).
              { destruct y as [u' o|u' sp addr' thr'|]; [|done|done].
                cbn [ch_thread] in Hw. subst u'. cbn [sstep] in E. by rewrite Hpc in E. }
              destruct (sstep_pop _ _ _ _ _ _ E Hw Hu Hpc Hpp) as [[-> _]|(r & -> & Hpr & Hno)].
              + injection Hs as <- <-. cbn [l_in l_st]. split; [done|right]. by exists y, [].
              + destruct (sgot r) as [v| |v| |]; try done; injection Hs as <- <-; cbn [l_in l_st];
                  rewrite ?lookup_insert_ne, ?lookup_delete_ne by done; (split; [done|right]; eexists y, _; done).
            - destruct thr; [done|]. injection Hs as <- <-; unfold lset; cbn [l_in l_st];
                rewrite ?lookup_delete_ne, ?lookup_insert_ne by done; auto.
            - injection Hs as <- <-; cbn [l_in l_st]. rewrite lookup_delete_ne by done; auto. }
          destruct Hgen as [Hsame Hst]. rewrite Hsame in Ep'. rewrite Ep' in IH.
          destruct p' as [n|n|n v|n]; [done| |done|].
          -- destruct IH as (w' & Hc & Hw).
             destruct Hst as [Hst|(z & evs' & Hz & Hzw & Hzu & Hzo)].
             ++ exists w'. rewrite Hst. split; [done|]. by apply Hsub.
             ++ exists (w' ++ [SRec (l_st s) z (l_st s')]). split; [|by apply Hsub'].
                eapply scall_step; [exact Hc|exact Hzo|exact Hz|]. rewrite (sstep_other _ _ _ _ t Hz) by (congruence || done).
                destruct (HL _ _ Ep') as (pc & Hpc & _). by rewrite Hpc.
          -- destruct IH as (z & Hz). by apply Hend in Hz.
  Qed.

  Lemma sl_empty ns t w n : slcallret c ns t w n -> exists s, s ∈ w /\ scontents c (l_st s) [].
  Proof using Htag.
    intros (s & x & thr & s' & Hc & Hs). pose proof (slcall_window _ _ _ _ Hc) as Hw.
    destruct (lstep_ret _ _ _ _ _ _ _ _ _ _ _ t n Hs) as [Hl _]; [left|]. by rewrite Hl in Hw.
  Qed.

  (** ** Without other calls *)

  Lemma slexec_trans s0 tr s tr' s' : slexec c s0 tr s -> slexec c s tr' s' -> slexec c s0 (tr ++ tr') s'.
  Proof.
    intros H. induction 1 as [|tr' s' x s'' evs H' IH Hs]; [by rewrite app_nil_r|].
    rewrite app_assoc. by econstructor.
  Qed.
  Lemma slexec_one s x s' evs : slstep c s x = BNext s' evs -> slexec c s evs s'.
  Proof. intros H. change evs with ([] ++ evs). by econstructor; [constructor|]. Qed.

  (** The steps of a thread inside pop. *)
  Lemma sl_steps t n k : forall b h b' in_,
    in_ !! t = Some (LPop n) -> srun c b (replicate k (Run t false None false)) = Some (h, b') ->
    forall r, h = [Res t (SGot r)] -> (forall pc, s_pcs b !! t = Some pc -> pop_pc pc) ->
    s_pcs b' !! t = None ->
    slexec c (LSt b in_) [Sub (Res t (SGot r))]
      (LSt b' (<[t := match r with Some v => LFun n v | None => LEnd n end]> in_)).
  Proof.
    induction k as [|k IH]; intros b h b' in_ Hin Hrun r Hh Hpc Hb'.
    { cbn in Hrun. injection Hrun as <- <-. done. }
    cbn [replicate srun] in Hrun. destruct (sstep c b (Run t false None false)) as [b1 evs| |] eqn:E; [|done|done].
    destruct (srun c b1 (replicate k (Run t false None false))) as [[h1 b2]|] eqn:E1; [|done].
    injection Hrun as <- <-.
    destruct (s_pcs b !! t) as [pc|] eqn:Ept; [|cbn [sstep] in E; by rewrite Ept in E].
    destruct (sstep_pop _ _ _ _ t pc E eq_refl eq_refl Ept (Hpc _ eq_refl)) as [[-> (pc' & Hpc' & Hpp')]|(r' & -> & Hpr & Hno)].
    - eapply (slexec_trans _ [] _ [Sub (Res t (SGot r))]).
      + eapply (slexec_one _ (LGo t (Run t false None false) false)). unfold slstep. cbn [lstep l_in].
        rewrite Hin. cbn [ch_thread sunsync]. rewrite decide_True by done. unfold sbelow. cbn [l_st]. rewrite E. done.
      + cbn [app] in Hh. eapply (IH _ _ _ _ Hin E1 r Hh); [|done]. intros pc0. rewrite Hpc'. intros H. by injection H as <-.
    - (* nothing can follow the return *)
      cbn [app] in Hh. injection Hh as Hr Hh1. subst r' h1.
      assert (Hb2 : b2 = b1).
      { destruct k as [|k]; [cbn in E1; by injection E1|]. cbn [replicate srun sstep] in E1. by rewrite Hno in E1. }
      subst b2. eapply (slexec_one _ (LGo t (Run t false None false) false)). unfold slstep. cbn [lstep l_in].
      rewrite Hin. cbn [ch_thread sunsync]. rewrite decide_True by done. unfold sbelow. cbn [l_st]. rewrite E.
      destruct r as [v|]; done.
  Qed.

  (** pop without other calls. *)
  Lemma pop_solo x g :
    GI c x g -> exists k x', tsteps c x PcCLoad k x' (PcRet (SGot (head (g_a g)))) /\
      (s_pool x').2 = (s_pool x).2 /\ (g_a g <> [] -> (s_tos x').2 = next_tag c (s_tos x).2).
  Proof.
    intros HG. pose proof (gi_seg _ _ _ HG) as Hs. pose proof (gi_a _ _ _ HG) as Hv.
    destruct (g_sn g) as [|n sn] eqn:Hsn.
    - destruct (g_a g) as [|v a]; [|by inversion Hv]. cbn [head]. cbn [seg] in Hs.
      exists 1, x. split; [|done]. econstructor; [|constructor]. cbn [tstep]. unfold c_test. by rewrite decide_True.
    - destruct (g_a g) as [|v a]; [by inversion Hv|]. cbn [head]. inversion Hv as [|? ? ? ? Hn Hv']; subst.
      destruct Hs as (Htn & y & Hy & Hs). destruct Hn as [lk Hn].
      assert (Hnn : n <> c_null c).
      { eapply (gi_own_not_null c x g n OQ); [done|]. apply (gi_mem _ _ _ HG). rewrite Hsn. left. }
      eexists 8, _. split; [|split].
      econstructor; [cbn [tstep]; unfold c_test; rewrite decide_False by congruence; reflexivity|].
      econstructor; [cbn [tstep]; rewrite ?Htn, Hn; reflexivity|].
      econstructor; [cbn [tstep]; rewrite decide_True by done; reflexivity|].
      econstructor; [cbn [tstep set_tos s_heap]; rewrite ?Htn, Hn; reflexivity|].
      econstructor; [cbn [tstep set_tos s_heap]; rewrite ?Htn, Hn; reflexivity|].
      econstructor; [cbn [tstep dstep]; reflexivity|].
      econstructor; [cbn [tstep dstep set_heap_pool set_heap s_heap]; rewrite ?Htn, lookup_insert; reflexivity|].
      econstructor; [|apply ts_nil].
      { cbn [tstep dstep set_heap_pool set_heap s_heap s_pool]. rewrite decide_True by done. reflexivity. }
      { done. }
      { done. }
  Qed.

  Lemma pop_quiet ns hist s a t :
    sreach c ns hist s -> quiescent s -> scontents c s a ->
    exists k s', srun c s (Invoke t SPop :: replicate k (Run t false None false)) =
        Some ([Lin.Inv t SPop; Res t (SGot (head a))], s') /\
      quiescent s' /\ scontents c s' (tail a).
  Proof using Htag.
    intros Hr Hq Ha. destruct (sreach_ok _ Htag _ _ _ Hr) as (g & HI & _).
    assert (a = g_a g) as -> by (by eapply inv_contents). pose proof HI as [HG _].
    destruct (pop_solo _ _ HG) as (k & x' & Hts & _). exists (S k), (SSt x' ∅).
    split; [by apply (srun_call c s t SPop PcCLoad k _ _ Hq eq_refl)|]. split; [done|].
    destruct (solo_ok c Htag s g t SPop _ k x' _ HI Hq I eq_refl Hts) as (a' & Hsp & Hc).
    inversion Hsp; subst; cbn [tail]; try done.
  Qed.

  (** One pop of a consume_all without other calls. *)
  Lemma sl_pop_run b r t n k b' :
    quiescent b -> quiescent b' ->
    srun c b (Invoke t SPop :: replicate k (Run t false None false)) = Some ([Lin.Inv t SPop; Res t (SGot r)], b') ->
    slexec c (LSt b {[t := LTest n]}) [Sub (Lin.Inv t SPop); Sub (Res t (SGot r))]
      (LSt b' {[t := match r with Some v => LFun n v | None => LEnd n end]}).
  Proof.
    intros Hq Hq' Hrun.
    cbn [srun] in Hrun. destruct (sstep c b (Invoke t SPop)) as [b1 evs| |] eqn:E; [|done|done].
    destruct (srun c b1 (replicate k (Run t false None false))) as [[h1 b2]|] eqn:E1; [|done].
    injection Hrun as Hh Hb2. subst b2.
    assert (Hev : evs = [Lin.Inv t SPop]). { apply (s_inv b t b1). unfold sbelow. by rewrite E. }
    subst evs. cbn [app] in Hh. injection Hh as Hh1.
    eapply (slexec_trans _ [Sub (Lin.Inv t SPop)] _ [Sub (Res t (SGot r))]).
    - eapply (slexec_one _ (LGo t (Run t false None false) false)). unfold slstep. cbn [lstep l_in].
      rewrite lookup_singleton. unfold sbelow. cbn [l_st]. rewrite E. reflexivity.
    - replace ({[t := match r with Some v => LFun n v | None => LEnd n end]} : gmap nat (lpc N)) with
        (<[t := match r with Some v => LFun n v | None => LEnd n end]> (<[t := LPop n]> ({[t := LTest n]} : gmap nat (lpc N))))
        by (rewrite insert_insert; apply insert_singleton).
      eapply sl_steps; [by rewrite lookup_insert|exact E1|exact Hh1| |].
      + intros pc. cbn [sstep sstart] in E. unfold quiescent in Hq. rewrite Hq, lookup_empty in E.
        injection E as <-. unfold set_pc. cbn [s_pcs]. rewrite lookup_insert. intros H. by injection H as <-.
      + unfold quiescent in Hq'. by rewrite Hq', lookup_empty.
  Qed.

  (** In the states [R], pops by one thread do what they should. *)
  Definition pops_alone (R : sstate -> Prop) : Prop :=
    forall b a t, R b -> quiescent b -> scontents c b a ->
      exists k b', srun c b (Invoke t SPop :: replicate k (Run t false None false)) =
          Some ([Lin.Inv t SPop; Res t (SGot (head a))], b') /\
        quiescent b' /\ scontents c b' (tail a) /\ R b'.

  Definition reached (b : sstate) : Prop := exists ns hist, sreach c ns hist b.

  Lemma pops_reached : pops_alone reached.
  Proof using Htag.
    intros b a t (ns & hist & Hr) Hq Ha.
    destruct (pop_quiet _ _ _ _ t Hr Hq Ha) as (k & b' & Hrun & Hq' & Ha').
    exists k, b'. do 3 (split; [done|]). exists ns. eexists.
    eapply sreach_ext; [exact Hr| |by eapply srun_exec].
    intros t' o Hin. apply elem_of_cons in Hin as [Hin|Hin]; [by injection Hin as -> ->|].
    apply elem_of_list_singleton in Hin. done.
  Qed.

  Lemma sl_alone_loop R t a : pops_alone R -> forall b n,
    R b -> quiescent b -> scontents c b a ->
    exists b', quiescent b' /\ scontents c b' [] /\
      slexec c (LSt b {[t := LTest n]})
        (rounds SPop (fun v => SGot (Some v)) t a ++ last_round SPop (SGot None) t ++ [AllRet t (n + length a)])
        (LSt b' ∅).
  Proof.
    intros HR. induction a as [|v a IH]; intros b n Hr Hq Ha;
      destruct (HR _ _ t Hr Hq Ha) as (k & b' & Hrun & Hq' & Ha' & Hr'); cbn [head tail] in *;
      pose proof (sl_pop_run _ _ _ n _ _ Hq Hq' Hrun) as He; cbn match in He.
    - exists b'. split; [done|]. split; [done|]. cbn [rounds]. unfold rounds. cbn [fmap list_fmap concat app length].
      eapply (slexec_trans _ [Sub (Lin.Inv t SPop); Sub (Res t (SGot None))]); [exact He|].
      replace (∅ : gmap nat (lpc N)) with (delete t ({[t := LEnd n]} : gmap nat (lpc N)))
        by apply delete_singleton.
      eapply (slexec_one _ (LGo t (Run t false None false) false)). unfold slstep. cbn [lstep l_in].
      rewrite lookup_singleton. by rewrite Nat.add_0_r.
    - destruct (IH _ (S n) Hr' Hq' Ha') as (b2 & Hq2 & Ha2 & He2). exists b2. split; [done|]. split; [done|].
      eapply (slexec_trans _ [Sub (Lin.Inv t SPop); Sub (Res t (SGot (Some v)))]); [exact He|].
      eapply (slexec_trans _ [AllApply t v]).
      + eapply (slexec_one _ (LGo t (Run t false None false) false)). unfold slstep. cbn [lstep l_in].
        rewrite lookup_singleton. reflexivity.
      + unfold lset. cbn [l_st l_in]. rewrite insert_singleton. cbn [length].
        replace (n + S (length a)) with (S n + length a) by lia. exact He2.
  Qed.

  Lemma sl_alone_from R s a t :
    pops_alone R -> R (l_st s) -> slquiescent s -> scontents c (l_st s) a ->
    exists s', slquiescent s' /\ scontents c (l_st s') [] /\
      slexec c s ([AllCall t] ++ rounds SPop (fun v => SGot (Some v)) t a ++ last_round SPop (SGot None) t ++
        [AllRet t (length a)]) s'.
  Proof.
    intros HR H [Hq Hin] Ha. destruct s as [b m]. cbn [l_st l_in] in *. subst m.
    destruct (sl_alone_loop R t a HR b 0 H Hq Ha) as (b' & Hq' & Ha' & He).
    exists (LSt b' ∅). split; [done|]. split; [done|]. eapply slexec_trans; [|exact He].
    eapply (slexec_one _ (LCall t)). unfold slstep. cbn [lstep l_in l_st].
    rewrite decide_True; [done|]. split; [apply lookup_empty|]. unfold sbusy. rewrite Hq, lookup_empty.
    apply bool_decide_eq_false. by intros [? ?].
  Qed.

  Lemma sl_alone ns tr s a t :
    slreach c ns tr s -> slquiescent s -> scontents c (l_st s) a ->
    exists s', slquiescent s' /\ scontents c (l_st s') [] /\
      slexec c s ([AllCall t] ++ rounds SPop (fun v => SGot (Some v)) t a ++ last_round SPop (SGot None) t ++
        [AllRet t (length a)]) s'.
  Proof using Htag.
    intros H. apply (sl_alone_from reached); [apply pops_reached|]. exists ns. eexists. by apply slreach_below.
  Qed.

  (** ** Nothing is lost or consumed twice *)

  (** Values that a consume_all has popped and not yet counted as consumed. *)
  Definition shold1 (p : lpc N) : list N := match p with LFun _ v => [v] | _ => [] end.
  Definition sheld (m : gmap nat (lpc N)) : list N := concat (shold1 <$> (map_to_list m).*2).

  Lemma sheld_fresh m t p : m !! t = None -> sheld (<[t := p]> m) ≡ₚ shold1 p ++ sheld m.
  Proof. intros H. unfold sheld. rewrite map_to_list_insert by done. done. Qed.
  Lemma sheld_delete m t p : m !! t = Some p -> sheld m ≡ₚ shold1 p ++ sheld (delete t m).
  Proof. intros H. rewrite <- (insert_delete m t p H) at 1. apply sheld_fresh. apply lookup_delete. Qed.
  Lemma sheld_update m t p p' : m !! t = Some p -> shold1 p ++ sheld (<[t := p']> m) ≡ₚ shold1 p' ++ sheld m.
  Proof.
    intros H. rewrite <- insert_delete_insert, sheld_fresh by apply lookup_delete.
    rewrite (sheld_delete m t p H). rewrite !app_assoc. by rewrite (Permutation_app_comm (shold1 p)).
  Qed.

  Lemma sreceived_own (evs : list sevent) : ((Own <$> evs : list sltrace) ≫= sreceived) = (evs ≫= evals).
  Proof. induction evs as [|[t o|t r] evs IH]; [done|..]; cbn in *; by rewrite IH. Qed.

  Lemma sl_held s0 tr s :
    l_in s0 = ∅ -> lok s0 -> slexec c s0 tr s ->
    (omap below tr ≫= evals) ≡ₚ (tr ≫= sreceived) ++ sheld (l_in s).
  Proof.
    intros H0 Hl0 H. induction H as [|tr s x s' evs He IH Hs].
    { rewrite H0. unfold sheld. by rewrite map_to_list_empty. }
    pose proof (lok_exec _ _ _ Hl0 He) as HL.
    rewrite omap_app, !bind_app, IH, <- app_assoc. rewrite <- app_assoc. f_equiv. clear IH.
    unfold slstep in Hs. destruct x as [y|u|u y thr]; cbn [lstep] in Hs.
    - case_decide; [|done]. destruct (sbelow c (l_st s) y) as [b bevs| |]; [|done|done]. injection Hs as <- <-.
      cbn [l_in]. rewrite below_own, sreceived_own. by rewrite Permutation_app_comm.
    - case_decide as Hd; [|done]. injection Hs as <- <-. unfold lset. cbn [l_in].
      rewrite sheld_fresh by apply Hd. cbn. by rewrite app_nil_r.
    - destruct (l_in s !! u) as [[n|n|n v|n]|] eqn:Ep; [..|done].
      + destruct (sbelow c (l_st s) (Invoke u SPop)) as [b bevs| |] eqn:E; [|done|done].
        injection Hs as <- <-. apply s_inv in E as ->. cbn [l_in].
        pose proof (sheld_update _ _ _ (LPop n) Ep) as Hu. cbn in *. by rewrite Hu, app_nil_r.
      + case_decide as Hd; [|done]. destruct Hd as [Hw Hu]. destruct (HL _ _ Ep) as (pc & Hpc & Hpp).
        destruct (sbelow c (l_st s) y) as [b bevs| |] eqn:E; [|done|done]. apply sbelow_next in E.
        destruct (sstep_pop _ _ _ _ _ _ E Hw Hu Hpc Hpp) as [[-> _]|(r & -> & Hpr & Hno)].
        * injection Hs as <- <-. cbn. by rewrite app_nil_r.
        * destruct r as [|[v|]| | | |[|v []]]; try done; cbn [sgot] in Hs; injection Hs as <- <-; cbn [l_in].
          -- pose proof (sheld_update _ _ _ (LFun n v) Ep) as Hu'. cbn in *. rewrite Hu'.
             by rewrite Permutation_app_comm.
          -- pose proof (sheld_update _ _ _ (LEnd n) Ep) as Hu'. cbn in *. by rewrite Hu', app_nil_r.
          -- pose proof (sheld_delete _ _ _ Ep) as Hu'. cbn in *. rewrite <- Hu'. by rewrite Permutation_app_comm.
      + destruct thr; [done|]. injection Hs as <- <-; unfold lset; cbn [l_in].
        pose proof (sheld_update _ _ _ (LTest (S n)) Ep) as Hu. cbn in *. by rewrite Hu, app_nil_r.
      + injection Hs as <- <-. cbn [l_in]. pose proof (sheld_delete _ _ _ Ep) as Hu. cbn in *. by rewrite Hu, app_nil_r.
  Qed.

  Lemma sl_conserve ns tr s :
    slreach c ns tr s -> slquiescent s ->
    exists D a, scontents c (l_st s) a /\
      (completed (omap below tr) ≫= sputs) ≡ₚ (tr ≫= sreceived) ++ D ++ a /\
      (Forall (fun x => cut_short x = false) (completed (omap below tr)) -> D = []).
  Proof using Htag.
    intros H [Hq Hin]. pose proof (slreach_below _ _ _ H) as Hr.
    destruct (sconserve_quiet_main c Htag _ _ _ Hr Hq) as (D & a & Ha & Hp & HD). exists D, a. split; [done|].
    split; [|done]. rewrite Hp. f_equiv. destruct (linearizable_main c Htag _ _ _ Hr) as [_ (l & ph & a' & Hl & Her & _)].
    pose proof (completed_evals _ _ _ _ _ Hl) as Hpv. rewrite Her in Hpv. rewrite <- Hpv.
    destruct H as (_ & _ & _ & H).
    rewrite (sl_held (LSt (sinit c ns) ∅) tr s eq_refl (lok_init _) H), Hin. unfold sheld. rewrite map_to_list_empty. cbn.
    by rewrite app_nil_r.
  Qed.
End stack.
