(** * queue::consume_all *)
From stdpp Require Import gmap list numbers.
From Verif Require Import Lin LinObs LinFacts PoolModel QueueModel QueueSpec QueueObs QueueQuiet QueueMain QueueDemo
  LoopModel LoopObs LoopFacts.

Set Default Proof Using "Type".

Section queue.
  Context (c : cfg).
  Notation qltrace := (ltrace qop qret val).
  Notation qlstate := (@lstate qstate val).

  Lemma qbelow_next s x s' evs : qbelow c s x = BNext s' evs -> qstep c s x = QNext s' evs.
  Proof. unfold qbelow. by destruct (qstep c s x); intros H; [injection H as <- <-|..]. Qed.

  Lemma qbelow_exec s0 h s : bexec (qbelow c) s0 h s -> qexec c s0 h s.
  Proof. induction 1 as [|h b x b' evs H IH Hs]; [constructor|]. econstructor; [exact IH|by apply qbelow_next]. Qed.

  Lemma qlreach_below ns tr s : qlreach c ns tr s -> qreach c ns (omap below tr) (l_st s).
  Proof.
    intros (addr & s0 & H1 & H2 & H3 & H4 & H). exists addr, s0. do 4 (split; [done|]).
    apply qbelow_exec. apply lexec_below in H. done.
  Qed.

  (** ** Events of the machine below *)

  Lemma q_inv b t b' evs : qbelow c b (Invoke t Pop false) = BNext b' evs -> evs = [Inv t Pop].
  Proof.
    intros H%qbelow_next. cbn [qstep] in H. destruct (q_pcs b !! t); [done|]. cbn [qstart] in H. by injection H.
  Qed.

  Lemma q_own b x b' evs : qbelow c b x = BNext b' evs -> Forall (fun e => ev_thread e = qwho x) evs.
  Proof.
    intros H%qbelow_next. destruct x as [t o tf|t sp addr thr|t o addrs thr]; cbn [qstep qwho] in *.
    - destruct (q_pcs b !! t); [done|]. destruct (qstart c o tf); [|done]. injection H as <- <-. by repeat constructor.
    - destruct (q_pcs b !! t) as [pc|]; [|done].
      assert (Hcase : (exists r, pc = PcRet r) \/ evs = []).
      { destruct pc; try (left; eauto; fail); right;
          match type of H with match ?e with _ => _ end = _ => destruct e end; try done; by injection H. }
      destruct Hcase as [[r ->]| ->]; [|constructor]. injection H as <- <-. by repeat constructor.
    - case_decide; [|done]. destruct (ucall c (q_sh b) o addrs thr); try done. injection H as <- <-. by repeat constructor.
  Qed.

  Lemma q_one r v : qgot r = GotOne v -> r = RPop (Some v).
  Proof. destruct r as [|[w|]| |]; try done. intros H. by injection H as ->. Qed.
  Lemma q_none r : qgot r = GotNone -> r = RPop None.
  Proof. by destruct r as [|[w|]| |]. Qed.

  (** ** A thread in consume_all is inside pop or not inside a call *)

  Definition pop_pc (pc : qpc) : Prop :=
    match pc with
    | PcOHead | PcOTail _ | PcONext _ _ | PcOCheck _ _ _ | PcOSwing _ _ | PcOCopy _ _ _
    | PcDealloc _ _ (KRet (RPop _)) | PcRet (RPop _) | PcRet RExn => True
    | _ => False
    end.

  Lemma pop_pc_step x pc sp addr thr x' pc' : pop_pc pc -> tstep c x pc sp addr thr = TGo x' pc' -> pop_pc pc'.
  Proof.
    destruct pc as [| | | | | | | | | |hd|hd tl|hd tl nx|tl np|hd np acc|n d k| | | | | |r]; try done; intros Hp; cbn [tstep].
    - intros H'; by injection H' as <- <-.
    - intros H'; by injection H' as <- <-.
    - destruct (q_heap x !! hd.1); [|done]. intros H'; by injection H' as <- <-.
    - repeat case_decide; intros H'; by injection H' as <- <-.
    - intros H'; by injection H' as <- <-.
    - destruct thr; [destruct (c_throws c); [|done]; intros H'; by injection H' as <- <-|].
      case_decide.
      + destruct (q_heap x !! np) as [nd|]; [|done]. destruct (dat nd !! length acc); [|done].
        intros H'; by injection H' as <- <-.
      + case_decide; intros H'; by injection H' as <- <-.
    - destruct (dstep n (q_heap x) (q_pool x) d sp); [| |done]; intros H'; injection H' as <- <-; [done|].
      destruct k as [[]|]; done.
  Qed.

  Definition lok (s : qlstate) : Prop :=
    forall t p, l_in s !! t = Some p ->
      match p with
      | LPop _ => exists pc, q_pcs (l_st s) !! t = Some pc /\ pop_pc pc
      | _ => q_pcs (l_st s) !! t = None
      end.

  (** A step below leaves other threads alone. *)
  Lemma qstep_other b x b' evs t : qstep c b x = QNext b' evs -> qwho x <> t -> qunsync x = false ->
    q_pcs b' !! t = q_pcs b !! t.
  Proof.
    destruct x as [u o tf|u sp addr thr|u o addrs thr]; cbn [qstep qwho qunsync]; intros H Hne Hu; [| |done].
    - destruct (q_pcs b !! u); [done|]. destruct (qstart c o tf); [|done]. injection H as <- <-.
      unfold set_pc. cbn [q_pcs]. by rewrite lookup_insert_ne.
    - destruct (q_pcs b !! u) as [pc|]; [|done].
      assert (Hcase : (exists r, pc = PcRet r) \/
        exists x' pc', b' = QSt x' (<[u := pc']> (q_pcs b))).
      { destruct pc; try (left; eauto; fail); right;
          match type of H with match ?e with _ => _ end = _ => destruct e end; try done; injection H as <- _; eauto. }
      destruct Hcase as [[r ->]|(x' & pc' & ->)].
      + injection H as <- <-. cbn [q_pcs]. by rewrite lookup_delete_ne.
      + cbn [q_pcs]. by rewrite lookup_insert_ne.
  Qed.

  (** A step of a thread inside pop. *)
  Lemma qstep_pop b x b' evs t pc :
    qstep c b x = QNext b' evs -> qwho x = t -> qunsync x = false -> q_pcs b !! t = Some pc -> pop_pc pc ->
    (evs = [] /\ exists pc', q_pcs b' !! t = Some pc' /\ pop_pc pc') \/
    (exists r, evs = [Res t r] /\ q_pcs b' !! t = None /\ (r = RExn \/ exists v, r = RPop v)).
  Proof.
    destruct x as [u o tf|u sp addr thr|u o addrs thr]; cbn [qstep qwho qunsync]; intros H -> Hu Hpc Hp; [| |done].
    { by rewrite Hpc in H. }
    rewrite Hpc in H. assert (Hcase : (exists r, pc = PcRet r) \/
        exists x' pc', tstep c (q_sh b) pc sp addr thr = TGo x' pc' /\ b' = QSt x' (<[t := pc']> (q_pcs b)) /\ evs = []).
    { destruct pc; try (left; eauto; fail); right;
        match type of H with match ?e with _ => _ end = _ => destruct e end; try done; injection H as <- <-; eauto. }
    destruct Hcase as [[r ->]|(x' & pc' & Hst & -> & ->)].
    - right. injection H as <- <-. exists r. cbn [q_pcs]. rewrite lookup_delete. do 2 (split; [done|]).
      destruct r as [|r| |]; eauto; done.
    - left. split; [done|]. exists pc'. cbn [q_pcs]. rewrite lookup_insert. split; [done|]. by eapply pop_pc_step.
  Qed.

  Lemma lok_step s x s' evs : lok s -> qlstep c s x = BNext s' evs -> lok s'.
  Proof.
    intros HL Hs. unfold qlstep in Hs. destruct x as [y|u|u y thr]; cbn [lstep] in Hs.
    - case_decide as Hd; [|done]. destruct Hd as [Hd Hu]. destruct (qbelow c (l_st s) y) as [b bevs| |] eqn:E; [|done|done].
      injection Hs as <- <-. apply qbelow_next in E. intros t p Hp. cbn [l_in l_st] in *.
      assert (Hne : qwho y <> t) by congruence.
      assert (Huy : qunsync y = false).
      { destruct (qunsync y); [|done]. rewrite (Hu eq_refl), lookup_empty in Hp. done. }
      rewrite (qstep_other _ _ _ _ t E Hne Huy). by apply HL.
    - case_decide as Hd; [|done]. destruct Hd as [Hd Hu]. injection Hs as <- <-.
      intros t p. unfold lset. cbn [l_in l_st]. destruct (decide (u = t)) as [->|Hne].
      + rewrite lookup_insert. intros H. injection H as <-. unfold qbusy in Hu.
        apply bool_decide_eq_false in Hu. by apply eq_None_not_Some.
      + rewrite lookup_insert_ne by done. apply HL.
    - destruct (l_in s !! u) as [[n|n|n v|n]|] eqn:Ep; [..|done].
      + destruct (qbelow c (l_st s) (Invoke u Pop false)) as [b bevs| |] eqn:E; [|done|done].
        injection Hs as <- <-. apply qbelow_next in E. intros t p. cbn [l_in l_st].
        destruct (decide (u = t)) as [->|Hne].
        * rewrite lookup_insert. intros H. injection H as <-. cbn [qstep] in E.
          destruct (q_pcs (l_st s) !! t); [done|]. cbn [qstart] in E. injection E as <- _.
          unfold set_pc. cbn [q_pcs]. rewrite lookup_insert. by exists PcOHead.
        * rewrite lookup_insert_ne by done. rewrite (qstep_other _ _ _ _ t E) by done. apply HL.
      + case_decide as Hd; [|done]. destruct Hd as [Hw Hu].
        destruct (HL _ _ Ep) as (pc & Hpc & Hpp).
        destruct (qbelow c (l_st s) y) as [b bevs| |] eqn:E; [|done|done]. apply qbelow_next in E.
        assert (Hoth : forall t, u <> t -> q_pcs b !! t = q_pcs (l_st s) !! t).
        { intros t Hne. apply (qstep_other _ _ _ _ t E); [congruence|done]. }
        destruct (qstep_pop _ _ _ _ _ _ E Hw Hu Hpc Hpp) as [[-> (pc' & Hpc' & Hpp')]|(r & -> & Hno & Hr)].
        * injection Hs as <- <-. intros t p. cbn [l_in l_st]. destruct (decide (u = t)) as [->|Hne].
          -- rewrite Ep. intros H. injection H as <-. eauto.
          -- rewrite Hoth by done. apply HL.
        * destruct Hr as [->|[r' ->]].
          { cbn [qgot] in Hs. injection Hs as <- <-. intros t p. cbn [l_in l_st].
            destruct (decide (u = t)) as [->|Hne]; [by rewrite lookup_delete|].
            rewrite lookup_delete_ne, Hoth by done. apply HL. }
          destruct r' as [v|]; cbn [qgot] in Hs; injection Hs as <- <-; intros t p; cbn [l_in l_st];
            (destruct (decide (u = t)) as [->|Hne];
             [rewrite lookup_insert; intros H; by injection H as <-
             |rewrite lookup_insert_ne, Hoth by done; apply HL]).
      + pose proof (HL _ _ Ep) as Hno. destruct thr; injection Hs as <- <-; intros t p; unfold lset; cbn [l_in l_st].
        * destruct (decide (u = t)) as [->|Hne]; [by rewrite lookup_delete|rewrite lookup_delete_ne by done; apply HL].
        * destruct (decide (u = t)) as [->|Hne];
            [rewrite lookup_insert; intros H; by injection H as <-|rewrite lookup_insert_ne by done; apply HL].
      + injection Hs as <- <-; intros t p; cbn [l_in l_st].
        destruct (decide (u = t)) as [->|Hne]; [by rewrite lookup_delete|rewrite lookup_delete_ne by done; apply HL].
  Qed.

  Lemma lok_exec s0 tr s : lok s0 -> qlexec c s0 tr s -> lok s.
  Proof. intros H0. induction 1 as [|tr s x s' evs H IH Hs]; [done|]. by eapply lok_step. Qed.

  Lemma lok_init b : lok (LSt b ∅).
  Proof. intros t p. cbn [l_in]. by rewrite lookup_empty. Qed.

  Lemma lok_reach ns tr s : qlreach c ns tr s -> lok s.
  Proof. intros (addr & s0 & _ & _ & _ & _ & H). eapply lok_exec; [|exact H]. apply lok_init. Qed.

  Context (Htag : c_tagmod c = None).

  Lemma below_safe ns tr s y : qlreach c ns tr s -> qbelow c (l_st s) y <> BUB.
  Proof using Htag.
    intros H. pose proof (safe_main c Htag _ _ _ y (qlreach_below _ _ _ H)) as Hsafe.
    unfold qbelow. by destruct (qstep c (l_st s) y).
  Qed.

  Lemma ql_safe ns tr s x : qlreach c ns tr s -> qlstep c s x <> BUB.
  Proof using Htag.
    intros H. pose proof (lok_reach _ _ _ H) as HL. unfold qlstep.
    destruct x as [y|u|u y thr]; cbn [lstep].
    - case_decide; [|done]. pose proof (below_safe _ _ _ y H). by destruct (qbelow c (l_st s) y).
    - by case_decide.
    - destruct (l_in s !! u) as [[n|n|n v|n]|] eqn:Ep; [..|done].
      + pose proof (below_safe _ _ _ (Invoke u Pop false) H). by destruct (qbelow c (l_st s) (Invoke u Pop false)).
      + case_decide as Hd; [|done]. destruct Hd as [Hw Hu]. pose proof (below_safe _ _ _ y H) as Hub.
        destruct (HL _ _ Ep) as (pc & Hpc & Hpp).
        destruct (qbelow c (l_st s) y) as [b bevs| |] eqn:E; [|done|done]. apply qbelow_next in E.
        destruct (qstep_pop _ _ _ _ _ _ E Hw Hu Hpc Hpp) as [[-> _]|(r & -> & _ & [->|[r' ->]])]; [done..|].
        by destruct r'.
      + by destruct thr.
      + done.
  Qed.

  Lemma ql_call ns tr s t p m n q :
    qlreach c ns tr s -> tr = p ++ AllCall t :: m ++ AllRet t n :: q -> AllCall t ∉ m ->
    exists vs, n = length vs /\
      of_thread t m = rounds Pop (fun v => RPop (Some v)) t vs ++ last_round Pop (RPop None) t.
  Proof.
    intros (addr & s0 & _ & _ & _ & _ & H) Heq Hm.
    eapply (lexec_call (qbelow c) qbusy qwho qunsync (fun t => Invoke t Pop false) qgot true Pop
      (fun v => RPop (Some v)) (RPop None) q_inv q_own q_one q_none (LSt s0 ∅));
      [done|exact H|exact Heq|done].
  Qed.

  (** ** The queue was empty at an instant *)

  Lemma qlcall_reach ns t w s : qlcall c ns t w s -> exists tr, qlreach c ns tr s.
  Proof.
    assert (Hstep : forall tr s x s' evs, qlreach c ns tr s -> qlstep c s x = BNext s' evs -> qlreach c ns (tr ++ evs) s').
    { intros tr s1 x s' evs (addr & s0 & H1 & H2 & H3 & H4 & H) Hs. exists addr, s0. do 4 (split; [done|]).
      by econstructor. }
    induction 1 as [tr s s' evs H Hs|w s x s' evs H IH Hs Hin]; [eauto|]. destruct IH as [tr IH]. eauto.
  Qed.

  (** The windows of the pops inside are parts of that of the call. *)
  Lemma qlcall_window ns t w s :
    qlcall c ns t w s ->
    match l_in s !! t with
    | Some (LPop _) => exists addr s0 w',
        NoDup ns /\ c_null c ∉ ns /\ (ns <> [] \/ c_node_based c = true) /\
        qinit c ns addr = Some s0 /\ qcall c s0 t Pop w' (l_st s) /\ w' ⊆ (l_st <$> w)
    | Some (LEnd _) => exists s', s' ∈ w /\ qcontents c (l_st s') []
    | _ => True
    end.
  Proof using Htag.
    induction 1 as [tr s s' evs H Hs|w s x s' evs H IH Hs Hin].
    - unfold qlstep in Hs. cbn [lstep] in Hs. case_decide; [|done]. injection Hs as <- <-.
      unfold lset. cbn [l_in]. by rewrite lookup_insert.
    - destruct (qlcall_reach _ _ _ _ H) as [tr Hr]. pose proof (lok_reach _ _ _ Hr) as HL.
      destruct (l_in s' !! t) as [p'|] eqn:Ep'; [|done].
      assert (Hsub : forall w' : list qstate, w' ⊆ l_st <$> w -> w' ⊆ l_st <$> (w ++ [s'])).
      { intros w' Hw' z Hz. rewrite fmap_app. apply elem_of_app. left. by apply Hw'. }
      assert (Hsub' : forall w' : list qstate, w' ⊆ l_st <$> w -> w' ++ [l_st s'] ⊆ l_st <$> (w ++ [s'])).
      { intros w' Hw' z Hz. rewrite fmap_app. apply elem_of_app. apply elem_of_app in Hz as [Hz|Hz]; [left; by apply Hw'|by right]. }
      assert (Hend : forall z, z ∈ w /\ qcontents c (l_st z) [] -> exists z', z' ∈ w ++ [s'] /\ qcontents c (l_st z') []).
      { intros z [Hz Hc]. exists z. split; [apply elem_of_app; by left|done]. }
      unfold qlstep in Hs. destruct x as [y|u|u y thr]; cbn [lstep] in Hs.
      + case_decide as Hd; [|done]. destruct Hd as [Hd Hu].
        destruct (qbelow c (l_st s) y) as [b bevs| |] eqn:E; [|done|done]. injection Hs as <- <-. cbn [l_in l_st] in *.
        rewrite Ep' in IH. destruct p' as [n|n|n v|n]; [done| |done|].
        * destruct IH as (addr & s0 & w' & H1 & H2 & H3 & H4 & Hc & Hw). exists addr, s0, (w' ++ [b]).
          do 4 (split; [done|]). split; [|by apply Hsub'].
          eapply qcall_step; [exact Hc|by apply qbelow_next|]. apply qbelow_next in E.
          assert (Huy : qunsync y = false).
          { destruct (qunsync y); [|done]. rewrite (Hu eq_refl), lookup_empty in Ep'. done. }
          rewrite (qstep_other _ _ _ _ t E); [|congruence|done].
          destruct (HL _ _ Ep') as (pc & Hpc & _). by rewrite Hpc.
        * destruct IH as (z & Hz). by apply Hend in Hz.
      + case_decide as Hd; [|done]. injection Hs as <- <-. unfold lset in *. cbn [l_in l_st] in *.
        destruct (decide (u = t)) as [->|Hne].
        * rewrite lookup_insert in Ep'. by injection Ep' as <-.
        * rewrite lookup_insert_ne in Ep' by done. rewrite Ep' in IH. destruct p' as [n|n|n v|n]; [done| |done|].
          -- destruct IH as (addr & s0 & w' & H1 & H2 & H3 & H4 & Hc & Hw). exists addr, s0, w'.
             do 5 (split; [done|]). by apply Hsub.
          -- destruct IH as (z & Hz). by apply Hend in Hz.
      + destruct (decide (u = t)) as [->|Hne].
        * destruct (l_in s !! t) as [[n|n|n v|n]|] eqn:Ep; [..|done].
          -- destruct (qbelow c (l_st s) (Invoke t Pop false)) as [b bevs| |] eqn:E; [|done|done].
             injection Hs as <- <-. cbn [l_in l_st] in *. rewrite lookup_insert in Ep'. injection Ep' as <-.
             destruct (qlreach_below _ _ _ Hr) as (addr & s0 & H1 & H2 & H3 & H4 & He).
             exists addr, s0, [b]. do 4 (split; [done|]). split.
             { eapply qcall_start; [exact He|by apply qbelow_next]. }
             intros z Hz. apply elem_of_list_singleton in Hz as ->. rewrite fmap_app. apply elem_of_app. right. left.
          -- case_decide as Hd; [|done]. destruct Hd as [Hw Hu]. destruct (HL _ _ Ep) as (pc & Hpc & Hpp).
             destruct IH as (addr & s0 & w' & H1 & H2 & H3 & H4 & Hc & Hww).
             destruct (qbelow c (l_st s) y) as [b bevs| |] eqn:E; [|done|done]. apply qbelow_next in E.
             destruct (qstep_pop _ _ _ _ _ _ E Hw Hu Hpc Hpp) as [[-> (pc' & Hpc' & Hpp')]|(r & -> & Hno & Hrr)].
             ++ injection Hs as <- <-. cbn [l_in l_st] in *. rewrite Ep in Ep'. injection Ep' as <-.
                exists addr, s0, (w' ++ [b]). do 4 (split; [done|]). split; [|by apply Hsub'].
                eapply qcall_step; [exact Hc|exact E|]. by rewrite Hpc'.
             ++ destruct Hrr as [->|[r' ->]].
                { cbn [qgot] in Hs. injection Hs as <- <-. cbn [l_in] in *. by rewrite lookup_delete in Ep'. }
                destruct r' as [v|]; cbn [qgot] in Hs; injection Hs as <- <-; cbn [l_in l_st] in *;
                  rewrite lookup_insert in Ep'; injection Ep' as <-; [done|].
                destruct y as [|u' sp addr' thr'|]; [| |done].
                { exfalso. cbn [qwho] in Hw. subst. cbn [qstep] in E. by rewrite Hpc in E. }
                cbn [qwho] in Hw. subst u'.
                destruct (pop_empty_main c Htag ns t w') as (z & Hz & Hcz).
                { exists addr, s0, (l_st s). do 5 (split; [done|]). by exists sp, addr', thr', b. }
                apply Hww in Hz. apply elem_of_list_fmap in Hz as (z' & -> & Hz').
                exists z'. split; [apply elem_of_app; by left|done].
          -- destruct thr; injection Hs as <- <-; unfold lset in *; cbn [l_in l_st] in *.
             { by rewrite lookup_delete in Ep'. }
             rewrite lookup_insert in Ep'. by injection Ep' as <-.
          -- injection Hs as <- <-. cbn [l_in] in *. by rewrite lookup_delete in Ep'.
        * (* another thread in consume_all *)
          assert (Hgen : l_in s' !! t = l_in s !! t /\
            (l_st s' = l_st s \/ exists z evs', qstep c (l_st s) z = QNext (l_st s') evs' /\ qwho z = u /\ qunsync z = false)).
          { destruct (l_in s !! u) as [[n|n|n v|n]|] eqn:Ep; [..|done].
            - destruct (qbelow c (l_st s) (Invoke u Pop false)) as [b bevs| |] eqn:E; [|done|done].
              injection Hs as <- <-. cbn [l_in l_st]. rewrite lookup_insert_ne by done. split; [done|right].
              apply qbelow_next in E. by exists (Invoke u Pop false), bevs.
            - case_decide as Hd; [|done]. destruct Hd as [Hw Hu]. destruct (HL _ _ Ep) as (pc & Hpc & Hpp).
              destruct (qbelow c (l_st s) y) as [b bevs| |] eqn:E; [|done|done]. apply qbelow_next in E.
              destruct (qstep_pop _ _ _ _ _ _ E Hw Hu Hpc Hpp) as [[-> _]|(r & -> & Hno & Hrr)].
              + injection Hs as <- <-. cbn [l_in l_st]. split; [done|right]. by exists y, [].
              + destruct Hrr as [->|[r' ->]].
                { cbn [qgot] in Hs. injection Hs as <- <-. cbn [l_in l_st]. rewrite lookup_delete_ne by done.
                  split; [done|right]. by exists y, [Res u RExn]. }
                destruct r' as [v|]; cbn [qgot] in Hs; injection Hs as <- <-; cbn [l_in l_st];
                  (rewrite lookup_insert_ne by done; split; [done|right]; by exists y, [Res u (RPop _)]) ||
                  (rewrite lookup_insert_ne by done; split; [done|right]; eexists y, _; done).
            - destruct thr; injection Hs as <- <-; unfold lset; cbn [l_in l_st];
                rewrite ?lookup_delete_ne, ?lookup_insert_ne by done; auto.
            - injection Hs as <- <-; cbn [l_in l_st]. rewrite lookup_delete_ne by done; auto. }
          destruct Hgen as [Hsame Hst]. rewrite Hsame in Ep'. rewrite Ep' in IH.
          destruct p' as [n|n|n v|n]; [done| |done|].
          -- destruct IH as (addr & s0 & w' & H1 & H2 & H3 & H4 & Hc & Hw).
             destruct Hst as [Hst|(z & evs' & Hz & Hzw & Hzu)].
             ++ exists addr, s0, w'. do 4 (split; [done|]). rewrite Hst. split; [done|]. by apply Hsub.
             ++ exists addr, s0, (w' ++ [l_st s']). do 4 (split; [done|]). split; [|by apply Hsub'].
                eapply qcall_step; [exact Hc|exact Hz|]. rewrite (qstep_other _ _ _ _ t Hz) by (congruence || done).
                destruct (HL _ _ Ep') as (pc & Hpc & _). by rewrite Hpc.
          -- destruct IH as (z & Hz). by apply Hend in Hz.
  Qed.

  Lemma ql_empty ns t w n : qlcallret c ns t w n -> exists s, s ∈ w /\ qcontents c (l_st s) [].
  Proof using Htag.
    intros (s & x & thr & s' & Hc & Hs). pose proof (qlcall_window _ _ _ _ Hc) as Hw.
    destruct (lstep_ret _ _ _ _ _ _ _ _ _ _ _ t n Hs) as [Hl _]; [left|]. by rewrite Hl in Hw.
  Qed.

  (** ** Nothing is lost *)

  Definition popval (e : qevent) : option val :=
    match e with Res _ (RPop (Some v)) => Some v | _ => None end.

  Lemma completed_popval nb ct l ph a :
    lruns (qspec nb ct) ∅ [] l ph a ->
    omap takes (completed (erase l)) = omap popval (erase l) /\
    (forall t o r, ph !! t = Some (Done o r) -> exists a1 a2, qspec nb ct a1 o r a2).
  Proof.
    induction 1 as [|l ph a t o Hr [IH1 IH2] Hn|l ph a t o r a' Hr [IH1 IH2] Hp Hs|l ph a t o r Hr [IH1 IH2] Hd].
    - split; [done|]. intros t o r. by rewrite lookup_empty.
    - rewrite erase_app. cbn [erase]. unfold completed in *. rewrite calls_snoc, omap_app. cbn. rewrite app_nil_r.
      split; [done|]. intros t' o' r'. destruct (decide (t = t')) as [->|Hne];
        [by rewrite lookup_insert|rewrite lookup_insert_ne by done; apply IH2].
    - rewrite erase_app. cbn [erase]. rewrite app_nil_r. split; [done|].
      intros t' o' r'. destruct (decide (t = t')) as [->|Hne].
      + rewrite lookup_insert. intros H. injection H as <- <-. eauto.
      + rewrite lookup_insert_ne by done. apply IH2.
    - destruct (lruns_completed _ _ _ _ _ Hr) as [Hph _]. rewrite erase_app. cbn [erase].
      unfold completed in *. rewrite calls_snoc, !omap_app. cbn [completed_step].
      assert (Ho : (calls (erase l)).1 !! t = Some o).
      { rewrite Hph, lookup_fmap, Hd. done. }
      rewrite Ho. cbn [snd]. rewrite omap_app, IH1. split.
      + f_equal. destruct (IH2 _ _ _ Hd) as (a1 & a2 & Hsp). by inversion Hsp.
      + intros t' o' r'. destruct (decide (t = t')) as [->|Hne];
          [by rewrite lookup_delete|rewrite lookup_delete_ne by done; apply IH2].
  Qed.

  (** Values that a consume_all has popped and not yet passed to the functor. *)
  Definition hold1 (p : lpc val) : list val := match p with LFun _ v => [v] | _ => [] end.
  Definition held (m : gmap nat (lpc val)) : list val := concat (hold1 <$> (map_to_list m).*2).

  Lemma held_fresh m t p : m !! t = None -> held (<[t := p]> m) ≡ₚ hold1 p ++ held m.
  Proof. intros H. unfold held. rewrite map_to_list_insert by done. done. Qed.
  Lemma held_delete m t p : m !! t = Some p -> held m ≡ₚ hold1 p ++ held (delete t m).
  Proof. intros H. rewrite <- (insert_delete m t p H) at 1. apply held_fresh. apply lookup_delete. Qed.
  Lemma held_update m t p p' : m !! t = Some p -> hold1 p ++ held (<[t := p']> m) ≡ₚ hold1 p' ++ held m.
  Proof.
    intros H. rewrite <- insert_delete_insert, held_fresh by apply lookup_delete.
    rewrite (held_delete m t p H). rewrite !app_assoc. by rewrite (Permutation_app_comm (hold1 p)).
  Qed.

  Lemma received_own (evs : list qevent) : omap received (Own <$> evs) = omap popval evs.
  Proof.
    induction evs as [|e evs IH]; [done|]. rewrite fmap_cons.
    change (omap received (Own e :: (Own <$> evs))) with
      (match received (Own e) with Some y => y :: omap received (Own <$> evs) | None => omap received (Own <$> evs) end).
    change (omap popval (e :: evs)) with
      (match popval e with Some y => y :: omap popval evs | None => omap popval evs end).
    rewrite IH. destruct e as [|t [|[]| |]]; done.
  Qed.

  Lemma ql_held s0 tr s :
    l_in s0 = ∅ -> lok s0 -> qlexec c s0 tr s ->
    omap popval (omap below tr) ≡ₚ omap received tr ++ held (l_in s).
  Proof.
    intros H0 Hl0 H. induction H as [|tr s x s' evs He IH Hs].
    { rewrite H0. unfold held. by rewrite map_to_list_empty. }
    pose proof (lok_exec _ _ _ Hl0 He) as HL.
    rewrite !omap_app, IH, <- app_assoc. rewrite <- app_assoc. f_equiv. clear IH.
    unfold qlstep in Hs. destruct x as [y|u|u y thr]; cbn [lstep] in Hs.
    - case_decide; [|done]. destruct (qbelow c (l_st s) y) as [b bevs| |]; [|done|done]. injection Hs as <- <-.
      cbn [l_in]. rewrite below_own, received_own. by rewrite Permutation_app_comm.
    - case_decide as Hd; [|done]. injection Hs as <- <-. unfold lset. cbn [l_in].
      rewrite held_fresh by apply Hd. cbn. by rewrite app_nil_r.
    - destruct (l_in s !! u) as [[n|n|n v|n]|] eqn:Ep; [..|done].
      + destruct (qbelow c (l_st s) (Invoke u Pop false)) as [b bevs| |] eqn:E; [|done|done].
        injection Hs as <- <-. apply q_inv in E as ->. cbn [l_in].
        pose proof (held_update _ _ _ (LPop n) Ep) as Hu. cbn in *. by rewrite Hu, app_nil_r.
      + case_decide as Hd; [|done]. destruct Hd as [Hw Hu]. destruct (HL _ _ Ep) as (pc & Hpc & Hpp).
        destruct (qbelow c (l_st s) y) as [b bevs| |] eqn:E; [|done|done]. apply qbelow_next in E.
        destruct (qstep_pop _ _ _ _ _ _ E Hw Hu Hpc Hpp) as [[-> _]|(r & -> & Hno & Hrr)].
        * injection Hs as <- <-. cbn. by rewrite app_nil_r.
        * destruct Hrr as [->|[r' ->]].
          { cbn [qgot] in Hs. injection Hs as <- <-. cbn [l_in]. pose proof (held_delete _ _ _ Ep) as Hu'.
            cbn in *. by rewrite Hu', app_nil_r. }
          destruct r' as [v|]; cbn [qgot] in Hs; injection Hs as <- <-; cbn [l_in].
          -- pose proof (held_update _ _ _ (LFun n v) Ep) as Hu'. cbn in *. rewrite Hu'.
             by rewrite Permutation_app_comm.
          -- pose proof (held_update _ _ _ (LEnd n) Ep) as Hu'. cbn in *. by rewrite Hu', app_nil_r.
      + destruct thr; injection Hs as <- <-; unfold lset; cbn [l_in].
        * pose proof (held_delete _ _ _ Ep) as Hu. cbn in *. by rewrite Hu, app_nil_r.
        * pose proof (held_update _ _ _ (LTest (S n)) Ep) as Hu. cbn in *. by rewrite Hu, app_nil_r.
      + injection Hs as <- <-. cbn [l_in]. pose proof (held_delete _ _ _ Ep) as Hu. cbn in *. by rewrite Hu, app_nil_r.
  Qed.

  Lemma ql_conserve ns tr s :
    qlreach c ns tr s -> qlquiescent s ->
    exists a, qcontents c (l_st s) a /\
      omap puts (completed (omap below tr)) ≡ₚ omap received tr ++ a.
  Proof using Htag.
    intros H [Hq Hin]. pose proof (qlreach_below _ _ _ H) as Hr.
    destruct (conserve_quiet_main c Htag _ _ _ Hr Hq) as (a & Ha & Hp). exists a. split; [done|].
    rewrite Hp. f_equiv. destruct (linearizable_main c Htag _ _ _ Hr) as [_ (l & ph & a' & Hl & Her & _)].
    destruct (completed_popval _ _ _ _ _ Hl) as [Hpv _]. rewrite Her in Hpv. rewrite Hpv.
    destruct H as (addr & s0 & _ & _ & _ & _ & H).
    rewrite (ql_held (LSt s0 ∅) tr s eq_refl (lok_init s0) H), Hin. unfold held. rewrite map_to_list_empty. cbn.
    by rewrite app_nil_r.
  Qed.

  (** ** Without other calls *)

  Lemma qlexec_trans s0 tr s tr' s' : qlexec c s0 tr s -> qlexec c s tr' s' -> qlexec c s0 (tr ++ tr') s'.
  Proof.
    intros H. induction 1 as [|tr' s' x s'' evs H' IH Hs]; [by rewrite app_nil_r|].
    rewrite app_assoc. by econstructor.
  Qed.
  Lemma qlexec_one s x s' evs : qlstep c s x = BNext s' evs -> qlexec c s evs s'.
  Proof. intros H. change evs with ([] ++ evs). by econstructor; [constructor|]. Qed.

  (** The steps of a thread inside pop. *)
  Lemma ql_steps t n k : forall b h b' in_,
    in_ !! t = Some (LPop n) -> qrun c b (replicate k (Run t false None false)) = Some (h, b') ->
    forall r, h = [Res t (RPop r)] -> (forall pc, q_pcs b !! t = Some pc -> pop_pc pc) ->
    q_pcs b' !! t = None ->
    qlexec c (LSt b in_) [Sub (Res t (RPop r))]
      (LSt b' (<[t := match r with Some v => LFun n v | None => LEnd n end]> in_)).
  Proof.
    induction k as [|k IH]; intros b h b' in_ Hin Hrun r Hh Hpc Hb'.
    { cbn in Hrun. injection Hrun as <- <-. done. }
    cbn [replicate qrun] in Hrun. destruct (qstep c b (Run t false None false)) as [b1 evs| |] eqn:E; [|done|done].
    destruct (qrun c b1 (replicate k (Run t false None false))) as [[h1 b2]|] eqn:E1; [|done].
    injection Hrun as <- <-.
    destruct (q_pcs b !! t) as [pc|] eqn:Ept; [|cbn [qstep] in E; by rewrite Ept in E].
    destruct (qstep_pop _ _ _ _ t pc E eq_refl eq_refl Ept (Hpc _ eq_refl)) as [[-> (pc' & Hpc' & Hpp')]|(r' & -> & Hno & _)].
    - eapply (qlexec_trans _ [] _ [Sub (Res t (RPop r))]).
      + eapply (qlexec_one _ (LGo t (Run t false None false) false)). unfold qlstep. cbn [lstep l_in].
        rewrite Hin. cbn [qwho qunsync]. rewrite decide_True by done. unfold qbelow. cbn [l_st]. rewrite E. done.
      + cbn [app] in Hh. eapply (IH _ _ _ _ Hin E1 r Hh); [|done]. intros pc0. rewrite Hpc'. intros H. by injection H as <-.
    - (* nothing can follow the return *)
      cbn [app] in Hh. injection Hh as Hr Hh1. subst r' h1.
      assert (Hb2 : b2 = b1).
      { destruct k as [|k]; [cbn in E1; by injection E1|]. cbn [replicate qrun qstep] in E1. by rewrite Hno in E1. }
      subst b2. eapply (qlexec_one _ (LGo t (Run t false None false) false)). unfold qlstep. cbn [lstep l_in].
      rewrite Hin. cbn [qwho qunsync]. rewrite decide_True by done. unfold qbelow. cbn [l_st]. rewrite E.
      destruct r as [v|]; done.
  Qed.

  (** One pop of a consume_all without other calls. *)
  Lemma ql_pop_run b r t n k b' :
    quiescent b -> quiescent b' ->
    qrun c b (Invoke t Pop false :: replicate k (Run t false None false)) = Some ([Inv t Pop; Res t (RPop r)], b') ->
    qlexec c (LSt b {[t := LTest n]}) [Sub (Inv t Pop); Sub (Res t (RPop r))]
      (LSt b' {[t := match r with Some v => LFun n v | None => LEnd n end]}).
  Proof.
    intros Hq Hq' Hrun.
    cbn [qrun] in Hrun. destruct (qstep c b (Invoke t Pop false)) as [b1 evs| |] eqn:E; [|done|done].
    destruct (qrun c b1 (replicate k (Run t false None false))) as [[h1 b2]|] eqn:E1; [|done].
    injection Hrun as Hh Hb2. subst b2.
    assert (Hev : evs = [Inv t Pop]). { apply (q_inv b t b1). unfold qbelow. by rewrite E. }
    subst evs. cbn [app] in Hh. injection Hh as Hh1.
    eapply (qlexec_trans _ [Sub (Inv t Pop)] _ [Sub (Res t (RPop r))]).
    - eapply (qlexec_one _ (LGo t (Run t false None false) false)). unfold qlstep. cbn [lstep l_in].
      rewrite lookup_singleton. unfold qbelow. cbn [l_st]. rewrite E. reflexivity.
    - replace ({[t := match r with Some v => LFun n v | None => LEnd n end]} : gmap nat (lpc val)) with
        (<[t := match r with Some v => LFun n v | None => LEnd n end]> (<[t := LPop n]> ({[t := LTest n]} : gmap nat (lpc val))))
        by (rewrite insert_insert; apply insert_singleton).
      eapply ql_steps; [by rewrite lookup_insert|exact E1|exact Hh1| |].
      + intros pc. cbn [qstep qstart] in E. unfold quiescent in Hq. rewrite Hq, lookup_empty in E.
        injection E as <-. unfold set_pc. cbn [q_pcs]. rewrite lookup_insert. intros H. by injection H as <-.
      + unfold quiescent in Hq'. by rewrite Hq', lookup_empty.
  Qed.

  (** In the states [R], pops by one thread do what they should. *)
  Definition pops_alone (R : qstate -> Prop) : Prop :=
    forall b a t, R b -> quiescent b -> qcontents c b a ->
      exists k b', qrun c b (Invoke t Pop false :: replicate k (Run t false None false)) =
          Some ([Inv t Pop; Res t (RPop (head a))], b') /\
        quiescent b' /\ qcontents c b' (tail a) /\ R b'.
  (** ... and so do pushes to an empty queue. *)
  Definition pushes_alone (R : qstate -> Prop) (v : val) : Prop :=
    forall b t, R b -> quiescent b -> qcontents c b [] -> 2 <= size (q_heap (q_sh b)) ->
      exists k b', qrun c b (Invoke t (Push true v) false :: replicate k (Run t false None false)) =
          Some ([Inv t (Push true v); Res t (RBool true)], b') /\
        quiescent b' /\ qcontents c b' [v] /\ R b'.

  Definition reached (b : qstate) : Prop := exists ns hist, qreach c ns hist b.

  Lemma pops_reached : pops_alone reached.
  Proof using Htag.
    intros b a t (ns & hist & Hr) Hq Ha.
    destruct (pop_quiet_main c Htag _ _ _ _ t false Hr Hq Ha) as (k & b' & Hrun & Hq' & Ha').
    exists k, b'. do 3 (split; [done|]). exists ns. eexists. eapply qreach_ext; [exact Hr|]. by eapply qrun_exec.
  Qed.

  Lemma pushes_reached v : c_throws c = false -> length v = c_words c -> pushes_alone reached v.
  Proof using Htag.
    intros Hth Hv b t (ns & hist & Hr) Hq Ha Hm.
    destruct (push_quiet_main c Htag ns hist b [] t true v false Hth Hr Hq Ha Hv (or_intror eq_refl))
      as (j & b1 & Hrun & Hq1 & Ha1). cbn [length] in Hrun, Ha1.
    rewrite bool_decide_eq_true_2 in Hrun by lia. rewrite decide_True in Ha1 by lia. cbn [app] in Ha1.
    exists j, b1. do 3 (split; [done|]). exists ns. eexists. eapply qreach_ext; [exact Hr|]. by eapply qrun_exec.
  Qed.

  Lemma ql_alone_loop R t a : pops_alone R -> forall b n,
    R b -> quiescent b -> qcontents c b a ->
    exists b', quiescent b' /\ qcontents c b' [] /\
      qlexec c (LSt b {[t := LTest n]})
        (rounds Pop (fun v => RPop (Some v)) t a ++ last_round Pop (RPop None) t ++ [AllRet t (n + length a)])
        (LSt b' ∅).
  Proof.
    intros HR. induction a as [|v a IH]; intros b n Hr Hq Ha;
      destruct (HR _ _ t Hr Hq Ha) as (k & b' & Hrun & Hq' & Ha' & Hr'); cbn [head tail] in *;
      pose proof (ql_pop_run _ _ _ n _ _ Hq Hq' Hrun) as He; cbn match in He.
    - exists b'. split; [done|]. split; [done|]. cbn [rounds]. unfold rounds. cbn [fmap list_fmap concat app length].
      eapply (qlexec_trans _ [Sub (Inv t Pop); Sub (Res t (RPop None))]); [exact He|].
      replace (∅ : gmap nat (lpc val)) with (delete t ({[t := LEnd n]} : gmap nat (lpc val)))
        by apply delete_singleton.
      eapply (qlexec_one _ (LGo t (Run t false None false) false)). unfold qlstep. cbn [lstep l_in].
      rewrite lookup_singleton. by rewrite Nat.add_0_r.
    - destruct (IH _ (S n) Hr' Hq' Ha') as (b2 & Hq2 & Ha2 & He2). exists b2. split; [done|]. split; [done|].
      eapply (qlexec_trans _ [Sub (Inv t Pop); Sub (Res t (RPop (Some v)))]); [exact He|].
      eapply (qlexec_trans _ [AllApply t v]).
      + eapply (qlexec_one _ (LGo t (Run t false None false) false)). unfold qlstep. cbn [lstep l_in].
        rewrite lookup_singleton. reflexivity.
      + unfold lset. cbn [l_st l_in]. rewrite insert_singleton. cbn [length].
        replace (n + S (length a)) with (S n + length a) by lia. exact He2.
  Qed.

  Lemma ql_alone_from R s a t :
    pops_alone R -> R (l_st s) -> qlquiescent s -> qcontents c (l_st s) a ->
    exists s', qlquiescent s' /\ qcontents c (l_st s') [] /\
      qlexec c s ([AllCall t] ++ rounds Pop (fun v => RPop (Some v)) t a ++ last_round Pop (RPop None) t ++
        [AllRet t (length a)]) s'.
  Proof.
    intros HR H [Hq Hin] Ha. destruct s as [b m]. cbn [l_st l_in] in *. subst m.
    destruct (ql_alone_loop R t a HR b 0 H Hq Ha) as (b' & Hq' & Ha' & He).
    exists (LSt b' ∅). split; [done|]. split; [done|]. eapply qlexec_trans; [|exact He].
    eapply (qlexec_one _ (LCall t)). unfold qlstep. cbn [lstep l_in l_st].
    rewrite decide_True; [done|]. split; [apply lookup_empty|]. unfold qbusy. rewrite Hq, lookup_empty.
    apply bool_decide_eq_false. by intros [? ?].
  Qed.

  Lemma ql_alone ns tr s a t :
    qlreach c ns tr s -> qlquiescent s -> qcontents c (l_st s) a ->
    exists s', qlquiescent s' /\ qcontents c (l_st s') [] /\
      qlexec c s ([AllCall t] ++ rounds Pop (fun v => RPop (Some v)) t a ++ last_round Pop (RPop None) t ++
        [AllRet t (length a)]) s'.
  Proof using Htag.
    intros H. apply (ql_alone_from reached); [apply pops_reached|]. exists ns. eexists. by apply qlreach_below.
  Qed.

  (** ** A call need not end *)

  Lemma qlexec_own (t : nat) chs : forall b h b' in_,
    in_ !! t = None -> Forall (fun x => qwho x = t /\ qunsync x = false) chs -> qrun c b chs = Some (h, b') ->
    qlexec c (LSt b in_) (Own <$> h) (LSt b' in_).
  Proof.
    induction chs as [|x chs IH]; intros b h b' in_ Hin HF Hrun; cbn [qrun] in Hrun.
    - injection Hrun as <- <-. constructor.
    - destruct (qstep c b x) as [b1 evs| |] eqn:E; [|done|done].
      destruct (qrun c b1 chs) as [[h1 b2]|] eqn:E1; [|done]. injection Hrun as <- <-.
      apply Forall_cons_1 in HF as [[Hw Hu] HF]. rewrite fmap_app.
      eapply qlexec_trans; [|by eapply IH]. eapply (qlexec_one _ (LOwn x)). unfold qlstep. cbn [lstep l_in l_st].
      rewrite decide_True by (by rewrite Hw, Hu). unfold qbelow. by rewrite E.
  Qed.

  Lemma ql_unbounded_loop R t u v k : t <> u -> pops_alone R -> pushes_alone R v ->
    forall b n, R b -> quiescent b -> qcontents c b [] -> 2 <= size (q_heap (q_sh b)) ->
    exists tr b', quiescent b' /\ qcontents c b' [] /\
      qlexec c (LSt b {[t := LTest n]}) tr (LSt b' {[t := LTest (n + k)]}) /\
      of_thread t tr = rounds Pop (fun v => RPop (Some v)) t (replicate k v) /\
      of_thread u tr = concat (replicate k [Own (Inv u (Push true v)); Own (Res u (RBool true))]).
  Proof.
    intros Hne HR HP. induction k as [|k IH]; intros b n Hr Hq Ha Hm.
    { exists [], b. rewrite Nat.add_0_r. split; [done|]. split; [done|]. split; [constructor|]. done. }
    destruct (HP _ u Hr Hq Ha Hm) as (j & b1 & Hrun & Hq1 & Ha1 & Hr1).
    assert (He1 : qexec c b [Inv u (Push true v); Res u (RBool true)] b1) by (by eapply qrun_exec).
    destruct (HR _ _ t Hr1 Hq1 Ha1) as (j2 & b2 & Hrun2 & Hq2 & Ha2 & Hr2). cbn [head tail] in *.
    pose proof (ql_pop_run _ _ _ n _ _ Hq1 Hq2 Hrun2) as He2. cbn match in He2.
    assert (Hm2 : 2 <= size (q_heap (q_sh b2))).
    { assert (Hd : dom (q_heap (q_sh b)) ⊆ dom (q_heap (q_sh b2))).
      { etrans; [by eapply qexec_dom|]. eapply qexec_dom, qbelow_exec. apply lexec_below in He2. exact He2. }
      apply subseteq_size in Hd. rewrite !size_dom in Hd. lia. }
    destruct (IH b2 (S n) Hr2 Hq2 Ha2 Hm2) as (tr & b3 & Hq3 & Ha3 & He3 & Ht & Hu).
    exists ([Own (Inv u (Push true v)); Own (Res u (RBool true))] ++
      [Sub (Inv t Pop); Sub (Res t (RPop (Some v)))] ++ [AllApply t v] ++ tr), b3.
    split; [done|]. split; [done|]. split.
    - eapply qlexec_trans.
      { eapply (qlexec_own u (Invoke u (Push true v) false :: replicate j (Run u false None false))
          _ [Inv u (Push true v); Res u (RBool true)]); [by rewrite lookup_singleton_ne| |exact Hrun].
        constructor; [done|]. apply list.Forall_forall. intros x Hx. by apply elem_of_replicate in Hx as [-> _]. }
      eapply qlexec_trans; [exact He2|]. eapply (qlexec_trans _ [AllApply t v]).
      + eapply (qlexec_one _ (LGo t (Run t false None false) false)). unfold qlstep. cbn [lstep l_in].
        rewrite lookup_singleton. reflexivity.
      + unfold lset. cbn [l_st l_in]. rewrite insert_singleton. replace (n + S k) with (S n + k) by lia. exact He3.
    - unfold of_thread in *. rewrite !list.filter_app, Ht, Hu. split.
      + cbn [filter list_filter tev_thread ev_thread]. rewrite !decide_False by done. rewrite !decide_True by done. done.
      + cbn [filter list_filter tev_thread ev_thread]. rewrite !decide_True by done. rewrite !decide_False by done. done.
  Qed.

  Lemma ql_unbounded_from R s t u v k :
    t <> u -> pops_alone R -> pushes_alone R v ->
    R (l_st s) -> qlquiescent s -> qcontents c (l_st s) [] -> 2 <= size (q_heap (q_sh (l_st s))) ->
    exists tr' s', qlexec c s (AllCall t :: tr') s' /\ is_Some (l_in s' !! t) /\
      of_thread t tr' = rounds Pop (fun v => RPop (Some v)) t (replicate k v) /\
      of_thread u tr' = concat (replicate k [Own (Inv u (Push true v)); Own (Res u (RBool true))]).
  Proof.
    intros Hne HR HP H [Hq Hin] Ha Hm. destruct s as [b m]. cbn [l_st l_in] in *. subst m.
    destruct (ql_unbounded_loop R t u v k Hne HR HP b 0 H Hq Ha Hm) as (tr' & b' & _ & _ & He & Ht & Hu).
    exists tr', (LSt b' {[t := LTest (0 + k)]}). split; [|split; [by eexists; apply lookup_singleton|done]].
    eapply (qlexec_trans _ [AllCall t]); [|exact He]. eapply (qlexec_one _ (LCall t)). unfold qlstep. cbn [lstep l_in l_st].
    rewrite decide_True; [done|]. split; [apply lookup_empty|]. unfold qbusy. rewrite Hq, lookup_empty.
    apply bool_decide_eq_false. by intros [? ?].
  Qed.

  Lemma ql_unbounded ns tr s t u v k :
    t <> u -> c_throws c = false -> length v = c_words c ->
    qlreach c ns tr s -> qlquiescent s -> qcontents c (l_st s) [] -> 2 <= size (q_heap (q_sh (l_st s))) ->
    exists tr' s', qlexec c s (AllCall t :: tr') s' /\ is_Some (l_in s' !! t) /\
      of_thread t tr' = rounds Pop (fun v => RPop (Some v)) t (replicate k v) /\
      of_thread u tr' = concat (replicate k [Own (Inv u (Push true v)); Own (Res u (RBool true))]).
  Proof using Htag.
    intros Hne Hth Hv H. apply (ql_unbounded_from reached); [done|apply pops_reached|by apply pushes_reached|].
    exists ns. eexists. by apply qlreach_below.
  Qed.
End queue.
