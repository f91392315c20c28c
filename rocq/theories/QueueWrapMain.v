(** * The queue properties with tags that wrap around, within one tag period *)
From stdpp Require Import gmap list numbers.
From Verif Require Import Lin LinObs LiveSum PoolModel Chain PoolProofs QueueModel QueueSpec QueueObs QueueInv QueueStep
  QueueSafe QueueQuiet QueueSolo QueueDemo QueueMain QueueLive QueueWrapObs WrapPool QueueWrap.

Set Default Proof Using "Type".

(** ** What can be observed does not depend on tags *)
Section same.
  Context (c : cfg) (M : N).
  Notation c0 := (nowrap c).

  Lemma chain_mod h p a : chain c (mheap M h) p a <-> chain c0 h p a.
  Proof.
    split.
    - remember (mheap M h) as h' eqn:Hh. induction 1 as [|p nd a Hp Hl _ IH].
      + exact (chain_end c0 h).
      + subst h'. rewrite mheap_lookup in Hl. apply fmap_Some in Hl as (nd0 & Hl & ->).
        apply (chain_node c0 h p nd0 a Hp Hl). by apply IH.
    - induction 1 as [|p nd a Hp Hl _ IH].
      + exact (chain_end c (mheap M h)).
      + apply (chain_node c (mheap M h) p (mnode M nd) a Hp); [by rewrite mheap_lookup, Hl|done].
  Qed.

  Lemma nodes_mod h p l : nodes c (mheap M h) p l <-> nodes c0 h p l.
  Proof.
    split.
    - remember (mheap M h) as h' eqn:Hh. induction 1 as [|p nd a Hp Hl _ IH].
      + exact (nodes_end c0 h).
      + subst h'. rewrite mheap_lookup in Hl. apply fmap_Some in Hl as (nd0 & Hl & ->).
        apply (nodes_node c0 h p nd0 a Hp Hl). by apply IH.
    - induction 1 as [|p nd a Hp Hl _ IH].
      + exact (nodes_end c (mheap M h)).
      + apply (nodes_node c (mheap M h) p (mnode M nd) a Hp); [by rewrite mheap_lookup, Hl|done].
  Qed.

  Lemma mstate_heap s : q_heap (q_sh (mstate M s)) = mheap M (q_heap (q_sh s)).
  Proof. done. Qed.

  Lemma heap_is_Some s n :
    is_Some (q_heap (q_sh (mstate M s)) !! n) <-> is_Some (q_heap (q_sh s) !! n).
  Proof. by rewrite mstate_heap, mheap_lookup, fmap_is_Some. Qed.

  Lemma heap_size s : size (q_heap (q_sh (mstate M s))) = size (q_heap (q_sh s)).
  Proof. rewrite mstate_heap. apply mheap_size. Qed.

  Lemma contents_mod s a : qcontents c (mstate M s) a <-> qcontents c0 s a.
  Proof.
    unfold qcontents. split; intros (nd & H1 & H2).
    - rewrite mstate_heap, mheap_lookup in H1. apply fmap_Some in H1 as (nd0 & H1 & ->). exists nd0.
      split; [exact H1|]. by apply chain_mod.
    - exists (mnode M nd). split; [rewrite mstate_heap, mheap_lookup; cbn [mstate q_sh mshared q_head mt fst]; by rewrite H1|].
      by apply chain_mod.
  Qed.

  Lemma holds_mod pc : holds (mpc M pc) = holds pc.
  Proof. by destruct pc. Qed.

  Lemma exhausted_mod s : exhausted c0 s -> exhausted c (mstate M s).
  Proof.
    intros (H1 & l & H2 & H3). split; [exact H1|]. exists l. split; [by apply nodes_mod|].
    intros n Hn. apply (heap_is_Some s) in Hn. destruct (H3 n Hn) as [?|(t & pc & Hpc & Hh)]; [by left|right].
    exists t, (mpc M pc). simpl. by rewrite lookup_fmap, Hpc, holds_mod.
  Qed.

  Lemma quiescent_mod s : quiescent (mstate M s) <-> quiescent s.
  Proof. unfold quiescent. simpl. apply fmap_empty_iff. Qed.

  Lemma work_mod pc : q_work (mpc M pc) = q_work pc.
  Proof. by destruct pc. Qed.
End same.

(** ** A thread running alone *)
Section solo.
  Context (c : cfg) (M : N) (Hc : c_tagmod c = Some M) (HM : (2 <= M)%N).
  Notation c0 := (nowrap c).

  Definition exact_held (x : qshared) (pc : qpc) : Prop := forall l y, (l, y) ∈ held pc -> y.2 = xtag x l.

  Lemma tstep_exact x pc sp addr thr x' pc' :
    exact_held x pc -> tstep c0 x pc sp addr thr = TGo x' pc' -> exact_held x' pc'.
  Proof.
    intros He Hs. destruct x as [h p hd0 tl0].
    destruct pc as [b v a|v n k|n tag|n|n tl|n tl nx'|n tl nx'|n tl|n tl np| |hd|hd tl|hd tl nx'|tl np
                   |hd np acc|n d k|[|k]| |hh| |tl|r]; cbn [tstep q_heap q_pool q_head q_tail] in Hs;
      unfold exact_held in *; cbn [held] in *.
    - destruct a as [|old|old nxt]; cbn [astep] in Hs; cbn [held] in He.
      + injection Hs as <- <-. cbn [held]. intros l y Hin. apply elem_of_list_singleton in Hin as [= -> ->]. done.
      + destruct (decide _).
        * destruct (_ && _); [destruct addr as [n|]; [destruct (decide _)|]|];
            try discriminate Hs; injection Hs as <- <-; intros l y Hin; by apply elem_of_nil in Hin.
        * destruct (h !! old.1) as [nd|]; [|discriminate Hs]. injection Hs as <- <-. exact He.
      + destruct (decide _) as [[_ ->]|].
        * injection Hs as <- <-. intros l y Hin. by apply elem_of_nil in Hin.
        * injection Hs as <- <-. cbn [held]. intros l y Hin. apply elem_of_list_singleton in Hin as [= -> ->]. done.
    - destruct (h !! n) as [nd|] eqn:Hn; [|discriminate Hs].
      destruct thr; [destruct (c_throws c0); [|discriminate Hs]; injection Hs as <- <-;
                     intros l y Hin; by apply elem_of_nil in Hin|].
      destruct (v !! k); injection Hs as <- <-; intros l y Hin; by apply elem_of_nil in Hin.
    - destruct (h !! n); [|discriminate Hs]. injection Hs as <- <-. intros l y Hin. by apply elem_of_nil in Hin.
    - injection Hs as <- <-. cbn [held]. intros l y Hin. apply elem_of_list_singleton in Hin as [= -> ->]. done.
    - destruct (h !! tl.1) as [nd|] eqn:Hn; [|discriminate Hs]. injection Hs as <- <-.
      cbn [held]. intros l y Hin.
      apply elem_of_cons in Hin as [[= -> ->]|Hin]; [apply He; by left|].
      apply elem_of_list_singleton in Hin as [= -> ->]. simpl. by rewrite Hn.
    - repeat destruct (decide _); injection Hs as <- <-; cbn [held]; intros l y Hin;
        first [by apply elem_of_nil in Hin | apply He; exact Hin
              | apply He; apply elem_of_list_singleton in Hin as [= -> ->]; by left].
    - destruct (h !! tl.1) as [nd|] eqn:Hn; [|discriminate Hs].
      destruct (decide _) as [[_ Hx]|]; injection Hs as <- <-; cbn [held]; intros l y Hin.
      + apply elem_of_list_singleton in Hin as [= -> ->]. apply (He LTail). by left.
      + by apply elem_of_nil in Hin.
    - injection Hs as <- <-. intros l y Hin. by apply elem_of_nil in Hin.
    - injection Hs as <- <-. intros l y Hin. by apply elem_of_nil in Hin.
    - injection Hs as <- <-. cbn [held]. intros l y Hin. apply elem_of_list_singleton in Hin as [= -> ->]. done.
    - injection Hs as <- <-. cbn [held]. intros l y Hin.
      apply elem_of_cons in Hin as [[= -> ->]|Hin]; [apply He; by left|].
      apply elem_of_list_singleton in Hin as [= -> ->]. done.
    - destruct (h !! hd.1) as [nd|] eqn:Hn; [|discriminate Hs]. injection Hs as <- <-. exact He.
    - repeat destruct (decide _); injection Hs as <- <-; cbn [held]; intros l y Hin;
        first [by apply elem_of_nil in Hin
              | apply elem_of_list_singleton in Hin as [= -> ->];
                first [apply (He LHead); by left | apply (He LTail); by right; left]].
    - injection Hs as <- <-. intros l y Hin. by apply elem_of_nil in Hin.
    - destruct thr.
      { destruct (c_throws _); [|discriminate Hs]. injection Hs as <- <-. intros l y Hin. by apply elem_of_nil in Hin. }
      destruct (decide (length acc < c_words c0)).
      + destruct (h !! np) as [nd|]; [|discriminate Hs]. destruct (dat nd !! _); [|discriminate Hs].
        injection Hs as <- <-. exact He.
      + destruct (decide _) as [[_ Hx]|]; injection Hs as <- <-; intros l y Hin; by apply elem_of_nil in Hin.
    - destruct d as [|old|old]; cbn [dstep] in Hs; cbn [held] in He.
      + injection Hs as <- <-. cbn [held]. intros l y Hin. apply elem_of_list_singleton in Hin as [= -> ->]. done.
      + destruct (h !! n) as [nd|] eqn:Hn; [|discriminate Hs]. injection Hs as <- <-. cbn [held].
        intros l y Hin. apply elem_of_list_singleton in Hin as [= -> ->]. apply (He LPool). by left.
      + destruct (decide _) as [[_ Hx]|]; injection Hs as <- <-.
        * destruct k; intros l y Hin; by apply elem_of_nil in Hin.
        * cbn [held]. intros l y Hin. apply elem_of_list_singleton in Hin as [= -> ->]. done.
    - injection Hs as <- <-. intros l y Hin. by apply elem_of_nil in Hin.
    - destruct addr as [n|]; [destruct (decide _)|]; try discriminate Hs; injection Hs as <- <-;
        intros l y Hin; by apply elem_of_nil in Hin.
    - injection Hs as <- <-. intros l y Hin. by apply elem_of_nil in Hin.
    - injection Hs as <- <-. intros l y Hin.
      repeat (case_match; simpl in Hin); by apply elem_of_nil in Hin.
    - injection Hs as <- <-. intros l y Hin. by apply elem_of_nil in Hin.
    - injection Hs as <- <-. intros l y Hin.
      repeat (case_match; simpl in Hin); by apply elem_of_nil in Hin.
    - discriminate Hs.
  Qed.

  Definition by_thread (t : nat) (ch : qchoice) : Prop :=
    match ch with Invoke t' _ _ | Run t' _ _ _ | Unsync t' _ _ _ => t' = t end.
  Definition alone (t : nat) (s : qstate) : Prop :=
    forall t' pc, q_pcs s !! t' = Some pc -> t' = t /\ exact_held (q_sh s) pc.

  Lemma alone_quiet t s : quiescent s -> alone t s.
  Proof. intros Hq t' pc Hpc. by rewrite Hq, lookup_empty in Hpc. Qed.

  Lemma alone_clear t s : alone t s -> sclear M s.
  Proof using HM.
    intros Ha t' pc Hpc l y Hin. destruct (Ha t' pc Hpc) as [_ He]. rewrite <- (He l y Hin). lia.
  Qed.

  Lemma alone_step t s ch s' evs :
    alone t s -> by_thread t ch -> qstep c0 s ch = QNext s' evs -> alone t s'.
  Proof.
    intros Ha Hb Hs t' pc' Hpc'.
    destruct ch as [t1 o tf|t1 sp addr thr|t1 o addrs thr]; cbn [by_thread] in Hb; subst t1; cbn [qstep] in Hs.
    - destruct (q_pcs s !! t) as [pc|] eqn:Hpc; [discriminate Hs|].
      destruct (qstart c0 o tf) as [pc|] eqn:Hst; [|discriminate Hs]. injection Hs as <- <-.
      simpl in Hpc'. apply lookup_insert_Some in Hpc' as [[<- <-]|[Hne Hpc']].
      + split; [done|]. intros l y Hin. rewrite (held_start c _ _ _ Hst) in Hin. by apply elem_of_nil in Hin.
      + exact (Ha t' pc' Hpc').
    - destruct (q_pcs s !! t) as [pc|] eqn:Hpc; [|discriminate Hs]. destruct (Ha t pc Hpc) as [_ He].
      assert (Hd : (exists r, pc = PcRet r) \/
        exists x pc1, tstep c0 (q_sh s) pc sp addr thr = TGo x pc1 /\
          s' = QSt x (<[t := pc1]> (q_pcs s))).
      { destruct pc; try (right; destruct (tstep c0 (q_sh s) _ _ _ _) as [x pc1| |]; [|discriminate Hs..];
          injection Hs as <- <-; by eauto). left. eauto. }
      destruct Hd as [[r ->]|(x & pc1 & Ht & ->)].
      + injection Hs as <- <-. simpl in Hpc'. apply lookup_delete_Some in Hpc' as [Hne Hpc'].
        exact (Ha t' pc' Hpc').
      + simpl in Hpc'. apply lookup_insert_Some in Hpc' as [[<- <-]|[Hne Hpc']].
        * split; [done|]. simpl. by eapply tstep_exact.
        * destruct (Ha t' pc' Hpc') as [-> _]. done.
    - destruct (decide _); [|discriminate Hs].
      destruct (ucall c0 _ _ _ _); [|discriminate Hs..]. injection Hs as <- <-. by simpl in Hpc'.
  Qed.

  Lemma solo_run t chs : forall s,
    Forall (by_thread t) chs -> alone t s ->
    qrun c (mstate M s) chs = (fun r => (r.1, mstate M r.2)) <$> qrun c0 s chs.
  Proof using Hc HM.
    induction chs as [|ch chs IH]; intros s HF Ha; [done|]. apply Forall_cons_1 in HF as [Hb HF].
    cbn [qrun]. rewrite (qstep_mod c M Hc ltac:(lia)) by (by eapply alone_clear).
    destruct (qstep c0 s ch) as [s' evs| |] eqn:Hs; [|done..]. cbn [mqout].
    rewrite (IH s' HF) by (by eapply alone_step). by destruct (qrun c0 s' chs) as [[h s'']|].
  Qed.

  Lemma solo_call t o tf k :
    Forall (by_thread t) (Invoke t o tf :: replicate k (Run t false None false)).
  Proof. constructor; [done|]. by apply Forall_replicate. Qed.
End solo.

(** The schedule of [push_many] consists of steps of one thread. *)
Section many.
  Context (c : cfg) (Htag : c_tagmod c = None).

  Lemma push_many_by ns t vs : forall hist s a,
    c_throws c = false -> qreach c ns hist s -> quiescent s -> qcontents c s a ->
    Forall (fun v => length v = c_words c) vs ->
    exists chs s', Forall (by_thread t) chs /\
      qrun c s chs = Some (push_hist t (size (q_heap (q_sh s))) (S (length a)) vs, s') /\
      quiescent s' /\ qcontents c s' (a ++ take (size (q_heap (q_sh s)) - S (length a)) vs).
  Proof using Htag.
    induction vs as [|v vs IH]; intros hist s a Hth H Hq Ha HF.
    - exists [], s. split; [done|]. split; [done|]. split; [done|]. by rewrite take_nil, app_nil_r.
    - apply Forall_cons_1 in HF as [Hv HF].
      destruct (push_quiet_main c Htag ns hist s a t true v false Hth H Hq Ha Hv (or_intror eq_refl))
        as (k & s1 & Hr & Hq1 & Ha1).
      set (m := size (q_heap (q_sh s))) in *.
      assert (He : qexec c s [Lin.Inv t (Push true v); Res t (RBool (bool_decide (S (length a) < m)))] s1)
        by (by eapply qrun_exec).
      assert (Hm : size (q_heap (q_sh s1)) = m).
      { edestruct (qexec_noalloc c s) as [Hd _]; [|exact He| |].
        - intros t' pc. by rewrite Hq, lookup_empty.
        - intros t' o Hin. repeat (apply elem_of_cons in Hin as [Hin|Hin]); [|done|by apply elem_of_nil in Hin].
          injection Hin as -> ->. simpl. by destruct (c_node_based c).
        - subst m. by rewrite <- !size_dom, Hd. }
      destruct (IH _ s1 _ Hth (qreach_ext _ _ _ _ _ _ H He) Hq1 Ha1 HF) as (chs & s' & Hby & Hr' & Hq' & Ha').
      rewrite Hm in Hr', Ha'.
      exists ((Invoke t (Push true v) false :: replicate k (Run t false None false)) ++ chs), s'.
      split; [apply Forall_app; split; [apply solo_call|done]|].
      split; [|split; [done|]].
      + erewrite qrun_app; [|exact Hr|exact Hr']. do 2 f_equal. unfold push_hist. rewrite imap_cons.
        cbn [concat]. rewrite Nat.add_0_r. f_equal. f_equal. apply imap_ext. intros i w _. simpl.
        do 4 f_equal. apply bool_decide_ext. destruct (decide _).
        * rewrite app_length. simpl. lia.
        * lia.
      + destruct (decide (S (length a) < m)) as [Hlt|Hge].
        * rewrite app_length in Ha'. simpl in Ha'.
          replace (m - S (length a)) with (S (m - S (length a + 1))) by lia. simpl.
          by rewrite <- app_assoc in Ha'.
        * replace (m - S (length a)) with 0 in * by lia. done.
  Qed.
End many.

(** ** The properties *)
Section main.
  Context (c : cfg) (M : N) (Hc : c_tagmod c = Some M) (HM : (2 <= M)%N).
  Notation c0 := (nowrap c).
  Notation spec := (qspec (c_node_based c) (c_throws c)).

  Lemma mod_run s s1 chs h t :
    Forall (by_thread t) chs -> quiescent s -> qrun c0 s chs = Some (h, s1) ->
    qrun c (mstate M s) chs = Some (h, mstate M s1).
  Proof using Hc HM.
    intros HF Hq Hr. rewrite (solo_run c M Hc HM t) by (try done; by apply alone_quiet). by rewrite Hr.
  Qed.

  Lemma w_linearizable ns hist s :
    qwreach c M ns hist s ->
    hw_linearizable [] spec hist /\
    exists l ph a, lruns spec ∅ [] l ph a /\ erase l = hist /\ qcontents c s a.
  Proof using Hc HM.
    intros H. destruct (wreach_sim c M Hc HM _ _ _ H) as (s0 & -> & Hre & _).
    destruct (linearizable_main c0 eq_refl _ _ _ Hre) as [H1 (l & ph & a & H2 & H3 & H4)].
    split; [exact H1|]. exists l, ph, a. split; [exact H2|]. split; [exact H3|]. by apply contents_mod.
  Qed.

  Lemma w_origin ns hist s h1 h2 t v :
    qwreach c M ns hist s -> hist = h1 ++ Res t (RPop (Some v)) :: h2 ->
    exists t' o, Lin.Inv t' o ∈ h1 /\ pushes o = Some v.
  Proof using Hc HM.
    intros H. destruct (wreach_sim c M Hc HM _ _ _ H) as (s0 & -> & Hre & _).
    by apply (origin_main c0 eq_refl ns hist s0).
  Qed.

  Lemma w_conserve ns hist s :
    qwreach c M ns hist s ->
    exists P T a, qcontents c s a /\ P = T ++ a /\
      omap puts (completed hist) ⊆+ P /\
      P ⊆+ omap puts (completed hist) ++ omap pushes (pending hist) /\
      omap takes (completed hist) ⊆+ T /\
      length T <= length (omap takes (completed hist)) +
                  length (filter (fun o => is_pop o = true) (pending hist)).
  Proof using Hc HM.
    intros H. destruct (wreach_sim c M Hc HM _ _ _ H) as (s0 & -> & Hre & _).
    destruct (conserve_main c0 eq_refl _ _ _ Hre) as (P & T & a & Ha & Hr). exists P, T, a.
    split; [by apply contents_mod|exact Hr].
  Qed.

  Lemma w_conserve_quiet ns hist s :
    qwreach c M ns hist s -> quiescent s ->
    exists a, qcontents c s a /\ omap puts (completed hist) ≡ₚ omap takes (completed hist) ++ a.
  Proof using Hc HM.
    intros H Hq. destruct (wreach_sim c M Hc HM _ _ _ H) as (s0 & -> & Hre & _). apply quiescent_mod in Hq.
    destruct (conserve_quiet_main c0 eq_refl _ _ _ Hre Hq) as (a & Ha & Hr). exists a.
    split; [by apply contents_mod|exact Hr].
  Qed.

  Lemma w_fifo ns hist s :
    qwreach c M ns hist s ->
    forall i1 j1 t1 o1 i2 t2 o2 k1 l1 s1 p1 k2 l2 s2 p2 v1 v2,
      v1 <> v2 ->
      (forall i t o, hist !! i = Some (Lin.Inv t o) -> pushes o = Some v1 -> i = i1) ->
      (forall i t o, hist !! i = Some (Lin.Inv t o) -> pushes o = Some v2 -> i = i2) ->
      call_returns hist i1 j1 t1 o1 (RBool true) -> pushes o1 = Some v1 ->
      hist !! i2 = Some (Lin.Inv t2 o2) -> pushes o2 = Some v2 -> j1 < i2 ->
      call_returns hist k1 l1 s1 p1 (RPop (Some v1)) -> is_pop p1 = true ->
      call_returns hist k2 l2 s2 p2 (RPop (Some v2)) -> is_pop p2 = true ->
      k1 <= l2.
  Proof using Hc HM.
    intros H. destruct (wreach_sim c M Hc HM _ _ _ H) as (s0 & -> & Hre & _).
    exact (fifo_main c0 eq_refl _ _ _ Hre).
  Qed.

  Lemma w_empty_quiet ns hist s a t tf :
    qwreach c M ns hist s -> quiescent s -> qcontents c s a ->
    qrun c s (Invoke t Empty tf :: replicate 3 (Run t false None false)) =
      Some ([Lin.Inv t Empty; Res t (RBool (bool_decide (a = [])))], s).
  Proof using Hc HM.
    intros H Hq Ha. destruct (wreach_sim c M Hc HM _ _ _ H) as (s0 & -> & Hre & _).
    apply quiescent_mod in Hq. apply contents_mod in Ha.
    apply (mod_run s0 s0 _ _ t); [apply solo_call|done|]. by eapply (empty_quiet_main c0 eq_refl).
  Qed.

  Lemma w_bounds ns hist s a :
    ns <> [] -> qwreach c M ns hist s -> (forall t o, Lin.Inv t o ∈ hist -> allocates c o = false) ->
    size (q_heap (q_sh s)) = length ns /\ (qcontents c s a -> S (length a) <= length ns).
  Proof using Hc HM.
    intros Hne H Hal. destruct (wreach_sim c M Hc HM _ _ _ H) as (s0 & -> & Hre & _).
    rewrite heap_size, contents_mod. exact (bounds_main c0 eq_refl ns hist s0 a Hne Hre Hal).
  Qed.

  Lemma w_push_quiet ns hist s a t b v tf :
    c_throws c = false -> qwreach c M ns hist s -> quiescent s -> qcontents c s a ->
    length v = c_words c -> c_node_based c = false \/ b = true ->
    exists k s', qrun c s (Invoke t (Push b v) tf :: replicate k (Run t false None false)) =
        Some ([Lin.Inv t (Push b v); Res t (RBool (bool_decide (S (length a) < size (q_heap (q_sh s)))))], s') /\
      quiescent s' /\
      qcontents c s' (if decide (S (length a) < size (q_heap (q_sh s))) then a ++ [v] else a).
  Proof using Hc HM.
    intros Hth H Hq Ha Hv Hb. destruct (wreach_sim c M Hc HM _ _ _ H) as (s0 & -> & Hre & _).
    apply quiescent_mod in Hq. apply contents_mod in Ha.
    destruct (push_quiet_main c0 eq_refl ns hist s0 a t b v tf Hth Hre Hq Ha Hv Hb) as (k & s' & Hr & Hq' & Ha').
    exists k, (mstate M s'). rewrite heap_size. split; [|split].
    - apply (mod_run s0 s' _ _ t); [apply solo_call|done|exact Hr].
    - by apply quiescent_mod.
    - by apply contents_mod.
  Qed.

  Lemma w_pop_quiet ns hist s a t tf :
    qwreach c M ns hist s -> quiescent s -> qcontents c s a ->
    exists k s', qrun c s (Invoke t Pop tf :: replicate k (Run t false None false)) =
        Some ([Lin.Inv t Pop; Res t (RPop (head a))], s') /\ quiescent s' /\ qcontents c s' (tail a).
  Proof using Hc HM.
    intros H Hq Ha. destruct (wreach_sim c M Hc HM _ _ _ H) as (s0 & -> & Hre & _).
    apply quiescent_mod in Hq. apply contents_mod in Ha.
    destruct (pop_quiet_main c0 eq_refl ns hist s0 a t tf Hre Hq Ha) as (k & s' & Hr & Hq' & Ha').
    exists k, (mstate M s'). split; [|split].
    - apply (mod_run s0 s' _ _ t); [apply solo_call|done|exact Hr].
    - by apply quiescent_mod.
    - by apply contents_mod.
  Qed.

  Lemma w_reserve ns hist s a t n tf chs h s' :
    qwreach c M ns hist s -> quiescent s -> qcontents c s a ->
    Forall (fun ch => exists sp addr thr, ch = Run t sp addr thr) chs ->
    qrun c s (Invoke t (Reserve n) tf :: chs) = Some (h, s') -> Res t RUnit ∈ h ->
    size (q_heap (q_sh s')) = size (q_heap (q_sh s)) + n /\ qcontents c s' a /\ quiescent s'.
  Proof using Hc HM.
    intros H Hq Ha HF Hr Hin. destruct (wreach_sim c M Hc HM _ _ _ H) as (s0 & -> & Hre & _).
    apply quiescent_mod in Hq. apply contents_mod in Ha.
    rewrite (solo_run c M Hc HM t) in Hr; [|constructor; [done|]|by apply alone_quiet].
    2:{ eapply list.Forall_impl; [exact HF|]. by intros ch (sp & addr & thr & ->). }
    apply fmap_Some in Hr as ([h0 s1] & Hr & [= -> ->]). rewrite !heap_size, contents_mod, quiescent_mod.
    by eapply (reserve_main c0 eq_refl).
  Qed.

  Lemma w_push_many ns t vs hist s a :
    c_throws c = false -> qwreach c M ns hist s -> quiescent s -> qcontents c s a ->
    Forall (fun v => length v = c_words c) vs ->
    exists chs s', qrun c s chs = Some (push_hist t (size (q_heap (q_sh s))) (S (length a)) vs, s') /\
      quiescent s' /\ qcontents c s' (a ++ take (size (q_heap (q_sh s)) - S (length a)) vs).
  Proof using Hc HM.
    intros Hth H Hq Ha HF. destruct (wreach_sim c M Hc HM _ _ _ H) as (s0 & -> & Hre & _).
    apply quiescent_mod in Hq. apply contents_mod in Ha. rewrite heap_size.
    destruct (push_many_by c0 eq_refl ns t vs hist s0 a Hth Hre Hq Ha HF) as (chs & s' & Hby & Hr & Hq' & Ha').
    exists chs, (mstate M s'). split; [|split].
    - by apply (mod_run s0 s' _ _ t).
    - by apply quiescent_mod.
    - by apply contents_mod.
  Qed.

  (** *** Destruction *)
  Lemma qdtor_pop_mod fuel : forall x, qdtor_pop c fuel (mshared M x) = mshared M <$> qdtor_pop c0 fuel x.
  Proof using Hc HM.
    induction fuel as [|fuel IH]; intros x; [done|]. cbn [qdtor_pop].
    assert (E : upop c (mshared M x) false = muout M (upop c0 x false)).
    { unfold upop. rewrite mshared_heap, mheap_size. apply (upop_loop_mod c M Hc ltac:(lia)). }
    rewrite E. destruct (upop c0 x false) as [x' [ | [v|] | | ]| |]; try done. cbn [muout]. apply IH.
  Qed.

  Lemma pool_dtor_mod {D} fuel : forall (h : gmap N (node D)) p,
    pool_dtor c fuel (mheap M h) p = pool_dtor c0 fuel h p.
  Proof.
    induction fuel as [|fuel IH]; intros h p; cbn [pool_dtor].
    - done.
    - change (c_null c0) with (c_null c). destruct (decide _); [done|]. rewrite mheap_lookup.
      destruct (h !! p) as [nd|]; [|done]. cbn [fmap option_fmap option_map]. rewrite nx_mnode, mt_1.
      unfold mheap. rewrite <- fmap_delete. fold (mheap M (delete p h)). by rewrite IH.
  Qed.

  Lemma qdtor_mod x : qdtor c (mshared M x) = qdtor c0 x.
  Proof using Hc HM.
    unfold qdtor. rewrite mshared_heap, mheap_size, qdtor_pop_mod.
    destruct (qdtor_pop c0 _ x) as [x'|]; [|done]. cbn [fmap option_fmap option_map].
    change (q_head (mshared M x')).1 with (q_head x').1. rewrite mshared_heap.
    change (q_pool (mshared M x')) with (mt M (q_pool x')). rewrite dealloc_unsafe_mod.
    destruct (dealloc_unsafe _ _ _) as [|h p|]; [done| |done]. cbn [mdout]. rewrite mheap_size, mt_1.
    apply pool_dtor_mod.
  Qed.

  Lemma w_dtor ns hist s :
    c_throws c = false -> qwreach c M ns hist s -> quiescent s ->
    exists l, qdtor c (q_sh s) = Some l /\ NoDup l /\
      forall n, n ∈ l <-> is_Some (q_heap (q_sh s) !! n).
  Proof using Hc HM.
    intros Hth H Hq. destruct (wreach_sim c M Hc HM _ _ _ H) as (s0 & -> & Hre & _).
    apply quiescent_mod in Hq. destruct (dtor_main c0 eq_refl ns hist s0 Hth Hre Hq) as (l & H1 & H2 & H3).
    exists l. split; [|split; [done|]].
    - change (q_sh (mstate M s0)) with (mshared M (q_sh s0)). by rewrite qdtor_mod.
    - intros n. by rewrite heap_is_Some, H3.
  Qed.

  (** *** Unsynchronized operations *)
  Lemma quiet_step s ch : quiescent s -> qstep c (mstate M s) ch = mqout M (qstep c0 s ch).
  Proof using Hc HM.
    intros Hq. apply (qstep_mod c M Hc ltac:(lia)). apply (alone_clear M HM 0). by apply alone_quiet.
  Qed.

  Lemma w_unsync ns hist s a t :
    qwreach c M ns hist s -> quiescent s -> qcontents c s a ->
    (exists s', qstep c s (Unsync t UPop [] false) = QNext s' [Lin.Inv t UPop; Res t (RPop (head a))] /\
       quiescent s' /\ qcontents c s' (tail a)) /\
    (forall v addr, c_node_based c = true -> length v = c_words c ->
       (q_pool (q_sh s)).1 <> c_null c \/
       (exists n, addr = Some n /\ q_heap (q_sh s) !! n = None /\ n <> c_null c) ->
       exists s', qstep c s (Unsync t (UPush v) [addr] false) = QNext s' [Lin.Inv t (UPush v); Res t (RBool true)] /\
         quiescent s' /\ qcontents c s' (a ++ [v])) /\
    (forall v, c_node_based c = true -> length v = c_words c -> (q_pool (q_sh s)).1 = c_null c ->
       exists s', qstep c s (Unsync t (UPush v) [None] false) = QNext s' [Lin.Inv t (UPush v); Res t RExn] /\
         quiescent s' /\ qcontents c s' a) /\
    (forall n addrs thr s' evs, qstep c s (Unsync t (UReserve n) addrs thr) = QNext s' evs ->
       quiescent s' /\ qcontents c s' a) /\
    (forall o addrs thr s' evs, qstep c s (Unsync t o addrs thr) = QNext s' evs -> Res t RExn ∈ evs ->
       quiescent s' /\ qcontents c s' a).
  Proof using Hc HM.
    intros H Hq Ha. destruct (wreach_sim c M Hc HM _ _ _ H) as (s0 & -> & Hre & _).
    apply quiescent_mod in Hq. apply contents_mod in Ha.
    destruct (unsync_main c0 eq_refl ns hist s0 a t Hre Hq Ha) as (U1 & U2 & U3 & U4 & U5). split; [|split; [|split; [|split]]].
    - destruct U1 as (s' & E & Hq' & Ha'). exists (mstate M s'). rewrite quiet_step by done. rewrite E.
      split; [done|]. by rewrite quiescent_mod, contents_mod.
    - intros v addr Hb Hv Hn. destruct (U2 v addr Hb Hv) as (s' & E & Hq' & Ha').
      { destruct Hn as [Hn|(n & -> & Hn & Hnn)]; [by left|right]. exists n. split; [done|].
        rewrite mstate_heap, mheap_lookup, fmap_None in Hn. done. }
      exists (mstate M s'). rewrite quiet_step by done. rewrite E.
      split; [done|]. by rewrite quiescent_mod, contents_mod.
    - intros v Hb Hv Hn. destruct (U3 v Hb Hv Hn) as (s' & E & Hq' & Ha').
      exists (mstate M s'). rewrite quiet_step by done. rewrite E.
      split; [done|]. by rewrite quiescent_mod, contents_mod.
    - intros n addrs thr s' evs E. rewrite quiet_step in E by done.
      destruct (qstep c0 s0 (Unsync t (UReserve n) addrs thr)) as [s1 evs1| |] eqn:E1; [|discriminate E..].
      injection E as <- <-. rewrite quiescent_mod, contents_mod. by eapply U4.
    - intros o addrs thr s' evs E Hin. rewrite quiet_step in E by done.
      destruct (qstep c0 s0 (Unsync t o addrs thr)) as [s1 evs1| |] eqn:E1; [|discriminate E..].
      injection E as <- <-. rewrite quiescent_mod, contents_mod. by eapply U5.
  Qed.

  Lemma w_unsync_reach ns hist s t o addrs thr s' evs :
    qwreach c M ns hist s -> qstep c s (Unsync t o addrs thr) = QNext s' evs -> qwreach c M ns (hist ++ evs) s'.
  Proof.
    intros (addr & s0 & k & H1 & H2 & H3 & H4 & H5) Hs.
    exists addr, s0, (qcount k s (Unsync t o addrs thr) s'). do 4 (split; [done|]).
    econstructor; [exact H5|exact Hs|]. intros t' l [pc Hpc]. exfalso. cbn [qstep] in Hs.
    destruct (decide _); [|discriminate Hs]. destruct (ucall _ _ _ _ _); try discriminate Hs.
    injection Hs as <- <-. by simpl in Hpc.
  Qed.

  (** *** Calls *)
  Lemma sim_step ns hist s k ch s1 evs :
    qreach c0 ns hist s -> near s k ->
    (forall t l, is_Some (q_pcs (mstate M s) !! t) -> (N.of_nat (k t l) < M)%N) ->
    qstep c (mstate M s) ch = QNext s1 evs ->
    exists s', s1 = mstate M s' /\ qstep c0 s ch = QNext s' evs /\ qreach c0 ns (hist ++ evs) s' /\
      near s' (qcount k (mstate M s) ch (mstate M s')).
  Proof using Hc HM.
    intros Hre Hn Hk Hs.
    assert (Hcl : sclear M s).
    { apply (near_clear M HM s k Hn). intros t l Hx. apply Hk. simpl. by rewrite lookup_fmap, fmap_is_Some. }
    rewrite (qstep_mod c M Hc ltac:(lia)) in Hs by done.
    destruct (qstep c0 s ch) as [s'|  |] eqn:Hst; [|discriminate Hs..].
    injection Hs as <- <-. exists s'. do 2 (split; [done|]). split; [by eapply qreach_step|].
    destruct (qreach_ok c0 eq_refl _ _ _ Hre) as (g & HI & _). by eapply near_step.
  Qed.

  Lemma sim_call ns t o w1 s1 s0 k addr :
    NoDup ns -> c_null c ∉ ns -> (ns <> [] \/ c_node_based c = true) ->
    qinit c0 ns addr = Some s0 -> qwcall c M (mstate M s0) t o w1 s1 k ->
    (forall t' l, is_Some (q_pcs s1 !! t') -> (N.of_nat (k t' l) < M)%N) /\
    exists w s hist, w1 = mstate M <$> w /\ s1 = mstate M s /\ qcall c0 s0 t o w s /\ qreach c0 ns hist s /\ near s k.
  Proof using Hc HM.
    intros Hnd Hnn Hne Hi Hw. induction Hw as [hist s1 k tf s1' evs Hw Hs Hb|w1 s1 k ch s1' evs Hw IH Hs Ht Hb].
    - split; [done|]. destruct (sim c M Hc HM _ _ _ _ _ _ Hnd Hnn Hne Hi Hw) as (Hk & s & -> & Hre & Hn & He).
      destruct (sim_step _ _ _ _ _ _ _ Hre Hn Hk Hs) as (s' & -> & Hs0 & Hre' & Hn').
      exists [s'], s', (hist ++ evs). do 2 (split; [done|]). split; [|done].
      by econstructor.
    - split; [done|]. destruct IH as (Hk & w & s & hist & -> & -> & Hcall & Hre & Hn).
      destruct (sim_step _ _ _ _ _ _ _ Hre Hn Hk Hs) as (s' & -> & Hs0 & Hre' & Hn').
      exists (w ++ [s']), s', (hist ++ evs). split; [by rewrite fmap_app|]. split; [done|].
      split; [|done]. econstructor; [exact Hcall|exact Hs0|]. by rewrite <- (fmap_is_Some (mpc M)), <- lookup_fmap.
  Qed.

  Lemma w_callret ns t o w r :
    qwcallret c M ns t o w r -> exists w0, w = mstate M <$> w0 /\ qcallret c0 ns t o w0 r.
  Proof using Hc HM.
    intros (addr & s0 & s & k & H1 & H2 & H3 & H4 & H5 & (sp & ad & thr & s' & H6)).
    rewrite (qinit_mod c M Hc ltac:(lia)) in H4. apply fmap_Some in H4 as (s00 & H4 & ->).
    destruct (sim_call _ _ _ _ _ _ _ _ H1 H2 H3 H4 H5) as (Hk & w0 & s1 & hist & -> & -> & Hcall & Hre & Hn).
    destruct (sim_step _ _ _ _ _ _ _ Hre Hn Hk H6) as (s1' & -> & Hs0 & _).
    exists w0. split; [done|]. exists addr, s00, s1. do 5 (split; [done|]). by exists sp, ad, thr, s1'.
  Qed.

  Lemma w_push_fail ns t b v w :
    qwcallret c M ns t (Push b v) w (RBool false) ->
    (c_node_based c = false \/ b = true) /\
    exists s, s ∈ w /\ (q_pool (q_sh s)).1 = c_null c /\ (c_throws c = false -> exhausted c s).
  Proof using Hc HM.
    intros H. destruct (w_callret _ _ _ _ _ H) as (w0 & -> & H0).
    destruct (push_fail_main c0 eq_refl ns t b v w0 H0) as (Hb & s & Hs & Hp & He). split; [exact Hb|].
    exists (mstate M s). split; [by apply elem_of_list_fmap_1|]. split; [exact Hp|].
    intros Hth. by apply exhausted_mod, He.
  Qed.

  Lemma w_pop_empty ns t w :
    qwcallret c M ns t Pop w (RPop None) -> exists s, s ∈ w /\ qcontents c s [].
  Proof using Hc HM.
    intros H. destruct (w_callret _ _ _ _ _ H) as (w0 & -> & H0).
    destruct (pop_empty_main c0 eq_refl ns t w0 H0) as (s & Hs & Ha).
    exists (mstate M s). split; [by apply elem_of_list_fmap_1|]. by apply contents_mod.
  Qed.

  Lemma w_empty_false ns t w :
    qwcallret c M ns t Empty w (RBool false) -> exists s v a, s ∈ w /\ qcontents c s (v :: a).
  Proof using Hc HM.
    intros H. destruct (w_callret _ _ _ _ _ H) as (w0 & -> & H0).
    destruct (empty_false_main c0 eq_refl ns t w0 H0) as (s & v & a & Hs & Ha).
    exists (mstate M s), v, a. split; [by apply elem_of_list_fmap_1|]. by apply contents_mod.
  Qed.

  (** *** Progress *)
  Lemma sim_cont ns chs : forall hist s k h s1,
    qreach c0 ns hist s -> near s k ->
    (forall t l, is_Some (q_pcs (mstate M s) !! t) -> (N.of_nat (k t l) < M)%N) ->
    qwcont c M (mstate M s) k chs h s1 ->
    exists s', s1 = mstate M s' /\ qrun c0 s chs = Some (h, s').
  Proof using Hc HM.
    induction chs as [|ch chs IH]; intros hist s k h s1 Hre Hn Hk Hco; inversion Hco; subst.
    - by exists s.
    - match goal with H : qstep c (mstate M s) ch = QNext _ _ |- _ => rename H into Hs end.
      destruct (sim_step _ _ _ _ _ _ _ Hre Hn Hk Hs) as (s' & -> & Hs0 & Hre' & Hn').
      match goal with H : qwcont c M (mstate M s') _ chs _ _ |- _ => rename H into Hco' end.
      edestruct (IH _ s' _ _ _ Hre' Hn' ltac:(eassumption) Hco') as (s'' & -> & Hr).
      exists s''. split; [done|]. cbn [qrun]. by rewrite Hs0, Hr.
  Qed.

  Lemma msum_mod (pcs : gmap nat qpc) : msum q_work (mpc M <$> pcs) = msum q_work pcs.
  Proof.
    induction pcs as [|t pc pcs Hn IH] using map_ind; [done|].
    rewrite fmap_insert, !msum_insert_new by (try done; by rewrite lookup_fmap, Hn). by rewrite IH, work_mod.
  Qed.

  Lemma w_live ns hist s k chs h s' :
    qwat c M ns hist s k -> Forall q_fair chs -> qwcont c M s k chs h s' ->
    (forall t r, Res t r ∉ h) ->
    length chs <= length (q_invoked chs) +
      q_bound c (size (q_pcs s) + length (q_invoked chs))
                (msum q_work (q_pcs s) + sum_list (q_opwork <$> q_invoked chs)).
  Proof using Hc HM.
    intros (addr & s0 & H1 & H2 & H3 & H4 & H5) HF Hco Hh.
    rewrite (qinit_mod c M Hc ltac:(lia)) in H4. apply fmap_Some in H4 as (s00 & H4 & ->).
    destruct (sim c M Hc HM _ _ _ _ _ _ H1 H2 H3 H4 H5) as (Hk & s1 & -> & Hre & Hn & _).
    destruct (sim_cont _ _ _ _ _ _ _ Hre Hn Hk Hco) as (s1' & -> & Hr).
    pose proof (live_main c0 eq_refl ns hist s1 chs h s1' Hre HF Hr Hh) as Hb.
    change (q_pcs (mstate M s1)) with (mpc M <$> q_pcs s1). rewrite msum_mod, map_size_fmap. exact Hb.
  Qed.

  Lemma w_enabled ns hist s t :
    qwreach c M ns hist s -> is_Some (q_pcs s !! t) ->
    exists s' evs, qstep c s (Run t false None false) = QNext s' evs.
  Proof using Hc HM.
    intros H Ht. destruct (wreach_sim c M Hc HM _ _ _ H) as (s0 & -> & Hre & Hcl).
    simpl in Ht. rewrite lookup_fmap, fmap_is_Some in Ht.
    destruct (enabled_main c0 eq_refl ns hist s0 t Hre Ht) as (s' & evs & Hs).
    exists (mstate M s'), evs. rewrite (qstep_mod c M Hc ltac:(lia)) by done. by rewrite Hs.
  Qed.
End main.
