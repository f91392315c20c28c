(** * The stack properties with tags that wrap around, within one tag period *)
From stdpp Require Import gmap list numbers.
From Verif Require Import Lin LinObs LiveSum PoolModel Chain PoolProofs StackModel StackSpec StackObs StackInv StackStep
  StackSafe StackObsProofs StackQuiet StackDemo StackMain StackFlow StackCons StackLive StackWrapObs WrapPool StackWrap.
From Verif Require QueueWrapMain.

Set Default Proof Using "Type".

(** ** What can be observed does not depend on tags *)
Section same.
  Context (c : cfg) (M : N).
  Notation c0 := (nowrap c).

  Definition mrec (st : srec) : srec := SRec (mstate M (r_pre st)) (r_ch st) (mstate M (r_post st)).

  Lemma chain_mod h p a : chain c (mheap M h) p a <-> chain c0 h p a.
  Proof.
    split.
    - remember (mheap M h) as h' eqn:Hh. induction 1 as [|p lk v a Hp Hl _ IH].
      + exact (chain_end c0 h).
      + subst h'. rewrite mheap_lookup in Hl. apply fmap_Some in Hl as ([lk0 d0] & Hl & E).
        unfold mnode in E. simpl in E. injection E as -> <-.
        apply (chain_node c0 h p lk0 v a Hp Hl). by apply IH.
    - induction 1 as [|p lk v a Hp Hl _ IH].
      + exact (chain_end c (mheap M h)).
      + apply (chain_node c (mheap M h) p (mt M lk) v a Hp); [by rewrite mheap_lookup, Hl|done].
  Qed.

  Lemma found_mod h p n : found h p n -> found (mheap M h) p n.
  Proof.
    induction 1 as [n nd Hl|p nd n Hl _ IH].
    - apply (found_here _ n (mnode M nd)). by rewrite mheap_lookup, Hl.
    - apply (found_next _ p (mnode M nd) n); [by rewrite mheap_lookup, Hl|exact IH].
  Qed.

  Lemma mstate_heap s : s_heap (s_sh (mstate M s)) = mheap M (s_heap (s_sh s)).
  Proof. done. Qed.

  Lemma heap_is_Some s n :
    is_Some (s_heap (s_sh (mstate M s)) !! n) <-> is_Some (s_heap (s_sh s) !! n).
  Proof. by rewrite mstate_heap, mheap_lookup, fmap_is_Some. Qed.

  Lemma heap_size s : size (s_heap (s_sh (mstate M s))) = size (s_heap (s_sh s)).
  Proof. by rewrite mstate_heap, mheap_size. Qed.

  Lemma contents_mod s a : scontents c (mstate M s) a <-> scontents c0 s a.
  Proof. apply chain_mod. Qed.

  Lemma roots_mod pc : roots (mpc M pc) = roots pc.
  Proof. by destruct pc. Qed.

  Lemma exhausted_mod s : exhausted c0 s -> exhausted c (mstate M s).
  Proof.
    intros (H1 & H2). split; [exact H1|].
    intros n Hn. apply (heap_is_Some s) in Hn.
    destruct (H2 n Hn) as [Hf|(t & pc & p & Hpc & Hr & Hf)]; [left|right].
    - by apply found_mod.
    - exists t, (mpc M pc), p. simpl. rewrite lookup_fmap, Hpc, roots_mod. split; [done|]. split; [done|].
      by apply found_mod.
  Qed.

  Lemma quiescent_mod s : quiescent (mstate M s) <-> quiescent s.
  Proof. unfold quiescent. simpl. apply fmap_empty_iff. Qed.

  Lemma silent_mod st : silent c0 st -> silent c (mrec st).
  Proof. intros (a & H1 & H2). exists a. split; by apply contents_mod. Qed.

  Lemma effect_mod t w a a' : effect c0 t w a a' -> effect c t (mrec <$> w) a a'.
  Proof.
    intros (w1 & st & w2 & -> & H1 & H2 & H3 & H4). exists (mrec <$> w1), (mrec st), (mrec <$> w2).
    split; [by rewrite fmap_app|]. split; [done|]. do 2 (split; [by apply contents_mod|]).
    intros st' Hin. rewrite <- fmap_app in Hin. apply elem_of_list_fmap in Hin as (st0 & -> & Hin).
    intros Ht. apply silent_mod. by apply H4.
  Qed.

  Lemma work_mod pc : s_work (mpc M pc) = s_work pc.
  Proof. by destruct pc. Qed.
  Lemma elems_mod pc : s_elems (mpc M pc) = s_elems pc.
  Proof. by destruct pc. Qed.
  Lemma livec_mod nd : livec (mnode M nd) = livec nd.
  Proof. by destruct nd. Qed.

  Lemma msum_mod f (pcs : gmap nat spc) :
    (forall pc, f (mpc M pc) = f pc) -> msum f (mpc M <$> pcs) = msum f pcs.
  Proof.
    intros Hf. induction pcs as [|t pc pcs Hn IH] using map_ind; [done|].
    rewrite fmap_insert, !msum_insert_new by (try done; by rewrite lookup_fmap, Hn). by rewrite IH, Hf.
  Qed.

  Lemma alive_mod s : s_alive (mstate M s) = s_alive s.
  Proof.
    unfold s_alive. rewrite mstate_heap. generalize (s_heap (s_sh s)). intros h. unfold mheap.
    induction h as [|n nd h Hn IH] using map_ind; [done|].
    rewrite fmap_insert, !msum_insert_new by (try done; by rewrite lookup_fmap, Hn). by rewrite IH, livec_mod.
  Qed.
End same.

(** ** A thread running alone *)
Section solo.
  Context (c : cfg) (M : N) (Hc : c_tagmod c = Some M) (HM : (2 <= M)%N).
  Notation c0 := (nowrap c).

  Definition exact_held (x : sshared) (pc : spc) : Prop := forall l y, (l, y) ∈ held pc -> y.2 = xtag x l.

  Lemma exact_nil x pc : held pc = [] -> exact_held x pc.
  Proof. intros H l y Hin. rewrite H in Hin. by apply elem_of_nil in Hin. Qed.

  Lemma tstep_exact x pc sp addr thr x' pc' :
    exact_held x pc -> tstep c0 x pc sp addr thr = TGo x' pc' -> exact_held x' pc'.
  Proof.
    intros He Hs. destruct x as [h p ts].
    assert (Hrd : forall mk, (forall a, held (mk a) = match a with ALoad => [] | ATest old | ACas old _ => [(LPool, old)] end) ->
      forall a h' p' a', exact_held (SSh h p ts) (mk a) -> forall b, astep c0 None b h p a sp addr = ACont h' p' a' ->
      exact_held (SSh h' p' ts) (mk a')).
    { intros mk Hmk a h' p' a' Hex b Ha. destruct a as [|old|old nxt]; cbn [astep] in Ha.
      - injection Ha as <- <- <-. intros l y Hin. rewrite Hmk in Hin.
        apply elem_of_list_singleton in Hin as [= -> ->]. done.
      - destruct (decide _); [destruct (_ && _); [destruct addr; [destruct (decide _)|]|]; discriminate Ha|].
        destruct (h !! old.1); [|discriminate Ha]. injection Ha as <- <- <-.
        intros l y Hin. apply (Hex l y). rewrite Hmk in Hin |- *. exact Hin.
      - destruct (decide _); [discriminate Ha|]. injection Ha as <- <- <-. intros l y Hin.
        rewrite Hmk in Hin. apply elem_of_list_singleton in Hin as [= -> ->]. done. }
    destruct pc as [b v a|v n|top bot r|top bot old r|top bot old r|b vs|b vs k te a|b vs k te n
      |b vs k te n|cur| |old|old nxt|n|rev|rev old|n lst|n lst nxt|n k acc|n k acc|n k|n d k|[|k]| |r];
      cbn [tstep s_heap s_pool s_tos] in Hs.
    - destruct (astep c0 None b h p a sp addr) as [h' p' a'|h' p' n| | | |] eqn:Ha; try discriminate Hs; injection Hs as <- <-;
        try by apply exact_nil.
      eapply (Hrd (PcAlloc b v)); [by intros []|exact He|exact Ha].
    - destruct (h !! n) as [[lk [w|]]|]; try discriminate Hs. destruct thr; [destruct (c_throws c0); [|discriminate Hs]|];
        injection Hs as <- <-; by apply exact_nil.
    - injection Hs as <- <-. intros l y Hin. apply elem_of_list_singleton in Hin as [= -> ->]. done.
    - destruct (h !! bot); [|discriminate Hs]. injection Hs as <- <-. intros l y Hin.
      apply elem_of_list_singleton in Hin as [= -> ->]. apply (He LTos). by left.
    - destruct (decide _); injection Hs as <- <-; [by apply exact_nil|].
      intros l y Hin. apply elem_of_list_singleton in Hin as [= -> ->]. done.
    - destruct vs; [discriminate Hs|]. injection Hs as <- <-. by apply exact_nil.
    - destruct (astep c0 None b h p a sp addr) as [h' p' a'|h' p' n| | | |] eqn:Ha; try discriminate Hs; injection Hs as <- <-;
        try (by apply exact_nil); try (apply exact_nil; by destruct te).
      eapply (Hrd (PcRAlloc b vs k te)); [by intros []|exact He|exact Ha].
    - destruct (h !! n) as [[lk [w|]]|]; try discriminate Hs. destruct (vs !! k); [|discriminate Hs].
      destruct thr; [destruct (c_throws c0); [|discriminate Hs]|]; injection Hs as <- <-; apply exact_nil; [|done].
      apply r_catch_held.
    - destruct (h !! n); [|discriminate Hs]. injection Hs as <- <-. apply exact_nil, r_next_held.
    - destruct (h !! cur); [|discriminate Hs]. injection Hs as <- <-. by apply exact_nil.
    - injection Hs as <- <-. intros l y Hin. by apply c_test_held in Hin as [-> ->].
    - destruct (h !! old.1); [|discriminate Hs]. injection Hs as <- <-. intros l y Hin.
      apply elem_of_list_singleton in Hin as [= -> ->]. apply (He LTos). by left.
    - destruct (decide _); injection Hs as <- <-; [by apply exact_nil|].
      intros l y Hin. by apply c_test_held in Hin as [-> ->].
    - destruct (h !! n) as [[lk [w|]]|]; try discriminate Hs. destruct thr; [destruct (c_throws c0); [|discriminate Hs]|];
        injection Hs as <- <-; by apply exact_nil.
    - injection Hs as <- <-. intros l y Hin. by apply a_test_held in Hin as [-> ->].
    - destruct (decide _); injection Hs as <- <-; [apply exact_nil; by destruct rev|].
      intros l y Hin. by apply a_test_held in Hin as [-> ->].
    - destruct (h !! n); [|discriminate Hs]. injection Hs as <- <-. by apply exact_nil.
    - destruct (h !! n); [|discriminate Hs]. injection Hs as <- <-. apply exact_nil. by destruct (decide _).
    - destruct (h !! n) as [[lk [w|]]|]; try discriminate Hs. destruct thr; [destruct (c_throws c0); [|discriminate Hs]|];
        injection Hs as <- <-; by apply exact_nil.
    - destruct (h !! n); [|discriminate Hs]. injection Hs as <- <-. by apply exact_nil.
    - destruct (h !! n) as [[lk [w|]]|]; try discriminate Hs. injection Hs as <- <-. by apply exact_nil.
    - destruct d as [|old|old]; cbn [dstep] in Hs.
      + injection Hs as <- <-. intros l y Hin. apply elem_of_list_singleton in Hin as [= -> ->]. done.
      + destruct (h !! n); [|discriminate Hs]. injection Hs as <- <-. intros l y Hin.
        apply elem_of_list_singleton in Hin as [= -> ->]. apply (He LPool). by left.
      + destruct (decide _); injection Hs as <- <-; [apply exact_nil, kgo_held|].
        intros l y Hin. apply elem_of_list_singleton in Hin as [= -> ->]. done.
    - injection Hs as <- <-. by apply exact_nil.
    - destruct addr as [n|]; [destruct (decide _)|]; try discriminate Hs; injection Hs as <- <-; by apply exact_nil.
    - injection Hs as <- <-. by apply exact_nil.
    - discriminate Hs.
  Qed.

  Definition alone (t : nat) (s : sstate) : Prop :=
    forall t' pc, s_pcs s !! t' = Some pc -> t' = t /\ exact_held (s_sh s) pc.

  Lemma alone_quiet t s : quiescent s -> alone t s.
  Proof. intros Hq t' pc Hpc. by rewrite Hq, lookup_empty in Hpc. Qed.

  Lemma alone_clear t s : alone t s -> sclear M s.
  Proof using HM.
    intros Ha t' pc Hpc l y Hin. destruct (Ha t' pc Hpc) as [_ He]. rewrite <- (He l y Hin). lia.
  Qed.

  Lemma alone_step t s ch s' evs :
    alone t s -> ch_thread ch = t -> sstep c0 s ch = SNext s' evs -> alone t s'.
  Proof.
    intros Ha Hb Hs t' pc' Hpc'.
    destruct ch as [t1 o|t1 sp addr thr|t1 o addrs thr]; cbn [ch_thread] in Hb; subst t1; cbn [sstep] in Hs.
    - destruct (s_pcs s !! t) as [pc|] eqn:Hpc; [discriminate Hs|].
      destruct (sstart c0 o) as [pc|] eqn:Hst; [|discriminate Hs]. injection Hs as <- <-.
      simpl in Hpc'. apply lookup_insert_Some in Hpc' as [[<- <-]|[Hne Hpc']].
      + split; [done|]. apply exact_nil. exact (held_start c _ _ Hst).
      + exact (Ha t' pc' Hpc').
    - destruct (s_pcs s !! t) as [pc|] eqn:Hpc; [|discriminate Hs]. destruct (Ha t pc Hpc) as [_ He].
      assert (Hd : (exists r, pc = PcRet r) \/
        exists x pc1, tstep c0 (s_sh s) pc sp addr thr = TGo x pc1 /\
          s' = SSt x (<[t := pc1]> (s_pcs s))).
      { destruct pc; try (right; destruct (tstep c0 (s_sh s) _ _ _ _) as [x pc1| |]; [|discriminate Hs..];
          injection Hs as <- <-; by eauto). left. eauto. }
      destruct Hd as [[r ->]|(x & pc1 & Ht & ->)].
      + injection Hs as <- <-. simpl in Hpc'. apply lookup_delete_Some in Hpc' as [Hne Hpc'].
        exact (Ha t' pc' Hpc').
      + simpl in Hpc'. apply lookup_insert_Some in Hpc' as [[<- <-]|[Hne Hpc']].
        * split; [done|]. simpl. by eapply tstep_exact.
        * destruct (Ha t' pc' Hpc') as [-> _]. done.
    - destruct (decide _); [|discriminate Hs].
      destruct (ucall c0 _ _ _ _); [|discriminate Hs..]. injection Hs as <- <-. by simpl in Hpc'.
  Qed.

  Lemma solo_run t chs : forall s,
    Forall (fun ch => ch_thread ch = t) chs -> alone t s ->
    srun c (mstate M s) chs = (fun r => (r.1, mstate M r.2)) <$> srun c0 s chs.
  Proof using Hc HM.
    induction chs as [|ch chs IH]; intros s HF Ha; [done|]. apply Forall_cons_1 in HF as [Hb HF].
    cbn [srun]. rewrite (sstep_mod c M Hc ltac:(lia)) by (by eapply alone_clear).
    destruct (sstep c0 s ch) as [s' evs| |] eqn:Hs; [|done..]. cbn [msout].
    rewrite (IH s' HF) by (by eapply alone_step). by destruct (srun c0 s' chs) as [[h s'']|].
  Qed.

  Lemma solo_call t o k :
    Forall (fun ch => ch_thread ch = t) (Invoke t o :: replicate k (Run t false None false)).
  Proof. constructor; [done|]. by apply Forall_replicate. Qed.
End solo.

(** The schedule of [push_many] consists of steps of one thread. *)
Section many.
  Context (c : cfg) (Htag : c_tagmod c = None).

  Lemma push_many_by ns t vs : forall hist s a,
    c_throws c = false -> sreach c ns hist s -> quiescent s -> scontents c s a ->
    exists chs s', Forall (fun ch => ch_thread ch = t) chs /\
      srun c s chs =
        Some (concat (imap (fun i v =>
                [Lin.Inv t (SPush true v);
                 Res t (SBool (bool_decide (length a + i < size (s_heap (s_sh s)))))]) vs), s') /\
      quiescent s' /\ scontents c s' (reverse (take (size (s_heap (s_sh s)) - length a) vs) ++ a).
  Proof using Htag.
    induction vs as [|v vs IH]; intros hist s a Hth H Hq Ha.
    - exists [], s. split; [done|]. split; [done|]. split; [done|]. by rewrite take_nil.
    - destruct (push_quiet c Htag ns hist s a t true v Hth H Hq Ha (or_intror eq_refl))
        as (k & s1 & Hr & Hq1 & Ha1).
      set (m := size (s_heap (s_sh s))) in *.
      assert (He : sexec c s [Lin.Inv t (SPush true v); Res t (SBool (bool_decide (length a < m)))] s1)
        by (by eapply srun_exec).
      assert (Hop : forall t' o, Lin.Inv t' o ∈ [Lin.Inv t (SPush true v); Res t (SBool (bool_decide (length a < m)))] ->
                    o = SPush true v).
      { intros t' o Hin. repeat (apply elem_of_cons in Hin as [Hin|Hin]); [|done|by apply elem_of_nil in Hin].
        by injection Hin as -> ->. }
      assert (Hm : size (s_heap (s_sh s1)) = m).
      { edestruct (sexec_noalloc c s) as [Hd _]; [|exact He| |].
        - intros t' pc. by rewrite Hq, lookup_empty.
        - intros t' o Hin. apply Hop in Hin as ->. simpl. by destruct (c_node_based c).
        - subst m. by rewrite <- !size_dom, Hd. }
      assert (Hho : hist_ok [Lin.Inv t (SPush true v); Res t (SBool (bool_decide (length a < m)))]).
      { intros t' o Hin. by apply Hop in Hin as ->. }
      destruct (IH _ s1 _ Hth (sreach_ext c _ _ _ _ _ H Hho He) Hq1 Ha1) as (chs & s' & Hby & Hr' & Hq' & Ha').
      rewrite Hm in Hr', Ha'.
      exists ((Invoke t (SPush true v) :: replicate k (Run t false None false)) ++ chs), s'.
      split; [apply Forall_app; split; [apply solo_call|done]|].
      split; [|split; [done|]].
      + erewrite srun_app; [|exact Hr|exact Hr']. do 2 f_equal. rewrite imap_cons.
        cbn [concat]. rewrite Nat.add_0_r. f_equal. f_equal. apply imap_ext. intros i w _. simpl.
        do 4 f_equal. apply bool_decide_ext. destruct (decide _); simpl; lia.
      + destruct (decide (length a < m)) as [Hlt|Hge].
        * simpl in Ha'. replace (m - length a) with (S (m - S (length a))) by lia. simpl.
          rewrite reverse_cons, <- app_assoc. done.
        * replace (m - length a) with 0 in * by lia. done.
  Qed.
End many.

(** ** The properties *)
Section main.
  Context (c : cfg) (M : N) (Hc : c_tagmod c = Some M) (HM : (2 <= M)%N).
  Notation c0 := (nowrap c).
  Notation spec := (sspec (c_node_based c) (c_throws c)).

  Lemma mod_run s s1 chs h t :
    Forall (fun ch => ch_thread ch = t) chs -> quiescent s -> srun c0 s chs = Some (h, s1) ->
    srun c (mstate M s) chs = Some (h, mstate M s1).
  Proof using Hc HM.
    intros HF Hq Hr. rewrite (solo_run c M Hc HM t) by (try done; by apply alone_quiet). by rewrite Hr.
  Qed.

  Lemma w_linearizable ns hist s :
    swreach c M ns hist s ->
    hw_linearizable [] spec hist /\
    exists l ph a, lruns spec ∅ [] l ph a /\ erase l = hist /\ scontents c s a.
  Proof using Hc HM.
    intros H. destruct (wreach_sim c M Hc HM _ _ _ H) as (s0 & -> & Hre & _).
    destruct (linearizable_main c0 eq_refl _ _ _ Hre) as [H1 (l & ph & a & H2 & H3 & H4)].
    split; [exact H1|]. exists l, ph, a. split; [exact H2|]. split; [exact H3|]. by apply contents_mod.
  Qed.

  Lemma w_conserve ns hist s :
    swreach c M ns hist s ->
    exists P T D a, scontents c s a /\ P ≡ₚ T ++ D ++ a /\
      (completed hist ≫= sputs) ⊆+ P /\
      P ⊆+ (completed hist ≫= sputs) ++ (pending hist ≫= soffers) /\
      (completed hist ≫= stakes) ⊆+ T /\ (c_throws c = false -> D = []).
  Proof using Hc HM.
    intros H. destruct (wreach_sim c M Hc HM _ _ _ H) as (s0 & -> & Hre & _).
    destruct (sconserve_main c0 eq_refl _ _ _ Hre) as (P & T & D & a & Ha & Hr). exists P, T, D, a.
    split; [by apply contents_mod|exact Hr].
  Qed.

  Lemma w_conserve_quiet ns hist s :
    swreach c M ns hist s -> quiescent s ->
    exists D a, scontents c s a /\
      (completed hist ≫= sputs) ≡ₚ (completed hist ≫= stakes) ++ D ++ a /\
      (Forall (fun x => cut_short x = false) (completed hist) -> D = []).
  Proof using Hc HM.
    intros H Hq. destruct (wreach_sim c M Hc HM _ _ _ H) as (s0 & -> & Hre & _). apply quiescent_mod in Hq.
    destruct (sconserve_quiet_main c0 eq_refl _ _ _ Hre Hq) as (D & a & Ha & Hr). exists D, a.
    split; [by apply contents_mod|exact Hr].
  Qed.

  Lemma w_bounds ns hist s a :
    swreach c M ns hist s -> (forall t o, Lin.Inv t o ∈ hist -> allocates c o = false) ->
    size (s_heap (s_sh s)) = length ns /\ (scontents c s a -> length a <= length ns).
  Proof using Hc HM.
    intros H Hal. destruct (wreach_sim c M Hc HM _ _ _ H) as (s0 & -> & Hre & _).
    rewrite heap_size, contents_mod. exact (bounds_main c0 eq_refl ns hist s0 a Hre Hal).
  Qed.

  Lemma w_push_quiet ns hist s a t b v :
    c_throws c = false -> swreach c M ns hist s -> quiescent s -> scontents c s a ->
    c_node_based c = false \/ b = true ->
    exists k s', srun c s (Invoke t (SPush b v) :: replicate k (Run t false None false)) =
        Some ([Lin.Inv t (SPush b v); Res t (SBool (bool_decide (length a < size (s_heap (s_sh s)))))], s') /\
      quiescent s' /\
      scontents c s' (if decide (length a < size (s_heap (s_sh s))) then v :: a else a).
  Proof using Hc HM.
    intros Hth H Hq Ha Hb. destruct (wreach_sim c M Hc HM _ _ _ H) as (s0 & -> & Hre & _).
    apply quiescent_mod in Hq. apply contents_mod in Ha.
    destruct (push_quiet c0 eq_refl ns hist s0 a t b v Hth Hre Hq Ha Hb) as (k & s' & Hr & Hq' & Ha').
    exists k, (mstate M s'). rewrite heap_size. split; [|split].
    - apply (mod_run s0 s' _ _ t); [apply solo_call|done|exact Hr].
    - by apply quiescent_mod.
    - by apply contents_mod.
  Qed.

  Lemma w_reserve ns hist s a t n chs h s' :
    swreach c M ns hist s -> quiescent s -> scontents c s a ->
    Forall (fun ch => exists sp addr thr, ch = Run t sp addr thr) chs ->
    srun c s (Invoke t (SReserve n) :: chs) = Some (h, s') -> Res t SUnit ∈ h ->
    size (s_heap (s_sh s')) = size (s_heap (s_sh s)) + n /\ scontents c s' a /\ quiescent s'.
  Proof using Hc HM.
    intros H Hq Ha HF Hr Hin. destruct (wreach_sim c M Hc HM _ _ _ H) as (s0 & -> & Hre & _).
    apply quiescent_mod in Hq. apply contents_mod in Ha.
    rewrite (solo_run c M Hc HM t) in Hr; [|constructor; [done|]|by apply alone_quiet].
    2:{ eapply list.Forall_impl; [exact HF|]. by intros ch (sp & addr & thr & ->). }
    apply fmap_Some in Hr as ([h0 s1] & Hr & [= -> ->]). rewrite !heap_size, contents_mod, quiescent_mod.
    by eapply (reserve_main c0 eq_refl).
  Qed.

  Lemma w_push_many ns t vs hist s a :
    c_throws c = false -> swreach c M ns hist s -> quiescent s -> scontents c s a ->
    exists chs s',
      srun c s chs =
        Some (concat (imap (fun i v =>
                [Lin.Inv t (SPush true v);
                 Res t (SBool (bool_decide (length a + i < size (s_heap (s_sh s)))))]) vs), s') /\
      quiescent s' /\ scontents c s' (reverse (take (size (s_heap (s_sh s)) - length a) vs) ++ a).
  Proof using Hc HM.
    intros Hth H Hq Ha. destruct (wreach_sim c M Hc HM _ _ _ H) as (s0 & -> & Hre & _).
    apply quiescent_mod in Hq. apply contents_mod in Ha. rewrite heap_size.
    destruct (push_many_by c0 eq_refl ns t vs hist s0 a Hth Hre Hq Ha) as (chs & s' & Hby & Hr & Hq' & Ha').
    exists chs, (mstate M s'). split; [|split].
    - by apply (mod_run s0 s' _ _ t).
    - by apply quiescent_mod.
    - by apply contents_mod.
  Qed.

  (** *** Destruction *)
  Lemma sdtor_pop_mod fuel : forall x,
    sdtor_pop c fuel (mshared M x) = (fun r => (mshared M r.1, r.2)) <$> sdtor_pop c0 fuel x.
  Proof using Hc HM.
    induction fuel as [|fuel IH]; intros x; [done|]. cbn [sdtor_pop].
    rewrite (upop_mod c M Hc ltac:(lia)).
    destruct (upop c0 x false) as [x' [ |[v|]| | | | ]| |]; try done. cbn [muout]. rewrite IH.
    by destruct (sdtor_pop c0 fuel x') as [[x'' vs]|].
  Qed.

  Lemma sdtor_mod x : sdtor c (mshared M x) = sdtor c0 x.
  Proof using Hc HM.
    unfold sdtor. rewrite mshared_heap, mheap_size, sdtor_pop_mod.
    destruct (sdtor_pop c0 _ x) as [[x' vs]|]; [|done]. cbn [fmap option_fmap option_map fst snd].
    rewrite mshared_heap, mheap_size. change (s_pool (mshared M x')).1 with (s_pool x').1.
    by rewrite QueueWrapMain.pool_dtor_mod.
  Qed.

  Lemma w_dtor ns hist s a :
    c_throws c = false -> swreach c M ns hist s -> quiescent s -> scontents c s a ->
    exists l, sdtor c (s_sh s) = Some (a, l) /\ NoDup l /\
      forall n, n ∈ l <-> is_Some (s_heap (s_sh s) !! n).
  Proof using Hc HM.
    intros Hth H Hq Ha. destruct (wreach_sim c M Hc HM _ _ _ H) as (s0 & -> & Hre & _).
    apply quiescent_mod in Hq. apply contents_mod in Ha.
    destruct (dtor_main c0 eq_refl ns hist s0 a Hth Hre Hq Ha) as (l & H1 & H2 & H3).
    exists l. split; [|split; [done|]].
    - change (s_sh (mstate M s0)) with (mshared M (s_sh s0)). by rewrite sdtor_mod.
    - intros n. by rewrite heap_is_Some, H3.
  Qed.

  (** *** Unsynchronized operations *)
  Lemma w_unsync ns hist s a t o addrs thr s' evs :
    swreach c M ns hist s -> scontents c s a -> nonempty_op o ->
    sstep c s (Unsync t o addrs thr) = SNext s' evs ->
    exists r a', evs = [Lin.Inv t o; Res t r] /\ spec a o r a' /\ quiescent s' /\ scontents c s' a'.
  Proof using Hc HM.
    intros H Ha Ho Hs. destruct (wreach_sim c M Hc HM _ _ _ H) as (s0 & -> & Hre & Hcl).
    apply contents_mod in Ha. rewrite (sstep_mod c M Hc ltac:(lia)) in Hs by done.
    destruct (sstep c0 s0 _) as [s1 evs1| |] eqn:Hs1; [|discriminate Hs..]. injection Hs as <- <-.
    destruct (unsync_main c0 eq_refl ns hist s0 a t o addrs thr s1 evs1 Hre Ha Ho Hs1) as (r & a' & H1 & H2 & H3 & H4).
    exists r, a'. split; [exact H1|]. split; [exact H2|]. by rewrite quiescent_mod, contents_mod.
  Qed.

  Lemma w_unsync_reach ns hist s t o addrs thr s' evs :
    swreach c M ns hist s -> nonempty_op o -> sstep c s (Unsync t o addrs thr) = SNext s' evs ->
    swreach c M ns (hist ++ evs) s'.
  Proof.
    intros (H1 & H2 & H3 & k & H5) Ho Hs.
    do 2 (split; [done|]). split.
    { apply hist_ok_app2; [done|]. by apply (sstep_evs _ _ _ _ _ Hs). }
    exists (scount k s (Unsync t o addrs thr) s').
    econstructor; [exact H5|exact Hs|]. intros t' l [pc Hpc]. exfalso. cbn [sstep] in Hs.
    destruct (decide _); [|discriminate Hs]. destruct (ucall _ _ _ _ _); try discriminate Hs.
    injection Hs as <- <-. by simpl in Hpc.
  Qed.

  (** *** Calls *)
  Lemma sim_step s k ch s1 evs :
    near s k ->
    (forall t l, is_Some (s_pcs (mstate M s) !! t) -> (N.of_nat (k t l) < M)%N) ->
    sstep c (mstate M s) ch = SNext s1 evs ->
    exists s', s1 = mstate M s' /\ sstep c0 s ch = SNext s' evs /\
      near s' (scount k (mstate M s) ch (mstate M s')).
  Proof using Hc HM.
    intros Hn Hk Hs.
    assert (Hcl : sclear M s).
    { apply (near_clear M HM s k Hn). intros t l Hx. apply Hk. simpl. by rewrite lookup_fmap, fmap_is_Some. }
    rewrite (sstep_mod c M Hc ltac:(lia)) in Hs by done.
    destruct (sstep c0 s ch) as [s'|  |] eqn:Hst; [|discriminate Hs..].
    injection Hs as <- <-. exists s'. do 2 (split; [done|]). by eapply near_step.
  Qed.

  Lemma sim_at ns hist s1 k :
    swat c M ns hist s1 k ->
    (forall t' l, is_Some (s_pcs s1 !! t') -> (N.of_nat (k t' l) < M)%N) /\
    exists s, s1 = mstate M s /\ sreach c0 ns hist s /\ near s k.
  Proof using Hc HM.
    intros (H1 & H2 & H3 & H4). rewrite (sinit_mod c M ltac:(lia)) in H4.
    destruct (sim c M Hc HM _ _ _ _ H4) as (Hk & s & -> & He & Hn). split; [done|].
    exists s. split; [done|]. split; [|exact Hn]. by split.
  Qed.

  Lemma sim_call ns t o w1 s1 k :
    swcall c M ns t o w1 s1 k ->
    (forall t' l, is_Some (s_pcs s1 !! t') -> (N.of_nat (k t' l) < M)%N) /\
    exists w s, w1 = mrec M <$> w /\ s1 = mstate M s /\ scall c0 ns t o w s /\ near s k.
  Proof using Hc HM.
    intros Hw. induction Hw as [hist s1 k s1' evs Hw Ho Hs Hb|w1 s1 k ch s1' evs Hw IH Hch Hs Ht Hb].
    - split; [done|]. destruct (sim_at _ _ _ _ Hw) as (Hk & s & -> & Hre & Hn).
      destruct (sim_step _ _ _ _ _ Hn Hk Hs) as (s' & -> & Hs0 & Hn').
      exists [SRec s (Invoke t o) s'], s'. do 2 (split; [done|]). split; [|done]. by econstructor.
    - split; [done|]. destruct IH as (Hk & w & s & -> & -> & Hcall & Hn).
      destruct (sim_step _ _ _ _ _ Hn Hk Hs) as (s' & -> & Hs0 & Hn').
      exists (w ++ [SRec s ch s']), s'. split; [by rewrite fmap_app|]. split; [done|].
      split; [|done]. econstructor; [exact Hcall|done|exact Hs0|].
      by rewrite <- (fmap_is_Some (mpc M)), <- lookup_fmap.
  Qed.

  Lemma w_callret ns t o w r :
    swcallret c M ns t o w r -> exists w0, w = mrec M <$> w0 /\ scallret c0 ns t o w0 r.
  Proof using Hc HM.
    intros (s & k & H5 & (sp & ad & thr & s' & H6)).
    destruct (sim_call _ _ _ _ _ _ H5) as (Hk & w0 & s1 & -> & -> & Hcall & Hn).
    destruct (sim_step _ _ _ _ _ Hn Hk H6) as (s1' & -> & Hs0 & _).
    exists w0. split; [done|]. exists s1. split; [done|]. by exists sp, ad, thr, s1'.
  Qed.

  Lemma w_range ns t b vs w k :
    swcallret c M ns t (SRange b vs) w (SIter k) ->
    (exists a, effect c t w a (reverse (take k vs) ++ a)) /\ k <= length vs /\
    (k < length vs ->
       b = true /\ exists st, st ∈ w /\ (s_pool (s_sh (r_post st))).1 = c_null c /\
                              (c_throws c = false -> exhausted c (r_post st))).
  Proof using Hc HM.
    intros H. destruct (w_callret _ _ _ _ _ H) as (w0 & -> & H0).
    destruct (range_main c0 eq_refl ns t b vs w0 k H0) as ((a & He) & Hk & Hx).
    split; [exists a; by apply effect_mod|]. split; [done|]. intros Hlt.
    destruct (Hx Hlt) as (Hb & st & Hin & Hp & Hex). split; [done|]. exists (mrec M st).
    split; [by apply elem_of_list_fmap_1|]. split; [exact Hp|]. intros Hth. by apply exhausted_mod, Hex.
  Qed.

  Lemma w_all ns t rev w k vs :
    swcallret c M ns t (SAll rev) w (SCount k vs) ->
    exists a, effect c t w a [] /\ k = length a /\ vs = visit_order rev a.
  Proof using Hc HM.
    intros H. destruct (w_callret _ _ _ _ _ H) as (w0 & -> & H0).
    destruct (all_main c0 eq_refl ns t rev w0 k vs H0) as (a & He & Hr).
    exists a. split; [by apply effect_mod|done].
  Qed.

  Lemma w_pop ns t w x :
    swcallret c M ns t SPop w (SGot x) -> exists a, effect c t w a (tail a) /\ x = head a.
  Proof using Hc HM.
    intros H. destruct (w_callret _ _ _ _ _ H) as (w0 & -> & H0).
    destruct (pop_main c0 eq_refl ns t w0 x H0) as (a & He & Hr).
    exists a. split; [by apply effect_mod|done].
  Qed.

  Lemma w_empty ns t w b :
    swcallret c M ns t SEmpty w (SBool b) -> exists a, effect c t w a a /\ b = bool_decide (a = []).
  Proof using Hc HM.
    intros H. destruct (w_callret _ _ _ _ _ H) as (w0 & -> & H0).
    destruct (empty_main c0 eq_refl ns t w0 b H0) as (a & He & Hr).
    exists a. split; [by apply effect_mod|done].
  Qed.

  Lemma w_push_fail ns t b v w :
    swcallret c M ns t (SPush b v) w (SBool false) ->
    (c_node_based c = false \/ b = true) /\
    exists st, st ∈ w /\ (s_pool (s_sh (r_post st))).1 = c_null c /\
               (c_throws c = false -> exhausted c (r_post st)).
  Proof using Hc HM.
    intros H. destruct (w_callret _ _ _ _ _ H) as (w0 & -> & H0).
    destruct (push_fail_main c0 eq_refl ns t b v w0 H0) as (Hb & st & Hs & Hp & He). split; [exact Hb|].
    exists (mrec M st). split; [by apply elem_of_list_fmap_1|]. split; [exact Hp|].
    intros Hth. by apply exhausted_mod, He.
  Qed.

  Lemma w_exn ns t o w es :
    swcallret c M ns t o w (SExn es) ->
    match o with SPush _ _ | SRange _ _ => True | _ => False end ->
    (exists a, effect c t w a a) /\ forall st, st ∈ w -> ch_thread (r_ch st) = t -> silent c st.
  Proof using Hc HM.
    intros H Ho. destruct (w_callret _ _ _ _ _ H) as (w0 & -> & H0).
    destruct (exn_main c0 eq_refl ns t o w0 es H0 Ho) as ((a & He) & Hs).
    split; [exists a; by apply effect_mod|]. intros st Hin Ht.
    apply elem_of_list_fmap in Hin as (st0 & -> & Hin). apply silent_mod. by apply Hs.
  Qed.

  (** *** Progress *)
  Lemma sim_cont chs : forall s k h s1,
    near s k ->
    (forall t l, is_Some (s_pcs (mstate M s) !! t) -> (N.of_nat (k t l) < M)%N) ->
    swcont c M (mstate M s) k chs h s1 ->
    exists s', s1 = mstate M s' /\ srun c0 s chs = Some (h, s').
  Proof using Hc HM.
    induction chs as [|ch chs IH]; intros s k h s1 Hn Hk Hco; inversion Hco; subst.
    - by exists s.
    - match goal with H : sstep c (mstate M s) ch = SNext _ _ |- _ => rename H into Hs end.
      destruct (sim_step _ _ _ _ _ Hn Hk Hs) as (s' & -> & Hs0 & Hn').
      match goal with H : swcont c M (mstate M s') _ chs _ _ |- _ => rename H into Hco' end.
      edestruct (IH s' _ _ _ Hn' ltac:(eassumption) Hco') as (s'' & -> & Hr).
      exists s''. split; [done|]. cbn [srun]. by rewrite Hs0, Hr.
  Qed.

  Lemma w_live ns hist s k chs h s' :
    swat c M ns hist s k -> Forall s_fair chs -> swcont c M s k chs h s' ->
    (forall t r, Res t r ∉ h) ->
    length chs <= length (s_invoked chs) +
      s_bound (size (s_pcs s) + length (s_invoked chs))
              (2 * s_alive s + msum s_work (s_pcs s) + sum_list (s_opwork <$> s_invoked chs))
              (s_alive s + msum s_elems (s_pcs s) + sum_list (s_opelems <$> s_invoked chs)).
  Proof using Hc HM.
    intros Hat HF Hco Hh. destruct (sim_at _ _ _ _ Hat) as (Hk & s1 & -> & Hre & Hn).
    destruct (sim_cont _ _ _ _ _ Hn Hk Hco) as (s1' & -> & Hr).
    pose proof (live_main c0 eq_refl ns hist s1 chs h s1' Hre HF Hr Hh) as Hb.
    rewrite alive_mod. change (s_pcs (mstate M s1)) with (mpc M <$> s_pcs s1).
    rewrite !msum_mod by (apply work_mod || apply elems_mod). by rewrite map_size_fmap.
  Qed.

  Lemma w_enabled ns hist s t :
    swreach c M ns hist s -> is_Some (s_pcs s !! t) ->
    exists s' evs, sstep c s (Run t false None false) = SNext s' evs.
  Proof using Hc HM.
    intros H Ht. destruct (wreach_sim c M Hc HM _ _ _ H) as (s0 & -> & Hre & Hcl).
    simpl in Ht. rewrite lookup_fmap, fmap_is_Some in Ht.
    destruct (enabled_main c0 eq_refl ns hist s0 t Hre Ht) as (s' & evs & Hs).
    exists (mstate M s'), evs. rewrite (sstep_mod c M Hc ltac:(lia)) by done. by rewrite Hs.
  Qed.
End main.
