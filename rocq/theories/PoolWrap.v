(** * The pool with tags that wrap around behaves, within one tag period, like
      the one with unbounded tags *)
From stdpp Require Import gmap list numbers.
From Verif Require Import Lin PoolModel Chain PoolProofs PoolMachine PoolMachineProofs PoolMain PoolWrapObs WrapPool.

Set Default Proof Using "Type".

Definition mppc (M : N) (pc : ppc) : ppc :=
  match pc with
  | PpAlloc b a => PpAlloc b (mapc M a)
  | PpFree n d => PpFree n (mdpc M d)
  | PpRet r => PpRet r
  end.

Section wrap.
  Context {D : Type} (c : cfg) (d0 : D) (M : N) (Hc : c_tagmod c = Some M) (HM : (2 <= M)%N).
  Notation c0 := (nowrap c).

  Definition mpst (s : pstate D) : pstate D :=
    PSt (mheap M (p_heap s)) (mt M (p_pool s)) (p_out s) (mppc M <$> p_pcs s).
  Definition mpout (o : poutcome D) : poutcome D :=
    match o with PNext s evs => PNext (mpst s) evs | PUB => PUB | PDisabled => PDisabled end.

  (** The words that a thread may still compare with [pool_]. *)
  Definition pheld (pc : ppc) : list tagged :=
    match pc with
    | PpAlloc _ (ATest old | ACas old _) | PpFree _ (DSet old | DCas old) => [old]
    | _ => []
    end.
  Definition pclear (s : pstate D) : Prop :=
    forall t pc y, p_pcs s !! t = Some pc -> y ∈ pheld pc ->
      (y.2 <= (p_pool s).2)%N /\ ((p_pool s).2 < y.2 + M)%N.

  Lemma pfits_mod (nd : node D) : ((nx nd).2 < M)%N -> mnode M nd = nd.
  Proof using Type.
    destruct nd as [[p x] d]. simpl. intros H. unfold mnode, mt. simpl. by rewrite N.mod_small.
  Qed.

  Lemma pstep_mod s ch : pclear s -> pfits M ch -> pstep c d0 (mpst s) ch = mpout (pstep c0 d0 s ch).
  Proof using Hc HM.
    intros Hs Hf. assert (HM0 : M <> 0%N) by lia.
    destruct ch as [t o|t sp addr|t o addr|n nd]; cbn [pstep].
    - cbn [mpst p_pcs]. rewrite lookup_fmap. destruct (p_pcs s !! t) as [pc|]; [done|]. cbn [fmap option_fmap option_map].
      destruct o as [b|n|b|n]; try done.
      + cbn [mpout]. unfold mpst. simpl. by rewrite fmap_insert.
      + cbn [p_out]. destruct (decide _); [|done]. cbn [mpout]. unfold mpst. simpl. by rewrite fmap_insert.
    - cbn [mpst p_pcs p_heap p_pool p_out]. rewrite lookup_fmap.
      destruct (p_pcs s !! t) as [pc|] eqn:Hpc; [|done]. cbn [fmap option_fmap option_map].
      destruct pc as [b a|n d|r]; cbn [mppc].
      + rewrite (astep_mod c d0 M Hc HM0).
        * destruct (astep _ _ _ _ _ _ _ _); try done; cbn [maout mpout]; unfold mpst; simpl; by rewrite fmap_insert.
        * destruct a as [|old|old nxt]; [done|done|]. simpl.
          destruct (Hs t _ old Hpc) as [H1 H2]; [by left|]. by apply clear_near.
      + rewrite dstep_mod.
        * destruct (dstep _ _ _ _ _); try done; cbn [mdout mpout]; unfold mpst; simpl; by rewrite fmap_insert.
        * destruct d as [|old|old]; [done|done|]. simpl.
          destruct (Hs t _ old Hpc) as [H1 H2]; [by left|]. by apply clear_near.
      + cbn [mpout]. unfold mpst. simpl. by rewrite fmap_delete.
    - cbn [mpst p_pcs p_heap p_pool p_out].
      rewrite (decide_iff _ (p_pcs s = ∅)) by apply fmap_empty_iff.
      destruct (decide (p_pcs s = ∅)) as [E|]; [|done]. destruct o as [b|n|b|n]; try done.
      + rewrite (alloc_unsafe_mod c d0 M Hc HM0).
        destruct (alloc_unsafe _ _ _ _ _ _); try done; cbn [maout mpout]; unfold mpst; simpl; by rewrite fmap_empty.
      + destruct (decide _); [|done]. rewrite dealloc_unsafe_mod.
        destruct (dealloc_unsafe _ _ _); try done; cbn [mdout mpout]; unfold mpst; simpl; by rewrite fmap_empty.
    - cbn [mpst p_out p_heap p_pool p_pcs]. destruct (decide _); [|done]. cbn [mpout]. unfold mpst. simpl.
      by rewrite mheap_insert, (pfits_mod nd Hf).
  Qed.

  Lemma pinit_mod ns : pinit c d0 ns = mpst (pinit c0 d0 ns).
  Proof using HM.
    unfold pinit, mpst. rewrite (pool_init_mod c d0 M ltac:(lia)). simpl. by rewrite fmap_empty.
  Qed.

  Definition pnear (s : pstate D) (k : nat -> nat) : Prop :=
    forall t pc y, p_pcs s !! t = Some pc -> y ∈ pheld pc ->
      (y.2 <= (p_pool s).2)%N /\ ((p_pool s).2 <= y.2 + N.of_nat (k t))%N.

  Lemma next0 t : next_tag c0 t = (t + 1)%N.
  Proof. done. Qed.

  Lemma next_differs x : ((x + 1) mod M)%N <> (x mod M)%N.
  Proof using HM.
    intros H. pose proof (clear_near M (0, x + 1)%N (0, x)%N) as Hc'. simpl in Hc'.
    specialize (Hc' ltac:(lia) ltac:(lia)). unfold clear, mt in Hc'. simpl in Hc'. rewrite H in Hc'.
    specialize (Hc' eq_refl). injection Hc'. lia.
  Qed.

  (** Tags without wrap-around grow by at most one per step. *)
  Definition pgrows (p p' : tagged) : Prop := p'.2 = p.2 \/ p'.2 = (p.2 + 1)%N.

  Lemma pcount_le p p' :
    pgrows p p' ->
    (p.2 <= p'.2)%N /\
    (p'.2 <= p.2 + N.of_nat (if decide ((mt M p).2 = (mt M p').2) then 0 else 1))%N.
  Proof using HM.
    destruct p as [q x], p' as [q' x']. unfold pgrows, mt. simpl.
    intros [->| ->]; [lia|]. destruct (decide _) as [E|]; [|lia]. symmetry in E.
    by apply next_differs in E.
  Qed.

  Lemma astep_grow b h p a sp addr :
    match astep c0 d0 b h p a sp addr with
    | ACont _ p' a' => p' = p /\ forall y, y ∈ pheld (PpAlloc b a') -> y ∈ pheld (PpAlloc b a) \/ y = p
    | AGot _ p' _ => pgrows p p'
    | _ => True
    end.
  Proof.
    destruct a as [|old|old nxt]; cbn [astep].
    - split; [done|]. intros y Hy. simpl in Hy. apply elem_of_list_singleton in Hy as ->. by right.
    - destruct (decide _); [destruct (_ && _); [|done]; destruct addr; [|done]; destruct (decide _); [by left|done]|].
      destruct (h !! old.1); [|done]. split; [done|]. intros y Hy. by left.
    - destruct (decide _) as [[_ ->]|]; [simpl; by right|]. split; [done|].
      intros y Hy. simpl in Hy. apply elem_of_list_singleton in Hy as ->. by right.
  Qed.

  Lemma dstep_grow n h p d sp :
    match dstep (D:=D) n h p d sp with
    | DCont _ p' d' => p' = p /\ forall y, y ∈ pheld (PpFree n d') -> y ∈ pheld (PpFree n d) \/ y = p
    | DDone _ p' => pgrows p p'
    | DUB => True
    end.
  Proof.
    destruct d as [|old|old]; cbn [dstep].
    - split; [done|]. intros y Hy. simpl in Hy. apply elem_of_list_singleton in Hy as ->. by right.
    - destruct (h !! n); [|done]. split; [done|]. intros y Hy. by left.
    - destruct (decide _) as [[_ ->]|]; [by left|]. split; [done|].
      intros y Hy. simpl in Hy. apply elem_of_list_singleton in Hy as ->. by right.
  Qed.

  (** A step of thread [t] that goes from [pc] to [pc'] and changes [pool_] from
      [p] to [p']. *)
  Lemma pnear_go s k t pc p' pc' :
    pnear s k -> p_pcs s !! t = Some pc -> pgrows (p_pool s) p' ->
    (forall y, y ∈ pheld pc' -> y ∈ pheld pc \/ y = p') ->
    forall t' pc1 y, (<[t := pc']> (p_pcs s)) !! t' = Some pc1 -> y ∈ pheld pc1 ->
      (y.2 <= p'.2)%N /\ (p'.2 <= y.2 + N.of_nat (k t' + (if decide ((mt M (p_pool s)).2 = (mt M p').2) then 0 else 1)))%N.
  Proof using HM.
    intros Hn Hpc Hg Hh t' pc1 y Hpc1 Hy. destruct (pcount_le _ _ Hg) as [G1 G2].
    rewrite Nat2N.inj_add. destruct (decide (t = t')) as [<-|Hne].
    - rewrite lookup_insert in Hpc1. injection Hpc1 as <-. destruct (Hh y Hy) as [Hy'| ->]; [|lia].
      destruct (Hn t pc y Hpc Hy'). lia.
    - rewrite lookup_insert_ne in Hpc1 by done. destruct (Hn t' pc1 y Hpc1 Hy). lia.
  Qed.

  Lemma pnear_step s k ch s' evs :
    pnear s k -> pstep c0 d0 s ch = PNext s' evs -> pnear s' (pcount k (mpst s) ch (mpst s')).
  Proof using HM.
    intros Hn Hs. destruct ch as [t o|t sp addr|t o addr|n nd]; cbn [pstep] in Hs.
    - assert (Hd : exists out pc, s' = PSt (p_heap s) (p_pool s) out (<[t := pc]> (p_pcs s)) /\ pheld pc = []).
      { destruct (p_pcs s !! t); [discriminate Hs|].
        destruct o as [b|n|b|n]; try discriminate Hs; [|destruct (decide _); [|discriminate Hs]];
          injection Hs as <- <-; by eexists _, _. }
      destruct Hd as (out & pc & -> & Hh). intros t' pc' y Hpc' Hy. unfold pcount. simpl in Hpc'.
      destruct (decide (t = t')) as [<-|Hne].
      + rewrite lookup_insert in Hpc'. injection Hpc' as <-. rewrite Hh in Hy. by apply elem_of_nil in Hy.
      + rewrite lookup_insert_ne in Hpc' by done. destruct (Hn t' pc' y Hpc' Hy). simpl. lia.
    - destruct (p_pcs s !! t) as [pc|] eqn:Hpc; [|discriminate Hs].
      assert (Hgo : forall h' p' pc', s' = PSt h' p' (p_out s) (<[t := pc']> (p_pcs s)) -> pgrows (p_pool s) p' ->
        (forall y, y ∈ pheld pc' -> y ∈ pheld pc \/ y = p') -> pnear s' (pcount k (mpst s) (PRun t sp addr) (mpst s'))).
      { intros h' p' pc' -> Hg Hh t' pc1 y Hpc1 Hy.
        exact (pnear_go s k t pc p' pc' Hn Hpc Hg Hh t' pc1 y Hpc1 Hy). }
      destruct pc as [b a|n d|r].
      + pose proof (astep_grow b (p_heap s) (p_pool s) a sp addr) as Ha.
        destruct (astep _ _ _ _ _ _ _ _) as [h' p' a'|h' p' n| | | |]; try discriminate Hs; injection Hs as Hs <-;
          symmetry in Hs.
        * destruct Ha as [-> Ha]. by eapply Hgo; [exact Hs|left|].
        * eapply Hgo; [exact Hs|done|]. intros y Hy. by apply elem_of_nil in Hy.
        * eapply Hgo; [exact Hs|by left|]. intros y Hy. by apply elem_of_nil in Hy.
        * eapply Hgo; [exact Hs|by left|]. intros y Hy. by apply elem_of_nil in Hy.
      + pose proof (dstep_grow n (p_heap s) (p_pool s) d sp) as Ha.
        destruct (dstep _ _ _ _ _) as [h' p' d'|h' p'|]; try discriminate Hs; injection Hs as Hs <-; symmetry in Hs.
        * destruct Ha as [-> Ha]. by eapply Hgo; [exact Hs|left|].
        * eapply Hgo; [exact Hs|done|]. intros y Hy. by apply elem_of_nil in Hy.
      + injection Hs as <- <-. intros t' pc' y Hpc' Hy. simpl in Hpc'.
        apply lookup_delete_Some in Hpc' as [_ Hpc']. destruct (Hn t' pc' y Hpc' Hy). unfold pcount.
        simpl. rewrite Nat2N.inj_add. lia.
    - destruct (decide (p_pcs s = ∅)) as [E|]; [|discriminate Hs].
      assert (E' : p_pcs s' = ∅).
      { destruct o as [b|n|b|n]; try discriminate Hs.
        - destruct (alloc_unsafe _ _ _ _ _ _); try discriminate Hs; by injection Hs as <- <-.
        - destruct (decide _); [|discriminate Hs].
          destruct (dealloc_unsafe _ _ _); try discriminate Hs; by injection Hs as <- <-. }
      intros t' pc' y Hpc'. by rewrite E' in Hpc'.
    - destruct (decide _); [|discriminate Hs]. injection Hs as <- <-. intros t' pc' y Hpc' Hy. simpl in Hpc'.
      destruct (Hn t' pc' y Hpc' Hy). unfold pcount. simpl. rewrite Nat2N.inj_add. lia.
  Qed.

  Lemma pnear_clear s k :
    pnear s k -> (forall t, is_Some (p_pcs s !! t) -> (N.of_nat (k t) < M)%N) -> pclear s.
  Proof using HM.
    intros Hn Hk t pc y Hpc Hy. destruct (Hn t pc y Hpc Hy). specialize (Hk t ltac:(eauto)). lia.
  Qed.

  Lemma psim ns hist s1 k :
    pwexec c d0 M (mpst (pinit c0 d0 ns)) hist s1 k ->
    (forall t, is_Some (p_pcs s1 !! t) -> (N.of_nat (k t) < M)%N) /\
    exists s, s1 = mpst s /\ pexec c0 d0 (pinit c0 d0 ns) hist s /\ pnear s k.
  Proof using Hc HM.
    intros Hw. induction Hw as [|hist s1 k ch s1' evs Hw IH Hf Hs Hb].
    - split.
      { intros t. simpl. rewrite fmap_empty, lookup_empty. by intros [? ?]. }
      exists (pinit c0 d0 ns). split; [done|]. split; [constructor|]. intros t pc y Hpc. done.
    - split; [done|]. destruct IH as (Hk & s & -> & Hre & Hn).
      assert (Hcl : pclear s).
      { apply (pnear_clear s k Hn). intros t Hx. apply Hk. simpl. by rewrite lookup_fmap, fmap_is_Some. }
      rewrite (pstep_mod s ch Hcl Hf) in Hs.
      destruct (pstep c0 d0 s ch) as [s'|  |] eqn:Hst; [|discriminate Hs..].
      injection Hs as <- <-. exists s'. split; [done|]. split; [by econstructor|]. by eapply pnear_step.
  Qed.

  Lemma pwreach_sim ns hist s1 :
    pwreach c d0 M ns hist s1 -> exists s, s1 = mpst s /\ preach c0 d0 ns hist s /\ pclear s.
  Proof using Hc HM.
    intros (H1 & H2 & k & H5). rewrite pinit_mod in H5.
    destruct (psim _ _ _ _ H5) as (Hk & s & -> & Hre & Hn).
    exists s. split; [done|]. split; [done|]. apply (pnear_clear s k Hn).
    intros t Hx. apply Hk. simpl. by rewrite lookup_fmap, fmap_is_Some.
  Qed.

  (** ** The properties *)

  Lemma w_safe ns hist s ch :
    pwreach c d0 M ns hist s -> pfits M ch -> pstep c d0 s ch <> PUB.
  Proof using Hc HM.
    intros H Hf. destruct (pwreach_sim _ _ _ H) as (s0 & -> & Hre & Hcl).
    rewrite (pstep_mod s0 ch Hcl Hf). pose proof (safe_main c0 d0 eq_refl ns hist s0 ch Hre) as Hs.
    by destruct (pstep c0 d0 s0 ch).
  Qed.

  Lemma w_linearizable ns hist s :
    pwreach c d0 M ns hist s -> hw_linearizable (pstart ns) (pspec (c_node_based c)) hist.
  Proof using Hc HM.
    intros H. destruct (pwreach_sim _ _ _ H) as (s0 & -> & Hre & Hcl).
    exact (linearizable_main c0 d0 eq_refl ns hist s0 Hre).
  Qed.

  Lemma w_no_double ns hist s h1 t n h2 :
    pwreach c d0 M ns hist s -> hist = h1 ++ Res t (PGot n) :: h2 -> n ∉ held h1.
  Proof using Hc HM.
    intros H. destruct (pwreach_sim _ _ _ H) as (s0 & -> & Hre & Hcl).
    exact (no_double_main c0 d0 eq_refl ns hist s0 h1 t n h2 Hre).
  Qed.

  Lemma w_between ns hist s h1 t1 n h2 t2 h3 :
    pwreach c d0 M ns hist s -> hist = h1 ++ Res t1 (PGot n) :: h2 ++ Res t2 (PGot n) :: h3 ->
    exists t, Inv t (PFree n) ∈ h2 \/ Inv t (PUFree n) ∈ h2.
  Proof using Hc HM.
    intros H. destruct (pwreach_sim _ _ _ H) as (s0 & -> & Hre & Hcl).
    exact (between_main c0 d0 eq_refl ns hist s0 h1 t1 n h2 t2 h3 Hre).
  Qed.

  Lemma seg_mod (h : gmap N (node D)) L : forall p q, seg h p L q -> seg (mheap M h) p L q.
  Proof.
    induction L as [|n L IH]; intros p q Hs; [exact Hs|]. destruct Hs as [-> (y & Hx & Hs)].
    split; [done|]. exists y. split; [|by apply IH].
    apply nxp_inv in Hx as (nd & Hnd & Hy). unfold nxp. rewrite mheap_lookup, Hnd. simpl. by rewrite Hy.
  Qed.

  Lemma w_available ns hist s t :
    pwreach c d0 M ns hist s -> pquiet s ->
    exists L s', NoDup L /\
      (forall n, n ∈ L <-> (n ∈ ns \/ exists t', Res t' (PGot n) ∈ hist) /\ n ∉ held hist) /\
      prun c d0 s (drain t (length L)) = Some (drained t L, s').
  Proof using Hc HM.
    intros H Hq. destruct (pwreach_sim _ _ _ H) as (s0 & -> & Hre & Hcl).
    unfold pquiet in Hq. cbn [mpst p_pcs] in Hq.
    pose proof (proj1 (fmap_empty_iff _ _) Hq) as Hq0.
    destruct (available_seg c0 d0 eq_refl ns hist s0 Hre Hq0) as (L & HL & Hn & Hs & Hnn).
    destruct s0 as [h p out pcs]. simpl in *. subst pcs.
    destruct (drain_ok c d0 t (mheap M h) L (mt M p) out (seg_mod _ _ _ _ Hs) Hnn) as [s' Hr].
    exists L, s'. split; [done|]. split; [done|]. unfold mpst. simpl. by rewrite fmap_empty.
  Qed.
End wrap.
