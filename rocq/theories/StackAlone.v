(** Solo runs of the stack: lemmas for C60. *)
From stdpp Require Import gmap list numbers.
From Verif Require Import Lin LiveSum PoolModel StackModel StackObs StackLive.
Set Default Proof Using "Type".

Section solo.
  Context (c : cfg) (Htag : c_tagmod c = None).

  Lemma run_pcs s t s' evs :
    sstep c s (Run t false None false) = SNext s' evs ->
    (exists r, evs = [Res t r] /\ s_pcs s' = delete t (s_pcs s)) \/
    (evs = [] /\ exists pc, s_pcs s' = <[t := pc]> (s_pcs s)).
  Proof.
    intros Hs. simpl in Hs. destruct (s_pcs s !! t) as [pc|] eqn:Hpc; [|discriminate Hs].
    assert (Hd : (exists r, pc = PcRet r) \/
      exists x pc', SNext (SSt x (<[t := pc']> (s_pcs s))) [] = SNext s' evs).
    { destruct pc; try (right; destruct (tstep c (s_sh s) _ _ _ _); [by eauto|discriminate Hs..]). left; eauto. }
    destruct Hd as [[r ->]|(x & pc' & Hd)].
    - injection Hs as <- <-. left. eauto.
    - injection Hd as <- <-. right. eauto.
  Qed.

  Lemma sreach_run ns hist s t s' evs :
    sreach c ns hist s -> sstep c s (Run t false None false) = SNext s' evs -> sreach c ns (hist ++ evs) s'.
  Proof.
    intros (H1 & H2 & H3 & H5) Hs. do 2 (split; [done|]). split; [|by econstructor].
    intros t' o Hi. apply elem_of_app in Hi as [Hi|Hi]; [by eapply H3|].
    destruct (run_pcs _ _ _ _ Hs) as [(r & -> & _)|[-> _]].
    - apply elem_of_list_singleton in Hi. discriminate Hi.
    - by apply not_elem_of_nil in Hi.
  Qed.

  Lemma solo_or n t : forall ns hist s,
    sreach c ns hist s -> is_Some (s_pcs s !! t) ->
    (exists k s' r, k <= n /\ srun c s (replicate k (Run t false None false)) = Some ([Res t r], s') /\
       s_pcs s' = delete t (s_pcs s) /\ sreach c ns (hist ++ [Res t r]) s') \/
    exists s', srun c s (replicate n (Run t false None false)) = Some ([], s').
  Proof using Htag.
    induction n as [|n IH]; intros ns hist s Hre Hin; [right; by eexists|].
    destruct (enabled_main c Htag ns hist s t Hre Hin) as (s1 & e1 & Hs).
    pose proof (sreach_run _ _ _ _ _ _ Hre Hs) as Hre1.
    destruct (run_pcs _ _ _ _ Hs) as [(r & -> & Hp)|[-> [pc Hp]]].
    - left. exists 1, s1, r. split; [lia|]. split; [|done]. cbn [replicate srun]. by rewrite Hs.
    - rewrite app_nil_r in Hre1.
      destruct (IH ns hist s1 Hre1) as [(k & s' & r & Hl & Hr & Hd & Hre')|[s' Hr]].
      { rewrite Hp, lookup_insert. eauto. }
      + left. exists (S k), s', r. split; [lia|]. split; [cbn [replicate srun]; by rewrite Hs, Hr|].
        split; [|done]. by rewrite Hd, Hp, delete_insert_delete.
      + right. exists s'. cbn [replicate srun]. by rewrite Hs, Hr.
  Qed.

  Lemma solo_main ns hist s t :
    sreach c ns hist s -> is_Some (s_pcs s !! t) ->
    exists k s' r, k <= S (s_bound (size (s_pcs s)) (2 * s_alive s + msum s_work (s_pcs s)) (s_alive s + msum s_elems (s_pcs s))) /\
      srun c s (replicate k (Run t false None false)) = Some ([Res t r], s') /\
      s_pcs s' = delete t (s_pcs s) /\ sreach c ns (hist ++ [Res t r]) s'.
  Proof using Htag.
    intros Hre Hin. set (n := S _).
    destruct (solo_or n t ns hist s Hre Hin) as [?|[s' Hr]]; [done|]. exfalso.
    pose proof (live_main c Htag ns hist s (replicate n (Run t false None false)) [] s' Hre) as H.
    assert (Hi : s_invoked (replicate n (Run t false None false)) = []).
    { clear. by induction n. }
    rewrite Hi in H. cbn [length fmap list_fmap sum_list foldr plus] in H.
    rewrite replicate_length, ?Nat.add_0_r in H. apply (Nat.lt_irrefl n).
    eapply Nat.le_lt_trans; [apply H; [|done|]|subst n; lia].
    - apply list.Forall_forall. intros ch Hc. apply elem_of_replicate_inv in Hc. by subst ch.
    - intros t' r. apply not_elem_of_nil.
  Qed.

  Lemma srun_app_ s l1 : forall h1 s1 l2 h2 s2,
    srun c s l1 = Some (h1, s1) -> srun c s1 l2 = Some (h2, s2) -> srun c s (l1 ++ l2) = Some (h1 ++ h2, s2).
  Proof.
    revert s. induction l1 as [|ch l1 IH]; intros s h1 s1 l2 h2 s2 H1 H2; cbn [srun app] in *.
    - by simplify_eq.
    - destruct (sstep c s ch) as [s0 e0| |]; [|done|done].
      destruct (srun c s0 l1) as [[h s3]|] eqn:Hr; [|done]. simplify_eq.
      by rewrite (IH _ _ _ _ _ _ Hr H2), <- app_assoc.
  Qed.

  (** All calls can be finished, in any order of the threads. *)
  Lemma drain_main ns : forall ts hist s,
    sreach c ns hist s -> NoDup ts -> (forall t, t ∈ ts <-> is_Some (s_pcs s !! t)) ->
    exists ks rs s', length ks = length ts /\ length rs = length ts /\
      srun c s (concat (zip_with (fun k t => replicate k (Run t false None false)) ks ts)) =
        Some (zip_with Res ts rs, s') /\
      s_pcs s' = ∅ /\ sreach c ns (hist ++ zip_with Res ts rs) s'.
  Proof using Htag.
    induction ts as [|t ts IH]; intros hist s Hre Hnd Hts.
    - exists [], [], s. do 2 (split; [done|]). split; [done|]. split; [|by rewrite app_nil_r].
      apply map_eq. intros t. rewrite lookup_empty. destruct (s_pcs s !! t) eqn:E; [|done].
      exfalso. apply (not_elem_of_nil t), Hts. rewrite E. eauto.
    - apply list.NoDup_cons in Hnd as [Hn Hnd].
      destruct (solo_main ns hist s t Hre) as (k & s1 & r & _ & Hr & Hp & Hre1).
      { apply Hts. left. }
      destruct (IH (hist ++ [Res t r]) s1 Hre1 Hnd) as (ks & rs & s' & Hk & Hl & Hrun & He & Hre').
      { intros t'. rewrite Hp. destruct (decide (t = t')) as [->|Hne].
        - rewrite lookup_delete. split; [done|]. intros [? ?]; done.
        - rewrite lookup_delete_ne by done. rewrite <- Hts, elem_of_cons. split; [by right|].
          intros [->|?]; done. }
      exists (k :: ks), (r :: rs), s'. split; [by simpl; f_equal|]. split; [by simpl; f_equal|].
      cbn [zip_with concat]. split; [by apply (srun_app_ _ _ _ _ _ _ _ Hr Hrun)|].
      split; [done|]. by rewrite <- app_assoc in Hre'.
  Qed.
End solo.
