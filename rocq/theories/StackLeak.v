(** * The stack: an exception costs at most one node *)
From stdpp Require Import gmap list numbers.
From Verif Require Import Lin PoolModel Chain PoolProofs StackModel StackSpec StackObs StackLeakSpec
  StackInv StackStep StackSafe StackObsProofs StackQuiet.

Set Default Proof Using "Type".

Lemma size_cover (h : gmap N snode) (L : list N) :
  (forall n, is_Some (h !! n) -> n ∈ L) -> size h <= length L.
Proof.
  intros HL. rewrite <- size_dom. transitivity (size (list_to_set L : gset N)).
  - apply subseteq_size. intros n Hn. apply elem_of_list_to_set, HL. by apply elem_of_dom.
  - clear HL. induction L as [|n L IH]; [by rewrite list_to_set_nil, size_empty|].
    rewrite list_to_set_cons, size_union_alt, size_singleton. simpl.
    assert (size (list_to_set L ∖ {[n]} : gset N) <= size (list_to_set L : gset N)); [|lia].
    apply subseteq_size. set_solver.
Qed.

Section leak.
  Context (c : cfg) (Htag : c_tagmod c = None).
  Notation Inv := (Inv c).

  (** At most [k] nodes are lost. *)
  Definition lost (k : nat) (g : ghost) : Prop :=
    exists K : list N, length K <= k /\ forall n, g_own g !! n = Some OL -> n ∈ K.

  Lemma lost_step k j g g' : lost k g -> lossy (Some j) g g' -> lost (k + j) g'.
  Proof.
    intros (K & HK & HO) (K' & HK' & Hj). exists (K ++ K'). rewrite app_length. split; [lia|].
    intros n Hn. apply elem_of_app. destruct (HK' n Hn) as [H|H]; [left; by apply HO|by right].
  Qed.

  Lemma thrown_loss s ch s' evs j g g' :
    sstep c s ch = SNext s' evs -> thrown s ch = Some j -> loss ch s g g' -> lossy (Some j) g g'.
  Proof.
    destruct ch as [t o|t sp addr thr|t o addrs thr].
    - intros _ [= <-] H. by apply lossless_lossy.
    - simpl. destruct (s_pcs s !! t) as [pc|]; [|done]. intros _. unfold cost. destruct thr.
      + intros Hj HK. destruct pc; simplify_eq; exact HK.
      + by intros [= <-].
    - intros _ [= <-] H. exact H.
  Qed.

  Lemma exec_lost ns k hist s :
    NoDup ns -> c_null c ∉ ns -> sexec_thrown c (sinit c ns) k hist s -> hist_ok hist ->
    exists g, Inv s g /\ lost k g.
  Proof using Htag.
    intros Hnd Hnn. induction 1 as [|k hist s ch j s' evs He IH Ht Hs]; intros Hok.
    - destruct (sinit_ok c ns Hnd Hnn) as (g & HI & _ & _ & HL). exists g. split; [done|].
      exists []. split; [done|]. intros n Hn. by apply HL in Hn.
    - apply hist_ok_app in Hok as [Hok1 Hok2]. destruct (IH Hok1) as (g & HI & HL).
      pose proof (sstep_ok c Htag _ _ ch (proj2 (sstep_evs _ _ _ _ _ Hs) Hok2) HI) as Hst. rewrite Hs in Hst.
      destruct Hst as (g' & HI' & _ & _ & _ & Hlo). exists g'. split; [done|].
      eapply lost_step; [exact HL|]. by eapply thrown_loss.
  Qed.

  (** Without a call in progress every node is on the stack, in the pool or lost. *)
  Lemma quiet_own s g K n :
    Inv s g -> s_pcs s = ∅ -> (forall n, g_own g !! n = Some OL -> n ∈ K) ->
    is_Some (s_heap (s_sh s) !! n) -> n ∈ g_sn g ++ g_fn g ++ K.
  Proof.
    intros [HG HT] He HK. rewrite <- (pi_dom _ _ _ _ _ (gi_pi _ _ _ HG)), !elem_of_app.
    rewrite (gi_mem _ _ _ HG), (pi_mem _ _ _ _ _ (gi_pi _ _ _ HG)).
    intros [[| |t|] Ho]; auto. exfalso. pose proof (HT t) as Ht. rewrite He, lookup_empty in Ht.
    apply Ht in Ho. by apply elem_of_nil in Ho.
  Qed.

  Lemma leak_push ns k hist s a t b v :
    NoDup ns -> c_null c ∉ ns -> sexec_thrown c (sinit c ns) k hist s -> hist_ok hist ->
    quiescent s -> scontents c s a -> length a + k < size (s_heap (s_sh s)) ->
    exists j s', srun c s (Invoke t (SPush b v) :: replicate j (Run t false None false)) =
        Some ([Lin.Inv t (SPush b v); Res t (SBool true)], s') /\
      quiescent s' /\ scontents c s' (v :: a).
  Proof using Htag.
    intros Hnd Hnn He Hok Hq Ha Hlt. destruct (exec_lost _ _ _ _ Hnd Hnn He Hok) as (g & HI & K & HlK & HK).
    rewrite (inv_contents c _ _ _ HI Ha) in Hlt |- *. pose proof HI as [HG _].
    assert (Hfn : g_fn g <> []).
    { intros Hfn. pose proof (size_cover _ _ (fun n => quiet_own s g K n HI Hq HK)) as Hsz.
      rewrite Hfn in Hsz. simpl in Hsz. rewrite app_length in Hsz.
      rewrite (vals_length _ _ _ (gi_a _ _ _ HG)) in Hsz. lia. }
    destruct (push_solo c _ _ b v HG Hfn) as (j & x' & Hts & _).
    exists (S j), (SSt x' ∅).
    split; [by apply (srun_call c s t (SPush b v) (PcAlloc b v ALoad) j _ _ Hq eq_refl)|]. split; [done|].
    destruct (solo_ok c Htag s g t (SPush b v) _ j x' _ HI Hq I eq_refl Hts) as (a' & Hsp & Hc).
    inversion Hsp; subst. done.
  Qed.

  Lemma leak_dtor ns k hist s a :
    NoDup ns -> c_null c ∉ ns -> sexec_thrown c (sinit c ns) k hist s -> hist_ok hist ->
    quiescent s -> scontents c s a ->
    exists l, sdtor c (s_sh s) = Some (a, l) /\ NoDup l /\
      (forall n, n ∈ l -> is_Some (s_heap (s_sh s) !! n)) /\ size (s_heap (s_sh s)) <= length l + k.
  Proof using Htag.
    intros Hnd Hnn He Hok Hq Ha. destruct (exec_lost _ _ _ _ Hnd Hnn He Hok) as (g & HI & K & HlK & HK).
    rewrite (inv_contents c _ _ _ HI Ha). unfold sdtor.
    destruct (dtor_pop c Htag (S (size (s_heap (s_sh s)))) s g HI Hq) as (x' & g' & -> & HI' & Ha' & Hdom & Hlo).
    { pose proof HI as [HG _]. pose proof (gi_size c _ _ HG). lia. }
    pose proof HI' as [HG' HT']. simpl in HG'. exists (g_fn g').
    pose proof (gi_pi _ _ _ HG') as HP. pose proof (gi_size c _ _ HG') as Hsz. rewrite Ha' in Hsz.
    split; [|split; [apply HP|split]].
    - rewrite (pool_dtor_seg c _ _ _ (g_fn g')); [done|apply HP|apply HP| |lia].
      intros Hn. apply (pi_mem _ _ _ _ _ HP) in Hn. by eapply PI_not_null in Hn.
    - intros n Hn. rewrite <- elem_of_dom, <- Hdom, elem_of_dom.
      apply (pi_dom _ _ _ _ _ HP). exists OF. by apply (pi_mem _ _ _ _ _ HP).
    - rewrite <- size_dom, <- Hdom, size_dom.
      pose proof (size_cover _ _ (fun n => quiet_own (SSt x' ∅) g' K n HI' eq_refl
                    (fun n Hn => HK n (Hlo n Hn)))) as Hc. simpl in Hc.
      rewrite (proj2 (gi_a_nil c _ _ HG') Ha') in Hc. simpl in Hc. rewrite app_length in Hc. lia.
  Qed.
End leak.
