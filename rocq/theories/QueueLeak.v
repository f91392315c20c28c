(** * The queue: an exception costs at most one node *)
From stdpp Require Import gmap list numbers.
From Verif Require Import Lin PoolModel Chain PoolProofs QueueModel QueueSpec QueueObs QueueLeakSpec
  QueueInv QueueStep QueueSafe QueueObsProofs QueueQuiet QueueSolo QueueMain.

Set Default Proof Using "Type".

Lemma size_cover (h : gmap N qnode) (L : list N) :
  (forall n, is_Some (h !! n) -> n ∈ L) -> size h <= length L.
Proof.
  intros HL. rewrite <- size_dom. transitivity (size (list_to_set L : gset N)).
  - apply subseteq_size. intros n Hn. apply elem_of_list_to_set, HL. by apply elem_of_dom.
  - clear HL. induction L as [|n L IH]; [by rewrite list_to_set_nil, size_empty|].
    rewrite list_to_set_cons, size_union_alt, size_singleton. simpl.
    assert (size (list_to_set L ∖ {[n]} : gset N) <= size (list_to_set L : gset N)); [|lia].
    apply subseteq_size. set_solver.
Qed.

Lemma thrown_exec c s0 k hist s : qexec_thrown c s0 k hist s -> qexec c s0 hist s.
Proof. induction 1; [constructor|by econstructor]. Qed.

Lemma thrown_reach c ns k hist s : qreach_thrown c ns k hist s -> qreach c ns hist s.
Proof.
  intros (addr & s0 & H1 & H2 & H3 & H4 & H5). exists addr, s0.
  do 4 (split; [done|]). by eapply thrown_exec.
Qed.

Section leak.
  Context (c : cfg) (Htag : c_tagmod c = None).
  Notation Inv := (QueueInv.Inv c).

  (** At most [k] nodes are lost. *)
  Definition lost (k : nat) (g : ghost) : Prop :=
    exists K : list N, length K <= k /\ forall n, g_own g !! n = Some OL -> n ∈ K.

  Lemma lost_step k j g g' : lost k g -> lossy j g g' -> lost (k + j) g'.
  Proof.
    intros (K & HK & HO) (K' & HK' & Hj). exists (K ++ K'). rewrite app_length. split; [lia|].
    intros n Hn. apply elem_of_app. destruct (HK' n Hn) as [H|H]; [left; by apply HO|by right].
  Qed.

  Lemma thrown_loss s ch s' evs g g' :
    qstep c s ch = QNext s' evs -> loss ch s g g' -> lossy (thrown s ch) g g'.
  Proof.
    destruct ch as [t o tf|t sp addr thr|t o addrs thr].
    - intros _ H. by apply lossless_lossy.
    - simpl. destruct (q_pcs s !! t) as [pc|]; [|done]. intros _. unfold cost.
      destruct thr, pc; done.
    - intros _ H. simpl in H. unfold ucost in H. destruct o, thr; exact H.
  Qed.

  Lemma exec_lost ns k hist s :
    qreach_thrown c ns k hist s -> exists g, Inv s g /\ Lag c s /\ lost k g.
  Proof using Htag.
    intros (addr & s0 & Hnd & Hnn & Hne & Hi & He).
    destruct (qinit_ok c Htag _ _ _ Hnd Hnn Hne Hi) as (g0 & HI0 & Hl0 & Ha0 & HO0).
    assert (HL0 : Lag c s0).
    { intros np Hx Hn. exfalso. destruct HI0 as [HG0 _].
      destruct (tail_next _ _ _ _ HG0 Hx Hn) as (pre & Hq).
      pose proof (gi_len_a _ _ _ HG0) as Hlen. rewrite Hq, Ha0, app_length in Hlen. simpl in Hlen. lia. }
    induction He as [|k hist s ch s' evs He (g & HI & HL & HO) Hs].
    - exists g0. split; [done|]. split; [done|]. exists []. split; [done|]. intros n Hn. by apply HO0 in Hn.
    - pose proof (qstep_ok c Htag _ _ ch HI) as Hok. rewrite Hs in Hok.
      destruct Hok as (g' & HI' & _ & _ & HK). exists g'. split; [done|].
      split; [by eapply qstep_lag; [exact Htag|exact HI|exact HL|exact Hs]|].
      eapply lost_step; [exact HO|]. by eapply thrown_loss.
  Qed.

  (** Without a call in progress every node is in the queue, in the pool or lost. *)
  Lemma quiet_own s g K n :
    Inv s g -> q_pcs s = ∅ -> (forall n, g_own g !! n = Some OL -> n ∈ K) ->
    is_Some (q_heap (q_sh s) !! n) -> n ∈ g_qn g ++ g_fn g ++ K.
  Proof.
    intros [HG HT] He HK. rewrite <- (pi_dom _ _ _ _ _ (gi_pi _ _ _ HG)), !elem_of_app.
    rewrite (gi_qmem _ _ _ HG), (pi_mem _ _ _ _ _ (gi_pi _ _ _ HG)).
    intros [[| |t|] Ho]; auto. exfalso. pose proof (HT t) as Ht. rewrite He, lookup_empty in Ht.
    by eapply Ht in Ho.
  Qed.

  Lemma leak_push ns k hist s a t b v tf :
    qreach_thrown c ns k hist s -> quiescent s -> qcontents c s a -> length v = c_words c ->
    S (length a) + k < size (q_heap (q_sh s)) ->
    exists j s', qrun c s (Invoke t (Push b v) tf :: replicate j (Run t false None false)) =
        Some ([Lin.Inv t (Push b v); Res t (RBool true)], s') /\
      quiescent s' /\ qcontents c s' (a ++ [v]).
  Proof using Htag.
    intros H Hq Ha Hv Hlt. destruct (exec_lost _ _ _ _ H) as (g & HI & HLag & K & HlK & HK).
    assert (HL : nonlag c (q_sh s)) by (by eapply lag_quiet).
    rewrite (inv_contents c _ _ _ HI Ha) in Hlt |- *.
    destruct (gi_pend c g s t (Push b v) HI Hq) as (g1 & HG1 & Hp & Ha1 & Hf1).
    assert (Hfn : g_fn g <> []).
    { intros Hfn. pose proof (size_cover _ _ (fun n => quiet_own s g K n HI Hq HK)) as Hsz.
      rewrite Hfn in Hsz. simpl in Hsz. rewrite app_length in Hsz. destruct HI as [HG _].
      rewrite (gi_len_a _ _ _ HG) in Hsz. lia. }
    assert (Hst : qstart c (Push b v) tf = Some (PcAlloc b v ALoad)).
    { simpl. by rewrite decide_True. }
    destruct (push_solo c Htag _ _ t b v HG1 Hp Hv HL) as (j & x' & g' & Hts & HG' & Ha' & _); [congruence|].
    exists (S j), (QSt x' ∅). split; [|split; [done|]].
    - by eapply qrun_call.
    - rewrite <- Ha1, <- Ha'. by apply (gi_contents c (QSt x' ∅)).
  Qed.

  Lemma leak_dtor ns k hist s :
    qreach_thrown c ns k hist s -> quiescent s ->
    exists l, qdtor c (q_sh s) = Some l /\ NoDup l /\
      (forall n, n ∈ l -> is_Some (q_heap (q_sh s) !! n)) /\ size (q_heap (q_sh s)) <= length l + k.
  Proof using Htag.
    intros H He. destruct (exec_lost _ _ _ _ H) as (g & HI & _ & K & HlK & HK). unfold qdtor.
    destruct (dtor_pop c Htag (S (size (q_heap (q_sh s)))) s g HI He) as (x' & g' & -> & HI' & Ha' & Hdom & Hlo).
    { pose proof HI as [HG _]. pose proof (gi_size _ _ _ HG). lia. }
    pose proof HI' as [HG' HT']. simpl in HG'.
    destruct (gi_head_dom _ _ _ HG') as [nd Hnd]. rewrite (dealloc_unsafe_ok _ _ _ _ Hnd).
    pose proof (gi_len_a _ _ _ HG') as Hlen. rewrite Ha' in Hlen. simpl in Hlen.
    destruct (gi_head_cons _ _ _ HG') as [q Hq].
    assert (q = []) as -> by (destruct q; [done|rewrite Hq in Hlen; simpl in Hlen; lia]).
    pose proof (gi_nodes_nodup _ _ _ HG') as Hdup. rewrite Hq in Hdup. simpl in Hdup.
    exists ((q_head x').1 :: g_fn g').
    pose proof (gi_size _ _ _ HG') as Hsz.
    pose proof (gi_pi _ _ _ HG') as HP.
    split; [|split; [done|split]].
    - apply pool_dtor_seg.
      + cbn [fst]. split; [done|]. eexists. rewrite nxp_insert. split; [done|]. simpl.
        apply seg_insert_ne; [by apply list.NoDup_cons in Hdup as [? _]|apply HP].
      + done.
      + intros Hn. apply elem_of_cons in Hn as [Hn|Hn].
        * apply (gi_null_nin _ _ _ HG'). rewrite Hq, Hn. left.
        * apply (pi_mem _ _ _ _ _ HP) in Hn. by eapply PI_not_null in Hn.
      + rewrite map_size_insert, Hnd. simpl. lia.
    - intros n Hn. rewrite <- elem_of_dom, <- Hdom, elem_of_dom.
      apply (pi_dom _ _ _ _ _ HP). apply elem_of_cons in Hn as [->|Hn].
      + exists OQ. apply (gi_qmem _ _ _ HG'). rewrite Hq. left.
      + exists OF. by apply (pi_mem _ _ _ _ _ HP).
    - rewrite <- size_dom, <- Hdom, size_dom.
      pose proof (size_cover _ _ (fun n => quiet_own (QSt x' ∅) g' K n HI' eq_refl
                    (fun n Hn => HK n (Hlo n Hn)))) as Hc. simpl in Hc.
      rewrite Hq in Hc. simpl in Hc. rewrite app_length in Hc. simpl. lia.
  Qed.
End leak.
