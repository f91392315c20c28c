(** * The queue is lock-free also if compare-exchanges fail spuriously

    A spurious failure costs one attempt; if there are finitely many, some call
    completes. *)
From stdpp Require Import gmap list numbers.
From Verif Require Import Lin LiveSum PoolModel Chain PoolProofs QueueModel QueueSpec QueueObs
  QueueInv QueueStep QueueSafe QueueObsProofs QueueQuiet QueueLive.

Set Default Proof Using "Type".

(** ** Vocabulary of the statement *)

(** Steps of threads and invocations of thread-safe operations. *)
Definition q_sync (ch : qchoice) : Prop :=
  match ch with Unsync _ _ _ _ => False | _ => True end.
(** The steps at which a weak compare-exchange fails spuriously (if there is one
    at this point). *)
Definition q_fails (ch : qchoice) : bool :=
  match ch with Run _ sp _ _ => sp | _ => false end.
Definition q_spurious (chs : list qchoice) : nat := length (List.filter q_fails chs).

Section live.
  Context (c : cfg).
  Notation GI := (GI c).
  Notation tinv := (tinv c).
  Notation Inv := (Inv c).

  (** A spurious failure changes nothing but the thread's own attempt. *)
  Lemma tstep_spurious x pc addr thr x' pc' :
    tstep c x pc true addr thr = TGo x' pc' ->
    tstep c x pc false addr thr = TGo x' pc' \/ (x' = x /\ q_work pc' <= q_work pc).
  Proof.
    destruct pc as [b v []|v n k|n tag|n|n tl|n tl nx'|n tl nx'|n tl|n tl np| |hd|hd tl|hd tl nx'|tl np
                   |hd np acc|n [] k|k| |h| |tl|r]; cbn [tstep astep dstep]; try (intros H; left; exact H).
    - rewrite decide_False by (by intros [? _]). intros [= <- <-]. right. by rewrite set_heap_pool_id.
    - destruct (q_heap x !! tl.1); [|done]. rewrite decide_False by (by intros [? _]).
      intros [= <- <-]. by right.
    - destruct thr; [intros H; by left|]. destruct (decide (length acc < c_words c)); [intros H; by left|].
      rewrite decide_False by (by intros [? _]). intros [= <- <-]. by right.
    - rewrite decide_False by (by intros [? _]). intros [= <- <-]. right. rewrite set_heap_pool_id.
      by destruct k.
  Qed.

  Context (Htag : c_tagmod c = None).

  Lemma run_spurious s g t addr thr s' evs n :
    Inv s g -> qstep c s (Run t true addr thr) = QNext s' evs -> (forall r, Res t r ∉ evs) ->
    size (q_pcs s) <= n ->
    size (q_pcs s') = size (q_pcs s) /\ pot c n s' <= pot c n s + (2 * c_words c + 21).
  Proof using Htag.
    intros HI Hs Hev Hn. pose proof (qstep_ok c Htag _ _ (Run t true addr thr) HI) as Hok.
    rewrite Hs in Hok. destruct Hok as (g' & [HG' HT'] & _). cbn [qstep] in Hs.
    destruct (q_pcs s !! t) as [pc|] eqn:Hpc; [|done].
    assert (Hgo : (exists r, pc = PcRet r) \/ exists x' pc', tstep c (q_sh s) pc true addr thr = TGo x' pc' /\
                    s' = QSt x' (<[t := pc']> (q_pcs s)) /\ evs = []).
    { destruct pc; try (right; destruct (tstep _ _ _ _ _ _); simplify_eq/=; by eauto). left. eauto. }
    destruct Hgo as [[r ->]|(x' & pc' & Hst & -> & ->)].
    { simplify_eq/=. exfalso. apply (Hev r). left. }
    destruct (tstep_spurious _ _ _ _ _ _ Hst) as [Hst0|[-> Hw]].
    - assert (Hs0 : qstep c s (Run t false addr thr) = QNext (QSt x' (<[t := pc']> (q_pcs s))) []).
      { cbn [qstep]. rewrite Hpc. destruct pc; try (by rewrite Hst0). done. }
      destruct (run_dec c Htag _ _ _ _ _ _ _ n HI Hs0 Hev Hn) as [H1 H2]. split; [exact H1|]. lia.
    - split; [apply map_size_insert_Some; eauto|]. specialize (HT' t). cbn [q_pcs q_sh] in HT'.
      rewrite lookup_insert in HT'. destruct HT' as [HT' _]. apply rk_le in HT'.
      unfold pot, energy. cbn [q_pcs q_sh].
      pose proof (msum_insert q_work _ _ _ pc' Hpc) as Hmw.
      pose proof (msum_insert (rk c (q_sh s)) _ _ _ pc' Hpc) as Hmr.
      set (l := 2 * c_words c + 21) in *.
      assert (He : lag c (q_sh s) + msum q_work (<[t := pc']> (q_pcs s)) <= lag c (q_sh s) + msum q_work (q_pcs s))
        by lia.
      apply (Nat.mul_le_mono_r _ _ (n * l + 1)) in He. lia.
  Qed.

  Lemma spurious_run chs : forall s g h s' n,
    Inv s g -> Forall q_sync chs -> qrun c s chs = Some (h, s') -> (forall t r, Res t r ∉ h) ->
    size (q_pcs s) + length (q_invoked chs) <= n ->
    length chs <= pot c n s + sum_list (q_opwork <$> q_invoked chs) * (n * (2 * c_words c + 21) + 1)
                  + length (q_invoked chs) * (2 * c_words c + 22)
                  + q_spurious chs * (2 * c_words c + 22).
  Proof using Htag.
    induction chs as [|ch chs IH]; intros s g h s' n HI Hf Hr Hn Hsz; [simpl; lia|].
    apply list.Forall_cons in Hf as [Hf1 Hf2]. cbn [qrun] in Hr.
    destruct (qstep c s ch) as [s1 e1| |] eqn:Hs; [|done..].
    destruct (qrun c s1 chs) as [[h2 s2]|] eqn:Hr2; [|done]. injection Hr as <- <-.
    pose proof (qstep_ok c Htag _ _ ch HI) as Hok. rewrite Hs in Hok. destruct Hok as (g1 & HI1 & _).
    assert (Hn2 : forall t r, Res t r ∉ h2) by (intros t r ?; apply (Hn t r), elem_of_app; by right).
    assert (Hn1 : forall t r, Res t r ∉ e1) by (intros t r ?; apply (Hn t r), elem_of_app; by left).
    destruct ch as [t o tf|t sp addr thr|t o addrs thr]; simpl in Hf1; [| |done].
    - assert (Hi : q_invoked (Invoke t o tf :: chs) = o :: q_invoked chs) by done.
      assert (Hsp : q_spurious (Invoke t o tf :: chs) = q_spurious chs) by done.
      rewrite Hi in Hsz |- *. rewrite Hsp. cbn [length fmap list_fmap sum_list] in *.
      destruct (pot_invoke c Htag _ _ _ _ _ _ _ n HI Hs) as [Hsz1 Hp].
      specialize (IH s1 g1 h2 s2 n HI1 Hf2 Hr2 Hn2 ltac:(lia)).
      cbn [list_fmap] in *. simpl.
      set (S0 := sum_list _) in *. set (l := 2 * c_words c + 21) in *. set (sp := q_spurious chs) in *.
      set (X := sp * _) in *. lia.
    - assert (Hi : q_invoked (Run t sp addr thr :: chs) = q_invoked chs) by done.
      rewrite Hi in Hsz |- *. destruct sp.
      + assert (Hsp : q_spurious (Run t true addr thr :: chs) = S (q_spurious chs)) by done. rewrite Hsp.
        destruct (run_spurious _ _ _ _ _ _ _ n HI Hs ltac:(auto) ltac:(lia)) as [Hsz1 Hp].
        specialize (IH s1 g1 h2 s2 n HI1 Hf2 Hr2 Hn2 ltac:(lia)). cbn [length].
        rewrite Nat.mul_succ_l. lia.
      + assert (Hsp : q_spurious (Run t false addr thr :: chs) = q_spurious chs) by done. rewrite Hsp.
        destruct (run_dec c Htag _ _ _ _ _ _ _ n HI Hs ltac:(auto) ltac:(lia)) as [Hsz1 Hp].
        specialize (IH s1 g1 h2 s2 n HI1 Hf2 Hr2 Hn2 ltac:(lia)). cbn [length]. lia.
  Qed.

  Lemma spurious_main ns hist s chs h s' :
    qreach c ns hist s -> Forall q_sync chs -> qrun c s chs = Some (h, s') -> (forall t r, Res t r ∉ h) ->
    length chs <= length (q_invoked chs) +
      q_bound c (size (q_pcs s) + length (q_invoked chs))
                (msum q_work (q_pcs s) + sum_list (q_opwork <$> q_invoked chs)) +
      q_spurious chs * (2 * c_words c + 22).
  Proof using Htag.
    intros Hre Hf Hr Hn. destruct (qreach_ok c Htag _ _ _ Hre) as (g & HI & _).
    pose proof (spurious_run chs s g h s' _ HI Hf Hr Hn (le_n _)) as H.
    pose proof (msum_rk c _ _ HI) as Hrk. unfold q_bound. unfold pot, energy in H.
    assert (lag c (q_sh s) <= 1) as Hl.
    { unfold lag. destruct (lk _ _); [destruct (decide _)|]; lia. }
    set (i := length (q_invoked chs)) in *. set (l := 2 * c_words c + 21) in *.
    assert (2 * c_words c + 22 = l + 1) as Hll by (unfold l; lia). rewrite Hll in *.
    set (w := msum q_work _) in *. set (v := sum_list _) in *. set (n := size _) in *.
    set (X := q_spurious chs * _) in *.
    cbv zeta. apply (Nat.mul_le_mono_r _ _ ((n + i) * l + 1)) in Hl. lia.
  Qed.
End live.
