(** * Concrete executions used as witnesses in PropRaQueueDtor.v *)
From stdpp Require Import gmap list numbers.
From Verif Require Import Lin PoolModel QueueModel QueueDemo RaMem RaFacts RaLog
  RaQueueModel RaQueueObs RaQueueMain RaQueueDemo RaQueueWitness.
From Verif Require RaQueueLast.

(** What a thread had seen at an event, it has seen ever since. *)
Lemma rexec_ev c rel s0 tr s : rexec c rel s0 tr s -> forall t r W, (Res t r, W) ∈ tr -> vle W (r_view s t).
Proof.
  induction 1 as [|tr s ch s' evs He IH Hs]; intros t r W Hin; [by apply elem_of_nil in Hin|].
  apply elem_of_app in Hin.
  assert (Hmv : forall u (V : view) pcs x w, vle (r_view s u) V -> ((Res t r, W) ∈ evs -> t = u /\ vle W V) ->
    vle W (r_view (RSt x w pcs (set_view (r_view s) u V)) t)).
  { intros u V pcs x w Hle Hev. simpl. unfold set_view. destruct Hin as [Hin|Hin].
    - specialize (IH _ _ _ Hin). case_decide as E; [|done]. subst u. intros l. specialize (IH l). specialize (Hle l). lia.
    - destruct (Hev Hin) as [-> Hw]. by rewrite decide_True. }
  destruct ch as [u o tf|u ts sp ad junk|u u']; simpl in Hs.
  - destruct (r_pcs s !! u); [done|]. destruct (qstart c o tf) as [pc|]; [|done]. injection Hs as <- <-.
    apply Hmv; [apply vle_tick|]. intros E. by apply elem_of_list_singleton in E.
  - destruct (r_pcs s !! u) as [pc|]; [|done].
    assert (Hpc : (exists r, pc = PcRet r) \/
      match rtstep c rel (r_x s) (r_w s) (r_view s u) pc ts sp ad junk with
      | RGo x w V pc' => RNext (RSt x w (<[u := pc']> (r_pcs s)) (set_view (r_view s) u V)) []
      | RGRace => RRace
      | RGUB => RUB
      | RGDisabled => RDisabled
      end = RNext s' evs) by (destruct pc; eauto).
    destruct Hpc as [[r' ->]|Hpc].
    + injection Hs as <- <-. apply Hmv; [apply vle_tick|]. intros E. apply elem_of_list_singleton in E.
      injection E as -> -> ->. split; [done|]. intros l. done.
    + destruct (rtstep _ _ _ _ _ _ _ _ _ _) as [x w V pc'| | |] eqn:Hr; try done. injection Hpc as <- <-.
      apply Hmv; [by apply RaQueueLast.rtstep_last in Hr as [Hle _]|]. intros E. by apply elem_of_nil in E.
  - injection Hs as <- <-. apply Hmv; [apply vle_join_l|]. intros E. by apply elem_of_nil in E.
Qed.

(** Thread [t] synchronizes with the threads [us]. *)
Lemma sync_all c rel s0 tr s t (us : list nat) : rexec c rel s0 tr s -> exists s', rexec c rel s0 tr s' /\
  r_x s' = r_x s /\ r_w s' = r_w s /\ r_pcs s' = r_pcs s /\
  (forall u, vle (r_view s u) (r_view s' u)) /\ (forall u, u ∈ us -> vle (r_view s u) (r_view s' t)).
Proof.
  intros He. induction us as [|u us (s' & H1 & H2 & H3 & H4 & H5 & H6)].
  - exists s. do 4 (split; [done|]). split; [intros u l; done|]. intros u Hu. by apply elem_of_nil in Hu.
  - exists (RSt (r_x s') (r_w s') (r_pcs s') (set_view (r_view s') t (vjoin (r_view s' t) (r_view s' u)))).
    split; [rewrite <- (app_nil_r tr); by apply (rexec_step c rel s0 tr s' (RSync u t))|].
    do 3 (split; [done|]). simpl. unfold set_view. split.
    + intros u' l. specialize (H5 u' l). case_decide; [subst|done]. unfold vjoin. lia.
    + intros u' Hu l. rewrite decide_True by done. unfold vjoin. apply elem_of_cons in Hu as [->|Hu].
      * specialize (H5 u l). lia.
      * specialize (H6 u' Hu l). lia.
Qed.

(** Threads that took part in the history [qhist1]. *)
Lemma qhist1_thread u r : Res u r ∈ qhist1 -> u ∈ [0; 1; 2; 3].
Proof.
  intros Hu. unfold qhist1 in Hu. repeat (apply elem_of_cons in Hu as [Hu|Hu]; [simplify_eq; set_solver|]).
  by apply elem_of_nil in Hu.
Qed.

Lemma qdemo_synced : exists tr s, rqreach demoN true [1; 2; 3; 4]%N tr s /\ tr.*1 = qhist1 /\ r_pcs s = ∅ /\
  synced tr (r_view s 4) /\ length (w_head (r_w s)) = 2.
Proof.
  destruct (rshow_reach demoN true [1; 2; 3; 4]%N qsched1
      (fun _ s => (map_to_list (r_pcs s), length (w_head (r_w s)))) qhist1 ([], 2))
    as (tr & s & (addr & s0 & H1 & H2 & H3 & H4 & H5) & E & [= Hp Hl]); [vm_compute; reflexivity|vm_compute; reflexivity|].
  apply map_to_list_empty_iff in Hp.
  destruct (sync_all _ _ _ _ _ 4 [0; 1; 2; 3] H5) as (s' & S1 & _ & S3 & S4 & _ & S6).
  exists tr, s'. split; [by exists addr, s0|]. split; [done|]. split; [by rewrite S4|]. split; [|by rewrite S3].
  intros u r W Hin. pose proof (rexec_ev _ _ _ _ _ H5 u r W Hin) as Hv.
  assert (Hu : Res u r ∈ tr.*1) by (apply elem_of_list_fmap; by exists (Res u r, W)).
  rewrite E in Hu. apply qhist1_thread in Hu.
  specialize (S6 u Hu). intros l. specialize (Hv l). specialize (S6 l). lia.
Qed.

(** Thread 0 has pushed an element, thread 1 has not seen it. *)
Lemma qdemo_unsynced : exists tr s n l, rqreach demoN true [1; 2; 3; 4]%N tr s /\
  tr.*1 = [Inv 0 (Push true [5; 6]%N); Res 0 (RBool true)] /\ r_pcs s = ∅ /\
  qdtor demoN (r_x s) = Some l /\ (q_tail (r_x s)).1 = n /\ r_view s 1 (LData n) < w_acc (r_w s) n.
Proof.
  destruct (rshow_reach demoN true [1; 2; 3; 4]%N (dwhole 0 (Push true [5; 6]%N) 13)
      (fun _ s => (map_to_list (r_pcs s), match qdtor demoN (r_x s) with Some _ => true | None => false end,
         bool_decide (r_view s 1 (LData (q_tail (r_x s)).1) < w_acc (r_w s) (q_tail (r_x s)).1)))
      [Inv 0 (Push true [5; 6]%N); Res 0 (RBool true)] ([], true, true))
    as (tr & s & H1 & E & Hp); [vm_compute; reflexivity|vm_compute; reflexivity|].
  injection Hp as Hp Hd Hb. apply map_to_list_empty_iff in Hp. apply bool_decide_eq_true in Hb.
  destruct (qdtor demoN (r_x s)) as [l|] eqn:Hq; [|done].
  exists tr, s, (q_tail (r_x s)).1, l. eauto 10.
Qed.

(** Thread 4 of the first witness calls pop. *)
Lemma qdemo_alone : exists tr s s', rqreach demoN true [1; 2; 3; 4]%N tr s /\ sees_all (r_w s) (r_view s 4) /\
  rstep demoN true s (RRun 4 (length (w_head (r_w s))) false None 77%N) = RNext s' [] /\
  r_pcs s !! 4 = Some PcOHead /\ length (w_head (r_w s)) = 2.
Proof.
  destruct qdemo_synced as (tr & s1 & Hrs & E & He & Hsy & Hl).
  pose proof (RaQueueLast.seen_main demoN eq_refl _ _ _ 4 Hrs He Hsy) as Hsees.
  destruct Hrs as (addr & s0 & H1 & H2 & H3 & H4 & H5).
  set (V := tick 4 (r_view s1 4)).
  set (s2 := RSt (r_x s1) (r_w s1) (<[4 := PcOHead]> (r_pcs s1)) (set_view (r_view s1) 4 V)).
  assert (He2 : rexec demoN true s0 (tr ++ [(Inv 4 Pop, V)]) s2).
  { eapply (rexec_step _ _ _ _ _ (RInvoke 4 Pop false)); [exact H5|]. simpl.
    assert (Hn : r_pcs s1 !! 4 = None) by (rewrite He; done). rewrite Hn. done. }
  assert (Hv2 : r_view s2 4 (LRoot 1) = length (w_head (r_w s2))).
  { simpl. unfold set_view. rewrite decide_True by done. destruct Hsees as (_ & Hx & _). exact Hx. }
  assert (Hstep : exists s', rstep demoN true s2 (RRun 4 (length (w_head (r_w s2))) false None 77%N) = RNext s' []).
  { unfold rstep. change (r_pcs s2) with (<[4 := PcOHead]> (r_pcs s1)). rewrite lookup_insert.
    unfold rtstep. cbn [qaccess hist]. rewrite lookup_app_r, Nat.sub_diag by lia. cbn [lookup list_lookup].
    change (rloc RHead) with (LRoot 1). rewrite Hv2, decide_True by lia. cbn. eexists. reflexivity. }
  destruct Hstep as [s' Hstep]. exists (tr ++ [(Inv 4 Pop, V)]), s2, s'. split; [by exists addr, s0|].
  split; [|split; [done|split; [|done]]].
  - simpl. unfold set_view. rewrite decide_True by done. exact Hsees.
  - simpl. by rewrite lookup_insert.
Qed.
