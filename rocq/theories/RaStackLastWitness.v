(** * Concrete executions used as witnesses in PropRaStackDtor.v *)
From stdpp Require Import gmap list numbers.
From Verif Require Import Lin PoolModel StackModel StackSpec StackObs StackDemo StackWitness RaMem RaFacts RaLog
  RaStackModel RaStackObs RaStackDemo.
From Verif Require RaStackLast.

(** What a thread had seen at an event, it has seen ever since. *)
Lemma rexec_ev c acq s0 tr s : rexec c acq s0 tr s -> forall t r W, (Res t r, W) ∈ tr -> vle W (r_view s t).
Proof.
  induction 1 as [|tr s ch s' evs He IH Hs]; intros t r W Hin; [by apply elem_of_nil in Hin|].
  apply elem_of_app in Hin.
  assert (Hmv : forall u (V : view) pcs x w, vle (r_view s u) V -> ((Res t r, W) ∈ evs -> t = u /\ vle W V) ->
    vle W (r_view (RSt x w pcs (set_view (r_view s) u V)) t)).
  { intros u V pcs x w Hle Hev. simpl. unfold set_view. destruct Hin as [Hin|Hin].
    - specialize (IH _ _ _ Hin). case_decide as E; [|done]. subst u. intros l. specialize (IH l). specialize (Hle l). lia.
    - destruct (Hev Hin) as [-> Hw]. by rewrite decide_True. }
  destruct ch as [u o|u ts sp ad|u u']; simpl in Hs.
  - destruct (r_pcs s !! u); [done|]. destruct (sstart c o) as [pc|]; [|done]. injection Hs as <- <-.
    apply Hmv; [apply vle_tick|]. intros E. by apply elem_of_list_singleton in E.
  - destruct (r_pcs s !! u) as [pc|]; [|done].
    assert (Hpc : (exists r, pc = PcRet r) \/
      match rtstep c acq (r_x s) (r_w s) (r_view s u) pc ts sp ad with
      | RGo x w V pc' => RNext (RSt x w (<[u := pc']> (r_pcs s)) (set_view (r_view s) u V)) []
      | RGRace => RRace
      | RGUB => RUB
      | RGDisabled => RDisabled
      end = RNext s' evs) by (destruct pc; eauto).
    destruct Hpc as [[r' ->]|Hpc].
    + injection Hs as <- <-. apply Hmv; [apply vle_tick|]. intros E. apply elem_of_list_singleton in E.
      injection E as -> -> ->. split; [done|]. intros l. done.
    + destruct (rtstep _ _ _ _ _ _ _ _ _) as [x w V pc'| | |] eqn:Hr; try done. injection Hpc as <- <-.
      apply Hmv; [by apply RaStackLast.rtstep_last in Hr as [Hle _]|]. intros E. by apply elem_of_nil in E.
  - injection Hs as <- <-. apply Hmv; [apply vle_join_l|]. intros E. by apply elem_of_nil in E.
Qed.

(** Thread [t] synchronizes with the threads [us]. *)
Lemma sync_all c acq s0 tr s t (us : list nat) : rexec c acq s0 tr s -> exists s', rexec c acq s0 tr s' /\
  r_x s' = r_x s /\ r_w s' = r_w s /\ r_pcs s' = r_pcs s /\
  (forall u, vle (r_view s u) (r_view s' u)) /\ (forall u, u ∈ us -> vle (r_view s u) (r_view s' t)).
Proof.
  intros He. induction us as [|u us (s' & H1 & H2 & H3 & H4 & H5 & H6)].
  - exists s. do 4 (split; [done|]). split; [intros u l; done|]. intros u Hu. by apply elem_of_nil in Hu.
  - exists (RSt (r_x s') (r_w s') (r_pcs s') (set_view (r_view s') t (vjoin (r_view s' t) (r_view s' u)))).
    split; [rewrite <- (app_nil_r tr); by apply (rexec_step c acq s0 tr s' (RSync u t))|].
    do 3 (split; [done|]). simpl. unfold set_view. split.
    + intros u' l. specialize (H5 u' l). case_decide; [subst|done]. unfold vjoin. lia.
    + intros u' Hu l. rewrite decide_True by done. unfold vjoin. apply elem_of_cons in Hu as [->|Hu].
      * specialize (H5 u l). lia.
      * specialize (H6 u' Hu l). lia.
Qed.

Lemma rdemo_synced : exists tr s, rreach sdemoN true [1; 2; 3]%N tr s /\ tr.*1 = rhist1 /\ r_pcs s = ∅ /\ synced tr (r_view s 4).
Proof.
  destruct (rshow_reach sdemoN true [1; 2; 3]%N rsched1 (fun _ s => map_to_list (r_pcs s)) rhist1 [])
    as (tr & s & (H1 & H2 & H3 & H4) & E & Hp); [vm_compute; reflexivity|pool_tac|].
  apply map_to_list_empty_iff in Hp.
  destruct (sync_all _ _ _ _ _ 4 [0; 1; 2; 3] H4) as (s' & S1 & _ & _ & S4 & _ & S6).
  exists tr, s'. split; [done|]. split; [done|]. split; [by rewrite S4|].
  intros u r W Hin. pose proof (rexec_ev _ _ _ _ _ H4 u r W Hin) as Hv.
  assert (Hu : Res u r ∈ tr.*1) by (apply elem_of_list_fmap; by exists (Res u r, W)).
  rewrite E in Hu. assert (u ∈ [0; 1; 2; 3]) as Hu'.
  { unfold rhist1 in Hu. repeat (apply elem_of_cons in Hu as [Hu|Hu]; [simplify_eq; set_solver|]). by apply elem_of_nil in Hu. }
  specialize (S6 u Hu'). intros l. specialize (Hv l). specialize (S6 l). lia.
Qed.

(** Thread 0 has pushed an element, thread 1 has not seen it. *)
Lemma rdemo_unsynced : exists tr s n v, rreach sdemoN true [1; 2; 3]%N tr s /\
  tr.*1 = [Inv 0 (SPush true 5%N); Res 0 (SBool true)] /\ r_pcs s = ∅ /\
  (exists l, sdtor sdemoN (r_x s) = Some ([v], l)) /\ (s_tos (r_x s)).1 = n /\ r_view s 1 (LData n) < w_acc (r_w s) n.
Proof.
  destruct (rshow_reach sdemoN true [1; 2; 3]%N (dwhole 0 (SPush true 5%N) 8)
      (fun _ s => (map_to_list (r_pcs s), sdtor sdemoN (r_x s),
         bool_decide (r_view s 1 (LData (s_tos (r_x s)).1) < w_acc (r_w s) (s_tos (r_x s)).1)))
      [Inv 0 (SPush true 5%N); Res 0 (SBool true)] ([], Some ([5%N], [3; 2; 1]%N), true))
    as (tr & s & H1 & E & Hp); [vm_compute; reflexivity|pool_tac|].
  injection Hp as Hp Hd Hb. apply map_to_list_empty_iff in Hp. apply bool_decide_eq_true in Hb.
  exists tr, s, (s_tos (r_x s)).1, 5%N. eauto 10.
Qed.

(** Thread 4 of the first witness is in a call. *)
Lemma rdemo_alone : exists tr s s', rreach sdemoN true [1; 2; 3]%N tr s /\ sees_all (r_w s) (r_view s 4) /\
  rstep sdemoN true s (RRun 4 (length (w_tos (r_w s))) false None) = RNext s' [] /\
  r_pcs s !! 4 = Some PcCLoad /\ length (w_tos (r_w s)) = 5.
Proof.
  destruct (rshow_reach sdemoN true [1; 2; 3]%N rsched1 (fun _ s => (map_to_list (r_pcs s), length (w_tos (r_w s)))) rhist1 ([], 5))
    as (tr & s & (H1 & H2 & H3 & H4) & E & [=Hp Hl]); [vm_compute; reflexivity|pool_tac|].
  apply map_to_list_empty_iff in Hp.
  destruct (sync_all _ _ _ _ _ 4 [0; 1; 2; 3] H4) as (s1 & S1 & _ & S3 & S4 & _ & S6).
  assert (Hsy : synced tr (r_view s1 4)).
  { intros u r W Hin. pose proof (rexec_ev _ _ _ _ _ H4 u r W Hin) as Hv.
    assert (Hu : Res u r ∈ tr.*1) by (apply elem_of_list_fmap; by exists (Res u r, W)).
    rewrite E in Hu. assert (u ∈ [0; 1; 2; 3]) as Hu'.
    { unfold rhist1 in Hu. repeat (apply elem_of_cons in Hu as [Hu|Hu]; [simplify_eq; set_solver|]). by apply elem_of_nil in Hu. }
    specialize (S6 u Hu'). intros l. specialize (Hv l). specialize (S6 l). lia. }
  assert (Hrs : rreach sdemoN true [1; 2; 3]%N tr s1) by done.
  assert (He : r_pcs s1 = ∅) by by rewrite S4.
  pose proof (RaStackLast.seen_main sdemoN eq_refl eq_refl _ _ _ 4 Hrs He Hsy) as Hsees.
  set (V := tick 4 (r_view s1 4)).
  set (s2 := RSt (r_x s1) (r_w s1) (<[4 := PcCLoad]> (r_pcs s1)) (set_view (r_view s1) 4 V)).
  assert (He2 : rexec sdemoN true (rinit sdemoN [1; 2; 3]%N) (tr ++ [(Inv 4 SPop, V)]) s2).
  { eapply (rexec_step _ _ _ _ _ (RInvoke 4 SPop)); [exact S1|]. simpl.
    assert (Hn : r_pcs s1 !! 4 = None) by (rewrite He; done). rewrite Hn. done. }
  assert (Hl2 : length (w_tos (r_w s2)) = 5) by (simpl; by rewrite S3).
  assert (Hv2 : r_view s2 4 (LRoot 1) = length (w_tos (r_w s2))).
  { simpl. unfold set_view. rewrite decide_True by done. destruct Hsees as (_ & Hx & _). exact Hx. }
  assert (Hstep : exists s', rstep sdemoN true s2 (RRun 4 (length (w_tos (r_w s2))) false None) = RNext s' []).
  { unfold rstep. change (r_pcs s2) with (<[4 := PcCLoad]> (r_pcs s1)). rewrite lookup_insert. cbn [rtstep saccess].
    unfold rtstep. cbn [saccess hist]. unfold tos_hist. rewrite lookup_app_r, Nat.sub_diag by lia. cbn [lookup list_lookup].
    change (rloc RTos) with (LRoot 1). rewrite Hv2, decide_True by lia. cbn. eexists. reflexivity. }
  destruct Hstep as [s' Hstep]. exists (tr ++ [(Inv 4 SPop, V)]), s2, s'.
  split; [split; [done|]; split; [done|]; split; [|done]|].
  - rewrite fmap_app. intros u o Hin. apply elem_of_app in Hin as [Hin|Hin]; [by apply (H3 u o)|].
    apply elem_of_list_singleton in Hin. by injection Hin as -> ->.
  - split; [|split; [done|split; [|done]]].
    + simpl. unfold set_view. rewrite decide_True by done. exact Hsees.
    + simpl. by rewrite lookup_insert.
Qed.
