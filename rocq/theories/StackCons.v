(** * The stack neither loses nor duplicates elements *)
From stdpp Require Import gmap list numbers.
From Verif Require Import Lin LinObs LinFacts PoolModel Chain PoolProofs StackModel StackSpec StackObs StackFlow
  StackInv StackStep StackSafe StackObsProofs StackQuiet.

Set Default Proof Using "Type".

Section hist.
  Context (nb ct : bool).
  Notation spec := (sspec nb ct).

  Lemma spec_conserve a o r a' : spec a o r a' ->
    exists D, sputs (o, r) ++ a ≡ₚ svals r ++ D ++ a' /\ (cut_short (o, r) = false -> D = []).
  Proof.
    intros H. inversion H; subst; cbn [sputs svals cut_short app];
      try (exists []; split; [cbn; rewrite ?app_nil_r; done|done]).
    - exists []. split; [|done]. cbn [app]. by rewrite reverse_Permutation.
    - exists []. split; [|done]. cbn [app]. rewrite app_nil_r. unfold visit_order.
      destruct rev; [by rewrite reverse_Permutation|done].
    - match goal with Hp : _ `prefix_of` _ |- _ => destruct Hp as [D HD] end.
      exists D. split; [|done]. rewrite app_nil_r, <- HD. unfold visit_order.
      destruct rev; [by rewrite reverse_Permutation|done].
    - exists []. split; [|done]. cbn [app]. rewrite take_ge by done. by rewrite reverse_Permutation.
  Qed.

  Lemma lruns_sconserve l ph a :
    lruns spec ∅ [] l ph a ->
    exists D, (lins l ≫= sputs) ≡ₚ (lins l ≫= stakes) ++ D ++ a /\
      (Forall (fun x => cut_short x = false) (lins l) -> D = []).
  Proof.
    induction 1 as [|l ph a t o H (D & IH1 & IH2) Hph|l ph a t o r a' H (D & IH1 & IH2) Hph Hs
                    |l ph a t o r H (D & IH1 & IH2) Hph];
      rewrite ?lins_app; cbn [lins]; rewrite ?app_nil_r.
    - exists []. done.
    - by exists D.
    - destruct (spec_conserve _ _ _ _ Hs) as (D' & H1 & H2). exists (D ++ D'). rewrite !bind_app, IH1.
      assert (Hs1 : ([(o, r)] ≫= sputs) = sputs (o, r)) by (cbn; by rewrite app_nil_r).
      assert (Hs2 : ([(o, r)] ≫= stakes) = svals r) by (cbn; by rewrite app_nil_r).
      rewrite Hs1, Hs2. split.
      + rewrite <- !app_assoc. f_equiv.
        rewrite (Permutation_app_comm a), H1. rewrite !app_assoc. f_equiv.
        rewrite (Permutation_app_comm D). done.
      + intros [HF1 HF2]%Forall_app. apply Forall_cons_1 in HF2 as [HF2 _].
        rewrite IH2, H2 by done. done.
    - by exists D.
  Qed.

  (** Results seen in a history are those of its completed calls. *)
  Definition evals (e : sevent) : list N := match e with Res _ r => svals r | _ => [] end.

  Lemma completed_evals l ph a :
    lruns spec ∅ [] l ph a -> (erase l ≫= evals) = (completed (erase l) ≫= stakes).
  Proof.
    intros H. induction H as [|l ph a t o H IH Hph|l ph a t o r a' H IH Hph Hs|l ph a t o r H IH Hd].
    - done.
    - rewrite erase_app. cbn [erase]. unfold completed in *. rewrite calls_snoc, bind_app, IH. cbn.
      by rewrite app_nil_r.
    - rewrite erase_app. cbn [erase]. by rewrite app_nil_r.
    - destruct (lruns_completed _ _ _ _ _ H) as [Hph _]. rewrite erase_app. cbn [erase].
      unfold completed in *. rewrite calls_snoc, bind_app. cbn [completed_step].
      assert (Ho : (calls (erase l)).1 !! t = Some o).
      { rewrite Hph, lookup_fmap, Hd. done. }
      rewrite Ho. cbn [snd]. rewrite bind_app, IH. cbn. done.
  Qed.
End hist.

Section main.
  Context (c : cfg) (Htag : c_tagmod c = None).
  Notation spec := (sspec (c_node_based c) (c_throws c)).

  Lemma bind_submseteq {A B} (f : A -> list B) l1 l2 : l1 ⊆+ l2 -> (l1 ≫= f) ⊆+ (l2 ≫= f).
  Proof.
    intros [k Hk]%submseteq_Permutation. rewrite Hk, bind_app. by apply submseteq_inserts_r.
  Qed.

  Lemma sputs_offers (x : sop * sret) : sputs x ⊆+ soffers x.1.
  Proof.
    assert (Ht : forall k (vs : list N), take k vs ⊆+ vs).
    { intros k vs. rewrite <- (take_drop k vs) at 2. by apply submseteq_inserts_r. }
    destruct x as [[] []]; cbn [sputs soffers fst]; try apply submseteq_nil_l; try apply Ht;
      match goal with |- (if ?b then _ else _) ⊆+ _ => destruct b; [done|apply submseteq_nil_l] end.
  Qed.

  Lemma bind_offers (l : list (sop * sret)) : (l ≫= sputs) ⊆+ (l.*1 ≫= soffers).
  Proof.
    induction l as [|x l IH]; [done|]. cbn. apply submseteq_app; [apply sputs_offers|exact IH].
  Qed.

  Lemma sconserve_main ns hist s :
    sreach c ns hist s ->
    exists P T D a, scontents c s a /\ P ≡ₚ T ++ D ++ a /\
      (completed hist ≫= sputs) ⊆+ P /\
      P ⊆+ (completed hist ≫= sputs) ++ (pending hist ≫= soffers) /\
      (completed hist ≫= stakes) ⊆+ T /\ (c_throws c = false -> D = []).
  Proof using Htag.
    intros H. destruct (sreach_ok c Htag _ _ _ H) as (g & [HG HT] & Hl).
    pose proof (gi_run _ _ _ HG) as Hr. destruct (lruns_completed _ _ _ _ _ Hr) as [Hph Hp].
    rewrite Hl in Hph, Hp. pose proof (dones_pending _ _ Hph) as Hd.
    destruct (lruns_sconserve _ _ _ _ _ Hr) as (D & HD1 & HD2).
    exists (lins (g_l g) ≫= sputs), (lins (g_l g) ≫= stakes), D, (g_a g).
    split; [by apply gi_contents|]. split; [done|].
    rewrite Hp, !bind_app. split; [by apply submseteq_inserts_r|]. split.
    { apply submseteq_app; [done|]. etrans; [apply bind_offers|]. by apply bind_submseteq. }
    split; [by apply submseteq_inserts_r|]. intros Hth. apply HD2. clear -Hr Hth.
    induction Hr as [|l ph a t o H IH Hph|l ph a t o r a' H IH Hph Hs|l ph a t o r H IH Hph];
      rewrite ?lins_app; cbn [lins]; rewrite ?app_nil_r; try done.
    apply Forall_app. split; [done|]. constructor; [|constructor]. inversion Hs; subst; try done. congruence.
  Qed.

  Lemma sconserve_quiet_main ns hist s :
    sreach c ns hist s -> quiescent s ->
    exists D a, scontents c s a /\
      (completed hist ≫= sputs) ≡ₚ (completed hist ≫= stakes) ++ D ++ a /\
      (Forall (fun x => cut_short x = false) (completed hist) -> D = []).
  Proof using Htag.
    intros H Hq. destruct (sreach_ok c Htag _ _ _ H) as (g & HI & Hl). pose proof HI as [HG HT].
    pose proof (gi_run _ _ _ HG) as Hr. destruct (lruns_completed _ _ _ _ _ Hr) as [Hph Hp].
    assert (Hph0 : g_ph g = ∅).
    { apply map_empty. intros t. pose proof (HT t) as Ht. unfold quiescent in Hq.
      rewrite Hq, lookup_empty in Ht. apply Ht. }
    rewrite Hph0, Hl in Hp. unfold dones in Hp. rewrite map_to_list_empty in Hp. cbn in Hp. rewrite app_nil_r in Hp.
    destruct (lruns_sconserve _ _ _ _ _ Hr) as (D & HD1 & HD2).
    exists D, (g_a g). split; [by apply gi_contents|]. rewrite <- Hp. split; [done|]. exact HD2.
  Qed.
End main.
