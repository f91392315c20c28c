(** * Consequences of linearizability for histories of the queue *)
From stdpp Require Import gmap list numbers.
From Verif Require Import Lin LinObs LinFacts PoolModel QueueModel QueueSpec QueueObs.

Section hist.
  Context (nb ct : bool).
  Notation spec := (qspec nb ct).

  (** Elements put in are those taken out followed by those that remain. *)
  Lemma lruns_conserve l ph a :
    lruns spec ∅ [] l ph a -> omap puts (lins l) = omap takes (lins l) ++ a.
  Proof.
    induction 1 as [|l ph a t o H IH Hph|l ph a t o r a' H IH Hph Hs|l ph a t o r H IH Hph];
      rewrite ?lins_app, ?omap_app; simpl; rewrite ?app_nil_r; try done.
    rewrite IH. inversion Hs; subst; simpl; rewrite ?app_nil_r, <- ?app_assoc; done.
  Qed.

  Lemma legal_conserve S a b :
    legal spec a S b -> a ++ omap puts (map (fun x => (x.1.2, x.2)) S) =
                        omap takes (map (fun x => (x.1.2, x.2)) S) ++ b.
  Proof.
    induction 1 as [a|a i o r a' S b Hs HS IH]; simpl; [by rewrite app_nil_r|].
    inversion Hs; subst; simpl; try exact IH; try (f_equal; exact IH); by rewrite <- app_assoc in IH.
  Qed.

  (** ** Popped values were pushed before *)

  Definition invoked (h : list qevent) (v : val) : Prop :=
    exists t o, Inv t o ∈ h /\ pushes o = Some v.

  Lemma invoked_app h k v : invoked h v -> invoked (h ++ k) v.
  Proof. intros (t & o & H & Ho). exists t, o. split; [|done]. apply elem_of_app. by left. Qed.

  Lemma lruns_origin l ph a :
    lruns spec ∅ [] l ph a ->
    (forall v, v ∈ a -> invoked (erase l) v) /\
    (forall t o, ph !! t = Some (Pending o) -> Inv t o ∈ erase l) /\
    (forall t o v, ph !! t = Some (Done o (RPop (Some v))) -> invoked (erase l) v) /\
    (forall h1 h2 t v, erase l = h1 ++ Res t (RPop (Some v)) :: h2 -> invoked h1 v).
  Proof.
    induction 1 as [|l ph a t o H (IH1 & IH2 & IH3 & IH4) Hph
                    |l ph a t o r a' H (IH1 & IH2 & IH3 & IH4) Hph Hs
                    |l ph a t o r H (IH1 & IH2 & IH3 & IH4) Hph];
      rewrite ?erase_app; simpl; rewrite ?app_nil_r.
    - split; [intros v Hv; by apply elem_of_nil in Hv|]. split; [done|]. split; [done|].
      intros h1 h2 t v Hh. by destruct h1.
    - split; [intros v Hv; apply invoked_app; auto|]. split; [|split].
      + intros t' o'. rewrite lookup_insert_Some. intros [[-> [= ->]]|[Hne Ho]].
        * apply elem_of_app. right. left.
        * apply elem_of_app. left. auto.
      + intros t' o' v. rewrite lookup_insert_Some. intros [[-> ?]|[Hne Ho]]; [done|].
        apply invoked_app. eauto.
      + intros h1 h2 t' v Hh. destruct h2 as [|e h2 _] using rev_ind.
        * by apply app_inj_tail in Hh as [_ Hh].
        * rewrite app_comm_cons, app_assoc in Hh. apply app_inj_tail in Hh as [Hh _]. eauto.
    - assert (Hin : Inv t o ∈ erase l) by auto.
      split; [|split; [|split]].
      + intros v Hv. inversion Hs; subst; auto.
        * apply elem_of_app in Hv as [Hv|Hv]; [auto|]. apply elem_of_list_singleton in Hv as ->.
          by eexists _, _.
        * apply IH1. by right.
        * apply elem_of_app in Hv as [Hv|Hv]; [auto|]. apply elem_of_list_singleton in Hv as ->.
          by eexists _, _.
        * apply IH1. by right.
      + intros t' o'. rewrite lookup_insert_Some. intros [[-> ?]|[Hne Ho]]; [done|auto].
      + intros t' o' v. rewrite lookup_insert_Some. intros [[-> [= -> ->]]|[Hne Ho]]; [|eauto].
        apply IH1. inversion Hs; subst; left.
      + done.
    - split; [intros v Hv; apply invoked_app; auto|]. split; [|split].
      + intros t' o'. rewrite lookup_delete_Some. intros [Hne Ho]. apply elem_of_app. left. auto.
      + intros t' o' v. rewrite lookup_delete_Some. intros [Hne Ho]. apply invoked_app. eauto.
      + intros h1 h2 t' v Hh. destruct h2 as [|e h2 _] using rev_ind.
        * apply app_inj_tail in Hh as [<- [= -> ->]]. eauto.
        * rewrite app_comm_cons, app_assoc in Hh. apply app_inj_tail in Hh as [Hh _]. eauto.
  Qed.

  Lemma linearizable_origin h h1 h2 t v :
    q_linearizable nb ct h -> h = h1 ++ Res t (RPop (Some v)) :: h2 ->
    exists t' o, Inv t' o ∈ h1 /\ pushes o = Some v.
  Proof.
    intros (l & ph & a & H & Hl) Hh. apply (lruns_origin _ _ _ H) with h2 t. by rewrite Hl.
  Qed.

  (** ** FIFO order *)

  Lemma hw_fifo h :
    hw_linearizable [] spec h ->
    forall i1 j1 t1 o1 i2 t2 o2 k1 l1 s1 p1 k2 l2 s2 p2 v1 v2,
      v1 <> v2 ->
      (* v1 and v2 are pushed once *)
      (forall i t o, h !! i = Some (Inv t o) -> pushes o = Some v1 -> i = i1) ->
      (forall i t o, h !! i = Some (Inv t o) -> pushes o = Some v2 -> i = i2) ->
      (* the push of v1 returns before that of v2 is called *)
      call_returns h i1 j1 t1 o1 (RBool true) -> pushes o1 = Some v1 ->
      h !! i2 = Some (Inv t2 o2) -> pushes o2 = Some v2 -> j1 < i2 ->
      (* v1 and v2 are popped *)
      call_returns h k1 l1 s1 p1 (RPop (Some v1)) -> is_pop p1 = true ->
      call_returns h k2 l2 s2 p2 (RPop (Some v2)) -> is_pop p2 = true ->
      (* then not by a pop of v2 that returns before that of v1 is called *)
      k1 <= l2.
  Proof.
    intros (S & b & Hnd & Hmem & Hcompl & Hrt & Hleg).
    intros i1 j1 t1 o1 i2 t2 o2 k1 l1 s1 p1 k2 l2 s2 p2 v1 v2 Hne Hu1 Hu2 Hc1 Ho1 Hi2 Ho2 Hlt Hk1 Hp1 Hk2 Hp2.
    destruct (decide (k1 <= l2)) as [|Hgt]; [done|exfalso].
    set (f := fun x : nat * qop * qret => (x.1.2, x.2)) in *.
    apply legal_conserve in Hleg. simpl in Hleg. fold f in Hleg.
    assert (HS : NoDup S) by (by do 2 eapply NoDup_fmap_1).
    assert (Huniq : forall x y, x ∈ S -> y ∈ S -> x.1.1 = y.1.1 -> x = y).
    { intros x y Hx Hy He. apply elem_of_list_lookup in Hx as [i Hx]. apply elem_of_list_lookup in Hy as [j Hy].
      assert (i = j) as ->; [|congruence].
      eapply NoDup_lookup; [exact Hnd| |]; rewrite !list_lookup_fmap.
      - rewrite Hx. reflexivity.
      - rewrite Hy. simpl. by rewrite He. }
    pose proof (Hcompl _ _ _ _ _ Hk1) as HS1. pose proof (Hcompl _ _ _ _ _ Hk2) as HS2.
    pose proof (Hcompl _ _ _ _ _ Hc1) as HS3.
    (* the pop of v2 is linearized before the pop of v1 *)
    assert (B : before S (k2, p2, RPop (Some v2)) (k1, p1, RPop (Some v1))).
    { destruct (before_total _ _ _ HS2 HS1) as [He|[B|(S1 & S2 & S3 & B)]]; [congruence|done|].
      exfalso. pose proof (Hrt _ _ _ _ _ _ _ _ _ _ B eq_refl Hk2) as H. simpl in H. lia. }
    (* hence v2 before v1 in the order of the pushes *)
    set (g := fun x => puts (f x)). set (g' := fun x => takes (f x)).
    assert (Hgo : forall (u : qop * qret -> option val) S', omap u (map f S') = omap (fun x => u (f x)) S').
    { intros u S'. induction S' as [|z S' IH]; [done|]. simpl. destruct (u (f z)); [f_equal|]; exact IH. }
    rewrite !Hgo in Hleg. fold g g' in Hleg.
    assert (B' : before (omap g S) v2 v1).
    { rewrite Hleg. apply before_app_l. eapply before_omap; [exact B| |].
      - unfold g', f. simpl. by destruct p2.
      - unfold g', f. simpl. by destruct p1. }
    apply before_omap_inv in B' as (x & y & B' & Hx & Hy).
    assert (Hxy : x ∈ S /\ y ∈ S).
    { destruct B' as (S1 & S2 & S3 & HS'). rewrite HS'. split; apply elem_of_app; right; [left|right].
      apply elem_of_app. right. left. }
    destruct Hxy as [HxS HyS]. destruct x as [[ix ox] rx], y as [[iy oy] ry].
    destruct (Hmem _ _ _ HxS) as [tx Hix]. destruct (Hmem _ _ _ HyS) as [ty Hiy].
    unfold g, f in Hx, Hy. simpl in Hx, Hy.
    assert (pushes ox = Some v2) by (by destruct ox, rx as [[]| | |]).
    assert (pushes oy = Some v1) by (by destruct oy, ry as [[]| | |]).
    assert (ix = i2) by eauto. assert (iy = i1) by eauto. subst ix iy.
    (* but real time orders the pushes the other way *)
    assert (Hy' : (i1, oy, ry) = (i1, o1, RBool true)) by (by apply Huniq).
    destruct B' as (S1 & S2 & S3 & B'). pose proof (Hrt _ _ _ _ _ _ _ _ _ _ B' eq_refl Hc1) as H'.
    simpl in H'. lia.
  Qed.
End hist.
