(** * Linked lists in a heap of nodes *)
From stdpp Require Import gmap list numbers.
From Verif Require Import PoolModel.

Section chain.
  Context {D : Type}.
  Implicit Types (h : gmap N (node D)) (l : list N).

  (** The handle part of a node's link. *)
  Definition nxp h (n : N) : option N := (fun nd => (nx nd).1) <$> h !! n.

  (** [seg h p l e]: starting with handle [p] the links visit [l] and then
      arrive at handle [e]. *)
  Fixpoint seg h (p : N) l (e : N) : Prop :=
    match l with
    | [] => p = e
    | x :: l => p = x /\ exists y, nxp h x = Some y /\ seg h y l e
    end.

  Lemma nxp_Some h n nd : h !! n = Some nd -> nxp h n = Some (nx nd).1.
  Proof. unfold nxp. intros ->. done. Qed.

  Lemma nxp_inv h n y : nxp h n = Some y -> exists nd, h !! n = Some nd /\ (nx nd).1 = y.
  Proof. unfold nxp. destruct (h !! n) as [nd|]; [|done]. intros [= <-]. eauto. Qed.

  Lemma nxp_insert h n nd : nxp (<[n := nd]> h) n = Some (nx nd).1.
  Proof. unfold nxp. by rewrite lookup_insert. Qed.

  Lemma nxp_insert_ne h n m nd : n <> m -> nxp (<[n := nd]> h) m = nxp h m.
  Proof. intros. unfold nxp. by rewrite lookup_insert_ne. Qed.

  Lemma seg_ext h h' p l e :
    (forall x, x ∈ l -> nxp h' x = nxp h x) -> seg h p l e -> seg h' p l e.
  Proof.
    revert p. induction l as [|x l IH]; intros p Hx; simpl; [done|].
    intros (-> & y & Hy & Hs). split; [done|]. exists y. split.
    - rewrite Hx; [done|]. left.
    - apply IH; [|done]. intros z Hz. apply Hx. by right.
  Qed.

  Lemma seg_insert_ne h p l e n nd : n ∉ l -> seg h p l e -> seg (<[n := nd]> h) p l e.
  Proof.
    intros Hn. apply seg_ext. intros x Hx. apply nxp_insert_ne. intros ->. done.
  Qed.

  Lemma seg_app h p l1 l2 e :
    seg h p (l1 ++ l2) e <-> exists m, seg h p l1 m /\ seg h m l2 e.
  Proof.
    revert p. induction l1 as [|x l1 IH]; intros p; simpl.
    - split; [intros; eauto|]. intros (m & -> & Hs). done.
    - split.
      + intros (-> & y & Hy & Hs). apply IH in Hs as (m & H1 & H2). exists m. eauto 10.
      + intros (m & (-> & y & Hy & H1) & H2). split; [done|]. exists y. split; [done|].
        apply IH. eauto.
  Qed.

  Lemma seg_snoc h p l x e :
    seg h p (l ++ [x]) e <-> seg h p l x /\ nxp h x = Some e.
  Proof.
    rewrite seg_app. simpl. split.
    - intros (m & H1 & -> & y & Hy & ->). done.
    - intros [H1 H2]. exists x. split; [done|]. split; [done|]. eauto.
  Qed.

  Lemma seg_dom h p l e x : seg h p l e -> x ∈ l -> is_Some (h !! x).
  Proof.
    revert p. induction l as [|z l IH]; intros p Hs Hx; [by apply elem_of_nil in Hx|].
    destruct Hs as (-> & y & Hy & Hs). apply elem_of_cons in Hx as [->|Hx].
    - apply nxp_inv in Hy as (nd & -> & _). eauto.
    - eauto.
  Qed.

  (** The first handle of a nonempty list. *)
  Lemma seg_head h p x l e : seg h p (x :: l) e -> p = x.
  Proof. intros [? _]. done. Qed.

  Lemma seg_nil_inv h p l e : seg h p l e -> (forall x, x ∈ l -> x <> p) -> l = [] /\ p = e.
  Proof.
    destruct l as [|x l]; [done|]. intros [-> _] Hx. exfalso. apply (Hx x); [left|done].
  Qed.

  (** A node of the list whose link is the end handle is the last one. *)
  Lemma seg_last h p l e x :
    seg h p l e -> x ∈ l -> e ∉ l -> nxp h x = Some e -> exists l', l = l' ++ [x].
  Proof.
    intros Hs Hx He Hn. apply elem_of_list_split in Hx as (l1 & l2 & ->).
    apply seg_app in Hs as (m & _ & Hs). destruct Hs as (-> & y & Hy & Hs).
    simplify_eq. destruct l2 as [|z l2]; [by exists l1|]. exfalso.
    destruct Hs as (-> & _). apply He. set_solver.
  Qed.

  (** A node of the list with another link is followed by that link. *)
  Lemma seg_next h p l e x y :
    seg h p l e -> x ∈ l -> nxp h x = Some y -> y <> e ->
    exists l1 l2, l = l1 ++ x :: y :: l2.
  Proof.
    intros Hs Hx Hn Hye. apply elem_of_list_split in Hx as (l1 & l2 & ->).
    apply seg_app in Hs as (m & _ & Hs). destruct Hs as (-> & y' & Hy & Hs).
    simplify_eq. destruct l2 as [|z l2]; simpl in Hs; [done|].
    destruct Hs as (-> & _). eauto.
  Qed.

  (** Lists are determined by their start. *)
  Lemma seg_unique h p l1 l2 e :
    seg h p l1 e -> seg h p l2 e -> e ∉ l1 -> e ∉ l2 -> l1 = l2.
  Proof.
    revert p l2. induction l1 as [|x l1 IH]; intros p l2 H1 H2 He1 He2; simpl in H1.
    - subst p. destruct l2 as [|z l2]; [done|]. destruct H2 as (-> & _). exfalso. set_solver.
    - destruct H1 as (-> & y & Hy & H1). destruct l2 as [|z l2].
      + simpl in H2. subst. exfalso. set_solver.
      + destruct H2 as (-> & y' & Hy' & H2). simplify_eq. f_equal.
        eapply IH; [done|done| |]; set_solver.
  Qed.
End chain.
