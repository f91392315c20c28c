(** * Invariants of the node pool, used by the queue and the stack *)
From stdpp Require Import gmap list numbers.
From Verif Require Import PoolModel Chain.

(** Who a node belongs to (ghost state): the container's list, the pool, one
    thread, or nobody (leaked by a throwing copy constructor). *)
Inductive owner := OQ | OF | OT (t : nat) | OL.

(** [x] was read from a cell that now contains [cell]. *)
Definition snap (cell x : tagged) : Prop :=
  (x.2 <= cell.2)%N /\ (x.2 = cell.2 -> cell = x).

(** How a cell may change: not at all, or with a larger tag. *)
Definition cell_le (a b : tagged) : Prop := b = a \/ (a.2 < b.2)%N.

Lemma snap_refl a : snap a a.
Proof. split; [lia|done]. Qed.

Lemma snap_mono a b x : snap a x -> cell_le a b -> snap b x.
Proof. intros [H1 H2] [->|Hlt]; split; try done; lia. Qed.

Lemma snap_back a b x : snap a x -> cell_le a b -> b = x -> a = x /\ b = a.
Proof. intros [H1 H2] [->|Hlt] ->; [done|]. lia. Qed.

Set Default Proof Using "Type".

Section pool.
  Context {D : Type}.
  Context (c : cfg).
  Implicit Types (h : gmap N (node D)) (p : tagged) (own : gmap N owner) (fn : list N).
  Notation null := (c_null c).

  (** Pool invariant. *)
  Record PI h p own fn : Prop := {
    pi_dom : forall n, is_Some (own !! n) <-> is_Some (h !! n);
    pi_null : h !! null = None;
    pi_nodup : NoDup fn;
    pi_mem : forall n, n ∈ fn <-> own !! n = Some OF;
    pi_seg : seg h p.1 fn null;
  }.

  (** What a thread inside allocate_impl knows. *)
  Definition ainv h p own (a : apc) : Prop :=
    match a with
    | ALoad => True
    | ATest old =>
        (old.2 <= p.2)%N /\ (old.1 <> null -> is_Some (h !! old.1)) /\
        (old.2 = p.2 -> old.1 <> null -> own !! old.1 = Some OF)
    | ACas old nxt =>
        (old.2 <= p.2)%N /\ old.1 <> null /\
        (old.2 = p.2 -> own !! old.1 = Some OF /\ nxp h old.1 = Some nxt)
    end.

  (** What a thread returning node [n] knows. *)
  Definition dinv h (n : N) (d : dpc) : Prop :=
    match d with
    | DLoad | DSet _ => True
    | DCas old => nxp h n = Some old.1
    end.

  (** What other threads may do to the pool. *)
  Definition prely h p own h' p' own' : Prop :=
    (p.2 <= p'.2)%N /\
    (p.2 = p'.2 -> forall n, own !! n = Some OF -> own' !! n = Some OF /\ h' !! n = h !! n).

  Lemma ainv_stable h p own h' p' own' a :
    prely h p own h' p' own' -> (forall n, is_Some (h !! n) -> is_Some (h' !! n)) ->
    ainv h p own a -> ainv h' p' own' a.
  Proof.
    intros [Hle Heq] Hdom. destruct a as [|old|old nxt]; simpl; [done|..].
    - intros (H1 & H2 & H3). split; [lia|]. split; [auto|].
      intros Ht Hn. assert (old.2 = p.2) by lia. apply Heq; [lia|]. auto.
    - intros (H1 & H2 & H3). split; [lia|]. split; [done|].
      intros Ht. assert (Hp : old.2 = p.2) by lia. destruct (H3 Hp) as [Ho Hx].
      destruct (Heq ltac:(lia) _ Ho) as [Ho' Hh']. split; [done|].
      unfold nxp in *. by rewrite Hh'.
  Qed.

  Lemma ainv_load h p own fn : PI h p own fn -> ainv h p own (ATest p).
  Proof.
    intros HP. simpl. split; [lia|].
    assert (Hx : p.1 <> null -> p.1 ∈ fn).
    { intros Hn. destruct fn as [|x fn]; pose proof (pi_seg _ _ _ _ HP) as Hs; simpl in Hs.
      - done.
      - destruct Hs as [-> _]. left. }
    split; intros.
    - eapply (seg_dom _ _ _ _ _ (pi_seg _ _ _ _ HP)). auto.
    - apply (pi_mem _ _ _ _ HP). auto.
  Qed.

  Lemma dstep_ok h p own fn t n d sp :
    PI h p own fn -> own !! n = Some (OT t) -> dinv h n d ->
    match dstep n h p d sp with
    | DCont h' p' d' => p' = p /\ dinv h' n d' /\
        (h' = h \/ exists nd y, h !! n = Some nd /\ h' = <[n := Node (y, (nx nd).2) (dat nd)]> h)
    | DDone h' p' => h' = h /\ p' = (n, p.2) /\ nxp h n = Some p.1
    | DUB => False
    end.
  Proof.
    intros HP Ho Hd. destruct d as [|old|old]; simpl.
    - split; [done|]. split; [done|]. by left.
    - assert (is_Some (h !! n)) as [nd Hnd].
      { apply (pi_dom _ _ _ _ HP). eauto. }
      rewrite Hnd. split; [done|]. split; [unfold dinv; by rewrite nxp_insert|]. right. exists nd, old.1. done.
    - destruct (decide _) as [[_ Hp]|].
      + subst old. done.
      + split; [done|]. split; [done|]. by left.
  Qed.

  (** Effects on the pool invariant. *)

  Lemma PI_not_null h p own fn n o : PI h p own fn -> own !! n = Some o -> n <> null.
  Proof.
    intros HP Ho ->. destruct (proj1 (pi_dom _ _ _ _ HP null)) as [nd Hnd]; [eauto|].
    rewrite (pi_null _ _ _ _ HP) in Hnd. done.
  Qed.

  Lemma PI_pop h p own fn n p' o :
    o <> OF -> PI h p own (n :: fn) -> nxp h n = Some p'.1 ->
    PI h p' (<[n := o]> own) fn.
  Proof.
    intros Hof HP Hx. pose proof (pi_nodup _ _ _ _ HP) as Hnd. apply list.NoDup_cons in Hnd as [Hni Hnd].
    assert (Hn : own !! n = Some OF) by (apply (pi_mem _ _ _ _ HP); left).
    split.
    - intros m. rewrite <- (pi_dom _ _ _ _ HP). destruct (decide (n = m)) as [->|Hm].
      + rewrite lookup_insert, Hn. split; eauto.
      + by rewrite lookup_insert_ne.
    - apply HP.
    - done.
    - intros m. destruct (decide (n = m)) as [->|Hm].
      + rewrite lookup_insert. split; [done|]. by intros [= ->].
      + rewrite lookup_insert_ne by done. rewrite <- (pi_mem _ _ _ _ HP). set_solver.
    - pose proof (pi_seg _ _ _ _ HP) as Hs. destruct Hs as (_ & y & Hy & Hs). congruence.
  Qed.

  Lemma PI_push h p own fn n o t :
    o <> OF -> PI h p own fn -> own !! n = Some o -> nxp h n = Some p.1 ->
    PI h (n, t) (<[n := OF]> own) (n :: fn).
  Proof.
    intros Hof HP Hn Hx.
    assert (Hni : n ∉ fn). { intros Hi. apply (pi_mem _ _ _ _ HP) in Hi. congruence. }
    split.
    - intros m. rewrite <- (pi_dom _ _ _ _ HP). destruct (decide (n = m)) as [->|Hm].
      + rewrite lookup_insert, Hn. split; eauto.
      + by rewrite lookup_insert_ne.
    - apply HP.
    - apply list.NoDup_cons. split; [done|apply HP].
    - intros m. destruct (decide (n = m)) as [->|Hm].
      + rewrite lookup_insert. split; [done|]. intros _. left.
      + rewrite lookup_insert_ne by done. rewrite <- (pi_mem _ _ _ _ HP). set_solver.
    - simpl. split; [done|]. exists p.1. split; [done|]. apply HP.
  Qed.

  (** Changing the owner of a node among non-pool owners, and its contents. *)
  Lemma PI_own h p own fn n o o' :
    o <> OF -> o' <> OF -> PI h p own fn -> own !! n = Some o -> PI h p (<[n := o']> own) fn.
  Proof.
    intros Ho Ho' HP Hn. split; try apply HP.
    - intros m. rewrite <- (pi_dom _ _ _ _ HP). destruct (decide (n = m)) as [->|Hm].
      + rewrite lookup_insert, Hn. split; eauto.
      + by rewrite lookup_insert_ne.
    - intros m. rewrite (pi_mem _ _ _ _ HP). destruct (decide (n = m)) as [->|Hm].
      + rewrite lookup_insert, Hn. split; congruence.
      + by rewrite lookup_insert_ne.
  Qed.

  Lemma PI_write h p own fn n o nd' :
    o <> OF -> PI h p own fn -> own !! n = Some o -> PI (<[n := nd']> h) p own fn.
  Proof.
    intros Ho HP Hn.
    assert (Hni : n ∉ fn). { intros Hi. apply (pi_mem _ _ _ _ HP) in Hi. congruence. }
    pose proof (PI_not_null _ _ _ _ _ _ HP Hn) as Hnn.
    split; try apply HP.
    - intros m. rewrite (pi_dom _ _ _ _ HP). destruct (decide (n = m)) as [->|Hm].
      + rewrite lookup_insert. split; [eauto|]. intros _. apply (pi_dom _ _ _ _ HP). eauto.
      + by rewrite lookup_insert_ne.
    - rewrite lookup_insert_ne by done. apply HP.
    - apply seg_insert_ne; [done|apply HP].
  Qed.

  Lemma PI_fresh h p own fn n o nd :
    o <> OF -> PI h p own fn -> h !! n = None -> n <> null ->
    PI (<[n := nd]> h) p (<[n := o]> own) fn.
  Proof.
    intros Ho HP Hf Hn.
    assert (Hno : own !! n = None).
    { apply eq_None_not_Some. rewrite (pi_dom _ _ _ _ HP), Hf. intros [? ?]. done. }
    assert (Hni : n ∉ fn). { intros Hi. apply (pi_mem _ _ _ _ HP) in Hi. congruence. }
    split; try apply HP.
    - intros m. destruct (decide (n = m)) as [->|Hm].
      + rewrite !lookup_insert. split; eauto.
      + rewrite !lookup_insert_ne by done. apply HP.
    - rewrite lookup_insert_ne by done. apply HP.
    - intros m. destruct (decide (n = m)) as [->|Hm].
      + rewrite lookup_insert. split; [done|]. intros [= ->]. done.
      + rewrite lookup_insert_ne by done. apply HP.
    - apply seg_insert_ne; [done|apply HP].
  Qed.

  Lemma dealloc_unsafe_ok n h p nd :
    h !! n = Some nd ->
    dealloc_unsafe n h p = DDone (<[n := Node (p.1, (nx nd).2) (dat nd)]> h) (n, p.2).
  Proof. intros H. unfold dealloc_unsafe. by rewrite H. Qed.

  (** Filling the pool. *)
  Lemma pool_add_ok d0 ns h p own fn :
    PI h p own fn -> NoDup ns -> (forall n, n ∈ ns -> h !! n = None /\ n <> null) ->
    exists own', PI (pool_add d0 ns h p).1 (pool_add d0 ns h p).2 own' (reverse ns ++ fn) /\
      (pool_add d0 ns h p).2.2 = p.2 /\
      (forall n, own' !! n = if decide (n ∈ ns) then Some OF else own !! n) /\
      (forall n, n ∈ ns -> exists y, (pool_add d0 ns h p).1 !! n = Some (Node (y, 0%N) d0)) /\
      (forall n, n ∉ ns -> (pool_add d0 ns h p).1 !! n = h !! n).
  Proof.
    revert h p own fn. induction ns as [|m ns IH]; intros h p own fn HP Hnd Hf; cbn [pool_add fst snd].
    - exists own. split; [done|]. split; [done|]. split; [|split; [|done]].
      + intros n. rewrite decide_False; [done|]. apply not_elem_of_nil.
      + intros n Hn. by apply elem_of_nil in Hn.
    - apply list.NoDup_cons in Hnd as [Hm Hnd].
      destruct (Hf m) as [Hfm Hmn]; [left|].
      assert (HP1 : PI (<[m := Node (p.1, 0%N) d0]> h) p (<[m := OL]> own) fn).
      { by apply PI_fresh. }
      assert (HP2 : PI (<[m := Node (p.1, 0%N) d0]> h) (m, p.2)
                       (<[m := OF]> (<[m := OL]> own)) (m :: fn)).
      { eapply (PI_push _ _ _ _ _ OL); [done|done|by rewrite lookup_insert|by rewrite nxp_insert]. }
      rewrite insert_insert in HP2.
      destruct (IH _ _ _ _ HP2 Hnd) as (own' & HP' & Ht & Ho & Hd & Hrest).
      { intros n Hn. rewrite lookup_insert_ne by (by intros ->). apply Hf. by right. }
      exists own'. rewrite reverse_cons, <- app_assoc. split; [done|]. split; [done|].
      split; [|split].
      + intros n. rewrite Ho. destruct (decide (n ∈ ns)) as [Hn|Hn].
        * rewrite decide_True; [done|by right].
        * destruct (decide (m = n)) as [->|Hne].
          -- rewrite lookup_insert, decide_True; [done|left].
          -- rewrite lookup_insert_ne by done. rewrite decide_False; [done|]. set_solver.
      + intros n Hn. destruct (decide (n ∈ ns)) as [Hn'|Hn']; [by apply Hd|].
        rewrite Hrest by done. apply elem_of_cons in Hn as [->|]; [|done].
        rewrite lookup_insert. eauto.
      + intros n Hn. rewrite Hrest by set_solver. rewrite lookup_insert_ne; [done|]. set_solver.
  Qed.

  Lemma PI_empty t : PI (∅ : gmap N (node D)) (null, t) ∅ [].
  Proof.
    split.
    - intros n. rewrite !lookup_empty. split; by intros [? ?].
    - by rewrite lookup_empty.
    - constructor.
    - intros n. rewrite lookup_empty. split; [intros Hn; by apply elem_of_nil in Hn|done].
    - done.
  Qed.

  Context (Htag : c_tagmod c = None).

  Lemma next_tag_succ t : next_tag c t = (t + 1)%N.
  Proof using Htag. unfold next_tag. by rewrite Htag. Qed.

  Lemma astep_ok d0 b h p own fn a sp addr :
    PI h p own fn -> ainv h p own a ->
    match astep c d0 b h p a sp addr with
    | ACont h' p' a' => h' = h /\ p' = p /\ ainv h p own a'
    | AGot h' p' n =>
        (h' = h /\ n <> null /\ p = (n, p.2) /\ p'.2 = (p.2 + 1)%N /\
           nxp h n = Some p'.1 /\ exists fn', fn = n :: fn') \/
        (h !! n = None /\ n <> null /\ h' = <[n := Node (null, 0%N) d0]> h /\ p' = p /\
           c_node_based c = true /\ b = false)
    | AFail => c_node_based c = false \/ b = true
    | AThrow => c_node_based c = true /\ b = false
    | AUB => False
    | ADisabled => True
    end.
  Proof using Htag.
    intros HP Ha. destruct a as [|old|old nxt]; simpl.
    - split; [done|]. split; [done|]. by eapply ainv_load.
    - destruct Ha as (H1 & H2 & H3). destruct (decide (old.1 = null)) as [Hn|Hn].
      + destruct (c_node_based c); simpl; [|by left].
        destruct b; simpl; [by right|].
        destruct addr as [n|]; [|done]. destruct (decide _) as [[Hf Hne]|]; [|done].
        right. done.
      + destruct (H2 Hn) as [nd Hnd]. rewrite Hnd. simpl.
        split; [done|]. split; [done|]. split; [done|]. split; [done|].
        intros Ht. split; [auto|]. by apply nxp_Some.
    - destruct Ha as (H1 & H2 & H3). destruct (decide _) as [[_ Hp]|].
      + subst old. left. simpl. destruct (H3 eq_refl) as [Ho Hx].
        split; [done|]. split; [done|]. split; [by destruct p|].
        split; [apply next_tag_succ|]. split; [done|].
        apply (pi_mem _ _ _ _ HP) in Ho. pose proof (pi_seg _ _ _ _ HP) as Hs.
        destruct fn as [|x fn]; [by apply elem_of_nil in Ho|].
        destruct Hs as [-> _]. eauto.
      + split; [done|]. split; [done|]. by eapply ainv_load.
  Qed.

  Lemma alloc_unsafe_ok d0 b h p own fn addr :
    PI h p own fn ->
    match alloc_unsafe c d0 b h p addr with
    | ACont _ _ _ => False
    | AGot h' p' n =>
        (h' = h /\ n <> null /\ p = (n, p.2) /\ p'.2 = (p.2 + 1)%N /\
           nxp h n = Some p'.1 /\ exists fn', fn = n :: fn') \/
        (h !! n = None /\ n <> null /\ h' = <[n := Node (null, 0%N) d0]> h /\ p' = p /\
           c_node_based c = true /\ b = false /\ fn = [])
    | AFail => fn = [] /\ (c_node_based c = false \/ b = true)
    | AThrow => c_node_based c = true /\ b = false /\ fn = []
    | AUB => False
    | ADisabled => True
    end.
  Proof using Htag.
    intros HP. unfold alloc_unsafe. pose proof (pi_seg _ _ _ _ HP) as Hs.
    destruct fn as [|x fn]; simpl in Hs.
    - rewrite decide_True by done. destruct (c_node_based c); simpl; [|by split; [|left]].
      destruct b; simpl; [by split; [|right]|].
      destruct addr as [n|]; [|done]. destruct (decide _) as [[Hf Hne]|]; [|done].
      right. done.
    - destruct Hs as (Hx & y & Hy & Hs).
      assert (Hn : p.1 <> null).
      { rewrite Hx. eapply (PI_not_null _ _ _ _ _ OF HP). apply (pi_mem _ _ _ _ HP). left. }
      rewrite decide_False by done. apply nxp_inv in Hy as (nd & Hnd & Hy).
      rewrite Hx, Hnd. left. simpl. split; [done|]. split; [congruence|].
      split; [destruct p; simpl in *; congruence|]. split; [apply next_tag_succ|].
      split; [by apply nxp_Some|]. by exists fn.
  Qed.
End pool.
