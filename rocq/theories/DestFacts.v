(** * Traces with assignments: scanning them call by call *)
From stdpp Require Import gmap list numbers.
From Verif Require Import Lin DestSpec.

Set Default Proof Using "Type".

Section facts.
  Context {op ret V : Type}.
  Notation trace := (list (dev op ret V)).
  (** [P o r l]: a call of [o] may return [r] after the assignments [l];
      [Q o l]: it may go on to assign. *)
  Context (P : op -> ret -> list V -> Prop) (Q : op -> list V -> Prop).

  (** The calls in progress with what they have assigned. *)
  Inductive scan : trace -> gmap nat (op * list V) -> Prop :=
    | scan_nil : scan [] ∅
    | scan_inv tr m t o : scan tr m -> m !! t = None -> scan (tr ++ [DEv (Inv t o)]) (<[t := (o, [])]> m)
    | scan_asg tr m t o l v :
        scan tr m -> m !! t = Some (o, l) -> Q o l ->
        scan (tr ++ [DAsg t v]) (<[t := (o, l ++ [v])]> m)
    | scan_res tr m t o l r :
        scan tr m -> m !! t = Some (o, l) -> P o r l ->
        scan (tr ++ [DEv (Res t r)]) (delete t m).

  (** The call in progress of [t] began with the last event of [t]. *)
  Lemma scan_open tr m t o l :
    scan tr m -> m !! t = Some (o, l) ->
    exists a b, tr = a ++ DEv (Inv t o) :: b /\ inside t b /\ l = asgs t b.
  Proof.
    intros Hs. revert t o l.
    induction Hs as [|tr m u p Hs IH Hn|tr m u p k v Hs IH Hm Hq|tr m u p k r Hs IH Hm Hp]; intros t o l Ht.
    - done.
    - apply lookup_insert_Some in Ht as [[-> [= -> <-]]|[Hne Ht]].
      + exists tr, []. split; [done|]. split; [|done]. intros e He. by apply elem_of_nil in He.
      + destruct (IH _ _ _ Ht) as (a & b & -> & Hb & ->).
        exists a, (b ++ [DEv (Inv u p)]). split; [by rewrite <- app_assoc|]. split.
        * intros e [He|He]%elem_of_app; [by apply Hb|]. apply elem_of_list_singleton in He as [= ->]. done.
        * unfold asgs. rewrite omap_app. simpl. by rewrite app_nil_r.
    - apply lookup_insert_Some in Ht as [[-> [= -> <-]]|[Hne Ht]].
      + destruct (IH _ _ _ Hm) as (a & b & -> & Hb & ->).
        exists a, (b ++ [DAsg t v]). split; [by rewrite <- app_assoc|]. split.
        * intros e [He|He]%elem_of_app; [by apply Hb|]. by apply elem_of_list_singleton in He.
        * unfold asgs. rewrite omap_app. simpl. by rewrite decide_True.
      + destruct (IH _ _ _ Ht) as (a & b & -> & Hb & ->).
        exists a, (b ++ [DAsg u v]). split; [by rewrite <- app_assoc|]. split.
        * intros e [He|He]%elem_of_app; [by apply Hb|]. by apply elem_of_list_singleton in He.
        * unfold asgs. rewrite omap_app. simpl. rewrite decide_False by done. by rewrite app_nil_r.
    - apply lookup_delete_Some in Ht as [Hne Ht].
      destruct (IH _ _ _ Ht) as (a & b & -> & Hb & ->).
      exists a, (b ++ [DEv (Res u r)]). split; [by rewrite <- app_assoc|]. split.
      + intros e [He|He]%elem_of_app; [by apply Hb|]. apply elem_of_list_singleton in He as [= ->]. done.
      + unfold asgs. rewrite omap_app. simpl. by rewrite app_nil_r.
  Qed.

  Lemma inside_unique t o1 o2 (a1 b1 a2 b2 : trace) :
    a1 ++ DEv (Inv t o1) :: b1 = a2 ++ DEv (Inv t o2) :: b2 -> inside t b1 -> inside t b2 ->
    o1 = o2 /\ b1 = b2.
  Proof.
    revert a2. induction a1 as [|e a1 IH]; intros [|e2 a2] He H1 H2; simplify_eq/=.
    - done.
    - exfalso. apply (H1 (Inv t o2)); [|done]. apply elem_of_app. right. left.
    - exfalso. apply (H2 (Inv t o1)); [|done]. apply elem_of_app. right. left.
    - by eapply IH.
  Qed.

  Local Lemma snoc_split (a b d : trace) x y z :
    a ++ x :: b ++ y :: d ++ [z] = (a ++ x :: b ++ y :: d) ++ [z].
  Proof. rewrite <- app_assoc. simpl. by rewrite <- app_assoc. Qed.
  Local Lemma snoc_split' (a b : trace) x y : a ++ x :: b ++ [y] = (a ++ x :: b) ++ [y].
  Proof. by rewrite <- app_assoc. Qed.

  (** What a scan says about every completed call. *)
  Lemma scan_call tr m t o r l : scan tr m -> one_call tr t o r l -> P o r l.
  Proof.
    intros Hs (a & b & d & -> & Hb & ->). remember (a ++ DEv (Inv t o) :: b ++ DEv (Res t r) :: d) as tr eqn:He.
    revert d He.
    induction Hs as [|tr m u p Hs IH Hn|tr m u p k v Hs IH Hm Hq|tr m u p k r' Hs IH Hm Hp]; intros d He.
    - by destruct a.
    - destruct d as [|x d _] using rev_ind.
      + rewrite snoc_split' in He. by apply app_inj_tail in He as [_ ?].
      + rewrite snoc_split in He. apply app_inj_tail in He as [He _]. by apply (IH d).
    - destruct d as [|x d _] using rev_ind.
      + rewrite snoc_split' in He. by apply app_inj_tail in He as [_ ?].
      + rewrite snoc_split in He. apply app_inj_tail in He as [He _]. by apply (IH d).
    - destruct d as [|x d _] using rev_ind.
      + rewrite snoc_split' in He. apply app_inj_tail in He as [He Hr]. injection Hr as -> ->. subst tr.
        destruct (scan_open _ _ _ _ _ Hs Hm) as (a' & b' & He & Hb' & ->).
        by destruct (inside_unique _ _ _ _ _ _ _ He Hb Hb') as [<- <-].
      + rewrite snoc_split in He. apply app_inj_tail in He as [He _]. by apply (IH d).
  Qed.

  (** ** Ownership: if no call assigns twice, nothing is destroyed, and what the
      callers own is what the calls returned. *)
  Context (val : ret -> option V).
  Hypothesis HP : forall o r l, P o r l -> l = option_list (val r).
  Hypothesis HQ : forall o l, Q o l -> l = [].

  Lemma scan_owners tr m :
    scan tr m ->
    (forall t, option_list (w_held (owners tr) !! t) = match m !! t with Some (_, l) => l | None => [] end) /\
    w_gone (owners tr) = [] /\ w_given (owners tr) = returned val tr.
  Proof using HP HQ.
    induction 1 as [|tr m u p Hs IH Hn|tr m u p k v Hs IH Hm Hq|tr m u p k r Hs IH Hm Hp].
    - by split_and!.
    - destruct IH as (Hh & Hg & Hr). unfold owners, returned, events in *. rewrite foldl_app, !omap_app. simpl.
      split_and!; [|done|by rewrite app_nil_r].
      intros t. destruct (decide (t = u)) as [->|Hne].
      + by rewrite lookup_delete, lookup_insert.
      + rewrite lookup_delete_ne, lookup_insert_ne by done. apply Hh.
    - destruct IH as (Hh & Hg & Hr). unfold owners, returned, events in *. rewrite foldl_app, !omap_app. simpl.
      pose proof (HQ _ _ Hq) as ->. pose proof (Hh u) as Hu. rewrite Hm in Hu.
      split_and!; [|by rewrite Hg, Hu|by rewrite app_nil_r].
      intros t. destruct (decide (t = u)) as [->|Hne].
      + by rewrite !lookup_insert.
      + rewrite !lookup_insert_ne by done. apply Hh.
    - destruct IH as (Hh & Hg & Hr). unfold owners, returned, events in *. rewrite foldl_app, !omap_app. simpl.
      pose proof (HP _ _ _ Hp) as Hl. pose proof (Hh u) as Hu. rewrite Hm in Hu.
      split_and!; [|done|].
      + intros t. destruct (decide (t = u)) as [->|Hne].
        * by rewrite !lookup_delete.
        * rewrite !lookup_delete_ne by done. apply Hh.
      + rewrite Hr, Hu, Hl. by destruct (val r).
  Qed.
End facts.

(** A weaker demand. *)
Lemma scan_mono {op ret V} (P P' : op -> ret -> list V -> Prop) (Q Q' : op -> list V -> Prop) tr m :
  (forall o r l, P o r l -> P' o r l) -> (forall o l, Q o l -> Q' o l) -> scan P Q tr m -> scan P' Q' tr m.
Proof.
  intros HP HQ. induction 1 as [|tr m u p Hs IH Hn|tr m u p k v Hs IH Hm Hq|tr m u p k r Hs IH Hm Hp].
  - constructor.
  - by constructor.
  - econstructor; eauto.
  - econstructor; eauto.
Qed.

Lemma events_ev {op ret V} (evs : list (event op ret)) : events (V := V) (DEv <$> evs) = evs.
Proof. induction evs as [|e evs IH]; [done|]. simpl. by f_equal. Qed.
Lemma events_asg {op ret V} t (v : V) (tr : list (dev op ret V)) : events (DAsg t v :: tr) = events tr.
Proof. done. Qed.
Lemma events_app {op ret V} (a b : list (dev op ret V)) : events (a ++ b) = events a ++ events b.
Proof. apply omap_app. Qed.

Lemma serial_prefix {op ret V} (k : op -> Prop) (tr tr' : list (dev op ret V)) :
  serial k (tr ++ tr') -> serial k tr.
Proof.
  intros H a t o b u p d -> Ho Hp. apply (H a t o b u p (d ++ tr')); [|done..].
  rewrite <- app_assoc. simpl. by rewrite <- app_assoc.
Qed.

(** At most one call of the kind is in progress. *)
Lemma scan_serial {op ret V} P Q (k : op -> Prop) (tr : list (dev op ret V)) m :
  scan P Q tr m -> serial k tr ->
  forall t o l u p l', m !! t = Some (o, l) -> m !! u = Some (p, l') -> k o -> k p -> t = u.
Proof.
  induction 1 as [|tr m u0 p0 Hs IH Hn|tr m u0 p0 l0 v Hs IH Hm Hq|tr m u0 p0 l0 r Hs IH Hm Hp]; intros Hser t o l u p l' Ht Hu Ho Hp'.
  - by rewrite lookup_empty in Ht.
  - assert (forall t o l, m !! t = Some (o, l) -> k o -> k p0 -> False) as Hno.
    { intros t1 o1 l1 H1 Hk1 Hk0. destruct (scan_open _ _ _ _ _ _ _ Hs H1) as (a & b & -> & Hb & _).
      apply (Hser a t1 o1 b u0 p0 []); [by rewrite <- app_assoc|done..]. }
    apply lookup_insert_Some in Ht as [[<- [= -> <-]]|[Hne Ht]];
      apply lookup_insert_Some in Hu as [[<- [= -> <-]]|[Hne' Hu]].
    + done.
    + by destruct (Hno _ _ _ Hu).
    + by destruct (Hno _ _ _ Ht).
    + eapply IH; try done. by eapply serial_prefix.
  - assert (exists l1, m !! t = Some (o, l1)) as [l1 H1].
    { apply lookup_insert_Some in Ht as [[<- [= -> <-]]|[Hne Ht]]; eauto. }
    assert (exists l2, m !! u = Some (p, l2)) as [l2 H2].
    { apply lookup_insert_Some in Hu as [[<- [= -> <-]]|[Hne Hu]]; eauto. }
    eapply IH; try done. by eapply serial_prefix.
  - apply lookup_delete_Some in Ht as [_ Ht]. apply lookup_delete_Some in Hu as [_ Hu].
    eapply IH; try done. by eapply serial_prefix.
Qed.
