(** * Invariant of the stack machine (tags without wrap-around) *)
From stdpp Require Import gmap list numbers.
From Verif Require Import Lin PoolModel Chain PoolProofs StackModel StackSpec.

(** Ghost state: ownership of nodes, the node lists of stack (top first) and
    pool, and the linearization built so far. *)
Record ghost := Gh {
  g_own : gmap N owner;
  g_sn : list N;
  g_fn : list N;
  g_l : list (levent sop sret);
  g_ph : gmap nat (phase sop sret);
  g_a : list N;
}.

Set Default Proof Using "Type".

(** ** Lists of nodes with live elements *)

Definition vals (h : gmap N snode) (L vs : list N) : Prop :=
  Forall2 (fun n v => exists lk, h !! n = Some (Node lk (Some v))) L vs.

Definition raw (h : gmap N snode) (n : N) : Prop := exists lk, h !! n = Some (Node lk None).
Definition live (h : gmap N snode) (n v : N) : Prop := exists lk, h !! n = Some (Node lk (Some v)).

Lemma vals_ext h h' L vs : (forall n, n ∈ L -> h' !! n = h !! n) -> vals h L vs -> vals h' L vs.
Proof.
  intros Heq HF. induction HF as [|n v L vs (lk & Hn) HF IH]; constructor.
  - exists lk. rewrite Heq; [done|left].
  - apply IH. intros m Hm. apply Heq. by right.
Qed.

Lemma vals_link h L vs b nd p :
  h !! b = Some nd -> vals h L vs -> vals (<[b := set_next nd p]> h) L vs.
Proof.
  intros Hb HF. induction HF as [|n v L vs (lk & Hn) HF IH]; constructor; [|done].
  destruct (decide (b = n)) as [->|Hne].
  - rewrite lookup_insert. rewrite Hb in Hn. injection Hn as ->. unfold set_next. simpl. eauto.
  - rewrite lookup_insert_ne by done. eauto.
Qed.

Lemma vals_insert_ne h L vs n nd : n ∉ L -> vals h L vs -> vals (<[n := nd]> h) L vs.
Proof. intros Hn. apply vals_ext. intros m Hm. rewrite lookup_insert_ne; [done|]. by intros ->. Qed.

Lemma vals_app h L1 L2 vs1 vs2 : vals h L1 vs1 -> vals h L2 vs2 -> vals h (L1 ++ L2) (vs1 ++ vs2).
Proof. apply Forall2_app. Qed.

Lemma vals_length h L vs : vals h L vs -> length L = length vs.
Proof. apply Forall2_length. Qed.

(** Changing the owner of all nodes of a list. *)
Definition own_set (L : list N) (o : owner) (own : gmap N owner) : gmap N owner :=
  foldr (fun n m => <[n := o]> m) own L.

Lemma own_set_in L o own n : n ∈ L -> own_set L o own !! n = Some o.
Proof.
  induction L as [|m L IH]; simpl; intros Hn; [by apply elem_of_nil in Hn|].
  destruct (decide (m = n)) as [->|Hne]; [by rewrite lookup_insert|].
  rewrite lookup_insert_ne by done. apply IH. by apply elem_of_cons in Hn as [->|].
Qed.

Lemma own_set_notin L o own n : n ∉ L -> own_set L o own !! n = own !! n.
Proof.
  induction L as [|m L IH]; simpl; intros Hn; [done|].
  apply not_elem_of_cons in Hn as [Hne Hn].
  rewrite lookup_insert_ne by done. by apply IH.
Qed.

Lemma own_set_Some L o own n o' :
  own_set L o own !! n = Some o' <-> (n ∈ L /\ o' = o) \/ (n ∉ L /\ own !! n = Some o').
Proof.
  destruct (decide (n ∈ L)) as [Hn|Hn].
  - rewrite own_set_in by done. split; [intros [= <-]; by left|]. intros [[_ ->]|[? _]]; done.
  - rewrite own_set_notin by done. split; [by right|]. by intros [[? _]|[_ ?]].
Qed.

Lemma PI_own_set {D} c (h : gmap N (node D)) p own fn L o o' :
  o <> OF -> o' <> OF -> PI c h p own fn -> (forall n, n ∈ L -> own !! n = Some o) ->
  PI c h p (own_set L o' own) fn.
Proof.
  intros Ho Ho' HP. induction L as [|m L IH]; intros HL; [done|]. simpl.
  assert (Hm : exists om, om <> OF /\ own_set L o' own !! m = Some om).
  { destruct (decide (m ∈ L)) as [Hi|Hi].
    - exists o'. split; [done|]. by apply own_set_in.
    - exists o. split; [done|]. rewrite own_set_notin by done. apply HL. left. }
  destruct Hm as (om & Hom & Hm). eapply (PI_own _ _ _ _ _ _ om); [done|done| |done].
  apply IH. intros n Hn. apply HL. by right.
Qed.

Section inv.
  Context (c : cfg).
  Notation null := (c_null c).
  Notation spec := (sspec (c_node_based c) (c_throws c)).

  Record GI (x : sshared) (g : ghost) : Prop := {
    gi_pi : PI c (s_heap x) (s_pool x) (g_own g) (g_fn g);
    gi_nodup : NoDup (g_sn g);
    gi_mem : forall n, n ∈ g_sn g <-> g_own g !! n = Some OQ;
    gi_seg : seg (s_heap x) (s_tos x).1 (g_sn g) null;
    gi_a : vals (s_heap x) (g_sn g) (g_a g);
    gi_raw : forall n, g_own g !! n = Some OF -> raw (s_heap x) n;
    gi_leak : c_throws c = false -> forall n, g_own g !! n <> Some OL;
    gi_run : lruns spec ∅ [] (g_l g) (g_ph g) (g_a g);
  }.

  (** What the other threads may do, as seen by thread [t]. *)
  Record rely (t : nat) (x : sshared) (g : ghost) (x' : sshared) (g' : ghost) : Prop := {
    rl_tos : ((s_tos x).2 <= (s_tos x').2)%N /\
             ((s_tos x).2 = (s_tos x').2 -> forall n, g_own g !! n = Some OQ ->
                g_own g' !! n = Some OQ /\ s_heap x' !! n = s_heap x !! n);
    rl_pool : prely (s_heap x) (s_pool x) (g_own g) (s_heap x') (s_pool x') (g_own g');
    rl_dom : forall n, is_Some (s_heap x !! n) -> is_Some (s_heap x' !! n);
    rl_own : forall n, g_own g !! n = Some (OT t) ->
                g_own g' !! n = Some (OT t) /\ s_heap x' !! n = s_heap x !! n;
    rl_ph : g_ph g' !! t = g_ph g !! t;
    rl_back : forall n, g_own g' !! n = Some (OT t) -> g_own g !! n = Some (OT t);
  }.

  (** ** What each thread knows at each program counter *)

  Definition pend (g : ghost) (t : nat) (o : sop) : Prop := g_ph g !! t = Some (Pending o).
  Definition fin (g : ghost) (t : nat) (o : sop) (r : sret) : Prop := g_ph g !! t = Some (Done o r).

  (** [t] owns exactly the nodes [L]. *)
  Definition owns (t : nat) (g : ghost) (L : list N) : Prop :=
    NoDup L /\ forall n, g_own g !! n = Some (OT t) <-> n ∈ L.

  (** The nodes [L] form a chain from [top] to [bot] holding [vs], ready to be
      linked by a call that then returns [r]. *)
  Definition linking (t : nat) (top bot : N) (r : sret) (x : sshared) (g : ghost) : Prop :=
    exists o L vs, pend g t o /\ (forall a, spec a o r (vs ++ a)) /\ owns t g (L ++ [bot]) /\
      seg (s_heap x) top L bot /\ vals (s_heap x) (L ++ [bot]) vs.

  (** The list built so far by prepare_node_list. *)
  Definition built (h : gmap N snode) (te : option (N * N)) (L vs : list N) : Prop :=
    match te with
    | None => L = [] /\ vs = []
    | Some te => exists L', L = L' ++ [te.2] /\ seg h te.1 L' te.2 /\ nxp h te.2 = Some null /\
                            vals h L vs
    end.

  (** The list [L] starting at [p] holds [vs]. *)
  Definition holds_list (h : gmap N snode) (p : N) (L vs : list N) : Prop :=
    seg h p L null /\ vals h L vs.

  Definition rolling (t : nat) (g : ghost) : Prop :=
    exists b vs, pend g t (SRange b vs) /\ (c_throws c = true \/ b = false).

  (** [t] has removed all elements, has shown [acc] to the functor and will show
      [rest]. *)
  Definition visiting (t : nat) (g : ghost) (k : nat) (acc rest : list N) : Prop :=
    k = length acc /\
    exists rev, fin g t (SAll rev) (SCount (length (acc ++ rest)) (acc ++ rest)).

  (** The continuation [k], with the nodes [L] that it will deal with. *)
  Definition kinv (t : nat) (x : sshared) (g : ghost) (k : skont) (L : list N) : Prop :=
    match k with
    | KRet r => L = [] /\ exists o, fin g t o r
    | KReserve _ => L = [] /\ exists m, pend g t (SReserve m)
    | KUndo cur => exists vs, holds_list (s_heap x) cur L vs /\ rolling t g
    | KVisit nxt k acc => exists rest, holds_list (s_heap x) nxt L rest /\ visiting t g k acc rest
    end.

  Definition cinv (x : sshared) (g : ghost) (old : tagged) : Prop :=
    old.1 <> null /\ ((old.2 <= (s_tos x).2)%N) /\ is_Some (s_heap x !! old.1) /\
    (old.2 = (s_tos x).2 -> g_own g !! old.1 = Some OQ).

  Definition tinv (t : nat) (pc : spc) (x : sshared) (g : ghost) : Prop :=
    match pc with
    | PcAlloc b v a =>
        pend g t (SPush b v) /\ owns t g [] /\ ainv c (s_heap x) (s_pool x) (g_own g) a
    | PcCons v n =>
        exists b, pend g t (SPush b v) /\ owns t g [n] /\ raw (s_heap x) n
    | PcLLoad top bot r | PcLSet top bot _ r => linking t top bot r x g
    | PcLCas top bot old r => linking t top bot r x g /\ nxp (s_heap x) bot = Some old.1
    | PcRFirst b vs => pend g t (SRange b vs) /\ owns t g [] /\ vs <> [] /\ c_node_based c = true
    | PcRAlloc b vs k te a =>
        pend g t (SRange b vs) /\ k < length vs /\ c_node_based c = true /\
        (exists L, owns t g L /\ built (s_heap x) te L (reverse (take k vs))) /\
        ainv c (s_heap x) (s_pool x) (g_own g) a
    | PcRCons b vs k te n =>
        pend g t (SRange b vs) /\ k < length vs /\ c_node_based c = true /\ raw (s_heap x) n /\
        (exists L, owns t g (n :: L) /\ built (s_heap x) te L (reverse (take k vs)))
    | PcRLink b vs k te n =>
        pend g t (SRange b vs) /\ c_node_based c = true /\
        (exists v, vs !! k = Some v /\ live (s_heap x) n v) /\
        (exists L, owns t g (n :: L) /\ built (s_heap x) te L (reverse (take k vs)))
    | PcUndo cur =>
        rolling t g /\ exists L vs, owns t g (cur :: L) /\ holds_list (s_heap x) cur (cur :: L) vs
    | PcCLoad => pend g t SPop /\ owns t g []
    | PcCNext old => pend g t SPop /\ owns t g [] /\ cinv x g old
    | PcCCas old nxt =>
        pend g t SPop /\ owns t g [] /\ cinv x g old /\
        (old.2 = (s_tos x).2 -> nxp (s_heap x) old.1 = Some nxt)
    | PcCFun n =>
        owns t g [n] /\ exists v, live (s_heap x) n v /\ fin g t SPop (SGot (Some v))
    | PcALoad rev => pend g t (SAll rev) /\ owns t g []
    | PcACas rev old => pend g t (SAll rev) /\ owns t g [] /\ old.1 <> null
    | PcRevNext n lst =>
        exists L1 L2 vs1 vs2, owns t g (L1 ++ n :: L2) /\
          holds_list (s_heap x) lst L1 vs1 /\ holds_list (s_heap x) n (n :: L2) vs2 /\
          visiting t g 0 [] (reverse vs2 ++ vs1)
    | PcRevSet n lst nxt =>
        exists L1 L2 vs1 v vs2, owns t g (L1 ++ n :: L2) /\
          holds_list (s_heap x) lst L1 vs1 /\ live (s_heap x) n v /\
          holds_list (s_heap x) nxt L2 vs2 /\
          visiting t g 0 [] (reverse (v :: vs2) ++ vs1)
    | PcVisit n k acc =>
        exists L rest, owns t g (n :: L) /\ holds_list (s_heap x) n (n :: L) rest /\
          visiting t g k acc rest
    | PcVNext n k acc =>
        exists L v rest, owns t g (n :: L) /\ holds_list (s_heap x) n (n :: L) (v :: rest) /\
          visiting t g k acc rest
    | PcDestroy n k =>
        exists L v, owns t g (n :: L) /\ live (s_heap x) n v /\ kinv t x g k L
    | PcDealloc n d k =>
        exists L, owns t g (n :: L) /\ raw (s_heap x) n /\ dinv (s_heap x) n d /\ kinv t x g k L
    | PcReserve _ => owns t g [] /\ exists m, pend g t (SReserve m)
    | PcEmpty => pend g t SEmpty /\ owns t g []
    | PcRet r => owns t g [] /\ exists o, fin g t o r
    end.

  Definition Inv (s : sstate) (g : ghost) : Prop :=
    GI (s_sh s) g /\
    forall t, match s_pcs s !! t with
              | None => g_ph g !! t = None /\ owns t g []
              | Some pc => tinv t pc (s_sh s) g
              end.

  (** ** Facts about the global invariant *)

  Lemma gi_dom x g n : GI x g -> n ∈ g_sn g -> is_Some (s_heap x !! n).
  Proof. intros HG Hn. eapply seg_dom; [apply (gi_seg _ _ HG)|done]. Qed.

  Lemma gi_null_nin x g : GI x g -> null ∉ g_sn g.
  Proof.
    intros HG Hn. destruct (gi_dom _ _ _ HG Hn) as [nd Hnd].
    rewrite (pi_null _ _ _ _ _ (gi_pi _ _ HG)) in Hnd. done.
  Qed.

  Lemma gi_tos_null x g : GI x g -> (s_tos x).1 = null <-> g_sn g = [].
  Proof.
    intros HG. pose proof (gi_seg _ _ HG) as Hs. pose proof (gi_null_nin _ _ HG) as Hn.
    destruct (g_sn g) as [|n l]; simpl in Hs.
    - done.
    - destruct Hs as [-> _]. split; [|done]. intros ->. exfalso. apply Hn. left.
  Qed.

  Lemma gi_a_nil x g : GI x g -> g_sn g = [] <-> g_a g = [].
  Proof.
    intros HG. pose proof (vals_length _ _ _ (gi_a _ _ HG)) as Hl.
    destruct (g_sn g), (g_a g); simpl in Hl; split; done.
  Qed.

  Lemma gi_tos_cons x g : GI x g -> (s_tos x).1 <> null -> exists l, g_sn g = (s_tos x).1 :: l.
  Proof.
    intros HG Hn. pose proof (gi_seg _ _ HG) as Hs.
    destruct (g_sn g) as [|n l]; simpl in Hs; [done|]. destruct Hs as [-> _]. eauto.
  Qed.

  Lemma gi_own_not_null x g n o : GI x g -> g_own g !! n = Some o -> n <> null.
  Proof using. intros HG. eapply PI_not_null. apply (gi_pi _ _ HG). Qed.

  Lemma gi_own_dom x g n o : GI x g -> g_own g !! n = Some o -> is_Some (s_heap x !! n).
  Proof. intros HG Ho. apply (pi_dom _ _ _ _ _ (gi_pi _ _ HG)). eauto. Qed.

  Lemma cinv_load x g : GI x g -> (s_tos x).1 <> null -> cinv x g (s_tos x).
  Proof.
    intros HG Hn. destruct (gi_tos_cons _ _ HG Hn) as [l Hl].
    assert (Hi : (s_tos x).1 ∈ g_sn g) by (rewrite Hl; left).
    split; [done|]. split; [lia|]. split; [by eapply gi_dom|]. intros _. by apply (gi_mem _ _ HG).
  Qed.

  (** Lists that end with null: a list starting at null is empty. *)
  Lemma holds_list_null x g h p L vs :
    GI x g -> (forall n, n ∈ L -> exists o, g_own g !! n = Some o) -> holds_list h p L vs ->
    (p = null /\ L = [] /\ vs = []) \/
    (p <> null /\ exists L' v vs', L = p :: L' /\ vs = v :: vs').
  Proof.
    intros HG HL [Hs Hv]. destruct L as [|n L]; simpl in Hs.
    - left. apply Forall2_nil_inv_l in Hv. done.
    - destruct Hs as [-> _]. right. apply Forall2_cons_inv_l in Hv as (v & vs' & _ & _ & ->).
      split; [|eauto]. destruct (HL n) as [o Ho]; [left|]. by eapply gi_own_not_null.
  Qed.

  (** ** Stability *)

  Lemma owns_stable t x g x' g' L : rely t x g x' g' -> owns t g L -> owns t g' L.
  Proof.
    intros R [Hnd H]. split; [done|]. intros n. rewrite <- H. split.
    - apply (rl_back _ _ _ _ _ R).
    - intros Hn. by apply (rl_own _ _ _ _ _ R).
  Qed.

  Lemma owns_heap t x g x' g' L n :
    rely t x g x' g' -> owns t g L -> n ∈ L -> s_heap x' !! n = s_heap x !! n.
  Proof. intros R [_ H] Hn. apply H in Hn. by apply (rl_own _ _ _ _ _ R). Qed.

  Lemma nxp_eq (h h' : gmap N snode) n : h' !! n = h !! n -> nxp h' n = nxp h n.
  Proof. unfold nxp. by intros ->. Qed.

  Lemma holds_list_ext h h' p L vs :
    (forall n, n ∈ L -> h' !! n = h !! n) -> holds_list h p L vs -> holds_list h' p L vs.
  Proof.
    intros Heq [H1 H2]. split; [|by eapply vals_ext].
    eapply seg_ext; [|done]. intros n Hn. by apply nxp_eq, Heq.
  Qed.

  Lemma built_ext h h' te L vs :
    (forall n, n ∈ L -> h' !! n = h !! n) -> built h te L vs -> built h' te L vs.
  Proof.
    intros Heq. destruct te as [te|]; simpl; [|done].
    intros (L' & HL & H1 & H2 & H3). exists L'. subst L. split; [done|].
    split; [|split].
    - eapply seg_ext; [|done]. intros n Hn. apply nxp_eq, Heq. apply elem_of_app. by left.
    - rewrite <- H2. apply nxp_eq, Heq. apply elem_of_app. right. left.
    - by eapply vals_ext.
  Qed.

  Lemma raw_eq h h' n : h' !! n = h !! n -> raw h n -> raw h' n.
  Proof. unfold raw. by intros ->. Qed.
  Lemma live_eq h h' n v : h' !! n = h !! n -> live h n v -> live h' n v.
  Proof. unfold live. by intros ->. Qed.

  Lemma pend_stable t o x g x' g' : rely t x g x' g' -> pend g t o -> pend g' t o.
  Proof. intros R. unfold pend. by rewrite (rl_ph _ _ _ _ _ R). Qed.
  Lemma fin_stable t o r x g x' g' : rely t x g x' g' -> fin g t o r -> fin g' t o r.
  Proof. intros R. unfold fin. by rewrite (rl_ph _ _ _ _ _ R). Qed.

  Lemma linking_stable t top bot r x g x' g' :
    rely t x g x' g' -> linking t top bot r x g -> linking t top bot r x' g'.
  Proof.
    intros R (o & L & vs & Hp & Hs & Ho & Hseg & Hv). exists o, L, vs.
    split; [by eapply pend_stable|]. split; [done|]. split; [by eapply owns_stable|].
    split.
    - eapply seg_ext; [|done]. intros n Hn. apply nxp_eq. eapply owns_heap; [done|done|].
      apply elem_of_app. by left.
    - eapply vals_ext; [|done]. intros n Hn. by eapply owns_heap.
  Qed.

  Lemma rolling_stable t x g x' g' : rely t x g x' g' -> rolling t g -> rolling t g'.
  Proof. intros R (b & vs & Hp & H). exists b, vs. split; [by eapply pend_stable|done]. Qed.

  Lemma visiting_stable t x g x' g' k acc rest :
    rely t x g x' g' -> visiting t g k acc rest -> visiting t g' k acc rest.
  Proof. intros R (H & rev & Hf). split; [done|]. exists rev. by eapply fin_stable. Qed.

  Lemma kinv_stable t x g x' g' k L :
    rely t x g x' g' -> (forall n, n ∈ L -> s_heap x' !! n = s_heap x !! n) ->
    kinv t x g k L -> kinv t x' g' k L.
  Proof.
    intros R Heq. destruct k as [r|j|cur|nxt k acc]; simpl.
    - intros (H & o & Hf). split; [done|]. exists o. by eapply fin_stable.
    - intros (H & m & Hf). split; [done|]. exists m. by eapply pend_stable.
    - intros (vs & H1 & H2). exists vs. split; [by eapply holds_list_ext|by eapply rolling_stable].
    - intros (rest & H1 & H2). exists rest. split; [by eapply holds_list_ext|by eapply visiting_stable].
  Qed.

  Lemma cinv_stable t x g x' g' old : rely t x g x' g' -> cinv x g old -> cinv x' g' old.
  Proof.
    intros R (H1 & H2 & H3 & H4). destruct (rl_tos _ _ _ _ _ R) as [Hle Heq].
    split; [done|]. split; [lia|]. split; [by eapply rl_dom|]. intros Ht.
    apply Heq; [lia|]. apply H4. lia.
  Qed.

  Lemma tinv_stable t pc x g x' g' :
    rely t x g x' g' -> tinv t pc x g -> tinv t pc x' g'.
  Proof.
    intros R.
    pose proof (fun o => pend_stable t o _ _ _ _ R) as Sp.
    pose proof (fun o r => fin_stable t o r _ _ _ _ R) as Sf.
    pose proof (fun L => owns_stable t _ _ _ _ L R) as So.
    pose proof (fun L n => owns_heap t _ _ _ _ L n R) as Sh.
    pose proof (rolling_stable t _ _ _ _ R) as Sr.
    pose proof (fun k acc rest => visiting_stable t _ _ _ _ k acc rest R) as Sv.
    pose proof (fun old => cinv_stable t _ _ _ _ old R) as Sc.
    assert (Sa : forall a, ainv c (s_heap x) (s_pool x) (g_own g) a ->
                           ainv c (s_heap x') (s_pool x') (g_own g') a).
    { intros a. eapply ainv_stable; [apply R|]. apply (rl_dom _ _ _ _ _ R). }
    destruct pc as [b v a|v n|top bot r|top bot old r|top bot old r|b vs|b vs k te a|b vs k te n
      |b vs k te n|cur| |old|old nxt|n|rev|rev old|n lst|n lst nxt|n k acc|n k acc|n k|n d k|k| |r]; simpl.
    - intros (H1 & H2 & H3). auto.
    - intros (b & H1 & H2 & H3). exists b. split; [auto|]. split; [auto|].
      eapply raw_eq; [|done]. eapply Sh; [done|left].
    - by apply linking_stable.
    - by apply linking_stable.
    - intros [H1 H2]. split; [by eapply linking_stable|]. rewrite <- H2. apply nxp_eq.
      destruct H1 as (o & L & vs & _ & _ & Ho & _). eapply Sh; [done|]. apply elem_of_app. right. left.
    - intros (H1 & H2 & H3). auto.
    - intros (H1 & H2 & H3 & (L & H4 & H5) & H6). split; [auto|]. split; [done|]. split; [done|].
      split; [|auto]. exists L. split; [auto|]. eapply built_ext; [|done]. intros. by eapply Sh.
    - intros (H1 & H2 & H3 & H4 & L & H5 & H6). split; [auto|]. split; [done|]. split; [done|].
      split; [eapply raw_eq; [|done]; eapply Sh; [done|left]|].
      exists L. split; [auto|]. eapply built_ext; [|done]. intros. eapply Sh; [done|by right].
    - intros (H1 & H2 & (v & H3 & H4) & L & H5 & H6). split; [auto|]. split; [done|].
      split; [exists v; split; [done|]; eapply live_eq; [|done]; eapply Sh; [done|left]|].
      exists L. split; [auto|]. eapply built_ext; [|done]. intros. eapply Sh; [done|by right].
    - intros (H1 & L & vs & H2 & H3). split; [auto|]. exists L, vs. split; [auto|].
      eapply holds_list_ext; [|done]. intros. by eapply Sh.
    - intros (H1 & H2). auto.
    - intros (H1 & H2 & H3). auto.
    - intros (H1 & H2 & H3 & H4). split; [auto|]. split; [auto|]. split; [auto|].
      destruct (rl_tos _ _ _ _ _ R) as [Hle Heq]. destruct H3 as (_ & H5 & _ & H6). intros Ht.
      rewrite <- H4 by lia. apply nxp_eq. apply Heq; [lia|]. apply H6. lia.
    - intros (H1 & v & H2 & H3). split; [auto|]. exists v. split; [|auto].
      eapply live_eq; [|done]. eapply Sh; [done|left].
    - intros (H1 & H2). auto.
    - intros (H1 & H2 & H3). auto.
    - intros (L1 & L2 & vs1 & vs2 & H1 & H2 & H3 & H4). exists L1, L2, vs1, vs2.
      split; [auto|]. split; [|split; [|auto]].
      + eapply holds_list_ext; [|done]. intros. eapply Sh; [done|]. apply elem_of_app. by left.
      + eapply holds_list_ext; [|done]. intros. eapply Sh; [done|]. apply elem_of_app. by right.
    - intros (L1 & L2 & vs1 & v & vs2 & H1 & H2 & H3 & H4 & H5). exists L1, L2, vs1, v, vs2.
      split; [auto|]. split; [|split; [|split; [|auto]]].
      + eapply holds_list_ext; [|done]. intros. eapply Sh; [done|]. apply elem_of_app. by left.
      + eapply live_eq; [|done]. eapply Sh; [done|]. apply elem_of_app. right. left.
      + eapply holds_list_ext; [|done]. intros. eapply Sh; [done|]. apply elem_of_app. right. by right.
    - intros (L & rest & H1 & H2 & H3). exists L, rest. split; [auto|]. split; [|auto].
      eapply holds_list_ext; [|done]. intros. by eapply Sh.
    - intros (L & v & rest & H1 & H2 & H3). exists L, v, rest. split; [auto|]. split; [|auto].
      eapply holds_list_ext; [|done]. intros. by eapply Sh.
    - intros (L & v & H1 & H2 & H3). exists L, v. split; [auto|]. split.
      + eapply live_eq; [|done]. eapply Sh; [done|left].
      + eapply kinv_stable; [done| |done]. intros. eapply Sh; [done|by right].
    - intros (L & H1 & H2 & H3 & H4). exists L. split; [auto|].
      assert (Hn : s_heap x' !! n = s_heap x !! n) by (eapply Sh; [done|left]).
      split; [by eapply raw_eq|]. split.
      + destruct d; simpl in *; try done. by rewrite (nxp_eq _ _ _ Hn).
      + eapply kinv_stable; [done| |done]. intros. eapply Sh; [done|by right].
    - intros (H1 & m & H2). split; [auto|]. exists m. auto.
    - intros (H1 & H2). auto.
    - intros (H1 & o & H2). split; [auto|]. exists o. auto.
  Qed.
End inv.
