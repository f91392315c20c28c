(** * Every step of the stack machine preserves the invariant *)
From stdpp Require Import gmap list numbers.
From Verif Require Import Lin LinFacts PoolModel Chain PoolProofs StackModel StackSpec StackInv.

Set Default Proof Using "Type".

Section step.
  Context (c : cfg).
  Notation null := (c_null c).
  Notation spec := (sspec (c_node_based c) (c_throws c)).
  Notation GI := (GI c).
  Notation tinv := (tinv c).
  Notation Inv := (Inv c).
  Notation holds_list := (holds_list c).
  Notation built := (built c).
  Notation linking := (linking c).
  Notation kinv := (kinv c).
  Notation rolling := (rolling c).

  (** ** Ghost updates *)

  Definition g_mem (g : ghost) own sn fn : ghost :=
    Gh own sn fn (g_l g) (g_ph g) (g_a g).
  Definition g_tr (g : ghost) l ph a : ghost :=
    Gh (g_own g) (g_sn g) (g_fn g) l ph a.

  Lemma rely_refl t x g : rely t x g x g.
  Proof. split; try done; split; (lia || done). Qed.

  Lemma rely_trans t x1 g1 x2 g2 x3 g3 :
    rely t x1 g1 x2 g2 -> rely t x2 g2 x3 g3 -> rely t x1 g1 x3 g3.
  Proof.
    intros R1 R2. split.
    - destruct (rl_tos _ _ _ _ _ R1) as [L1 E1]. destruct (rl_tos _ _ _ _ _ R2) as [L2 E2].
      split; [lia|]. intros Ht n Hn. destruct (E1 ltac:(lia) n Hn) as [Hn2 Hh2].
      destruct (E2 ltac:(lia) n Hn2) as [Hn3 Hh3]. split; [done|]. by rewrite Hh3.
    - destruct (rl_pool _ _ _ _ _ R1) as [L1 E1]. destruct (rl_pool _ _ _ _ _ R2) as [L2 E2].
      split; [lia|]. intros Ht n Hn. destruct (E1 ltac:(lia) n Hn) as [Hn2 Hh2].
      destruct (E2 ltac:(lia) n Hn2) as [Hn3 Hh3]. split; [done|]. by rewrite Hh3.
    - intros n Hn. by apply (rl_dom _ _ _ _ _ R2), (rl_dom _ _ _ _ _ R1).
    - intros n Hn. destruct (rl_own _ _ _ _ _ R1 n Hn) as [Hn2 Hh2].
      destruct (rl_own _ _ _ _ _ R2 n Hn2) as [Hn3 Hh3]. split; [done|]. by rewrite Hh3.
    - by rewrite (rl_ph _ _ _ _ _ R2), (rl_ph _ _ _ _ _ R1).
    - intros n Hn. by apply (rl_back _ _ _ _ _ R1), (rl_back _ _ _ _ _ R2).
  Qed.

  (** Changes to memory by thread [t] that concern only nodes that are its own
      before or after, or new. *)
  Lemma rely_mem t t' x g x' g' :
    t' <> t -> g_ph g' !! t' = g_ph g !! t' -> s_tos x' = s_tos x ->
    ((s_pool x).2 <= (s_pool x').2)%N ->
    (forall n o, g_own g !! n = Some o -> o <> OT t -> (o = OF -> (s_pool x).2 = (s_pool x').2) ->
       g_own g' !! n = Some o /\ s_heap x' !! n = s_heap x !! n) ->
    (forall n, is_Some (s_heap x !! n) -> is_Some (s_heap x' !! n)) ->
    (forall n, g_own g' !! n = Some (OT t') -> g_own g !! n = Some (OT t')) ->
    rely t' x g x' g'.
  Proof.
    intros Hne Hph Ht Hp Hk Hd Hb. split; try done.
    - rewrite Ht. split; [lia|]. intros _ n Hn. by apply Hk.
    - split; [lia|]. intros Hpe n Hn. by apply Hk.
    - intros n Hn. apply Hk; [done|congruence|done].
  Qed.

  (** ** Ownership *)

  Lemma owns_insert t g g' L n :
    owns t g L -> n ∉ L -> g_own g' = <[n := OT t]> (g_own g) -> owns t g' (n :: L).
  Proof.
    intros [Hnd H] Hn Hg. split; [by constructor|]. intros m. rewrite Hg, lookup_insert_Some.
    rewrite elem_of_cons, <- H. split.
    - intros [[-> _]|[_ ?]]; auto.
    - intros [->|Hm]; [by left|]. right. split; [|done]. intros ->. apply Hn. by apply H.
  Qed.

  Lemma owns_give t g g' L n o :
    owns t g (n :: L) -> o <> OT t -> g_own g' = <[n := o]> (g_own g) -> owns t g' L.
  Proof.
    intros [Hnd H] Ho Hg. apply list.NoDup_cons in Hnd as [Hn Hnd]. split; [done|]. intros m.
    rewrite Hg, lookup_insert_Some. split.
    - intros [[_ ?]|[Hne Hm]]; [congruence|]. apply H in Hm. by apply elem_of_cons in Hm as [->|].
    - intros Hm. right. split; [by intros ->|]. apply H. by right.
  Qed.

  Lemma owns_none t g g' L o :
    owns t g L -> o <> OT t -> g_own g' = own_set L o (g_own g) -> owns t g' [].
  Proof.
    intros [Hnd H] Ho Hg. split; [constructor|]. intros m. rewrite Hg, own_set_Some. split.
    - intros [[_ ?]|[Hm Hm']]; [congruence|]. by apply H in Hm'.
    - intros Hm. by apply elem_of_nil in Hm.
  Qed.

  Lemma owns_take t g g' L :
    owns t g [] -> NoDup L -> g_own g' = own_set L (OT t) (g_own g) -> owns t g' L.
  Proof.
    intros [_ H] Hnd Hg. split; [done|]. intros m. rewrite Hg, own_set_Some. split.
    - intros [[? _]|[_ Hm]]; [done|]. apply H in Hm. by apply elem_of_nil in Hm.
    - auto.
  Qed.

  Lemma owns_in t g L n : owns t g L -> n ∈ L -> g_own g !! n = Some (OT t).
  Proof. intros [_ H] Hn. by apply H. Qed.

  Lemma owns_eq t g g' L : g_own g' = g_own g -> owns t g L -> owns t g' L.
  Proof. unfold owns. by intros ->. Qed.

  (** ** Actions *)

  (** *** The thread writes a node it owns *)
  Lemma act_write x g t n nd :
    GI x g -> g_own g !! n = Some (OT t) ->
    let x' := set_heap x (<[n := nd]> (s_heap x)) in
    GI x' g /\ (forall t', t' <> t -> rely t' x g x' g).
  Proof.
    intros HG Ho x'.
    assert (Hnq : n ∉ g_sn g).
    { intros Hi. apply (gi_mem _ _ _ HG) in Hi. congruence. }
    split.
    - destruct HG. split; simpl; try done.
      + eapply (PI_write _ _ _ _ _ _ (OT t)); done.
      + by apply seg_insert_ne.
      + by apply vals_insert_ne.
      + intros m Hm. eapply raw_eq; [|by apply gi_raw]. rewrite lookup_insert_ne; [done|]. congruence.
    - intros t' Hne. apply (rely_mem t); try done; simpl.
      + intros m o Hm Hmo _. split; [done|]. rewrite lookup_insert_ne; [done|]. congruence.
      + intros m Hm. rewrite lookup_insert_is_Some. destruct (decide (n = m)); auto.
  Qed.

  (** *** A fresh node from the allocator *)
  Lemma act_fresh x g t n nd :
    GI x g -> s_heap x !! n = None -> n <> null ->
    let x' := set_heap x (<[n := nd]> (s_heap x)) in
    let g' := g_mem g (<[n := OT t]> (g_own g)) (g_sn g) (g_fn g) in
    GI x' g' /\ g_own g !! n = None /\ (forall t', t' <> t -> rely t' x g x' g').
  Proof.
    intros HG Hf Hn x' g'.
    assert (Hno : g_own g !! n = None).
    { apply eq_None_not_Some. rewrite (pi_dom _ _ _ _ _ (gi_pi _ _ _ HG)), Hf. intros [? ?]. done. }
    assert (Hnq : n ∉ g_sn g).
    { intros Hi. apply (gi_mem _ _ _ HG) in Hi. congruence. }
    split; [|split; [done|]].
    - destruct HG. split; simpl; try done.
      + by apply PI_fresh.
      + intros m. rewrite gi_mem. destruct (decide (n = m)) as [->|Hne].
        * rewrite lookup_insert, Hno. done.
        * by rewrite lookup_insert_ne.
      + by apply seg_insert_ne.
      + by apply vals_insert_ne.
      + intros m. rewrite lookup_insert_Some. intros [[_ ?]|[Hne Hm]]; [done|].
        eapply raw_eq; [|by apply gi_raw]. by rewrite lookup_insert_ne.
      + intros Hth m. rewrite lookup_insert_Some. intros [[_ ?]|[_ ?]]; [done|]. by eapply gi_leak.
    - intros t' Hne. apply (rely_mem t); try done; simpl.
      + intros m o Hm Hmo _. rewrite !lookup_insert_ne; [done|congruence|congruence].
      + intros m Hm. rewrite lookup_insert_is_Some. destruct (decide (n = m)); auto.
      + intros m. rewrite lookup_insert_Some. intros [[_ ?]|[_ ?]]; congruence.
  Qed.

  (** *** Taking a node from the pool *)
  Lemma act_pool_pop x g t n fn' p' :
    GI x g -> g_fn g = n :: fn' -> nxp (s_heap x) n = Some p'.1 -> p'.2 = ((s_pool x).2 + 1)%N ->
    let x' := set_heap_pool x (s_heap x) p' in
    let g' := g_mem g (<[n := OT t]> (g_own g)) (g_sn g) fn' in
    GI x' g' /\ g_own g !! n = Some OF /\ raw (s_heap x) n /\
    (forall t', t' <> t -> rely t' x g x' g').
  Proof.
    intros HG Hfn Hx Hp x' g'.
    assert (Hno : g_own g !! n = Some OF).
    { apply (pi_mem _ _ _ _ _ (gi_pi _ _ _ HG)). rewrite Hfn. left. }
    split; [|split; [done|split; [by apply HG|]]].
    - destruct HG. split; simpl; try done.
      + eapply PI_pop; [done| |done]. by rewrite <- Hfn.
      + intros m. rewrite gi_mem. destruct (decide (n = m)) as [->|Hne].
        * rewrite lookup_insert, Hno. done.
        * by rewrite lookup_insert_ne.
      + intros m. rewrite lookup_insert_Some. intros [[_ ?]|[Hne Hm]]; [done|]. by apply gi_raw.
      + intros Hth m. rewrite lookup_insert_Some. intros [[_ ?]|[_ ?]]; [done|]. by eapply gi_leak.
    - intros t' Hne. apply (rely_mem t); try done; simpl.
      + lia.
      + intros m o Hm Hmo HF. rewrite lookup_insert_ne; [done|]. intros ->.
        rewrite Hno in Hm. injection Hm as <-. specialize (HF eq_refl). lia.
      + intros m. rewrite lookup_insert_Some. intros [[_ ?]|[_ ?]]; congruence.
  Qed.

  (** *** Giving a node back to the pool *)
  Lemma act_pool_push x g t n :
    GI x g -> g_own g !! n = Some (OT t) -> raw (s_heap x) n -> nxp (s_heap x) n = Some (s_pool x).1 ->
    let x' := set_heap_pool x (s_heap x) (n, (s_pool x).2) in
    let g' := g_mem g (<[n := OF]> (g_own g)) (g_sn g) (n :: g_fn g) in
    GI x' g' /\ (forall t', t' <> t -> rely t' x g x' g').
  Proof.
    intros HG Ho Hraw Hx x' g'. split.
    - destruct HG. split; simpl; try done.
      + eapply (PI_push _ _ _ _ _ _ (OT t)); done.
      + intros m. rewrite gi_mem. destruct (decide (n = m)) as [->|Hne].
        * rewrite lookup_insert, Ho. done.
        * by rewrite lookup_insert_ne.
      + intros m. rewrite lookup_insert_Some. intros [[<- _]|[Hne Hm]]; [done|]. by apply gi_raw.
      + intros Hth m. rewrite lookup_insert_Some. intros [[_ ?]|[_ ?]]; [done|]. by eapply gi_leak.
    - intros t' Hne. apply (rely_mem t); try done; simpl.
      + intros m o Hm Hmo _. rewrite lookup_insert_ne; [done|congruence].
      + intros m. rewrite lookup_insert_Some. intros [[_ ?]|[_ ?]]; congruence.
  Qed.

  (** *** Losing nodes (a copy constructor or functor throws) *)
  Lemma act_leak x g t L :
    c_throws c = true -> GI x g -> (forall n, n ∈ L -> g_own g !! n = Some (OT t)) ->
    let g' := g_mem g (own_set L OL (g_own g)) (g_sn g) (g_fn g) in
    GI x g' /\ (forall t', t' <> t -> rely t' x g x g').
  Proof.
    intros Hth HG HL g'. split.
    - destruct HG. split; simpl; try done.
      + eapply (PI_own_set _ _ _ _ _ _ (OT t)); done.
      + intros m. rewrite gi_mem, own_set_Some. split.
        * intros Hm. right. split; [|done]. intros Hi. apply HL in Hi. congruence.
        * intros [[_ ?]|[_ ?]]; done.
      + intros m. rewrite own_set_Some. intros [[_ ?]|[_ ?]]; [done|]. by apply gi_raw.
      + congruence.
    - intros t' Hne. apply (rely_mem t); try done; simpl.
      + intros m o Hm Hmo _. split; [|done]. rewrite own_set_notin; [done|].
        intros Hi. apply HL in Hi. congruence.
      + intros m. rewrite own_set_Some. intros [[_ ?]|[_ ?]]; congruence.
  Qed.

  (** *** A call takes effect without changing the contents *)
  Lemma act_lin x g t o r :
    GI x g -> pend g t o -> spec (g_a g) o r (g_a g) ->
    let g' := g_tr g (g_l g ++ [Lin t o r]) (<[t := Done o r]> (g_ph g)) (g_a g) in
    GI x g' /\ (forall t', t' <> t -> rely t' x g x g').
  Proof.
    intros HG Hp Hs g'. split.
    - destruct HG. split; try done. simpl. by econstructor.
    - intros t' Hne. apply (rely_mem t); try done; simpl. by rewrite lookup_insert_ne.
  Qed.

  (** *** The result of a call that has taken effect is changed *)
  Lemma act_relabel x g t o r r' :
    GI x g -> fin g t o r -> (forall a a', spec a o r a' -> spec a o r' a') ->
    exists l, let g' := g_tr g l (<[t := Done o r']> (g_ph g)) (g_a g) in
    erase l = erase (g_l g) /\ GI x g' /\ (forall t', t' <> t -> rely t' x g x g').
  Proof.
    intros HG Hf Hs.
    destruct (lruns_relabel spec ∅ [] _ _ _ t o r r' ltac:(by rewrite lookup_empty) (gi_run _ _ _ HG) Hf Hs)
      as (l & He & Hl).
    exists l. split; [done|]. split.
    - destruct HG. by split.
    - intros t' Hne. apply (rely_mem t); try done; simpl. by rewrite lookup_insert_ne.
  Qed.

  (** *** Linking a chain on top: the linearization point of push *)
  Lemma act_link x g t o r L vs top bot :
    GI x g -> pend g t o -> spec (g_a g) o r (vs ++ g_a g) -> NoDup (L ++ [bot]) ->
    (forall n, n ∈ L ++ [bot] -> g_own g !! n = Some (OT t)) ->
    seg (s_heap x) top L bot -> vals (s_heap x) (L ++ [bot]) vs ->
    nxp (s_heap x) bot = Some (s_tos x).1 ->
    let x' := set_tos x (top, (s_tos x).2) in
    let g' := Gh (own_set (L ++ [bot]) OQ (g_own g)) ((L ++ [bot]) ++ g_sn g) (g_fn g)
                 (g_l g ++ [Lin t o r]) (<[t := Done o r]> (g_ph g)) (vs ++ g_a g) in
    GI x' g' /\ (forall t', t' <> t -> rely t' x g x' g').
  Proof.
    intros HG Hp Hsp Hnd HL Hseg Hv Hx x' g'. split.
    - destruct HG. split; simpl; try done.
      + eapply (PI_own_set _ _ _ _ _ _ (OT t)); done.
      + apply NoDup_app. split; [done|]. split; [|done]. intros n Hn Hq.
        apply HL in Hn. apply gi_mem in Hq. congruence.
      + intros m. rewrite elem_of_app, gi_mem, own_set_Some. split.
        * intros [Hm|Hm]; [by left|]. right. split; [|done]. intros Hi. apply HL in Hi. congruence.
        * intros [[? _]|[_ ?]]; auto.
      + apply seg_app. exists (s_tos x).1. split; [|done]. apply seg_snoc. done.
      + by apply vals_app.
      + intros m. rewrite own_set_Some. intros [[_ ?]|[_ ?]]; [done|]. by apply gi_raw.
      + intros Hth m. rewrite own_set_Some. intros [[_ ?]|[_ ?]]; [done|]. by eapply gi_leak.
      + by econstructor.
    - intros t' Hne.
      assert (Hk : forall m o', g_own g !! m = Some o' -> o' <> OT t ->
                own_set (L ++ [bot]) OQ (g_own g) !! m = Some o').
      { intros m o' Hm Hmo. rewrite own_set_notin; [done|]. intros Hi. apply HL in Hi. congruence. }
      split; try done; simpl.
      + split; [lia|]. intros _ n Hn. split; [by apply Hk|done].
      + split; [lia|]. intros _ n Hn. split; [by apply Hk|done].
      + intros n Hn. split; [|done]. apply Hk; [done|congruence].
      + by rewrite lookup_insert_ne.
      + intros m. rewrite own_set_Some. intros [[_ ?]|[_ ?]]; congruence.
  Qed.

  (** *** Taking the top node: the linearization point of a successful pop *)
  Lemma act_pop x g t o r nxt v n l tg :
    GI x g -> pend g t o -> (forall a, spec (v :: a) o r a) -> g_sn g = n :: l ->
    nxp (s_heap x) n = Some nxt -> live (s_heap x) n v -> ((s_tos x).2 < tg)%N ->
    let x' := set_tos x (nxt, tg) in
    exists a', g_a g = v :: a' /\
    let g' := Gh (<[n := OT t]> (g_own g)) l (g_fn g)
                 (g_l g ++ [Lin t o r]) (<[t := Done o r]> (g_ph g)) a' in
    GI x' g' /\ g_own g !! n = Some OQ /\ (forall t', t' <> t -> rely t' x g x' g').
  Proof.
    intros HG Hp Hsp Hsn Hx (lk & Hlv) Hlt x'.
    pose proof (gi_a _ _ _ HG) as HF. rewrite Hsn in HF.
    apply Forall2_cons_inv_l in HF as (v' & a' & (lk' & Hlv') & HF & Ha).
    assert (v' = v) as -> by congruence.
    exists a'. split; [done|]. intros g'.
    assert (HnQ : g_own g !! n = Some OQ). { apply (gi_mem _ _ _ HG). rewrite Hsn. left. }
    split; [|split; [done|]].
    - pose proof (gi_nodup _ _ _ HG) as Hnd. rewrite Hsn in Hnd. apply list.NoDup_cons in Hnd as [Hni Hnd].
      destruct HG. split; simpl; try done.
      + eapply (PI_own _ _ _ _ _ _ OQ); done.
      + intros m. destruct (decide (n = m)) as [<-|Hm].
        * rewrite lookup_insert. split; [|done]. by intros Hi.
        * rewrite lookup_insert_ne by done. rewrite <- gi_mem, Hsn, elem_of_cons.
          split; [by right|]. by intros [->|].
      + rewrite Hsn in gi_seg. destruct gi_seg as (_ & y & Hy & Hs). congruence.
      + intros m. rewrite lookup_insert_Some. intros [[_ ?]|[_ ?]]; [done|]. by apply gi_raw.
      + intros Hth m. rewrite lookup_insert_Some. intros [[_ ?]|[_ ?]]; [done|]. by eapply gi_leak.
      + econstructor; [done|done|]. rewrite Ha. apply Hsp.
    - intros t' Hne. split; try done; simpl.
      + split; [lia|]. intros ?. lia.
      + split; [lia|]. intros _ m Hm. split; [|done]. rewrite lookup_insert_ne; [done|congruence].
      + intros m Hm. split; [|done]. rewrite lookup_insert_ne; [done|congruence].
      + by rewrite lookup_insert_ne.
      + intros m. rewrite lookup_insert_Some. intros [[_ ?]|[_ ?]]; congruence.
  Qed.

  (** *** Taking everything: the linearization point of consume_all_atomic *)
  Lemma act_all x g t o r tg :
    GI x g -> pend g t o -> spec (g_a g) o r [] -> ((s_tos x).2 < tg)%N ->
    let x' := set_tos x (null, tg) in
    let g' := Gh (own_set (g_sn g) (OT t) (g_own g)) [] (g_fn g)
                 (g_l g ++ [Lin t o r]) (<[t := Done o r]> (g_ph g)) [] in
    GI x' g' /\ (forall t', t' <> t -> rely t' x g x' g').
  Proof.
    intros HG Hp Hsp Hlt x' g'. split.
    - destruct HG. split; simpl; try done.
      + eapply (PI_own_set _ _ _ _ _ _ OQ); [done|done|done|]. intros n. apply gi_mem.
      + constructor.
      + intros m. rewrite own_set_Some. split; [intros Hm; by apply elem_of_nil in Hm|].
        intros [[_ ?]|[Hm Hm']]; [done|]. by apply gi_mem in Hm'.
      + constructor.
      + intros m. rewrite own_set_Some. intros [[_ ?]|[_ ?]]; [done|]. by apply gi_raw.
      + intros Hth m. rewrite own_set_Some. intros [[_ ?]|[_ ?]]; [done|]. by eapply gi_leak.
      + by econstructor.
    - intros t' Hne.
      assert (Hk : forall m o', g_own g !! m = Some o' -> o' <> OQ ->
                own_set (g_sn g) (OT t) (g_own g) !! m = Some o').
      { intros m o' Hm Hmo. rewrite own_set_notin; [done|]. intros Hi. apply (gi_mem _ _ _ HG) in Hi.
        congruence. }
      split; try done; simpl.
      + split; [lia|]. intros ?. lia.
      + split; [lia|]. intros _ m Hm. split; [by apply Hk|done].
      + intros m Hm. split; [by apply Hk|done].
      + by rewrite lookup_insert_ne.
      + intros m. rewrite own_set_Some. intros [[_ ?]|[_ ?]]; congruence.
  Qed.

  (** *** Calls and returns *)
  Lemma act_inv x g t o :
    GI x g -> g_ph g !! t = None ->
    let g' := g_tr g (g_l g ++ [Ev (Lin.Inv t o)]) (<[t := Pending o]> (g_ph g)) (g_a g) in
    GI x g' /\ (forall t', t' <> t -> rely t' x g x g').
  Proof.
    intros HG Hn g'. split.
    - destruct HG. split; try done. simpl. by constructor.
    - intros t' Hne. apply (rely_mem t); try done; simpl. by rewrite lookup_insert_ne.
  Qed.

  Lemma act_res x g t o r :
    GI x g -> fin g t o r ->
    let g' := g_tr g (g_l g ++ [Ev (Res t r)]) (delete t (g_ph g)) (g_a g) in
    GI x g' /\ (forall t', t' <> t -> rely t' x g x g').
  Proof.
    intros HG Hn g'. split.
    - destruct HG. split; try done. simpl. by econstructor.
    - intros t' Hne. apply (rely_mem t); try done; simpl. by rewrite lookup_delete_ne.
  Qed.

  (** ** One step of one thread *)

  (** How a step of [t] may change the state of its call and the contents. *)
  Definition trans (t : nat) (g g' : ghost) : Prop :=
    (g_ph g' !! t = g_ph g !! t /\ g_a g' = g_a g) \/
    (exists o r, pend g t o /\ fin g' t o r /\ spec (g_a g) o r (g_a g')) \/
    (exists o r r', fin g t o r /\ fin g' t o r' /\ g_a g' = g_a g /\
       forall a a', spec a o r a' -> spec a o r' a').

  (** At most [m] nodes are lost between the two states; [None] is no bound. *)
  Definition lossless (g g' : ghost) : Prop :=
    forall n, g_own g' !! n = Some OL -> g_own g !! n = Some OL.
  Definition lossy (m : option nat) (g g' : ghost) : Prop :=
    exists K : list N, (forall n, g_own g' !! n = Some OL -> g_own g !! n = Some OL \/ n ∈ K) /\
      match m with Some m => length K <= m | None => True end.

  (** How many nodes a step may lose: none, unless a copy or a functor throws. *)
  Definition cost (pc : spc) (thr : bool) : option nat :=
    if thr then
      match pc with
      | PcCons _ _ | PcRCons _ _ _ _ _ | PcCFun _ => Some 1
      | PcVisit _ _ _ => None
      | _ => Some 0
      end
    else Some 0.

  Lemma lossless_refl g : lossless g g.
  Proof. intros n Hn. exact Hn. Qed.
  Hint Resolve lossless_refl : core.

  Lemma lossless_lossy m g g' : lossless g g' -> lossy m g g'.
  Proof. intros H. exists []. split; [by left; apply H|]. destruct m; simpl; [lia|done]. Qed.

  Lemma lossy_none g g' : lossy (Some 0) g g' -> lossless g g'.
  Proof.
    intros (K & HK & Hm) n Hn. destruct K; [|simpl in Hm; lia].
    destruct (HK n Hn) as [?|Hi]; [done|]. by apply elem_of_nil in Hi.
  Qed.

  Lemma lossless_trans m g g1 g' : lossless g g1 -> lossy m g1 g' -> lossy m g g'.
  Proof.
    intros H (K & HK & Hm). exists K. split; [|done]. intros n Hn.
    destruct (HK n Hn) as [?|?]; [left; by apply H|by right].
  Qed.

  Lemma lossless_insert g g' n o :
    o <> OL -> g_own g' = <[n := o]> (g_own g) -> lossless g g'.
  Proof. intros Ho He m. rewrite He, lookup_insert_Some. intros [[_ ?]|[_ ?]]; congruence. Qed.

  Lemma lossless_set g g' L o :
    o <> OL -> g_own g' = own_set L o (g_own g) -> lossless g g'.
  Proof. intros Ho He m. rewrite He, own_set_Some. intros [[_ ?]|[_ ?]]; congruence. Qed.

  Definition ok (m : option nat) (t : nat) x g x' pc' : Prop :=
    exists g', GI x' g' /\ tinv t pc' x' g' /\ erase (g_l g') = erase (g_l g) /\
      (forall t', t' <> t -> rely t' x g x' g') /\ trans t g g' /\ lossy m g g'.

  Lemma ok_same {m0} t x g pc' : GI x g -> tinv t pc' x g -> ok m0 t x g x pc'.
  Proof.
    intros HG HT. exists g. split; [done|]. split; [done|]. split; [done|].
    split; [intros; apply rely_refl|]. split; [by left|]. by apply lossless_lossy.
  Qed.

  Lemma ok_lin {m0} t x g o r :
    GI x g -> owns t g [] -> pend g t o -> spec (g_a g) o r (g_a g) -> ok m0 t x g x (PcRet r).
  Proof.
    intros HG Ho Hp Hs. destruct (act_lin _ _ _ _ _ HG Hp Hs) as [HG' R].
    eexists. split; [exact HG'|]. split; [|split; [|split; [exact R|]]].
    - simpl. split; [done|]. exists o. unfold fin. simpl. by rewrite lookup_insert.
    - simpl. by rewrite erase_app, app_nil_r.
    - split; [|apply lossless_lossy, (lossless_refl g)].
      right. left. exists o, r. unfold fin. simpl. by rewrite lookup_insert.
  Qed.

  (** The same after a change of memory. *)
  Lemma ok_trans {m0} t x g x1 g1 x' pc' :
    erase (g_l g1) = erase (g_l g) -> (forall t', t' <> t -> rely t' x g x1 g1) ->
    g_ph g1 = g_ph g -> g_a g1 = g_a g -> lossless g g1 ->
    ok m0 t x1 g1 x' pc' -> ok m0 t x g x' pc'.
  Proof.
    intros He R Hph Ha Hlo (g' & HG & HT & He' & R' & Htr & HK). exists g'. split; [done|]. split; [done|].
    split; [congruence|]. split; [intros t' Hne; eapply rely_trans; eauto|].
    split; [|by eapply lossless_trans].
    unfold trans, pend, fin in *. by rewrite Hph, Ha in Htr.
  Qed.

  (** After the loss of a node. *)
  Lemma ok_leak t x g n g1 x' pc' :
    g1 = g_mem g (own_set [n] OL (g_own g)) (g_sn g) (g_fn g) ->
    (forall t', t' <> t -> rely t' x g x g1) ->
    ok (Some 0) t x g1 x' pc' -> ok (Some 1) t x g x' pc'.
  Proof.
    intros Hg1 R (g' & HG & HT & He' & R' & Htr & K & HK & Hm). subst g1. exists g'.
    split; [done|]. split; [done|]. split; [done|].
    split; [intros t' Hne; eapply rely_trans; eauto|]. split; [done|].
    exists (n :: K). split; [|simpl; lia]. intros m Hn.
    destruct (HK m Hn) as [H|H]; [|right; by right].
    simpl in H. rewrite lookup_insert_Some in H. destruct H as [[-> _]|[_ ?]]; [right; left|by left].
  Qed.

  (** A step that does not concern the state of the call. *)
  Lemma ok_quiet {m0} t x g x' g' pc' :
    GI x' g' -> tinv t pc' x' g' -> (forall t', t' <> t -> rely t' x g x' g') ->
    g_l g' = g_l g -> g_ph g' = g_ph g -> g_a g' = g_a g -> lossless g g' -> ok m0 t x g x' pc'.
  Proof.
    intros HG HT R Hl Hph Ha Hlo. exists g'. split; [done|]. split; [done|]. split; [congruence|].
    split; [done|]. split; [|by apply lossless_lossy]. left. by rewrite Hph.
  Qed.

  Lemma set_heap_pool_id x : set_heap_pool x (s_heap x) (s_pool x) = x.
  Proof. by destruct x. Qed.
  Lemma set_heap_pool_heap x h : set_heap_pool x h (s_pool x) = set_heap x h.
  Proof. by destruct x. Qed.

  (** Writing a link of an owned node. *)
  Lemma nxp_set_next h n (nd : snode) p : nxp (<[n := set_next nd p]> h) n = Some p.
  Proof. by rewrite nxp_insert. Qed.

  Context (Htag : c_tagmod c = None).

  (** What allocation does, for any continuation. *)
  Lemma alloc_ok t x g L b a sp addr :
    GI x g -> owns t g L -> ainv c (s_heap x) (s_pool x) (g_own g) a ->
    match astep c None b (s_heap x) (s_pool x) a sp addr with
    | ACont h p a' => set_heap_pool x h p = x /\ ainv c (s_heap x) (s_pool x) (g_own g) a'
    | AGot h p n => exists g', let x' := set_heap_pool x h p in
        GI x' g' /\ owns t g' (n :: L) /\ raw h n /\ n ∉ L /\
        (forall m, m ∈ L -> h !! m = s_heap x !! m) /\
        g_l g' = g_l g /\ g_ph g' = g_ph g /\ g_a g' = g_a g /\ g_sn g' = g_sn g /\
        (forall t', t' <> t -> rely t' x g x' g') /\ lossless g g'
    | AFail => c_node_based c = false \/ b = true
    | AThrow => c_node_based c = true /\ b = false
    | AUB => False
    | ADisabled => True
    end.
  Proof using Htag.
    intros HG Ho Ha.
    pose proof (astep_ok c Htag None b _ _ _ _ a sp addr (gi_pi _ _ _ HG) Ha) as Hok.
    destruct (astep c None b (s_heap x) (s_pool x) a sp addr) as [h p a'|h p n| | | |]; try done.
    - destruct Hok as (-> & -> & Ha'). by rewrite set_heap_pool_id.
    - destruct Hok as [(-> & Hn & Hpn & Hp2 & Hx & fn' & Hfn)|(Hf & Hn & -> & -> & _)].
      + destruct (act_pool_pop x g t n fn' p HG Hfn Hx Hp2) as (HG' & HoF & Hraw & R).
        assert (Hni : n ∉ L). { intros Hi. apply Ho in Hi. congruence. }
        eexists. split; [exact HG'|]. split; [by eapply owns_insert|].
        repeat (split; [done|]). by eapply (lossless_insert g _ n (OT t)).
      + rewrite set_heap_pool_heap.
        destruct (act_fresh x g t n (Node (null, 0%N) None) HG Hf Hn) as (HG' & HoN & R).
        assert (Hni : n ∉ L). { intros Hi. apply Ho in Hi. congruence. }
        eexists. split; [exact HG'|]. split; [by eapply owns_insert|].
        split; [eexists; by rewrite lookup_insert|]. split; [done|].
        split; [intros m Hm; rewrite lookup_insert_ne; [done|by intros ->]|].
        repeat (split; [done|]). by eapply (lossless_insert g _ n (OT t)).
  Qed.

  Lemma r_catch_ok {m0} t x g te L vs' b vs :
    GI x g -> pend g t (SRange b vs) -> (c_throws c = true \/ b = false) ->
    owns t g L -> built (s_heap x) te L vs' ->
    ok m0 t x g x (r_catch te).
  Proof.
    intros HG Hp Hb Ho HB. destruct te as [[top bot]|]; simpl in HB; simpl.
    - destruct HB as (L' & -> & Hs & Hx & Hv). apply ok_same; [done|]. simpl.
      split; [by exists b, vs|].
      assert (Hsg : seg (s_heap x) top (L' ++ [bot]) null) by (apply seg_snoc; done).
      destruct (L' ++ [bot]) as [|z L] eqn:HL; [by destruct L'|].
      pose proof (seg_head _ _ _ _ _ Hsg) as ->. exists L, vs'. done.
    - destruct HB as [-> ->]. eapply ok_lin; [done|done|exact Hp|]. by constructor.
  Qed.

  Lemma step_alloc {m0} t x g b v a sp addr thr :
    GI x g -> tinv t (PcAlloc b v a) x g ->
    match tstep c x (PcAlloc b v a) sp addr thr with
    | TUB => False | TDisabled => True | TGo x' pc' => ok m0 t x g x' pc' end.
  Proof using Htag.
    intros HG (Hp & Ho & Ha). simpl.
    pose proof (alloc_ok t x g [] b a sp addr HG Ho Ha) as Hok.
    destruct (astep c None b (s_heap x) (s_pool x) a sp addr) as [h p a'|h p n| | | |]; try done.
    - destruct Hok as (-> & Ha'). by apply ok_same.
    - destruct Hok as (g' & HG' & Ho' & Hraw & _ & _ & Hl & Hph & Hga & _ & R & Hlo).
      eapply (ok_quiet _ _ _ _ g'); [done| |done|done|done|done|done]. simpl. exists b.
      unfold pend. by rewrite Hph.
    - eapply ok_lin; [done|done|done|]. by constructor.
    - eapply ok_lin; [done|done|done|]. constructor. by right.
  Qed.

  Lemma step_ralloc {m0} t x g b vs k te a sp addr thr :
    GI x g -> tinv t (PcRAlloc b vs k te a) x g ->
    match tstep c x (PcRAlloc b vs k te a) sp addr thr with
    | TUB => False | TDisabled => True | TGo x' pc' => ok m0 t x g x' pc' end.
  Proof using Htag.
    intros HG (Hp & Hk & Hnb & (L & Ho & HB) & Ha). simpl.
    pose proof (alloc_ok t x g L b a sp addr HG Ho Ha) as Hok.
    destruct (astep c None b (s_heap x) (s_pool x) a sp addr) as [h p a'|h p n| | | |]; try done.
    - destruct Hok as (-> & Ha'). apply ok_same; [done|]. simpl. eauto 10.
    - destruct Hok as (g' & HG' & Ho' & Hraw & Hni & Heq & Hl & Hph & Hga & _ & R & Hlo).
      eapply (ok_quiet _ _ _ _ g'); [done| |done|done|done|done|done]. simpl.
      unfold pend. rewrite Hph. split; [done|]. split; [done|]. split; [done|]. split; [done|].
      exists L. split; [done|]. by eapply built_ext.
    - destruct Hok as [?|Hb]; [congruence|]. destruct te as [[top bot]|]; simpl in HB.
      + destruct HB as (L' & -> & Hs & Hx & Hv). apply ok_same; [done|]. simpl.
        exists (SRange b vs), L', (reverse (take k vs)). split; [done|]. split; [|done].
        intros a0. constructor; [lia|by right].
      + destruct HB as [-> HB].
        assert (k = 0) as ->.
        { apply (f_equal length) in HB. rewrite reverse_length, take_length in HB. simpl in HB. lia. }
        eapply ok_lin; [done|done|exact Hp|].
        apply (ss_range _ _ (g_a g) b vs 0); [lia|by right].
    - eapply r_catch_ok; [done|done|right; apply Hok|done|done].
  Qed.

  Lemma step_cons t x g v n sp addr thr :
    GI x g -> tinv t (PcCons v n) x g ->
    match tstep c x (PcCons v n) sp addr thr with
    | TUB => False | TDisabled => True | TGo x' pc' => ok (cost (PcCons v n) thr) t x g x' pc' end.
  Proof.
    intros HG (b & Hp & Ho & lk & Hn). simpl. rewrite Hn.
    assert (Hon : g_own g !! n = Some (OT t)) by (apply Ho; left).
    destruct thr.
    - destruct (c_throws c) eqn:Hth; [|done].
      destruct (act_leak x g t [n] Hth HG) as [HG1 R1].
      { intros m Hm. by apply Ho. }
      eapply ok_leak; [reflexivity|exact R1|]. eapply ok_lin; [exact HG1| |exact Hp|].
      + by eapply (owns_none _ _ _ _ OL).
      + constructor. by left.
    - destruct (act_write x g t n (Node lk (Some v)) HG Hon) as [HG1 R1].
      eapply (ok_quiet _ _ _ _ g); [done| |done|done|done|done|done]. simpl.
      exists (SPush b v), [], [v]. split; [done|]. split; [intros a; constructor|].
      split; [done|]. split; [done|]. constructor; [|constructor]. exists lk. simpl. by rewrite lookup_insert.
  Qed.

  Lemma step_rcons t x g b vs k te n sp addr thr :
    GI x g -> tinv t (PcRCons b vs k te n) x g ->
    match tstep c x (PcRCons b vs k te n) sp addr thr with
    | TUB => False | TDisabled => True | TGo x' pc' => ok (cost (PcRCons b vs k te n) thr) t x g x' pc' end.
  Proof.
    intros HG (Hp & Hk & Hnb & (lk & Hn) & L & Ho & HB). simpl. rewrite Hn.
    destruct (lookup_lt_is_Some_2 _ _ Hk) as [v Hv]. rewrite Hv.
    assert (Hon : g_own g !! n = Some (OT t)) by (apply Ho; left).
    destruct thr.
    - destruct (c_throws c) eqn:Hth; [|done].
      destruct (act_leak x g t [n] Hth HG) as [HG1 R1].
      { intros m Hm. apply elem_of_list_singleton in Hm as ->. done. }
      eapply ok_leak; [reflexivity|exact R1|].
      eapply r_catch_ok; [exact HG1|exact Hp|by left| |exact HB].
      by eapply (owns_give _ g _ _ n OL).
    - destruct (act_write x g t n (Node lk (Some v)) HG Hon) as [HG1 R1].
      eapply (ok_quiet _ _ _ _ g); [done| |done|done|done|done|done]. simpl.
      split; [done|]. split; [done|]. split.
      + exists v. split; [done|]. exists lk. by rewrite lookup_insert.
      + exists L. split; [done|]. eapply built_ext; [|done]. intros m Hm.
        rewrite lookup_insert_ne; [done|]. intros ->. destruct Ho as [Hnd _].
        by apply list.NoDup_cons in Hnd as [? _].
  Qed.

  Lemma step_rlink {m0} t x g b vs k te n sp addr thr :
    GI x g -> tinv t (PcRLink b vs k te n) x g ->
    match tstep c x (PcRLink b vs k te n) sp addr thr with
    | TUB => False | TDisabled => True | TGo x' pc' => ok m0 t x g x' pc' end.
  Proof.
    intros HG (Hp & Hnb & (v & Hv & lk & Hn) & L & Ho & HB). simpl. rewrite Hn.
    assert (Hon : g_own g !! n = Some (OT t)) by (apply Ho; left).
    assert (Hni : n ∉ L). { destruct Ho as [Hnd _]. by apply list.NoDup_cons in Hnd as [? _]. }
    set (p := match te with None => null | Some te => te.1 end).
    destruct (act_write x g t n (set_next (Node lk (Some v)) p) HG Hon) as [HG1 R1].
    set (h' := <[n := set_next (Node lk (Some v)) p]> (s_heap x)) in *.
    assert (Heq : forall m, m ∈ L -> h' !! m = s_heap x !! m).
    { intros m Hm. unfold h'. rewrite lookup_insert_ne; [done|]. by intros ->. }
    assert (Hk : k < length vs) by (by eapply lookup_lt_Some).
    set (te' := match te with None => (n, n) | Some te => (n, te.2) end).
    assert (HB' : built h' (Some te') (n :: L) (reverse (take (S k) vs))).
    { rewrite (take_S_r _ _ _ Hv), reverse_snoc.
      assert (Hlv : live h' n v).
      { unfold h', live, set_next. rewrite lookup_insert. simpl. eauto. }
      destruct te as [[top bot]|]; simpl in HB.
      - destruct (built_ext c _ h' (Some (top, bot)) _ _ Heq HB) as (L' & HL & Hs & Hx & Hvs).
        subst L. exists (n :: L'). simpl in *. split; [done|]. split; [|split; [done|]].
        + split; [done|]. exists top. split; [|done]. unfold h'. by rewrite nxp_set_next.
        + by constructor.
      - destruct HB as [-> ->]. exists []. simpl. split; [done|]. split; [done|].
        split; [unfold h'; by rewrite nxp_set_next|]. by repeat constructor. }
    eapply (ok_quiet _ _ _ _ g); [done| |done|done|done|done|done]. unfold r_next.
    destruct (decide (S k < length vs)) as [Hlt|Hge]; simpl.
    - split; [done|]. split; [done|]. split; [done|]. split; [|done]. exists (n :: L). done.
    - destruct HB' as (L' & HL & Hs & _ & Hvs). rewrite HL in *.
      exists (SRange b vs), L', (reverse (take (S k) vs)). split; [done|]. split; [|done].
      intros a. constructor; [lia|left; lia].
  Qed.

  (** After the destruction of a node. *)
  Lemma kgo_ok {m0} t x g k L :
    GI x g -> owns t g L -> kinv t x g k L -> ok m0 t x g x (kgo c k).
  Proof.
    intros HG Ho Hk.
    assert (HL : forall n, n ∈ L -> exists o, g_own g !! n = Some o).
    { intros n Hn. exists (OT t). by apply Ho. }
    destruct k as [r|j|cur|nxt k acc]; simpl in *.
    - destruct Hk as (-> & o & Hf). apply ok_same; [done|]. simpl. eauto.
    - destruct Hk as (-> & m & Hm). apply ok_same; [done|]. simpl. eauto.
    - destruct Hk as (vs & Hh & Hr).
      destruct (holds_list_null _ _ _ _ _ _ _ HG HL Hh) as [(-> & -> & ->)|(Hne & L' & v & vs' & -> & ->)].
      + rewrite decide_True by done. destruct Hr as (b & vs & Hp & Hb).
        eapply ok_lin; [done|done|exact Hp|]. by constructor.
      + rewrite decide_False by done. apply ok_same; [done|]. simpl. eauto.
    - destruct Hk as (rest & Hh & Hv).
      destruct (holds_list_null _ _ _ _ _ _ _ HG HL Hh) as [(-> & -> & ->)|(Hne & L' & v & vs' & -> & ->)].
      + rewrite decide_True by done. apply ok_same; [done|]. simpl. split; [done|].
        destruct Hv as (-> & rev & Hf). rewrite app_nil_r in Hf. eauto.
      + rewrite decide_False by done. apply ok_same; [done|]. simpl. eauto 10.
  Qed.

  (** Applying a functor that throws: the nodes are lost. *)
  Lemma throw_ok {m0} t x g L o r r' :
    c_throws c = true -> GI x g -> owns t g L -> fin g t o r ->
    match m0 with Some m0 => length L <= m0 | None => True end ->
    (forall a a', spec a o r a' -> spec a o r' a') -> ok m0 t x g x (PcRet r').
  Proof.
    intros Hth HG Ho Hf Hm Hs.
    destruct (act_leak x g t L Hth HG) as [HG1 R1].
    { intros n Hn. by apply Ho. }
    destruct (act_relabel x _ t o r r' HG1 Hf Hs) as (l & He & HG2 & R2).
    eexists. split; [exact HG2|]. split; [|split; [done|split]].
    - simpl. split; [by eapply (owns_none _ g _ _ OL)|]. exists o. unfold fin. simpl.
      by rewrite lookup_insert.
    - intros t' Hne. eapply rely_trans; [by apply R1|by apply R2].
    - split; [right; right; exists o, r, r'; unfold fin; simpl; by rewrite lookup_insert|].
      exists L. split; [|done]. intros n. simpl. rewrite own_set_Some.
      intros [[? _]|[_ ?]]; [by right|by left].
  Qed.

  Lemma visiting_throw t x g L k acc v rest :
    c_throws c = true -> GI x g -> owns t g L -> visiting t g k acc (v :: rest) ->
    ok None t x g x (PcRet (SExn (acc ++ [v]))).
  Proof.
    intros Hth HG Ho (_ & rev & Hf). eapply throw_ok; [done|done|done|done|done|].
    intros a a' Hs. inversion Hs as [| | | | | | | |a1 rev1| | | | | | | | | | | | | |]; subst.
    constructor; [done|by destruct acc|].
    match goal with H : visit_order _ _ = _ |- _ => rewrite H end.
    exists rest. by rewrite <- app_assoc.
  Qed.

  Lemma step_destroy {m0} t x g n k sp addr thr :
    GI x g -> tinv t (PcDestroy n k) x g ->
    match tstep c x (PcDestroy n k) sp addr thr with
    | TUB => False | TDisabled => True | TGo x' pc' => ok m0 t x g x' pc' end.
  Proof.
    intros HG (L & v & Ho & (lk & Hn) & Hk). simpl. rewrite Hn.
    assert (Hon : g_own g !! n = Some (OT t)) by (apply Ho; left).
    destruct (act_write x g t n (Node lk None) HG Hon) as [HG1 R1].
    eapply (ok_quiet _ _ _ _ g); [done| |done|done|done|done|done]. simpl. exists L. split; [done|].
    split; [exists lk; by rewrite lookup_insert|]. split; [done|].
    assert (Heq : forall m, m ∈ L -> (<[n := Node lk None]> (s_heap x)) !! m = s_heap x !! m).
    { intros m Hm. rewrite lookup_insert_ne; [done|]. intros ->. destruct Ho as [Hnd _].
      by apply list.NoDup_cons in Hnd as [? _]. }
    destruct k as [r|j|cur|nxt k acc]; simpl in *; try done.
    - destruct Hk as (vs & Hh & Hr). exists vs. split; [by eapply holds_list_ext|done].
    - destruct Hk as (vs & Hh & Hr). exists vs. split; [by eapply holds_list_ext|done].
  Qed.

  Lemma kinv_heap t x x' g k L :
    (forall m, m ∈ L -> s_heap x' !! m = s_heap x !! m) -> kinv t x g k L -> kinv t x' g k L.
  Proof.
    intros Heq. destruct k as [r|j|cur|nxt k acc]; simpl; try done.
    - intros (vs & Hh & Hr). exists vs. split; [by eapply holds_list_ext|done].
    - intros (vs & Hh & Hr). exists vs. split; [by eapply holds_list_ext|done].
  Qed.

  Lemma kinv_ghost t x g g' k L : g_ph g' = g_ph g -> kinv t x g k L -> kinv t x g' k L.
  Proof.
    intros Hph. destruct k as [r|j|cur|nxt k acc]; simpl; unfold rolling, visiting, fin, pend;
      by rewrite Hph.
  Qed.

  Lemma step_dealloc {m0} t x g n d k sp addr thr :
    GI x g -> tinv t (PcDealloc n d k) x g ->
    match tstep c x (PcDealloc n d k) sp addr thr with
    | TUB => False | TDisabled => True | TGo x' pc' => ok m0 t x g x' pc' end.
  Proof.
    intros HG (L & Ho & (lk & Hn) & Hd & Hk). simpl.
    assert (Hon : g_own g !! n = Some (OT t)) by (apply Ho; left).
    assert (Hni : n ∉ L). { destruct Ho as [Hnd _]. by apply list.NoDup_cons in Hnd as [? _]. }
    pose proof (dstep_ok c _ _ _ _ t n d sp (gi_pi _ _ _ HG) Hon Hd) as Hok.
    destruct (dstep n (s_heap x) (s_pool x) d sp) as [h p d'|h p|]; [| |done].
    - destruct Hok as (-> & Hd' & [->|(nd & y & Hnd & ->)]).
      + rewrite set_heap_pool_id. apply ok_same; [done|]. simpl. exists L. unfold raw. eauto 10.
      + rewrite set_heap_pool_heap. rewrite Hn in Hnd. injection Hnd as <-.
        destruct (act_write x g t n (Node (y, lk.2) None) HG Hon) as [HG1 R1].
        eapply (ok_quiet _ _ _ _ g); [done| |done|done|done|done|done]. simpl. exists L. split; [done|].
        split; [eexists; by rewrite lookup_insert|]. split; [done|].
        eapply kinv_heap; [|done]. intros m Hm. simpl. rewrite lookup_insert_ne; [done|]. by intros ->.
    - destruct Hok as (-> & -> & Hx).
      destruct (act_pool_push x g t n HG Hon) as [HG1 R1]; [by exists lk|done|].
      eapply ok_trans; [| | | | |eapply (kgo_ok t _ _ k L); [exact HG1| |]];
        [done|done|done|done|by eapply (lossless_insert g _ n OF)| |].
      + by eapply (owns_give _ g _ _ n OF).
      + eapply (kinv_ghost _ _ g); [done|]. by eapply (kinv_heap _ x).
  Qed.

  Lemma step_lcas {m0} t x g top bot old r sp addr thr :
    GI x g -> tinv t (PcLCas top bot old r) x g ->
    match tstep c x (PcLCas top bot old r) sp addr thr with
    | TUB => False | TDisabled => True | TGo x' pc' => ok m0 t x g x' pc' end.
  Proof.
    intros HG (HL & Hx). simpl. destruct (decide _) as [[_ Heq]|_].
    - destruct HL as (o & L & vs & Hp & Hs & Ho & Hsg & Hv). subst old.
      destruct (act_link x g t o r L vs top bot HG Hp (Hs _) (proj1 Ho)) as [HG1 R1]; try done.
      { intros n Hn. by apply Ho. }
      eexists. split; [exact HG1|]. split; [|split; [|split; [exact R1|]]].
      + simpl. split; [by eapply (owns_none _ g _ (L ++ [bot]) OQ)|]. exists o. unfold fin. simpl.
        by rewrite lookup_insert.
      + simpl. by rewrite erase_app, app_nil_r.
      + split; [|by apply lossless_lossy, (lossless_set g _ (L ++ [bot]) OQ)].
        right. left. exists o, r. unfold fin. simpl. rewrite lookup_insert. eauto.
    - apply ok_same; done.
  Qed.

  Lemma step_lset {m0} t x g top bot old r sp addr thr :
    GI x g -> tinv t (PcLSet top bot old r) x g ->
    match tstep c x (PcLSet top bot old r) sp addr thr with
    | TUB => False | TDisabled => True | TGo x' pc' => ok m0 t x g x' pc' end.
  Proof.
    intros HG (o & L & vs & Hp & Hs & Ho & Hsg & Hv). simpl.
    assert (Hon : g_own g !! bot = Some (OT t)) by (apply Ho, elem_of_app; right; left).
    destruct (gi_own_dom c _ _ _ _ HG Hon) as [nd Hnd]. rewrite Hnd.
    destruct (act_write x g t bot (set_next nd old.1) HG Hon) as [HG1 R1].
    eapply (ok_quiet _ _ _ _ g); [done| |done|done|done|done|done]. simpl. split; [|by rewrite nxp_set_next].
    exists o, L, vs. split; [done|]. split; [done|]. split; [done|]. simpl. split.
    - apply seg_insert_ne; [|done]. destruct Ho as [Hnd' _]. apply NoDup_app in Hnd' as (_ & Hd & _).
      intros Hi. apply (Hd _ Hi). left.
    - by apply vals_link.
  Qed.

  Lemma c_test_ok {m0} t x g :
    GI x g -> pend g t SPop -> owns t g [] -> ok m0 t x g x (c_test c (s_tos x)).
  Proof.
    intros HG Hp Ho. unfold c_test. destruct (decide _) as [Hn|Hn].
    - eapply ok_lin; [done|done|exact Hp|].
      apply (gi_tos_null c _ _ HG), (gi_a_nil c _ _ HG) in Hn as ->. constructor.
    - apply ok_same; [done|]. simpl. split; [done|]. split; [done|]. by apply cinv_load.
  Qed.

  Lemma a_test_ok {m0} t x g rev :
    GI x g -> pend g t (SAll rev) -> owns t g [] -> ok m0 t x g x (a_test c rev (s_tos x)).
  Proof.
    intros HG Hp Ho. unfold a_test. destruct (decide _) as [Hn|Hn].
    - eapply ok_lin; [done|done|exact Hp|].
      apply (gi_tos_null c _ _ HG), (gi_a_nil c _ _ HG) in Hn as ->.
      assert (visit_order rev [] = []) as Hv by (by destruct rev).
      rewrite <- Hv at 2. apply ss_all.
    - apply ok_same; [done|]. simpl. done.
  Qed.

  Lemma step_ccas {m0} t x g old nxt sp addr thr :
    GI x g -> tinv t (PcCCas old nxt) x g ->
    match tstep c x (PcCCas old nxt) sp addr thr with
    | TUB => False | TDisabled => True | TGo x' pc' => ok m0 t x g x' pc' end.
  Proof using Htag.
    intros HG (Hp & Ho & (Hn & Hle & Hdom & HoQ) & Hx). simpl. destruct (decide _) as [[_ Heq]|_].
    - subst old. specialize (HoQ eq_refl). specialize (Hx eq_refl).
      destruct (gi_tos_cons c _ _ HG Hn) as [l Hl].
      pose proof (gi_a _ _ _ HG) as HF. rewrite Hl in HF.
      apply Forall2_cons_inv_l in HF as (v & a' & Hlv & _ & _).
      destruct (act_pop x g t SPop (SGot (Some v)) nxt v (s_tos x).1 l (next_tag c (s_tos x).2)
                  HG Hp (fun a => ss_pop _ _ a v) Hl Hx Hlv) as (a1 & Ha & HG1 & _ & R1).
      { rewrite next_tag_succ by done. lia. }
      eexists. split; [exact HG1|]. split; [|split; [|split; [exact R1|]]].
      + simpl. split.
        * eapply (owns_insert _ g); [done|by apply not_elem_of_nil|done].
        * exists v. split; [done|]. unfold fin. simpl. by rewrite lookup_insert.
      + simpl. by rewrite erase_app, app_nil_r.
      + split; [|by apply lossless_lossy, (lossless_insert g _ (s_tos x).1 (OT t))].
        right. left. exists SPop, (SGot (Some v)). unfold fin. simpl. rewrite lookup_insert, Ha.
        split; [done|]. split; [done|]. constructor.
    - by apply c_test_ok.
  Qed.

  Lemma step_acas {m0} t x g rev old sp addr thr :
    GI x g -> tinv t (PcACas rev old) x g ->
    match tstep c x (PcACas rev old) sp addr thr with
    | TUB => False | TDisabled => True | TGo x' pc' => ok m0 t x g x' pc' end.
  Proof using Htag.
    intros HG (Hp & Ho & Hn). simpl. destruct (decide _) as [[_ Heq]|_].
    - subst old. destruct (gi_tos_cons c _ _ HG Hn) as [l Hl].
      destruct (act_all x g t (SAll rev) _ (next_tag c (s_tos x).2) HG Hp (ss_all _ _ _ rev)) as [HG1 R1].
      { rewrite next_tag_succ by done. lia. }
      assert (Hh : holds_list (s_heap x) (s_tos x).1 ((s_tos x).1 :: l) (g_a g)).
      { rewrite <- Hl. split; apply HG. }
      match type of HG1 with StackInv.GI _ _ ?g1 => set (g' := g1) in * end.
      assert (Ho1 : owns t g' ((s_tos x).1 :: l)).
      { rewrite <- Hl. eapply (owns_take _ g); [done|apply HG|done]. }
      exists g'. split; [exact HG1|]. split; [|split; [|split; [exact R1|]]].
      + destruct rev; simpl.
        * exists [], l, [], (g_a g). split; [done|]. split; [by split; [|constructor]|].
          split; [done|]. split; [done|]. exists true. unfold fin. simpl.
          rewrite lookup_insert, app_nil_r, reverse_length. done.
        * exists l, (g_a g). split; [done|]. split; [done|]. split; [done|].
          exists false. unfold fin. simpl. by rewrite lookup_insert.
      + simpl. by rewrite erase_app, app_nil_r.
      + split; [|by apply lossless_lossy, (lossless_set g _ (g_sn g) (OT t))].
        right. left. eexists (SAll rev), _. unfold fin. simpl. rewrite lookup_insert.
        split; [done|]. split; [done|]. constructor.
    - by apply a_test_ok.
  Qed.

  Lemma step_revset {m0} t x g n lst nxt sp addr thr :
    GI x g -> tinv t (PcRevSet n lst nxt) x g ->
    match tstep c x (PcRevSet n lst nxt) sp addr thr with
    | TUB => False | TDisabled => True | TGo x' pc' => ok m0 t x g x' pc' end.
  Proof.
    intros HG (L1 & L2 & vs1 & v & vs2 & Ho & H1 & (lk & Hn) & H2 & Hv). simpl. rewrite Hn.
    assert (Hon : g_own g !! n = Some (OT t)) by (apply Ho, elem_of_app; right; left).
    destruct (act_write x g t n (set_next (Node lk (Some v)) lst) HG Hon) as [HG1 R1].
    pose proof (proj1 Ho) as Hnd. apply NoDup_app in Hnd as (Hnd1 & Hd & Hnd2).
    apply list.NoDup_cons in Hnd2 as [Hn2 Hnd2].
    assert (Hn1 : n ∉ L1). { intros Hi. apply (Hd _ Hi). left. }
    set (h' := <[n := set_next (Node lk (Some v)) lst]> (s_heap x)) in *.
    assert (H1' : holds_list h' lst L1 vs1).
    { eapply holds_list_ext; [|done]. intros m Hm. unfold h'. rewrite lookup_insert_ne; [done|]. by intros ->. }
    assert (H2' : holds_list h' nxt L2 vs2).
    { eapply holds_list_ext; [|done]. intros m Hm. unfold h'. rewrite lookup_insert_ne; [done|]. by intros ->. }
    assert (H1n : holds_list h' n (n :: L1) (v :: vs1)).
    { destruct H1' as [Hs Hvs]. split.
      - split; [done|]. exists lst. split; [|done]. unfold h'. by rewrite nxp_set_next.
      - constructor; [|done]. unfold h', set_next. rewrite lookup_insert. simpl. eauto. }
    assert (Hperm : L1 ++ n :: L2 ≡ₚ (n :: L1) ++ L2).
    { rewrite <- Permutation_middle. done. }
    assert (Ho' : owns t g ((n :: L1) ++ L2)).
    { destruct Ho as [HA HB]. split; [by rewrite <- Hperm|]. intros m. by rewrite <- Hperm. }
    rewrite reverse_cons, <- app_assoc in Hv. simpl in Hv.
    eapply (ok_quiet _ _ _ _ g); [exact HG1| |exact R1|done|done|done|done].
    destruct (holds_list_null c x g _ _ _ _ HG ltac:(intros m Hm; exists (OT t); apply Ho', elem_of_app; by right) H2')
      as [(-> & -> & ->)|(Hne & L' & v' & vs' & -> & ->)].
    - rewrite decide_True by done. simpl. rewrite app_nil_r in Ho'. exists L1, (v :: vs1). done.
    - rewrite decide_False by done. simpl. exists (n :: L1), L', (v :: vs1), (v' :: vs'). done.
  Qed.

  (** One step of a thread. *)
  Lemma tstep_ok t x g pc sp addr thr :
    GI x g -> tinv t pc x g ->
    match tstep c x pc sp addr thr with
    | TUB => False | TDisabled => True | TGo x' pc' => ok (cost pc thr) t x g x' pc' end.
  Proof using Htag.
    intros HG.
    destruct pc as [b v a|v n|top bot r|top bot old r|top bot old r|b vs|b vs k te a|b vs k te n
      |b vs k te n|cur| |old|old nxt|n|rev|rev old|n lst|n lst nxt|n k acc|n k acc|n k|n d k|k| |r].
    - by apply step_alloc.
    - by apply step_cons.
    - intros HT. simpl. by apply ok_same.
    - by apply step_lset.
    - by apply step_lcas.
    - intros (Hp & Ho & Hne & Hnb). simpl. destruct vs as [|v vs]; [done|].
      apply ok_same; [done|]. simpl. split; [done|]. split; [lia|]. split; [done|]. split; [|done].
      exists []. done.
    - by apply step_ralloc.
    - by apply step_rcons.
    - by apply step_rlink.
    - intros (Hr & L & vs & Ho & Hh). simpl. destruct Hh as [(_ & y & Hy & Hs) Hv].
      apply Forall2_cons_inv_l in Hv as (v & vs' & Hlv & Hv & ->).
      apply nxp_inv in Hy as (nd & Hnd & Hy). rewrite Hnd. apply ok_same; [done|]. simpl.
      exists L, v. split; [done|]. split; [done|]. exists vs'. subst y. done.
    - intros (Hp & Ho). simpl. by apply c_test_ok.
    - intros (Hp & Ho & Hc). simpl. pose proof Hc as (Hn & Hle & [nd Hnd] & HoQ). rewrite Hnd.
      apply ok_same; [done|]. simpl. split; [done|]. split; [done|]. split; [done|].
      intros _. by apply nxp_Some.
    - by apply step_ccas.
    - intros (Ho & v & (lk & Hn) & Hf). simpl. rewrite Hn. destruct thr.
      + destruct (c_throws c) eqn:Hth; [|done]. eapply throw_ok; [done|done|done|done|simpl; lia|].
        intros a a' Hs. inversion Hs; subst. by constructor.
      + apply ok_same; [done|]. simpl. exists [], v. split; [done|]. split; [by exists lk|].
        split; [done|]. by exists SPop.
    - intros (Hp & Ho). simpl. by apply a_test_ok.
    - by apply step_acas.
    - intros (L1 & L2 & vs1 & vs2 & Ho & H1 & H2 & Hv). simpl.
      destruct H2 as [(_ & y & Hy & Hs) Hvs].
      apply Forall2_cons_inv_l in Hvs as (v & vs' & Hlv & Hvs & ->).
      apply nxp_inv in Hy as (nd & Hnd & Hy). rewrite Hnd. apply ok_same; [done|]. simpl.
      exists L1, L2, vs1, v, vs'. subst y. done.
    - by apply step_revset.
    - intros (L & rest & Ho & Hh & Hv). simpl. pose proof Hh as [_ Hvs].
      apply Forall2_cons_inv_l in Hvs as (v & vs' & (lk & Hn) & Hvs & ->). rewrite Hn. destruct thr.
      + destruct (c_throws c) eqn:Hth; [|done]. by eapply visiting_throw.
      + apply ok_same; [done|]. simpl. exists L, v, vs'. split; [done|]. split; [done|].
        destruct Hv as (-> & rev & Hf). split; [rewrite app_length; simpl; lia|].
        exists rev. by rewrite <- app_assoc.
    - intros (L & v & rest & Ho & Hh & Hv). simpl. destruct Hh as [(_ & y & Hy & Hs) Hvs].
      apply Forall2_cons_1 in Hvs as [Hlv Hvs].
      apply nxp_inv in Hy as (nd & Hnd & Hy). rewrite Hnd. apply ok_same; [done|]. simpl.
      exists L, v. split; [done|]. split; [done|]. exists rest. subst y. done.
    - by apply step_destroy.
    - by apply step_dealloc.
    - intros (Ho & m & Hp). destruct k as [|k]; simpl.
      + eapply ok_lin; [done|done|exact Hp|]. constructor.
      + destruct addr as [n|].
        * destruct (decide _) as [[Hf Hn]|]; [|done].
          destruct (act_fresh x g t n (Node (null, 0%N) None) HG Hf Hn) as (HG1 & HoN & R1).
          eapply ok_quiet; [exact HG1| |exact R1|done|done|done|by eapply (lossless_insert g _ n (OT t))]. simpl. exists [].
          split; [eapply (owns_insert _ g); [done|by apply not_elem_of_nil|done]|].
          split; [eexists; by rewrite lookup_insert|]. split; [done|]. split; [done|]. by exists m.
        * eapply ok_lin; [done|done|exact Hp|]. constructor.
    - intros (Hp & Ho). simpl. eapply ok_lin; [done|done|exact Hp|].
      assert (Heq : bool_decide ((s_tos x).1 = null) = bool_decide (g_a g = [])).
      { apply bool_decide_ext. rewrite (gi_tos_null c _ _ HG), (gi_a_nil c _ _ HG). done. }
      rewrite Heq. constructor.
    - done.
  Qed.
End step.
