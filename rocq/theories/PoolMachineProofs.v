(** * Proofs about the node pool's machine (tags without wrap-around) *)
From stdpp Require Import gmap list numbers.
From Verif Require Import Lin PoolModel Chain PoolProofs PoolMachine.

Set Default Proof Using "Type".

Definition isF (o : owner) : bool := match o with OF => true | _ => false end.

(** Owners: [OF] in the pool, [OQ] in the hands of the clients, [OT t] handled by
    a call of thread [t]. *)
Record pghost := PG {
  g_own : gmap N owner;
  g_fn : list N;
  g_l : list (levent pop pret);
  g_ph : gmap nat (phase pop pret);
}.

Section proofs.
  Context {D : Type} (c : cfg) (d0 : D) (ns0 : list N).
  Notation null := (c_null c).
  Notation spec := (pspec (c_node_based c)).

  Definition avail (own : gmap N owner) : gmap N bool := isF <$> own.

  Record PGI (h : gmap N (node D)) (p : tagged) (out : gset N) (g : pghost) : Prop := {
    pg_pi : PI c h p (g_own g) (g_fn g);
    pg_out : forall n, g_own g !! n = Some OQ <-> n ∈ out;
    pg_noleak : forall n, g_own g !! n <> Some OL;
    pg_run : lruns spec ∅ (pstart ns0) (g_l g) (g_ph g) (avail (g_own g));
  }.

  Definition holds (t : nat) (own : gmap N owner) (L : list N) : Prop :=
    forall n, own !! n = Some (OT t) <-> n ∈ L.

  Definition fails (b : bool) (old : tagged) : Prop := old.1 = null /\ (c_node_based c = false \/ b = true).

  Definition ptinv (t : nat) (pc : ppc) (h : gmap N (node D)) (p : tagged) (g : pghost) : Prop :=
    match pc with
    | PpAlloc b a =>
        holds t (g_own g) [] /\ ainv c h p (g_own g) a /\
        match a with
        | ATest old => (fails b old -> g_ph g !! t = Some (Done (PAlloc b) PNone)) /\
                       (~ fails b old -> g_ph g !! t = Some (Pending (PAlloc b)))
        | _ => g_ph g !! t = Some (Pending (PAlloc b))
        end
    | PpFree n d => holds t (g_own g) [n] /\ dinv h n d /\ g_ph g !! t = Some (Pending (PFree n))
    | PpRet r => (exists o, g_ph g !! t = Some (Done o r)) /\
                 holds t (g_own g) (match r with PGot n => [n] | _ => [] end)
    end.

  Definition PInv (s : pstate D) (g : pghost) : Prop :=
    PGI (p_heap s) (p_pool s) (p_out s) g /\
    forall t, match p_pcs s !! t with
              | None => g_ph g !! t = None /\ holds t (g_own g) []
              | Some pc => ptinv t pc (p_heap s) (p_pool s) g
              end.

  Record prel (t : nat) (h : gmap N (node D)) (p : tagged) (g : pghost) h' p' g' : Prop := {
    pr_pool : prely h p (g_own g) h' p' (g_own g');
    pr_dom : forall n, is_Some (h !! n) -> is_Some (h' !! n);
    pr_own : forall n, g_own g' !! n = Some (OT t) <-> g_own g !! n = Some (OT t);
    pr_heap : forall n, g_own g !! n = Some (OT t) -> h' !! n = h !! n;
    pr_ph : g_ph g' !! t = g_ph g !! t;
  }.

  Lemma holds_stable t h p g h' p' g' L :
    prel t h p g h' p' g' -> holds t (g_own g) L -> holds t (g_own g') L.
  Proof. intros R H n. by rewrite (pr_own _ _ _ _ _ _ _ R). Qed.

  Lemma ptinv_stable t pc h p g h' p' g' :
    prel t h p g h' p' g' -> ptinv t pc h p g -> ptinv t pc h' p' g'.
  Proof.
    intros R. destruct pc as [b a|n d|r]; simpl.
    - intros (H1 & H2 & H3). split; [by eapply holds_stable|]. split.
      + eapply ainv_stable; [apply R|apply R|done].
      + by rewrite (pr_ph _ _ _ _ _ _ _ R).
    - intros (H1 & H2 & H3). split; [by eapply holds_stable|]. split.
      + assert (Hn : h' !! n = h !! n).
        { apply (pr_heap _ _ _ _ _ _ _ R). apply H1. left. }
        destruct d; simpl in *; try done. unfold nxp in *. by rewrite Hn.
      + by rewrite (pr_ph _ _ _ _ _ _ _ R).
    - intros [H1 H2]. split; [by rewrite (pr_ph _ _ _ _ _ _ _ R)|by eapply holds_stable].
  Qed.

  Lemma PInv_upd s g t h' p' out' opc g' :
    PInv s g -> PGI h' p' out' g' ->
    (match opc with Some pc => ptinv t pc h' p' g' | None => g_ph g' !! t = None /\ holds t (g_own g') [] end) ->
    (forall t', t' <> t -> prel t' (p_heap s) (p_pool s) g h' p' g') ->
    PInv (PSt h' p' out' (partial_alter (fun _ => opc) t (p_pcs s))) g'.
  Proof.
    intros [HG HT] HG' Ht HR. split; [done|]. intros t'. simpl.
    destruct (decide (t' = t)) as [->|Hne].
    - by rewrite lookup_partial_alter.
    - rewrite lookup_partial_alter_ne by done. specialize (HT t').
      destruct (p_pcs s !! t') as [pc|].
      + eapply ptinv_stable; [by apply HR|done].
      + destruct HT as [H1 H2]. split; [by rewrite (pr_ph _ _ _ _ _ _ _ (HR _ Hne))|].
        eapply holds_stable; [by apply HR|done].
  Qed.

  Lemma avail_insert own n o : avail (<[n := o]> own) = <[n := isF o]> (avail own).
  Proof. unfold avail. by rewrite fmap_insert. Qed.
  Lemma avail_lookup own n o : own !! n = Some o -> avail own !! n = Some (isF o).
  Proof. unfold avail. rewrite lookup_fmap. by intros ->. Qed.
  Lemma avail_true own n : avail own !! n = Some true -> own !! n = Some OF.
  Proof.
    unfold avail. rewrite lookup_fmap. destruct (own !! n) as [[]|]; simpl; done.
  Qed.
  Lemma avail_none (own : gmap N owner) n : own !! n = None -> avail own !! n = None.
  Proof. unfold avail. rewrite lookup_fmap. by intros ->. Qed.
  Lemma avail_same own n o o' :
    own !! n = Some o -> isF o' = isF o -> avail (<[n := o']> own) = avail own.
  Proof.
    intros Hn Ho. rewrite avail_insert, Ho. apply insert_id. by apply avail_lookup.
  Qed.

  (** Steps that change nothing but the linearization. *)
  Lemma prel_same t h p g g' :
    g_own g' = g_own g -> g_ph g' !! t = g_ph g !! t -> prel t h p g h p g'.
  Proof.
    intros Ho Hp. split; try done.
    - split; [simpl; lia|]. intros _ n Hn. by rewrite Ho.
    - by rewrite Ho.
  Qed.

  (** Changing the owner of [n], where neither owner is the pool or another
      thread. *)
  Lemma prel_own t h p g g' n o o' :
    g_own g' = <[n := o']> (g_own g) -> g_own g !! n = Some o -> o <> OF ->
    o <> OT t -> o' <> OT t ->
    g_ph g' !! t = g_ph g !! t -> prel t h p g h p g'.
  Proof.
    intros Ho Hn Hf H1 H2 Hp. split; try done.
    - split; [simpl; lia|]. intros _ m Hm. rewrite Ho. split; [|done].
      rewrite lookup_insert_ne; [done|]. intros ->. congruence.
    - intros m. rewrite Ho. destruct (decide (n = m)) as [->|Hne].
      + rewrite lookup_insert. split; congruence.
      + by rewrite lookup_insert_ne.
  Qed.

  (** Writing to node [n] held by someone else than [t] and the pool. *)
  Lemma prel_write t h p g n nd o :
    g_own g !! n = Some o -> o <> OF -> o <> OT t -> is_Some (h !! n) ->
    prel t h p g (<[n := nd]> h) p g.
  Proof.
    intros Hn Hf Ht Hh. split; try done.
    - split; [simpl; lia|]. intros _ m Hm. split; [done|]. rewrite lookup_insert_ne; [done|]. intros ->. congruence.
    - intros m Hm. rewrite lookup_insert_is_Some. destruct (decide (n = m)); auto.
    - intros m Hm. rewrite lookup_insert_ne; [done|]. intros ->. congruence.
  Qed.

  Lemma pool_null (h : gmap N (node D)) p own fn : PI c h p own fn -> p.1 = null -> forall n, own !! n <> Some OF.
  Proof.
    intros HP Hp n Hn. apply (pi_mem _ _ _ _ _ HP) in Hn as Hi. pose proof (pi_seg _ _ _ _ _ HP) as Hs.
    destruct fn as [|z fn]; [by apply elem_of_nil in Hi|]. destruct Hs as [Hz _].
    eapply (PI_not_null c _ _ _ _ z OF HP); [apply (pi_mem _ _ _ _ _ HP); left|congruence].
  Qed.

  (** Arriving at [ATest] with the current value of the pool word. *)
  Lemma test_ok s g t b :
    PInv s g -> holds t (g_own g) [] -> g_ph g !! t = Some (Pending (PAlloc b)) ->
    exists g', PInv (PSt (p_heap s) (p_pool s) (p_out s) (<[t := PpAlloc b (ATest (p_pool s))]> (p_pcs s))) g' /\
      erase (g_l g') = erase (g_l g).
  Proof.
    intros HI Hh Hp. pose proof HI as [HG HT].
    assert (Hd : fails b (p_pool s) \/ ~ fails b (p_pool s)).
    { destruct (decide ((p_pool s).1 = null /\ (c_node_based c = false \/ b = true))); [by left|by right]. }
    destruct Hd as [Hf|Hf].
    - exists (PG (g_own g) (g_fn g) (g_l g ++ [Lin t (PAlloc b) PNone]) (<[t := Done (PAlloc b) PNone]> (g_ph g))).
      split; [|simpl; rewrite erase_app; simpl; by rewrite app_nil_r].
      apply (PInv_upd s g t _ _ _ (Some _)); [done| | |].
      + destruct HG. split; try done. simpl. eapply lrun_lin; [done|done|].
        constructor; [apply Hf|]. intros n Hn. apply avail_true in Hn.
        by eapply (pool_null _ _ _ _ pg_pi0); [apply Hf|].
      + split; [done|]. split; [by eapply ainv_load; apply HG|]. simpl. rewrite lookup_insert. split; [done|].
        intros Hn. by destruct Hn.
      + intros t' Hne. apply prel_same; [done|]. simpl. by rewrite lookup_insert_ne.
    - exists g. split; [|done]. apply (PInv_upd s g t _ _ _ (Some _)); [done|done| |].
      + split; [done|]. split; [by eapply ainv_load; apply HG|]. by split.
      + intros t' Hne. by apply prel_same.
  Qed.

  Lemma lin_pi (h : gmap N (node D)) p own fn n : PI c h p own fn -> own !! n = None -> h !! n = None.
  Proof.
    intros HP Hn. apply eq_None_not_Some. intros Hs. apply (pi_dom _ _ _ _ _ HP) in Hs as [? Hs]. congruence.
  Qed.
  Lemma pi_fresh (h : gmap N (node D)) p own fn n : PI c h p own fn -> h !! n = None -> own !! n = None.
  Proof.
    intros HP Hn. apply eq_None_not_Some. intros Hs. apply (pi_dom _ _ _ _ _ HP) in Hs as [? Hs]. congruence.
  Qed.

  (** Taking the first node of the pool, by thread [t]. *)
  Lemma take_ok s g t o n p' fn :
    PInv s g -> holds t (g_own g) [] -> g_ph g !! t = Some (Pending o) ->
    (forall a, a !! n = Some true -> spec a o (PGot n) (<[n := false]> a)) ->
    p'.2 = ((p_pool s).2 + 1)%N -> nxp (p_heap s) n = Some p'.1 -> g_fn g = n :: fn ->
    exists g', PInv (PSt (p_heap s) p' (p_out s) (<[t := PpRet (PGot n)]> (p_pcs s))) g' /\
      erase (g_l g') = erase (g_l g).
  Proof.
    intros HI Hh Hp Hsp Htg Hx Hfn. pose proof HI as [HG HT].
    assert (HnF : g_own g !! n = Some OF).
    { apply (pi_mem _ _ _ _ _ (pg_pi _ _ _ _ HG)). rewrite Hfn. left. }
    exists (PG (<[n := OT t]> (g_own g)) fn (g_l g ++ [Lin t o (PGot n)]) (<[t := Done o (PGot n)]> (g_ph g))).
    split; [|simpl; rewrite erase_app; simpl; by rewrite app_nil_r].
    apply (PInv_upd s g t _ _ _ (Some _)); [done| | |].
    - destruct HG as [H1 H2 H3 H4]. split; simpl.
      + rewrite Hfn in H1. by eapply PI_pop.
      + intros m. destruct (decide (n = m)) as [<-|Hne].
        * rewrite lookup_insert. split; [done|]. intros Hm. apply H2 in Hm. congruence.
        * by rewrite lookup_insert_ne.
      + intros m. rewrite lookup_insert_Some. intros [[_ ?]|[_ ?]]; [done|]. by eapply H3.
      + rewrite avail_insert. eapply lrun_lin; [done|done|]. apply Hsp. apply (avail_lookup _ _ _ HnF).
    - simpl. split; [exists o; by rewrite lookup_insert|]. intros m. rewrite lookup_insert_Some, elem_of_list_singleton.
      specialize (Hh m). rewrite elem_of_nil in Hh. naive_solver.
    - intros t' Hne. split; simpl; try done.
      + split; [simpl; lia|]. intros ?. lia.
      + intros m. rewrite lookup_insert_Some. split; [intros [[_ ?]|[_ ?]]; congruence|].
        intros Hm. right. split; [|done]. intros <-. congruence.
      + by rewrite lookup_insert_ne.
  Qed.

  (** A fresh node from the allocator, for thread [t]. *)
  Lemma fresh_ok s g t o n nd :
    PInv s g -> holds t (g_own g) [] -> g_ph g !! t = Some (Pending o) ->
    (avail (g_own g) !! n = None -> spec (avail (g_own g)) o (PGot n) (<[n := false]> (avail (g_own g)))) ->
    p_heap s !! n = None -> n <> null ->
    exists g', PInv (PSt (<[n := nd]> (p_heap s)) (p_pool s) (p_out s) (<[t := PpRet (PGot n)]> (p_pcs s))) g' /\
      erase (g_l g') = erase (g_l g).
  Proof.
    intros HI Hh Hp Hsp Hf Hn. pose proof HI as [HG HT].
    assert (Hno : g_own g !! n = None) by (by eapply pi_fresh; [apply HG|]).
    exists (PG (<[n := OT t]> (g_own g)) (g_fn g) (g_l g ++ [Lin t o (PGot n)]) (<[t := Done o (PGot n)]> (g_ph g))).
    split; [|simpl; rewrite erase_app; simpl; by rewrite app_nil_r].
    apply (PInv_upd s g t _ _ _ (Some _)); [done| | |].
    - destruct HG as [H1 H2 H3 H4]. split; simpl.
      + by apply PI_fresh.
      + intros m. destruct (decide (n = m)) as [<-|Hne].
        * rewrite lookup_insert. split; [done|]. intros Hm. apply H2 in Hm. congruence.
        * by rewrite lookup_insert_ne.
      + intros m. rewrite lookup_insert_Some. intros [[_ ?]|[_ ?]]; [done|]. by eapply H3.
      + rewrite avail_insert. eapply lrun_lin; [done|done|]. apply Hsp. by apply avail_none.
    - simpl. split; [exists o; by rewrite lookup_insert|]. intros m. rewrite lookup_insert_Some, elem_of_list_singleton.
      specialize (Hh m). rewrite elem_of_nil in Hh. naive_solver.
    - intros t' Hne. split; simpl.
      + split; [simpl; lia|]. intros _ m Hm. rewrite !lookup_insert_ne; [done|..]; intros <-; congruence.
      + intros m Hm. rewrite lookup_insert_is_Some. destruct (decide (n = m)); auto.
      + intros m. rewrite lookup_insert_Some. split; [intros [[_ ?]|[_ ?]]; congruence|].
        intros Hm. right. split; [|done]. intros <-. congruence.
      + intros m Hm. rewrite lookup_insert_ne; [done|]. intros <-. congruence.
      + by rewrite lookup_insert_ne.
  Qed.

  (** Giving node [n] of thread [t] to the pool. *)
  Lemma put_ok s g t o n :
    PInv s g -> holds t (g_own g) [n] -> g_ph g !! t = Some (Pending o) ->
    (forall a, a !! n = Some false -> spec a o PUnit (<[n := true]> a)) ->
    nxp (p_heap s) n = Some (p_pool s).1 ->
    exists g', PInv (PSt (p_heap s) (n, (p_pool s).2) (p_out s) (<[t := PpRet PUnit]> (p_pcs s))) g' /\
      erase (g_l g') = erase (g_l g).
  Proof.
    intros HI Hh Hp Hsp Hx. pose proof HI as [HG HT].
    assert (Hn : g_own g !! n = Some (OT t)) by (apply Hh; left).
    exists (PG (<[n := OF]> (g_own g)) (n :: g_fn g) (g_l g ++ [Lin t o PUnit]) (<[t := Done o PUnit]> (g_ph g))).
    split; [|simpl; rewrite erase_app; simpl; by rewrite app_nil_r].
    apply (PInv_upd s g t _ _ _ (Some _)); [done| | |].
    - destruct HG as [H1 H2 H3 H4]. split; simpl.
      + by eapply (PI_push _ _ _ _ _ _ (OT t)).
      + intros m. destruct (decide (n = m)) as [<-|Hne].
        * rewrite lookup_insert. split; [done|]. intros Hm. apply H2 in Hm. congruence.
        * by rewrite lookup_insert_ne.
      + intros m. rewrite lookup_insert_Some. intros [[_ ?]|[_ ?]]; [done|]. by eapply H3.
      + rewrite avail_insert. eapply lrun_lin; [done|done|]. apply Hsp. apply (avail_lookup _ _ _ Hn).
    - simpl. split; [exists o; by rewrite lookup_insert|]. intros m. rewrite lookup_insert_Some, elem_of_nil.
      specialize (Hh m). rewrite elem_of_list_singleton in Hh. naive_solver.
    - intros t' Hne. split; simpl; try done.
      + split; [simpl; lia|]. intros _ m Hm. split; [|done]. rewrite lookup_insert_ne; [done|]. intros <-. congruence.
      + intros m. rewrite lookup_insert_Some. split; [intros [[_ ?]|[_ ?]]; congruence|].
        intros Hm. right. split; [|done]. intros <-. congruence.
      + by rewrite lookup_insert_ne.
  Qed.

  (** Start and end of a call. *)
  Lemma inv_alloc s g t o :
    PInv s g -> g_ph g !! t = None ->
    let g' := PG (g_own g) (g_fn g) (g_l g ++ [Ev (Lin.Inv t o)]) (<[t := Pending o]> (g_ph g)) in
    PGI (p_heap s) (p_pool s) (p_out s) g' /\
    (forall t', t' <> t -> prel t' (p_heap s) (p_pool s) g (p_heap s) (p_pool s) g').
  Proof.
    intros [HG HT] Hp g'. split.
    - destruct HG. split; try done. by constructor.
    - intros t' Hne. apply prel_same; [done|]. simpl. by rewrite lookup_insert_ne.
  Qed.

  Lemma inv_free s g t o n :
    PInv s g -> g_ph g !! t = None -> n ∈ p_out s ->
    let g' := PG (<[n := OT t]> (g_own g)) (g_fn g) (g_l g ++ [Ev (Lin.Inv t o)]) (<[t := Pending o]> (g_ph g)) in
    PGI (p_heap s) (p_pool s) (p_out s ∖ {[n]}) g' /\
    (forall t', t' <> t -> prel t' (p_heap s) (p_pool s) g (p_heap s) (p_pool s) g').
  Proof.
    intros [HG HT] Hp Hn g'. apply (pg_out _ _ _ _ HG) in Hn as Ho. split.
    - destruct HG as [H1 H2 H3 H4]. split; simpl.
      + by eapply (PI_own _ _ _ _ _ _ OQ).
      + intros m. destruct (decide (n = m)) as [<-|Hne].
        * rewrite lookup_insert. set_solver.
        * rewrite lookup_insert_ne by done. rewrite H2. set_solver.
      + intros m. rewrite lookup_insert_Some. intros [[_ ?]|[_ ?]]; [done|]. by eapply H3.
      + rewrite (avail_same _ _ OQ); [|done|done]. by constructor.
    - intros t' Hne. eapply (prel_own _ _ _ _ _ n OQ (OT t)); try done; simpl; [congruence|].
      by rewrite lookup_insert_ne.
  Qed.

  Lemma ret_ok s g t r :
    PInv s g -> p_pcs s !! t = Some (PpRet r) ->
    (match r with PGot n => n ∉ p_out s /\ is_Some (p_heap s !! n) | _ => True end) /\
    exists g', PInv (PSt (p_heap s) (p_pool s) (give r (p_out s)) (delete t (p_pcs s))) g' /\
      erase (g_l g') = erase (g_l g) ++ [Res t r].
  Proof.
    intros HI Hpc. pose proof HI as [HG HT]. pose proof (HT t) as Ht. rewrite Hpc in Ht.
    destruct Ht as [[o Hp] Hh]. split.
    { destruct r as [n| | |]; try done.
      assert (Hn : g_own g !! n = Some (OT t)) by (apply Hh; left). split.
      - intros Hi. apply (pg_out _ _ _ _ HG) in Hi. congruence.
      - apply (pi_dom _ _ _ _ _ (pg_pi _ _ _ _ HG)). eauto. }
    pose (own' := match r with PGot n => <[n := OQ]> (g_own g) | _ => g_own g end).
    exists (PG own' (g_fn g) (g_l g ++ [Ev (Res t r)]) (delete t (g_ph g))).
    split; [|simpl; by rewrite erase_app].
    apply (PInv_upd s g t _ _ _ None); [done| | |].
    - destruct HG as [H1 H2 H3 H4]. subst own'; destruct r as [n| | |]; split; simpl; try done;
        try (by econstructor).
      + eapply (PI_own _ _ _ _ _ _ (OT t)); [done|done|done|]. apply Hh. left.
      + intros m. destruct (decide (n = m)) as [<-|Hne].
        * rewrite lookup_insert. set_solver.
        * rewrite lookup_insert_ne by done. rewrite H2. set_solver.
      + intros m. rewrite lookup_insert_Some. intros [[_ ?]|[_ ?]]; [done|]. by eapply H3.
      + rewrite (avail_same _ _ (OT t)); [by econstructor| |done]. apply Hh. left.
    - simpl. rewrite lookup_delete. split; [done|]. intros m. rewrite elem_of_nil. split; [|done].
      destruct r as [n| | |]; subst own'; simpl; intros Hm; try (apply Hh in Hm; by apply elem_of_nil in Hm).
      rewrite lookup_insert_Some in Hm. destruct Hm as [[_ ?]|[Hne Hm]]; [done|].
      apply Hh, elem_of_list_singleton in Hm. congruence.
    - intros t' Hne. destruct r as [n| | |]; try (apply prel_same; [done|]; simpl; by rewrite lookup_delete_ne).
      eapply (prel_own _ _ _ _ _ n (OT t) OQ); try done; simpl; [apply Hh; left|congruence|].
      by rewrite lookup_delete_ne.
  Qed.

  Lemma upd_eq (pcs : gmap nat ppc) t pc : <[t := pc]> pcs = partial_alter (fun _ => Some pc) t pcs.
  Proof. done. Qed.

  Context (Htag : c_tagmod c = None).

  Lemma prun_ok s g t sp addr :
    PInv s g ->
    match pstep c d0 s (PRun t sp addr) with
    | PNext s' evs => exists g', PInv s' g' /\ erase (g_l g') = erase (g_l g) ++ evs
    | PUB => False
    | PDisabled => True
    end.
  Proof using Htag.
    intros HI. pose proof HI as [HG HT]. pose proof (HT t) as Ht. cbn [pstep].
    assert (Hnil : forall s', (exists g', PInv s' g' /\ erase (g_l g') = erase (g_l g)) ->
                   exists g', PInv s' g' /\ erase (g_l g') = erase (g_l g) ++ []).
    { intros s'. by rewrite app_nil_r. }
    destruct (p_pcs s !! t) as [pc|] eqn:Hpc; [|done]. destruct pc as [b a|n d|r].
    - destruct Ht as (Hh & Ha & Hp). pose proof (pg_pi _ _ _ _ HG) as HP.
      destruct a as [|old|old nxt].
      + cbn [astep]. apply Hnil. by apply test_ok.
      + cbn [astep]. destruct Hp as [Hp1 Hp2]. destruct Ha as (A1 & A2 & A3).
        destruct (decide (old.1 = null)) as [Hn|Hn].
        * destruct (c_node_based c && negb b) eqn:Hnb.
          -- apply andb_prop in Hnb as [Hnb Hb]. assert (b = false) as -> by (by destruct b).
             assert (Hp : g_ph g !! t = Some (Pending (PAlloc false))).
             { apply Hp2. intros [_ [?|?]]; congruence. }
             destruct addr as [n|].
             ++ destruct (decide _) as [[Hf Hne]|]; [|done]. apply Hnil.
                eapply fresh_ok; [done|done|done| |done|done]. intros. by apply ps_fresh.
             ++ apply Hnil.
                exists (PG (g_own g) (g_fn g) (g_l g ++ [Lin t (PAlloc false) PThrow])
                           (<[t := Done (PAlloc false) PThrow]> (g_ph g))).
                split; [|simpl; rewrite erase_app; simpl; by rewrite app_nil_r].
                apply (PInv_upd s g t _ _ _ (Some _)); [done| | |].
                ** destruct HG. split; try done. simpl. eapply lrun_lin; [done|done|]. by constructor.
                ** split; [exists (PAlloc false); simpl; by rewrite lookup_insert|done].
                ** intros t' Hne. apply prel_same; [done|]. simpl. by rewrite lookup_insert_ne.
          -- assert (Hf : fails b old).
             { split; [done|]. destruct (c_node_based c); [|by left]. destruct b; [by right|done]. }
             apply Hnil. exists g. split; [|done]. apply (PInv_upd s g t _ _ _ (Some _)); [done|done| |].
             ++ split; [|done]. exists (PAlloc b). by apply Hp1.
             ++ intros t' Hne. by apply prel_same.
        * destruct (A2 Hn) as [nd Hnd]. rewrite Hnd. apply Hnil. exists g. split; [|done].
          apply (PInv_upd s g t _ _ _ (Some _)); [done|done| |].
          -- split; [done|]. split.
             ++ simpl. split; [done|]. split; [done|]. intros Ht. split; [auto|]. by apply nxp_Some.
             ++ apply Hp2. by intros [? _].
          -- intros t' Hne. by apply prel_same.
      + pose proof (astep_ok c Htag d0 b _ _ _ _ (ACas old nxt) sp addr HP Ha) as Hok.
        cbn [astep] in *. destruct (decide _) as [[-> Heq]|].
        * destruct Hok as [(_ & Hn & Hp1 & Htg & Hx & fn & Hfn)|(Hno & _ & _ & _ & Hnb & ->)].
          -- apply Hnil. eapply take_ok; [done|done|done| |done|done|done]. intros. by constructor.
          -- exfalso. destruct Ha as (_ & Hn & Ha). destruct Ha as [Ha _]; [by subst old|].
             apply (pi_fresh _ _ _ _ _ HP) in Hno. congruence.
        * apply Hnil. by apply test_ok.
    - destruct Ht as (Hh & Hd & Hp). pose proof (pg_pi _ _ _ _ HG) as HP.
      assert (Hn : g_own g !! n = Some (OT t)) by (apply Hh; left).
      pose proof (dstep_ok c _ _ _ _ t n d sp HP Hn Hd) as Hok.
      destruct (dstep n (p_heap s) (p_pool s) d sp) as [h p d'|h p|]; [| |done].
      + destruct Hok as (-> & Hd' & Hh'). apply Hnil. exists g. split; [|done].
        apply (PInv_upd s g t _ _ _ (Some _)); [done| | |].
        * destruct Hh' as [->|(nd & y & Hnd & ->)]; [done|]. destruct HG as [H1 H2 H3 H4]. split; try done.
          by eapply (PI_write _ _ _ _ _ _ (OT t)).
        * done.
        * intros t' Hne. destruct Hh' as [->|(nd & y & Hnd & ->)]; [by apply prel_same|].
          eapply prel_write; [done|done|congruence|by eexists].
      + destruct Hok as (-> & -> & Hx). apply Hnil. eapply put_ok; [done|done|done| |done].
        intros. by constructor.
    - by apply ret_ok.
  Qed.

  Lemma holds_dec t own n L : holds t own L -> n ∉ L -> own !! n <> Some (OT t).
  Proof. intros H Hn Ho. by apply H in Ho. Qed.

  Lemma pstep_ok s g ch :
    PInv s g ->
    match pstep c d0 s ch with
    | PNext s' evs => exists g', PInv s' g' /\ erase (g_l g') = erase (g_l g) ++ evs
    | PUB => False
    | PDisabled => True
    end.
  Proof using Htag.
    intros HI. pose proof HI as [HG HT]. destruct ch as [t o|t sp addr|t o addr|n nd].
    - pose proof (HT t) as Ht. cbn [pstep]. destruct (p_pcs s !! t) eqn:Hpc; [done|].
      destruct Ht as [Hp Hh]. destruct o as [b|n|b|n]; try done.
      + destruct (inv_alloc s g t (PAlloc b) HI Hp) as [HG' HR]. eexists. split.
        * apply (PInv_upd s g t _ _ _ (Some _)); [done|exact HG'| |exact HR].
          split; [done|]. split; [done|]. simpl. by rewrite lookup_insert.
        * simpl. by rewrite erase_app.
      + destruct (decide _) as [Hn|]; [|done].
        destruct (inv_free s g t (PFree n) n HI Hp Hn) as [HG' HR]. eexists. split.
        * apply (PInv_upd s g t _ _ _ (Some _)); [done|exact HG'| |exact HR].
          split; [|split; [done|simpl; by rewrite lookup_insert]]. simpl. intros m.
          rewrite lookup_insert_Some, elem_of_list_singleton. specialize (Hh m). rewrite elem_of_nil in Hh.
          naive_solver.
        * simpl. by rewrite erase_app.
    - by apply prun_ok.
    - cbn [pstep]. destruct (decide (p_pcs s = ∅)) as [He|]; [|done].
      pose proof (HT t) as Ht. rewrite He, lookup_empty in Ht. destruct Ht as [Hp Hh].
      assert (Hdel : forall pc, delete t (<[t := pc]> (p_pcs s)) = ∅).
      { intros pc. rewrite delete_insert_delete, He. apply delete_empty. }
      destruct o as [b|n|b|n]; try done.
      + destruct (inv_alloc s g t (PUAlloc b) HI Hp) as [HG' HR].
        set (g1 := PG _ _ _ _) in HG', HR.
        set (s1 := PSt (p_heap s) (p_pool s) (p_out s) (<[t := PpRet PNone]> (p_pcs s)) : pstate D).
        assert (Hp1 : g_ph g1 !! t = Some (Pending (PUAlloc b))) by (simpl; by rewrite lookup_insert).
        (* a state in which the call is in progress *)
        assert (Hfin : forall h p r, (exists g', PInv (PSt h p (p_out s) (<[t := PpRet r]> (p_pcs s))) g' /\
                     erase (g_l g') = erase (g_l g1)) ->
                 exists g', PInv (PSt h p (give r (p_out s)) ∅) g' /\
                   erase (g_l g') = erase (g_l g) ++ [Lin.Inv t (PUAlloc b); Res t r]).
        { intros h p r (g2 & HI2 & Hl2). destruct (ret_ok _ _ t r HI2) as [_ (g3 & HI3 & Hl3)].
          - simpl. by rewrite lookup_insert.
          - exists g3. simpl in HI3. rewrite Hdel in HI3. split; [done|].
            rewrite Hl3, Hl2. simpl. rewrite erase_app. simpl. by rewrite <- app_assoc. }
        pose proof (alloc_unsafe_ok c Htag d0 b _ _ _ _ addr (pg_pi _ _ _ _ HG)) as Hok.
        assert (Hlin : forall r, spec (avail (g_own g)) (PUAlloc b) r (avail (g_own g)) ->
                   match r with PGot _ => False | _ => True end ->
                   exists g', PInv (PSt (p_heap s) (p_pool s) (p_out s) (<[t := PpRet r]> (p_pcs s))) g' /\
                     erase (g_l g') = erase (g_l g1)).
        { intros r Hsp Hr.
          exists (PG (g_own g) (g_fn g) (g_l g1 ++ [Lin t (PUAlloc b) r]) (<[t := Done (PUAlloc b) r]> (g_ph g1))).
          split; [|simpl; rewrite erase_app; simpl; by rewrite app_nil_r].
          apply (PInv_upd s g t _ _ _ (Some _)); [done| | |].
          - destruct HG'. split; try done. simpl. by eapply lrun_lin.
          - split; [exists (PUAlloc b); simpl; by rewrite lookup_insert|]. by destruct r.
          - intros t' Hne. apply prel_same; [done|]. simpl. by rewrite !lookup_insert_ne. }
        destruct (alloc_unsafe c d0 b (p_heap s) (p_pool s) addr) as [| h p n| | | |]; try done.
        * (* the same changes as in take_ok and fresh_ok, from the state s *)
          assert (HI0 : exists g', PInv (PSt h p (p_out s) (<[t := PpRet (PGot n)]> (p_pcs s))) g' /\
                     erase (g_l g') = erase (g_l g1)).
          { assert (Hno : forall m, g_fn g = [] -> avail (g_own g) !! m <> Some true).
            { intros m Hf Hm. apply avail_true in Hm. apply (pi_mem _ _ _ _ _ (pg_pi _ _ _ _ HG)) in Hm.
              rewrite Hf in Hm. by apply elem_of_nil in Hm. }
            pose (gx := PG (<[n := OT t]> (g_own g)) (if decide (p_heap s !! n = None) then g_fn g else tail (g_fn g))
                         (g_l g1 ++ [Lin t (PUAlloc b) (PGot n)]) (<[t := Done (PUAlloc b) (PGot n)]> (g_ph g1))).
            exists gx. split; [|simpl; rewrite erase_app; simpl; by rewrite app_nil_r].
            apply (PInv_upd s g t _ _ _ (Some _)); [done| | |].
            - destruct HG' as [H1 H2 H3 H4]. destruct HG as [G1 G2 G3 G4]. subst gx. split; simpl.
              + destruct Hok as [(-> & Hn & Hp2 & Htg & Hx & fn & Hfn)|(Hf & Hn & -> & -> & Hnb & Hb & Hfn)].
                * rewrite decide_False.
                  -- rewrite Hfn. simpl. rewrite Hfn in G1. by eapply PI_pop.
                  -- intros Hnone. apply (pi_fresh _ _ _ _ _ G1) in Hnone.
                     assert (Hi : g_own g !! n = Some OF) by (apply (pi_mem _ _ _ _ _ G1); rewrite Hfn; left).
                     congruence.
                * rewrite decide_True by done. by apply PI_fresh.
              + intros m. destruct (decide (n = m)) as [<-|Hne].
                * rewrite lookup_insert. split; [done|]. intros Hm. apply G2 in Hm. exfalso.
                  destruct Hok as [(_ & _ & _ & _ & _ & fn & Hfn)|(Hf & _)].
                  -- assert (Hi : g_own g !! n = Some OF) by (apply (pi_mem _ _ _ _ _ G1); rewrite Hfn; left).
                     congruence.
                  -- apply (pi_fresh _ _ _ _ _ G1) in Hf. congruence.
                * by rewrite lookup_insert_ne.
              + intros m. rewrite lookup_insert_Some. intros [[_ ?]|[_ ?]]; [done|]. by eapply G3.
              + rewrite avail_insert. eapply lrun_lin; [exact H4|by rewrite lookup_insert|].
                destruct Hok as [(_ & _ & _ & _ & _ & fn & Hfn)|(Hf & _ & _ & _ & Hnb & Hb & Hfn)].
                * apply ps_ualloc. apply (avail_lookup _ _ OF). apply (pi_mem _ _ _ _ _ G1). rewrite Hfn. left.
                * apply ps_ufresh; [done|done| |].
                  -- apply avail_none. by apply (pi_fresh _ _ _ _ _ G1).
                  -- intros m. by apply Hno.
            - split; [exists (PUAlloc b); simpl; by rewrite lookup_insert|]. simpl. intros m.
              rewrite lookup_insert_Some, elem_of_list_singleton. specialize (Hh m). rewrite elem_of_nil in Hh.
              naive_solver.
            - intros t' Hne. pose proof (HT t') as Ht'. rewrite He, lookup_empty in Ht'. destruct Ht' as [_ Ht'].
              split; simpl.
              + destruct Hok as [(-> & Hn & Hp2 & Htg & Hx & fn & Hfn)|(Hf & Hn & -> & -> & Hnb & Hb & Hfn)].
                * split; [simpl; lia|]. intros ?. lia.
                * split; [simpl; lia|]. intros _ m Hm. apply (pi_mem _ _ _ _ _ (pg_pi _ _ _ _ HG)) in Hm.
                  rewrite Hfn in Hm. by apply elem_of_nil in Hm.
              + intros m Hm. destruct Hok as [(-> & _)|(Hf & Hn & -> & _)]; [done|].
                rewrite lookup_insert_is_Some. destruct (decide (n = m)); auto.
              + intros m. rewrite lookup_insert_Some. split; [intros [[_ ?]|[_ ?]]; congruence|].
                intros Hm. apply Ht' in Hm. by apply elem_of_nil in Hm.
              + intros m Hm. apply Ht' in Hm. by apply elem_of_nil in Hm.
              + by rewrite !lookup_insert_ne. }
          by apply (Hfin h p (PGot n)).
        * destruct Hok as [Hfn Hb]. destruct (Hfin _ _ _ (Hlin PNone ltac:(constructor; [done|]; intros m Hm;
            apply avail_true, (pi_mem _ _ _ _ _ (pg_pi _ _ _ _ HG)) in Hm; rewrite Hfn in Hm; by apply elem_of_nil in Hm) I))
            as (g' & HI' & Hl'). exists g'. split; [|done]. destruct s as [h p out pcs]. simpl in *. by subst pcs.
        * destruct Hok as (Hnb & Hb & Hfn). destruct (Hfin _ _ _ (Hlin PThrow ltac:(constructor; [done|done|]; intros m Hm;
            apply avail_true, (pi_mem _ _ _ _ _ (pg_pi _ _ _ _ HG)) in Hm; rewrite Hfn in Hm; by apply elem_of_nil in Hm) I))
            as (g' & HI' & Hl'). exists g'. split; [|done]. destruct s as [h p out pcs]. simpl in *. by subst pcs.
      + destruct (decide _) as [Hn|]; [|done].
        apply (pg_out _ _ _ _ HG) in Hn as Hno.
        destruct (proj1 (pi_dom _ _ _ _ _ (pg_pi _ _ _ _ HG) n)) as [nd Hnd]; [eauto|].
        rewrite (dealloc_unsafe_ok _ _ _ _ Hnd).
        set (h' := <[n := Node ((p_pool s).1, (nx nd).2) (dat nd)]> (p_heap s)).
        destruct (inv_free s g t (PUFree n) n HI Hp Hn) as [HG' HR]. set (g1 := PG _ _ _ _) in HG', HR.
        assert (Hn1 : g_own g1 !! n = Some (OT t)) by (simpl; by rewrite lookup_insert).
        exists (PG (<[n := OF]> (g_own g)) (n :: g_fn g)
                   (((g_l g ++ [Ev (Lin.Inv t (PUFree n))]) ++ [Lin t (PUFree n) PUnit]) ++ [Ev (Res t PUnit)])
                   (delete t (<[t := Done (PUFree n) PUnit]> (<[t := Pending (PUFree n)]> (g_ph g))))).
        split; [|simpl; rewrite !erase_app; simpl; by rewrite app_nil_r, <- app_assoc].
        split.
        * destruct HG as [G1 G2 G3 G4]. split; simpl.
          -- eapply (PI_push _ _ _ _ _ _ OQ); [done| |done|].
             ++ by eapply (PI_write _ _ _ _ _ _ OQ).
             ++ unfold h'. by rewrite nxp_insert.
          -- intros m. destruct (decide (n = m)) as [<-|Hne].
             ++ rewrite lookup_insert. set_solver.
             ++ rewrite lookup_insert_ne by done. rewrite G2. set_solver.
          -- intros m. rewrite lookup_insert_Some. intros [[_ ?]|[_ ?]]; [done|]. by eapply G3.
          -- rewrite avail_insert. eapply lrun_res; [|by rewrite lookup_insert].
             eapply lrun_lin; [by constructor|by rewrite lookup_insert|]. constructor.
             apply (avail_lookup _ _ OQ). done.
        * intros t'. simpl. rewrite lookup_empty. pose proof (HT t') as Ht'. rewrite He, lookup_empty in Ht'.
          destruct Ht' as [Hp' Hh']. split.
          -- destruct (decide (t' = t)) as [->|]; [by rewrite lookup_delete|].
             by rewrite lookup_delete_ne, !lookup_insert_ne.
          -- intros m. rewrite lookup_insert_Some, <- (Hh' m). split; [intros [[_ ?]|[_ ?]]; done|].
             intros Hm. right. split; [|done]. intros <-. congruence.
    - cbn [pstep]. destruct (decide _) as [Hn|]; [|done]. apply (pg_out _ _ _ _ HG) in Hn as Ho.
      assert (Hs : is_Some (p_heap s !! n)).
      { apply (pi_dom _ _ _ _ _ (pg_pi _ _ _ _ HG)). eauto. }
      exists g. rewrite app_nil_r. split; [|done]. split; simpl.
      + destruct HG as [G1 G2 G3 G4]. split; try done. by eapply (PI_write _ _ _ _ _ _ OQ).
      + intros t. pose proof (HT t) as Ht. destruct (p_pcs s !! t); [|done].
        eapply ptinv_stable; [|done]. by eapply prel_write.
  Qed.

  Lemma pinit_ok : NoDup ns0 -> null ∉ ns0 -> exists g, PInv (pinit c d0 ns0) g /\ g_l g = [].
  Proof.
    intros Hnd Hnn. unfold pinit, pool_init.
    destruct (pool_add_ok c d0 ns0 ∅ (null, 0%N) ∅ [] (PI_empty c 0%N) Hnd)
      as (own & HP & Htg & Ho & _ & _).
    { intros n Hn. rewrite lookup_empty. split; [done|]. intros ->. done. }
    exists (PG own (reverse ns0 ++ []) [] ∅). split; [|done]. split; simpl.
    - split; simpl; [done| | |].
      + intros n. rewrite Ho, lookup_empty. destruct (decide _); split; (done || set_solver).
      + intros n. rewrite Ho, lookup_empty. by destruct (decide _).
      + assert (avail own = pstart ns0) as ->; [|constructor].
        apply map_eq. intros n. unfold avail, pstart. rewrite lookup_fmap, Ho, lookup_empty.
        destruct (decide (n ∈ ns0)) as [Hn|Hn]; simpl; symmetry.
        * apply lookup_gset_to_gmap_Some. split; [|done]. by apply elem_of_list_to_set.
        * apply lookup_gset_to_gmap_None. by rewrite elem_of_list_to_set.
    - intros t. rewrite lookup_empty. split; [done|]. intros n. rewrite Ho, lookup_empty, elem_of_nil.
      by destruct (decide _).
  Qed.

  Lemma pexec_ok hist s :
    NoDup ns0 -> null ∉ ns0 -> pexec c d0 (pinit c d0 ns0) hist s ->
    exists g, PInv s g /\ erase (g_l g) = hist.
  Proof using Htag.
    intros Hnd Hnn. induction 1 as [|hist s ch s' evs He IH Hs].
    - destruct (pinit_ok Hnd Hnn) as (g & HI & Hl). exists g. by rewrite Hl.
    - destruct IH as (g & HI & Hl). pose proof (pstep_ok s g ch HI) as Hok. rewrite Hs in Hok.
      destruct Hok as (g' & HI' & Hl'). exists g'. by rewrite Hl', Hl.
  Qed.
End proofs.
