(** * Proofs of the node pool properties, assembled, with concrete schedules *)
From stdpp Require Import gmap list numbers.
From Verif Require Import Lin PoolModel Chain PoolProofs PoolMachine PoolMachineProofs.

Set Default Proof Using "Type".

Section main.
  Context {D : Type} (c : cfg) (d0 : D).
  Notation spec := (pspec (c_node_based c)).

  Lemma held_app h e : held (h ++ e) = foldl held_step (held h) e.
  Proof. unfold held. by rewrite foldl_app. Qed.

  Lemma out_held ns hist s : preach c d0 ns hist s -> p_out s = held hist.
  Proof.
    intros (_ & _ & He). induction He as [|hist s ch s' evs He IH Hs]; [done|].
    rewrite held_app, <- IH. clear He IH. destruct ch as [t o|t sp addr|t o addr|n nd]; cbn [pstep] in Hs.
    - destruct (p_pcs s !! t); [done|]. destruct o as [b|n|b|n]; try done.
      + by injection Hs as <- <-.
      + destruct (decide _); [|done]. by injection Hs as <- <-.
    - destruct (p_pcs s !! t) as [[b a|n d|r]|]; [..|done].
      + destruct (astep _ _ _ _ _ _ _ _); try done; by injection Hs as <- <-.
      + destruct (dstep _ _ _ _ _); try done; by injection Hs as <- <-.
      + injection Hs as <- <-. by destruct r.
    - destruct (decide _); [|done]. destruct o as [b|n|b|n]; try done.
      + destruct (alloc_unsafe _ _ _ _ _ _); try done; by injection Hs as <- <-.
      + destruct (decide _); [|done]. destruct (dealloc_unsafe _ _ _); try done; by injection Hs as <- <-.
    - destruct (decide _); [|done]. by injection Hs as <- <-.
  Qed.

  Lemma lruns_dom ns l ph a n :
    lruns spec ∅ (pstart ns) l ph a ->
    is_Some (a !! n) <-> n ∈ ns \/ (exists t, Res t (PGot n) ∈ erase l) \/
                       (exists t o, ph !! t = Some (Done o (PGot n))).
  Proof.
    induction 1 as [|l ph a t o H IH Hph|l ph a t o r a' H IH Hph Hs|l ph a t o r H IH Hph].
    - unfold pstart. simpl. split.
      + intros [b Hb]. apply lookup_gset_to_gmap_Some in Hb as [Hb _]. left. by apply elem_of_list_to_set in Hb.
      + intros [Hn|[[t Ht]|(t & o & Ht)]].
        * exists true. apply lookup_gset_to_gmap_Some. split; [|done]. by apply elem_of_list_to_set.
        * by apply elem_of_nil in Ht.
        * done.
    - rewrite IH, erase_app. simpl. f_equiv. f_equiv.
      + f_equiv. intros t'. rewrite elem_of_app, elem_of_list_singleton. naive_solver.
      + split; intros (t' & o' & Ht').
        * exists t', o'. rewrite lookup_insert_ne; [done|]. intros ->. congruence.
        * exists t', o'. rewrite lookup_insert_Some in Ht'. naive_solver.
    - rewrite erase_app. simpl. rewrite app_nil_r.
      assert (Hd : (exists t' o', <[t:=Done o r]> ph !! t' = Some (Done o' (PGot n))) <->
                   r = PGot n \/ exists t' o', ph !! t' = Some (Done o' (PGot n))).
      { split.
        - intros (t' & o' & Ht'). rewrite lookup_insert_Some in Ht'. naive_solver.
        - intros [->|(t' & o' & Ht')].
          + exists t, o. by rewrite lookup_insert.
          + exists t', o'. rewrite lookup_insert_ne; [done|]. intros ->. congruence. }
      rewrite Hd.
      assert (Ha : is_Some (a' !! n) <-> r = PGot n \/ is_Some (a !! n)).
      { destruct Hs as [a b m Hm|a b m Hb1 Hb2 Hm|a b Hb Hm|a b Hb1 Hb2|a m Hm|a b m Hm|a b m Hb1 Hb2 Hm Hq
                       |a b Hb Hm|a b Hb1 Hb2 Hm|a m Hm]; rewrite ?lookup_insert_is_Some';
          try naive_solver. }
      rewrite Ha, IH. tauto.
    - rewrite IH, erase_app. simpl. clear IH. split.
      + intros [?|[[t' Ht']|(t' & o' & Ht')]]; [by left|right; left..|].
        * exists t'. rewrite elem_of_app. by left.
        * destruct (decide (t' = t)) as [->|Hne].
          -- right. left. exists t. rewrite elem_of_app, elem_of_list_singleton. right. congruence.
          -- right. right. exists t', o'. by rewrite lookup_delete_ne.
      + intros [?|[[t' Ht']|(t' & o' & Ht')]]; [by left| |].
        * apply elem_of_app in Ht' as [Ht'|Ht']; [right; left; eauto|].
          apply elem_of_list_singleton in Ht'. injection Ht' as -> <-. right. right. eauto.
        * right. right. exists t', o'. apply lookup_delete_Some in Ht'. apply Ht'.
  Qed.

  (** One allocation from a nonempty pool, and one from an empty pool, alone. *)
  Lemma prun_app s l1 h1 s1 l2 h2 s2 :
    prun c d0 s l1 = Some (h1, s1) -> prun c d0 s1 l2 = Some (h2, s2) ->
    prun c d0 s (l1 ++ l2) = Some (h1 ++ h2, s2).
  Proof.
    revert s h1. induction l1 as [|ch l1 IH]; intros s h1; simpl.
    - by intros [= <- <-].
    - destruct (pstep c d0 s ch) as [s' evs| |]; [|done..]. destruct (prun c d0 s' l1) as [[h' s'']|] eqn:Hr; [|done].
      intros [= <- <-] H2. by rewrite (IH _ _ Hr H2), app_assoc.
  Qed.

  Lemma alloc_one h p out t n nd :
    p.1 = n -> n <> c_null c -> h !! n = Some nd ->
    prun c d0 (PSt h p out ∅) (PInvoke t (PAlloc true) :: replicate 4 (PRun t false None)) =
      Some ([Lin.Inv t (PAlloc true); Res t (PGot n)],
            PSt h ((nx nd).1, next_tag c p.2) ({[n]} ∪ out) ∅).
  Proof.
    intros Hp Hn Hnd. cbn [replicate prun pstep p_pcs p_heap p_pool p_out].
    rewrite lookup_empty. cbn [pstep p_pcs p_heap p_pool p_out]. rewrite lookup_insert. cbn [astep p_pcs p_heap p_pool p_out].
    rewrite lookup_insert. cbn [astep p_pcs p_heap p_pool p_out]. rewrite Hp, decide_False, Hnd by done.
    cbn [p_pcs p_heap p_pool p_out]. rewrite lookup_insert. cbn [astep p_pcs p_heap p_pool p_out].
    rewrite decide_True by done. cbn [p_pcs p_heap p_pool p_out]. rewrite lookup_insert, !insert_insert, delete_insert by done.
    cbn [give app]. by rewrite Hp.
  Qed.

  Lemma alloc_none h p out t :
    p.1 = c_null c ->
    prun c d0 (PSt h p out ∅) (PInvoke t (PAlloc true) :: replicate 3 (PRun t false None)) =
      Some ([Lin.Inv t (PAlloc true); Res t PNone], PSt h p out ∅).
  Proof.
    intros Hp. cbn [replicate prun pstep p_pcs p_heap p_pool p_out].
    rewrite lookup_empty. cbn [pstep p_pcs p_heap p_pool p_out]. rewrite lookup_insert. cbn [astep p_pcs p_heap p_pool p_out].
    rewrite lookup_insert. cbn [astep p_pcs p_heap p_pool p_out]. rewrite decide_True, andb_false_r by done.
    cbn [p_pcs p_heap p_pool p_out]. rewrite lookup_insert, !insert_insert, delete_insert by done. done.
  Qed.

  Lemma drain_ok t h L : forall p out,
    seg h p.1 L (c_null c) -> c_null c ∉ L ->
    exists s', prun c d0 (PSt h p out ∅) (drain t (length L)) = Some (drained t L, s').
  Proof.
    induction L as [|n L IH]; intros p out Hs Hn.
    - eexists. unfold drain, drained. simpl replicate. simpl concat. cbn [map concat app]. by apply alloc_none.
    - destruct Hs as [Hp (y & Hx & Hs)]. apply not_elem_of_cons in Hn as [Hn Hn'].
      apply nxp_inv in Hx as (nd & Hnd & Hy).
      destruct (IH (y, next_tag c p.2) ({[n]} ∪ out) Hs Hn') as [s' Hr]. exists s'.
      change (drain t (length (n :: L))) with
        ((PInvoke t (PAlloc true) :: replicate 4 (PRun t false None)) ++ drain (D:=D) t (length L)).
      change (drained t (n :: L)) with ([Lin.Inv t (PAlloc true); Res t (PGot n)] ++ drained t L).
      eapply prun_app; [|exact Hr]. rewrite <- Hy. by apply alloc_one.
  Qed.

  Lemma held_split h n : forall H, n ∈ H -> n ∉ foldl held_step H h ->
    exists t, Lin.Inv t (PFree n) ∈ h \/ Lin.Inv t (PUFree n) ∈ h.
  Proof.
    induction h as [|e h IH]; intros H Hn Hh; simpl in Hh; [done|].
    destruct (decide (n ∈ held_step H e)) as [Hi|Hi].
    - destruct (IH _ Hi Hh) as (t & [Ht|Ht]); exists t; [left|right]; by right.
    - destruct e as [t o|t r]; simpl in Hi; [|destruct r; set_solver].
      destruct o as [b|m|b|m]; simpl in Hi; try done;
        (assert (n = m) as -> by (destruct (decide (n = m)); [done|]; exfalso; apply Hi; set_solver));
        exists t; [left|right]; left.
  Qed.

  Context (Htag : c_tagmod c = None).

  Lemma preach_ok ns hist s :
    preach c d0 ns hist s -> exists g, PInv c ns s g /\ erase (g_l g) = hist.
  Proof using Htag. intros (H1 & H2 & H3). by eapply pexec_ok. Qed.

  Lemma linearizable_main ns hist s :
    preach c d0 ns hist s -> hw_linearizable (pstart ns) spec hist.
  Proof using Htag.
    intros H. destruct (preach_ok _ _ _ H) as (g & [HG _] & Hl).
    apply linearizable_hw. eexists _, _, _. split; [apply HG|done].
  Qed.

  Lemma safe_main ns hist s ch : preach c d0 ns hist s -> pstep c d0 s ch <> PUB.
  Proof using Htag.
    intros H Hub. destruct (preach_ok _ _ _ H) as (g & HI & _).
    pose proof (pstep_ok c d0 ns Htag _ _ ch HI) as Hok. by rewrite Hub in Hok.
  Qed.

  (** A step that returns a node returns one that is not held. *)
  Lemma got_fresh ns hist s ch s' evs e1 t n e2 :
    preach c d0 ns hist s -> pstep c d0 s ch = PNext s' evs -> evs = e1 ++ Res t (PGot n) :: e2 ->
    n ∉ held (hist ++ e1).
  Proof using Htag.
    intros H Hs Hev. destruct (preach_ok _ _ _ H) as (g & HI & _). pose proof (out_held _ _ _ H) as Ho.
    rewrite held_app, <- Ho. destruct ch as [t' o|t' sp addr|t' o addr|m nd]; cbn [pstep] in Hs.
    - destruct (p_pcs s !! t'); [done|]. destruct o as [b|m|b|m]; try done.
      + injection Hs as <- <-. destruct e1 as [|? []]; discriminate.
      + destruct (decide _); [|done]. injection Hs as <- <-. destruct e1 as [|? []]; discriminate.
    - destruct (p_pcs s !! t') as [[b a|m d|r]|] eqn:Hpc; [..|done].
      + destruct (astep _ _ _ _ _ _ _ _); try done; injection Hs as <- <-; destruct e1; discriminate.
      + destruct (dstep _ _ _ _ _); try done; injection Hs as <- <-; destruct e1; discriminate.
      + injection Hs as <- <-. destruct e1 as [|? []]; [|discriminate..]. injection Hev as -> -> _.
        simpl. by apply (ret_ok c ns s g t (PGot n) HI Hpc).
    - destruct (decide _) as [He|]; [|done]. destruct HI as [HG HT]. destruct o as [b|m|b|m]; try done.
      + pose proof (alloc_unsafe_ok c Htag d0 b _ _ _ _ addr (pg_pi _ _ _ _ _ _ HG)) as Hok.
        destruct (alloc_unsafe _ _ _ _ _ _) as [| h p m| | | |]; try done; injection Hs as <- <-;
          (destruct e1 as [|? [|? []]]; [discriminate| |discriminate..]); try discriminate.
        injection Hev as <- _ -> _. simpl. intros Hi. apply (pg_out _ _ _ _ _ _ HG) in Hi.
        destruct Hok as [(_ & _ & _ & _ & _ & fn & Hfn)|(Hf & _)].
        * assert (Hn : g_own g !! n = Some OF).
          { apply (pi_mem _ _ _ _ _ (pg_pi _ _ _ _ _ _ HG)). rewrite Hfn. left. }
          congruence.
        * eapply (pi_fresh c) in Hf; [|apply HG]. congruence.
      + destruct (decide _); [|done]. destruct (dealloc_unsafe _ _ _); try done; injection Hs as <- <-.
        destruct e1 as [|? [|? []]]; discriminate.
    - destruct (decide _); [|done]. injection Hs as <- <-. destruct e1; discriminate.
  Qed.

  Lemma no_double_main ns hist s h1 t n h2 :
    preach c d0 ns hist s -> hist = h1 ++ Res t (PGot n) :: h2 -> n ∉ held h1.
  Proof using Htag.
    intros (H1 & H2 & He). revert h1 h2. induction He as [|hist s ch s' evs He IH Hs]; intros h1 h2 Heq.
    - destruct h1; discriminate.
    - destruct (app_eq_inv _ _ _ _ Heq) as [(k & -> & Hk)|(k & -> & Hk)].
      + destruct k as [|x k].
        * simpl in Hk. rewrite app_nil_r in *. rewrite <- (app_nil_r h1).
          by eapply (got_fresh ns); [by do 2 (split; [done|])|exact Hs|].
        * injection Hk as <- Hk. by eapply IH.
      + by eapply (got_fresh ns); [by do 2 (split; [done|])|exact Hs|].
  Qed.

  Lemma between_main ns hist s h1 t1 n h2 t2 h3 :
    preach c d0 ns hist s -> hist = h1 ++ Res t1 (PGot n) :: h2 ++ Res t2 (PGot n) :: h3 ->
    exists t, Lin.Inv t (PFree n) ∈ h2 \/ Lin.Inv t (PUFree n) ∈ h2.
  Proof using Htag.
    intros H Heq. eapply (held_split h2 n (held (h1 ++ [Res t1 (PGot n)]))).
    - rewrite held_app. simpl. set_solver.
    - rewrite <- held_app. eapply (no_double_main ns hist s _ t2 n h3 H). rewrite Heq, <- !app_assoc. done.
  Qed.

  (** What is available, as a list in the order of the pool. *)
  Lemma available_seg ns hist s :
    preach c d0 ns hist s -> pquiet s ->
    exists L, NoDup L /\
      (forall n, n ∈ L <-> (n ∈ ns \/ exists t', Res t' (PGot n) ∈ hist) /\ n ∉ held hist) /\
      seg (p_heap s) (p_pool s).1 L (c_null c) /\ c_null c ∉ L.
  Proof using Htag.
    intros H Hq. destruct (preach_ok _ _ _ H) as (g & [HG HT] & Hl).
    pose proof (pg_pi _ _ _ _ _ _ HG) as HP. exists (g_fn g).
    assert (Hnn : c_null c ∉ g_fn g).
    { intros Hi. apply (pi_mem _ _ _ _ _ HP) in Hi. by apply (PI_not_null _ _ _ _ _ _ _ HP) in Hi. }
    destruct s as [h p out pcs]. unfold pquiet in Hq. simpl in *. subst pcs.
    split; [apply HP|]. split; [|split; [exact (pi_seg _ _ _ _ _ HP)|exact Hnn]].
    intros n. rewrite (pi_mem _ _ _ _ _ HP), <- (out_held _ _ _ H). simpl.
    pose proof (lruns_dom ns _ _ _ n (pg_run _ _ _ _ _ _ HG)) as Hd. rewrite Hl in Hd.
    assert (Hph : forall t', g_ph g !! t' = None /\ holds t' (g_own g) []).
    { intros t'. specialize (HT t'). by rewrite lookup_empty in HT. }
    unfold avail in Hd. rewrite lookup_fmap, fmap_is_Some in Hd. split.
    - intros Hn. split.
      + destruct (proj1 Hd) as [?|[?|(t' & o & Ht)]]; [by eexists|by left|by right|].
        destruct (Hph t') as [Hp _]. congruence.
      + intros Hi. apply (pg_out _ _ _ _ _ _ HG) in Hi. congruence.
    - intros [Hi Hno]. destruct (proj2 Hd) as [o Ho]; [tauto|].
      destruct o as [| |t'|]; [by apply (pg_out _ _ _ _ _ _ HG) in Ho|done| |].
      + destruct (Hph t') as [_ Hp]. apply Hp in Ho. by apply elem_of_nil in Ho.
      + by apply (pg_noleak _ _ _ _ _ _ HG) in Ho.
  Qed.

  Lemma available_main ns hist s t :
    preach c d0 ns hist s -> pquiet s ->
    exists L s', NoDup L /\
      (forall n, n ∈ L <-> (n ∈ ns \/ exists t', Res t' (PGot n) ∈ hist) /\ n ∉ held hist) /\
      prun c d0 s (drain t (length L)) = Some (drained t L, s').
  Proof using Htag.
    intros H Hq. destruct (available_seg ns hist s H Hq) as (L & HL & Hn & Hs & Hnn).
    destruct s as [h p out pcs]. unfold pquiet in Hq. simpl in *. subst pcs.
    destruct (drain_ok t h L p out Hs Hnn) as [s' Hr]. by exists L, s'.
  Qed.
End main.

(** ** Concrete schedules *)

Definition pdemoN : cfg := Cfg 0%N true None false 1.
Definition pdemoF : cfg := Cfg 9%N false None false 1.

Lemma prun_exec {D} c (d0 : D) chs : forall s0 h0 s h s',
  pexec c d0 s0 h0 s -> prun c d0 s chs = Some (h, s') -> pexec c d0 s0 (h0 ++ h) s'.
Proof.
  induction chs as [|ch chs IH]; intros s0 h0 s h s' He H; simpl in H.
  - injection H as <- <-. by rewrite app_nil_r.
  - destruct (pstep c d0 s ch) as [s1 evs| |] eqn:Hs; [|done..].
    destruct (prun c d0 s1 chs) as [[h1 s2]|] eqn:Hr; [|done]. injection H as <- <-.
    rewrite app_assoc. eapply IH; [by econstructor|done].
Qed.
Lemma prun_reach {D} c (d0 : D) ns chs h s :
  prun c d0 (pinit c d0 ns) chs = Some (h, s) -> NoDup ns -> c_null c ∉ ns -> preach c d0 ns h s.
Proof. intros Hr H1 H2. do 2 (split; [done|]). by apply (prun_exec _ _ _ _ _ _ _ _ (pexec_nil _ _ _) Hr). Qed.

Definition pcall {D} (t : nat) (o : pop) (k : nat) : list (pchoice D) :=
  PInvoke t o :: replicate k (PRun t false None).

(** Thread 1 has read the first node (2) and its successor (1); threads 2 and 3 take
    both nodes and thread 2 gives node 2 back; thread 1 goes on. *)
Definition aba : list (pchoice unit) :=
  pcall 1 (PAlloc true) 2 ++ pcall 2 (PAlloc true) 4 ++ pcall 3 (PAlloc true) 4 ++ pcall 2 (PFree 2) 4 ++
  replicate 4 (PRun 1 false None).
Definition aba_hist : list pevent :=
  [Lin.Inv 1 (PAlloc true); Lin.Inv 2 (PAlloc true); Res 2 (PGot 2); Lin.Inv 3 (PAlloc true); Res 3 (PGot 1);
   Lin.Inv 2 (PFree 2); Res 2 PUnit; Res 1 (PGot 2)].
Definition pshow {D} (r : option (list pevent * pstate D)) : option (list pevent * list N * bool) :=
  match r with
  | Some (h, s) => Some (h, elements (p_out s), bool_decide (p_pcs s = ∅))
  | None => None
  end.

Lemma pshow_reach {D} c (d0 : D) ns chs h o b :
  pshow (prun c d0 (pinit c d0 ns) chs) = Some (h, o, b) -> NoDup ns -> c_null c ∉ ns ->
  exists s, prun c d0 (pinit c d0 ns) chs = Some (h, s) /\ preach c d0 ns h s /\
    bool_decide (p_pcs s = ∅) = b /\ elements (p_out s) = o.
Proof.
  intros Hs H1 H2. destruct (prun _ _ _ _) as [[h' s]|] eqn:Hr; [|done]. injection Hs as -> <- <-.
  exists s. split; [done|]. split; [by eapply prun_reach|]. done.
Qed.

Lemma aba_reach : exists s, preach pdemoF tt [1; 2]%N aba_hist s /\ pquiet s.
Proof.
  destruct (pshow_reach pdemoF tt [1; 2]%N aba aba_hist [1; 2]%N true) as (s & _ & Hs & Hb & _).
  - vm_compute. done.
  - apply (bool_decide_unpack (NoDup [1; 2]%N)). by vm_compute.
  - apply (bool_decide_unpack (9 ∉ [1; 2])%N). by vm_compute.
  - exists s. split; [done|]. by apply bool_decide_eq_true in Hb.
Qed.

Definition pshow2 {D} c (d0 : D) ns chs chs' : option (list pevent * bool * list pevent) :=
  match prun c d0 (pinit c d0 ns) chs with
  | Some (h, s) =>
      match prun c d0 s chs' with
      | Some (h', _) => Some (h, bool_decide (p_pcs s = ∅), h')
      | None => None
      end
  | None => None
  end.
Lemma pshow2_reach {D} c (d0 : D) ns chs chs' h b h' :
  pshow2 c d0 ns chs chs' = Some (h, b, h') -> NoDup ns -> c_null c ∉ ns ->
  exists s s', preach c d0 ns h s /\ bool_decide (p_pcs s = ∅) = b /\ prun c d0 s chs' = Some (h', s').
Proof.
  unfold pshow2. intros Hs H1 H2. destruct (prun c d0 (pinit c d0 ns) chs) as [[h1 s]|] eqn:Hr; [|done].
  destruct (prun c d0 s chs') as [[h2 s']|] eqn:Hr'; [|done]. injection Hs as <- <- <-.
  exists s, s'. split; [by eapply prun_reach|]. done.
Qed.

Lemma aba_available :
  exists s s', preach pdemoF tt [1; 2]%N (aba_hist ++ [Lin.Inv 3 (PFree 1); Res 3 PUnit]) s /\ pquiet s /\
    held (aba_hist ++ [Lin.Inv 3 (PFree 1); Res 3 PUnit]) = {[2%N]} /\
    prun pdemoF tt s (drain 7 1) =
      Some ([Lin.Inv 7 (PAlloc true); Res 7 (PGot 1); Lin.Inv 7 (PAlloc true); Res 7 PNone], s').
Proof.
  destruct (pshow2_reach pdemoF tt [1; 2]%N (aba ++ pcall 3 (PFree 1) 4) (drain 7 1)
    (aba_hist ++ [Lin.Inv 3 (PFree 1); Res 3 PUnit]) true
    [Lin.Inv 7 (PAlloc true); Res 7 (PGot 1); Lin.Inv 7 (PAlloc true); Res 7 PNone]) as (s & s' & Hs & Hb & Hd).
  - vm_compute. reflexivity.
  - apply (bool_decide_unpack (NoDup [1; 2]%N)). by vm_compute.
  - apply (bool_decide_unpack (9 ∉ [1; 2])%N). by vm_compute.
  - exists s, s'. split; [exact Hs|]. split; [by apply bool_decide_eq_true in Hb|]. split; [|exact Hd].
    apply (bool_decide_unpack (held (aba_hist ++ [Lin.Inv 3 (PFree 1); Res 3 PUnit]) = {[2%N]})).
    vm_compute. exact I.
Qed.
