(** * Tags that wrap around: the pool

    Forgetting the multiples of [M] in all tags maps a state of the machine whose
    tags do not wrap to one of the machine whose tags count modulo [M].  As long
    as no compare-exchange confuses two tags, the steps of the two correspond. *)
From stdpp Require Import gmap list numbers.
From Verif Require Import PoolModel.

Set Default Proof Using "Type".

(** The same container without wrap-around. *)
Definition nowrap (c : cfg) : cfg := Cfg (c_null c) (c_node_based c) None (c_throws c) (c_words c).

Definition mt (M : N) (x : tagged) : tagged := (x.1, (x.2 mod M)%N).
Definition mnode {D} (M : N) (nd : node D) : node D := Node (mt M (nx nd)) (dat nd).
Definition mheap {D} (M : N) (h : gmap N (node D)) : gmap N (node D) := mnode M <$> h.
Definition mapc (M : N) (a : apc) : apc :=
  match a with
  | ALoad => ALoad
  | ATest old => ATest (mt M old)
  | ACas old nxt => ACas (mt M old) nxt
  end.
Definition mdpc (M : N) (d : dpc) : dpc :=
  match d with
  | DLoad => DLoad
  | DSet old => DSet (mt M old)
  | DCas old => DCas (mt M old)
  end.
Definition maout {D} (M : N) (o : @aout D) : @aout D :=
  match o with
  | ACont h p a => ACont (mheap M h) (mt M p) (mapc M a)
  | AGot h p n => AGot (mheap M h) (mt M p) n
  | AFail => AFail
  | AThrow => AThrow
  | AUB => AUB
  | ADisabled => ADisabled
  end.
Definition mdout {D} (M : N) (o : @dout D) : @dout D :=
  match o with
  | DCont h p d => DCont (mheap M h) (mt M p) (mdpc M d)
  | DDone h p => DDone (mheap M h) (mt M p)
  | DUB => DUB
  end.

(** The word [cur] cannot be taken for [old]. *)
Definition clear (M : N) (cur old : tagged) : Prop := mt M cur = mt M old -> cur = old.

Lemma clear_near M cur old :
  (old.2 <= cur.2)%N -> (cur.2 < old.2 + M)%N -> clear M cur old.
Proof.
  destruct cur as [p x], old as [q y]. unfold clear, mt. simpl. intros Hle Hlt [= -> Hm]. f_equal.
  assert (HM : M <> 0%N) by lia.
  pose proof (N.div_mod x M HM) as Hx. pose proof (N.div_mod y M HM) as Hy. rewrite Hm in Hx.
  assert ((x / M = y / M)%N) as Hq.
  { apply N.le_antisymm; [|by apply N.div_le_mono].
    destruct (N.le_gt_cases (x / M) (y / M)) as [|Hgt]; [done|].
    assert ((M * (y / M) + M <= M * (x / M))%N); [|lia].
    replace (M * (y / M) + M)%N with (M * (y / M + 1))%N by lia. apply N.mul_le_mono_l. lia. }
  rewrite Hq in Hx. lia.
Qed.

Lemma mt_1 M x : (mt M x).1 = x.1.
Proof. done. Qed.
Lemma nx_mnode {D} M (nd : node D) : nx (mnode M nd) = mt M (nx nd).
Proof. done. Qed.

Section pool.
  Context {D : Type} (c : cfg) (d0 : D) (M : N).
  Context (Hc : c_tagmod c = Some M) (HM : M <> 0%N).

  Lemma next_mod t : next_tag c (t mod M) = (next_tag (nowrap c) t mod M)%N.
  Proof using Hc HM. unfold next_tag. rewrite Hc. simpl. by rewrite N.add_mod_idemp_l. Qed.

  Lemma mt_zero p : mt M (p, 0%N) = (p, 0%N).
  Proof using HM. unfold mt. simpl. by rewrite N.mod_0_l. Qed.

  Lemma mheap_lookup (h : gmap N (node D)) n : mheap M h !! n = mnode M <$> h !! n.
  Proof. apply lookup_fmap. Qed.
  Lemma mheap_insert (h : gmap N (node D)) n nd : mheap M (<[n := nd]> h) = <[n := mnode M nd]> (mheap M h).
  Proof. apply fmap_insert. Qed.
  Lemma mheap_size (h : gmap N (node D)) : size (mheap M h) = size h.
  Proof. unfold mheap. by rewrite map_size_fmap. Qed.

  Lemma mheap_fresh (h : gmap N (node D)) n (P : Prop) :
    (mheap M h !! n = None /\ P) <-> (h !! n = None /\ P).
  Proof. rewrite mheap_lookup. by rewrite fmap_None. Qed.

  Lemma decide_iff {A} (P Q : Prop) `{!Decision P, !Decision Q} (x y : A) :
    (P <-> Q) -> (if decide P then x else y) = (if decide Q then x else y).
  Proof. intros H. destruct (decide P), (decide Q); tauto || done. Qed.

  Lemma cas_iff_sp (sp : bool) (cur old : tagged) :
    (sp = false -> clear M cur old) -> (sp = false /\ mt M cur = mt M old) <-> (sp = false /\ cur = old).
  Proof. intros H. split; intros [? E]; split; [done|by apply H|done|by rewrite E]. Qed.
  Lemma cas_iff (sp : bool) (cur old : tagged) :
    clear M cur old -> (sp = false /\ mt M cur = mt M old) <-> (sp = false /\ cur = old).
  Proof. intros H. by apply cas_iff_sp. Qed.

  Definition aclear (p : tagged) (a : apc) : Prop :=
    match a with ACas old _ => clear M p old | _ => True end.
  Definition dclear (p : tagged) (d : dpc) : Prop :=
    match d with DCas old => clear M p old | _ => True end.

  Lemma fresh_node n (h : gmap N (node D)) :
    <[n := Node (c_null c, 0%N) d0]> (mheap M h) = mheap M (<[n := Node (c_null c, 0%N) d0]> h).
  Proof using HM. rewrite mheap_insert. unfold mnode. simpl. by rewrite mt_zero. Qed.

  (** A compare-exchange that fails spuriously confuses nothing. *)
  Lemma astep_mod_sp b h p a sp addr :
    (sp = false -> aclear p a) ->
    astep c d0 b (mheap M h) (mt M p) (mapc M a) sp addr = maout M (astep (nowrap c) d0 b h p a sp addr).
  Proof using Hc HM.
    intros Hcl. destruct a as [|old|old nxt]; simpl.
    - done.
    - destruct (decide (old.1 = c_null c)).
      + destruct (c_node_based c && negb b); [|done]. destruct addr as [n|]; [|done].
        rewrite (decide_iff _ (h !! n = None /\ n <> c_null c)) by apply mheap_fresh.
        destruct (decide _); [|done]. simpl. by rewrite fresh_node.
      + rewrite mheap_lookup. by destruct (h !! old.1).
    - rewrite (decide_iff _ (sp = false /\ p = old)) by by apply cas_iff_sp.
      destruct (decide _); [|done]. unfold mt. simpl. by rewrite next_mod.
  Qed.
  Lemma astep_mod b h p a sp addr :
    aclear p a ->
    astep c d0 b (mheap M h) (mt M p) (mapc M a) sp addr = maout M (astep (nowrap c) d0 b h p a sp addr).
  Proof using Hc HM. intros H. by apply astep_mod_sp. Qed.

  Lemma dstep_mod_sp n h p d sp :
    (sp = false -> dclear p d) ->
    dstep (D:=D) n (mheap M h) (mt M p) (mdpc M d) sp = mdout M (dstep n h p d sp).
  Proof.
    intros Hcl. destruct d as [|old|old]; simpl.
    - done.
    - rewrite mheap_lookup. destruct (h !! n) as [nd|]; [|done]. simpl. by rewrite mheap_insert.
    - rewrite (decide_iff _ (sp = false /\ p = old)) by by apply cas_iff_sp. by destruct (decide _).
  Qed.
  Lemma dstep_mod n h p d sp :
    dclear p d ->
    dstep (D:=D) n (mheap M h) (mt M p) (mdpc M d) sp = mdout M (dstep n h p d sp).
  Proof. intros H. by apply dstep_mod_sp. Qed.

  Lemma alloc_unsafe_mod b h p addr :
    alloc_unsafe c d0 b (mheap M h) (mt M p) addr = maout M (alloc_unsafe (nowrap c) d0 b h p addr).
  Proof using Hc HM.
    unfold alloc_unsafe. simpl. destruct (decide (p.1 = c_null c)).
    - destruct (c_node_based c && negb b); [|done]. destruct addr as [n|]; [|done].
      rewrite (decide_iff _ (h !! n = None /\ n <> c_null c)) by apply mheap_fresh.
      destruct (decide _); [|done]. simpl. by rewrite fresh_node.
    - rewrite mheap_lookup. destruct (h !! p.1) as [nd|]; [|done]. unfold mt.
      simpl. by rewrite next_mod.
  Qed.

  Lemma dealloc_unsafe_mod n h p :
    dealloc_unsafe (D:=D) n (mheap M h) (mt M p) = mdout M (dealloc_unsafe n h p).
  Proof.
    unfold dealloc_unsafe. rewrite mheap_lookup. destruct (h !! n) as [nd|]; [|done]. simpl.
    by rewrite mheap_insert.
  Qed.

  Lemma pool_add_mod ns : forall h p,
    pool_add d0 ns (mheap M h) (mt M p) = (mheap M (pool_add d0 ns h p).1, mt M (pool_add d0 ns h p).2).
  Proof using HM.
    induction ns as [|n ns IH]; intros h p; simpl; [done|].
    replace (<[n := Node (p.1, 0%N) d0]> (mheap M h)) with (mheap M (<[n := Node (p.1, 0%N) d0]> h)).
    - apply (IH _ (n, p.2)).
    - rewrite mheap_insert. unfold mnode. simpl. by rewrite mt_zero.
  Qed.
  Lemma pool_init_mod ns :
    pool_init c d0 ns = (mheap M (pool_init (nowrap c) d0 ns).1, mt M (pool_init (nowrap c) d0 ns).2).
  Proof using HM.
    unfold pool_init. simpl. rewrite <- pool_add_mod. unfold mheap. by rewrite fmap_empty, mt_zero.
  Qed.
End pool.
