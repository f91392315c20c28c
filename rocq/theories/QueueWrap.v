(** * The queue with tags that wrap around behaves, within one tag period, like
      the one with unbounded tags *)
From stdpp Require Import gmap list numbers.
From Verif Require Import Lin PoolModel Chain PoolProofs QueueModel QueueSpec QueueObs QueueInv QueueStep
  QueueSafe QueueQuiet QueueMain QueueWrapObs WrapPool.

Set Default Proof Using "Type".

Definition mpc (M : N) (pc : qpc) : qpc :=
  match pc with
  | PcAlloc b v a => PcAlloc b v (mapc M a)
  | PcWord v n k => PcWord v n k
  | PcNStore n tag => PcNStore n (tag mod M)
  | PcPTail n => PcPTail n
  | PcPNext n tl => PcPNext n (mt M tl)
  | PcPCheck n tl nx => PcPCheck n (mt M tl) (mt M nx)
  | PcPLink n tl nx => PcPLink n (mt M tl) (mt M nx)
  | PcPDone n tl => PcPDone n (mt M tl)
  | PcPSwing n tl np => PcPSwing n (mt M tl) np
  | PcOHead => PcOHead
  | PcOTail hd => PcOTail (mt M hd)
  | PcONext hd tl => PcONext (mt M hd) (mt M tl)
  | PcOCheck hd tl nx => PcOCheck (mt M hd) (mt M tl) (mt M nx)
  | PcOSwing tl np => PcOSwing (mt M tl) np
  | PcOCopy hd np acc => PcOCopy (mt M hd) np acc
  | PcDealloc n d k => PcDealloc n (mdpc M d) k
  | PcReserve k => PcReserve k
  | PcEHead => PcEHead
  | PcEHeadTail h => PcEHeadTail h
  | PcETail => PcETail
  | PcETailHead tl => PcETailHead tl
  | PcRet r => PcRet r
  end.
Definition mshared (M : N) (x : qshared) : qshared :=
  QSh (mheap M (q_heap x)) (mt M (q_pool x)) (mt M (q_head x)) (mt M (q_tail x)).
Definition mstate (M : N) (s : qstate) : qstate := QSt (mshared M (q_sh s)) (mpc M <$> q_pcs s).
Definition mtout (M : N) (o : tout) : tout :=
  match o with TGo x pc => TGo (mshared M x) (mpc M pc) | TUB => TUB | TDisabled => TDisabled end.
Definition muout (M : N) (o : uout) : uout :=
  match o with UDone x r => UDone (mshared M x) r | UUB => UUB | UDisabled => UDisabled end.
Definition mqout (M : N) (o : qoutcome) : qoutcome :=
  match o with QNext s evs => QNext (mstate M s) evs | QUB => QUB | QDisabled => QDisabled end.

(** The words that a thread may still compare with memory. *)
Definition held (pc : qpc) : list (qloc * tagged) :=
  match pc with
  | PcAlloc _ _ (ATest old | ACas old _) => [(LPool, old)]
  | PcPNext _ tl | PcPDone _ tl | PcPSwing _ tl _ | PcOSwing tl _ => [(LTail, tl)]
  | PcPCheck _ tl nx | PcPLink _ tl nx => [(LTail, tl); (LNext tl.1, nx)]
  | PcOTail hd | PcOCopy hd _ _ => [(LHead, hd)]
  | PcONext hd tl | PcOCheck hd tl _ => [(LHead, hd); (LTail, tl)]
  | PcDealloc _ (DSet old | DCas old) _ => [(LPool, old)]
  | _ => []
  end.

(** The tag of a location, as in [qtag]. *)
Definition xtag (x : qshared) (l : qloc) : N :=
  match l with
  | LHead => (q_head x).2
  | LTail => (q_tail x).2
  | LPool => (q_pool x).2
  | LNext n => match q_heap x !! n with Some nd => (nx nd).2 | None => 0%N end
  end.
Lemma qtag_x s l : qtag s l = xtag (q_sh s) l.
Proof. done. Qed.

(** The word there. *)
Definition xword (x : qshared) (l : qloc) : option tagged :=
  match l with
  | LHead => Some (q_head x)
  | LTail => Some (q_tail x)
  | LPool => Some (q_pool x)
  | LNext n => nx <$> q_heap x !! n
  end.

(** The word that the next step compares with memory, and where. *)
Definition compared (c : cfg) (pc : qpc) : option (qloc * tagged) :=
  match pc with
  | PcAlloc _ _ (ACas old _) => Some (LPool, old)
  | PcPCheck _ tl _ | PcPDone _ tl | PcPSwing _ tl _ | PcOSwing tl _ => Some (LTail, tl)
  | PcPLink _ tl nx => Some (LNext tl.1, nx)
  | PcOCheck hd _ _ => Some (LHead, hd)
  | PcOCopy hd _ acc => if decide (length acc < c_words c) then None else Some (LHead, hd)
  | PcDealloc _ (DCas old) _ => Some (LPool, old)
  | _ => None
  end.
Lemma compared_held c pc l y : compared c pc = Some (l, y) -> (l, y) ∈ held pc.
Proof.
  destruct pc as [b v a|v n k|n tag|n|n tl|n tl nx'|n tl nx'|n tl|n tl np| |hd|hd tl|hd tl nx'|tl np
                 |hd np acc|n d k|k| |hh| |tl|r]; simpl; try done; try (intros [= <- <-]; by left).
  - destruct a; try done. intros [= <- <-]. by left.
  - intros [= <- <-]. right. by left.
  - destruct (decide _); [done|]. intros [= <- <-]. by left.
  - destruct d; try done. intros [= <- <-]. by left.
Qed.

Section wrap.
  Context (c : cfg) (M : N) (Hc : c_tagmod c = Some M) (HM : M <> 0%N).
  Notation c0 := (nowrap c).

  Definition hclear (x : qshared) (pc : qpc) : Prop :=
    forall l y, (l, y) ∈ held pc -> (y.2 <= xtag x l)%N /\ (xtag x l < y.2 + M)%N.

  Lemma mshared_heap x : q_heap (mshared M x) = mheap M (q_heap x).
  Proof. done. Qed.

  Lemma eq_iff (cur old : tagged) : clear M cur old -> (mt M cur = mt M old) <-> (cur = old).
  Proof. intros H. split; [apply H|by intros ->]. Qed.
  Lemma eq_iff' (cur old : tagged) : clear M cur old -> (mt M old = mt M cur) <-> (old = cur).
  Proof. intros H. split; [intros E; symmetry; by apply H|by intros ->]. Qed.

  Lemma mt_next p t : (p, next_tag c (t mod M)) = mt M (p, next_tag c0 t).
  Proof using Hc HM. unfold mt. simpl. by rewrite (next_mod c M Hc HM). Qed.

  Lemma set_tail_mod x (y : tagged) : set_tail (mshared M x) (mt M y) = mshared M (set_tail x y).
  Proof. done. Qed.

  Lemma tail_cas x tl np :
    clear M (q_tail x) tl ->
    (if decide (q_tail (mshared M x) = mt M tl) then set_tail (mshared M x) (np, next_tag c (mt M tl).2) else mshared M x)
    = mshared M (if decide (q_tail x = tl) then set_tail x (np, next_tag c0 tl.2) else x).
  Proof using Hc HM.
    intros H. change (q_tail (mshared M x)) with (mt M (q_tail x)).
    rewrite (decide_iff _ (q_tail x = tl)) by by apply eq_iff.
    destruct (decide _); [|done]. change (mt M tl).2 with (tl.2 mod M)%N. by rewrite mt_next.
  Qed.

  Lemma tstep_mod_c x pc sp addr thr :
    (forall l y z, compared c pc = Some (l, y) -> xword x l = Some z -> clear M z y) ->
    tstep c (mshared M x) (mpc M pc) sp addr thr = mtout M (tstep c0 x pc sp addr thr).
  Proof using Hc HM.
    intros Hcl.
    destruct pc as [b v a|v n k|n tag|n|n tl|n tl nx'|n tl nx'|n tl|n tl np| |hd|hd tl|hd tl nx'|tl np
                   |hd np acc|n d k|[|k]| |hh| |tl|r]; cbn [tstep mpc].
    - change (qd0 c0) with (qd0 c).
      change (q_heap (mshared M x)) with (mheap M (q_heap x)).
      change (q_pool (mshared M x)) with (mt M (q_pool x)).
      rewrite (astep_mod c (qd0 c) M Hc HM).
      + by destruct (astep _ _ _ _ _ _ _ _).
      + destruct a as [|old|old nxt]; [done|done|]. simpl. by apply (Hcl LPool).
    - rewrite mshared_heap, mheap_lookup. destruct (q_heap x !! n) as [nd|]; [|done]. simpl.
      destruct thr; [by destruct (c_throws c)|]. destruct (v !! k); [|done].
      simpl. unfold set_heap. simpl. unfold mshared. simpl. by rewrite mheap_insert.
    - rewrite mshared_heap, mheap_lookup. destruct (q_heap x !! n) as [nd|]; [|done]. simpl.
      unfold set_heap, mshared. simpl. rewrite mheap_insert. unfold mnode. simpl. by rewrite mt_next.
    - done.
    - rewrite mshared_heap, mheap_lookup. cbn [mt fst]. by destruct (q_heap x !! tl.1) as [nd|].
    - change (q_tail (mshared M x)) with (mt M (q_tail x)).
      rewrite (decide_iff _ (tl = q_tail x)).
      + destruct (decide _); [|done]. cbn [mt fst]. by destruct (decide _).
      + apply eq_iff'. by apply (Hcl LTail).
    - rewrite mshared_heap, mheap_lookup. cbn [mt fst].
      destruct (q_heap x !! tl.1) as [nd|] eqn:Hnd; [|done]. cbn [fmap option_fmap option_map].
      rewrite nx_mnode. change (nx'.1, (nx'.2 mod M)%N) with (mt M nx').
      rewrite (decide_iff _ (sp = false /\ nx nd = nx')).
      + destruct (decide _); [|done]. simpl. unfold set_heap, mshared. simpl.
        rewrite mheap_insert. unfold mnode. simpl. by rewrite mt_next.
      + apply cas_iff. apply (Hcl (LNext tl.1)); [done|]. simpl. by rewrite Hnd.
    - rewrite tail_cas; [done|]. by apply (Hcl LTail).
    - rewrite tail_cas; [done|]. by apply (Hcl LTail).
    - done.
    - done.
    - rewrite mshared_heap, mheap_lookup. cbn [mt fst]. by destruct (q_heap x !! hd.1) as [nd|].
    - change (q_head (mshared M x)) with (mt M (q_head x)).
      rewrite (decide_iff _ (hd = q_head x)).
      + destruct (decide _); [|done]. cbn [mt fst].
        destruct (decide _); [by destruct (decide _)|by destruct (decide _)].
      + apply eq_iff'. by apply (Hcl LHead).
    - rewrite tail_cas; [done|]. by apply (Hcl LTail).
    - change (c_throws c0) with (c_throws c). destruct thr; [by destruct (c_throws c)|].
      change (c_words c0) with (c_words c). destruct (decide (length acc < c_words c)) as [Hacc|Hacc].
      + rewrite mshared_heap, mheap_lookup. destruct (q_heap x !! np) as [nd|]; [|done].
        simpl. by destruct (dat nd !! length acc).
      + change (q_head (mshared M x)) with (mt M (q_head x)).
        rewrite (decide_iff _ (sp = false /\ q_head x = hd)).
        * destruct (decide _); [|done]. change (mt M hd).2 with (hd.2 mod M)%N. by rewrite mt_next.
        * apply cas_iff. apply (Hcl LHead); [|done]. simpl. by rewrite decide_False.
    - rewrite mshared_heap. change (q_pool (mshared M x)) with (mt M (q_pool x)).
      rewrite dstep_mod.
      + destruct (dstep _ _ _ _ _); [done| |done]. by destruct k.
      + destruct d as [|old|old]; [done|done|]. simpl. by apply (Hcl LPool).
    - done.
    - destruct addr as [n|]; [|done]. rewrite mshared_heap.
      rewrite (decide_iff _ (q_heap x !! n = None /\ n <> c_null c)) by apply mheap_fresh.
      change (c_null c0) with (c_null c). destruct (decide _); [|done].
      rewrite fresh_node by done. done.
    - done.
    - done.
    - done.
    - done.
    - done.
  Qed.

  Lemma tstep_mod x pc sp addr thr :
    hclear x pc -> tstep c (mshared M x) (mpc M pc) sp addr thr = mtout M (tstep c0 x pc sp addr thr).
  Proof using Hc HM.
    intros Hh. apply tstep_mod_c. intros l y z Hl Hz. apply compared_held in Hl. destruct (Hh l y Hl) as [H1 H2].
    assert (E : xtag x l = z.2).
    { destruct l; simpl in *; try (by injection Hz as <-). destruct (q_heap x !! n); [|done]. by injection Hz as <-. }
    rewrite E in *. by apply clear_near.
  Qed.

  Lemma upush_loop_mod fuel : forall x n,
    upush_loop c fuel (mshared M x) n = muout M (upush_loop c0 fuel x n).
  Proof using Hc HM.
    induction fuel as [|fuel IH]; intros x n; [done|]. cbn [upush_loop].
    rewrite mshared_heap. change (q_tail (mshared M x)) with (mt M (q_tail x)).
    rewrite mheap_lookup. cbn [mt fst snd].
    destruct (q_heap x !! (q_tail x).1) as [nd|]; [|done]. cbn [fmap option_fmap option_map].
    rewrite nx_mnode. cbn [mt fst snd]. change (c_null c0) with (c_null c).
    destruct (decide _).
    - simpl. unfold mshared. simpl. rewrite mheap_insert. unfold mnode. simpl. by rewrite !mt_next.
    - rewrite mt_next, set_tail_mod. apply IH.
  Qed.

  Lemma upush_mod x v addr thr : upush c (mshared M x) v addr thr = muout M (upush c0 x v addr thr).
  Proof using Hc HM.
    unfold upush. rewrite mshared_heap. change (q_pool (mshared M x)) with (mt M (q_pool x)).
    change (qd0 c0) with (qd0 c). rewrite (alloc_unsafe_mod c _ M Hc HM).
    destruct (alloc_unsafe _ _ _ _ _ _) as [| h p n | | | |]; try done. cbn [maout].
    rewrite mheap_lookup. destruct (h !! n) as [nd|]; [|done]. cbn [fmap option_fmap option_map].
    change (c_throws c0) with (c_throws c). destruct thr; [by destruct (c_throws c)|].
    rewrite nx_mnode. cbn [mt fst snd]. change (c_null c0) with (c_null c).
    assert (E : <[n := Node (c_null c, next_tag c ((nx nd).2 mod M)%N) v]> (mheap M h)
                = mheap M (<[n := Node (c_null c, next_tag c0 (nx nd).2) v]> h)).
    { rewrite mheap_insert. unfold mnode. simpl. by rewrite mt_next. }
    rewrite E, mheap_size. apply (upush_loop_mod _ (set_heap_pool x _ p)).
  Qed.

  Lemma upop_loop_mod fuel thr : forall x,
    upop_loop c fuel (mshared M x) thr = muout M (upop_loop c0 fuel x thr).
  Proof using Hc HM.
    induction fuel as [|fuel IH]; intros x; [done|]. cbn [upop_loop].
    rewrite mshared_heap. change (q_tail (mshared M x)) with (mt M (q_tail x)).
    change (q_head (mshared M x)) with (mt M (q_head x)).
    rewrite mheap_lookup. cbn [mt fst snd].
    destruct (q_heap x !! (q_head x).1) as [nd|]; [|done]. cbn [fmap option_fmap option_map].
    rewrite nx_mnode. cbn [mt fst snd]. change (c_null c0) with (c_null c).
    destruct (decide (_ = _)); destruct (decide (_ = c_null c)).
    - done.
    - rewrite mt_next, set_tail_mod. apply IH.
    - apply IH.
    - rewrite mheap_lookup. destruct (q_heap x !! (nx nd).1) as [nd2|]; [|done].
      cbn [fmap option_fmap option_map]. change (c_throws c0) with (c_throws c).
      destruct thr; [by destruct (c_throws c)|]. change (q_pool (mshared M x)) with (mt M (q_pool x)).
      rewrite dealloc_unsafe_mod. destruct (dealloc_unsafe _ _ _); [done| |done]. simpl. by rewrite mt_next.
  Qed.

  Lemma ureserve_mod n : forall x addrs,
    ureserve c n (mshared M x) addrs = muout M (ureserve c0 n x addrs).
  Proof using Hc HM.
    induction n as [|n IH]; intros x addrs; [done|]. cbn [ureserve].
    destruct addrs as [|[a|] addrs]; [done| |done]. rewrite mshared_heap.
    rewrite (decide_iff _ (q_heap x !! a = None /\ a <> c_null c)) by apply mheap_fresh.
    change (c_null c0) with (c_null c). destruct (decide _); [|done].
    change (qd0 c0) with (qd0 c). rewrite fresh_node by done.
    change (q_pool (mshared M x)) with (mt M (q_pool x)).
    rewrite dealloc_unsafe_mod. destruct (dealloc_unsafe _ _ _); [done| |done].
    apply (IH (set_heap_pool x _ _)).
  Qed.

  Lemma ucall_mod x o addrs thr : ucall c (mshared M x) o addrs thr = muout M (ucall c0 x o addrs thr).
  Proof using Hc HM.
    destruct o as [| | | |v| |n]; try done; cbn [ucall].
    - change (c_node_based c0) with (c_node_based c). change (c_words c0) with (c_words c).
      destruct (decide _); [|done]. apply upush_mod.
    - unfold upop. rewrite mshared_heap, mheap_size. apply upop_loop_mod.
    - change (c_node_based c0) with (c_node_based c). destruct (c_node_based c); [|done]. apply ureserve_mod.
  Qed.

  Definition sclear (s : qstate) : Prop := forall t pc, q_pcs s !! t = Some pc -> hclear (q_sh s) pc.

  Lemma qstep_mod s ch : sclear s -> qstep c (mstate M s) ch = mqout M (qstep c0 s ch).
  Proof using Hc HM.
    intros Hs. destruct ch as [t o tf|t sp addr thr|t o addrs thr]; cbn [qstep].
    - cbn [mstate q_pcs]. rewrite lookup_fmap. destruct (q_pcs s !! t) as [pc|] eqn:Hpc; [done|]. simpl.
      change (qstart c0 o tf) with (qstart c o tf).
      destruct (qstart c o tf) as [pc|] eqn:Hst; [|done]. simpl. f_equal. unfold set_pc, mstate. simpl.
      rewrite fmap_insert. f_equal. f_equal.
      destruct o; simpl in Hst; repeat case_decide; repeat case_match; by simplify_eq/=.
    - cbn [mstate q_pcs q_sh]. rewrite lookup_fmap. destruct (q_pcs s !! t) as [pc|] eqn:Hpc; [|done].
      cbn [fmap option_fmap option_map]. specialize (Hs t pc Hpc).
      assert (Hd : (exists r, pc = PcRet r) \/
        (match mpc M pc with PcRet r => QNext (QSt (mshared M (q_sh s)) (delete t (mpc M <$> q_pcs s))) [Res t r]
         | _ => match tstep c (mshared M (q_sh s)) (mpc M pc) sp addr thr with
                | TGo x pc' => QNext (QSt x (<[t := pc']> (mpc M <$> q_pcs s))) []
                | TUB => QUB | TDisabled => QDisabled end end
         = match tstep c (mshared M (q_sh s)) (mpc M pc) sp addr thr with
                | TGo x pc' => QNext (QSt x (<[t := pc']> (mpc M <$> q_pcs s))) []
                | TUB => QUB | TDisabled => QDisabled end /\
         match pc with PcRet r => QNext (QSt (q_sh s) (delete t (q_pcs s))) [Res t r]
         | _ => match tstep c0 (q_sh s) pc sp addr thr with
                | TGo x pc' => QNext (QSt x (<[t := pc']> (q_pcs s))) []
                | TUB => QUB | TDisabled => QDisabled end end
         = match tstep c0 (q_sh s) pc sp addr thr with
                | TGo x pc' => QNext (QSt x (<[t := pc']> (q_pcs s))) []
                | TUB => QUB | TDisabled => QDisabled end)).
      { destruct pc; try (right; split; reflexivity). left. eauto. }
      destruct Hd as [[r ->]|[-> ->]].
      + simpl. unfold mstate. simpl. by rewrite fmap_delete.
      + rewrite tstep_mod by done. destruct (tstep c0 _ _ _ _ _) as [x pc'| |]; [|done..].
        simpl. unfold mstate. simpl. by rewrite fmap_insert.
    - cbn [mstate q_pcs q_sh].
      rewrite (decide_iff _ (q_pcs s = ∅)) by apply fmap_empty_iff.
      destruct (decide _); [|done]. rewrite ucall_mod. destruct (ucall c0 _ _ _ _) as [x r| |]; [|done..].
      simpl. unfold mstate. simpl. by rewrite fmap_empty.
  Qed.

  Lemma qinit_mod ns addr : qinit c ns addr = mstate M <$> qinit c0 ns addr.
  Proof using Hc HM.
    unfold qinit. rewrite (pool_init_mod c _ M HM).
    change (qd0 c0) with (qd0 c). destruct (pool_init c0 (qd0 c) ns) as [h p]. simpl.
    rewrite (alloc_unsafe_mod c _ M Hc HM). destruct (alloc_unsafe c0 _ _ _ _ _) as [|h' p' n| | | |]; try done.
    - simpl. rewrite mheap_lookup. destruct (h' !! n) as [nd|]; [|done]. simpl. f_equal.
      unfold mstate, mshared. simpl. rewrite mheap_insert, fmap_empty. unfold mnode. simpl.
      by rewrite !mt_zero.
    - simpl. unfold mstate, mshared. simpl. by rewrite fmap_empty, !mt_zero.
  Qed.
End wrap.

(** ** Tags without wrap-around grow by at most one per step, and a thread holds
    only words it has read *)
Section grow.
  Context (c : cfg) (Htag : c_tagmod c = None).

  Lemma next_none t : next_tag c t = (t + 1)%N.
  Proof using Htag. unfold next_tag. by rewrite Htag. Qed.

  Definition grows (x x' : qshared) : Prop :=
    forall l, xtag x' l = xtag x l \/ xtag x' l = (xtag x l + 1)%N.

  Lemma grows_refl x : grows x x.
  Proof. by left. Qed.

  Lemma xtag_insert h p hd tl n nd l :
    (match h !! n with Some nd0 => (nx nd0).2 | None => 0%N end = (nx nd).2 \/
     (match h !! n with Some nd0 => (nx nd0).2 | None => 0%N end + 1 = (nx nd).2)%N) ->
    xtag (QSh (<[n := nd]> h) p hd tl) l = xtag (QSh h p hd tl) l \/
    xtag (QSh (<[n := nd]> h) p hd tl) l = (xtag (QSh h p hd tl) l + 1)%N.
  Proof.
    intros H. destruct l as [| | |m]; try by left. simpl.
    destruct (decide (n = m)) as [->|Hne].
    - rewrite lookup_insert. destruct H as [->| ->]; auto.
    - rewrite lookup_insert_ne by done. by left.
  Qed.

  Lemma tstep_grow t x g pc sp addr thr x' pc' :
    tinv c t pc x g -> tstep c x pc sp addr thr = TGo x' pc' ->
    grows x x' /\ forall l y, (l, y) ∈ held pc' -> (l, y) ∈ held pc \/ y.2 = xtag x' l.
  Proof using Htag.
    intros HT Hs. destruct x as [h p hd0 tl0].
    destruct pc as [b v a|v n k|n tag|n|n tl|n tl nx'|n tl nx'|n tl|n tl np| |hd|hd tl|hd tl nx'|tl np
                   |hd np acc|n d k|[|k]| |hh| |tl|r]; cbn [tstep q_heap q_pool q_head q_tail] in Hs.
    - destruct a as [|old|old nxt]; cbn [astep] in Hs.
      + injection Hs as <- <-. split; [apply grows_refl|]. set_solver.
      + destruct (decide _).
        * destruct (_ && _); [destruct addr as [n|]; [destruct (decide _) as [[Hn _]|]|]|];
            try discriminate Hs; injection Hs as <- <-.
          -- split; [|set_solver]. intros l. apply xtag_insert. rewrite Hn. by left.
          -- split; [apply grows_refl|set_solver].
          -- split; [apply grows_refl|set_solver].
        * destruct (h !! old.1) as [nd|]; [|discriminate Hs]. injection Hs as <- <-.
          split; [apply grows_refl|]. set_solver.
      + destruct (decide _) as [[_ ->]|].
        * injection Hs as <- <-. split; [|set_solver]. intros [| | |m]; simpl; auto.
          rewrite next_none. by right.
        * injection Hs as <- <-. split; [apply grows_refl|]. set_solver.
    - destruct (h !! n) as [nd|] eqn:Hn; [|discriminate Hs].
      destruct thr; [destruct (c_throws c); [|discriminate Hs]; injection Hs as <- <-;
                     split; [apply grows_refl|set_solver]|].
      destruct (v !! k); injection Hs as <- <-; (split; [|set_solver]).
      + intros l. apply xtag_insert. rewrite Hn. by left.
      + apply grows_refl.
    - destruct HT as (b & nd' & _ & _ & Hnd' & Htg). cbn [q_heap] in Hnd'. rewrite Hnd' in Hs.
      injection Hs as <- <-. split; [|set_solver]. intros l. apply xtag_insert. rewrite Hnd', Htg. simpl.
      rewrite next_none. by right.
    - injection Hs as <- <-. split; [apply grows_refl|]. set_solver.
    - destruct (h !! tl.1) as [nd|] eqn:Hn; [|discriminate Hs]. injection Hs as <- <-.
      split; [apply grows_refl|]. cbn [held]. intros l y Hin.
      apply elem_of_cons in Hin as [[= -> ->]|Hin]; [left; left|].
      apply elem_of_list_singleton in Hin as [= -> ->]. right. simpl. by rewrite Hn.
    - repeat destruct (decide _); injection Hs as <- <-; (split; [apply grows_refl|]); set_solver.
    - destruct (h !! tl.1) as [nd|] eqn:Hn; [|discriminate Hs].
      destruct (decide _) as [[_ Hx]|]; injection Hs as <- <-.
      + split; [|set_solver]. intros l. apply xtag_insert. rewrite Hn, Hx. simpl. rewrite next_none. by right.
      + split; [apply grows_refl|set_solver].
    - injection Hs as <- <-. split; [|set_solver]. destruct (decide _) as [Hx|]; [|apply grows_refl].
      intros [| | |m]; simpl in *; auto. rewrite next_none, Hx. by right.
    - injection Hs as <- <-. split; [|set_solver]. destruct (decide _) as [Hx|]; [|apply grows_refl].
      intros [| | |m]; simpl in *; auto. rewrite next_none, Hx. by right.
    - injection Hs as <- <-. split; [apply grows_refl|]. set_solver.
    - injection Hs as <- <-. split; [apply grows_refl|]. cbn [held]. intros l y Hin.
      apply elem_of_cons in Hin as [[= -> ->]|Hin]; [left; left|].
      apply elem_of_list_singleton in Hin as [= -> ->]. by right.
    - destruct (h !! hd.1) as [nd|] eqn:Hn; [|discriminate Hs]. injection Hs as <- <-.
      split; [apply grows_refl|]. set_solver.
    - repeat destruct (decide _); injection Hs as <- <-; (split; [apply grows_refl|]); set_solver.
    - injection Hs as <- <-. split; [|set_solver]. destruct (decide _) as [Hx|]; [|apply grows_refl].
      intros [| | |m]; simpl in *; auto. rewrite next_none, Hx. by right.
    - destruct thr.
      { destruct (c_throws _); [|discriminate Hs]. injection Hs as <- <-. split; [apply grows_refl|set_solver]. }
      destruct (decide (length acc < c_words c)).
      + destruct (h !! np) as [nd|]; [|discriminate Hs]. destruct (dat nd !! _); [|discriminate Hs].
        injection Hs as <- <-. split; [apply grows_refl|]. set_solver.
      + destruct (decide _) as [[_ Hx]|]; injection Hs as <- <-.
        * split; [|set_solver]. intros [| | |m]; simpl in *; auto. rewrite next_none, Hx. by right.
        * split; [apply grows_refl|set_solver].
    - destruct d as [|old|old]; cbn [dstep] in Hs.
      + injection Hs as <- <-. split; [apply grows_refl|]. set_solver.
      + destruct (h !! n) as [nd|] eqn:Hn; [|discriminate Hs]. injection Hs as <- <-.
        split; [|set_solver]. intros l. apply xtag_insert. rewrite Hn. by left.
      + destruct (decide _) as [[_ Hx]|]; injection Hs as <- <-.
        * split; [|destruct k; set_solver]. intros [| | |m]; simpl; auto. left. by rewrite Hx.
        * split; [apply grows_refl|set_solver].
    - injection Hs as <- <-. split; [apply grows_refl|set_solver].
    - destruct addr as [n|]; [destruct (decide _) as [[Hn _]|]|]; try discriminate Hs; injection Hs as <- <-.
      + split; [|set_solver]. intros l. apply xtag_insert. rewrite Hn. by left.
      + split; [apply grows_refl|set_solver].
    - injection Hs as <- <-. split; [apply grows_refl|set_solver].
    - injection Hs as <- <-. split; [apply grows_refl|set_solver].
    - injection Hs as <- <-. split; [apply grows_refl|set_solver].
    - injection Hs as <- <-. split; [apply grows_refl|set_solver].
    - discriminate Hs.
  Qed.
End grow.

(** ** The simulation *)
Section sim.
  Context (c : cfg) (M : N) (Hc : c_tagmod c = Some M) (HM : (2 <= M)%N).
  Notation c0 := (nowrap c).

  Definition near (s : qstate) (k : nat -> qloc -> nat) : Prop :=
    forall t pc l y, q_pcs s !! t = Some pc -> (l, y) ∈ held pc ->
      (y.2 <= qtag s l)%N /\ (qtag s l <= y.2 + N.of_nat (k t l))%N.

  Lemma qtag_mod s l : qtag (mstate M s) l = (qtag s l mod M)%N.
  Proof using HM.
    destruct l as [| | |n]; try done. simpl. rewrite mheap_lookup.
    destruct (q_heap (q_sh s) !! n); [done|]. simpl. by rewrite N.mod_0_l by lia.
  Qed.

  Lemma next_differs x : ((x + 1) mod M)%N <> (x mod M)%N.
  Proof using HM.
    intros H. pose proof (clear_near M (0, x + 1)%N (0, x)%N) as Hc'. simpl in Hc'.
    specialize (Hc' ltac:(lia) ltac:(lia)). unfold clear, mt in Hc'. simpl in Hc'. rewrite H in Hc'.
    specialize (Hc' eq_refl). injection Hc'. lia.
  Qed.

  Lemma count_le s s' l :
    grows (q_sh s) (q_sh s') ->
    (qtag s l <= qtag s' l)%N /\
    (qtag s' l <= qtag s l +
       N.of_nat (if decide (qtag (mstate M s) l = qtag (mstate M s') l) then 0 else 1))%N.
  Proof using HM.
    intros Hg. rewrite !qtag_mod, !qtag_x. destruct (Hg l) as [->| ->]; [lia|].
    destruct (decide _) as [E|]; [|lia]. symmetry in E. by apply next_differs in E.
  Qed.

  Lemma held_start o tf pc : qstart c0 o tf = Some pc -> held pc = [].
  Proof. destruct o; simpl; repeat case_decide; repeat case_match; intros; by simplify_eq/=. Qed.

  Lemma near_step s g k ch s' evs :
    Inv c0 s g -> near s k -> qstep c0 s ch = QNext s' evs ->
    near s' (qcount k (mstate M s) ch (mstate M s')).
  Proof using HM.
    intros [HG HT] Hn Hs t' pc' l y Hpc' Hin.
    destruct ch as [t o tf|t sp addr thr|t o addrs thr]; cbn [qstep] in Hs.
    - destruct (q_pcs s !! t) as [pc|] eqn:Hpc; [discriminate Hs|].
      destruct (qstart c0 o tf) as [pc|] eqn:Hst; [|discriminate Hs]. injection Hs as <- <-.
      unfold qcount. destruct (decide (t = t')) as [->|Hne].
      + simpl in Hpc'. rewrite lookup_insert in Hpc'. injection Hpc' as <-.
        rewrite (held_start _ _ _ Hst) in Hin. by apply elem_of_nil in Hin.
      + simpl in Hpc'. rewrite lookup_insert_ne in Hpc' by done.
        destruct (Hn t' pc' l y Hpc' Hin) as [H1 H2]. rewrite !qtag_x in *. simpl. lia.
    - destruct (q_pcs s !! t) as [pc|] eqn:Hpc; [|discriminate Hs].
      pose proof (HT t) as HTt. rewrite Hpc in HTt. destruct HTt as [HTt _].
      assert (Hd : (exists r, pc = PcRet r) \/
        exists x pc1, tstep c0 (q_sh s) pc sp addr thr = TGo x pc1 /\
          s' = QSt x (<[t := pc1]> (q_pcs s))).
      { destruct pc; try (right; destruct (tstep c0 (q_sh s) _ _ _ _) as [x pc1| |]; [|discriminate Hs..];
          injection Hs as <- <-; by eauto). left. eauto. }
      unfold qcount. destruct Hd as [[r ->]|(x & pc1 & Ht & ->)].
      + injection Hs as <- <-. simpl in Hpc'. apply lookup_delete_Some in Hpc' as [Hne Hpc'].
        destruct (Hn t' pc' l y Hpc' Hin) as [H1 H2]. rewrite !qtag_x in *. simpl. lia.
      + destruct (tstep_grow c0 eq_refl t _ g pc sp addr thr x pc1 HTt Ht) as [Hgr Hhl].
        pose proof (count_le s (QSt x (<[t := pc1]> (q_pcs s))) l Hgr) as [Hc1 Hc2].
        assert (Hold : forall pcx, q_pcs s !! t' = Some pcx -> (l, y) ∈ held pcx ->
          (y.2 <= qtag (QSt x (<[t:=pc1]> (q_pcs s))) l)%N /\
          (qtag (QSt x (<[t:=pc1]> (q_pcs s))) l <= y.2 + N.of_nat (k t' l +
             (if decide (qtag (mstate M s) l = qtag (mstate M (QSt x (<[t:=pc1]> (q_pcs s)))) l) then 0 else 1)))%N).
        { intros pcx Hx Hi. destruct (Hn t' pcx l y Hx Hi) as [H1 H2]. rewrite Nat2N.inj_add. lia. }
        simpl in Hpc'. destruct (decide (t = t')) as [<-|Hne].
        * rewrite lookup_insert in Hpc'. injection Hpc' as <-.
          destruct (Hhl l y Hin) as [Hi|Hi]; [by apply (Hold pc)|].
          rewrite qtag_x. simpl. rewrite <- Hi. lia.
        * rewrite lookup_insert_ne in Hpc' by done. by apply (Hold pc').
    - destruct (decide _); [|discriminate Hs].
      destruct (ucall c0 _ _ _ _); [|discriminate Hs..]. injection Hs as <- <-. by simpl in Hpc'.
  Qed.

  Lemma near_clear s k :
    near s k -> (forall t l, is_Some (q_pcs s !! t) -> (N.of_nat (k t l) < M)%N) -> sclear M s.
  Proof using HM.
    intros Hn Hk t pc Hpc l y Hin. destruct (Hn t pc l y Hpc Hin) as [H1 H2].
    specialize (Hk t l ltac:(eauto)). rewrite qtag_x in *. lia.
  Qed.

  Lemma sim ns hist s1 s0 k addr :
    NoDup ns -> c_null c ∉ ns -> (ns <> [] \/ c_node_based c = true) ->
    qinit c0 ns addr = Some s0 -> qwexec c M (mstate M s0) hist s1 k ->
    (forall t l, is_Some (q_pcs s1 !! t) -> (N.of_nat (k t l) < M)%N) /\
    exists s, s1 = mstate M s /\ qreach c0 ns hist s /\ near s k /\ qexec c0 s0 hist s.
  Proof using Hc HM.
    intros Hnd Hnn Hne Hi Hw. induction Hw as [|hist s1 k ch s1' evs Hw IH Hs Hb].
    - split.
      { unfold qinit in Hi. destruct (pool_init _ _ _) as [h0 p0]. destruct (alloc_unsafe _ _ _ _ _ _) as [|h1 p1 n1| | | |]; try discriminate Hi.
        - destruct (_ !! _) as [nd1|]; [|discriminate Hi]. injection Hi as <-. intros t l. simpl.
          rewrite fmap_empty, lookup_empty. by intros [? ?].
        - injection Hi as <-. intros t l. simpl. rewrite fmap_empty, lookup_empty. by intros [? ?]. }
      exists s0. split; [done|]. split.
      + exists addr, s0. do 4 (split; [done|]). constructor.
      + split; [|constructor]. intros t pc l y Hpc. exfalso. unfold qinit in Hi. destruct (pool_init _ _ _) as [h0 p0].
        destruct (alloc_unsafe _ _ _ _ _ _) as [|h1 p1 n1| | | |]; try discriminate Hi.
        * destruct (_ !! _) as [nd1|]; [|discriminate Hi]. injection Hi as <-. by simpl in Hpc.
        * injection Hi as <-. by simpl in Hpc.
    - split; [done|]. destruct IH as (Hk & s & -> & Hre & Hn & He0).
      assert (Hcl : sclear M s).
      { apply (near_clear s k Hn). intros t l Hx. apply Hk. simpl. by rewrite lookup_fmap, fmap_is_Some. }
      rewrite (qstep_mod c M Hc ltac:(lia)) in Hs by done.
      destruct (qstep c0 s ch) as [s'|  |] eqn:Hst; [|discriminate Hs..].
      injection Hs as <- <-. exists s'. split; [done|]. split.
      + destruct Hre as (a & s00 & H1 & H2 & H3 & H4 & H5). exists a, s00. do 4 (split; [done|]).
        by econstructor.
      + destruct (qreach_ok c0 eq_refl _ _ _ Hre) as (g & HI & _). split; [by eapply near_step|by econstructor].
  Qed.

  Lemma wreach_sim ns hist s1 :
    qwreach c M ns hist s1 ->
    exists s, s1 = mstate M s /\ qreach c0 ns hist s /\ sclear M s.
  Proof using Hc HM.
    intros (addr & s0 & k & H1 & H2 & H3 & H4 & H5).
    rewrite (qinit_mod c M Hc ltac:(lia)) in H4. apply fmap_Some in H4 as (s00 & H4 & ->).
    destruct (sim _ _ _ _ _ _ H1 H2 H3 H4 H5) as (Hk & s & -> & Hre & Hn & _).
    exists s. do 2 (split; [done|]). apply (near_clear s k Hn).
    intros t l Hx. apply Hk. simpl. by rewrite lookup_fmap, fmap_is_Some.
  Qed.

  Lemma window_main ns hist s :
    qwreach c M ns hist s ->
    hw_linearizable [] (qspec (c_node_based c) (c_throws c)) hist /\ forall ch, qstep c s ch <> QUB.
  Proof using Hc HM.
    intros H. destruct (wreach_sim _ _ _ H) as (s0 & -> & Hre & Hcl). split.
    - destruct (linearizable_main c0 eq_refl _ _ _ Hre) as [Hl _]. exact Hl.
    - intros ch. rewrite (qstep_mod c M Hc ltac:(lia)) by done.
      pose proof (safe_main c0 eq_refl _ _ _ ch Hre) as Hs. by destruct (qstep c0 s0 ch).
  Qed.
End sim.
