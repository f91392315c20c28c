(** * The stack with tags that wrap around behaves, within one tag period, like
      the one with unbounded tags *)
From stdpp Require Import gmap list numbers.
From Verif Require Import Lin PoolModel Chain PoolProofs StackModel StackSpec StackObs StackInv StackStep
  StackSafe StackQuiet StackMain StackWrapObs WrapPool.

Set Default Proof Using "Type".

Definition mpc (M : N) (pc : spc) : spc :=
  match pc with
  | PcAlloc b v a => PcAlloc b v (mapc M a)
  | PcLSet top bot old r => PcLSet top bot (mt M old) r
  | PcLCas top bot old r => PcLCas top bot (mt M old) r
  | PcRAlloc b vs k te a => PcRAlloc b vs k te (mapc M a)
  | PcCNext old => PcCNext (mt M old)
  | PcCCas old nxt => PcCCas (mt M old) nxt
  | PcACas rev old => PcACas rev (mt M old)
  | PcDealloc n d k => PcDealloc n (mdpc M d) k
  | pc => pc
  end.
Definition mshared (M : N) (x : sshared) : sshared :=
  SSh (mheap M (s_heap x)) (mt M (s_pool x)) (mt M (s_tos x)).
Definition mstate (M : N) (s : sstate) : sstate := SSt (mshared M (s_sh s)) (mpc M <$> s_pcs s).
Definition mtout (M : N) (o : tout) : tout :=
  match o with TGo x pc => TGo (mshared M x) (mpc M pc) | TUB => TUB | TDisabled => TDisabled end.
Definition muout (M : N) (o : uout) : uout :=
  match o with UDone x r => UDone (mshared M x) r | UUB => UUB | UDisabled => UDisabled end.
Definition msout (M : N) (o : soutcome) : soutcome :=
  match o with SNext s evs => SNext (mstate M s) evs | SUB => SUB | SDisabled => SDisabled end.

(** The words that a thread may still compare with memory. *)
Definition held (pc : spc) : list (sloc * tagged) :=
  match pc with
  | PcAlloc _ _ (ATest old | ACas old _) | PcRAlloc _ _ _ _ (ATest old | ACas old _) => [(LPool, old)]
  | PcLSet _ _ old _ | PcLCas _ _ old _ | PcCNext old | PcCCas old _ | PcACas _ old => [(LTos, old)]
  | PcDealloc _ (DSet old | DCas old) _ => [(LPool, old)]
  | _ => []
  end.

Definition xtag (x : sshared) (l : sloc) : N :=
  match l with
  | LTos => (s_tos x).2
  | LPool => (s_pool x).2
  end.
Lemma stag_x s l : stag s l = xtag (s_sh s) l.
Proof. done. Qed.

(** The word that its next step compares with memory. *)
Definition compared (pc : spc) : option (sloc * tagged) :=
  match pc with
  | PcAlloc _ _ (ACas old _) | PcRAlloc _ _ _ _ (ACas old _) => Some (LPool, old)
  | PcLCas _ _ old _ | PcCCas old _ | PcACas _ old => Some (LTos, old)
  | PcDealloc _ (DCas old) _ => Some (LPool, old)
  | _ => None
  end.
Lemma compared_held pc x : compared pc = Some x -> x ∈ held pc.
Proof. destruct pc; simpl; try done; repeat case_match; try done; intros [= <-]; by left. Qed.
Definition xword (x : sshared) (l : sloc) : tagged := match l with LTos => s_tos x | LPool => s_pool x end.

Section wrap.
  Context (c : cfg) (M : N) (Hc : c_tagmod c = Some M) (HM : M <> 0%N).
  Notation c0 := (nowrap c).

  Definition hclear (x : sshared) (pc : spc) : Prop :=
    forall l y, (l, y) ∈ held pc -> (y.2 <= xtag x l)%N /\ (xtag x l < y.2 + M)%N.

  Lemma mshared_heap x : s_heap (mshared M x) = mheap M (s_heap x).
  Proof. done. Qed.

  Lemma mt_next p t : (p, next_tag c (t mod M)) = mt M (p, next_tag c0 t).
  Proof using Hc HM. unfold mt. simpl. by rewrite (next_mod c M Hc HM). Qed.

  Lemma set_next_mod nd p : set_next (mnode M nd) p = mnode M (set_next nd p).
  Proof. done. Qed.
  Lemma c_test_mod y : c_test c (mt M y) = mpc M (c_test c0 y).
  Proof. unfold c_test. simpl. by destruct (decide _). Qed.
  Lemma a_test_mod rev y : a_test c rev (mt M y) = mpc M (a_test c0 rev y).
  Proof. unfold a_test. simpl. by destruct (decide _). Qed.
  Lemma r_next_mod b vs k te : r_next b vs k te = mpc M (r_next b vs k te).
  Proof. unfold r_next. by destruct (decide _). Qed.
  Lemma r_catch_mod te : r_catch te = mpc M (r_catch te).
  Proof. by destruct te. Qed.
  Lemma kgo_mod k : kgo c k = mpc M (kgo c0 k).
  Proof. destruct k; simpl; try done; by destruct (decide _). Qed.
  Lemma upd_mod h n nd : <[n := mnode M nd]> (mheap M h) = mheap (D:=option N) M (<[n := nd]> h).
  Proof. by rewrite mheap_insert. Qed.

  Ltac look n := rewrite mshared_heap, mheap_lookup; cbn [mt fst];
    destruct (s_heap _ !! n) as [nd|] eqn:Hnd; [|done]; cbn [fmap option_fmap option_map].

  Lemma tstep_mod_sp x pc sp addr thr :
    (forall l y, compared pc = Some (l, y) -> sp = false -> clear M (xword x l) y) ->
    tstep c (mshared M x) (mpc M pc) sp addr thr = mtout M (tstep c0 x pc sp addr thr).
  Proof using Hc HM.
    intros Hcl.
    destruct pc as [b v a|v n|top bot r|top bot old r|top bot old r|b vs|b vs k te a|b vs k te n
      |b vs k te n|cur| |old|old nxt|n|rev|rev old|n lst|n lst nxt|n k acc|n k acc|n k|n d k|[|k]| |r];
      cbn [tstep mpc].
    - change (s_heap (mshared M x)) with (mheap M (s_heap x)).
      change (s_pool (mshared M x)) with (mt M (s_pool x)).
      rewrite (astep_mod_sp c None M Hc HM).
      + by destruct (astep _ _ _ _ _ _ _ _).
      + destruct a as [|old|old nxt]; [done|done|]. simpl. by apply (Hcl LPool).
    - look n. destruct nd as [lk [w|]]; [done|]. simpl. destruct thr; [by destruct (c_throws c)|].
      simpl. unfold set_heap, mshared. simpl. by rewrite mheap_insert.
    - done.
    - look bot. rewrite set_next_mod, upd_mod. done.
    - change (s_tos (mshared M x)) with (mt M (s_tos x)).
      rewrite (decide_iff _ (sp = false /\ s_tos x = old)).
      + by destruct (decide _).
      + apply cas_iff_sp. by apply (Hcl LTos).
    - by destruct vs.
    - change (s_heap (mshared M x)) with (mheap M (s_heap x)).
      change (s_pool (mshared M x)) with (mt M (s_pool x)).
      rewrite (astep_mod_sp c None M Hc HM).
      + destruct (astep _ _ _ _ _ _ _ _); try done; simpl; by destruct te.
      + destruct a as [|old|old nxt]; [done|done|]. simpl. by apply (Hcl LPool).
    - look n. destruct nd as [lk [w|]]; [done|]. simpl. destruct (vs !! k) as [v|]; [|done].
      destruct thr; [destruct (c_throws c); [|done]; simpl; by rewrite <- r_catch_mod|].
      simpl. unfold set_heap, mshared. simpl. by rewrite mheap_insert.
    - look n. rewrite set_next_mod, upd_mod. simpl. by rewrite <- r_next_mod.
    - by look cur.
    - change (s_tos (mshared M x)) with (mt M (s_tos x)). simpl. by rewrite c_test_mod.
    - by look old.1.
    - change (s_tos (mshared M x)) with (mt M (s_tos x)).
      rewrite (decide_iff _ (sp = false /\ s_tos x = old)).
      + destruct (decide _).
        * change (mt M old).2 with (old.2 mod M)%N. by rewrite mt_next.
        * simpl. by rewrite c_test_mod.
      + apply cas_iff_sp. by apply (Hcl LTos).
    - look n. destruct nd as [lk [w|]]; [|done]. simpl. destruct thr; [by destruct (c_throws c)|]. done.
    - change (s_tos (mshared M x)) with (mt M (s_tos x)). simpl. by rewrite a_test_mod.
    - change (s_tos (mshared M x)) with (mt M (s_tos x)).
      rewrite (decide_iff _ (sp = false /\ s_tos x = old)).
      + destruct (decide _).
        * change (mt M old).2 with (old.2 mod M)%N. rewrite mt_next. by destruct rev.
        * simpl. by rewrite a_test_mod.
      + apply cas_iff_sp. by apply (Hcl LTos).
    - by look n.
    - look n. rewrite set_next_mod, upd_mod. simpl. by destruct (decide _).
    - look n. destruct nd as [lk [w|]]; [|done]. simpl. destruct thr; [by destruct (c_throws c)|]. done.
    - by look n.
    - look n. destruct nd as [lk [w|]]; [|done]. simpl. unfold set_heap, mshared. simpl.
      by rewrite mheap_insert.
    - rewrite mshared_heap. change (s_pool (mshared M x)) with (mt M (s_pool x)).
      rewrite dstep_mod_sp.
      + destruct (dstep _ _ _ _ _); [done| |done]. simpl. by rewrite kgo_mod.
      + destruct d as [|old|old]; [done|done|]. simpl. by apply (Hcl LPool).
    - done.
    - destruct addr as [n|]; [|done]. rewrite mshared_heap.
      rewrite (decide_iff _ (s_heap x !! n = None /\ n <> c_null c)) by apply mheap_fresh.
      change (c_null c0) with (c_null c). destruct (decide _); [|done].
      rewrite fresh_node by done. done.
    - done.
    - done.
  Qed.

  Lemma tstep_mod x pc sp addr thr :
    hclear x pc -> tstep c (mshared M x) (mpc M pc) sp addr thr = mtout M (tstep c0 x pc sp addr thr).
  Proof using Hc HM.
    intros Hh. apply tstep_mod_sp. intros l y Hcm _.
    destruct (Hh l y (compared_held _ _ Hcm)) as [H1 H2]. apply clear_near; by destruct l.
  Qed.

  Lemma ulink_mod x top bot r : ulink (mshared M x) top bot r = muout M (ulink x top bot r).
  Proof. unfold ulink. look bot. rewrite set_next_mod, upd_mod. done. Qed.

  Lemma upush_mod x v addr thr : upush c (mshared M x) v addr thr = muout M (upush c0 x v addr thr).
  Proof using Hc HM.
    unfold upush. rewrite mshared_heap. change (s_pool (mshared M x)) with (mt M (s_pool x)).
    rewrite (alloc_unsafe_mod c _ M Hc HM).
    destruct (alloc_unsafe _ _ _ _ _ _) as [| h p n | | | |]; try done. cbn [maout].
    rewrite mheap_lookup. destruct (h !! n) as [[lk [w|]]|]; [done| |done]. simpl.
    destruct thr; [by destruct (c_throws c)|]. rewrite <- ulink_mod.
    unfold set_heap_pool, mshared. simpl. by rewrite mheap_insert.
  Qed.

  Lemma uundo_mod fuel : forall x cur,
    uundo c fuel (mshared M x) cur = muout M (uundo c0 fuel x cur).
  Proof using Type.
    induction fuel as [|fuel IH]; intros x cur; cbn [uundo]; change (c_null c0) with (c_null c);
      destruct (decide (cur = c_null c)); try done.
    look cur. destruct nd as [lk [w|]]; [|done]. cbn [mnode nx dat].
    assert (E : <[cur := Node (mt M lk) None]> (mheap M (s_heap x)) = mheap M (<[cur := Node lk None]> (s_heap x))).
    { by rewrite mheap_insert. }
    rewrite E. change (s_pool (mshared M x)) with (mt M (s_pool x)). rewrite dealloc_unsafe_mod.
    destruct (dealloc_unsafe _ _ _); [done| |done]. apply (IH (set_heap_pool x _ _)).
  Qed.

  Lemma ucatch_mod x te : ucatch c (mshared M x) te = muout M (ucatch c0 x te).
  Proof. destruct te; [|done]. simpl. rewrite mheap_size. apply uundo_mod. Qed.

  Lemma urange_mod vs : forall x k te addrs thr,
    urange c (mshared M x) vs k te addrs thr = muout M (urange c0 x vs k te addrs thr).
  Proof using Hc HM.
    induction vs as [|v vs IH]; intros x k te addrs thr; cbn [urange].
    - destruct te; [|done]. apply ulink_mod.
    - rewrite mshared_heap. change (s_pool (mshared M x)) with (mt M (s_pool x)).
      rewrite (alloc_unsafe_mod c _ M Hc HM).
      destruct (alloc_unsafe _ _ _ _ _ _) as [| h p n | | | |]; try done; cbn [maout].
      + rewrite mheap_lookup. destruct (h !! n) as [[lk [w|]]|]; [done| |done]. cbn [fmap option_fmap option_map mnode nx dat].
        destruct (decide (thr = Some k)).
        * change (c_throws c0) with (c_throws c). destruct (c_throws c); [|done].
          apply (ucatch_mod (set_heap_pool x h p)).
        * rewrite <- (IH (set_heap_pool x _ p)).
          unfold set_heap_pool, mshared. cbn [s_heap s_pool s_tos mt fst snd].
          rewrite mheap_insert. done.
      + destruct te; [|done]. apply ulink_mod.
      + apply ucatch_mod.
  Qed.

  Lemma upop_mod x thr : upop c (mshared M x) thr = muout M (upop c0 x thr).
  Proof using Hc HM.
    unfold upop. change (s_tos (mshared M x)) with (mt M (s_tos x)). cbn [mt fst snd].
    change (c_null c0) with (c_null c). destruct (decide _); [done|].
    look (s_tos x).1. destruct nd as [lk [w|]]; [|done]. cbn [mnode nx dat mt fst snd].
    change (c_throws c0) with (c_throws c).
    destruct thr; [destruct (c_throws c); [|done]; by rewrite mt_next|].
    rewrite mt_next. change (s_pool (mshared M x)) with (mt M (s_pool x)).
    assert (E : <[(s_tos x).1 := Node (mt M lk) None]> (mheap M (s_heap x))
                = mheap M (<[(s_tos x).1 := Node lk None]> (s_heap x))).
    { by rewrite mheap_insert. }
    rewrite E, dealloc_unsafe_mod. destruct (dealloc_unsafe _ _ _); done.
  Qed.

  Lemma ureserve_mod n : forall x addrs,
    ureserve c n (mshared M x) addrs = muout M (ureserve c0 n x addrs).
  Proof using Hc HM.
    induction n as [|n IH]; intros x addrs; [done|]. cbn [ureserve].
    destruct addrs as [|[a|] addrs]; [done| |done]. rewrite mshared_heap.
    rewrite (decide_iff _ (s_heap x !! a = None /\ a <> c_null c)) by apply mheap_fresh.
    change (c_null c0) with (c_null c). destruct (decide _); [|done].
    rewrite fresh_node by done.
    change (s_pool (mshared M x)) with (mt M (s_pool x)).
    rewrite dealloc_unsafe_mod. destruct (dealloc_unsafe _ _ _); [done| |done].
    apply (IH (set_heap_pool x _ _)).
  Qed.

  Lemma ucall_mod x o addrs thr : ucall c (mshared M x) o addrs thr = muout M (ucall c0 x o addrs thr).
  Proof using Hc HM.
    destruct o as [| | | | | |v|vs| |n]; try done; cbn [ucall].
    - apply upush_mod.
    - change (c_node_based c0) with (c_node_based c). destruct (c_node_based c); [|done]. apply urange_mod.
    - apply upop_mod.
    - change (c_node_based c0) with (c_node_based c). destruct (c_node_based c); [|done]. apply ureserve_mod.
  Qed.

  Definition sclear (s : sstate) : Prop := forall t pc, s_pcs s !! t = Some pc -> hclear (s_sh s) pc.

  Lemma sstep_mod s ch : sclear s -> sstep c (mstate M s) ch = msout M (sstep c0 s ch).
  Proof using Hc HM.
    intros Hs. destruct ch as [t o|t sp addr thr|t o addrs thr]; cbn [sstep].
    - cbn [mstate s_pcs]. rewrite lookup_fmap. destruct (s_pcs s !! t) as [pc|] eqn:Hpc; [done|]. simpl.
      change (sstart c0 o) with (sstart c o).
      destruct (sstart c o) as [pc|] eqn:Hst; [|done]. simpl. f_equal. unfold set_pc, mstate. simpl.
      rewrite fmap_insert. f_equal. f_equal.
      destruct o; simpl in Hst; repeat case_decide; repeat case_match; by simplify_eq/=.
    - cbn [mstate s_pcs s_sh]. rewrite lookup_fmap. destruct (s_pcs s !! t) as [pc|] eqn:Hpc; [|done].
      cbn [fmap option_fmap option_map]. specialize (Hs t pc Hpc).
      assert (Hd : (exists r, pc = PcRet r) \/
        (match mpc M pc with PcRet r => SNext (SSt (mshared M (s_sh s)) (delete t (mpc M <$> s_pcs s))) [Res t r]
         | _ => match tstep c (mshared M (s_sh s)) (mpc M pc) sp addr thr with
                | TGo x pc' => SNext (SSt x (<[t := pc']> (mpc M <$> s_pcs s))) []
                | TUB => SUB | TDisabled => SDisabled end end
         = match tstep c (mshared M (s_sh s)) (mpc M pc) sp addr thr with
                | TGo x pc' => SNext (SSt x (<[t := pc']> (mpc M <$> s_pcs s))) []
                | TUB => SUB | TDisabled => SDisabled end /\
         match pc with PcRet r => SNext (SSt (s_sh s) (delete t (s_pcs s))) [Res t r]
         | _ => match tstep c0 (s_sh s) pc sp addr thr with
                | TGo x pc' => SNext (SSt x (<[t := pc']> (s_pcs s))) []
                | TUB => SUB | TDisabled => SDisabled end end
         = match tstep c0 (s_sh s) pc sp addr thr with
                | TGo x pc' => SNext (SSt x (<[t := pc']> (s_pcs s))) []
                | TUB => SUB | TDisabled => SDisabled end)).
      { destruct pc; try (right; split; reflexivity). left. eauto. }
      destruct Hd as [[r ->]|[-> ->]].
      + simpl. unfold mstate. simpl. by rewrite fmap_delete.
      + rewrite tstep_mod by done. destruct (tstep c0 _ _ _ _ _) as [x pc'| |]; [|done..].
        simpl. unfold mstate. simpl. by rewrite fmap_insert.
    - cbn [mstate s_pcs s_sh].
      rewrite (decide_iff _ (s_pcs s = ∅)) by apply fmap_empty_iff.
      destruct (decide _); [|done]. rewrite ucall_mod. destruct (ucall c0 _ _ _ _) as [x r| |]; [|done..].
      simpl. unfold mstate. simpl. by rewrite fmap_empty.
  Qed.

  Lemma sinit_mod ns : sinit c ns = mstate M (sinit c0 ns).
  Proof using HM.
    unfold sinit. rewrite (pool_init_mod c _ M HM).
    destruct (pool_init c0 None ns) as [h p]. simpl.
    unfold mstate, mshared. simpl. by rewrite fmap_empty, mt_zero.
  Qed.
End wrap.

(** ** Tags without wrap-around grow by at most one per step, and a thread holds
    only words it has read *)
Section grow.
  Context (c : cfg) (Htag : c_tagmod c = None).

  Lemma next_none t : next_tag c t = (t + 1)%N.
  Proof using Htag. unfold next_tag. by rewrite Htag. Qed.

  Definition grows (x x' : sshared) : Prop :=
    forall l, xtag x' l = xtag x l \/ xtag x' l = (xtag x l + 1)%N.

  Lemma grows_eq x x' : s_tos x' = s_tos x -> s_pool x' = s_pool x -> grows x x'.
  Proof. intros H1 H2 []; simpl; rewrite ?H1, ?H2; by left. Qed.

  Lemma held_a b v a : held (PcAlloc b v a) = match a with ALoad => [] | ATest old | ACas old _ => [(LPool, old)] end.
  Proof. by destruct a. Qed.

  Lemma astep_grow b (x : sshared) a sp addr :
    match astep c None b (s_heap x) (s_pool x) a sp addr with
    | ACont h p a' => p = s_pool x /\ forall b v l y,
        (l, y) ∈ held (PcAlloc b v a') -> (l, y) ∈ held (PcAlloc b v a) \/ l = LPool /\ y = p
    | AGot h p n => p.2 = (s_pool x).2 \/ p.2 = ((s_pool x).2 + 1)%N
    | _ => True
    end.
  Proof using Htag.
    destruct a as [|old|old nxt]; cbn [astep].
    - split; [done|]. intros b' v l y Hin. simpl in Hin. apply elem_of_list_singleton in Hin as [= -> ->]. by right.
    - destruct (decide _); [destruct (_ && _); [|done]; destruct addr; [|done]; destruct (decide _); [by left|done]|].
      destruct (s_heap x !! old.1); [|done]. split; [done|]. intros b' v l y Hin. by left.
    - destruct (decide _) as [[_ ->]|]; [simpl; rewrite next_none; by right|].
      split; [done|]. intros b' v l y Hin. simpl in Hin. apply elem_of_list_singleton in Hin as [= -> ->]. by right.
  Qed.

  Lemma c_test_held y l z : (l, z) ∈ held (c_test c y) -> l = LTos /\ z = y.
  Proof.
    unfold c_test. destruct (decide _); simpl; [intros Hi; by apply elem_of_nil in Hi|].
    intros Hi. by apply elem_of_list_singleton in Hi as [= -> ->].
  Qed.
  Lemma a_test_held rev y l z : (l, z) ∈ held (a_test c rev y) -> l = LTos /\ z = y.
  Proof.
    unfold a_test. destruct (decide _); simpl; [intros Hi; by apply elem_of_nil in Hi|].
    intros Hi. by apply elem_of_list_singleton in Hi as [= -> ->].
  Qed.
  Lemma r_next_held b vs k te : held (r_next b vs k te) = [].
  Proof. unfold r_next. by destruct (decide _). Qed.
  Lemma r_catch_held te : held (r_catch te) = [].
  Proof. by destruct te. Qed.
  Lemma kgo_held k : held (kgo c k) = [].
  Proof. destruct k; simpl; try done; by destruct (decide _). Qed.

  Lemma tstep_grow x pc sp addr thr x' pc' :
    tstep c x pc sp addr thr = TGo x' pc' ->
    grows x x' /\ forall l y, (l, y) ∈ held pc' -> (l, y) ∈ held pc \/ y.2 = xtag x' l.
  Proof using Htag.
    intros Hs.
    destruct pc as [b v a|v n|top bot r|top bot old r|top bot old r|b vs|b vs k te a|b vs k te n
      |b vs k te n|cur| |old|old nxt|n|rev|rev old|n lst|n lst nxt|n k acc|n k acc|n k|n d k|[|k]| |r];
      cbn [tstep] in Hs;
      try (repeat match type of Hs with
             | context [match ?y with _ => _ end] =>
                 lazymatch y with context [match _ with _ => _ end] => fail
                 | astep _ _ _ _ _ _ _ _ => fail | dstep _ _ _ _ _ => fail | _ => destruct y as [] eqn:? end
             end; try discriminate Hs; injection Hs as <- <-;
           (split; [by apply grows_eq|]); simpl; intros l y Hin;
           first [by apply elem_of_nil in Hin | by left
                 | apply elem_of_list_singleton in Hin as [= -> ->]; by right
                 | rewrite ?r_next_held, ?r_catch_held in Hin; by apply elem_of_nil in Hin]).
    - pose proof (astep_grow b x a sp addr) as Ha.
      destruct (astep _ _ _ _ _ _ _ _); try discriminate Hs; injection Hs as <- <-.
      + destruct Ha as [-> Ha]. split; [by apply grows_eq|]. intros l y Hin.
        destruct (Ha b v l y Hin) as [?|[-> ->]]; [by left|by right].
      + split; [intros []; simpl; auto|]. intros l y Hin. by apply elem_of_nil in Hin.
      + split; [by apply grows_eq|]. intros l y Hin. by apply elem_of_nil in Hin.
      + split; [by apply grows_eq|]. intros l y Hin. by apply elem_of_nil in Hin.
    - destruct (decide _) as [[_ Hx]|]; injection Hs as <- <-.
      + split; [|intros l y Hin; by apply elem_of_nil in Hin]. intros []; simpl; auto. left. by rewrite Hx.
      + split; [by apply grows_eq|]. simpl. intros l y Hin.
        apply elem_of_list_singleton in Hin as [= -> ->]. by right.
    - destruct vs; [discriminate Hs|]. injection Hs as <- <-.
      split; [by apply grows_eq|]. intros l y Hin. by apply elem_of_nil in Hin.
    - pose proof (astep_grow b x a sp addr) as Ha.
      destruct (astep _ _ _ _ _ _ _ _); try discriminate Hs; injection Hs as <- <-.
      + destruct Ha as [-> Ha]. split; [by apply grows_eq|]. intros l y Hin.
        specialize (Ha b 0%N l y). destruct a0, a; simpl in *; destruct (Ha Hin) as [?|[-> ->]]; (by left) || by right.
      + split; [intros []; simpl; auto|]. intros l y Hin. by apply elem_of_nil in Hin.
      + split; [by apply grows_eq|]. intros l y Hin. destruct te; by apply elem_of_nil in Hin.
      + split; [by apply grows_eq|]. intros l y Hin. rewrite r_catch_held in Hin. by apply elem_of_nil in Hin.
    - injection Hs as <- <-. split; [by apply grows_eq|]. intros l y Hin.
      apply c_test_held in Hin as [-> ->]. by right.
    - destruct (decide _) as [[_ Hx]|]; injection Hs as <- <-.
      + split; [|intros l y Hin; by apply elem_of_nil in Hin]. intros []; simpl; auto.
        rewrite next_none, Hx. by right.
      + split; [by apply grows_eq|]. intros l y Hin. apply c_test_held in Hin as [-> ->]. by right.
    - injection Hs as <- <-. split; [by apply grows_eq|]. intros l y Hin.
      apply a_test_held in Hin as [-> ->]. by right.
    - destruct (decide _) as [[_ Hx]|]; injection Hs as <- <-.
      + split; [|intros l y Hin; destruct rev; by apply elem_of_nil in Hin]. intros []; simpl; auto.
        rewrite next_none, Hx. by right.
      + split; [by apply grows_eq|]. intros l y Hin. apply a_test_held in Hin as [-> ->]. by right.
    - destruct d as [|old|old]; cbn [dstep] in Hs.
      + injection Hs as <- <-. split; [by apply grows_eq|]. simpl. intros l y Hin.
        apply elem_of_list_singleton in Hin as [= -> ->]. by right.
      + destruct (_ !! n) as [nd|] eqn:Hn; [|discriminate Hs]. injection Hs as <- <-.
        split; [by apply grows_eq|]. by left.
      + destruct (decide _) as [[_ Hx]|]; injection Hs as <- <-.
        * split; [|intros l y Hin; rewrite kgo_held in Hin; by apply elem_of_nil in Hin].
          intros []; simpl; auto. left. by rewrite Hx.
        * split; [by apply grows_eq|]. simpl. intros l y Hin.
          apply elem_of_list_singleton in Hin as [= -> ->]. by right.
  Qed.
End grow.

(** ** The simulation *)
Section sim.
  Context (c : cfg) (M : N) (Hc : c_tagmod c = Some M) (HM : (2 <= M)%N).
  Notation c0 := (nowrap c).

  Definition near (s : sstate) (k : nat -> sloc -> nat) : Prop :=
    forall t pc l y, s_pcs s !! t = Some pc -> (l, y) ∈ held pc ->
      (y.2 <= stag s l)%N /\ (stag s l <= y.2 + N.of_nat (k t l))%N.

  Lemma stag_mod s l : stag (mstate M s) l = (stag s l mod M)%N.
  Proof. by destruct l. Qed.

  Lemma next_differs x : ((x + 1) mod M)%N <> (x mod M)%N.
  Proof using HM.
    intros H. pose proof (clear_near M (0, x + 1)%N (0, x)%N) as Hc'. simpl in Hc'.
    specialize (Hc' ltac:(lia) ltac:(lia)). unfold clear, mt in Hc'. simpl in Hc'. rewrite H in Hc'.
    specialize (Hc' eq_refl). injection Hc'. lia.
  Qed.

  Lemma count_le s s' l :
    grows (s_sh s) (s_sh s') ->
    (stag s l <= stag s' l)%N /\
    (stag s' l <= stag s l +
       N.of_nat (if decide (stag (mstate M s) l = stag (mstate M s') l) then 0 else 1))%N.
  Proof using HM.
    intros Hg. rewrite !stag_mod, !stag_x. destruct (Hg l) as [->| ->]; [lia|].
    destruct (decide _) as [E|]; [|lia]. symmetry in E. by apply next_differs in E.
  Qed.

  Lemma held_start o pc : sstart c0 o = Some pc -> held pc = [].
  Proof. destruct o; simpl; repeat case_decide; repeat case_match; intros; by simplify_eq/=. Qed.

  Lemma near_step s k ch s' evs :
    near s k -> sstep c0 s ch = SNext s' evs ->
    near s' (scount k (mstate M s) ch (mstate M s')).
  Proof using HM.
    intros Hn Hs t' pc' l y Hpc' Hin.
    destruct ch as [t o|t sp addr thr|t o addrs thr]; cbn [sstep] in Hs.
    - destruct (s_pcs s !! t) as [pc|] eqn:Hpc; [discriminate Hs|].
      destruct (sstart c0 o) as [pc|] eqn:Hst; [|discriminate Hs]. injection Hs as <- <-.
      unfold scount. destruct (decide (t = t')) as [->|Hne].
      + simpl in Hpc'. rewrite lookup_insert in Hpc'. injection Hpc' as <-.
        rewrite (held_start _ _ Hst) in Hin. by apply elem_of_nil in Hin.
      + simpl in Hpc'. rewrite lookup_insert_ne in Hpc' by done.
        destruct (Hn t' pc' l y Hpc' Hin) as [H1 H2]. rewrite !stag_x in *. simpl. lia.
    - destruct (s_pcs s !! t) as [pc|] eqn:Hpc; [|discriminate Hs].
      assert (Hd : (exists r, pc = PcRet r) \/
        exists x pc1, tstep c0 (s_sh s) pc sp addr thr = TGo x pc1 /\
          s' = SSt x (<[t := pc1]> (s_pcs s))).
      { destruct pc; try (right; destruct (tstep c0 (s_sh s) _ _ _ _) as [x pc1| |]; [|discriminate Hs..];
          injection Hs as <- <-; by eauto). left. eauto. }
      unfold scount. destruct Hd as [[r ->]|(x & pc1 & Ht & ->)].
      + injection Hs as <- <-. simpl in Hpc'. apply lookup_delete_Some in Hpc' as [Hne Hpc'].
        destruct (Hn t' pc' l y Hpc' Hin) as [H1 H2]. rewrite !stag_x in *. simpl. lia.
      + destruct (tstep_grow c0 eq_refl _ pc sp addr thr x pc1 Ht) as [Hgr Hhl].
        pose proof (count_le s (SSt x (<[t := pc1]> (s_pcs s))) l Hgr) as [Hc1 Hc2].
        assert (Hold : forall pcx, s_pcs s !! t' = Some pcx -> (l, y) ∈ held pcx ->
          (y.2 <= stag (SSt x (<[t:=pc1]> (s_pcs s))) l)%N /\
          (stag (SSt x (<[t:=pc1]> (s_pcs s))) l <= y.2 + N.of_nat (k t' l +
             (if decide (stag (mstate M s) l = stag (mstate M (SSt x (<[t:=pc1]> (s_pcs s)))) l) then 0 else 1)))%N).
        { intros pcx Hx Hi. destruct (Hn t' pcx l y Hx Hi) as [H1 H2]. rewrite Nat2N.inj_add. lia. }
        simpl in Hpc'. destruct (decide (t = t')) as [<-|Hne].
        * rewrite lookup_insert in Hpc'. injection Hpc' as <-.
          destruct (Hhl l y Hin) as [Hi|Hi]; [by apply (Hold pc)|].
          rewrite stag_x. simpl. rewrite <- Hi. lia.
        * rewrite lookup_insert_ne in Hpc' by done. by apply (Hold pc').
    - destruct (decide _); [|discriminate Hs].
      destruct (ucall c0 _ _ _ _); [|discriminate Hs..]. injection Hs as <- <-. by simpl in Hpc'.
  Qed.

  Lemma near_clear s k :
    near s k -> (forall t l, is_Some (s_pcs s !! t) -> (N.of_nat (k t l) < M)%N) -> sclear M s.
  Proof using HM.
    intros Hn Hk t pc Hpc l y Hin. destruct (Hn t pc l y Hpc Hin) as [H1 H2].
    specialize (Hk t l ltac:(eauto)). rewrite stag_x in *. lia.
  Qed.

  Lemma sinit_pcs ns : s_pcs (sinit c0 ns) = ∅.
  Proof. unfold sinit. by destruct (pool_init _ _ _). Qed.

  Lemma sim ns hist s1 k :
    swexec c M (mstate M (sinit c0 ns)) hist s1 k ->
    (forall t l, is_Some (s_pcs s1 !! t) -> (N.of_nat (k t l) < M)%N) /\
    exists s, s1 = mstate M s /\ sexec c0 (sinit c0 ns) hist s /\ near s k.
  Proof using Hc HM.
    intros Hw. induction Hw as [|hist s1 k ch s1' evs Hw IH Hs Hb].
    - split.
      { intros t l. simpl. rewrite sinit_pcs, fmap_empty, lookup_empty. by intros [? ?]. }
      exists (sinit c0 ns). split; [done|]. split; [constructor|].
      intros t pc l y Hpc. by rewrite sinit_pcs, lookup_empty in Hpc.
    - split; [done|]. destruct IH as (Hk & s & -> & Hre & Hn).
      assert (Hcl : sclear M s).
      { apply (near_clear s k Hn). intros t l Hx. apply Hk. simpl. by rewrite lookup_fmap, fmap_is_Some. }
      rewrite (sstep_mod c M Hc ltac:(lia)) in Hs by done.
      destruct (sstep c0 s ch) as [s'|  |] eqn:Hst; [|discriminate Hs..].
      injection Hs as <- <-. exists s'. split; [done|]. split; [by econstructor|]. by eapply near_step.
  Qed.

  Lemma wreach_sim ns hist s1 :
    swreach c M ns hist s1 ->
    exists s, s1 = mstate M s /\ sreach c0 ns hist s /\ sclear M s.
  Proof using Hc HM.
    intros (H1 & H2 & H3 & k & H5).
    rewrite (sinit_mod c M ltac:(lia)) in H5.
    destruct (sim _ _ _ _ H5) as (Hk & s & -> & Hre & Hn).
    exists s. split; [done|]. split; [done|]. apply (near_clear s k Hn).
    intros t l Hx. apply Hk. simpl. by rewrite lookup_fmap, fmap_is_Some.
  Qed.

  Lemma window_main ns hist s :
    swreach c M ns hist s ->
    hw_linearizable [] (sspec (c_node_based c) (c_throws c)) hist /\
    forall ch, ch_ok ch -> sstep c s ch <> SUB.
  Proof using Hc HM.
    intros H. destruct (wreach_sim _ _ _ H) as (s0 & -> & Hre & Hcl). split.
    - destruct (linearizable_main c0 eq_refl _ _ _ Hre) as [Hl _]. exact Hl.
    - intros ch Hok. rewrite (sstep_mod c M Hc ltac:(lia)) by done.
      pose proof (safe_main c0 eq_refl _ _ _ ch Hre Hok) as Hs. by destruct (sstep c0 s0 ch).
  Qed.
End sim.
