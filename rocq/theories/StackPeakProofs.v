From stdpp Require Import gmap list numbers.
From Verif Require Import Lin PoolModel Chain PoolProofs StackModel StackSpec StackObs StackInv
  StackObsProofs StackQuiet StackMain LiveSum PeakSum StackPeak.

Set Default Proof Using "Type".

Section peak.
  Context (c : cfg).
  Notation null := (c_null c).

  (** Calls that have found the pool empty and not yet asked the allocator;
      nodes that a reserve still has to obtain. *)
  Definition wants (pc : spc) : nat :=
    match pc with
    | PcAlloc _ _ (ATest old) | PcRAlloc _ _ _ _ (ATest old) => if decide (old.1 = null) then 1 else 0
    | _ => 0
    end.
  Definition krest (k : skont) : nat := match k with KReserve k => k | _ => 0 end.
  Definition rest (pc : spc) : nat :=
    match pc with PcReserve k => k | PcDealloc _ _ k | PcDestroy _ k => krest k | _ => 0 end.

  Definition awants (a : apc) : nat :=
    match a with ATest old => if decide (old.1 = null) then 1 else 0 | _ => 0 end.

  Lemma astep_peak b (x : sshared) a sp addr :
    match astep c None b (s_heap x) (s_pool x) a sp addr with
    | ACont h p a' => h = s_heap x /\ (awants a' <= awants a \/ p.1 = null)
    | AGot h p n => size h <= size (s_heap x) + awants a
    | _ => True
    end.
  Proof.
    destruct a as [|old|old nxt]; simpl.
    - split; [done|]. destruct (decide _); [by right|left; lia].
    - destruct (decide _).
      + destruct (c_node_based c && negb b); [|done]. destruct addr as [n|]; [|done].
        destruct (decide _) as [[Hn _]|]; [|done]. rewrite map_size_insert_None by done. lia.
      + destruct (s_heap x !! old.1); [|done]. split; [done|left; simpl; lia].
    - destruct (decide _); [lia|]. split; [done|]. simpl. destruct (decide _); [by right|left; lia].
  Qed.

  Lemma kgo_peak k : wants (kgo c k) = 0 /\ rest (kgo c k) = krest k.
  Proof. destruct k; simpl; try done; by destruct (decide _). Qed.

  Lemma tstep_peak x pc sp addr thr x' pc' :
    tstep c x pc sp addr thr = TGo x' pc' ->
    rest pc' <= rest pc /\
    (size (s_heap x') + wants pc' + rest pc' <= size (s_heap x) + wants pc + rest pc \/
     (s_pool x').1 = null /\ rest pc' = 0).
  Proof.
    assert (Hins : forall (h : gmap N snode) n nd nd', h !! n = Some nd ->
              size (<[n := nd']> h) = size h).
    { intros. apply map_size_insert_Some. eauto. }
    destruct pc as [b v a|v m|top bot r|top bot old r|top bot old r|b vs|b vs k te a|b vs k te m
      |b vs k te m|cur| |old|old nxt|m|rev|rev old|m lst|m lst nxt|m k acc|m k acc|m k|m d k|k| |r];
      cbn [tstep].
    - pose proof (astep_peak b x a sp addr) as Hd.
      destruct (astep c None b (s_heap x) (s_pool x) a sp addr) as [h p a'|h p n| | | |]; try done;
        intros [= <- <-]; cbn [s_heap s_pool set_heap_pool].
      + destruct Hd as [-> [Hd|Hd]]; [|split; [done|by right]].
        change (wants (PcAlloc b v a')) with (awants a'). change (wants (PcAlloc b v a)) with (awants a). simpl. lia.
      + change (wants (PcAlloc b v a)) with (awants a). simpl. lia.
      + simpl. lia.
      + simpl. lia.
    - destruct (s_heap x !! m) as [[lk [?|]]|] eqn:Hnd; try done. destruct thr.
      + destruct (c_throws c); [|done]. intros [= <- <-]. simpl. lia.
      + intros [= <- <-]. simpl. rewrite (Hins _ _ _ _ Hnd). lia.
    - intros [= <- <-]. simpl. lia.
    - destruct (s_heap x !! bot) as [nd|] eqn:Hnd; [|done]. intros [= <- <-]. simpl.
      rewrite (Hins _ _ _ _ Hnd). lia.
    - destruct (decide _); intros [= <- <-]; simpl; lia.
    - destruct vs; [done|]. intros [= <- <-]. simpl. lia.
    - pose proof (astep_peak b x a sp addr) as Hd.
      destruct (astep c None b (s_heap x) (s_pool x) a sp addr) as [h p a'|h p n| | | |]; try done;
        intros [= <- <-]; cbn [s_heap s_pool set_heap_pool].
      + destruct Hd as [-> [Hd|Hd]]; [|split; [done|by right]].
        change (wants (PcRAlloc b vs k te a')) with (awants a').
        change (wants (PcRAlloc b vs k te a)) with (awants a). simpl. lia.
      + change (wants (PcRAlloc b vs k te a)) with (awants a). simpl. lia.
      + destruct te; simpl; lia.
      + destruct te; simpl; lia.
    - destruct (s_heap x !! m) as [[lk [?|]]|] eqn:Hnd; try done. destruct (vs !! k); [|done]. destruct thr.
      + destruct (c_throws c); [|done]. intros [= <- <-]. destruct te; simpl; lia.
      + intros [= <- <-]. simpl. rewrite (Hins _ _ _ _ Hnd). lia.
    - destruct (s_heap x !! m) as [nd|] eqn:Hnd; [|done]. intros [= <- <-]. simpl.
      rewrite (Hins _ _ _ _ Hnd). unfold r_next. destruct (decide _); simpl; lia.
    - destruct (s_heap x !! cur); [|done]. intros [= <- <-]. simpl. lia.
    - intros [= <- <-]. unfold c_test. destruct (decide _); simpl; lia.
    - destruct (s_heap x !! old.1); [|done]. intros [= <- <-]. simpl. lia.
    - destruct (decide _); intros [= <- <-]; [simpl; lia|]. unfold c_test. destruct (decide _); simpl; lia.
    - destruct (s_heap x !! m) as [[lk [?|]]|]; try done. destruct thr.
      + destruct (c_throws c); [|done]. intros [= <- <-]. simpl. lia.
      + intros [= <- <-]. simpl. lia.
    - intros [= <- <-]. unfold a_test. destruct (decide _); simpl; lia.
    - destruct (decide _); intros [= <- <-]; [destruct rev; simpl; lia|]. unfold a_test. destruct (decide _); simpl; lia.
    - destruct (s_heap x !! m); [|done]. intros [= <- <-]. simpl. lia.
    - destruct (s_heap x !! m) as [nd|] eqn:Hnd; [|done]. intros [= <- <-]. simpl.
      rewrite (Hins _ _ _ _ Hnd). destruct (decide _); simpl; lia.
    - destruct (s_heap x !! m) as [[lk [?|]]|]; try done. destruct thr.
      + destruct (c_throws c); [|done]. intros [= <- <-]. simpl. lia.
      + intros [= <- <-]. simpl. lia.
    - destruct (s_heap x !! m); [|done]. intros [= <- <-]. simpl. lia.
    - destruct (s_heap x !! m) as [[lk [?|]]|] eqn:Hnd; try done. intros [= <- <-]. simpl.
      rewrite (Hins _ _ _ _ Hnd). lia.
    - destruct (kgo_peak k) as [Hw Hr]. destruct d as [|old|old]; simpl.
      + intros [= <- <-]. simpl. lia.
      + destruct (s_heap x !! m) as [nd|] eqn:Hnd; [|done]. intros [= <- <-]. simpl.
        rewrite (Hins _ _ _ _ Hnd). lia.
      + destruct (decide _); intros [= <- <-]; [|simpl; lia]. simpl. lia.
    - destruct k as [|k]; [intros [= <- <-]; simpl; lia|].
      destruct addr as [n|]; [|intros [= <- <-]; simpl; lia]. destruct (decide _) as [[Hn _]|]; [|done].
      intros [= <- <-]. simpl. rewrite map_size_insert_None by done. lia.
    - intros [= <- <-]. simpl. lia.
    - done.
  Qed.

  Lemma dom_size (h h' : gmap N snode) : dom h = dom h' -> size h = size h'.
  Proof. intros H. by rewrite <- !size_dom, H. Qed.

  Lemma ureserve_peak n : forall x addrs x' r,
    ureserve c n x addrs = UDone x' r -> size (s_heap x') <= size (s_heap x) + n.
  Proof.
    induction n as [|n IH]; intros x addrs x' r H; simpl in H; [injection H as <- _; lia|].
    destruct addrs as [|[a|] addrs]; [done| |injection H as <- _; lia].
    destruct (decide _) as [[Ha _]|]; [|done]. unfold dealloc_unsafe in H. rewrite lookup_insert in H.
    apply IH in H. simpl in H.
    rewrite map_size_insert_Some in H by (rewrite lookup_insert; eauto).
    rewrite map_size_insert_None in H by done. lia.
  Qed.

  Lemma upush_peak x v addr thr x' r :
    c_throws c = false -> upush c x v addr thr = UDone x' r ->
    size (s_heap x') <= size (s_heap x) \/ (s_pool x').1 = null.
  Proof.
    intros Hth H. unfold upush in H.
    destruct (alloc_unsafe c None false (s_heap x) (s_pool x) addr) as [h p a|h p n| | | |] eqn:Ha;
      try done; try (injection H as <- _; by left).
    unfold alloc_unsafe in Ha. destruct (h !! n) as [[lk [?|]]|] eqn:Hn; try done.
    destruct thr; [by rewrite Hth in H|].
    assert (Hl : size (s_heap x') = size h /\ s_pool x' = p).
    { split; [apply ulink_dom in H; apply dom_size; rewrite H; simpl; by eapply dom_insert_lookup_L|].
      unfold ulink in H. simpl in H. rewrite lookup_insert in H. by injection H as <- _. }
    destruct Hl as [-> ->]. destruct (decide (_ = null)) as [Hp|].
    - destruct (_ && _); [|done]. destruct addr as [n'|]; [|done]. destruct (decide _); [|done].
      injection Ha as <- <- _. by right.
    - destruct (s_heap x !! _); [|done]. injection Ha as <- _ _. left. lia.
  Qed.

  Lemma urange_peak vs : forall x k te addrs thr x' r l,
    c_throws c = false -> seg (s_heap x) (s_pool x).1 l null -> NoDup l -> null ∉ l ->
    urange c x vs k te addrs thr = UDone x' r ->
    size (s_heap x') + length l <= (size (s_heap x) + length l) `max` (size (s_heap x) + length vs).
  Proof.
    induction vs as [|v vs IH]; intros x k te addrs thr x' r l Hth Hs Hnd Hnl; cbn [urange].
    - destruct te; [|done]. intros H. apply ulink_dom, dom_size in H. rewrite H. lia.
    - intros H.
      destruct (alloc_unsafe c None false (s_heap x) (s_pool x) _) as [h p a|h p n| | | |] eqn:Ha; try done.
      + destruct (h !! n) as [[lk [?|]]|] eqn:Hn; try done. destruct (decide (thr = Some k)); [by rewrite Hth in H|].
        unfold alloc_unsafe in Ha. destruct (decide ((s_pool x).1 = null)) as [Hp|Hp].
        * assert (l = []) as ->.
          { destruct l as [|z l]; [done|]. destruct Hs as [<- _]. rewrite Hp in Hnl.
            exfalso. apply Hnl. left. }
          destruct (_ && _); [|done]. destruct (match addrs with [] => None | a :: _ => a end) as [n'|]; [|done].
          destruct (decide _) as [[Hn' _]|]; [|done]. injection Ha as <- <- <-.
          eapply (IH _ _ _ _ _ _ _ []) in H; [|done|simpl; by rewrite Hp|done|set_solver].
          simpl in H. rewrite map_size_insert_Some in H by (rewrite lookup_insert; eauto).
          rewrite map_size_insert_None in H by done. simpl. lia.
        * destruct (s_heap x !! (s_pool x).1) as [nd|] eqn:Hpn; [|done]. injection Ha as <- <- <-.
          destruct l as [|z l]; [by simpl in Hs; rewrite Hs in Hp|].
          destruct Hs as (Hz & y & Hy & Hs). rewrite Hz in *.
          apply list.NoDup_cons in Hnd as [Hzl Hnd].
          rewrite (nxp_Some _ _ _ Hpn) in Hy. injection Hy as Hy.
          eapply (IH _ _ _ _ _ _ _ l) in H.
          -- simpl in H. rewrite map_size_insert_Some in H by eauto. simpl. lia.
          -- done.
          -- simpl. rewrite Hy. eapply seg_ext; [|exact Hs]. intros m Hm. unfold nxp.
             rewrite lookup_insert_ne; [done|]. by intros ->.
          -- done.
          -- set_solver.
      + destruct te; [|injection H as <- _; lia]. apply ulink_dom, dom_size in H. rewrite H. lia.
      + apply ucatch_dom, dom_size in H. rewrite H. lia.
  Qed.

  Lemma empty_peak s g l :
    c_throws c = false -> Inv c s g -> (s_pool (s_sh s)).1 = null ->
    (forall n, in_use s n -> n ∈ l) -> size (s_heap (s_sh s)) <= length l.
  Proof.
    intros Hth HI Hp Hl. destruct (inv_exhausted c s g Hth HI Hp) as [_ Hx].
    apply size_le. intros n Hn. by apply Hl, Hx.
  Qed.

  Lemma wants_le (m : gmap nat spc) : msum wants m <= size m.
  Proof.
    rewrite <- (Nat.mul_1_r (size m)). apply msum_le. intros _ pc _.
    destruct pc as [b v [|old|old nxt]| | | | | |b vs k te [|old|old nxt]| | | | | | | | | | | | | | | | | |];
      simpl; try destruct (decide _); lia.
  Qed.

  Lemma reserved_app h1 h2 : sreserved (h1 ++ h2) = sreserved h1 + sreserved h2.
  Proof. apply sum_list_with_app. Qed.

  (** What is there and what calls in progress are about to obtain. *)
  Definition total (s : sstate) : nat :=
    size (s_heap (s_sh s)) + msum wants (s_pcs s) + msum rest (s_pcs s).

  Lemma step_peak s g B ch s' evs :
    c_throws c = false -> Inv c s g -> srange_needs c B s ch -> sstep c s ch = SNext s' evs ->
    msum rest (s_pcs s') <= msum rest (s_pcs s) + sreserved evs /\
    (total s' <= (total s + sreserved evs) `max` B \/ (s_pool (s_sh s')).1 = null).
  Proof.
    intros Hth HI HQ H. destruct ch as [t o|t sp addr thr|t o addrs thr].
    - simpl in H. destruct (s_pcs s !! t) eqn:Ht; [done|]. destruct (sstart c o) as [pc|] eqn:Hs; [|done].
      injection H as <- <-. unfold total. simpl. rewrite !msum_insert_new by done.
      assert (wants pc = 0 /\ rest pc <= sasked (Lin.Inv t o : sevent)) as [? ?].
      { destruct o; simpl in Hs; try destruct (c_node_based c); simplify_eq/=; lia. }
      simpl in *. lia.
    - apply sstep_run in H as (pc & Ht & [(r & -> & -> & ->)|(x' & pc' & H & -> & ->)]).
      + unfold total, sreserved. simpl. pose proof (msum_delete wants _ _ _ Ht).
        pose proof (msum_delete rest _ _ _ Ht). simpl in *. lia.
      + unfold total, sreserved. simpl.
        pose proof (msum_insert wants _ _ _ pc' Ht). pose proof (msum_insert rest _ _ _ pc' Ht).
        apply tstep_peak in H as [Hr [Hle|[Hp _]]]; [|split; [lia|by right]]. lia.
    - cbn [sstep] in H. destruct (decide _) as [He|]; [|done].
      destruct (ucall c (s_sh s) o addrs thr) as [x' r| |] eqn:Hu; [|done..]. injection H as <- <-.
      unfold total, sreserved. rewrite He. cbn [s_pcs s_sh].
      change (msum rest ∅) with 0. change (msum wants ∅) with 0.
      split; [lia|].
      destruct o as [b v|b vs| |rev| |n|v|vs| |n]; simpl in Hu; try done; cbn [sum_list_with sasked].
      + apply upush_peak in Hu as [Hu|Hu]; [left; lia|by right|done].
      + destruct (c_node_based c); [|done]. left. destruct HQ as (a & Ha & HB).
        rewrite (inv_contents c _ _ _ HI Ha) in HB.
        pose proof (inv_quiet_size c _ _ Hth HI He) as Hsz. pose proof HI as [HG _].
        pose proof (gi_pi _ _ _ HG) as HP.
        eapply (urange_peak _ _ _ _ _ _ _ _ (g_fn g)) in Hu;
          [lia|done|apply HP|apply HP|].
        intros Hn. apply (pi_mem _ _ _ _ _ HP) in Hn. by eapply PI_not_null in Hn.
      + left. apply upop_dom, dom_size in Hu. lia.
      + destruct (c_node_based c); [|done]. left. apply ureserve_peak in Hu. lia.
  Qed.

  Context (Htag : c_tagmod c = None).

  Lemma all_reach P Q ns hist s :
    NoDup ns -> null ∉ ns -> sexec_all c P Q (sinit c ns) hist s -> sreach c ns hist s.
  Proof.
    intros Hnd Hnn He. induction He as [|hist s ch s' evs He IH Hok HQ Hs HP].
    - split; [done|]. split; [done|]. split; [by intros ? ? ?%elem_of_nil|constructor].
    - destruct IH as (_ & _ & Hh & IH). split; [done|]. split; [done|].
      split; [|by econstructor]. intros t o [Hin|Hin]%elem_of_app; [by eapply Hh|].
      clear - Hok Hs Hin. destruct ch as [t' o'|t' sp addr thr|t' o' addrs thr].
      + simpl in Hs. destruct (s_pcs s !! t'); [done|]. destruct (sstart c o'); [|done].
        injection Hs as _ <-. apply elem_of_list_singleton in Hin. by injection Hin as -> ->.
      + apply sstep_run in Hs as (pc & _ & [(r & _ & _ & ->)|(x' & pc' & _ & _ & ->)]).
        * by apply elem_of_list_singleton in Hin.
        * by apply elem_of_nil in Hin.
      + cbn [sstep] in Hs. destruct (decide _); [|done]. destruct (ucall _ _ _ _ _); [|done..].
        injection Hs as _ <-. apply elem_of_cons in Hin as [Hin|Hin].
        * by injection Hin as -> ->.
        * by apply elem_of_list_singleton in Hin.
  Qed.

  Lemma stack_peak ns B hist s :
    c_throws c = false -> NoDup ns -> null ∉ ns ->
    sexec_all c (sneeds B) (srange_needs c B) (sinit c ns) hist s ->
    size (s_heap (s_sh s)) <= length ns `max` B + sreserved hist.
  Proof using Htag.
    intros Hth Hnd Hnn He.
    enough (msum rest (s_pcs s) <= sreserved hist /\ total s <= length ns `max` B + sreserved hist) as [_ H].
    { unfold total in H. lia. }
    induction He as [(l & Hl & HB)|hist s ch s' evs He IH Hok HQ Hs HP].
    - assert (s_pcs (sinit c ns) = ∅) as Hp0.
      { unfold sinit. by destruct (pool_init c None ns). }
      unfold total, sreserved. rewrite Hp0. change (msum rest ∅) with 0. change (msum wants ∅) with 0.
      rewrite <- size_dom, sinit_dom, size_list_to_set by done. simpl. lia.
    - destruct IH as [IH1 IH2].
      destruct (sreach_ok c Htag _ _ _ (all_reach _ _ _ _ _ Hnd Hnn He)) as (g & HI & _).
      destruct (step_peak _ _ _ _ _ _ Hth HI HQ Hs) as [Hr Ht]. rewrite reserved_app.
      split; [lia|]. destruct Ht as [Ht|Ht]; [lia|].
      assert (sexec_all c (sneeds B) (srange_needs c B) (sinit c ns) (hist ++ evs) s') as He'
        by by econstructor.
      destruct HP as (l & Hl & HB).
      destruct (sreach_ok c Htag _ _ _ (all_reach _ _ _ _ _ Hnd Hnn He')) as (g' & HI' & _).
      pose proof (empty_peak _ _ _ Hth HI' Ht Hl). pose proof (wants_le (s_pcs s')).
      unfold total. lia.
  Qed.
End peak.
