(** * The stack on release/acquire memory with tags that wrap around behaves,
      within one tag period, like the one with unbounded tags *)
From stdpp Require Import gmap list numbers.
From Verif Require Import Lin LinObs PoolModel StackModel StackSpec StackObs StackWrapObs WrapPool StackWrap
  RaMem RaFacts RaLin RaStackModel RaStackObs RaStackKeep RaStackStep RaStackMain RaTags RaTagFacts RaStackWrapObs.

Set Default Proof Using "Type".

Definition mmsg (M : N) (m : tagged * view) : tagged * view := (mt M m.1, m.2).
Definition mw (M : N) (w : wmem) : wmem :=
  WMem (mmsg M <$> w_pool w) (w_poolv w) (mmsg M <$> w_tos w) (w_tosv w) (w_next w) (w_acc w).
Definition mrstate (M : N) (s : rstate) : rstate :=
  RSt (mshared M (r_x s)) (mw M (r_w s)) (mpc M <$> r_pcs s) (r_view s).
Definition maccess (M : N) (a : access) : access :=
  match a with XCas i old => XCas i (mt M old) | a => a end.
Definition mrout (M : N) (o : rout) : rout :=
  match o with RGo x w V pc => RGo (mshared M x) (mw M w) V (mpc M pc) | o => o end.
Definition mroutcome (M : N) (o : routcome) : routcome :=
  match o with RNext s evs => RNext (mrstate M s) evs | o => o end.

Definition rt (l : sloc) : root := match l with LTos => RTos | LPool => RPool end.
Definition rword (i : root) (x : sshared) : tagged := match i with RTos => s_tos x | RPool => s_pool x end.

Lemma xword_rt x l : xword x l = rword (rt l) x.
Proof. by destruct l. Qed.

Lemma hist_last i x w : hist i x w !! pred (length (hist i x w)) = Some (rword i x, match i with RPool => w_poolv w | RTos => w_tosv w end).
Proof.
  destruct i; simpl; unfold pool_hist, tos_hist; rewrite app_length; simpl;
    rewrite lookup_app_r by lia; by replace (_ - _) with 0 by lia.
Qed.

(** ** Forgetting the multiples of [M] *)
Section wrap.
  Context (c : cfg) (acq : bool) (M : N) (Hc : c_tagmod c = Some M) (HM : M <> 0%N).
  Notation c0 := (nowrap c).

  Lemma hist_mod i x w : hist i (mshared M x) (mw M w) = mmsg M <$> hist i x w.
  Proof. destruct i; simpl; unfold pool_hist, tos_hist; by rewrite fmap_app. Qed.
  Lemma see_mod i x v : see i (mshared M x) (mt M v) = mshared M (see i x v).
  Proof. by destruct i. Qed.
  Lemma push_msg_mod i x w V : push_msg i (mshared M x) (mw M w) V = mw M (push_msg i x w V).
  Proof. destruct i; simpl; unfold mw; simpl; unfold pool_hist, tos_hist; by rewrite fmap_app. Qed.
  Lemma saccess_mod pc : saccess c acq (mpc M pc) = maccess M (saccess c0 acq pc).
  Proof.
    destruct pc as [b v a|v n|top bot r|top bot old r|top bot old r|b vs|b vs k te a|b vs k te n
      |b vs k te n|cur| |old|old nxt|n|rev|rev old|n lst|n lst nxt|n k acc|n k acc|n k|n d k|k| |r]; simpl; try done.
    - destruct a as [|old|old nxt]; simpl; try done. by destruct (decide _).
    - destruct a as [|old|old nxt]; simpl; try done. by destruct (decide _).
    - by destruct d.
  Qed.
  Lemma compared_access pc l y : compared pc = Some (l, y) -> saccess c0 acq pc = XCas (rt l) y.
  Proof.
    destruct pc as [b v a|v n|top bot r|top bot old r|top bot old r|b vs|b vs k te a|b vs k te n
      |b vs k te n|cur| |old|old nxt|n|rev|rev old|n lst|n lst nxt|n k acc|n k acc|n k|n d k|k| |r]; simpl; try done;
      try (by intros [= <- <-]).
    - destruct a as [|old|old nxt]; simpl; try done. by intros [= <- <-].
    - destruct a as [|old|old nxt]; simpl; try done. by intros [= <- <-].
    - destruct d as [|old|old]; simpl; try done. by intros [= <- <-].
  Qed.

  Lemma rread_mod x w V o : rread (mshared M x) (mw M w) V (mtout M o) = mrout M (rread x w V o).
  Proof. by destruct o. Qed.
  Lemma rwrite_mod w V o : rwrite (mw M w) V (mtout M o) = mrout M (rwrite w V o).
  Proof. by destruct o. Qed.

  Lemma rtstep_mod x w V pc ts sp addr :
    (forall i old, saccess c0 acq pc = XCas i old -> clear M (rword i x) old) ->
    rtstep c acq (mshared M x) (mw M w) V (mpc M pc) ts sp addr = mrout M (rtstep c0 acq x w V pc ts sp addr).
  Proof using Hc HM.
    intros Hcl.
    assert (Ht : forall x' sp', (forall i old, saccess c0 acq pc = XCas i old -> sp' = false -> rword i x' = rword i x) ->
      tstep c (mshared M x') (mpc M pc) sp' addr false = mtout M (tstep c0 x' pc sp' addr false)).
    { intros x' sp' Hx'. apply (tstep_mod_sp c M Hc HM). intros l y Hcm Hsp. apply compared_access in Hcm.
      rewrite xword_rt, (Hx' _ _ Hcm Hsp). by apply Hcl. }
    unfold rtstep. rewrite saccess_mod. destruct (saccess c0 acq pc) as [|i a|i old|n|n|n] eqn:Ha; cbn [maccess].
    - rewrite Ht by done. apply rwrite_mod.
    - rewrite hist_mod, list_lookup_fmap. destruct (hist i x w !! ts) as [[v mv]|] eqn:Hh; [|done].
      cbn [fmap option_fmap option_map mmsg fst snd]. destruct (decide _); [|done].
      rewrite see_mod, Ht by done. apply rread_mod.
    - rewrite hist_mod, list_lookup_fmap, fmap_length. destruct (hist i x w !! ts) as [[v mv]|] eqn:Hh; [|done].
      cbn [fmap option_fmap option_map mmsg fst snd]. destruct (decide _); [|done].
      rewrite (decide_iff _ (S ts = length (hist i x w) /\ v = old /\ sp = false)).
      + destruct (decide _).
        * rewrite push_msg_mod, Ht by done. apply rwrite_mod.
        * rewrite see_mod, Ht by done. apply rread_mod.
      + split; intros (Hl & Hv & Hsp); (split; [done|]); split; try done; [|by rewrite Hv].
        assert (Hts : ts = pred (length (hist i x w))) by lia. rewrite Hts, hist_last in Hh.
        injection Hh as Hh _. subst v. by apply (Hcl i).
    - cbn [mshared s_heap]. rewrite mheap_lookup. destruct (s_heap x !! n) as [nd|] eqn:Hnd; [|done].
      cbn [fmap option_fmap option_map]. change (next_hist (mnode M nd) (mw M w) n) with (next_hist nd w n).
      destruct (next_hist nd w n !! ts) as [p|]; [|done]. destruct (decide _); [|done].
      assert (E : see_next (mshared M x) n p (mnode M nd) = mshared M (see_next x n p nd)).
      { unfold see_next, mshared. simpl. rewrite set_next_mod. by rewrite mheap_insert. }
      change (SSh (mheap M (s_heap x)) (mt M (s_pool x)) (mt M (s_tos x))) with (mshared M x).
      rewrite E, Ht by done. apply rread_mod.
    - cbn [mshared s_heap]. rewrite mheap_lookup. destruct (s_heap x !! n) as [nd|] eqn:Hnd; [|done].
      cbn [fmap option_fmap option_map]. change (w_next (mw M w) n) with (w_next w n). destruct (decide _); [|done].
      change (SSh (mheap M (s_heap x)) (mt M (s_pool x)) (mt M (s_tos x))) with (mshared M x).
      change (push_next (mw M w) n (nx (mnode M nd)).1) with (mw M (push_next w n (nx nd).1)).
      rewrite Ht by done. apply rwrite_mod.
    - change (w_acc (mw M w) n) with (w_acc w n). destruct (decide _); [|done].
      change (push_acc (mw M w) n) with (mw M (push_acc w n)). rewrite Ht by done. apply rwrite_mod.
  Qed.

  Definition rclear (s : rstate) : Prop :=
    forall t pc i old, r_pcs s !! t = Some pc -> saccess c0 acq pc = XCas i old -> clear M (rword i (r_x s)) old.

  Lemma rstep_mod s ch : rclear s -> rstep c acq (mrstate M s) ch = mroutcome M (rstep c0 acq s ch).
  Proof using Hc HM.
    intros Hs. destruct ch as [t o|t ts sp addr|t u]; cbn [rstep].
    - cbn [mrstate r_pcs]. rewrite lookup_fmap. destruct (r_pcs s !! t) as [pc|] eqn:Hpc; [done|]. simpl.
      change (sstart c0 o) with (sstart c o).
      destruct (sstart c o) as [pc|] eqn:Hst; [|done]. simpl. f_equal. unfold mrstate. simpl.
      rewrite fmap_insert. f_equal. f_equal.
      destruct o; simpl in Hst; repeat case_decide; repeat case_match; by simplify_eq/=.
    - cbn [mrstate r_pcs r_x r_w r_view]. rewrite lookup_fmap. destruct (r_pcs s !! t) as [pc|] eqn:Hpc; [|done].
      cbn [fmap option_fmap option_map]. specialize (Hs t pc).
      pose proof (rtstep_mod (r_x s) (r_w s) (r_view s t) pc ts sp addr) as Hm.
      assert (Hd : (exists r, pc = PcRet r) \/
        forall A (f : sret -> A) (g : A),
          match mpc M pc with PcRet r => f r | _ => g end = g /\ match pc with PcRet r => f r | _ => g end = g).
      { destruct pc; try (right; split; reflexivity). left. eauto. }
      destruct Hd as [[r ->]|Hd].
      + simpl. unfold mrstate. simpl. by rewrite fmap_delete.
      + rewrite (proj1 (Hd _ _ _)), (proj2 (Hd _ _ _)), Hm by (intros i old; by apply Hs).
        destruct (rtstep c0 acq _ _ _ _ _ _ _) as [x w V pc'| | |]; [|done..].
        simpl. unfold mrstate. simpl. by rewrite fmap_insert.
    - done.
  Qed.

  Lemma rinit_mod ns : rinit c ns = mrstate M (rinit c0 ns).
  Proof using HM.
    unfold rinit. rewrite (sinit_mod c M HM). unfold mrstate. simpl. by rewrite fmap_empty.
  Qed.
End wrap.

(** ** A thread holds only words it has read, and tags grow by at most one *)
Section grow.
  Context (c : cfg) (acq : bool) (Htag : c_tagmod c = None).

  Lemma held_ra b vs k te a : held (PcRAlloc b vs k te a) = held (PcAlloc b 0 a).
  Proof. by destruct a. Qed.

  Lemma tstep_reads x pc sp addr thr x' pc' l y :
    tstep c x pc sp addr thr = TGo x' pc' -> (l, y) ∈ held pc' ->
    match saccess c acq pc with
    | XLoad i _ | XCas i _ => rt l = i /\ y = xword x l
    | _ => (l, y) ∈ held pc
    end.
  Proof.
    intros Hs Hin.
    destruct pc as [b v a|v n|top bot r|top bot old r|top bot old r|b vs|b vs k te a|b vs k te n
      |b vs k te n|cur| |old|old nxt|n|rev|rev old|n lst|n lst nxt|n k acc|n k acc|n k|n d k|[|k]| |r];
      cbn [tstep] in Hs; cbn [saccess];
      try (repeat match type of Hs with
             | context [match ?y with _ => _ end] =>
                 lazymatch y with context [match _ with _ => _ end] => fail
                 | astep _ _ _ _ _ _ _ _ => fail | dstep _ _ _ _ _ => fail | _ => destruct y as [] eqn:? end
             end; try discriminate Hs; injection Hs as <- <-;
           first [by apply elem_of_nil in Hin | exact Hin
                 | apply elem_of_list_singleton in Hin as [= -> ->]; done
                 | rewrite ?r_next_held, ?r_catch_held in Hin; by apply elem_of_nil in Hin]).
    - destruct a as [|old|old nxt]; cbn [astep aaccess] in Hs |- *.
      + injection Hs as <- <-. by apply elem_of_list_singleton in Hin as [= -> ->].
      + assert (Hd : pc' = PcAlloc b v (ATest old) \/ (exists p, pc' = PcAlloc b v (ACas old p)) \/ held pc' = []).
        { repeat case_match; simplify_eq/=; eauto. }
        assert (Hin' : (l, y) ∈ held (PcAlloc b v (ATest old))).
        { destruct Hd as [->|[[p ->]| Hd]]; [done|done|]. rewrite Hd in Hin. by apply elem_of_nil in Hin. }
        destruct (decide _); exact Hin'.
      + destruct (decide _); injection Hs as <- <-; [by apply elem_of_nil in Hin|].
        by apply elem_of_list_singleton in Hin as [= -> ->].
    - destruct a as [|old|old nxt]; cbn [astep aaccess] in Hs |- *.
      + injection Hs as <- <-. by apply elem_of_list_singleton in Hin as [= -> ->].
      + assert (Hd : (exists p, pc' = PcRAlloc b vs k te (ACas old p)) \/ held pc' = []).
        { destruct te; repeat case_match; simplify_eq/=; eauto. }
        assert (Hin' : (l, y) ∈ held (PcRAlloc b vs k te (ATest old))).
        { destruct Hd as [[p ->]| Hd]; [done|]. rewrite Hd in Hin. by apply elem_of_nil in Hin. }
        destruct (decide _); exact Hin'.
      + destruct (decide _); injection Hs as <- <-; [by apply elem_of_nil in Hin|].
        by apply elem_of_list_singleton in Hin as [= -> ->].
    - injection Hs as <- <-. apply c_test_held in Hin as [-> ->]. done.
    - destruct (decide _); injection Hs as <- <-; [by apply elem_of_nil in Hin|].
      apply c_test_held in Hin as [-> ->]. done.
    - injection Hs as <- <-. apply a_test_held in Hin as [-> ->]. done.
    - destruct (decide _); injection Hs as <- <-; [destruct rev; by apply elem_of_nil in Hin|].
      apply a_test_held in Hin as [-> ->]. done.
    - destruct d as [|old|old]; cbn [dstep daccess] in Hs |- *.
      + injection Hs as <- <-. by apply elem_of_list_singleton in Hin as [= -> ->].
      + destruct (_ !! n) as [nd|] eqn:Hn; [|discriminate Hs]. injection Hs as <- <-. exact Hin.
      + destruct (decide _); injection Hs as <- <-; [rewrite kgo_held in Hin; by apply elem_of_nil in Hin|].
        by apply elem_of_list_singleton in Hin as [= -> ->].
  Qed.
End grow.

Section effect.
  Context (c : cfg) (Htag : c_tagmod c = None).

  Lemma hist_eq i x w x' w' :
    rword i x' = rword i x -> w_pool w' = w_pool w -> w_poolv w' = w_poolv w -> w_tos w' = w_tos w -> w_tosv w' = w_tosv w ->
    hist i x' w' = hist i x w.
  Proof. intros H1 H2 H3 H4 H5. destruct i; simpl in *; unfold pool_hist, tos_hist; by rewrite H1, ?H2, ?H3, ?H4, ?H5. Qed.

  Lemma rtstep_effect x w V pc ts sp addr x' w' V' pc' :
    rtstep c true x w V pc ts sp addr = RGo x' w' V' pc' ->
    (forall i, hist i x' w' = hist i x w \/
      exists m, hist i x' w' = hist i x w ++ [m] /\ (m.1.2 = (rword i x).2 \/ m.1.2 = (rword i x).2 + 1)%N) /\
    (forall l y, (l, y) ∈ held pc' ->
      match saccess c true pc with
      | XLoad i _ | XCas i _ => rt l = i /\ (hist i x' w').*1 !! ts = Some y
      | _ => (l, y) ∈ held pc
      end).
  Proof using Htag.
    unfold rtstep. intros Hs.
    assert (Hroots : match saccess c true pc with XCas _ _ => False | _ => True end ->
      forall x1 x2 pc2, tstep c x1 pc sp addr false = TGo x2 pc2 -> forall i, rword i x2 = rword i x1).
    { intros Ha x1 x2 pc2 Ht. destruct (tstep_roots c x1 pc sp addr x2 pc2 Ha Ht). by intros []. }
    pose proof (fun x1 sp1 x2 pc2 l y => tstep_reads c true x1 pc sp1 addr false x2 pc2 l y) as Hreads.
    destruct (saccess c true pc) as [|i a|i old|n|n|n] eqn:Ha.
    - unfold rwrite in Hs. destruct (tstep c x pc sp addr false) as [x2 pc2| |] eqn:Ht; try done.
      injection Hs as <- <- <- <-. split.
      + intros i. left. apply hist_eq; try done. by apply (Hroots I _ _ _ Ht).
      + intros l y Hin. by apply (Hreads _ _ _ _ _ _ Ht).
    - destruct (hist i x w !! ts) as [[v mv]|] eqn:Hh; [|done]. destruct (decide _) as [Hdec|]; [|done].
      unfold rread in Hs. destruct (tstep c (see i x v) pc sp addr false) as [x2 pc2| |] eqn:Ht; try done.
      injection Hs as <- <- <- <-. split; [by left|]. intros l y Hin.
      destruct (Hreads _ _ _ _ _ _ Ht Hin) as [Hl ->]. split; [done|].
      rewrite list_lookup_fmap, Hh. simpl. by destruct i, l.
    - destruct (hist i x w !! ts) as [[v mv]|] eqn:Hh; [|done]. destruct (decide _) as [Hdec|]; [|done].
      destruct (decide _) as [(Hts & Hv & Hsp)|Hf].
      + assert (Hold : rword i x = old).
        { assert (Hts' : ts = pred (length (hist i x w))) by lia. rewrite Hts', hist_last in Hh. by injection Hh as -> _. }
        unfold rwrite in Hs. destruct (tstep c x pc false addr false) as [x2 pc2| |] eqn:Ht; try done.
        injection Hs as <- <- <- <-.
        pose proof (tstep_grow c Htag x pc false addr false x2 pc2 Ht) as [Hg _].
        assert (Hi : hist i x2 (push_msg i x w (vset (vjoin V mv) (rloc i) (S ts))) = hist i x w ++ [(rword i x2, vset (vjoin V mv) (rloc i) (S ts))]).
        { by destruct i. }
        split.
        * intros i'. destruct (decide (i' = i)) as [->|Hne].
          -- right. eexists. split; [exact Hi|]. simpl. destruct i; [apply (Hg LPool)|apply (Hg LTos)].
          -- left. destruct i, i'; try done; simpl; unfold pool_hist, tos_hist; simpl.
             ++ by rewrite (proj2 (tstep_cas_pool c x pc old addr x2 pc2 Ha Hold Ht)).
             ++ by rewrite (proj2 (tstep_cas_tos c x pc old addr x2 pc2 Ha Hold Ht)).
        * intros l y Hin. destruct (Hreads _ _ _ _ _ _ Ht Hin) as [Hl ->]. split; [done|].
          rewrite Hi, list_lookup_fmap, (lookup_app_l_Some _ _ _ _ Hh). simpl. by rewrite Hv, <- Hold, xword_rt, Hl.
      + unfold rread in Hs. destruct (tstep c (see i x v) pc true addr false) as [x2 pc2| |] eqn:Ht; try done.
        injection Hs as <- <- <- <-. split; [by left|]. intros l y Hin.
        destruct (Hreads _ _ _ _ _ _ Ht Hin) as [Hl ->]. split; [done|].
        rewrite list_lookup_fmap, Hh. simpl. by destruct i, l.
    - destruct (s_heap x !! n) as [nd|]; [|done]. destruct (next_hist nd w n !! ts) as [p|]; [|done].
      destruct (decide _) as [Hdec|]; [|done]. unfold rread in Hs.
      destruct (tstep c (see_next x n p nd) pc sp addr false) as [x2 pc2| |] eqn:Ht; try done.
      injection Hs as <- <- <- <-. split; [by left|]. intros l y Hin. by apply (Hreads _ _ _ _ _ _ Ht).
    - destruct (s_heap x !! n) as [nd|]; [|done]. destruct (decide _) as [Hdec|]; [|done]. unfold rwrite in Hs.
      destruct (tstep c x pc sp addr false) as [x2 pc2| |] eqn:Ht; try done.
      injection Hs as <- <- <- <-. split.
      + intros i. left. apply hist_eq; try done. by apply (Hroots I _ _ _ Ht).
      + intros l y Hin. by apply (Hreads _ _ _ _ _ _ Ht).
    - destruct (decide _) as [Hdec|]; [|done]. unfold rwrite in Hs.
      destruct (tstep c x pc sp addr false) as [x2 pc2| |] eqn:Ht; try done.
      injection Hs as <- <- <- <-. split.
      + intros i. left. apply hist_eq; try done. by apply (Hroots I _ _ _ Ht).
      + intros l y Hin. by apply (Hreads _ _ _ _ _ _ Ht).
  Qed.

  (** ** The invariant of the machine with unbounded tags *)
  Definition jinv (s : rstate) (k : nat -> root -> option nat) : Prop :=
    (forall i, stepwise (hist i (r_x s) (r_w s)).*1) /\
    (forall t pc l y, r_pcs s !! t = Some pc -> (l, y) ∈ held pc ->
      exists j, k t (rt l) = Some j /\ (hist (rt l) (r_x s) (r_w s)).*1 !! j = Some y).

  Lemma hist_last_val i x w : list.last (hist i x w).*1 = Some (rword i x).
  Proof. destruct i; simpl; unfold pool_hist, tos_hist; rewrite fmap_app; simpl; by rewrite last_snoc. Qed.

  Lemma sstart_held o pc : sstart c o = Some pc -> held pc = [].
  Proof. destruct o; simpl; repeat case_decide; repeat case_match; intros; by simplify_eq/=. Qed.

  Lemma jinv_init ns k : jinv (rinit c ns) k.
  Proof.
    split.
    - intros i j a b _ Hb. by destruct i, j.
    - intros t pc l y Hpc. simpl in Hpc. by rewrite lookup_empty in Hpc.
  Qed.

  Lemma jinv_step s k ch s' evs :
    jinv s k -> rstep c true s ch = RNext s' evs -> jinv s' (last_read c true k s ch).
  Proof using Htag.
    intros [Hw Hh] Hs. destruct ch as [t o|t ts sp addr|t u]; cbn [rstep] in Hs.
    - destruct (r_pcs s !! t) as [|] eqn:Ht; [done|]. destruct (sstart c o) as [pc|] eqn:Ho; [|done].
      injection Hs as <- <-. split; [done|]. simpl. intros t' pc' l y Hpc' Hin. unfold last_read.
      destruct (decide (t = t')) as [<-|Hne].
      + rewrite lookup_insert in Hpc'. injection Hpc' as <-. rewrite (sstart_held _ _ Ho) in Hin. by apply elem_of_nil in Hin.
      + rewrite lookup_insert_ne in Hpc' by done. by apply (Hh t' pc').
    - destruct (r_pcs s !! t) as [pc|] eqn:Ht; [|done].
      assert (Hd : (exists r, pc = PcRet r) \/
        match rtstep c true (r_x s) (r_w s) (r_view s t) pc ts sp addr with
        | RGo x w V pc' => RNext (RSt x w (<[t := pc']> (r_pcs s)) (set_view (r_view s) t V)) []
        | RGRace => RRace
        | RGUB => RUB
        | RGDisabled => RDisabled
        end = RNext s' evs) by (destruct pc; try (by right); left; eauto).
      destruct Hd as [[r ->]|Hd].
      + injection Hs as <- <-. split; [done|]. simpl. intros t' pc' l y Hpc' Hin. unfold last_read.
        destruct (decide (t = t')) as [<-|Hne]; [by rewrite lookup_delete in Hpc'|].
        rewrite lookup_delete_ne in Hpc' by done. by apply (Hh t' pc').
      + clear Hs. destruct (rtstep c true _ _ _ _ _ _ _) as [x w V pc'| | |] eqn:Hr; try done.
        injection Hd as <- <-. apply rtstep_effect in Hr as [He Hl]. split; simpl.
        * intros i. destruct (He i) as [->|(m & -> & Hm)]; [done|]. rewrite fmap_app.
          by apply (stepwise_snoc _ (rword i (r_x s))); [|apply hist_last_val|].
        * assert (Hpre : forall i j y, (hist i (r_x s) (r_w s)).*1 !! j = Some y -> (hist i x w).*1 !! j = Some y).
          { intros i j y Hy. destruct (He i) as [->|(m & -> & _)]; [done|]. rewrite fmap_app. by apply lookup_app_l_Some. }
          intros t' pc'' l y Hpc'' Hin. unfold last_read. destruct (decide (t = t')) as [<-|Hne].
          -- rewrite lookup_insert in Hpc''. injection Hpc'' as <-. rewrite Ht. specialize (Hl l y Hin).
             assert (Hk : (l, y) ∈ held pc -> exists j, k t (rt l) = Some j /\ (hist (rt l) x w).*1 !! j = Some y).
             { intros Hi. destruct (Hh t pc l y Ht Hi) as (j & Hj & Hy). exists j. split; [done|]. by apply Hpre. }
             destruct (saccess c true pc) as [|i a|i old|n|n|n]; try by apply Hk.
             ++ destruct Hl as [<- Hl]. exists ts. by rewrite decide_True.
             ++ destruct Hl as [<- Hl]. exists ts. by rewrite decide_True.
          -- rewrite lookup_insert_ne in Hpc'' by done. destruct (Hh t' pc'' l y Hpc'' Hin) as (j & Hj & Hy).
             exists j. split; [done|]. by apply Hpre.
    - injection Hs as <- <-. done.
  Qed.
End effect.

(** ** The simulation *)
Section sim.
  Context (c : cfg) (M : N) (Hc : c_tagmod c = Some M) (HM : (2 <= M)%N).
  Notation c0 := (nowrap c).

  Lemma access_held pc i old : saccess c0 true pc = XCas i old -> exists l, rt l = i /\ (l, old) ∈ held pc.
  Proof.
    clear Hc HM M.
    destruct pc as [b v a|v n|top bot r|top bot old' r|top bot old' r|b vs|b vs k te a|b vs k te n
      |b vs k te n|cur| |old'|old' nxt|n|rev|rev old'|n lst|n lst nxt|n k acc|n k acc|n k|n d k|k| |r]; simpl; try done;
      try (intros [= <- <-]; exists LTos; split; [done|by apply elem_of_list_singleton]).
    - destruct a as [|old'|old' nxt]; simpl; [done|by destruct (decide _)|]. intros [= <- <-].
      exists LPool. split; [done|by apply elem_of_list_singleton].
    - destruct a as [|old'|old' nxt]; simpl; [done|by destruct (decide _)|]. intros [= <- <-].
      exists LPool. split; [done|by apply elem_of_list_singleton].
    - destruct d as [|old'|old']; simpl; try done. intros [= <- <-].
      exists LPool. split; [done|by apply elem_of_list_singleton].
  Qed.

  Lemma last_read_mod k s ch t i : last_read c true k (mrstate M s) ch t i = last_read c0 true k s ch t i.
  Proof using HM.
    unfold last_read. destruct ch as [t' o|t' ts sp addr|t' u]; try done. simpl.
    rewrite lookup_fmap. destruct (r_pcs s !! t) as [pc|]; [|done]. simpl. rewrite saccess_mod.
    by destruct (saccess c0 true pc).
  Qed.

  Lemma updates_mod s i j :
    updates_since (mrstate M s) i j = tag_updates (drop j (mt M <$> (hist i (r_x s) (r_w s)).*1)).
  Proof using HM.
    unfold updates_since. simpl. rewrite hist_mod. by rewrite <- !list_fmap_compose.
  Qed.

  Lemma jinv_clear s k :
    jinv s k ->
    (forall t i j, is_Some (r_pcs s !! t) -> k t i = Some j -> (N.of_nat (updates_since (mrstate M s) i j) < M)%N) ->
    rclear c true M s.
  Proof using HM.
    intros [Hw Hh] Hk t pc i old Hpc Hx. apply access_held in Hx as (l & <- & Hl).
    destruct (Hh t pc l old Hpc Hl) as (j & Hj & Hy).
    specialize (Hk t (rt l) j (mk_is_Some _ _ Hpc) Hj). rewrite updates_mod in Hk.
    by apply (stepwise_near M _ j _ _ HM (Hw _) Hy (hist_last_val _ _ _)).
  Qed.

  Lemma rwexec_sim ns tr s k :
    rwexec c true M (rinit c ns) tr s k ->
    exists s0 k0, rexec c0 true (rinit c0 ns) tr s0 /\ s = mrstate M s0 /\ jinv s0 k0 /\ (forall t i, k0 t i = k t i) /\
      rclear c true M s0.
  Proof using Hc HM.
    induction 1 as [|tr s k ch s' evs _ IH Hs Hb].
    - exists (rinit c0 ns), (fun _ _ => None). split; [constructor|]. split; [apply rinit_mod; lia|].
      split; [apply jinv_init|]. split; [done|]. intros t pc i old Hpc. simpl in Hpc. by rewrite lookup_empty in Hpc.
    - destruct IH as (s0 & k0 & He & -> & Hj & Hk & Hcl).
      rewrite (rstep_mod c true M Hc ltac:(lia)) in Hs by done.
      destruct (rstep c0 true s0 ch) as [s1 evs1| | |] eqn:Hs0; try done. simpl in Hs. injection Hs as <- <-.
      pose proof (jinv_step c0 eq_refl s0 k0 ch s1 evs1 Hj Hs0) as Hj1.
      assert (Hkk : forall t i, last_read c0 true k0 s0 ch t i = last_read c true k (mrstate M s0) ch t i).
      { intros t i. rewrite last_read_mod. unfold last_read. destruct ch; try done; repeat case_match; by rewrite ?Hk. }
      exists s1, (last_read c0 true k0 s0 ch). split; [by econstructor|]. split; [done|]. split; [done|]. split; [done|].
      apply (jinv_clear _ _ Hj1). intros t i j Ht Hr. rewrite Hkk in Hr. apply (Hb t i j); [|done].
      simpl. rewrite lookup_fmap. by apply fmap_is_Some.
  Qed.
End sim.
