(** * The queue on release/acquire memory with tags that wrap around behaves,
      within one tag period, like the one with unbounded tags *)
From stdpp Require Import gmap list numbers.
From Verif Require Import Lin PoolModel QueueModel QueueObs RaMem RaFacts RaQueueModel RaQueueObs
  QueueWrapObs WrapPool QueueWrap RaTags RaTagFacts RaQueueWrapObs.

Set Default Proof Using "Type".

Definition mmsg (M : N) (m : tagged * view) : tagged * view := (mt M m.1, m.2).

(** [w] is [w0] without the multiples of [M]. *)
Record mwr (M : N) (w0 w : wmem) : Prop := {
  mw_pool : w_pool w = mmsg M <$> w_pool w0;
  mw_poolv : w_poolv w = w_poolv w0;
  mw_head : w_head w = mmsg M <$> w_head w0;
  mw_headv : w_headv w = w_headv w0;
  mw_tail : w_tail w = mmsg M <$> w_tail w0;
  mw_tailv : w_tailv w = w_tailv w0;
  mw_next : forall n, w_next w n = mmsg M <$> w_next w0 n;
  mw_nextv : forall n, w_nextv w n = w_nextv w0 n;
  mw_acc : forall n, w_acc w n = w_acc w0 n;
}.
Record msr (M : N) (s0 s : rstate) : Prop := {
  ms_x : r_x s = mshared M (r_x s0);
  ms_w : mwr M (r_w s0) (r_w s);
  ms_pcs : r_pcs s = mpc M <$> r_pcs s0;
  ms_view : r_view s = r_view s0;
}.
Definition maccess (M : N) (a : access) : access :=
  match a with XCas i old st => XCas i (mt M old) st | XNCas n old => XNCas n (mt M old) | a => a end.
Definition moutr (M : N) (o0 o : rout) : Prop :=
  match o0, o with
  | RGo x0 w0 V0 pc0, RGo x w V pc => x = mshared M x0 /\ mwr M w0 w /\ V = V0 /\ pc = mpc M pc0
  | RGRace, RGRace | RGUB, RGUB | RGDisabled, RGDisabled => True
  | _, _ => False
  end.
Definition mnextr (M : N) (o0 o : routcome) : Prop :=
  match o0, o with
  | RNext s0 evs0, RNext s evs => msr M s0 s /\ evs = evs0
  | RRace, RRace | RUB, RUB | RDisabled, RDisabled => True
  | _, _ => False
  end.

(** The location of a word in views. *)
Definition view_loc (l : qloc) : loc :=
  match l with LHead => LRoot 1 | LTail => LRoot 2 | LPool => LRoot 0 | LNext n => RaMem.LNext n end.
Lemma view_root i : view_loc (root_loc i) = rloc i.
Proof. by destruct i. Qed.
Lemma values_root x w i : values x w (root_loc i) = (hist i x w).*1.
Proof. by destruct i. Qed.
Lemma xword_see i x v : xword (see i x v) (root_loc i) = Some v.
Proof. by destruct i. Qed.
Lemma xword_hist i x w v mv ts : hist i x w !! ts = Some (v, mv) -> S ts = length (hist i x w) -> xword x (root_loc i) = Some v.
Proof.
  intros Hv Hl.
  assert (E : hist i x w !! pred (length (hist i x w)) = Some (v, mv)) by by rewrite <- Hl.
  destruct i; simpl in *; rewrite app_length in E; simpl in E; rewrite lookup_app_r in E by lia;
    replace (_ - _) with 0 in E by lia; simpl in E; by injection E as -> _.
Qed.

(** ** Forgetting the multiples of [M] *)
Section wrap.
  Context (c : cfg) (rel : bool) (M : N) (Hc : c_tagmod c = Some M) (HM : M <> 0%N).
  Notation c0 := (nowrap c).

  Lemma hist_mod i x w0 w : mwr M w0 w -> hist i (mshared M x) w = mmsg M <$> hist i x w0.
  Proof. intros H. destruct i; simpl; rewrite fmap_app.
    - by rewrite (mw_pool _ _ _ H), (mw_poolv _ _ _ H).
    - by rewrite (mw_head _ _ _ H), (mw_headv _ _ _ H).
    - by rewrite (mw_tail _ _ _ H), (mw_tailv _ _ _ H).
  Qed.
  Lemma nhist_mod nd n w0 w : mwr M w0 w -> nhist (mnode M nd) w n = mmsg M <$> nhist nd w0 n.
  Proof.
    intros H. unfold nhist. by rewrite fmap_app, (mw_next _ _ _ H), (mw_nextv _ _ _ H).
  Qed.
  Lemma see_mod i x v : see i (mshared M x) (mt M v) = mshared M (see i x v).
  Proof. by destruct i. Qed.
  Lemma see_next_mod x n v nd : see_next (mshared M x) n (mt M v) (mnode M nd) = mshared M (see_next x n v nd).
  Proof. unfold see_next, set_heap, mshared. simpl. by rewrite mheap_insert. Qed.
  Lemma see_word_mod x n k v nd : see_word (mshared M x) n k v (mnode M nd) = mshared M (see_word x n k v nd).
  Proof. unfold see_word, set_heap, mshared. simpl. by rewrite mheap_insert. Qed.

  Lemma push_msg_mod i x w0 w V : mwr M w0 w -> mwr M (push_msg i x w0 V) (push_msg i (mshared M x) w V).
  Proof.
    intros H. pose proof (hist_mod i x w0 w H) as E. destruct H.
    destruct i; (split; [..|done|done|done]); simpl in *; rewrite ?E; done.
  Qed.
  Lemma push_next_mod nd n w0 w V : mwr M w0 w -> mwr M (push_next nd w0 n V) (push_next (mnode M nd) w n V).
  Proof.
    intros H. pose proof (nhist_mod nd n w0 w H) as E. destruct H.
    split; try done; simpl; intros m; unfold fupd; by destruct (decide _).
  Qed.
  Lemma push_acc_mod n w0 w : mwr M w0 w -> mwr M (push_acc w0 n) (push_acc w n).
  Proof. intros []. split; try done; simpl. intros m. unfold fupd. destruct (decide _); [|done]. by rewrite mw_acc0. Qed.

  Lemma qaccess_mod pc : qaccess c (mpc M pc) = maccess M (qaccess c0 pc).
  Proof.
    destruct pc as [b v a|v n k|n tag|n|n tl|n tl nx'|n tl nx'|n tl|n tl np| |hd|hd tl|hd tl nx'|tl np
                   |hd np acc|n d k|k| |hh| |tl|r]; simpl; try done.
    - destruct a as [|old|old nxt]; simpl; try done. by destruct (decide _).
    - by destruct (v !! k).
    - by destruct (decide _).
    - by destruct d.
  Qed.
  Lemma reads_mod pc : reads c (mpc M pc) = reads c0 pc.
  Proof. unfold reads. rewrite qaccess_mod. by destruct (qaccess c0 pc). Qed.

  Lemma compared_access pc :
    match qaccess c0 pc with
    | XLoad i => forall l y, compared c pc = Some (l, y) -> l = root_loc i
    | XCas i old _ => compared c pc = Some (root_loc i, old)
    | XNCas n old => compared c pc = Some (LNext n, old)
    | _ => compared c pc = None
    end.
  Proof.
    destruct pc as [b v a|v n k|n tag|n|n tl|n tl nx'|n tl nx'|n tl|n tl np| |hd|hd tl|hd tl nx'|tl np
                   |hd np acc|n d k|k| |hh| |tl|r]; simpl; try done; try (intros l y [= <- <-]; done).
    - destruct a as [|old|old nxt]; simpl; try done. by destruct (decide _).
    - by destruct (v !! k).
    - change (c_words c0) with (c_words c). by destruct (decide _).
    - by destruct d.
  Qed.

  Lemma rread_mod x w0 w V o : mwr M w0 w -> moutr M (rread x w0 V o) (rread (mshared M x) w V (mtout M o)).
  Proof. by destruct o. Qed.
  Lemma rwrite_mod w0 w V o : mwr M w0 w -> moutr M (rwrite w0 V o) (rwrite w V (mtout M o)).
  Proof. by destruct o. Qed.

  (** The thread will not mistake an old value for the one it compares with. *)
  Definition vclear (x : qshared) (w : wmem) (V : view) (pc : qpc) : Prop :=
    forall l y ts v, compared c pc = Some (l, y) -> V (view_loc l) <= ts -> values x w l !! ts = Some v -> clear M v y.

  Lemma rstore_mod x w0 w V n r o :
    mwr M w0 w -> moutr M (rstore x w0 V n r o) (rstore (mshared M x) w V n r (mtout M o)).
  Proof.
    intros Hw. unfold rstore. rewrite mshared_heap, mheap_lookup.
    destruct (q_heap x !! n) as [nd|]; [|done]. cbn [fmap option_fmap option_map].
    rewrite (mw_next _ _ _ Hw), fmap_length. destruct (decide _); [|done].
    apply rwrite_mod. by apply push_next_mod.
  Qed.

  Lemma rtstep_mod x w0 w V pc ts sp addr junk :
    mwr M w0 w -> vclear x w0 V pc ->
    moutr M (rtstep c0 rel x w0 V pc ts sp addr junk) (rtstep c rel (mshared M x) w V (mpc M pc) ts sp addr junk).
  Proof using Hc HM.
    intros Hw Hcl. pose proof (compared_access pc) as Hca.
    assert (Ht : forall x' sp', (forall l y z, compared c pc = Some (l, y) -> xword x' l = Some z -> clear M z y) ->
      tstep c (mshared M x') (mpc M pc) sp' addr false = mtout M (tstep c0 x' pc sp' addr false)).
    { intros x' sp' Hx'. by apply (tstep_mod_c c M Hc HM). }
    unfold rtstep. rewrite qaccess_mod. destruct (qaccess c0 pc) as [|i|i old st|n a|n old|n|n|n|n|n k]; cbn [maccess];
      try (assert (Hn : forall x' sp', tstep c (mshared M x') (mpc M pc) sp' addr false = mtout M (tstep c0 x' pc sp' addr false));
           [intros x' sp'; apply Ht; intros l y z Hcm; congruence|]).
    - rewrite Hn. by apply rwrite_mod.
    - rewrite (hist_mod _ _ _ _ Hw), list_lookup_fmap. destruct (hist i x w0 !! ts) as [[v mv]|] eqn:Hh; [|done].
      cbn [fmap option_fmap option_map mmsg fst snd]. destruct (decide _) as [Hle|]; [|done].
      rewrite see_mod, Ht; [by apply rread_mod|]. intros l y z Hcm Hz. pose proof (Hca _ _ Hcm) as ->.
      rewrite xword_see in Hz. injection Hz as <-. apply (Hcl _ y ts v Hcm).
      + by rewrite view_root.
      + by rewrite values_root, list_lookup_fmap, Hh.
    - rewrite (hist_mod _ _ _ _ Hw), list_lookup_fmap, fmap_length.
      destruct (hist i x w0 !! ts) as [[v mv]|] eqn:Hh; [|done].
      cbn [fmap option_fmap option_map mmsg fst snd]. destruct (decide _) as [Hle|]; [|done].
      assert (Hv : clear M v old).
      { apply (Hcl _ old ts v Hca); [by rewrite view_root|by rewrite values_root, list_lookup_fmap, Hh]. }
      rewrite (decide_iff (S ts = length (hist i x w0) /\ mt M v = mt M old /\ (st = true \/ sp = false))
                 (S ts = length (hist i x w0) /\ v = old /\ (st = true \/ sp = false)))
        by by rewrite (eq_iff M v old Hv).
      rewrite (decide_iff (st = true /\ mt M v = mt M old) (st = true /\ v = old)) by by rewrite (eq_iff M v old Hv).
      destruct (decide _) as [(Hl & -> & _)|].
      + rewrite Ht; [by apply rwrite_mod, push_msg_mod|]. intros l y z Hcm Hz. rewrite Hca in Hcm. injection Hcm as <- <-.
        rewrite (xword_hist _ _ _ _ _ _ Hh Hl) in Hz. by injection Hz as <-.
      + destruct (decide _); [done|]. rewrite see_mod, Ht; [by apply rread_mod|].
        intros l y z Hcm Hz. rewrite Hca in Hcm. injection Hcm as <- <-.
        rewrite xword_see in Hz. by injection Hz as <-.
    - rewrite mshared_heap, mheap_lookup. destruct (q_heap x !! n) as [nd|] eqn:Hnd; [|done].
      cbn [fmap option_fmap option_map]. rewrite (nhist_mod _ _ _ _ Hw), list_lookup_fmap.
      destruct (nhist nd w0 n !! ts) as [[v mv]|] eqn:Hh; [|done].
      cbn [fmap option_fmap option_map mmsg fst snd]. destruct (decide _) as [Hle|]; [|done].
      rewrite see_next_mod, Hn. by apply rread_mod.
    - rewrite mshared_heap, mheap_lookup. destruct (q_heap x !! n) as [nd|] eqn:Hnd; [|done].
      cbn [fmap option_fmap option_map]. rewrite (nhist_mod _ _ _ _ Hw), list_lookup_fmap, fmap_length.
      destruct (nhist nd w0 n !! ts) as [[v mv]|] eqn:Hh; [|done].
      cbn [fmap option_fmap option_map mmsg fst snd]. destruct (decide _) as [Hle|]; [|done].
      assert (Hv : clear M v old).
      { apply (Hcl _ old ts v Hca); [done|]. simpl. by rewrite Hnd, list_lookup_fmap, Hh. }
      rewrite (decide_iff (S ts = length (nhist nd w0 n) /\ mt M v = mt M old /\ sp = false)
                 (S ts = length (nhist nd w0 n) /\ v = old /\ sp = false))
        by by rewrite (eq_iff M v old Hv).
      destruct (decide _) as [(Hl & -> & _)|].
      + rewrite Ht; [by apply rwrite_mod, push_next_mod|]. intros l y z Hcm Hz. rewrite Hca in Hcm. injection Hcm as <- <-.
        simpl in Hz. rewrite Hnd in Hz. injection Hz as <-.
        assert (E : nhist nd w0 n !! pred (length (nhist nd w0 n)) = Some (old, mv)) by by rewrite <- Hl.
        unfold nhist in E. rewrite app_length in E. simpl in E. rewrite lookup_app_r in E by lia.
        replace (_ - _) with 0 in E by lia. simpl in E. injection E as -> _. done.
      + rewrite see_next_mod, Ht; [by apply rread_mod|].
        intros l y z Hcm Hz. rewrite Hca in Hcm. injection Hcm as <- <-.
        simpl in Hz. rewrite lookup_insert in Hz. by injection Hz as <-.
    - rewrite Hn. by apply rstore_mod.
    - rewrite mshared_heap, mheap_lookup. destruct (q_heap x !! n) as [nd|] eqn:Hnd; [|done].
      cbn [fmap option_fmap option_map]. rewrite (mw_next _ _ _ Hw), fmap_length.
      destruct (decide _).
      + rewrite Hn. by apply rread_mod.
      + rewrite nx_mnode. change (junk, (mt M (nx nd)).2) with (mt M (junk, (nx nd).2)). rewrite see_next_mod, Hn. by apply rread_mod.
    - rewrite Hn. by apply rstore_mod.
    - rewrite (mw_acc _ _ _ Hw). destruct (decide _); [|done]. rewrite Hn. by apply rwrite_mod, push_acc_mod.
    - rewrite mshared_heap, mheap_lookup. destruct (q_heap x !! n) as [nd|] eqn:Hnd; [|done].
      cbn [fmap option_fmap option_map]. rewrite (mw_acc _ _ _ Hw).
      destruct (decide _).
      + rewrite Hn. by apply rread_mod.
      + rewrite see_word_mod, Hn. by apply rread_mod.
  Qed.

  Definition rclear (s : rstate) : Prop :=
    forall t pc, r_pcs s !! t = Some pc -> vclear (r_x s) (r_w s) (r_view s t) pc.

  Lemma rstep_mod s0 s ch : msr M s0 s -> rclear s0 -> mnextr M (rstep c0 rel s0 ch) (rstep c rel s ch).
  Proof using Hc HM.
    intros [Hx Hw Hp Hv] Hs. destruct ch as [t o tf|t ts sp addr junk|t u]; cbn [rstep].
    - rewrite Hp, lookup_fmap. destruct (r_pcs s0 !! t) as [pc|] eqn:Hpc; [done|]. simpl.
      change (qstart c0 o tf) with (qstart c o tf).
      destruct (qstart c o tf) as [pc|] eqn:Hst; [|done]. simpl. rewrite Hv. split; [|done]. split; try done. simpl.
      rewrite fmap_insert. f_equal.
      destruct o; simpl in Hst; repeat case_decide; repeat case_match; by simplify_eq/=.
    - rewrite Hp, lookup_fmap. destruct (r_pcs s0 !! t) as [pc|] eqn:Hpc; [|done].
      cbn [fmap option_fmap option_map]. specialize (Hs t pc Hpc).
      pose proof (rtstep_mod (r_x s0) (r_w s0) (r_w s) (r_view s0 t) pc ts sp addr junk Hw Hs) as Hm.
      assert (Hd : (exists r, pc = PcRet r) \/
        forall A (f : qret -> A) (g : A),
          match mpc M pc with PcRet r => f r | _ => g end = g /\ match pc with PcRet r => f r | _ => g end = g).
      { destruct pc; try (right; split; reflexivity). left. eauto. }
      destruct Hd as [[r ->]|Hd].
      + simpl. rewrite Hv. split; [|done]. split; try done. simpl. by rewrite fmap_delete.
      + rewrite (proj1 (Hd _ _ _)), (proj2 (Hd _ _ _)), Hx, Hv.
        destruct (rtstep c0 rel _ _ _ _ _ _ _ _) as [x w V pc'| | |]; destruct (rtstep c rel _ _ _ _ _ _ _ _) as [x1 w1 V1 pc1| | |];
          try done.
        destruct Hm as (-> & Hw' & -> & ->). split; [|done]. split; try done. simpl. by rewrite fmap_insert.
    - rewrite Hv. split; [|done]. by split.
  Qed.

  Lemma rinit_mod ns addr s :
    rinit c ns addr = Some s -> exists s0, rinit c0 ns addr = Some s0 /\ msr M s0 s.
  Proof using Hc HM.
    unfold rinit. rewrite (qinit_mod c M Hc HM). destruct (qinit c0 ns addr) as [q|] eqn:Hq; [|done]. simpl.
    intros [= <-]. eexists. split; [done|]. split; try done. simpl. by rewrite fmap_empty.
  Qed.
End wrap.
