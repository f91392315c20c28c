(** * Proofs of the stack properties, assembled *)
From stdpp Require Import gmap list numbers.
From Verif Require Import Lin LinObs LinFacts PoolModel Chain PoolProofs StackModel StackSpec StackObs
  StackInv StackStep StackSafe StackObsProofs StackQuiet StackDemo.

Section main.
  Context (c : cfg) (Htag : c_tagmod c = None).
  Notation spec := (sspec (c_node_based c) (c_throws c)).

  Lemma linearizable_main ns hist s :
    sreach c ns hist s ->
    hw_linearizable [] spec hist /\
    exists l ph a, lruns spec ∅ [] l ph a /\ erase l = hist /\ scontents c s a.
  Proof.
    intros H. destruct (sreach_ok c Htag _ _ _ H) as (g & [HG HT] & Hl).
    split.
    - apply linearizable_hw. exists (g_l g), (g_ph g), (g_a g). split; [apply HG|done].
    - exists (g_l g), (g_ph g), (g_a g). split; [apply HG|]. split; [done|]. by apply gi_contents.
  Qed.

  Lemma safe_main ns hist s ch : sreach c ns hist s -> ch_ok ch -> sstep c s ch <> SUB.
  Proof.
    intros H Hch Hub. destruct (sreach_ok c Htag _ _ _ H) as (g & HI & _).
    pose proof (sstep_ok c Htag _ _ ch Hch HI) as Hok. by rewrite Hub in Hok.
  Qed.

  Lemma range_main ns t b vs w k :
    scallret c ns t (SRange b vs) w (SIter k) ->
    (exists a, effect c t w a (reverse (take k vs) ++ a)) /\ k <= length vs /\
    (k < length vs ->
       b = true /\ exists st, st ∈ w /\ (s_pool (s_sh (r_post st))).1 = c_null c /\
                              (c_throws c = false -> exhausted c (r_post st))).
  Proof.
    intros H. destruct (scallret_ok c Htag _ _ _ _ _ H) as ((a & a' & Hsp & He) & Hf).
    inversion Hsp as [| | |a0 b0 vs0 k0 Hk Hb| | | | | | | | | | | | | | | | | | |]; subst.
    split; [by exists a|]. split; [done|]. intros Hlt. split; [destruct Hb; [lia|done]|].
    by apply Hf.
  Qed.

  Lemma all_main ns t rev w k vs :
    scallret c ns t (SAll rev) w (SCount k vs) ->
    exists a, effect c t w a [] /\ k = length a /\ vs = visit_order rev a.
  Proof.
    intros H. destruct (scallret_ok c Htag _ _ _ _ _ H) as ((a & a' & Hsp & He) & _).
    inversion Hsp; subst. by exists a.
  Qed.

  Lemma pop_main ns t w x :
    scallret c ns t SPop w (SGot x) -> exists a, effect c t w a (tail a) /\ x = head a.
  Proof.
    intros H. destruct (scallret_ok c Htag _ _ _ _ _ H) as ((a & a' & Hsp & He) & _).
    exists a. inversion Hsp; subst; done.
  Qed.

  Lemma empty_main ns t w b :
    scallret c ns t SEmpty w (SBool b) -> exists a, effect c t w a a /\ b = bool_decide (a = []).
  Proof.
    intros H. destruct (scallret_ok c Htag _ _ _ _ _ H) as ((a & a' & Hsp & He) & _).
    exists a. inversion Hsp; subst; done.
  Qed.

  Lemma push_fail_main ns t b v w :
    scallret c ns t (SPush b v) w (SBool false) ->
    (c_node_based c = false \/ b = true) /\
    exists st, st ∈ w /\ (s_pool (s_sh (r_post st))).1 = c_null c /\
               (c_throws c = false -> exhausted c (r_post st)).
  Proof.
    intros H. destruct (scallret_ok c Htag _ _ _ _ _ H) as ((a & a' & Hsp & He) & Hf).
    inversion Hsp; subst. split; [done|]. by apply Hf.
  Qed.

  Lemma exn_main ns t o w es :
    scallret c ns t o w (SExn es) ->
    match o with SPush _ _ | SRange _ _ => True | _ => False end ->
    (exists a, effect c t w a a) /\ forall st, st ∈ w -> ch_thread (r_ch st) = t -> silent c st.
  Proof.
    intros H Ho. destruct (scallret_ok c Htag _ _ _ _ _ H) as ((a & a' & Hsp & He) & _).
    assert (a' = a) as -> by (destruct o; try done; by inversion Hsp).
    split; [by exists a|]. destruct He as (w1 & st & w2 & -> & H1 & H2 & H3 & H4).
    intros st' Hin Ht. apply elem_of_app in Hin as [Hin|Hin].
    - apply H4; [|done]. apply elem_of_app. by left.
    - apply elem_of_cons in Hin as [->|Hin]; [by exists a|].
      apply H4; [|done]. apply elem_of_app. by right.
  Qed.

  Lemma bounds_main ns hist s a :
    sreach c ns hist s -> (forall t o, Lin.Inv t o ∈ hist -> allocates c o = false) ->
    size (s_heap (s_sh s)) = length ns /\ (scontents c s a -> length a <= length ns).
  Proof.
    intros H Hop. pose proof H as (Hnd & Hnn & _ & He).
    assert (Hsz : size (s_heap (s_sh s)) = length ns).
    { destruct (sexec_noalloc c (sinit c ns) hist s) as [Hd _]; [|done|done|].
      - intros t pc. enough (s_pcs (sinit c ns) = ∅) as -> by (by rewrite lookup_empty).
        unfold sinit. by destruct (pool_init c None ns).
      - rewrite <- size_dom, Hd, sinit_dom. by apply size_list_to_set. }
    split; [done|]. intros Ha. destruct (sreach_ok c Htag _ _ _ H) as (g & HI & _).
    rewrite (inv_contents c _ _ _ HI Ha). destruct HI as [HG _].
    pose proof (gi_size _ _ _ HG). lia.
  Qed.

  (** The unsynchronized operations. *)
  Lemma unsync_main ns hist s a t o addrs thr s' evs :
    sreach c ns hist s -> scontents c s a -> nonempty_op o ->
    sstep c s (Unsync t o addrs thr) = SNext s' evs ->
    exists r a', evs = [Lin.Inv t o; Res t r] /\ spec a o r a' /\ quiescent s' /\ scontents c s' a'.
  Proof.
    intros H Ha Hne Hs. destruct (sreach_ok c Htag _ _ _ H) as (g & HI & _).
    rewrite (inv_contents c _ _ _ HI Ha). cbn [sstep] in Hs. destruct (decide _) as [Hq|]; [|done].
    pose proof (ustep_ok c Htag s g t o addrs thr Hne HI Hq) as Hok.
    destruct (ucall c (s_sh s) o addrs thr) as [x' r| |]; [|done..]. injection Hs as <- <-.
    destruct Hok as (g' & [HG' _] & _ & Hsp & _). exists r, (g_a g'). do 3 (split; [done|]).
    by apply (gi_contents c (SSt x' ∅)).
  Qed.
End main.

Section more.
  Context (c : cfg).

  Lemma hist_ok_app2 h1 h2 : hist_ok h1 -> hist_ok h2 -> hist_ok (h1 ++ h2).
  Proof. intros H1 H2 t o Hin. apply elem_of_app in Hin as [Hin|Hin]; eauto. Qed.

  Lemma sreach_ext ns hist s h s' :
    sreach c ns hist s -> hist_ok h -> sexec c s h s' -> sreach c ns (hist ++ h) s'.
  Proof.
    intros (H1 & H2 & H3 & H4) Hh He. do 2 (split; [done|]). split; [by apply hist_ok_app2|].
    by eapply sexec_trans.
  Qed.

  Lemma sreach_step ns hist s ch s' evs :
    sreach c ns hist s -> ch_ok ch -> sstep c s ch = SNext s' evs -> sreach c ns (hist ++ evs) s'.
  Proof.
    intros H Hch Hs. eapply sreach_ext; [done|by apply (sstep_evs _ _ _ _ _ Hs)|].
    rewrite <- (app_nil_l evs). econstructor; [constructor|done].
  Qed.

  Lemma srun_app chs1 : forall chs2 s h1 s1 h2 s2,
    srun c s chs1 = Some (h1, s1) -> srun c s1 chs2 = Some (h2, s2) ->
    srun c s (chs1 ++ chs2) = Some (h1 ++ h2, s2).
  Proof.
    induction chs1 as [|ch chs1 IH]; intros chs2 s h1 s1 h2 s2 H1 H2; cbn [srun app] in *.
    - by injection H1 as <- <-.
    - destruct (sstep c s ch) as [s' evs| |]; [|done..].
      destruct (srun c s' chs1) as [[h' s'']|] eqn:Hr; [|done]. injection H1 as <- <-.
      rewrite (IH _ _ _ _ _ _ Hr H2). by rewrite app_assoc.
  Qed.

  Lemma noalloc_main :
    (forall ns t o w s sp addr thr s' evs,
       scall c ns t o w s -> allocates c o = false ->
       sstep c s (Run t sp addr thr) = SNext s' evs ->
       dom (s_heap (s_sh s')) = dom (s_heap (s_sh s))) /\
    (forall s t o addrs thr s' evs,
       allocates c o = false -> sstep c s (Unsync t o addrs thr) = SNext s' evs ->
       dom (s_heap (s_sh s')) = dom (s_heap (s_sh s))) /\
    (forall ns hist s, sreach c ns hist s ->
       (forall t o, Lin.Inv t o ∈ hist -> allocates c o = false) ->
       dom (s_heap (s_sh s)) = list_to_set ns) /\
    (c_node_based c = false -> forall o, allocates c o = false).
  Proof.
    split; [|split; [|split]].
    - apply scall_noalloc.
    - intros s t o addrs thr s' evs Ho Hs. cbn [sstep] in Hs. destruct (decide _); [|done].
      destruct (ucall c (s_sh s) o addrs thr) as [x' r| |] eqn:Hu; [|done..]. injection Hs as <- _.
      simpl. apply ucall_dom in Hu as [_ Hu]. auto.
    - intros ns hist s (Hnd & Hnn & _ & He) Hop.
      destruct (sexec_noalloc c (sinit c ns) hist s) as [Hd _]; [|done|done|].
      + intros t pc. enough (s_pcs (sinit c ns) = ∅) as -> by (by rewrite lookup_empty).
        unfold sinit. by destruct (pool_init c None ns).
      + by rewrite Hd, sinit_dom.
    - intros Hnb [b v|b vs| |rev| |n|v|vs| |n]; simpl; by rewrite ?Hnb.
  Qed.

  (** ** Several bounded pushes in a row *)

  Context (Htag : c_tagmod c = None).

  Lemma push_many ns t vs : forall hist s a,
    c_throws c = false -> sreach c ns hist s -> quiescent s -> scontents c s a ->
    exists chs s',
      srun c s chs =
        Some (concat (imap (fun i v =>
                [Lin.Inv t (SPush true v);
                 Res t (SBool (bool_decide (length a + i < size (s_heap (s_sh s)))))]) vs), s') /\
      quiescent s' /\ scontents c s' (reverse (take (size (s_heap (s_sh s)) - length a) vs) ++ a).
  Proof using Htag.
    induction vs as [|v vs IH]; intros hist s a Hth H Hq Ha.
    - exists [], s. split; [done|]. split; [done|]. by rewrite take_nil.
    - destruct (push_quiet c Htag ns hist s a t true v Hth H Hq Ha (or_intror eq_refl))
        as (k & s1 & Hr & Hq1 & Ha1).
      set (m := size (s_heap (s_sh s))) in *.
      assert (He : sexec c s [Lin.Inv t (SPush true v); Res t (SBool (bool_decide (length a < m)))] s1)
        by (by eapply srun_exec).
      assert (Hop : forall t' o, Lin.Inv t' o ∈ [Lin.Inv t (SPush true v); Res t (SBool (bool_decide (length a < m)))] ->
                    o = SPush true v).
      { intros t' o Hin. repeat (apply elem_of_cons in Hin as [Hin|Hin]); [|done|by apply elem_of_nil in Hin].
        by injection Hin as -> ->. }
      assert (Hm : size (s_heap (s_sh s1)) = m).
      { edestruct (sexec_noalloc c s) as [Hd _]; [|exact He| |].
        - intros t' pc. by rewrite Hq, lookup_empty.
        - intros t' o Hin. apply Hop in Hin as ->. simpl. by destruct (c_node_based c).
        - subst m. by rewrite <- !size_dom, Hd. }
      assert (Hho : hist_ok [Lin.Inv t (SPush true v); Res t (SBool (bool_decide (length a < m)))]).
      { intros t' o Hin. by apply Hop in Hin as ->. }
      destruct (IH _ s1 _ Hth (sreach_ext _ _ _ _ _ H Hho He) Hq1 Ha1) as (chs & s' & Hr' & Hq' & Ha').
      rewrite Hm in Hr', Ha'.
      exists ((Invoke t (SPush true v) :: replicate k (Run t false None false)) ++ chs), s'.
      split; [|split; [done|]].
      + erewrite srun_app; [|exact Hr|exact Hr']. do 2 f_equal. rewrite imap_cons.
        cbn [concat]. rewrite Nat.add_0_r. f_equal. f_equal. apply imap_ext. intros i w _. simpl.
        do 4 f_equal. apply bool_decide_ext. destruct (decide _); simpl; lia.
      + destruct (decide (length a < m)) as [Hlt|Hge].
        * simpl in Ha'. replace (m - length a) with (S (m - S (length a))) by lia. simpl.
          rewrite reverse_cons, <- app_assoc. done.
        * replace (m - length a) with 0 in * by lia. done.
  Qed.
End more.
