(** * What the results of stack calls say about the steps during the call *)
From stdpp Require Import gmap list numbers.
From Verif Require Import Lin PoolModel Chain PoolProofs StackModel StackSpec StackObs
  StackInv StackStep StackSafe.

Set Default Proof Using "Type".

Section obs.
  Context (c : cfg).
  Notation null := (c_null c).
  Notation spec := (sspec (c_node_based c) (c_throws c)).
  Notation GI := (GI c).
  Notation Inv := (Inv c).

  Lemma sstep_run s t sp addr thr s' evs :
    sstep c s (Run t sp addr thr) = SNext s' evs ->
    exists pc, s_pcs s !! t = Some pc /\
      ((exists r, pc = PcRet r /\ s' = SSt (s_sh s) (delete t (s_pcs s)) /\ evs = [Res t r]) \/
       (exists x' pc', tstep c (s_sh s) pc sp addr thr = TGo x' pc' /\
          s' = SSt x' (<[t := pc']> (s_pcs s)) /\ evs = [])).
  Proof.
    cbn [sstep]. destruct (s_pcs s !! t) as [pc|]; [|done]. intros H. exists pc. split; [done|].
    destruct pc; try (destruct (tstep c (s_sh s) _ sp addr thr) as [x' pc'| |] eqn:Hst; try done;
      injection H as <- <-; right; exists x', pc'; done).
    injection H as <- <-. left. eauto.
  Qed.

  (** ** Contents *)

  Lemma chain_det h p a1 a2 : chain c h p a1 -> chain c h p a2 -> a1 = a2.
  Proof.
    intros H1. revert a2. induction H1 as [|p lk v a Hp Hnd H1 IH]; intros a2 H2.
    - inversion H2; subst; done.
    - inversion H2 as [|p' lk' v' a' Hp' Hnd' H2']; subst; [done|].
      rewrite Hnd in Hnd'. injection Hnd' as <- <-. f_equal. by apply IH.
  Qed.

  Lemma scontents_det s a1 a2 : scontents c s a1 -> scontents c s a2 -> a1 = a2.
  Proof. apply chain_det. Qed.

  Lemma seg_chain h p l a : seg h p l null -> null ∉ l -> vals h l a -> chain c h p a.
  Proof.
    intros Hs Hn HF. revert p Hs. induction HF as [|x v l a (lk & Hnd) HF IH]; intros p Hs.
    - simpl in Hs. subst p. constructor.
    - destruct Hs as (-> & y & Hy & Hs). rewrite (nxp_Some _ _ _ Hnd) in Hy. injection Hy as <-.
      apply not_elem_of_cons in Hn as [Hne Hn].
      econstructor; [congruence|done|]. by apply IH.
  Qed.

  Lemma gi_contents s g : GI (s_sh s) g -> scontents c s (g_a g).
  Proof.
    intros HG. eapply seg_chain; [apply (gi_seg _ _ _ HG)|by eapply gi_null_nin|apply HG].
  Qed.

  Lemma inv_contents s g a : Inv s g -> scontents c s a -> a = g_a g.
  Proof. intros [HG _] Ha. eapply scontents_det; [done|]. by apply gi_contents. Qed.

  (** ** Exhaustion *)

  Lemma seg_found h p l e n : seg h p l e -> n ∈ l -> found h p n.
  Proof.
    revert p. induction l as [|x l IH]; intros p Hs Hn; [by apply elem_of_nil in Hn|].
    destruct Hs as (-> & y & Hy & Hs). apply nxp_inv in Hy as (nd & Hnd & <-).
    apply elem_of_cons in Hn as [->|Hn]; [by econstructor|].
    eapply found_next; [exact Hnd|]. by apply IH.
  Qed.

  Lemma holds_found h p L vs n : holds_list c h p L vs -> n ∈ L -> found h p n.
  Proof. intros [Hs _]. by eapply seg_found. Qed.

  Lemma kinv_roots t x g k L n :
    kinv c t x g k L -> n ∈ L -> exists p, p ∈ kroots k /\ found (s_heap x) p n.
  Proof.
    intros Hk Hn. destruct k as [r|j|cur|nxt k acc]; simpl in *.
    - destruct Hk as [-> _]. by apply elem_of_nil in Hn.
    - destruct Hk as [-> _]. by apply elem_of_nil in Hn.
    - destruct Hk as (vs & Hh & _). exists cur. split; [left|]. by eapply holds_found.
    - destruct Hk as (vs & Hh & _). exists nxt. split; [left|]. by eapply holds_found.
  Qed.

  Lemma built_roots h te L vs n :
    built c h te L vs -> n ∈ L ->
    exists p, p ∈ match te with Some te => [te.1] | None => [] end /\ found h p n.
  Proof.
    intros HB Hn. destruct te as [[top bot]|]; simpl in *.
    - destruct HB as (L' & -> & Hs & Hx & Hv). exists top. split; [left|].
      eapply (seg_found _ _ (L' ++ [bot]) null); [|done]. apply seg_snoc. done.
    - destruct HB as [-> _]. by apply elem_of_nil in Hn.
  Qed.

  Lemma tinv_roots t pc x g n :
    GI x g -> tinv c t pc x g -> g_own g !! n = Some (OT t) ->
    exists p, p ∈ roots pc /\ found (s_heap x) p n.
  Proof.
    intros HG HT Hn. destruct (gi_own_dom c _ _ _ _ HG Hn) as [ndn Hndn].
    assert (Hone : forall L, owns t g L -> n ∈ L) by (intros L [_ H]; by apply H).
    assert (Hnil : owns t g [] -> exists p, p ∈ roots pc /\ found (s_heap x) p n).
    { intros Ho. apply Hone in Ho. by apply elem_of_nil in Ho. }
    assert (Hsing : forall m, owns t g [m] -> [m] = roots pc -> exists p, p ∈ roots pc /\ found (s_heap x) p n).
    { intros m Ho <-. apply Hone in Ho. apply elem_of_list_singleton in Ho as ->. exists m.
      split; [left|by econstructor]. }
    assert (Hlink : forall top bot r, linking c t top bot r x g -> [top; bot] = roots pc ->
              exists p, p ∈ roots pc /\ found (s_heap x) p n).
    { intros top bot r (o & L & vs & _ & _ & Ho & Hs & _) <-. apply Hone in Ho.
      apply elem_of_app in Ho as [Ho|Ho].
      - exists top. split; [left|by eapply seg_found].
      - apply elem_of_list_singleton in Ho as ->. exists bot. split; [right; left|by econstructor]. }
    destruct pc as [b v a|v m|top bot r|top bot old r|top bot old r|b vs|b vs k te a|b vs k te m
      |b vs k te m|cur| |old|old nxt|m|rev|rev old|m lst|m lst nxt|m k acc|m k acc|m k|m d k|k| |r];
      simpl in HT.
    - apply Hnil, HT.
    - destruct HT as (? & ? & Ho & _). by eapply Hsing.
    - by eapply Hlink.
    - by eapply Hlink.
    - eapply Hlink; [apply HT|done].
    - apply Hnil, HT.
    - destruct HT as (_ & _ & _ & (L & Ho & HB) & _). apply Hone in Ho.
      destruct (built_roots _ _ _ _ _ HB Ho) as (p & Hp & Hf). exists p. split; [|done].
      by destruct te.
    - destruct HT as (_ & _ & _ & _ & (L & Ho & HB)). apply Hone in Ho.
      apply elem_of_cons in Ho as [->|Ho]; [exists m; split; [left|by econstructor]|].
      destruct (built_roots _ _ _ _ _ HB Ho) as (p & Hp & Hf). exists p. split; [by right|done].
    - destruct HT as (_ & _ & _ & (L & Ho & HB)). apply Hone in Ho.
      apply elem_of_cons in Ho as [->|Ho]; [exists m; split; [left|by econstructor]|].
      destruct (built_roots _ _ _ _ _ HB Ho) as (p & Hp & Hf). exists p. split; [by right|done].
    - destruct HT as (_ & L & vs & Ho & Hh). apply Hone in Ho. exists cur. split; [left|].
      by eapply holds_found.
    - apply Hnil, HT.
    - apply Hnil, HT.
    - apply Hnil, HT.
    - destruct HT as (Ho & _). by eapply Hsing.
    - apply Hnil, HT.
    - apply Hnil, HT.
    - destruct HT as (L1 & L2 & vs1 & vs2 & Ho & H1 & H2 & _). apply Hone in Ho.
      apply elem_of_app in Ho as [Ho|Ho].
      + exists lst. split; [right; left|by eapply holds_found].
      + exists m. split; [left|by eapply holds_found].
    - destruct HT as (L1 & L2 & vs1 & v & vs2 & Ho & H1 & _ & H2 & _). apply Hone in Ho.
      apply elem_of_app in Ho as [Ho|Ho].
      + exists lst. split; [right; left|by eapply holds_found].
      + apply elem_of_cons in Ho as [->|Ho]; [exists m; split; [left|by econstructor]|].
        exists nxt. split; [right; right; left|by eapply holds_found].
    - destruct HT as (L & rest & Ho & Hh & _). apply Hone in Ho. exists m. split; [left|].
      by eapply holds_found.
    - destruct HT as (L & v & rest & Ho & Hh & _). apply Hone in Ho. exists m. split; [left|].
      by eapply holds_found.
    - destruct HT as (L & v & Ho & _ & Hk). apply Hone in Ho.
      apply elem_of_cons in Ho as [->|Ho]; [exists m; split; [left|by econstructor]|].
      destruct (kinv_roots _ _ _ _ _ _ Hk Ho) as (p & Hp & Hf). exists p. split; [by right|done].
    - destruct HT as (L & Ho & _ & _ & Hk). apply Hone in Ho.
      apply elem_of_cons in Ho as [->|Ho]; [exists m; split; [left|by econstructor]|].
      destruct (kinv_roots _ _ _ _ _ _ Hk Ho) as (p & Hp & Hf). exists p. split; [by right|done].
    - apply Hnil, HT.
    - apply Hnil, HT.
    - apply Hnil, HT.
  Qed.

  Lemma gi_pool_null x g : GI x g -> (s_pool x).1 = null <-> g_fn g = [].
  Proof.
    intros HG. pose proof (gi_pi _ _ _ HG) as HP. pose proof (pi_seg _ _ _ _ _ HP) as Hs.
    destruct (g_fn g) as [|z fn] eqn:Hfn; simpl in Hs; [done|]. destruct Hs as [Hz _]. split; [|done].
    intros Hp. exfalso. eapply (PI_not_null c _ _ _ _ z OF HP); [|congruence].
    apply (pi_mem _ _ _ _ _ HP). left.
  Qed.

  (** With an empty pool list every node is accounted for. *)
  Lemma inv_exhausted s g :
    c_throws c = false -> Inv s g -> (s_pool (s_sh s)).1 = null -> exhausted c s.
  Proof.
    intros Hth [HG HT] Hp. split; [done|].
    intros n Hn. apply (pi_dom _ _ _ _ _ (gi_pi _ _ _ HG)) in Hn as [o Ho].
    destruct o as [| |t|].
    - left. eapply seg_found; [apply (gi_seg _ _ _ HG)|]. by apply (gi_mem _ _ _ HG).
    - exfalso. apply (gi_pool_null _ _ HG) in Hp.
      apply (pi_mem _ _ _ _ _ (gi_pi _ _ _ HG)) in Ho. rewrite Hp in Ho. by apply elem_of_nil in Ho.
    - right. exists t. pose proof (HT t) as Ht. destruct (s_pcs s !! t) as [pc|].
      + exists pc. destruct (tinv_roots _ _ _ _ _ HG Ht Ho) as (p & Hpr & Hf). by exists p.
      + exfalso. apply Ht in Ho. by apply elem_of_nil in Ho.
    - exfalso. by eapply (gi_leak _ _ _ HG Hth).
  Qed.

  (** ** The steps since an invocation *)

  Definition seenfull (w : list srec) : Prop :=
    exists st, st ∈ w /\ (s_pool (s_sh (r_post st))).1 = null /\
               (c_throws c = false -> exhausted c (r_post st)).

  Lemma seenfull_app w st : seenfull w -> seenfull (w ++ [st]).
  Proof. intros (s & Hs & HP). exists s. split; [|done]. apply elem_of_app. by left. Qed.
  Lemma seenfull_last w st g :
    Inv (r_post st) g -> (s_pool (s_sh (r_post st))).1 = null -> seenfull (w ++ [st]).
  Proof.
    intros HI Hp. exists st. split; [apply elem_of_app; right; left|]. split; [done|].
    intros Hth. by eapply inv_exhausted.
  Qed.

  (** Results that report a lack of nodes. *)
  Definition early (o : sop) (r : sret) : Prop :=
    match o, r with
    | SPush _ _, SBool false => True
    | SRange _ vs, SIter k => k < length vs
    | _, _ => False
    end.

  Definition J (o : sop) (w : list srec) (pc : spc) : Prop :=
    match pc with
    | PcAlloc _ _ (ATest old) | PcRAlloc _ _ _ _ (ATest old) => old.1 = null -> seenfull w
    | PcLLoad _ _ r | PcLSet _ _ _ r | PcLCas _ _ _ r | PcRet r
    | PcDestroy _ (KRet r) | PcDealloc _ _ (KRet r) => early o r -> seenfull w
    | _ => True
    end.

  Lemma J_other o w pc st : J o w pc -> J o (w ++ [st]) pc.
  Proof.
    destruct pc as [b v []| | | | | |b vs k te []| | | | | | | | | | | | | |n []|n d []| | |]; simpl; try done;
      intros H Hn; apply seenfull_app; auto.
  Qed.

  Lemma J_own o w s t pc sp addr thr x' pc' g g' :
    let s' := SSt x' (<[t := pc']> (s_pcs s)) in
    Inv s g -> Inv s' g' -> s_pcs s !! t = Some pc ->
    (pend g t o \/ exists r, fin g t o r) -> J o w pc ->
    tstep c (s_sh s) pc sp addr thr = TGo x' pc' ->
    J o (w ++ [SRec s (Run t sp addr thr) s']) pc'.
  Proof.
    intros s' HI HI' Hpc Hop HJ Hst. pose proof HI as [HG HT]. specialize (HT t). rewrite Hpc in HT.
    set (st := SRec s (Run t sp addr thr) s').
    assert (Hnull : (s_pool x').1 = null -> seenfull (w ++ [st])).
    { intros Hp. by apply (seenfull_last _ st g'). }
    assert (Hpo : forall o', pend g t o' -> o' = o).
    { unfold pend, fin in *. destruct Hop as [Hop|[r Hop]]; congruence. }
    assert (Hfo : forall o' r, fin g t o' r -> o' = o).
    { unfold pend, fin in *. destruct Hop as [Hop|[r Hop]]; congruence. }
    destruct pc as [b v a|v m|top bot r|top bot old r|top bot old r|b vs|b vs k te a|b vs k te m
      |b vs k te m|cur| |old|old nxt|m|rev|rev old|m lst|m lst nxt|m k acc|m k acc|m k|m d k|k| |r];
      simpl in Hst.
    - destruct HT as [Hp _]. apply Hpo in Hp as <-. destruct a as [|old|old nxt]; simpl in Hst.
      + injection Hst as <- <-. simpl. intros Hn. by apply Hnull.
      + destruct (decide (old.1 = null)) as [Hn|Hn].
        * simpl in HJ. specialize (HJ Hn).
          destruct (c_node_based c); simpl in Hst; [destruct b; simpl in Hst|].
          -- injection Hst as Hx <-. simpl. intros _. by apply seenfull_app.
          -- destruct addr as [m|]; [|injection Hst as Hx <-; simpl; done].
             destruct (decide _); [|done]. injection Hst as Hx <-; simpl; done.
          -- injection Hst as Hx <-. simpl. intros _. by apply seenfull_app.
        * destruct (s_heap (s_sh s) !! old.1); [|done]. by injection Hst as <- <-.
      + destruct (decide _); injection Hst as Hx <-; [done|]. simpl. intros Hn. apply Hnull. by rewrite <- Hx.
    - destruct (s_heap (s_sh s) !! m) as [[lk [?|]]|]; try done.
      destruct HT as (b & Hp & _). apply Hpo in Hp as <-.
      destruct thr; [destruct (c_throws c); [|done]|]; injection Hst as Hx <-; simpl; done.
    - injection Hst as Hx <-. simpl in *. intros He. apply seenfull_app. auto.
    - destruct (s_heap (s_sh s) !! bot); [|done]. injection Hst as Hx <-. simpl in *.
      intros He. apply seenfull_app. auto.
    - destruct (decide _); injection Hst as Hx <-; simpl in *; intros He; apply seenfull_app; auto.
    - destruct vs; [done|]. injection Hst as Hx <-; simpl; done.
    - destruct HT as (Hp & _). apply Hpo in Hp as <-. destruct a as [|old|old nxt]; simpl in Hst.
      + injection Hst as <- <-. simpl. intros Hn. by apply Hnull.
      + destruct (decide (old.1 = null)) as [Hn|Hn].
        * simpl in HJ. specialize (HJ Hn).
          destruct (c_node_based c); simpl in Hst; [destruct b; simpl in Hst|].
          -- injection Hst as Hx <-. destruct te; simpl; intros _; by apply seenfull_app.
          -- destruct addr as [m|]; [|injection Hst as Hx <-; destruct te; simpl; done].
             destruct (decide _); [|done]. injection Hst as Hx <-; simpl; done.
          -- injection Hst as Hx <-. destruct te; simpl; intros _; by apply seenfull_app.
        * destruct (s_heap (s_sh s) !! old.1); [|done]. by injection Hst as <- <-.
      + destruct (decide _); injection Hst as Hx <-; [done|]. simpl. intros Hn. apply Hnull. by rewrite <- Hx.
    - destruct HT as (Hp & _). apply Hpo in Hp as <-.
      destruct (s_heap (s_sh s) !! m) as [[lk [?|]]|]; try done. destruct (vs !! k); [|done].
      destruct thr; [destruct (c_throws c); [|done]|]; injection Hst as Hx <-; destruct te; simpl; done.
    - destruct HT as (Hp & _). apply Hpo in Hp as <-.
      destruct (s_heap (s_sh s) !! m); [|done]. injection Hst as Hx <-. unfold r_next.
      destruct (decide _); simpl; [done|]. lia.
    - destruct (s_heap (s_sh s) !! cur); [|done]. injection Hst as Hx <-; simpl; done.
    - destruct HT as (Hp & _). apply Hpo in Hp as <-. injection Hst as Hx <-. unfold c_test.
      destruct (decide _); simpl; done.
    - destruct (s_heap (s_sh s) !! old.1); [|done]. injection Hst as Hx <-; simpl; done.
    - destruct HT as (Hp & _). apply Hpo in Hp as <-.
      destruct (decide _); injection Hst as Hx <-; [done|]. unfold c_test. destruct (decide _); simpl; done.
    - destruct HT as (_ & v' & _ & Hf). apply Hfo in Hf as <-.
      destruct (s_heap (s_sh s) !! m) as [[lk [?|]]|]; try done.
      destruct thr; [destruct (c_throws c); [|done]|]; injection Hst as Hx <-; simpl; done.
    - destruct HT as (Hp & _). apply Hpo in Hp as <-. injection Hst as Hx <-. unfold a_test.
      destruct (decide _); simpl; done.
    - destruct HT as (Hp & _). apply Hpo in Hp as <-.
      destruct (decide _); injection Hst as Hx <-; [destruct rev; simpl; done|]. unfold a_test. destruct (decide _); simpl; done.
    - destruct (s_heap (s_sh s) !! m); [|done]. injection Hst as Hx <-; simpl; done.
    - destruct (s_heap (s_sh s) !! m); [|done]. injection Hst as Hx <-. destruct (decide _); simpl; done.
    - destruct HT as (L & rest & _ & _ & _ & rev & Hf). apply Hfo in Hf as <-.
      destruct (s_heap (s_sh s) !! m) as [[lk [?|]]|]; try done.
      destruct thr; [destruct (c_throws c); [|done]|]; injection Hst as Hx <-; simpl; done.
    - destruct (s_heap (s_sh s) !! m); [|done]. injection Hst as Hx <-; simpl; done.
    - destruct (s_heap (s_sh s) !! m) as [[lk [?|]]|]; try done. injection Hst as Hx <-.
      destruct k; simpl in *; try done. intros He. apply seenfull_app. auto.
    - destruct HT as (L & _ & _ & _ & Hk).
      destruct (dstep m _ _ d sp); [| |done]; injection Hst as Hx <-.
      + destruct k; simpl in *; try done. intros He. apply seenfull_app. auto.
      + destruct k as [r|j|cur|nxt k acc]; simpl in *; try done.
        * intros He. apply seenfull_app. auto.
        * destruct (decide _); [|done]. destruct Hk as (vs & _ & b & vs' & Hp & _). apply Hpo in Hp as <-. simpl. done.
        * destruct (decide _); [|done]. destruct Hk as (rest & _ & _ & rev & Hf). apply Hfo in Hf as <-. simpl. done.
    - destruct HT as (_ & m & Hp). apply Hpo in Hp as <-. destruct k as [|k]; [injection Hst as Hx <-; simpl; done|].
      destruct addr; [|injection Hst as Hx <-; simpl; done]. destruct (decide _); [|done]. injection Hst as Hx <-; simpl; done.
    - destruct HT as (Hp & _). apply Hpo in Hp as <-. injection Hst as Hx <-; simpl; done.
    - done.
  Qed.

  (** ** The state of a call *)

  Definition W (t : nat) (o : sop) (w : list srec) (g : ghost) : Prop :=
    (pend g t o /\ forall st, st ∈ w -> ch_thread (r_ch st) = t -> silent c st) \/
    (exists r a a', fin g t o r /\ spec a o r a' /\ effect c t w a a').

  Lemma silent_inv s ch s' g g' :
    Inv s g -> Inv s' g' -> g_a g' = g_a g -> silent c (SRec s ch s').
  Proof.
    intros [HG _] [HG' _] Ha. exists (g_a g). simpl. split; [by apply gi_contents|].
    rewrite <- Ha. by apply gi_contents.
  Qed.

  Lemma effect_app t w st a a' :
    (ch_thread (r_ch st) = t -> silent c st) -> effect c t w a a' -> effect c t (w ++ [st]) a a'.
  Proof.
    intros Hst (w1 & st0 & w2 & -> & H1 & H2 & H3 & H4).
    exists w1, st0, (w2 ++ [st]). split; [by rewrite <- app_assoc|]. split; [done|]. split; [done|].
    split; [done|]. intros st' Hi. rewrite app_assoc in Hi.
    apply elem_of_app in Hi as [Hi|Hi]; [by apply H4|].
    apply elem_of_list_singleton in Hi as ->. done.
  Qed.

  Lemma W_phase t o w g : W t o w g -> pend g t o \/ exists r, fin g t o r.
  Proof. intros [[H _]|(r & _ & _ & H & _)]; eauto. Qed.

  Context (Htag : c_tagmod c = None).

  Lemma scall_ok ns t o w s :
    scall c ns t o w s ->
    exists g pc, Inv s g /\ s_pcs s !! t = Some pc /\ W t o w g /\ J o w pc.
  Proof using Htag.
    induction 1 as [hist s s' evs (Hnd & Hnn & Hh & Hex) Hne Hs|w s ch s' evs Hc IH Hch Hs Hin].
    - destruct (sinit_ok c ns Hnd Hnn) as (g0 & HI0 & Hl0 & _).
      destruct (sexec_ok c Htag _ g0 hist s HI0 ltac:(by rewrite Hl0) Hex Hh) as (g & HI & _).
      pose proof (sstep_ok c Htag s g (Invoke t o) Hne HI) as Hok. rewrite Hs in Hok.
      destruct Hok as (g' & HI' & _ & [Hp Ha] & _). exists g'.
      cbn [sstep] in Hs. destruct (s_pcs s !! t); [done|].
      destruct (sstart c o) as [pc|] eqn:Hst; [|done]. injection Hs as <- <-.
      exists pc. split; [done|]. split; [simpl; by rewrite lookup_insert|]. split.
      + left. split; [done|]. intros st Hi _. apply elem_of_list_singleton in Hi as ->.
        by eapply silent_inv.
      + destruct o; simpl in Hst; try done; try (destruct (c_node_based c); [|done]);
          by injection Hst as <-.
    - destruct IH as (g & pc & HI & Hpc & HW & HJ).
      pose proof (sstep_ok c Htag s g ch Hch HI) as Hok. rewrite Hs in Hok.
      destruct Hok as (g' & HI' & _ & Hchg & R & _).
      destruct (decide (ch_thread ch = t)) as [Ht|Ht].
      + destruct ch as [t' o'|t' sp addr thr|t' o' addrs thr]; simpl in Ht; subst t'.
        * cbn [sstep] in Hs. by rewrite Hpc in Hs.
        * destruct (sstep_run _ _ _ _ _ _ _ Hs) as (pc0 & Hpc0 & Hcase).
          rewrite Hpc in Hpc0. injection Hpc0 as <-.
          destruct Hcase as [(r & -> & -> & _)|(x' & pc' & Hst & -> & _)].
          { simpl in Hin. rewrite lookup_delete in Hin. by destruct Hin. }
          exists g', pc'. split; [done|]. split; [simpl; by rewrite lookup_insert|]. split.
          -- destruct Hchg as [[_ Htr]|[Hn _]]; [|rewrite Hn in Hin; by destruct Hin].
             destruct Htr as [[Hph Ha]|[(o1 & r1 & Hp1 & Hf1 & Hsp1)|(o1 & r1 & r2 & Hf1 & Hf2 & Ha & Hsp1)]].
             ++ destruct HW as [[Hp Hsil]|(r & a & a' & Hf & Hsp & Heff)].
                ** left. split; [unfold pend in *; congruence|]. intros st Hi Hth.
                   apply elem_of_app in Hi as [Hi|Hi]; [by apply Hsil|].
                   apply elem_of_list_singleton in Hi as ->. by eapply silent_inv.
                ** right. exists r, a, a'. split; [unfold fin in *; congruence|]. split; [done|].
                   apply effect_app; [|done]. intros _. by eapply silent_inv.
             ++ right. destruct HW as [[Hp Hsil]|(r & a & a' & Hf & Hsp & Heff)];
                  [|unfold pend, fin in *; congruence].
                assert (o1 = o) as -> by (unfold pend in *; congruence).
                exists r1, (g_a g), (g_a g'). split; [done|]. split; [done|].
                eexists w, _, []. split; [done|]. split; [done|]. simpl.
                split; [apply gi_contents, HI|]. split; [apply (gi_contents _ g'), HI'|].
                intros st'. rewrite app_nil_r. apply Hsil.
             ++ right. destruct HW as [[Hp Hsil]|(r & a & a' & Hf & Hsp & Heff)];
                  [unfold pend, fin in *; congruence|].
                assert (o1 = o /\ r1 = r) as [-> ->] by (unfold fin in *; split; congruence).
                exists r2, a, a'. split; [done|]. split; [by apply Hsp1|].
                apply effect_app; [|done]. intros _. by eapply silent_inv.
          -- eapply J_own; [exact HI|exact HI'|exact Hpc|by eapply W_phase|exact HJ|exact Hst].
        * cbn [sstep] in Hs. destruct (decide _) as [Hemp|]; [|done].
          by rewrite Hemp, lookup_empty in Hpc.
      + destruct (R t pc Hpc Ht) as [Hpc' Rt]. exists g', pc. split; [done|]. split; [done|].
        split; [|by apply J_other].
        destruct HW as [[Hp Hsil]|(r & a & a' & Hf & Hsp & Heff)].
        * left. split; [by eapply pend_stable|]. intros st Hi Hth.
          apply elem_of_app in Hi as [Hi|Hi]; [by apply Hsil|].
          apply elem_of_list_singleton in Hi as ->. done.
        * right. exists r, a, a'. split; [by eapply fin_stable|]. split; [done|].
          by apply effect_app.
  Qed.

  (** A call that returns has taken effect in one step, and with a result that
      reports a lack of nodes it has seen the pool exhausted. *)
  Lemma scallret_ok ns t o w r :
    scallret c ns t o w r ->
    (exists a a', spec a o r a' /\ effect c t w a a') /\ (early o r -> seenfull w).
  Proof using Htag.
    intros (s & Hc & sp & addr & thr & s' & Hs).
    destruct (scall_ok _ _ _ _ _ Hc) as (g & pc & HI & Hpc & HW & HJ).
    destruct (sstep_run _ _ _ _ _ _ _ Hs) as (pc0 & Hpc0 & Hcase).
    rewrite Hpc in Hpc0. injection Hpc0 as <-.
    destruct Hcase as [(r' & -> & _ & [= <-])|(x' & pc' & _ & _ & ?)]; [|done].
    split; [|exact HJ]. destruct HI as [_ HT]. specialize (HT t). rewrite Hpc in HT.
    destruct HT as [_ [o' Ho']].
    destruct HW as [[Hp Hsil]|(r1 & a & a' & Hf & Hsp & Heff)]; [unfold pend, fin in *; congruence|].
    assert (r1 = r) as -> by (unfold fin in *; congruence). eauto.
  Qed.
End obs.
