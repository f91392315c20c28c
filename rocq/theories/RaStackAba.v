(** * With wrapping tags a pop that uses an old value of [tos] breaks the stack,
      although no calls overlap *)
From stdpp Require Import gmap list numbers.
From Verif Require Import Lin PoolModel StackModel StackObs StackQuiet StackAba StackDemo
  RaMem RaFacts RaStackModel RaStackObs RaStackStep RaStackDemo RaStackWrapObs RaStackWrap RaStackSolo.

Set Default Proof Using "Type".

Section aba.
  Context (nb : bool) (M : N).
  Notation c := (aba_cfg nb M).
  Notation nt := (next_tag c).
  Notation A := 1%N.
  Notation B := 2%N.

  Ltac st := eapply ts_cons;
    [cbn [set_heap set_heap_pool set_tos tstep astep dstep c_test a_test s_heap s_pool s_tos fst snd c_null aba_cfg
          c_node_based kgo set_next];
     simpl_map; unfold c_test, a_test, kgo; cbn [fst snd nx dat c_null aba_cfg];
     repeat first [rewrite decide_True by auto | rewrite decide_False by auto]; simpl_map;
     cbn [nx dat fst snd]; reflexivity|].

  (** ** Pieces of calls *)

  Lemma push_most h n π ts m a b v :
    h !! n = Some (Node (m, a) None) -> n <> 0%N ->
    exists h', tsteps c (SSh h (n, π) ts) (PcAlloc b v ALoad) 6 (SSh h' (m, nt π) ts) (PcLCas n n ts (SBool true)) /\
      h' !! n = Some (Node (ts.1, a) (Some v)) /\ forall k, k <> n -> h' !! k = h !! k.
  Proof.
    intros Hn Hn0. eexists. split; [eapply (tsteps_app _ _ _ _ 4); [by eapply push_begin|do 2 st; apply ts_nil]|].
    split; [cbn [set_heap set_tos s_heap]; by rewrite lookup_insert|].
    intros k Hk. cbn [set_heap set_tos s_heap]. by rewrite !lookup_insert_ne by done.
  Qed.

  Lemma push_last h p n ts :
    tstep c (SSh h p ts) (PcLCas n n ts (SBool true)) false None false = TGo (SSh h p (n, ts.2)) (PcRet (SBool true)).
  Proof. cbn [tstep s_tos]. by rewrite decide_True. Qed.

  Lemma all_alone h π τ a b :
    h !! A = Some (Node (B, a) (Some 7%N)) -> h !! B = Some (Node (0%N, b) (Some 5%N)) ->
    exists h', tsteps c (SSh h (0%N, π) (A, τ)) (PcALoad true) 18 (SSh h' (A, π) (0%N, nt τ)) (PcRet (SCount 2 [5; 7]%N)) /\
      h' !! A = Some (Node (B, a) None) /\ h' !! B = Some (Node (0%N, b) None).
  Proof.
    intros HA HB. eexists. split; [do 18 st; apply ts_nil|]. split; cbn [set_heap set_heap_pool set_tos s_heap]; by simpl_map.
  Qed.

  Lemma pop_rest h p π ts n m a v :
    h !! n = Some (Node (m, a) (Some v)) ->
    exists h', tsteps c (SSh h (p, π) ts) (PcCFun n) 5 (SSh h' (n, π) ts) (PcRet (SGot (Some v))) /\
      h' !! n = Some (Node (p, a) None) /\ forall k, k <> n -> h' !! k = h !! k.
  Proof.
    intros Hn. destruct (pop_free nb M h p π ts n m a v (SGot (Some v)) Hn) as (h' & Ht & H). exists h'.
    split; [|exact H]. st. exact Ht.
  Qed.

  (** ** Going round *)

  Definition base (s : rstate) (x : sshared) : Prop :=
    r_x s = x /\ r_pcs s = ∅ /\ r_view s 1 = v0 /\ fulls s 0.

  Lemma base_goes s s' tr x x' : base s x -> goes c 0 s tr s' x' (r_pcs s) -> base s' x'.
  Proof.
    intros (_ & H2 & H3 & _) (_ & I2 & I3 & I4 & I5 & _). split; [done|]. split; [by rewrite I3|].
    split; [|done]. by rewrite I4.
  Qed.

  Lemma call_base s x o pc k x' r :
    base s x -> sstart c o = Some pc -> tsteps c x pc k x' (PcRet r) ->
    exists tr s', rexec c true s tr s' /\ tr.*1 = [Inv 0 o; Res 0 r] /\ base s' x' /\ laters s s'.
  Proof.
    intros Hb Ho Ht. pose proof Hb as (H1 & H2 & H3 & H4).
    destruct (goes_call c s 0 o pc k x' r) as (V & V' & s' & G); [by rewrite H2|done|by rewrite H1|done|].
    exists [(Inv 0 o, V); (Res 0 r, V')], s'. split; [apply G|]. split; [done|]. split; [by eapply base_goes|apply G].
  Qed.

  Definition tosfull (s : rstate) : Prop := full (r_x s) (r_w s) (w_tosv (r_w s)).

  Lemma push_base s h n π ts m a v :
    base s (SSh h (n, π) ts) -> h !! n = Some (Node (m, a) None) -> n <> 0%N ->
    exists tr s' h', rexec c true s tr s' /\ tr.*1 = [Inv 0 (SPush true v); Res 0 (SBool true)] /\
      base s' (SSh h' (m, nt π) (n, ts.2)) /\ laters s s' /\ tosfull s' /\
      h' !! n = Some (Node (ts.1, a) (Some v)) /\ forall k, k <> n -> h' !! k = h !! k.
  Proof.
    intros Hb Hn Hn0. destruct (push_most h n π ts m a true v Hn Hn0) as (h' & Ht & Hh). pose proof Hb as (H1 & H2 & H3 & H4).
    destruct (goes_call_tos c s 0 (SPush true v) (PcAlloc true v ALoad) 6 (SSh h' (m, nt π) ts) (PcLCas n n ts (SBool true)) ts
      (SSh h' (m, nt π) (n, ts.2)) (SBool true)) as (V & V' & s' & G & Hf);
      [by rewrite H2|done|by rewrite H1|done|done|apply push_last|done|].
    exists [(Inv 0 (SPush true v), V); (Res 0 (SBool true), V')], s', h'.
    split; [apply G|]. split; [done|]. split; [by eapply base_goes|]. split; [apply G|]. done.
  Qed.

  Lemma spin_base k : forall s h π τ a b v,
    base s (SSh h (B, π) (A, τ)) -> tosfull s -> h !! A = Some (Node (0%N, a) (Some v)) -> h !! B = Some (Node (0%N, b) None) ->
    exists tr s' h' π' a', rexec c true s tr s' /\ tr.*1 = spin k v /\
      base s' (SSh h' (B, π') (A, iter_nt nb M k τ)) /\ laters s s' /\ tosfull s' /\
      h' !! A = Some (Node (0%N, a') (Some v)) /\ h' !! B = Some (Node (0%N, b) None).
  Proof.
    induction k as [|k IH]; intros s h π τ a b v Hb Hf HA HB.
    - exists [], s, h, π, a. split; [constructor|]. split; [done|]. split; [done|]. split; [apply later_refl|]. done.
    - destruct (pop_alone nb M h B π A τ 0 a v HA) as (h1 & Ht1 & HA1 & Hk1); [done|].
      destruct (call_base s _ SPop PcCLoad 8 _ _ Hb eq_refl Ht1) as (tr1 & s1 & E1 & T1 & B1 & L1).
      destruct (push_base s1 h1 A π (0%N, nt τ) B a v B1 HA1) as (tr2 & s2 & h2 & E2 & T2 & B2 & L2 & F2 & HA2 & Hk2); [done|].
      destruct (IH s2 h2 (nt π) (nt τ) a b v B2 F2 HA2) as (tr3 & s3 & h3 & π3 & a3 & E3 & T3 & B3 & L3 & F3 & HA3 & HB3).
      { rewrite Hk2, Hk1 by done. exact HB. }
      exists (tr1 ++ tr2 ++ tr3), s3, h3, π3, a3.
      split; [eapply rexec_trans; [exact E1|]; by eapply rexec_trans|].
      split; [rewrite !fmap_app, T1, T2, T3; done|]. split; [exact B3|].
      split; [|done]. eapply later_trans; [exact L1|]. by eapply later_trans.
  Qed.

  (** ** The use of the old value *)

  Lemma stale_pop s h π q j (mv : view) lk v b :
    base s (SSh h (B, π) (A, 0%N)) -> tosfull s ->
    hist RTos (r_x s) (r_w s) !! q = Some ((A, 0%N), mv) -> mv (LNext A) <= j ->
    h !! A = Some (Node lk (Some v)) -> h !! B = Some b ->
    next_hist (Node lk (Some v)) (r_w s) A !! j = Some B ->
    exists tr s', rexec c true s tr s' /\ tr.*1 = [Inv 1 SPop] /\ r_x s' = SSh h (B, π) (B, nt 0) /\
      r_pcs s' = {[ 1 := PcCFun A ]} /\ fulls s' 1.
  Proof.
    intros (Hx & Hp & Hv & _) Hf Hm Hj HA HB Hl. destruct s as [x w pcs vw]. simpl in *. subst x pcs.
    unfold tosfull in Hf. simpl in Hf. destruct Hf as (F1 & F2 & F3 & F4).
    set (x := SSh h (B, π) (A, 0%N)) in *.
    set (V0 := tick 1 (vw 1)).
    set (V1 := vjoin (vset V0 (LRoot 1) q) mv).
    set (V2 := vset V1 (LNext A) j).
    set (ts := pred (length (hist RTos x w))).
    set (V3 := vset (vjoin V2 (w_tosv w)) (LRoot 1) (S ts)).
    set (s1 := RSt x w {[ 1 := PcCLoad ]} (set_view vw 1 V0)).
    set (s2 := RSt x w {[ 1 := PcCNext (A, 0%N) ]} (set_view (set_view vw 1 V0) 1 V1)).
    set (s3 := RSt x w {[ 1 := PcCCas (A, 0%N) B ]} (set_view (set_view (set_view vw 1 V0) 1 V1) 1 V2)).
    set (s4 := RSt (SSh h (B, π) (B, nt 0)) (push_msg RTos x w V3) {[ 1 := PcCFun A ]}
      (set_view (set_view (set_view (set_view vw 1 V0) 1 V1) 1 V2) 1 V3)).
    assert (Hsv : forall vw V, set_view vw 1 V 1 = V) by (intros; unfold set_view; by rewrite decide_True).
    assert (Hlen : length (hist RTos x w) = S ts) by apply hist_len.
    assert (Hm' : hist RTos x w !! q = Some (((A, 0%N) : tagged), mv)) by exact Hm.
    assert (Hlast : hist RTos x w !! ts = Some (((A, 0%N) : tagged), w_tosv w)) by exact (hist_last' RTos x w).
    assert (H2ts : q <= ts).
    { pose proof (lookup_lt_Some (hist RTos x w) q _ Hm) as Hlt. rewrite Hlen in Hlt. lia. }
    assert (F3' : w_tosv w (LRoot 1) <= ts) by exact (F3 RTos).
    assert (Hmv : vle mv (w_tosv w)). { apply (F4 RTos ((A, 0%N), mv)). by eapply elem_of_list_lookup_2. }
    assert (HV2 : forall l, (forall t, l <> LClk t) -> l <> LRoot 1 -> V2 l <= w_tosv w l).
    { intros l Hc1 Hr. unfold V2. unfold vset. destruct (decide (l = LNext A)) as [->|Hne].
      - rewrite F1. apply lookup_lt_Some in Hl. unfold next_hist in Hl. rewrite app_length in Hl. simpl in Hl. lia.
      - unfold V1, vjoin. rewrite vset_ne by done. unfold V0, tick. rewrite Hv. rewrite vset_ne by done.
        specialize (Hmv l). unfold v0. lia. }
    assert (HV2r : V2 (LRoot 1) <= ts).
    { unfold V2. rewrite vset_ne by done. unfold V1, vjoin. rewrite vset_eq. specialize (Hmv (LRoot 1)). lia. }
    assert (E1 : rstep c true (RSt x w ∅ vw) (RInvoke 1 SPop) = RNext s1 [(Inv 1 SPop, V0)]) by reflexivity.
    assert (E2 : rstep c true s1 (RRun 1 q false None) = RNext s2 []).
    { unfold s2. rewrite (rstep_run c s1 1 PcCLoad q false None x w V1 (PcCNext (A, 0%N))).
      - simpl. by rewrite insert_singleton.
      - done.
      - unfold rtstep. cbn [saccess]. cbn [r_x r_w r_view s1]. rewrite Hsv.
        rewrite Hm'. rewrite decide_True; [done|]. unfold V0, tick. rewrite Hv. rewrite vset_ne by done. unfold v0. lia. }
    assert (E3 : rstep c true s2 (RRun 1 j false None) = RNext s3 []).
    { unfold s3. rewrite (rstep_run c s2 1 (PcCNext (A, 0%N)) j false None x w V2 (PcCCas (A, 0%N) B)).
      - simpl. by rewrite insert_singleton.
      - done.
      - unfold rtstep. simpl. rewrite Hsv, HA. rewrite Hl. rewrite decide_True.
        + unfold rread, see_next. simpl. by rewrite lookup_insert.
        + unfold V1, vjoin. rewrite vset_ne by done. unfold V0, tick. rewrite Hv, vset_ne by done. unfold v0. simpl. lia. }
    assert (E4 : rstep c true s3 (RRun 1 ts false None) = RNext s4 []).
    { unfold s4. rewrite (rstep_run c s3 1 (PcCCas (A, 0%N) B) ts false None (SSh h (B, π) (B, nt 0)) (push_msg RTos x w V3) V3 (PcCFun A)).
      - simpl. by rewrite insert_singleton.
      - done.
      - unfold rtstep. cbn [saccess]. cbn [r_x r_w r_view s3]. rewrite Hsv.
        rewrite Hlast.
        rewrite decide_True by exact HV2r. rewrite decide_True by by rewrite Hlen.
        cbn [tstep]. by rewrite decide_True. }
    exists [(Inv 1 SPop, V0)], s4. split.
    { eapply (rexec_trans c true _ [(Inv 1 SPop, V0)] s1 [] s4); [by eapply rx_one|].
      eapply (rexec_trans c true _ [] s2 [] s4); [by eapply rx_one|].
      eapply (rexec_trans c true _ [] s3 [] s4); by eapply rx_one. }
    do 3 (split; [done|]). unfold fulls. simpl. rewrite Hsv.
    assert (HV3 : vle (w_tosv w) V3).
    { intros l. unfold V3, vset. destruct (decide (l = LRoot 1)) as [->|]; [|unfold vjoin; lia]. lia. }
    split; [|split; [|split]].
    - intros n. unfold V3. rewrite vset_ne by done. unfold vjoin. specialize (HV2 (LNext n)). rewrite F1 in *. simpl. 
      assert (V2 (LNext n) <= length (w_next w n)) by by apply HV2. lia.
    - intros n. unfold V3. rewrite vset_ne by done. unfold vjoin. specialize (HV2 (LData n)). rewrite F2 in *. simpl.
      assert (V2 (LData n) <= w_acc w n) by by apply HV2. lia.
    - intros [].
      + unfold V3. simpl. rewrite vset_ne by done. unfold vjoin.
        assert (V2 (LRoot 0) <= w_tosv w (LRoot 0)) by by apply HV2. specialize (F3 RPool). simpl in F3.
        unfold pool_hist in *. simpl in *. lia.
      + unfold V3. simpl. rewrite vset_eq. unfold tos_hist at 1. rewrite app_length. simpl.
        simpl in Hlen. rewrite Hlen. simpl. lia.
    - intros [] m Hin.
      + eapply vle_trans; [|exact HV3]. by apply (F4 RPool).
      + simpl in Hin. unfold tos_hist at 1 in Hin. simpl in Hin. apply elem_of_app in Hin as [Hin|Hin].
        * eapply vle_trans; [|exact HV3]. by apply (F4 RTos).
        * apply elem_of_list_singleton in Hin as ->. apply vle_refl.
  Qed.

  (** ** The execution *)

  (** Thread 0 pushes [5] (node [B]) and [7] (node [A]) and consumes both, last
      element first; it pushes [6] (node [A]), and pops and pushes it again until
      the tag is what it was when [7] was on the top.  Then thread 1 pops: it reads
      the [tos] of that time, and makes [B], which is free, the top of the stack.
      It pops again. *)
  Definition old_hist : list sevent :=
    ([Inv 0 (SPush true 5%N); Res 0 (SBool true)] ++
     [Inv 0 (SPush true 7%N); Res 0 (SBool true)] ++
     [Inv 0 (SAll true); Res 0 (SCount 2 [5; 7]%N)] ++
     [Inv 0 (SPush true 6%N); Res 0 (SBool true)] ++
     spin (N.to_nat M - 1) 6) ++
    [Inv 1 SPop] ++ [Res 1 (SGot (Some 6%N))] ++ [Inv 1 SPop].

  Lemma prefix_at {X} (l l' : list X) i (y : X) : l !! i = Some y -> l `prefix_of` l' -> l' !! i = Some y.
  Proof. intros Hl [k ->]. by apply lookup_app_l_Some. Qed.

  Lemma init_base : exists h π a b,
    base (rinit c [1; 2]%N) (SSh h (B, π) (0%N, 0%N)) /\ h !! A = Some (Node (0%N, a) None) /\ h !! B = Some (Node (A, b) None).
  Proof.
    destruct (aba_init nb M) as (h & π & a & b & E & HA & HB). exists h, π, a, b. split; [|done].
    unfold base, rinit. rewrite E. simpl. do 3 (split; [done|]). unfold fulls. simpl.
    split; [done|]. split; [done|]. split.
    - intros []; simpl; unfold v0; lia.
    - intros [] m Hm; simpl in Hm; apply elem_of_list_singleton in Hm as ->; apply vle_refl.
  Qed.

  Lemma old_run : M <> 0%N ->
    exists tr s, rexec c true (rinit c [1; 2]%N) tr s /\ tr.*1 = old_hist /\
      rstep c true s (RRun 1 0 false None) = RUB.
  Proof.
    intros HM. destruct init_base as (h0 & π0 & a & b & B0 & HA0 & HB0).
    destruct (push_base _ h0 B π0 (0, 0)%N A b 5 B0 HB0) as (tr1 & s1 & h1 & E1 & T1 & B1 & L1 & _ & HB1 & K1); [done|].
    pose proof (K1 A ltac:(done)) as HA1. rewrite HA0 in HA1.
    destruct (push_base s1 h1 A (nt π0) (B, 0)%N 0 a 7 B1 HA1) as (tr2 & s2 & h2 & E2 & T2 & B2 & L2 & F2 & HA2 & K2); [done|].
    pose proof (K2 B ltac:(done)) as HB2. rewrite HB1 in HB2. cbn [fst snd] in *.
    destruct (all_alone h2 (nt (nt π0)) 0 a b HA2 HB2) as (h3 & Ht3 & HA3 & HB3).
    destruct (call_base s2 _ (SAll true) _ _ _ _ B2 eq_refl Ht3) as (tr3 & s3 & E3 & T3 & B3 & L3).
    destruct (push_base s3 h3 A _ (0%N, nt 0) B a 6 B3 HA3) as (tr4 & s4 & h4 & E4 & T4 & B4 & L4 & F4 & HA4 & K4); [done|].
    pose proof (K4 B ltac:(done)) as HB4. rewrite HB3 in HB4. cbn [fst snd] in *.
    destruct (spin_base (N.to_nat M - 1) s4 h4 _ _ a b 6 B4 F4 HA4 HB4)
      as (tr5 & s5 & h5 & π5 & a5 & E5 & T5 & B5 & L5 & F5 & HA5 & HB5).
    assert (Htag : iter_nt nb M (N.to_nat M - 1) (nt 0) = 0%N).
    { rewrite iter_nt_val; [|unfold next_tag; simpl; apply N.mod_lt; lia]. unfold next_tag. simpl.
      rewrite N.add_mod_idemp_l by lia. replace (0 + 1 + N.of_nat (N.to_nat M - 1))%N with M by lia. by apply N.mod_same. }
    rewrite Htag in B5.
    (* what was written when 7 was on the top *)
    set (q := pred (length (hist RTos (r_x s2) (r_w s2)))). set (mv := w_tosv (r_w s2)).
    assert (Hm : hist RTos (r_x s2) (r_w s2) !! q = Some (((A, 0%N) : tagged), mv)).
    { unfold q, mv. rewrite hist_last'. destruct B2 as (-> & _). done. }
    assert (Hmv : mv (LNext A) = length (w_next (r_w s2) A)) by apply F2.
    set (j := length (w_next (r_w s2) A)) in *.
    assert (L25 : laters s2 s5).
    { eapply later_trans; [exact L3|]. eapply later_trans; [exact L4|exact L5]. }
    destruct L25 as [Lh Ln].
    destruct (Ln A (Node (B, a) (Some 7%N))) as (nd & Hnd & Hp).
    { destruct B2 as (-> & _). exact HA2. }
    pose proof B5 as (X5 & P5 & _ & _). rewrite X5 in Hnd. simpl in Hnd. rewrite HA5 in Hnd. injection Hnd as <-.
    destruct (stale_pop s5 h5 π5 q j mv (0%N, a5) 6 (Node (0%N, b) None) B5 F5) as (tr6 & s6 & E6 & T6 & X6 & P6 & F6);
      [by eapply prefix_at|by rewrite Hmv|done|done| |].
    { eapply prefix_at; [|exact Hp]. unfold next_hist, j. rewrite lookup_app_r by lia. by rewrite Nat.sub_diag. }
    destruct (pop_rest h5 B π5 (B, nt 0) A 0 a5 6 HA5) as (h7 & Ht7 & HA7 & K7).
    pose proof (K7 B ltac:(done)) as HB7. rewrite HB5 in HB7.
    destruct (goes_run c _ _ _ _ _ Ht7 s6 1 X6) as (s7 & G7); [by rewrite P6, lookup_singleton|done|].
    pose proof G7 as (E7 & X7 & P7 & _ & Fl7 & _). rewrite P6, insert_singleton in P7.
    destruct (goes_ret c s7 1 (SGot (Some 6%N))) as (V8 & s8 & G8 & _); [by rewrite P7, lookup_singleton|done|].
    pose proof G8 as (E8 & X8 & P8 & _ & Fl8 & _). rewrite P7, delete_singleton in P8. rewrite X7 in X8.
    destruct (goes_inv c s8 1 SPop PcCLoad) as (V9 & s9 & G9 & _); [by rewrite P8|done|done|].
    pose proof G9 as (E9 & X9 & P9 & _ & Fl9 & _). rewrite P8, insert_empty in P9. rewrite X8 in X9.
    assert (Ht10 : tsteps c (SSh h7 (A, π5) (B, nt 0)) PcCLoad 3 (SSh h7 (A, π5) (0%N, nt (nt 0))) (PcCFun B)).
    { do 3 st. apply ts_nil. }
    destruct (goes_run c _ _ _ _ _ Ht10 s9 1 X9) as (s10 & G10); [by rewrite P9, lookup_singleton|done|].
    pose proof G10 as (E10 & X10 & P10 & _ & Fl10 & _). rewrite P9, insert_singleton in P10.
    exists ((tr1 ++ tr2 ++ tr3 ++ tr4 ++ tr5) ++ tr6 ++ [(Res 1 (SGot (Some 6%N)), V8)] ++ [(Inv 1 SPop, V9)]), s10.
    split; [|split].
    - eapply rexec_trans.
      + repeat (eapply rexec_trans; [eassumption|]). eassumption.
      + eapply rexec_trans; [exact E6|]. change [(Res 1 (SGot (Some 6%N)), V8)] with ([] ++ [(Res 1 (SGot (Some 6%N)), V8)] : list (sevent * view)).
        eapply rexec_trans; [by eapply rexec_trans|]. rewrite <- (app_nil_r [(Inv 1 SPop, V9)]). by eapply rexec_trans.
    - rewrite !fmap_app, T1, T2, T3, T4, T5, T6. done.
    - cbn [rstep]. rewrite P10, lookup_singleton. unfold rtstep. cbn [saccess].
      destruct Fl10 as (_ & Fd & _). rewrite decide_True by apply Fd. rewrite X10. unfold rwrite. cbn [tstep s_heap].
      by rewrite HB7.
  Qed.

  Lemma spin_seq k v h : sequential h -> sequential (spin k v ++ h).
  Proof.
    intros Hh. induction k as [|k IH]; [done|]. change (spin (S k) v ++ h) with (cyc v ++ (spin k v ++ h)).
    intros [|[|[|[|i]]]] t o Hi; simpl in Hi; try done.
    - injection Hi as <- <-. right. by eexists.
    - injection Hi as <- <-. right. by eexists.
    - destruct (IH i t o Hi) as [IH'|IH']; [left; simpl; by rewrite IH'|by right].
  Qed.

  Lemma old_sequential : sequential old_hist.
  Proof.
    unfold old_hist. rewrite <- !app_assoc.
    assert (Hs : sequential (spin (N.to_nat M - 1) 6 ++ [Inv 1 SPop] ++ [Res 1 (SGot (Some 6%N))] ++ [Inv 1 SPop])).
    { apply spin_seq. intros [|[|[|i]]] t o Hi; simpl in Hi; try done; simplify_eq/=; [right; by eexists|by left]. }
    intros [|[|[|[|[|[|[|[|i]]]]]]]] t o Hi; simpl in Hi; try done; try (injection Hi as <- <-; right; by eexists).
    destruct (Hs i t o Hi) as [H|H]; [left; simpl in *; by rewrite H|by right].
  Qed.

  Lemma ok_app h1 h2 : hist_ok h1 -> hist_ok h2 -> hist_ok (h1 ++ h2).
  Proof. intros H1 H2 t o Hin. apply elem_of_app in Hin as [?|?]; [by eapply H1|by eapply H2]. Qed.

  Lemma old_ok : hist_ok old_hist.
  Proof.
    unfold old_hist. repeat apply ok_app; try (by apply hist_okb_ok; vm_compute).
    generalize (N.to_nat M - 1). intros k. induction k as [|k IH]; [by apply hist_okb_ok|].
    apply ok_app; [by apply hist_okb_ok|done].
  Qed.

  Lemma old_main : M <> 0%N ->
    exists tr s ch, rreach c true [1; 2]%N tr s /\ sequential tr.*1 /\ rch_ok ch /\ rstep c true s ch = RUB.
  Proof.
    intros HM. destruct (old_run HM) as (tr & s & He & Ht & Hu). exists tr, s, (RRun 1 0 false None).
    split; [|split; [rewrite Ht; apply old_sequential|done]].
    split; [apply (bool_decide_unpack (NoDup [1; 2]%N)); by vm_compute|].
    split; [apply (bool_decide_unpack (0%N ∉ [1; 2]%N)); by vm_compute|].
    split; [rewrite Ht; apply old_ok|done].
  Qed.
End aba.
