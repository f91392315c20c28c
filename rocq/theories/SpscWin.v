(** * The instants at which the answers are exact (sequentially consistent loads) *)
From stdpp Require Import gmap list numbers.
From Verif Require Import Lin SpscModel SpscSpec SpscArith SpscInv SpscStep SpscProd SpscCons SpscSafe SpscObs.

Set Default Proof Using "Type".

Section win.
  Context {V : Type} (c : xcfg).
  Notation M := (x_max c).
  Implicit Types (g : xghost V) (s : xstate V).

  (** ** The indices *)
  Lemma lastv_app ws x : lastv (ws ++ [x]) = m_val x.
  Proof. unfold lastv. rewrite app_length. simpl. replace (pred (length ws + 1)) with (length ws) by lia. by rewrite list_lookup_middle. Qed.

  Lemma gi_last ws rs sl tp tc g :
    GI c ws rs sl tp tc g ->
    lastv ws = (g_np g mod M)%N /\ lastv rs = (g_nc g mod M)%N /\
    g_np g = (g_nc g + len (g_q g))%N /\ (len (g_q g) < M)%N.
  Proof.
    intros HG. pose proof (gi_wi _ _ _ _ _ _ _ HG) as HW. pose proof (wi_space _ _ _ _ _ _ HW) as Hsp.
    pose proof (wi_size _ _ _ _ _ _ HW) as Hsz. split; [|split; [|split; [done|lia]]].
    - pose proof (wi_lastw _ _ _ _ _ _ HW) as Hl. unfold lastis in Hl. rewrite (wi_lenw _ _ _ _ _ _ HW) in Hl.
      pose proof (lookup_lt_Some _ _ _ Hl) as Hlt. rewrite (wi_lenw _ _ _ _ _ _ HW) in Hlt.
      unfold lastv. destruct (lookup_lt_is_Some_2 ws (pred (length ws)) Hlt) as [m Hm]. rewrite Hm.
      by eapply wi_valw.
    - pose proof (wi_lastr _ _ _ _ _ _ HW) as Hl. unfold lastis in Hl. rewrite (wi_lenr _ _ _ _ _ _ HW) in Hl.
      pose proof (lookup_lt_Some _ _ _ Hl) as Hlt. rewrite (wi_lenr _ _ _ _ _ _ HW) in Hlt.
      unfold lastv. destruct (lookup_lt_is_Some_2 rs (pred (length rs)) Hlt) as [m Hm]. rewrite Hm.
      by eapply wi_valr.
  Qed.

  Lemma inv_last s g :
    Inv c s g ->
    lastv (x_w s) = (g_np g mod M)%N /\ lastv (x_r s) = (g_nc g mod M)%N /\
    g_np g = (g_nc g + len (g_q g))%N /\ (len (g_q g) < M)%N /\ xsize c s = len (g_q g).
  Proof.
    intros [HG _]. destruct (gi_last _ _ _ _ _ _ HG) as (H1 & H2 & H3 & H4). do 4 (split; [done|]).
    unfold xsize. rewrite H1, H2, H3.
    pose proof (N.mod_lt (g_nc g) M ltac:(lia)) as Hr.
    destruct (mod_lt_add M (g_nc g) (len (g_q g))) as [[Ha ->]|[Ha ->]]; [lia|lia|..].
    - replace (g_nc g mod M + len (g_q g) + M - g_nc g mod M)%N with (len (g_q g) + 1 * M)%N by lia.
      rewrite N.mod_add by lia. apply N.mod_small. lia.
    - replace (g_nc g mod M + len (g_q g) - M + M - g_nc g mod M)%N with (len (g_q g)) by lia.
      apply N.mod_small. lia.
  Qed.

  Notation latest := (latest c).

  Lemma load_w_last acq k ws (h : thread V) w h' :
    load_w (x_sc c) acq k ws h = Some (w, h') -> x_sc c = true \/ S (t_sw h) = length ws -> w = lastv ws.
  Proof.
    intros H Hl. apply load_w_inv in H as (m & Hm & -> & Hle & Hk & _). pose proof (lookup_lt_Some _ _ _ Hm).
    assert (pred (length ws) = k) as Hp.
    { destruct Hl as [Hl|Hl]; [specialize (Hk Hl)|]; lia. }
    unfold lastv. by rewrite Hp, Hm.
  Qed.
  Lemma load_r_last acq k rs (h : thread V) r h' :
    load_r (x_sc c) acq k rs h = Some (r, h') -> x_sc c = true \/ S (t_sr h) = length rs -> r = lastv rs.
  Proof.
    intros H Hl. apply load_r_inv in H as (m & Hm & -> & Hle & Hk & _). pose proof (lookup_lt_Some _ _ _ Hm).
    assert (pred (length rs) = k) as Hp.
    { destruct Hl as [Hl|Hl]; [specialize (Hk Hl)|]; lia. }
    unfold lastv. by rewrite Hp, Hm.
  Qed.
  Lemma own_last s g : Inv c s g -> S (t_sw (x_prod s)) = length (x_w s) /\ S (t_sr (x_cons s)) = length (x_r s).
  Proof. intros [HG _]. split; apply (gi_wi _ _ _ _ _ _ _ HG). Qed.

  (** The comparisons in terms of the size. *)
  Lemma full_iff s g :
    Inv c s g -> ((g_np g + 1) mod M = lastv (x_r s) <-> ~ (xsize c s < M - 1))%N.
  Proof.
    intros HI. destruct (inv_last _ _ HI) as (H1 & H2 & H3 & H4 & ->). rewrite H2, H3. split.
    - intros He Hlt. assert (g_nc g = g_nc g + len (g_q g) + 1)%N; [|lia]. apply (mod_inj M); [lia|done].
    - intros Hge. replace (g_nc g + len (g_q g) + 1)%N with (g_nc g + 1 * M)%N by lia. by rewrite N.mod_add by lia.
  Qed.
  Lemma empty_iff s g : Inv c s g -> (lastv (x_w s) = lastv (x_r s) <-> xsize c s = 0%N).
  Proof.
    intros HI. destruct (inv_last _ _ HI) as (H1 & H2 & H3 & H4 & ->). rewrite H1, H2, H3. split.
    - intros He. assert (g_nc g = g_nc g + len (g_q g))%N; [|lia]. apply (mod_inj M); [lia|done].
    - intros ->. by rewrite N.add_0_r.
  Qed.
  Lemma last_rel s g : Inv c s g -> lastv (x_w s) = ((lastv (x_r s) + xsize c s) mod M)%N.
  Proof.
    intros HI. destruct (inv_last _ _ HI) as (H1 & H2 & H3 & H4 & ->). rewrite H1, H2, H3.
    by rewrite N.add_mod_idemp_l by lia.
  Qed.
  Lemma mod_rel_inj r n m : (n < M)%N -> (m < M)%N -> ((r + n) mod M = (r + m) mod M)%N -> n = m.
  Proof.
    intros Hn Hm He. destruct (N.le_ge_cases n m).
    - assert (r + n = r + m)%N; [|lia]. apply (mod_inj M); [lia|done].
    - assert (r + m = r + n)%N; [|lia]. apply (mod_inj M); [lia|done].
  Qed.

  (** ** The predicate *)
  Definition sees (t : role) (ow : list msg) (win : list (xrec V)) (P : N -> Prop) : Prop :=
    exists x, x ∈ win /\ own_index t (r_pre x) = ow /\ P (xsize c (r_pre x)).
  Lemma sees_app t ow win win2 P : sees t ow win P -> sees t ow (win ++ win2) P.
  Proof. intros (x & Hx & H). exists x. split; [apply elem_of_app; by left|done]. Qed.
  Lemma sees_impl t ow win (P Q : N -> Prop) : sees t ow win P -> (forall z, P z -> Q z) -> sees t ow win Q.
  Proof. intros (x & Hx & H1 & H2) HPQ. exists x. eauto. Qed.
  Lemma sees_now t win s ch s' (P : N -> Prop) ow :
    own_index t s = ow -> P (xsize c s) -> sees t ow (win ++ [XRec s ch s']) P.
  Proof. intros Ho HP. exists (XRec s ch s'). split; [apply elem_of_app; right; by apply elem_of_list_singleton|]. done. Qed.

  Definition bcnt (kd : bkind) (z : N) : N := match kd with KPop n => (n `min` z)%N | _ => z end.

  Definition wpred (t : role) (o : xop V) (ow : list msg) (win : list (xrec V)) (s : xstate V) : Prop :=
    let here := own_index t s = ow in
    let sz P := sees t ow win P in
    let ro := lastv (x_r s) in
    match t, t_pc (th t s) with
    | _, None => True
    | _, Some (XRet r) => sz (exact (M - 1) o r)
    | RP, Some (P1 v) | RP, Some (P2 v _) => o = OPush v /\ here
    | RP, Some (P3 v _ _) => o = OPush v /\ here /\ sz (fun z => z < M - 1)%N
    | RP, Some (P4 _) => exists v, o = OPush v /\ here /\ sz (fun z => z < M - 1)%N
    | RP, Some (N1 vs) | RP, Some (N2 vs _) => o = OPushN vs /\ here
    | RP, Some (N3 _ _ _ _ _ k _) | RP, Some (N4 k _) =>
        exists us, o = OPushN us /\ here /\ sz (fun z => k = len us `min` (M - 1 - z))%N
    | RP, Some (NU _ _) => exists us, o = OPushN us /\ here /\ sz (fun _ => True)
    | RP, Some A1 | RP, Some (A2 _) => o = OWAvail /\ here
    | _, Some (E1 b) => o = OEmpty t b /\ here
    | RP, Some (E2 false w) => o = OEmpty t false /\ here
    | RP, Some (E2 true r) => o = OEmpty t true /\ here /\ sz (fun z => lastv (x_w s) = r <-> z = 0%N)
    | RC, Some (E2 true r) => o = OEmpty t true /\ here
    | RC, Some (E2 false w) => o = OEmpty t false /\ here /\ sz (fun z => w = ro <-> z = 0%N)
    | RC, Some C1 => o = OPop /\ here
    | RC, Some (C2 w) => o = OPop /\ here /\ sz (fun z => w = ro <-> z = 0%N)
    | RC, Some (C3 _) | RC, Some (C4 _ _) | RC, Some (C5 _ _) => o = OPop /\ here /\ sz (fun z => 0 < z)%N
    | RC, Some (B1 kd) => o = bop kd /\ here
    | RC, Some (B2 kd w) => o = bop kd /\ here /\ sz (fun z => z < M /\ w = (ro + z) mod M)%N
    | RC, Some (B3 kd _ _ _ nr _) | RC, Some (B4 kd _ _ _ nr _ _) | RC, Some (B5 kd nr _) =>
        o = bop kd /\ here /\ sz (fun z => z < M /\ nr = (ro + bcnt kd z) mod M)%N
    | RC, Some F1 | RC, Some (F2 _) => o = OFront /\ here
    | RC, Some V1 => o = ORAvail /\ here
    | RC, Some (V2 w) => o = ORAvail /\ here /\ sz (fun z => z < M /\ w = (ro + z) mod M)%N
    | RC, Some S1 => o = OReset /\ here
    | _, _ => False
    end.

  Lemma start_wpred t o s s1 evs win :
    xstep c s (XInvoke t o) = XNext s1 evs -> wpred t o (own_index t s) win s1.
  Proof.
    unfold xstep, wpred. destruct (x_dead s); [done|]. destruct t.
    - destruct (t_pc (x_prod s)), (x_excl s), (xstart c RP o) eqn:Hs; try done. intros [= <- <-]. simpl.
      destruct o as [| | |[]| | | | | | | |]; simplify_eq/=; done.
    - destruct (t_pc (x_cons s)), (xstart c RC o) eqn:Hs; try done. destruct (may_start c s o); [|done].
      intros H. assert (t_pc (x_cons s1) = Some x /\ x_r s1 = x_r s) as [Hpc Hr].
      { repeat case_match; simplify_eq; done. }
      simpl. rewrite Hpc, Hr. clear H.
      destruct o as [| | |[]| | | | | | | |]; simplify_eq/=; try done. by destruct (x_triv c).
  Qed.

  (** Steps that leave the thread alone. *)
  Lemma wpred_other t o ow win s s' x :
    wpred t o ow win s -> t_pc (th t s') = t_pc (th t s) ->
    (t_pc (th t s) <> None -> own_index t s' = own_index t s) ->
    wpred t o ow (win ++ [x]) s'.
  Proof.
    unfold wpred. intros H Hpc Ho. destruct t; simpl in *; rewrite Hpc.
    - destruct (t_pc (x_prod s)) as [pc|]; [|done]. rewrite (Ho ltac:(done)).
      destruct pc; try done; try (destruct H as (? & ? & H); apply (sees_app _ _ _ [x]) in H; done); try (destruct H as (? & ? & ? & H); apply (sees_app _ _ _ [x]) in H; by eauto).
      + destruct rfirst; [|done]. destruct H as (? & ? & H); apply (sees_app _ _ _ [x]) in H; done.
      + by apply sees_app.
    - destruct (t_pc (x_cons s)) as [pc|]; [|done]. rewrite (Ho ltac:(done)).
      destruct pc; try done; try (destruct H as (? & ? & H); apply (sees_app _ _ _ [x]) in H; done); try (destruct H as (? & ? & ? & H); apply (sees_app _ _ _ [x]) in H; by eauto).
      + destruct rfirst; [done|]. destruct H as (? & ? & H); apply (sees_app _ _ _ [x]) in H; done.
      + by apply sees_app.
  Qed.

  Ltac hsplit Hs := repeat match type of Hs with context [match ?x with _ => _ end] => destruct x eqn:? end.

  Lemma xsteps_snoc_inv s0 w x h s :
    xsteps c s0 (w ++ [x]) h s ->
    exists h1 evs, xsteps c s0 w h1 (r_pre x) /\ xstep c (r_pre x) (r_ch x) = XNext s evs /\
      r_post x = s /\ h = h1 ++ evs.
  Proof.
    intros H. remember (w ++ [x]) as w' eqn:Ew. destruct H as [|w2 h s2 ch s' evs H Hs]; [by destruct w|].
    apply app_inj_tail in Ew as [-> <-]. simpl. by exists h, evs.
  Qed.

  Context (HM : (0 < M <= 2 ^ 63)%N).

  Lemma wpred_prod o ow win s g k thr s' evs :
    Inv c s g -> latest RP s -> wpred RP o ow win s -> xstep c s (XRun RP k thr) = XNext s' evs ->
    wpred RP o ow (win ++ [XRec s (XRun RP k thr) s']) s'.
  Proof using HM.
    intros HI Hlt H Hs. unfold latest in Hlt. destruct (own_last _ _ HI) as [Hop Hoc]. pose proof Hs as Hs0. unfold xstep in Hs. pose proof HI as HI0. unfold Inv in HI0.
    destruct (x_dead s); [done|]. destruct HI0 as (HG & HP & _).
    destruct (inv_last _ _ HI) as (L1 & L2 & L3 & L4 & L5).
    unfold wpred in H. simpl in H. unfold wpred.
    destruct (t_pc (x_prod s)) as [pc|] eqn:Hpc; [|done]. destruct pc; try done; simpl in HP.
    - (* P1 *) unfold pstep in Hs. destruct (load_w _ _ _ _ _) as [[w h']|]; [|done]. injection Hs as <- <-. done.
    - (* P2 *) destruct HP as (HP & Hu & ->). unfold pstep in Hs.
      rewrite (next_index_ok _ HM) in Hs by (apply N.mod_lt; lia). rewrite N.add_mod_idemp_l in Hs by lia.
      destruct (load_r _ _ _ _ _) as [[r h']|] eqn:Hl; [|done]. apply load_r_last in Hl as ->; [|by auto].
      pose proof (full_iff _ _ HI) as Hf. destruct H as [-> Ho]. injection Hs as <- <-. simpl.
      destruct (decide _) as [He|He].
      + apply sees_now; [done|]. simpl. rewrite bool_decide_false; [done|]. by apply Hf.
      + split; [done|]. split; [done|]. apply sees_now; [done|]. destruct (decide (xsize c s < M - 1)%N); [done|].
        by destruct He; apply Hf.
    - (* P3 *) destruct H as (-> & Ho & H). destruct thr.
      + injection Hs as <- <-. simpl. apply sees_app. by eapply sees_impl.
      + unfold pstep, construct in Hs. hsplit Hs; simplify_eq/=; eexists; (split; [done|]; split; [done|]; by apply sees_app).
    - (* P4 *) destruct H as (v & -> & Ho & H). injection Hs as <- <-. simpl. apply sees_app. eapply sees_impl; [done|].
      intros z Hz. simpl. by rewrite bool_decide_true.
    - (* N1 *) unfold pstep in Hs. destruct (load_w _ _ _ _ _) as [[w h']|]; [|done]. injection Hs as <- <-. done.
    - (* N2 *) destruct HP as (HP & Hu & ->). unfold pstep in Hs.
      destruct (load_r _ _ _ _ _) as [[r h']|] eqn:Hl; [|done]. apply load_r_last in Hl as ->; [|by auto].
      rewrite L2, (write_available_ok _ HM) in Hs by lia. destruct H as [-> Ho].
      replace (g_np g - g_nc g)%N with (xsize c s) in Hs by lia.
      destruct (N.eqb_spec (M - 1 - xsize c s) 0) as [E|E].
      + injection Hs as <- <-. simpl. apply sees_now; [done|]. simpl. lia.
      + destruct (sections _ _ _) as [[? e2] nw]. injection Hs as <- <-. simpl.
        eexists. split; [done|]. split; [done|]. by apply sees_now.
    - (* N3 *) destruct H as (us & -> & Ho & H). unfold pstep in Hs. destruct vs as [|v vs].
      + destruct rest; injection Hs as <- <-; simpl; eexists; (split; [done|]); (split; [done|]); by apply sees_app.
      + destruct thr.
        * destruct (second && negb (x_triv c) && negb (x_bthrow c)); [done|]. injection Hs as <- <-. simpl.
          destruct (x_triv c).
          -- apply sees_app. by eapply sees_impl.
          -- eexists. split; [done|]. split; [done|]. apply sees_app. by eapply sees_impl.
        * unfold construct in Hs. hsplit Hs; simplify_eq/=; eexists; (split; [done|]; split; [done|]; by apply sees_app).
    - (* NU *) destruct H as (us & -> & Ho & H). unfold pstep in Hs. destruct (decide _).
      + injection Hs as <- <-. simpl. apply sees_app. by eapply sees_impl.
      + hsplit Hs; simplify_eq/=. eexists. split; [done|]. split; [done|]. by apply sees_app.
    - (* N4 *) destruct H as (us & -> & Ho & H). injection Hs as <- <-. simpl. by apply sees_app.
    - (* A1 *) unfold pstep in Hs. destruct (load_w _ _ _ _ _) as [[w h']|]; [|done]. injection Hs as <- <-. done.
    - (* A2 *) destruct HP as (HP & Hu & ->). unfold pstep in Hs.
      destruct (load_r _ _ _ _ _) as [[r h']|] eqn:Hl; [|done]. apply load_r_last in Hl as ->; [|by auto].
      rewrite L2, (write_available_ok _ HM) in Hs by lia. destruct H as [-> Ho]. injection Hs as <- <-. simpl.
      apply sees_now; [done|]. simpl. lia.
    - (* E1 *) destruct H as [-> Ho]. unfold estep in Hs. destruct rfirst.
      + destruct (load_r _ _ _ _ _) as [[r h']|] eqn:Hl; [|done]. apply load_r_last in Hl as ->; [|by auto].
        injection Hs as <- <-. simpl. split; [done|]. split; [done|]. apply sees_now; [done|]. by eapply empty_iff.
      + destruct (load_w _ _ _ _ _) as [[w h']|] eqn:Hl; [|done]. injection Hs as <- <-. done.
    - (* E2 *) unfold estep in Hs. destruct rfirst.
      + destruct H as (-> & Ho & H). destruct (load_w _ _ _ _ _) as [[w h']|] eqn:Hl; [|done]. 
        apply load_w_last in Hl as ->; [|by auto]. injection Hs as <- <-. simpl. apply sees_app. eapply sees_impl; [done|].
        intros z Hz. simpl. by apply bool_decide_ext.
      + destruct H as (-> & Ho). destruct HP as (_ & _ & ->). destruct (load_r _ _ _ _ _) as [[r h']|] eqn:Hl; [|done].
        apply load_r_last in Hl as ->; [|by auto]. injection Hs as <- <-. simpl. apply sees_now; [done|]. simpl.
        apply bool_decide_ext. rewrite <- L1. by eapply empty_iff.
    - (* XRet *) injection Hs as <- <-. done.
  Qed.

  Lemma wpred_cons o ow win s g k thr s' evs :
    Inv c s g -> latest RC s -> wpred RC o ow win s -> xstep c s (XRun RC k thr) = XNext s' evs ->
    wpred RC o ow (win ++ [XRec s (XRun RC k thr) s']) s'.
  Proof using HM.
    intros HI Hlt H Hs. unfold latest in Hlt. destruct (own_last _ _ HI) as [Hop Hoc]. pose proof Hs as Hs0. unfold xstep in Hs. pose proof HI as HI0. unfold Inv in HI0.
    destruct (x_dead s); [done|]. destruct HI0 as (HG & HP & HC & HX).
    destruct (inv_last _ _ HI) as (L1 & L2 & L3 & L4 & L5).
    unfold wpred in H. simpl in H. unfold wpred.
    destruct (t_pc (x_cons s)) as [pc|] eqn:Hpc; [|done]. destruct pc; try done; simpl in HC.
    - (* E1 *) destruct H as [-> Ho]. unfold estep in Hs. destruct rfirst.
      + destruct (load_r _ _ _ _ _) as [[r h']|] eqn:Hl; [|done]. injection Hs as <- <-. done.
      + destruct (load_w _ _ _ _ _) as [[w h']|] eqn:Hl; [|done]. apply load_w_last in Hl as ->; [|by auto].
        injection Hs as <- <-. simpl. split; [done|]. split; [done|]. apply sees_now; [done|]. by eapply empty_iff.
    - (* E2 *) unfold estep in Hs. destruct rfirst.
      + destruct H as (-> & Ho). destruct HC as (_ & _ & ->). destruct (load_w _ _ _ _ _) as [[w h']|] eqn:Hl; [|done].
        apply load_w_last in Hl as ->; [|by auto]. injection Hs as <- <-. simpl. apply sees_now; [done|]. simpl.
        apply bool_decide_ext. rewrite <- L2. by eapply empty_iff.
      + destruct H as (-> & Ho & H). destruct (load_r _ _ _ _ _) as [[r h']|] eqn:Hl; [|done]. 
        apply load_r_last in Hl as ->; [|by auto]. injection Hs as <- <-. simpl. apply sees_app. eapply sees_impl; [done|].
        intros z Hz. simpl. by apply bool_decide_ext.
    - (* C1 *) destruct H as [-> Ho]. unfold cstep in Hs.
      destruct (load_w _ _ _ _ _) as [[w h']|] eqn:Hl; [|done]. apply load_w_last in Hl as ->; [|by auto].
      injection Hs as <- <-. simpl. split; [done|]. split; [done|]. apply sees_now; [done|]. by eapply empty_iff.
    - (* C2 *) destruct H as (-> & Ho & H). unfold cstep in Hs.
      destruct (load_r _ _ _ _ _) as [[r h']|] eqn:Hl; [|done]. apply load_r_last in Hl as ->; [|by auto].
      injection Hs as <- <-. simpl. destruct (decide _) as [He|He].
      + apply sees_app. eapply sees_impl; [done|]. intros z Hz. simpl. by apply Hz.
      + split; [done|]. split; [done|]. apply sees_app. eapply sees_impl; [done|]. intros z Hz. simpl.
        destruct (decide (z = 0%N)); [|lia]. by destruct He; apply Hz.
    - (* C3 *) destruct H as (-> & Ho & H). unfold cstep, consume in Hs. hsplit Hs; simplify_eq/=.
      + apply sees_app. by eapply sees_impl.
      + split; [done|]. split; [done|]. by apply sees_app.
    - (* C4 *) destruct H as (-> & Ho & H). unfold cstep, destroy in Hs. hsplit Hs; simplify_eq/=;
        (split; [done|]; split; [done|]; by apply sees_app).
    - (* C5 *) destruct H as (-> & Ho & H). injection Hs as <- <-. simpl. by apply sees_app.
    - (* B1 *) destruct H as [-> Ho]. unfold cstep in Hs.
      destruct (load_w _ _ _ _ _) as [[w h']|] eqn:Hl; [|done]. apply load_w_last in Hl as ->; [|by auto].
      injection Hs as <- <-. simpl. split; [done|]. split; [done|]. apply sees_now; [done|]. split; [lia|].
      by eapply last_rel.
    - (* B2 *) destruct H as (-> & Ho & H). unfold cstep in Hs.
      destruct (load_r _ _ _ _ _) as [[r h']|] eqn:Hl; [|done]. apply load_r_last in Hl as ->; [|by auto].
      destruct HC as (_ & n & Hn & -> & _ & _ & _ & _). rewrite L2, (read_available_ok _ HM) in Hs by lia.
      replace (g_nc g + n - g_nc g)%N with n in Hs by lia.
      assert (Hz : forall z, (z < M)%N -> ((g_nc g + n) mod M = (lastv (x_r s) + z) mod M)%N -> z = n).
      { intros z Hz He. rewrite L2, N.add_mod_idemp_l in He by lia. by eapply mod_rel_inj. }
      destruct (N.eqb_spec n 0) as [->|Hn0].
      + injection Hs as <- <-. simpl. apply sees_app. eapply sees_impl; [done|]. intros z [Hz1 Hz2].
        rewrite (Hz z Hz1 Hz2). destruct kd; simpl; try done. lia.
      + rewrite (sections_ok _ HM) in Hs by (destruct kd; lia).
        assert (exists i e e2, s' = XSt (x_w s) (x_r s) (x_slots s) (x_prod s)
            (set_pc h' (B3 kd i e e2 ((g_nc g + bcnt kd n) mod M)%N [])) (x_known s) (x_excl s) (x_dead s))
          as (i & e & e2 & ->).
        { fold (bcnt kd n) in Hs. destruct (decide _); injection Hs as <- <-; eauto. }
        simpl. split; [done|]. split; [done|]. apply sees_app. eapply sees_impl; [done|]. intros z [Hz1 Hz2].
        rewrite (Hz z Hz1 Hz2). split; [done|]. by rewrite L2, N.add_mod_idemp_l by lia.
    - (* B3 *) destruct H as (-> & Ho & H). unfold cstep, consume in Hs. hsplit Hs; simplify_eq/=;
        try (split; [done|]; split; [done|]; by apply sees_app).
      apply sees_app. eapply sees_impl; [done|]. intros z Hz. destruct kd; done.
    - (* B4 *) destruct H as (-> & Ho & H). unfold cstep, destroy in Hs. hsplit Hs; simplify_eq/=;
        (split; [done|]; split; [done|]; by apply sees_app).
    - (* B5 *) destruct H as (-> & Ho & H). injection Hs as <- <-. simpl. apply sees_app. eapply sees_impl; [done|].
      intros z [Hz1 Hz2]. destruct HC as (_ & Hl & Ha & Hb & ->).
      assert (Hle : length acc <= length (g_q g)).
      { apply (f_equal length) in Ha. rewrite take_length in Ha. lia. }
      assert (len acc = bcnt kd z) as Hc.
      { rewrite L2, N.add_mod_idemp_l in Hz2 by lia. eapply mod_rel_inj; [..|exact Hz2]; [lia|].
        destruct kd; simpl; lia. }
      destruct kd; simpl in *; done.
    - (* F1 *) destruct H as [-> Ho]. unfold cstep in Hs. destruct (load_r _ _ _ _ _) as [[w h']|]; [|done]. injection Hs as <- <-. done.
    - (* F2 *) destruct H as [-> Ho]. unfold cstep, consume in Hs. hsplit Hs; simplify_eq/=. by apply sees_now.
    - (* V1 *) destruct H as [-> Ho]. unfold cstep in Hs.
      destruct (load_w _ _ _ _ _) as [[w h']|] eqn:Hl; [|done]. apply load_w_last in Hl as ->; [|by auto].
      injection Hs as <- <-. simpl. split; [done|]. split; [done|]. apply sees_now; [done|]. split; [lia|].
      by eapply last_rel.
    - (* V2 *) destruct H as (-> & Ho & H). unfold cstep in Hs.
      destruct (load_r _ _ _ _ _) as [[r h']|] eqn:Hl; [|done]. apply load_r_last in Hl as ->; [|by auto].
      destruct HC as (_ & n & Hn & -> & _). rewrite L2, (read_available_ok _ HM) in Hs by lia.
      replace (g_nc g + n - g_nc g)%N with n in Hs by lia. injection Hs as <- <-. simpl. apply sees_app.
      eapply sees_impl; [done|]. intros z [Hz1 Hz2]. simpl. rewrite L2, N.add_mod_idemp_l in Hz2 by lia.
      by eapply mod_rel_inj.
    - (* S1 *) destruct H as [-> Ho]. injection Hs as <- <-. simpl. by apply sees_now.
    - (* XRet *) destruct (x_excl s); injection Hs as <- <-; done.
  Qed.

  (** What a step of one thread leaves to the other. *)
  Lemma step_other t s g ch s' evs :
    Inv c s g -> xstep c s ch = XNext s' evs -> (forall o, ch <> XInvoke t o) -> (forall k thr, ch <> XRun t k thr) ->
    t_pc (th t s') = t_pc (th t s) /\ (t_pc (th t s) <> None -> own_index t s' = own_index t s).
  Proof.
    unfold xstep, Inv. intros (_ & HI). destruct (x_dead s); [done|]. destruct HI as (_ & HC & HX). intros Hs Hi Hr.
    destruct ch as [[] o|[] k thr|]; destruct t; try (by destruct (Hi o)); try (by destruct (Hr k thr)); simpl.
    - hsplit Hs; simplify_eq; done.
    - hsplit Hs; simplify_eq; done.
    - destruct (t_pc (x_prod s)) as [pc|]; [|done].
      assert (Hl : forall f, lift s RP f = XNext s' evs -> x_cons s' = x_cons s) by (intros []; intros; simplify_eq/=; done).
      assert (H' : x_cons s' = x_cons s).
      { destruct pc; try (by eapply Hl). injection Hs as <- <-. done. }
      rewrite H'. split; [done|]. intros _.
      destruct pc; try (unfold pstep, estep, construct in Hs; simpl in Hs; hsplit Hs; simplify_eq/=; done).
    - destruct (t_pc (x_cons s)) as [pc|]; [|done].
      destruct pc; try (unfold cstep, estep, consume, destroy in Hs; simpl in Hs; hsplit Hs; simplify_eq/=; done).
      + destruct HC as (_ & (_ & _ & He) & _). destruct (HX ltac:(by rewrite He)) as [Hp _]. injection Hs as <- <-. simpl. by rewrite Hp.
      + destruct (x_excl s); [|by injection Hs as <- <-]. destruct (HX ltac:(done)) as [Hp _]. injection Hs as <- <-. simpl. by rewrite Hp.
    - hsplit Hs; simplify_eq; done.
    - hsplit Hs; simplify_eq; done.
  Qed.

  Lemma wpred_win w1 t o s0 s1 win h s :
    code_cfg c -> x_sc c = true ->
    xsteps c xinit (w1 ++ XRec s0 (XInvoke t o) s1 :: win) h s ->
    Forall (fun x => is_invoke t x = false) win ->
    wpred t o (own_index t s0) win s.
  Proof using HM.
    intros (_ & Hord & Hthr & Hchk) Hsc. revert h s. induction win as [|x win IH] using rev_ind; intros h s H Hn.
    - apply xsteps_snoc_inv in H as (h1 & evs & H & Hs & <- & _). simpl in *. by eapply start_wpred.
    - apply Forall_app in Hn as [Hn Hx]. apply Forall_inv in Hx.
      rewrite app_comm_cons, app_assoc in H. apply xsteps_snoc_inv in H as (h1 & evs & H & Hs & <- & _).
      specialize (IH _ _ H Hn). destruct (xsteps_ok c HM Hord Hthr Hchk _ _ _ H) as (g & HI & _).
      destruct x as [s ch s']. simpl in *.
      assert ((exists k thr, ch = XRun t k thr) \/ ~ exists k thr, ch = XRun t k thr) as [(k & thr & ->)|Hr].
      { destruct ch as [[]|[]|], t; try (by left; eauto); right; intros (? & ? & ?); done. }
      + destruct t; [eapply wpred_prod|eapply wpred_cons]; try done; by left.
      + edestruct (step_other t) as [Hpc Ho]; [done|done| | |by eapply wpred_other].
        * intros o' ->. destruct t; done.
        * intros k thr ->. destruct Hr. eauto.
  Qed.

  Lemma window_exact t o s0 win s r :
    code_cfg c -> x_sc c = true -> window c t o s0 win s -> t_pc (th t s) = Some (XRet r) ->
    exists x, x ∈ win /\ own_index t (r_pre x) = own_index t s0 /\ exact (M - 1) o r (xsize c (r_pre x)).
  Proof using HM.
    intros Hc Hsc (w1 & h & s1 & H & Hn) Hpc. pose proof (wpred_win _ _ _ _ _ _ _ _ Hc Hsc H Hn) as Hw.
    unfold wpred in Hw. destruct t; by rewrite Hpc in Hw.
  Qed.
End win.
