(** * Preservation of the invariant: the consumer's steps *)
From stdpp Require Import gmap list numbers.
From Verif Require Import Lin SpscModel SpscSpec SpscArith SpscInv SpscStep SpscProd.

Set Default Proof Using "Type".

Section cons.
  Context {V : Type} (c : xcfg).
  Notation M := (x_max c).
  Notation sc := (x_sc c).
  Notation spec := (xspec (M - 1) sc).
  Notation ghost := (xghost V).
  Implicit Types (ws rs : list msg) (sl : gmap N (slot V)) (tp tc th : thread V) (g : ghost).

  (** What the consumer's steps leave to the producer. *)
  Definition cframe rs rs' g g' : Prop :=
    g_np g' = g_np g /\ g_up g' = g_up g /\ g_kp g' = g_kp g /\ g_ph g' !! 0 = g_ph g !! 0 /\
    (exists r2, rs' = rs ++ r2) /\ (exists r2, g_cr g' = g_cr g ++ r2) /\
    (exists l2, g_l g' = g_l g ++ l2 /\ erase l2 = []).

  Definition cok ws rs tp tc known excl g (o : tout V) : Prop :=
    match o with
    | TNext ws' rs' sl' tc' => ws' = ws /\ exists g' pc', t_pc tc' = Some pc' /\
        GI c ws rs' sl' tp tc' g' /\ cinv c (Some pc') ws tc' known excl g' /\ cframe rs rs' g g' /\
        t_sw tc <= t_sw tc'
    | TErr _ => False
    | TDisabled => True
    end.

  Lemma cframe_refl rs g : cframe rs rs g g.
  Proof. repeat split; try done; exists []; by rewrite ?app_nil_r. Qed.

  Lemma binv_view kd i e e2 nr acc ws tc tc' g :
    binv c kd i e e2 nr acc ws tc g -> t_sw tc <= t_sw tc' -> (t_p tc <= t_p tc')%N ->
    binv c kd i e e2 nr acc ws tc' g.
  Proof.
    intros (Ha & Hb & n & Hc & Hd & He & Hf & Hg) H1 H2. split; [done|]. split; [done|]. exists n.
    do 2 (split; [done|]). split; [by eapply wknow_mono|done].
  Qed.

  Lemma cinv_view pc ws tc tc' known excl g :
    cinv c pc ws tc known excl g -> t_sw tc <= t_sw tc' -> (t_p tc <= t_p tc')%N ->
    cinv c pc ws tc' known excl g.
  Proof.
    intros H H1 H2. destruct pc as [[]|]; simpl in *; try done.
    - destruct H as [Ha H]. split; [done|]. destruct H as [H|(? & ? & ? & ?)]; [by left|]. right.
      do 2 (split; [done|]). split; [by eapply wknow_mono|done].
    - destruct H as (? & ? & ? & ? & ?). do 3 (split; [done|]). split; [by eapply wknow_mono|done].
    - destruct H as (? & ? & ? & ? & ?). do 3 (split; [done|]). split; [by eapply wknow_mono|done].
    - destruct H as [Ha (n & ? & ? & ? & ?)]. split; [done|]. exists n. do 2 (split; [done|]).
      split; [by eapply wknow_mono|done].
    - destruct H as [? H]. split; [done|]. by eapply binv_view.
    - destruct H as (? & H & ?). split; [done|]. split; [by eapply binv_view|done].
  Qed.

  Lemma gi_seen ws rs sl tp tc g :
    GI c ws rs sl tp tc g ->
    t_sw tp < length ws /\ t_sr tp < length rs /\ t_sw tc < length ws /\ t_sr tc < length rs.
  Proof.
    intros HG. pose proof (gi_wi _ _ _ _ _ _ _ HG) as HW.
    pose proof (wi_ownp _ _ _ _ _ _ HW). pose proof (wi_ownc _ _ _ _ _ _ HW).
    destruct (wi_seenp _ _ _ _ _ _ HW) as (n & Hn & _). apply lookup_lt_Some in Hn.
    destruct (wi_seenc _ _ _ _ _ _ HW) as (n' & Hn' & _). apply lookup_lt_Some in Hn'.
    rewrite (wi_lenr _ _ _ _ _ _ HW) in Hn. rewrite (wi_lenw _ _ _ _ _ _ HW) in Hn'. lia.
  Qed.

  Lemma cok_set ws rs rs' sl th tp tc known excl g g' pc :
    GI c ws rs' sl tp th g' -> cinv c (Some pc) ws th known excl g' -> cframe rs rs' g g' ->
    t_sw tc <= t_sw th ->
    cok ws rs tp tc known excl g (TNext ws rs' sl (set_pc th pc)).
  Proof.
    intros H1 H2 H3 H4. split; [done|]. exists g', pc. split; [done|]. split.
    - pose proof (gi_seen _ _ _ _ _ _ H1). eapply GI_tc; [done|..]; simpl; lia.
    - split; [by eapply cinv_view|]. done.
  Qed.

  Lemma wknow_le ws tc g n n' : wknow ws tc g n -> (n' <= n)%N -> wknow ws tc g n'.
  Proof.
    intros [->|(k & m & x & H1 & H2 & H3 & H4 & H5)] Hn; [left; lia|]. right. exists k, m, x.
    do 4 (split; [done|]). lia.
  Qed.

  Lemma cons_load_w ws rs sl tp tc g acq k w tc' :
    GI c ws rs sl tp tc g -> load_w sc acq k ws tc = Some (w, tc') ->
    exists m n, ws !! k = Some m /\ g_cw g !! k = Some n /\ w = (n mod M)%N /\ (n <= g_np g)%N /\
      (g_nc g <= n)%N /\ (g_nc g + g_kc g <= n)%N /\
      (sc = true -> n = g_np g) /\ (S (t_sw tc) = length ws -> n = g_np g) /\ GI c ws rs sl tp tc' g /\
      t_sw tc <= t_sw tc' /\ (t_p tc <= t_p tc')%N /\
      (acq = true -> wknow ws tc' g (n - g_nc g)) /\ k <= t_sw tc'.
  Proof.
    intros HG Hl. apply load_w_inv in Hl as (m & Hm & -> & Hk1 & Hk2 & H1 & H2 & H3 & H4 & H5 & H6 & H7).
    pose proof (gi_wi _ _ _ _ _ _ _ HG) as HW. pose proof (lookup_lt_Some _ _ _ Hm) as Hlt.
    pose proof (wi_lenw _ _ _ _ _ _ HW) as Hlen.
    destruct (lookup_lt_is_Some_2 (g_cw g) k) as [n Hn]; [lia|].
    destruct (wi_seenc _ _ _ _ _ _ HW) as (n' & Hn' & Ha & Hb).
    pose proof (wi_monow _ _ _ _ _ _ HW _ _ _ _ Hk1 Hn' Hn).
    destruct (wi_msgw _ _ _ _ _ _ HW k m Hm) as [Hm1 Hm2].
    pose proof (wi_ownc _ _ _ _ _ _ HW) as Hown.
    assert (Hlast : S k = length ws -> n = g_np g).
    { intros E. pose proof (wi_lastw _ _ _ _ _ _ HW) as Hlast.
      unfold lastis in Hlast. rewrite Hlen, <- E in Hlast. simpl in Hlast. congruence. }
    exists m, n. split; [done|]. split; [done|]. split; [by eapply (wi_valw _ _ _ _ _ _ HW)|].
    split; [by eapply wi_cw_le|]. split; [lia|]. split; [lia|]. split; [auto|].
    split; [intros E; apply Hlast; lia|].
    split; [eapply GI_tc; [done|lia..]|]. split; [lia|]. split; [done|]. split; [|done].
    intros Hacq. destruct (decide (n = g_nc g)) as [->|Hne]; [left; lia|]. right.
    exists k, m, n. do 2 (split; [done|]). split; [|split; [done|lia]].
    apply H7; [done|]. eapply (si_data _ _ _ _ _ _ _ (gi_si _ _ _ _ _ _ _ HG)); [done..|lia].
  Qed.

  Lemma cons_load_r ws rs sl tp tc g acq k r tc' :
    GI c ws rs sl tp tc g -> load_r sc acq k rs tc = Some (r, tc') ->
    r = (g_nc g mod M)%N /\ GI c ws rs sl tp tc' g /\ t_sw tc <= t_sw tc' /\ (t_p tc <= t_p tc')%N.
  Proof.
    intros HG Hl. apply load_r_inv in Hl as (m & Hm & -> & Hk1 & Hk2 & H1 & H2 & H3 & H4 & H5 & H6 & H7).
    pose proof (gi_wi _ _ _ _ _ _ _ HG) as HW. pose proof (lookup_lt_Some _ _ _ Hm) as Hlt.
    pose proof (wi_ownc _ _ _ _ _ _ HW) as Hown. assert (k = t_sr tc) as -> by lia.
    destruct (wi_msgr _ _ _ _ _ _ HW _ m Hm) as [Hm1 Hm2].
    pose proof (gi_seen _ _ _ _ _ _ HG) as Hseen.
    split; [|split; [eapply GI_tc; [done|lia..]|lia]].
    eapply (wi_valr _ _ _ _ _ _ HW); [done|]. pose proof (wi_lastr _ _ _ _ _ _ HW) as Hlast.
    unfold lastis in Hlast. rewrite (wi_lenr _ _ _ _ _ _ HW), <- Hown in Hlast. done.
  Qed.

  Lemma cframe_lin rs g o r kc : cframe rs rs g (lin g 1 o r kc (g_kp g)).
  Proof.
    do 3 (split; [done|]). split; [simpl; by rewrite lookup_insert_ne|].
    do 2 (split; [exists []; by rewrite app_nil_r|]). by exists [Lin 1 o r].
  Qed.
  Lemma cframe_ac rs g ac : cframe rs rs g (gac g ac).
  Proof. repeat split; simpl; try done; exists []; by rewrite app_nil_r. Qed.
  Lemma cframe_trans rs1 rs2 rs3 g1 g2 g3 : cframe rs1 rs2 g1 g2 -> cframe rs2 rs3 g2 g3 -> cframe rs1 rs3 g1 g3.
  Proof.
    intros (E1 & E2 & E3 & E4 & [w2 E6] & [v2 E7] & (l2 & E8 & F1))
           (D1 & D2 & D3 & D4 & [w3 D6] & [v3 D7] & (l3 & D8 & F2)).
    split; [congruence|]. split; [congruence|]. split; [congruence|]. split; [congruence|].
    split; [exists (w2 ++ w3); by rewrite D6, E6, app_assoc|].
    split; [exists (v2 ++ v3); by rewrite D7, E7, app_assoc|].
    exists (l2 ++ l3). split; [by rewrite D8, E8, app_assoc|]. by rewrite erase_app, F1, F2.
  Qed.
  Lemma cframe_give rs tc g o r kc nr rel : cframe rs (store_r rel nr rs tc).1 g (ggive g o r kc).
  Proof.
    do 3 (split; [done|]). split; [simpl; by rewrite lookup_insert_ne|].
    do 2 (split; [by eexists|]). by exists [Lin 1 o r].
  Qed.

  Lemma GI_lin_c ws rs sl tp tc g o r kc :
    GI c ws rs sl tp tc g -> g_ph g !! 1 = Some (Pending o) ->
    spec (AQ (g_q g) (g_kc g) (g_kp g)) o r (AQ (g_q g) kc (g_kp g)) ->
    wknow ws tc g kc ->
    GI c ws rs sl tp tc (lin g 1 o r kc (g_kp g)).
  Proof.
    intros HG Hp Hsp Hn. pose proof (gi_wi _ _ _ _ _ _ _ HG) as HW. apply GI_lin; try done.
    - destruct (wi_seenp _ _ _ _ _ _ HW) as (n & ? & ? & ?). eauto.
    - destruct (wi_seenc _ _ _ _ _ _ HW) as (n & Hn' & ? & ?). exists n. split; [done|].
      destruct Hn as [->|(k & m & x & _ & Hx & _ & Hk & Hle)]; [lia|].
      pose proof (wi_monow _ _ _ _ _ _ HW _ _ _ _ Hk Hx Hn'). lia.
  Qed.

  Lemma wi_np_lt ws rs tp tc g : WI c ws rs tp tc g -> (g_np g < g_nc g + M)%N.
  Proof. intros HW. pose proof (wi_space _ _ _ _ _ _ HW). lia. Qed.

  Lemma q_split g : g_ac g <= length (g_q g) -> g_q g = take (g_ac g) (g_q g) ++ drop (g_ac g) (g_q g).
  Proof. intros _. by rewrite take_drop. Qed.

  Context (HM : (0 < M <= 2 ^ 63)%N) (HacqW : x_acqW c = true) (HrelR : x_relR c = true)
          (Hthr : x_triv c = true \/ x_bthrow c = false).

  Lemma bpos_at g a n i e e2 :
    (a < M)%N -> (n < M)%N -> bpos c g a n i e e2 -> i <> e ->
    i = ((g_nc g + a) mod M)%N /\ (a < n)%N.
  Proof using HM.
    intros Ha Hn Hb He. pose proof (N.mod_lt (g_nc g) M ltac:(lia)) as Hml. unfold bpos in Hb.
    destruct (mod_lt_add M (g_nc g) a) as [[H1 H2]|[H1 H2]]; [lia..| |]; rewrite H2; clear H2;
      generalize dependent (g_nc g mod M)%N; intros r Hb Hml H1; destruct e2; lia.
  Qed.

  Lemma cstep_ok ws rs sl tp tc g pc k thr known excl :
    GI c ws rs sl tp tc g -> cinv c (Some pc) ws tc known excl g ->
    (excl <> None -> S (t_sw tc) = length ws) ->
    cok ws rs tp tc known excl g (cstep c ws rs sl tc pc k thr).
  Proof using HM HacqW HrelR Hthr.
    intros HG HP Hex. pose proof (gi_wi _ _ _ _ _ _ _ HG) as HW.
    pose proof (wi_np_lt _ _ _ _ _ HW) as Hspace. pose proof (wi_size _ _ _ _ _ _ HW) as Hsz.
    pose proof (N.mod_lt (g_nc g) M ltac:(lia)) as Hml.
    destruct pc; try done.
    - (* C1 *)
      destruct HP as [(Hp & Hkn & Hxc) Hac]. cbn [cstep].
      destruct (load_w _ _ _ _ _) as [[w tc']|] eqn:Hl; [|done].
      eapply cons_load_w in Hl as (m & n & Hm & Hn & -> & Hle & Hge & Hkc & Hsc & Hlast & HG' & Hv1 & Hv2 & Hkw & Hk); [|done].
      destruct (decide (n = g_nc g)) as [->|Hne].
      + assert (g_kc g = 0%N) as Hk0 by lia.
        eapply cok_set; [eapply (GI_lin_c _ _ _ _ _ _ OPop (RPop None) (g_kc g)); [done..| |apply HG']|
                         |apply cframe_lin|done].
        * rewrite Hk0. apply xs_none. intros Hs. specialize (Hsc Hs). apply length_zero_iff_nil. lia.
        * split; [done|]. left. split; [done|]. split; [apply lin_done|]. done.
      + eapply cok_set; [done| |apply cframe_refl|done]. split; [done|]. right. split.
        { intros He. symmetry in He. apply (mod_inj M) in He; lia. }
        split; [done|]. split; [eapply wknow_le; [by apply Hkw|lia]|lia].
    - (* C2 *)
      destruct HP as [Hac HP]. cbn [cstep].
      destruct (load_r _ _ _ _ _) as [[r tc']|] eqn:Hl; [|done].
      eapply cons_load_r in Hl as (-> & HG' & Hv1 & Hv2); [|done].
      destruct (decide _) as [He|He]; destruct HP as [[HE HP]|(HE & HP & Hkw & Hq)]; try done.
      + eapply cok_set; [done| |apply cframe_refl|done]. split; [done|]. split; [by eexists|].
        destruct HP as (_ & _ & ->). done.
      + eapply cok_set; [done| |apply cframe_refl|done]. do 3 (split; [done|]).
        split; [by eapply wknow_mono|done].
    - (* C3 *)
      destruct HP as (Hac & (Hp & Hkn & Hxc) & -> & Hkw & Hq). cbn [cstep].
      destruct (g_q g) as [|x q] eqn:Hqe; [simpl in Hq; lia|].
      destruct (consume_ok c ws rs sl tp tc g 1 true (g_nc g mod M)
                  (fun sl' th' x => TNext ws rs sl' (set_pc th' (if thr then XRet RThrow else C4 (g_nc g mod M) x))) x)
        as (sl' & Hc & HG'); [done..| | | |rewrite Hc].
      { rewrite Hac. lia. }
      { by rewrite Hac, Hqe. }
      { by rewrite Hac, N.add_0_r. }
      destruct thr.
      + eapply cok_set; [eapply (GI_lin_same _ _ _ _ _ _ _ 1 OPop RThrow); [done..|]| |apply cframe_lin|done].
        * by apply xs_throw.
        * split; [done|]. split; [eexists; split; [by apply lin_done|done]|]. by rewrite Hxc.
      + eapply cok_set; [done| |apply cframe_refl|done]. do 3 (split; [done|]).
        split; [by eapply wknow_mono|]. by rewrite Hqe.
    - (* C4 *)
      destruct HP as (Hac & (Hp & Hkn & Hxc) & -> & Hkw & Hq). cbn [cstep].
      destruct (destroy_ok c ws rs sl tp tc g 1 (g_nc g mod M)
                  (fun sl' th' => match next_index (g_nc g mod M) M with
                          | None => TErr EHang
                          | Some nr => TNext ws rs sl' (set_pc th' (C5 nr x))
                          end) x) as (sl' & tc' & Hc & HG' & Hv1 & Hv2 & Hv3); [done..| | | |rewrite Hc].
      { rewrite Hac. lia. }
      { by rewrite Hac. }
      { by rewrite Hac, N.add_0_r. }
      rewrite (next_index_ok M HM) by done. rewrite N.add_mod_idemp_l by lia.
      eapply cok_set; [done| |apply cframe_ac|lia]. simpl. rewrite Hac. done.
    - (* C5 *)
      destruct HP as (Hac & (Hp & Hkn & Hxc) & -> & Hq). cbn [cstep].
      rewrite (surjective_pairing (store_r (x_relR c) _ rs tc)).
      destruct (g_q g) as [|y q] eqn:Hqe; [done|]. injection Hq as ->.
      eapply cok_set; [eapply GI_give with (o := OPop) (r := RPop (Some x)) (kc := (g_kc g - 1)%N)| |apply cframe_give|done]; try done.
      + by rewrite Hac.
      + rewrite Hac, Hqe. apply xs_pop.
      + rewrite Hac. lia.
      + simpl. split; [done|]. split; [|by rewrite Hxc]. eexists. rewrite lookup_insert.
        split; [done|]. split; [|done]. by rewrite Hkn.
    - (* B1 *)
      destruct HP as [Hac (Hp & Hkn & Hxc)]. cbn [cstep].
      destruct (load_w _ _ _ _ _) as [[w tc']|] eqn:Hl; [|done].
      eapply cons_load_w in Hl as (m & n & Hm & Hn & -> & Hle & Hge & Hkc & Hsc & Hlast & HG' & Hv1 & Hv2 & Hkw & Hk); [|done].
      assert (Hu : b_user kd = false -> n = g_np g).
      { intros Hu. apply Hlast, Hex. rewrite Hxc. by destruct kd. }
      assert (Hnm : (n mod M = (g_nc g + (n - g_nc g)) mod M)%N) by (f_equal; lia).
      destruct (decide (n = g_nc g)) as [->|Hne].
      + assert (g_kc g = 0%N) as Hk0 by lia.
        eapply cok_set; [eapply (GI_lin_c _ _ _ _ _ _ (bop kd) (b_result kd []) (g_kc g)); [done..| |apply HG']|
                         |apply cframe_lin|done].
        * rewrite Hk0. destruct kd; simpl; unfold b_result; simpl.
          -- apply (xs_popN _ _ [] (g_q g) 0); [simpl; lia..|]. intros _ _ Hs. specialize (Hsc Hs).
             apply length_zero_iff_nil. lia.
          -- apply (xs_popall _ _ OPopAll [] (g_q g) 0); [by left|simpl; lia..|]. intros _ Hs. specialize (Hsc Hs).
             apply length_zero_iff_nil. lia.
          -- apply (xs_popall _ _ OAll [] (g_q g) 0); [by right|simpl; lia..|]. intros _ Hs. specialize (Hsc Hs).
             apply length_zero_iff_nil. lia.
          -- specialize (Hu eq_refl). assert (g_q g = []) as -> by (apply length_zero_iff_nil; lia).
             apply xs_reset. by left.
          -- specialize (Hu eq_refl). assert (g_q g = []) as -> by (apply length_zero_iff_nil; lia).
             apply xs_reset. by right.
        * split; [done|]. exists 0%N. split; [lia|]. split; [by rewrite N.add_0_r|]. split; [by left|].
          split; [lia|]. simpl. split; [intros E; specialize (Hu E); lia|]. left. split; [done|].
          split; [by apply lookup_insert|]. split; [|done]. rewrite Hk0.
          destruct kd; simpl; unfold b_result; simpl; lia.
      + eapply cok_set; [done| |apply cframe_refl|done]. split; [done|]. exists (n - g_nc g)%N.
        split; [lia|]. split; [done|]. split; [by apply Hkw|]. split; [lia|].
        split; [intros E; specialize (Hu E); lia|]. right. split; [lia|]. split; [lia|done].
    - (* B2 *)
      destruct HP as [Hac (n & HnM & -> & Hkw & Hnq & Hu & HP)]. cbn [cstep].
      destruct (load_r _ _ _ _ _) as [[r tc']|] eqn:Hl; [|done].
      eapply cons_load_r in Hl as (-> & HG' & Hv1 & Hv2); [|done].
      rewrite (read_available_ok M HM) by lia. rewrite N.add_comm, N.add_sub.
      destruct (N.eqb_spec n 0) as [Hn0|Hn0]; destruct HP as [[Hz HP]|(Hz & Hkn & HP)]; try done.
      + eapply cok_set; [done| |apply cframe_refl|done]. split; [done|]. split; [by eexists|].
        intros He. destruct HP as (_ & _ & Hxc). destruct (b_user kd) eqn:Hb.
        * subst excl. by destruct kd.
        * specialize (Hu eq_refl). apply length_zero_iff_nil. lia.
      + set (cnt := match kd with KPop n0 => (n0 `min` n)%N | _ => n end).
        assert (Hc1 : (cnt <= n)%N) by (unfold cnt; destruct kd; lia).
        rewrite (sections_ok M HM) by lia.
        assert (Hcnt : bcount g kd cnt).
        { unfold cnt. destruct kd; simpl in *; try lia; by apply Hu. }
        assert (Hkw' : wknow ws tc' g cnt).
        { eapply wknow_le; [|done]. by eapply wknow_mono. }
        destruct (decide _) as [Hd|Hd]; cbv zeta beta iota;
          (eapply cok_set; [done| |apply cframe_refl|done]); (split; [done|]); (split; [done|]);
          (split; [by rewrite Hac|]); exists cnt; (split; [lia|]); (split; [done|]); (split; [done|]);
          (split; [done|]); unfold bpos; simpl; generalize dependent (g_nc g mod M)%N; intros; lia.
    - (* B3 *)
      destruct HP as [(Hp & Hkn & Hxc) (Hal & Hacc & n & Hnq & Hcnt & Hkw & -> & Hpos)]. cbn [cstep].
      destruct (decide _) as [->|He].
      + destruct e2 as [e'|]; (eapply cok_set; [done| |apply cframe_refl|done]).
        * split; [done|]. split; [done|]. split; [done|]. exists n. do 4 (split; [done|]).
          unfold bpos in *. generalize dependent (g_nc g mod M)%N. intros r Hml Hpos. lia.
        * assert (Hn : len acc = n).
          { unfold bpos in *. generalize dependent (g_nc g mod M)%N. intros r Hml Hpos. lia. }
          do 3 (split; [done|]). by rewrite Hn.
      + edestruct (bpos_at g (len acc) n i e e2) as [Hi Han]; [|lia|done..|].
        { pose proof (wi_ac _ _ _ _ _ _ HW). lia. }
        destruct (lookup_lt_is_Some_2 (g_q g) (g_ac g)) as [x Hx]; [lia|].
        destruct (consume_ok c ws rs sl tp tc g n (b_functor kd) i
                    (fun sl' th' x => if thr then
                       if b_user kd && (x_triv c || x_bthrow c) then TNext ws rs sl' (set_pc th' (XRet RThrow))
                       else TDisabled
                     else TNext ws rs sl' (set_pc th' (B4 kd i e e2 ((g_nc g + n) mod M) acc x))) x)
          as (sl' & Hc & HG'); [done..|lia|done|by rewrite Hi, Hal|rewrite Hc].
        destruct thr.
        * destruct (b_user kd) eqn:Hb; [|done]. destruct (x_triv c) eqn:Ht.
          -- simpl. eapply cok_set.
             ++ apply (GI_lin_same c _ _ _ _ _ (gac g 0) 1 (bop kd) RThrow); [by apply GI_drop_ac|done|].
                apply xs_throw. by destruct kd.
             ++ split; [done|]. split; [eexists; split; [by apply lin_done|done]|]. rewrite Hxc. by destruct kd.
             ++ eapply cframe_trans; [apply cframe_ac|apply cframe_lin].
             ++ done.
          -- destruct Hthr as [Ht'|Ht']; [done|by rewrite Ht'].
        * eapply cok_set; [done| |apply cframe_refl|done]. split; [done|]. split; [|done].
          do 2 (split; [done|]). exists n. do 2 (split; [done|]). split; [by eapply wknow_mono|done].
    - (* B4 *)
      destruct HP as [(Hp & Hkn & Hxc) [(Hal & Hacc & n & Hnq & Hcnt & Hkw & -> & Hpos) [He Hx]]]. cbn [cstep].
      edestruct (bpos_at g (len acc) n i e e2) as [Hi Han]; [|lia|done..|].
      { pose proof (wi_ac _ _ _ _ _ _ HW). lia. }
      destruct (destroy_ok c ws rs sl tp tc g n i
                  (fun sl' th' => TNext ws rs sl' (set_pc th' (B3 kd (i + 1) e e2 ((g_nc g + n) mod M) (acc ++ [x])))) x)
        as (sl' & tc' & Hc & HG' & Hv1 & Hv2 & Hv3); [done..|lia|done|by rewrite Hi, Hal|rewrite Hc].
      eapply cok_set; [done| |apply cframe_ac|lia]. split; [done|].
      split; [simpl; rewrite app_length; simpl; lia|].
      split; [simpl; by rewrite (take_S_r _ _ x), <- Hacc|].
      exists n. do 2 (split; [done|]). split; [eapply wknow_mono; [exact Hkw|lia..]|]. split; [done|].
      rewrite app_length. simpl. unfold bpos in *. simpl. clear Hi.
      generalize dependent (g_nc g mod M)%N. intros r Hml Hpos. destruct e2; lia.
    - (* B5 *)
      destruct HP as ((Hp & Hkn & Hxc) & Hal & Hacc & Hcnt & ->). cbn [cstep].
      rewrite (surjective_pairing (store_r (x_relR c) _ rs tc)).
      pose proof (wi_ac _ _ _ _ _ _ HW) as Hacl.
      eapply cok_set; [eapply GI_give with (o := bop kd) (r := b_result kd acc)
                         (kc := known_after (g_kc g) (b_result kd acc))| |apply cframe_give|done]; try done.
      + by rewrite Hal.
      + rewrite (q_split g) at 1 by done. rewrite <- Hacc. destruct kd; simpl; unfold b_result; simpl in *.
        * apply xs_popN; [lia..|]. intros -> Hn _. simpl in Hcnt. lia.
        * apply xs_popall; [by left|lia|]. intros -> _. simpl in Hcnt. lia.
        * apply xs_popall; [by right|lia|]. intros -> _. simpl in Hcnt. lia.
        * assert (drop (g_ac g) (g_q g) = []) as -> by (apply drop_ge; lia). apply xs_reset. by left.
        * assert (drop (g_ac g) (g_q g) = []) as -> by (apply drop_ge; lia). apply xs_reset. by right.
      + destruct kd; simpl; unfold b_result; simpl; lia.
      + simpl. split; [done|]. split.
        * eexists. rewrite lookup_insert. split; [done|]. split; [|done]. by rewrite Hkn.
        * intros Hxe. destruct kd; try (by rewrite Hxc in Hxe); simpl in Hcnt; apply drop_ge; lia.
    - (* F1 *)
      destruct HP as (Hac & Hp & Hk). cbn [cstep].
      destruct (load_r _ _ _ _ _) as [[r tc']|] eqn:Hl; [|done].
      eapply cons_load_r in Hl as (-> & HG' & Hv1 & Hv2); [|done].
      eapply cok_set; [done| |apply cframe_refl|done]. done.
    - (* F2 *)
      destruct HP as (Hac & (Hp & Hkn & Hxc) & Hk & ->). cbn [cstep].
      destruct (wi_seenc _ _ _ _ _ _ HW) as (n & Hn & _ & Hle).
      pose proof (wi_cw_le _ _ _ _ _ _ _ _ HW Hn) as Hle2.
      destruct (g_q g) as [|x q] eqn:Hqe; [simpl in *; lia|].
      destruct (consume_ok c ws rs sl tp tc g (g_kc g) true (g_nc g mod M)
                  (fun sl' th' x => TNext ws rs sl' (set_pc th' (XRet (RFront x)))) x)
        as (sl' & Hc & HG'); [done|apply HG|lia| | |rewrite Hc].
      { by rewrite Hac, Hqe. }
      { by rewrite Hac, N.add_0_r. }
      eapply cok_set; [eapply (GI_lin_same _ _ _ _ _ _ _ 1 OFront (RFront x)); [done..|]| |apply cframe_lin|done].
      + rewrite Hqe. by apply xs_front.
      + split; [done|]. split; [eexists; split; [by apply lin_done|done]|]. by rewrite Hxc.
    - (* V1 *)
      destruct HP as [Hac (Hp & Hkn & Hxc)]. cbn [cstep].
      destruct (load_w _ _ _ _ _) as [[w tc']|] eqn:Hl; [|done].
      eapply cons_load_w in Hl as (m & n & Hm & Hn & -> & Hle & Hge & Hkc & Hsc & Hlast & HG' & Hv1 & Hv2 & Hkw & Hk); [|done].
      eapply cok_set; [eapply (GI_lin_c _ _ _ _ _ _ ORAvail (RNum (n - g_nc g)) (n - g_nc g)); [done..| |by apply Hkw]|
                       |apply cframe_lin|done].
      + apply xs_ravail; [lia|lia|]. intros Hs. specialize (Hsc Hs). lia.
      + split; [done|]. exists (n - g_nc g)%N. split; [lia|]. simpl. split; [f_equal; lia|].
        split; [by apply lookup_insert|]. done.
    - (* V2 *)
      destruct HP as [Hac (n & HnM & -> & Hp & Hkn & Hxc)]. cbn [cstep].
      destruct (load_r _ _ _ _ _) as [[r tc']|] eqn:Hl; [|done].
      eapply cons_load_r in Hl as (-> & HG' & Hv1 & Hv2); [|done].
      rewrite (read_available_ok M HM) by lia. rewrite N.add_comm, N.add_sub.
      eapply cok_set; [done| |apply cframe_refl|done]. split; [done|]. split; [by eexists|]. by rewrite Hxc.
  Qed.

  Lemma cestep_ok ws rs sl tp tc g pc k known excl :
    GI c ws rs sl tp tc g -> cinv c (Some pc) ws tc known excl g ->
    cok ws rs tp tc known excl g (estep c ws rs sl tc pc k).
  Proof using HM.
    intros HG HP. pose proof (gi_wi _ _ _ _ _ _ _ HG) as HW.
    pose proof (wi_np_lt _ _ _ _ _ HW) as Hspace. pose proof (wi_size _ _ _ _ _ _ HW) as Hsz.
    destruct pc; try done; destruct rfirst; cbn [estep].
    - destruct HP as [Hac Hp].
      destruct (load_r _ _ _ _ _) as [[r tc']|] eqn:Hl; [|done].
      eapply cons_load_r in Hl as (-> & HG' & Hv1 & Hv2); [|done].
      eapply cok_set; [done| |apply cframe_refl|done]. done.
    - destruct HP as [Hac (Hp & Hkn & Hxc)].
      destruct (load_w _ _ _ _ _) as [[w tc']|] eqn:Hl; [|done].
      eapply cons_load_w in Hl as (m & n & Hm & Hn & -> & Hle & Hge & Hkc & Hsc & Hlast & HG' & Hv1 & Hv2 & Hkw & Hk); [|done].
      eapply cok_set; [eapply (GI_lin_same _ _ _ _ _ _ _ 1 (OEmpty RC false) (RBool (bool_decide (n mod M = g_nc g mod M)%N))); [done..|]
                       | |apply cframe_lin|done].
      + apply xs_empty; [|done|]; simpl.
        * intros Hs. specialize (Hsc Hs) as ->. apply bool_decide_ext. split.
          -- intros E. symmetry in E. apply (mod_inj M) in E; [|lia]. apply length_zero_iff_nil. lia.
          -- intros Hq. rewrite Hq in Hsz. f_equal. simpl in Hsz. lia.
        * intros _ E Hq. apply bool_decide_eq_false in E. apply E. rewrite Hq in Hsz. f_equal. simpl in Hsz. lia.
      + split; [done|]. split; [by apply lin_done|]. done.
    - destruct HP as [Hac ((Hp & Hkn & Hxc) & ->)].
      destruct (load_w _ _ _ _ _) as [[w tc']|] eqn:Hl; [|done].
      eapply cons_load_w in Hl as (m & n & Hm & Hn & -> & Hle & Hge & Hkc & Hsc & Hlast & HG' & Hv1 & Hv2 & Hkw & Hk); [|done].
      eapply cok_set; [eapply (GI_lin_same _ _ _ _ _ _ _ 1 (OEmpty RC true) (RBool (bool_decide (n mod M = g_nc g mod M)%N))); [done..|]
                       | |apply cframe_lin|done].
      + apply xs_empty; [|done|]; simpl.
        * intros Hs. specialize (Hsc Hs) as ->. apply bool_decide_ext. split.
          -- intros E. symmetry in E. apply (mod_inj M) in E; [|lia]. apply length_zero_iff_nil. lia.
          -- intros Hq. rewrite Hq in Hsz. f_equal. simpl in Hsz. lia.
        * intros _ E Hq. apply bool_decide_eq_false in E. apply E. rewrite Hq in Hsz. f_equal. simpl in Hsz. lia.
      + split; [done|]. split; [eexists; split; [by apply lin_done|done]|]. by rewrite Hxc.
    - destruct HP as [Hac (Hp & Hkn & Hxc)].
      destruct (load_r _ _ _ _ _) as [[r tc']|] eqn:Hl; [|done].
      eapply cons_load_r in Hl as (-> & HG' & Hv1 & Hv2); [|done].
      eapply cok_set; [done| |apply cframe_refl|done]. split; [done|]. split; [by eexists|]. by rewrite Hxc.
  Qed.
End cons.
