(** * Preservation of the invariant: the producer's steps *)
From stdpp Require Import gmap list numbers.
From Verif Require Import Lin SpscModel SpscSpec SpscArith SpscInv SpscStep.

Set Default Proof Using "Type".

Section prod.
  Context {V : Type} (c : xcfg).
  Notation M := (x_max c).
  Notation sc := (x_sc c).
  Notation spec := (xspec (M - 1) sc).
  Notation ghost := (xghost V).
  Implicit Types (ws rs : list msg) (sl : gmap N (slot V)) (tp tc th : thread V) (g : ghost).

  (** What the producer's steps leave to the consumer. *)
  Definition pframe ws ws' g g' : Prop :=
    g_nc g' = g_nc g /\ g_ac g' = g_ac g /\ g_kc g' = g_kc g /\ g_ph g' !! 1 = g_ph g !! 1 /\
    (exists q2, g_q g' = g_q g ++ q2) /\ (exists w2, ws' = ws ++ w2) /\
    (exists w2, g_cw g' = g_cw g ++ w2) /\ (exists l2, g_l g' = g_l g ++ l2 /\ erase l2 = []).

  Definition pok ws rs tc g (o : tout V) : Prop :=
    match o with
    | TNext ws' rs' sl' tp' => rs' = rs /\ exists g' pc', t_pc tp' = Some pc' /\
        GI c ws' rs sl' tp' tc g' /\ pinv c (Some pc') rs tp' g' /\ pframe ws ws' g g'
    | TErr _ => False
    | TDisabled => True
    end.

  Lemma pframe_refl ws g : pframe ws ws g g.
  Proof. repeat split; try done; exists []; by rewrite ?app_nil_r. Qed.

  Lemma pinv_view pc rs tp tp' g :
    pinv c pc rs tp g -> t_sr tp <= t_sr tp' -> (t_c tp <= t_c tp')%N -> pinv c pc rs tp' g.
  Proof.
    intros H H1 H2. destruct pc as [[]|]; simpl in *; try done.
    - destruct H as (? & ? & ? & ? & ?). repeat split; try done. by eapply spc_mono.
    - destruct H as (us & ? & ? & ? & ? & ? & ?). exists us. do 4 (split; [done|]). split; [by eapply spc_mono|done].
    - destruct H as (us & ? & ? & ? & ? & ? & ?). exists us. do 5 (split; [done|]). by eapply spc_mono.
  Qed.

  Lemma pok_set ws ws' rs sl th tc g g' pc :
    GI c ws' rs sl th tc g' -> pinv c (Some pc) rs th g' -> pframe ws ws' g g' ->
    pok ws rs tc g (TNext ws' rs sl (set_pc th pc)).
  Proof.
    intros H1 H2 H3. split; [done|]. exists g', pc. split; [done|]. split.
    - pose proof (gi_wi _ _ _ _ _ _ _ H1) as HW. eapply GI_tp; [done|..]; simpl; try lia.
      + pose proof (wi_ownp _ _ _ _ _ _ HW). lia.
      + destruct (wi_seenp _ _ _ _ _ _ HW) as (n & Hn & _). apply lookup_lt_Some in Hn.
        rewrite <- (wi_lenr _ _ _ _ _ _ HW). lia.
    - split; [|done]. by eapply pinv_view.
  Qed.

  Lemma spc_le rs tp g n n' : spc c rs tp g n -> (n' <= n)%N -> spc c rs tp g n'.
  Proof.
    intros (k & m & x & H1 & H2 & H3 & H4 & H5) Hn. exists k, m, x.
    do 4 (split; [done|]). lia.
  Qed.

  Lemma prod_load_r ws rs sl tp tc g acq k r tp' :
    GI c ws rs sl tp tc g -> load_r sc acq k rs tp = Some (r, tp') ->
    exists m n, rs !! k = Some m /\ g_cr g !! k = Some n /\ r = (n mod M)%N /\ (n <= g_nc g)%N /\
      (g_np g + len (g_up g) + 1 <= n + M)%N /\ (g_np g + g_kp g + 1 <= n + M)%N /\
      (sc = true -> n = g_nc g) /\ GI c ws rs sl tp' tc g /\
      t_sr tp <= t_sr tp' /\ (t_c tp <= t_c tp')%N /\
      (acq = true -> (m_c m <= t_c tp')%N) /\ k <= t_sr tp'.
  Proof.
    intros HG Hl. apply load_r_inv in Hl as (m & Hm & -> & Hk1 & Hk2 & H1 & H2 & H3 & H4 & H5 & H6 & H7).
    pose proof (gi_wi _ _ _ _ _ _ _ HG) as HW. pose proof (lookup_lt_Some _ _ _ Hm) as Hlt.
    pose proof (wi_lenr _ _ _ _ _ _ HW) as Hlen.
    destruct (lookup_lt_is_Some_2 (g_cr g) k) as [n Hn]; [lia|].
    destruct (wi_seenp _ _ _ _ _ _ HW) as (n' & Hn' & Ha & Hb).
    pose proof (wi_monor _ _ _ _ _ _ HW _ _ _ _ Hk1 Hn' Hn).
    destruct (wi_msgr _ _ _ _ _ _ HW k m Hm) as [Hm1 Hm2].
    pose proof (wi_ownp _ _ _ _ _ _ HW) as Hown.
    exists m, n. split; [done|]. split; [done|]. split; [by eapply (wi_valr _ _ _ _ _ _ HW)|].
    split; [by eapply wi_cr_le|]. split; [lia|]. split; [lia|]. split.
    { intros Hsc. specialize (Hk2 Hsc). pose proof (wi_lastr _ _ _ _ _ _ HW) as Hlast.
      unfold lastis in Hlast. rewrite Hlen, <- Hk2 in Hlast. simpl in Hlast. congruence. }
    split; [eapply GI_tp; [done|lia..]|]. split; [lia|]. split; [done|]. split; [|done].
    intros Hacq. apply H7; [done|]. by eapply (wi_relr _ _ _ _ _ _ HW).
  Qed.

  Lemma prod_load_w ws rs sl tp tc g acq k w tp' :
    GI c ws rs sl tp tc g -> load_w sc acq k ws tp = Some (w, tp') ->
    w = (g_np g mod M)%N /\ GI c ws rs sl tp' tc g /\ t_sr tp <= t_sr tp' /\ (t_c tp <= t_c tp')%N.
  Proof.
    intros HG Hl. apply load_w_inv in Hl as (m & Hm & -> & Hk1 & Hk2 & H1 & H2 & H3 & H4 & H5 & H6 & H7).
    pose proof (gi_wi _ _ _ _ _ _ _ HG) as HW. pose proof (lookup_lt_Some _ _ _ Hm) as Hlt.
    pose proof (wi_ownp _ _ _ _ _ _ HW) as Hown. assert (k = t_sw tp) as -> by lia.
    destruct (wi_msgw _ _ _ _ _ _ HW _ m Hm) as [Hm1 Hm2].
    destruct (wi_seenp _ _ _ _ _ _ HW) as (n' & Hn' & Ha & Hb). apply lookup_lt_Some in Hn'.
    pose proof (wi_lenr _ _ _ _ _ _ HW) as Hlen.
    split; [|split; [eapply GI_tp; [done|lia..]|lia]].
    eapply (wi_valw _ _ _ _ _ _ HW); [done|]. pose proof (wi_lastw _ _ _ _ _ _ HW) as Hlast.
    unfold lastis in Hlast. rewrite (wi_lenw _ _ _ _ _ _ HW), <- Hown in Hlast. done.
  Qed.

  Lemma pframe_lin ws g o r kp : pframe ws ws g (lin g 0 o r (g_kc g) kp).
  Proof.
    do 3 (split; [done|]). split; [simpl; by rewrite lookup_insert_ne|].
    do 3 (split; [exists []; by rewrite app_nil_r|]). by exists [Lin 0 o r].
  Qed.
  Lemma pframe_up ws g up : pframe ws ws g (gup g up).
  Proof. repeat split; simpl; try done; exists []; by rewrite app_nil_r. Qed.
  Lemma pframe_trans ws1 ws2 ws3 g1 g2 g3 : pframe ws1 ws2 g1 g2 -> pframe ws2 ws3 g2 g3 -> pframe ws1 ws3 g1 g3.
  Proof.
    intros (E1 & E2 & E3 & E4 & [q2 E5] & [w2 E6] & [v2 E7] & (l2 & E8 & F1))
           (D1 & D2 & D3 & D4 & [q3 D5] & [w3 D6] & [v3 D7] & (l3 & D8 & F2)).
    split; [congruence|]. split; [congruence|]. split; [congruence|]. split; [congruence|].
    split; [exists (q2 ++ q3); by rewrite D5, E5, app_assoc|].
    split; [exists (w2 ++ w3); by rewrite D6, E6, app_assoc|].
    split; [exists (v2 ++ v3); by rewrite D7, E7, app_assoc|].
    exists (l2 ++ l3). split; [by rewrite D8, E8, app_assoc|]. by rewrite erase_app, F1, F2.
  Qed.
  Lemma pframe_pub ws tp g o r kp nw rel : pframe ws (store_w rel nw ws tp).1 g (gpub g o r kp).
  Proof.
    do 3 (split; [done|]). split; [simpl; by rewrite lookup_insert_ne|].
    do 3 (split; [by eexists|]). by exists [Lin 0 o r].
  Qed.

  (** Finishing an operation without effect. *)
  Lemma GI_lin_p ws rs sl tp tc g o r kp :
    GI c ws rs sl tp tc g -> g_ph g !! 0 = Some (Pending o) ->
    spec (AQ (g_q g) (g_kc g) (g_kp g)) o r (AQ (g_q g) (g_kc g) kp) ->
    (exists n, g_cr g !! t_sr tp = Some n /\ (g_np g + kp + 1 <= n + M)%N) ->
    GI c ws rs sl tp tc (lin g 0 o r (g_kc g) kp).
  Proof.
    intros HG Hp Hsp Hn. pose proof (gi_wi _ _ _ _ _ _ _ HG) as HW. apply GI_lin; try done.
    - destruct (wi_seenc _ _ _ _ _ _ HW) as (n & ? & ? & ?). eauto.
    - apply HG.
  Qed.
  Lemma lin_done g t o r kc kp : g_ph (lin g t o r kc kp) !! t = Some (Done o r).
  Proof. simpl. by rewrite lookup_insert. Qed.

  Lemma pok_lin ws rs sl th tc g o r kp :
    GI c ws rs sl th tc (lin g 0 o r (g_kc g) kp) -> g_up g = [] ->
    pok ws rs tc g (TNext ws rs sl (set_pc th (XRet r))).
  Proof.
    intros H1 H2. eapply pok_set; [done| |apply pframe_lin]. split; [|done]. eexists. apply lin_done.
  Qed.

  Context (HM : (0 < M <= 2 ^ 63)%N) (HacqR : x_acqR c = true) (HrelW : x_relW c = true)
          (Hthr : x_triv c = true \/ x_bthrow c = false).

  Lemma pstep_ok ws rs sl tp tc g pc k thr :
    GI c ws rs sl tp tc g -> pinv c (Some pc) rs tp g ->
    pok ws rs tc g (pstep c ws rs sl tp pc k thr).
  Proof using HM HacqR HrelW Hthr.
    intros HG HP. pose proof (gi_wi _ _ _ _ _ _ _ HG) as HW.
    pose proof (wi_space _ _ _ _ _ _ HW) as Hspace. pose proof (wi_size _ _ _ _ _ _ HW) as Hsz.
    destruct pc; try done.
    - (* P1 *)
      destruct HP as [Hp Hu]. simpl.
      destruct (load_w _ _ _ _ _) as [[w tp']|] eqn:Hl; [|done].
      eapply prod_load_w in Hl as (-> & HG' & Hm1 & Hm2); [|done].
      eapply pok_set; [done| |apply pframe_refl]. done.
    - (* P2 *)
      destruct HP as (Hp & Hu & ->). simpl.
      rewrite (next_index_ok M HM) by (apply N.mod_lt; lia).
      destruct (load_r _ _ _ _ _) as [[r tp']|] eqn:Hl; [|done].
      eapply prod_load_r in Hl as (m & n & Hm & Hn & -> & Hle & Hup & Hkp & Hsc & HG' & Hv1 & Hv2 & Hacq & Hk); [|done].
      rewrite N.add_mod_idemp_l by lia.
      rewrite Hu in Hup. simpl in Hup. destruct (decide _) as [He|He].
      + assert (g_np g + 1 = n + M)%N as Hfull.
        { destruct (decide (g_np g + 1 < n + M)%N) as [Hlt|]; [|lia].
          symmetry in He. apply (mod_inj M) in He; lia. }
        assert (g_kp g = 0%N) as Hkp0 by lia.
        eapply (pok_lin _ _ _ _ _ _ (OPush v) (RBool false) (g_kp g)); [|done].
        apply GI_lin_same; [done..|]. rewrite Hkp0. apply xs_full.
        intros Hs. specialize (Hsc Hs). lia.
      + assert (Hne : (g_np g + 1 <> n + M)%N).
        { intros E. apply He. rewrite E. replace (n + M)%N with (n + 1 * M)%N by lia. apply N.mod_add. lia. }
        eapply pok_set; [done| |apply pframe_refl].
        do 4 (split; [done|]). exists k, m, n. do 2 (split; [done|]). split; [by apply Hacq|].
        split; [done|]. lia.
    - (* P3 *)
      destruct HP as (Hp & Hu & -> & -> & Hs). simpl. destruct thr.
      + eapply (pok_lin _ _ _ _ _ _ (OPush v) RThrow (g_kp g)); [|done].
        apply GI_lin_same; [done..|]. by apply xs_throw.
      + destruct (construct_ok c ws rs sl tp tc g 1 (g_np g mod M) v
                    (fun sl' th' => TNext ws rs sl' (set_pc th' (P4 ((g_np g + 1) mod M)))))
          as (sl' & Hc & HG'); [done..| | |rewrite Hc].
        * rewrite Hu. simpl. lia.
        * rewrite Hu. simpl. by rewrite N.add_0_r.
        * eapply pok_set; [done| |apply pframe_up]. simpl. exists v. split; [done|]. by rewrite Hu.
    - (* P4 *)
      destruct HP as (v & Hp & Hu & ->). cbn [pstep].
      rewrite (surjective_pairing (store_w (x_relW c) _ ws tp)).
      eapply pok_set; [|..|apply pframe_pub].
      + eapply GI_publish with (o := OPush v) (r := RBool true) (kp := (g_kp g - 1)%N); try done.
        * rewrite Hu. done.
        * rewrite Hu. apply xs_push. rewrite Hu in Hspace. simpl in Hspace. lia.
        * rewrite Hu. simpl. lia.
      + simpl. split; [|done]. eexists. by rewrite lookup_insert.
    - (* N1 *)
      destruct HP as [Hp Hu]. simpl.
      destruct (load_w _ _ _ _ _) as [[w tp']|] eqn:Hl; [|done].
      eapply prod_load_w in Hl as (-> & HG' & Hm1 & Hm2); [|done].
      eapply pok_set; [done| |apply pframe_refl]. done.
    - (* N2 *)
      destruct HP as (Hp & Hu & ->). cbn [pstep].
      destruct (load_r _ _ _ _ _) as [[r tp']|] eqn:Hl; [|done].
      eapply prod_load_r in Hl as (m & n & Hm & Hn & -> & Hle & Hup & Hkp & Hsc & HG' & Hv1 & Hv2 & Hacq & Hk); [|done].
      rewrite Hu in Hup. simpl in Hup. rewrite (write_available_ok M HM) by lia.
      destruct (N.eqb_spec (M - 1 - (g_np g - n)) 0) as [Hz|Hz].
      + assert (g_kp g = 0%N) as Hkp0 by lia.
        eapply (pok_lin _ _ _ _ _ _ (OPushN vs) (RCount 0) (g_kp g)); [|done].
        apply GI_lin_same; [done..|].
        pose proof (xs_pushN (M - 1) sc (g_q g) (g_kc g) (g_kp g) vs 0) as Hsp. simpl in Hsp.
        rewrite app_nil_r, N.sub_0_r in Hsp. apply Hsp; [lia..|]. intros _ _ Hs. specialize (Hsc Hs). lia.
      + set (cnt := (len vs `min` (M - 1 - (g_np g - n)))%N).
        assert (Hcnt : (cnt < M)%N) by (unfold cnt; lia).
        rewrite (sections_ok M HM) by done.
        pose proof (N.mod_lt (g_np g) M ltac:(lia)) as Hml. pose proof (M_lt M HM) as Hm64.
        assert (Hlen : length (take (N.to_nat cnt) vs) = N.to_nat cnt) by (rewrite take_length; unfold cnt; lia).
        assert (Hb : nbatch g vs cnt).
        { split; [unfold cnt; lia|]. split; [unfold cnt; lia|]. intros Hc0. destruct vs; [done|].
          exfalso. unfold cnt in Hc0. simpl in Hc0. lia. }
        assert (Hspc : spc c rs tp' g cnt).
        { exists k, m, n. do 2 (split; [done|]). split; [by apply Hacq|]. split; [done|]. unfold cnt. lia. }
        destruct (decide _) as [Hd|Hd]; cbv zeta beta iota;
          (eapply pok_set; [done| |apply pframe_refl]); simpl; exists vs; rewrite Hu; simpl;
          (split; [done|]); (split; [done|]); (split; [by rewrite take_drop|]); (split; [done|]);
          (split; [done|]); unfold npos; rewrite ?Hu; simpl; (split; [done|]); (split; [lia|]).
        * rewrite sub64_small by lia. rewrite take_length, Hlen. split; [|lia].
          intros Hr. apply (f_equal length) in Hr. rewrite drop_length, Hlen in Hr. simpl in Hr. lia.
        * split; [lia|]. rewrite drop_all. done.
    - (* N3 *)
      destruct HP as (us & Hp & Hb & Htk & -> & Hs & Hpos). destruct vs as [|v vs].
      + destruct rest as [|x rest]; cbn [pstep].
        * eapply pok_set; [done| |apply pframe_refl]. exists us. split; [done|]. split; [done|].
          split; [|done]. by rewrite Htk, !app_nil_r.
        * eapply pok_set; [done| |apply pframe_refl]. exists us. do 2 (split; [done|]).
          split; [by rewrite Htk, app_nil_r|]. do 2 (split; [done|]).
          destruct second.
          -- by destruct Hpos as [? _].
          -- destruct Hpos as (_ & _ & _ & Hr). specialize (Hr ltac:(done)). simpl in Hr.
             split; [done|]. split; [done|]. lia.
      + cbn [pstep].
        assert (Hlt : (len (g_up g) < k0)%N).
        { apply (f_equal length) in Htk. rewrite take_length, !app_length in Htk. simpl in Htk. lia. }
        assert (Hk : (len (g_up g) + len (v :: vs) + len rest = k0)%N).
        { destruct Hb as [Hb _]. apply (f_equal length) in Htk. rewrite take_length, !app_length in Htk. lia. }
        assert (Hk0M : (k0 < M)%N).
        { destruct Hs as (k' & m & x & Hm & Hx & _ & _ & Hs). pose proof (wi_cr_le _ _ _ _ _ _ _ _ HW Hx). lia. }
        pose proof (N.mod_lt (g_np g) M ltac:(lia)) as Hml. destruct thr.
        * destruct (x_triv c) eqn:Ht.
          -- rewrite andb_false_r. simpl.
             eapply pok_set; [|split; [eexists; by apply (lin_done (gup g []))|done]|].
             ++ apply (GI_lin_same c ws rs sl tp tc (gup g []) 0 (OPushN us)).
                ** by apply GI_drop_up.
                ** done.
                ** by apply xs_throw.
             ++ eapply pframe_trans; [|apply pframe_lin]. apply pframe_up.
          -- destruct Hthr as [?|Hbt]; [done|]. rewrite Hbt.
             destruct second; [done|]. simpl. eapply pok_set; [done| |apply pframe_refl].
             destruct Hpos as (-> & -> & Hr1 & Hr2). exists us. do 4 (split; [done|]). split.
             { destruct rest; [specialize (Hr1 eq_refl)|specialize (Hr2 ltac:(done))]; simpl in *; lia. }
             eapply spc_le; [done|lia].
        * destruct (construct_ok c ws rs sl tp tc g k0 i v
                      (fun sl' th' => TNext ws rs sl' (set_pc th' (N3 second vs rest base (i + 1) k0 ((g_np g + k0) mod M)))))
            as (sl' & Hc & HG'); [done..| |rewrite Hc].
          -- destruct (mod_lt_add M (g_np g) (len (g_up g))) as [[H1 H2]|[H1 H2]]; [lia..| |];
               rewrite H2; unfold npos in Hpos; destruct second.
             ++ destruct Hpos as (_ & _ & ?). lia.
             ++ by destruct Hpos as (_ & -> & _).
             ++ destruct Hpos as (_ & _ & ?). lia.
             ++ destruct Hpos as (-> & -> & Hr1 & Hr2).
                destruct rest; [specialize (Hr1 eq_refl)|specialize (Hr2 ltac:(done))]; simpl in *; lia.
          -- eapply pok_set; [done| |apply pframe_up]. exists us. split; [done|]. split; [done|].
             split; [simpl; rewrite Htk, <- app_assoc; done|]. split; [done|].
             split; [eapply spc_mono; [exact Hs|simpl; lia..]|].
             unfold npos in *. simpl. rewrite app_length. simpl. destruct second.
             ++ destruct Hpos as (-> & -> & ?). do 2 (split; [done|]). lia.
             ++ destruct Hpos as (-> & -> & Hr1 & Hr2). split; [done|]. split; [lia|]. split; [done|].
                intros Hr. specialize (Hr2 Hr). simpl in Hr2. lia.
    - (* NU *)
      destruct HP as (us & Hp & Ht & -> & -> & Hi & Hs). cbn [pstep]. destruct (decide _) as [Hd|Hd].
      + assert (Hu : g_up g = []) by (destruct (g_up g); [done|simpl in Hd; lia]).
        eapply (pok_lin _ _ _ _ _ _ (OPushN us) RThrow (g_kp g)); [|done].
        apply GI_lin_same; [done..|]. by apply xs_throw.
      + destruct (g_up g) as [|v0 up0] eqn:Hup using rev_ind; [simpl in Hd; lia|]. clear IHup0.
        rewrite app_length in *. simpl in *.
        destruct (undo_ok c ws rs sl tp tc g (len (g_up g)) v0 up0 (g_np g mod M + N.of_nat (length up0 + 1) - 1)%N)
          as (y & Hv & Ha & HG'); try done.
        * eapply spc_le; [done|]. rewrite Hup, app_length. simpl. lia.
        * pose proof (N.mod_lt (g_np g) M ltac:(lia)) as Hml.
          destruct (mod_lt_add M (g_np g) (len up0)) as [[H1 H2]|[H1 H2]]; [lia|lia|rewrite H2|];
            generalize dependent (g_np g mod M)%N; intros; lia.
        * rewrite Hv, Ha. eapply pok_set; [done| |apply pframe_up]. exists us. simpl.
          do 3 (split; [done|]). clear Hv Ha HG'. generalize dependent (g_np g mod M)%N. intros w Hi Hd.
          split; [lia|]. split; [lia|].
          eapply spc_le; [eapply spc_mono; [exact Hs|simpl; lia..]|lia].
    - (* N4 *)
      destruct HP as (us & Hp & (Hb1 & Hb2 & Hb3) & Htk & ->). cbn [pstep].
      assert (Hk : len (g_up g) = k0) by (rewrite <- Htk, take_length; lia).
      rewrite (surjective_pairing (store_w (x_relW c) _ ws tp)).
      eapply pok_set; [|..|apply pframe_pub].
      + eapply GI_publish with (o := OPushN us) (r := RCount k0) (kp := (g_kp g - k0)%N); try done.
        * by rewrite Hk.
        * rewrite <- Htk. apply xs_pushN; [done|lia|done|]. intros Hk0 Hne _. by destruct (Hne (Hb3 Hk0)).
        * lia.
      + simpl. split; [|done]. eexists. by rewrite lookup_insert.
    - (* A1 *)
      destruct HP as [Hp Hu]. simpl.
      destruct (load_w _ _ _ _ _) as [[w tp']|] eqn:Hl; [|done].
      eapply prod_load_w in Hl as (-> & HG' & Hm1 & Hm2); [|done].
      eapply pok_set; [done| |apply pframe_refl]. done.
    - (* A2 *)
      destruct HP as (Hp & Hu & ->). cbn [pstep].
      destruct (load_r _ _ _ _ _) as [[r tp']|] eqn:Hl; [|done].
      eapply prod_load_r in Hl as (m & n & Hm & Hn & -> & Hle & Hup & Hkp & Hsc & HG' & Hv1 & Hv2 & Hacq & Hk); [|done].
      rewrite Hu in Hup. simpl in Hup. rewrite (write_available_ok M HM) by lia.
      eapply pok_lin; [|done].
      apply GI_lin_p; [done..| |].
      + apply xs_wavail; [lia|lia|]. intros Hs. specialize (Hsc Hs). lia.
      + destruct (wi_seenp _ _ _ _ _ _ (gi_wi _ _ _ _ _ _ _ HG')) as (n' & Hn' & _).
        pose proof (wi_monor _ _ _ _ _ _ HW _ _ _ _ Hk Hn Hn'). exists n'. split; [done|]. lia.
  Qed.

  Lemma pestep_ok ws rs sl tp tc g pc k :
    GI c ws rs sl tp tc g -> pinv c (Some pc) rs tp g ->
    pok ws rs tc g (estep c ws rs sl tp pc k).
  Proof using HM.
    intros HG HP. pose proof (gi_wi _ _ _ _ _ _ _ HG) as HW.
    pose proof (wi_space _ _ _ _ _ _ HW) as Hspace. pose proof (wi_size _ _ _ _ _ _ HW) as Hsz.
    destruct pc; try done; destruct rfirst; cbn [estep].
    - destruct HP as [Hp Hu].
      destruct (load_r _ _ _ _ _) as [[r tp']|] eqn:Hl; [|done].
      eapply prod_load_r in Hl as (m & n & Hm & Hn & -> & Hle & Hup & Hkp & Hsc & HG' & Hv1 & Hv2 & Hacq & Hk); [|done].
      eapply pok_set; [eapply (GI_lin_same _ _ _ _ _ _ _ 0 (OEmpty RP true) (RBool (bool_decide (g_np g mod M = n mod M)%N))); [done|exact Hp|]|split; [by apply lin_done|done]|apply pframe_lin]. apply xs_empty; [| |done]; simpl.
      + intros Hs. specialize (Hsc Hs) as ->. apply bool_decide_ext. split.
        * intros He. symmetry in He. apply (mod_inj M) in He; [|lia]. apply length_zero_iff_nil. lia.
        * intros Hq. rewrite Hq in Hsz. f_equal. simpl in Hsz. lia.
      + intros _ He. apply bool_decide_eq_true in He. symmetry in He. apply (mod_inj M) in He; [|lia].
        apply length_zero_iff_nil. lia.
    - destruct HP as [Hp Hu].
      destruct (load_w _ _ _ _ _) as [[w tp']|] eqn:Hl; [|done].
      eapply prod_load_w in Hl as (-> & HG' & Hm1 & Hm2); [|done].
      eapply pok_set; [done| |apply pframe_refl]. done.
    - destruct HP as [Hp Hu].
      destruct (load_w _ _ _ _ _) as [[w tp']|] eqn:Hl; [|done].
      eapply prod_load_w in Hl as (-> & HG' & Hm1 & Hm2); [|done].
      eapply pok_set; [done| |apply pframe_refl]. split; [|done]. by eexists.
    - destruct HP as (Hp & Hu & ->).
      destruct (load_r _ _ _ _ _) as [[r tp']|] eqn:Hl; [|done].
      eapply prod_load_r in Hl as (m & n & Hm & Hn & -> & Hle & Hup & Hkp & Hsc & HG' & Hv1 & Hv2 & Hacq & Hk); [|done].
      eapply (pok_lin _ _ _ _ _ _ _ _ (g_kp g)); [|done].
      apply GI_lin_same; [done..|]. apply xs_empty; [| |done]; simpl.
      + intros Hs. specialize (Hsc Hs) as ->. apply bool_decide_ext. split.
        * intros He. symmetry in He. apply (mod_inj M) in He; [|lia]. apply length_zero_iff_nil. lia.
        * intros Hq. rewrite Hq in Hsz. f_equal. simpl in Hsz. lia.
      + intros _ He. apply bool_decide_eq_true in He. symmetry in He. apply (mod_inj M) in He; [|lia].
        apply length_zero_iff_nil. lia.
  Qed.
End prod.
