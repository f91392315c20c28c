(** * Preservation of the invariant: the elementary steps *)
From stdpp Require Import gmap list numbers.
From Verif Require Import Lin SpscModel SpscSpec SpscArith SpscInv.

Set Default Proof Using "Type".

Section step.
  Context {V : Type} (c : xcfg).
  Notation M := (x_max c).
  Notation sc := (x_sc c).
  Notation spec := (xspec (M - 1) sc).
  Notation ghost := (xghost V).
  Implicit Types (ws rs : list msg) (sl : gmap N (slot V)) (tp tc th : thread V) (g : ghost).

  (** ** Loads *)
  Lemma load_r_inv s acq k rs th r th' :
    load_r s acq k rs th = Some (r, th') ->
    exists m, rs !! k = Some m /\ r = m_val m /\ t_sr th <= k /\ (s = true -> S k = length rs) /\
      t_sw th <= t_sw th' /\ t_sw th' <= t_sw th `max` m_sw m /\
      k <= t_sr th' /\ t_sr th' <= k `max` m_sr m /\
      (t_p th <= t_p th')%N /\ (t_c th <= t_c th')%N /\
      (acq = true -> m_rel m = true -> (m_c m <= t_c th')%N /\ (m_p m <= t_p th')%N).
  Proof.
    unfold load_r. destruct (rs !! k) as [m|]; [|done]. destruct (decide _) as [[H1 H2]|]; [|done].
    intros [= <- <-]. exists m. destruct acq, (m_rel m); simpl;
      repeat match goal with |- _ /\ _ => split end; try done; try lia.
  Qed.
  Lemma load_w_inv s acq k ws th w th' :
    load_w s acq k ws th = Some (w, th') ->
    exists m, ws !! k = Some m /\ w = m_val m /\ t_sw th <= k /\ (s = true -> S k = length ws) /\
      t_sr th <= t_sr th' /\ t_sr th' <= t_sr th `max` m_sr m /\
      k <= t_sw th' /\ t_sw th' <= k `max` m_sw m /\
      (t_p th <= t_p th')%N /\ (t_c th <= t_c th')%N /\
      (acq = true -> m_rel m = true -> (m_c m <= t_c th')%N /\ (m_p m <= t_p th')%N).
  Proof.
    unfold load_w. destruct (ws !! k) as [m|]; [|done]. destruct (decide _) as [[H1 H2]|]; [|done].
    intros [= <- <-]. exists m. destruct acq, (m_rel m); simpl;
      repeat match goal with |- _ /\ _ => split end; try done; try lia.
  Qed.

  Lemma lookup_last {A} (l : list A) k x :
    S k = length l -> l !! pred (length l) = Some x -> l !! k = Some x.
  Proof. by intros <-. Qed.

  (** ** Changing a thread's view *)
  Lemma GI_tp ws rs sl tp tc g tp' :
    GI c ws rs sl tp tc g ->
    t_sw tp <= t_sw tp' < length ws -> t_sr tp <= t_sr tp' < length rs ->
    (t_p tp <= t_p tp')%N -> (t_c tp <= t_c tp')%N ->
    GI c ws rs sl tp' tc g.
  Proof.
    intros [HW HS HK HR] H1 H2 H3 H4. split; [|..|done|done].
    - destruct HW. split; try done; try lia.
      destruct wi_seenp as (n & Hn & Ha & Hb).
      destruct (lookup_lt_is_Some_2 (g_cr g) (t_sr tp')) as [n' Hn']; [lia|].
      pose proof (wi_monor _ _ _ _ (proj1 H2) Hn Hn'). exists n'. split; [done|]. lia.
    - destruct HS. split; try done. intros i. specialize (si_clkp i). lia.
  Qed.

  Lemma wknow_mono ws tc g n tc' :
    wknow ws tc g n -> t_sw tc <= t_sw tc' -> (t_p tc <= t_p tc')%N -> wknow ws tc' g n.
  Proof.
    intros [->|(k & m & x & H1 & H2 & H3 & H4 & H5)] H6 H7; [by left|]. right. exists k, m, x.
    split; [done|]. split; [done|]. split; [lia|]. split; [lia|done].
  Qed.
  Lemma spc_mono rs tp g n tp' :
    spc c rs tp g n -> t_sr tp <= t_sr tp' -> (t_c tp <= t_c tp')%N -> spc c rs tp' g n.
  Proof.
    intros (k & m & x & H1 & H2 & H3 & H4 & H5) H6 H7. exists k, m, x.
    split; [done|]. split; [done|]. split; [lia|]. split; [lia|done].
  Qed.

  Lemma GI_tc ws rs sl tp tc g tc' :
    GI c ws rs sl tp tc g ->
    t_sw tc <= t_sw tc' < length ws -> t_sr tc <= t_sr tc' < length rs ->
    (t_p tc <= t_p tc')%N -> (t_c tc <= t_c tc')%N ->
    GI c ws rs sl tp tc' g.
  Proof.
    intros [HW HS HK HR] H1 H2 H3 H4. split; [| | |done].
    - destruct HW. split; try done; try lia.
      destruct wi_seenc as (n & Hn & Ha & Hb).
      destruct (lookup_lt_is_Some_2 (g_cw g) (t_sw tc')) as [n' Hn']; [lia|].
      pose proof (wi_monow _ _ _ _ (proj1 H1) Hn Hn'). exists n'. split; [done|]. lia.
    - destruct HS. split; try done. intros i. specialize (si_clkc i). lia.
    - eapply wknow_mono; [done|lia..].
  Qed.

  (** ** Effects that leave the elements alone *)
  Definition lin g (t : nat) o r (kc kp : N) : ghost :=
    XG (g_np g) (g_nc g) (g_cw g) (g_cr g) (g_q g) (g_up g) (g_ac g) kc kp
       (g_l g ++ [Lin t o r]) (<[t := Done o r]> (g_ph g)).

  Lemma GI_lin ws rs sl tp tc g t o r kc kp :
    GI c ws rs sl tp tc g -> g_ph g !! t = Some (Pending o) ->
    spec (AQ (g_q g) (g_kc g) (g_kp g)) o r (AQ (g_q g) kc kp) ->
    (exists n, g_cr g !! t_sr tp = Some n /\ (g_np g + kp + 1 <= n + M)%N) ->
    (exists n, g_cw g !! t_sw tc = Some n /\ (g_nc g + kc <= n)%N) ->
    wknow ws tc g kc ->
    GI c ws rs sl tp tc (lin g t o r kc kp).
  Proof.
    intros [HW HS HK HR] Hp Hsp (n1 & Hn1 & Hk1) (n2 & Hn2 & Hk2) Hk. split; simpl.
    - destruct HW. split; try done; simpl.
      + destruct wi_seenp as (n & Hn & Ha & Hb). exists n. rewrite Hn in Hn1. injection Hn1 as <-. done.
      + destruct wi_seenc as (n & Hn & Ha & Hb). exists n. rewrite Hn in Hn2. injection Hn2 as <-. done.
    - by destruct HS.
    - done.
    - by eapply lrun_lin.
  Qed.

  (** The special case that nothing changes. *)
  Lemma GI_lin_same ws rs sl tp tc g t o r :
    GI c ws rs sl tp tc g -> g_ph g !! t = Some (Pending o) ->
    spec (AQ (g_q g) (g_kc g) (g_kp g)) o r (AQ (g_q g) (g_kc g) (g_kp g)) ->
    GI c ws rs sl tp tc (lin g t o r (g_kc g) (g_kp g)).
  Proof.
    intros HG Hp Hsp. pose proof (gi_wi _ _ _ _ _ _ _ HG) as HW. apply GI_lin; try done.
    - destruct (wi_seenp _ _ _ _ _ _ HW) as (n & ? & ? & ?). eauto.
    - destruct (wi_seenc _ _ _ _ _ _ HW) as (n & ? & ? & ?). eauto.
    - apply HG.
  Qed.

  (** Invocations and responses. *)
  Definition ginv g t o : ghost :=
    XG (g_np g) (g_nc g) (g_cw g) (g_cr g) (g_q g) (g_up g) (g_ac g) (g_kc g) (g_kp g)
       (g_l g ++ [Ev (Lin.Inv t o)]) (<[t := Pending o]> (g_ph g)).
  Definition gres g t r : ghost :=
    XG (g_np g) (g_nc g) (g_cw g) (g_cr g) (g_q g) (g_up g) (g_ac g) (g_kc g) (g_kp g)
       (g_l g ++ [Ev (Res t r)]) (delete t (g_ph g)).
  Lemma GI_inv ws rs sl tp tc g t o :
    GI c ws rs sl tp tc g -> g_ph g !! t = None -> GI c ws rs sl tp tc (ginv g t o).
  Proof. intros [[] [] HK HR] Hp. split; [by split|by split|done|]. by apply lrun_inv. Qed.
  Lemma GI_res ws rs sl tp tc g t o r :
    GI c ws rs sl tp tc g -> g_ph g !! t = Some (Done o r) -> GI c ws rs sl tp tc (gres g t r).
  Proof. intros [[] [] HK HR] Hp. split; [by split|by split|done|]. by eapply lrun_res. Qed.

  (** ** Facts *)
  Lemma wi_space ws rs tp tc g :
    WI c ws rs tp tc g -> (g_np g + len (g_up g) + 1 <= g_nc g + M)%N.
  Proof.
    intros HW. destruct (wi_seenp _ _ _ _ _ _ HW) as (n & Hn & Ha & _).
    pose proof (wi_monor _ _ _ _ _ _ HW (t_sr tp) (pred (length (g_cr g))) n (g_nc g)) as Hm.
    pose proof (lookup_lt_Some _ _ _ Hn). pose proof (wi_lastr _ _ _ _ _ _ HW) as Hl.
    specialize (Hm ltac:(lia) Hn Hl). lia.
  Qed.
  Lemma wi_cw_le ws rs tp tc g k n :
    WI c ws rs tp tc g -> g_cw g !! k = Some n -> (n <= g_np g)%N.
  Proof.
    intros HW Hn. pose proof (wi_monow _ _ _ _ _ _ HW k (pred (length (g_cw g))) n (g_np g)) as Hm.
    pose proof (lookup_lt_Some _ _ _ Hn). apply Hm; [lia|done|apply HW].
  Qed.
  Lemma wi_cr_le ws rs tp tc g k n :
    WI c ws rs tp tc g -> g_cr g !! k = Some n -> (n <= g_nc g)%N.
  Proof.
    intros HW Hn. pose proof (wi_monor _ _ _ _ _ _ HW k (pred (length (g_cr g))) n (g_nc g)) as Hm.
    pose proof (lookup_lt_Some _ _ _ Hn). apply Hm; [lia|done|apply HW].
  Qed.
  Lemma wi_M ws rs tp tc g : WI c ws rs tp tc g -> (0 < M)%N.
  Proof. intros HW. pose proof (wi_space _ _ _ _ _ HW). pose proof (wi_size _ _ _ _ _ _ HW). lia. Qed.

  Lemma slot_insert sl i x j : slot_at (<[i := x]> sl) j = if decide (i = j) then x else slot_at sl j.
  Proof.
    unfold slot_at. destruct (decide (i = j)) as [->|].
    - by rewrite lookup_insert.
    - by rewrite lookup_insert_ne.
  Qed.

  (** ** The producer constructs an element *)
  Definition gup g (up : list V) : ghost :=
    XG (g_np g) (g_nc g) (g_cw g) (g_cr g) (g_q g) up (g_ac g) (g_kc g) (g_kp g) (g_l g) (g_ph g).

  (** What the producer has acquired about the slot of an unpublished place. *)
  Lemma spc_slot ws rs sl tp tc g n j :
    GI c ws rs sl tp tc g -> spc c rs tp g n -> (j < n)%N ->
    (s_wc (slot_at sl ((g_np g + j) mod M)) <= t_c tp)%N /\
    (s_rc (slot_at sl ((g_np g + j) mod M)) <= t_c tp)%N.
  Proof.
    intros HG (k & m & x & H1 & H2 & H3 & H4 & H5) Hj.
    pose proof (si_free _ _ _ _ _ _ _ (gi_si _ _ _ _ _ _ _ HG) k m x H1 H2 (g_np g + j)%N ltac:(lia)). lia.
  Qed.

  Lemma GI_write_p ws rs sl tp tc g j ns up' :
    let i := ((g_np g + j) mod M)%N in
    GI c ws rs sl tp tc g -> (g_np g + j + 1 <= g_nc g + M)%N ->
    s_wp ns = (t_p tp + 1)%N -> s_wc ns = s_wc (slot_at sl i) -> s_rc ns = s_rc (slot_at sl i) ->
    s_rp ns = s_rp (slot_at sl i) ->
    (exists n, g_cr g !! t_sr tp = Some n /\ (g_np g + len up' + 1 <= n + M)%N) ->
    (up' = g_up g ++ option_list (s_val ns) /\ j = len (g_up g) /\ is_Some (s_val ns) \/
     (exists v, g_up g = up' ++ [v]) /\ j = len up' /\ s_val ns = None) ->
    GI c ws rs (<[i := ns]> sl) (Thread (t_sw tp) (t_sr tp) (t_p tp + 1) (t_c tp) (t_pc tp)) tc (gup g up').
  Proof.
    intros i HG Hj E1 E2 E3 E4 Hseen Hup. pose proof HG as [HW HS HK HR].
    pose proof (wi_M _ _ _ _ _ HW) as HM. pose proof (wi_size _ _ _ _ _ _ HW) as Hsz.
    pose proof (wi_space _ _ _ _ _ HW) as Hspace. pose proof (wi_ac _ _ _ _ _ _ HW) as Hwac.
    split; [| | |done].
    - destruct HW. split; try done; simpl. destruct wi_seenp as (n & Hn & Ha & Hb).
      destruct Hseen as (n' & Hn' & Hs). rewrite Hn in Hn'. injection Hn' as <-. exists n. done.
    - destruct HS as [S1 S2 S3 S4 S5 S6 S7]. split; simpl.
      + intros k x Hk Hx. rewrite slot_insert. destruct (decide _) as [He|He].
        * unfold i in He. apply lookup_lt_Some in Hx as Hlt. rewrite app_length in Hlt.
          assert (Hle : N.of_nat k = (len (g_q g) + j)%N).
          { destruct (decide (g_nc g + N.of_nat k <= g_np g + j)%N) as [Hc|Hc].
            - symmetry in He. apply (mod_inj M) in He; lia.
            - exfalso. destruct Hup as [(-> & Hjl & _)|([v Hv] & Hjl & _)].
              + rewrite app_length in Hlt. destruct (s_val ns); simpl in Hlt; lia.
              + lia. }
          destruct Hup as [(-> & Hjl & [v Hv])|([v Hv] & Hjl & Hnone)].
          -- rewrite Hv in *. simpl in *.
             rewrite app_assoc, lookup_app_r in Hx by (rewrite app_length; lia).
             rewrite app_length in Hx. replace (k - _) with 0 in Hx by lia. simpl in Hx. congruence.
          -- exfalso. lia.
        * apply S1; [done|]. destruct Hup as [(-> & Hjl & [v Hv])|([v Hv] & Hjl & Hnone)].
          -- rewrite app_assoc in Hx. rewrite lookup_app in Hx.
             destruct ((g_q g ++ g_up g) !! k) eqn:Hq; [done|].
             rewrite Hv in Hx. simpl in Hx. apply list_lookup_singleton_Some in Hx as [Hx _].
             apply lookup_ge_None in Hq. rewrite app_length in *. exfalso. apply He. unfold i.
             f_equal. lia.
          -- rewrite Hv, app_assoc. by apply lookup_app_l_Some.
      + intros Ht k Hk1 Hk2. rewrite slot_insert. destruct (decide _) as [He|He].
        * unfold i in He. destruct Hup as [(-> & Hjl & [v Hv])|([v Hv] & Hjl & Hnone)]; [|done].
          exfalso. rewrite Hv in *. rewrite !app_length in Hk1. simpl in Hk1.
          apply (mod_inj M) in He; lia.
        * destruct Hup as [(-> & Hjl & [v Hv])|([v Hv] & Hjl & Hnone)].
          -- apply S2; [done| |done]. rewrite !app_length in *. lia.
          -- destruct (decide (k = length (g_q g ++ up'))) as [->|Hne].
             ++ exfalso. apply He. unfold i. f_equal. rewrite app_length. lia.
             ++ apply S2; [done| |done]. rewrite Hv, !app_length in *. simpl in *. lia.
      + intros k. rewrite slot_insert. destruct (decide _); [by rewrite E1|]. specialize (S3 k). lia.
      + intros k. rewrite slot_insert. destruct (decide _); [rewrite E2, E3|]; apply S4.
      + intros k. rewrite slot_insert. destruct (decide _); [rewrite E4|]; apply S5.
      + intros k m n Hm Hn Hlt. destruct (S6 k m n Hm Hn Hlt) as [Hr Hd]. split; [done|].
        intros k' Hk'. rewrite slot_insert. destruct (decide _) as [He|He]; [|by apply Hd].
        exfalso. unfold i in He. pose proof (wi_cw_le _ _ _ _ _ _ _ HW Hn).
        symmetry in He. apply (mod_inj M) in He; lia.
      + intros k m n Hm Hn k' Hk'. rewrite slot_insert. destruct (decide _) as [He|He]; [|by eapply S7].
        rewrite E2, E3. replace i with (k' mod M)%N. by eapply S7.
    - destruct HK as [?|(k & m & x & H)]; [by left|]. right. exists k, m, x. done.
  Qed.

  Lemma construct_ok ws rs sl tp tc g n i v f :
    GI c ws rs sl tp tc g -> spc c rs tp g n -> (len (g_up g) < n)%N -> i = ((g_np g + len (g_up g)) mod M)%N ->
    exists sl', construct c sl tp i v f =
        f sl' (Thread (t_sw tp) (t_sr tp) (t_p tp + 1) (t_c tp) (t_pc tp)) /\
      GI c ws rs sl' (Thread (t_sw tp) (t_sr tp) (t_p tp + 1) (t_c tp) (t_pc tp)) tc (gup g (g_up g ++ [v])).
  Proof.
    intros HG Hs Hn ->. pose proof HG as [HW HS HK HR].
    pose proof (wi_M _ _ _ _ _ HW) as HM. pose proof (wi_size _ _ _ _ _ _ HW) as Hsz.
    unfold construct. rewrite decide_False by (apply N.nle_gt, N.mod_lt; lia).
    destruct (spc_slot _ _ _ _ _ _ _ (len (g_up g)) HG Hs Hn) as [Hc1 Hc2].
    assert (Hsn : exists n, g_cr g !! t_sr tp = Some n /\ (g_np g + len (g_up g ++ [v]) + 1 <= n + M)%N).
    { destruct Hs as (k & m & x & H1 & H2 & H3 & H4 & H5).
      destruct (wi_seenp _ _ _ _ _ _ HW) as (y & Hy & _).
      pose proof (wi_monor _ _ _ _ _ _ HW _ _ _ _ H4 H2 Hy). exists y. split; [done|].
      rewrite app_length. simpl. lia. }
    assert (Hspc : (g_np g + len (g_up g) + 1 <= g_nc g + M)%N) by (by eapply wi_space).
    eexists. split.
    - destruct (x_triv c) eqn:Ht; [|destruct (s_val (slot_at sl _)) eqn:Hv].
      + unfold acc_p. rewrite decide_True by done. reflexivity.
      + exfalso. pose proof (si_none _ _ _ _ _ _ _ HS Ht (length (g_q g ++ g_up g)) ltac:(done)) as Hnone.
        rewrite app_length in Hnone. specialize (Hnone ltac:(lia)).
        replace (g_nc g + N.of_nat (length (g_q g) + length (g_up g)))%N with (g_np g + len (g_up g))%N in Hnone by lia.
        congruence.
      + unfold acc_p. rewrite decide_True by done. reflexivity.
    - apply GI_write_p; simpl; try done. left. split; [done|]. split; [done|by eexists].
  Qed.

  Lemma undo_ok ws rs sl tp tc g n v up' i :
    x_triv c = false ->
    GI c ws rs sl tp tc g -> spc c rs tp g n -> (len (g_up g) <= n)%N -> g_up g = up' ++ [v] ->
    i = ((g_np g + len up') mod M)%N ->
    exists y, s_val (slot_at sl i) = Some v /\
      acc_p (slot_at sl i) tp None = Some (y, Thread (t_sw tp) (t_sr tp) (t_p tp + 1) (t_c tp) (t_pc tp)) /\
      GI c ws rs (<[i := y]> sl) (Thread (t_sw tp) (t_sr tp) (t_p tp + 1) (t_c tp) (t_pc tp)) tc (gup g up').
  Proof.
    intros Ht HG Hs Hn Hup ->. pose proof HG as [HW HS HK HR].
    pose proof (wi_size _ _ _ _ _ _ HW) as Hsz.
    assert (Hl : len (g_up g) = (len up' + 1)%N) by (rewrite Hup, app_length; simpl; lia).
    destruct (spc_slot _ _ _ _ _ _ _ (len up') HG Hs ltac:(lia)) as [Hc1 Hc2].
    assert (Hspc : (g_np g + len (g_up g) + 1 <= g_nc g + M)%N) by (by eapply wi_space).
    eexists. split; [|split].
    - replace (g_np g + len up')%N with (g_nc g + N.of_nat (length (g_q g) + length up'))%N by lia.
      apply (si_vals _ _ _ _ _ _ _ HS).
      + pose proof (wi_ac _ _ _ _ _ _ HW). lia.
      + rewrite Hup, app_assoc. rewrite lookup_app_r by (rewrite app_length; lia).
        rewrite app_length. by replace (_ - _) with 0 by lia.
    - unfold acc_p. rewrite decide_True by done. reflexivity.
    - apply GI_write_p; simpl; try done.
      + lia.
      + destruct (wi_seenp _ _ _ _ _ _ HW) as (y & Hy & Ha & Hb). exists y. split; [done|]. lia.
      + right. split; [by eexists|]. done.
  Qed.

  (** ** The producer publishes what it has constructed *)
  Definition gpub g o r kp : ghost :=
    XG (g_np g + len (g_up g)) (g_nc g) (g_cw g ++ [g_np g + len (g_up g)]%N) (g_cr g)
       (g_q g ++ g_up g) [] (g_ac g) (g_kc g) kp
       (g_l g ++ [Lin 0 o r]) (<[0 := Done o r]> (g_ph g)).

  Lemma mono_app l x y : mono l -> lastis l x -> (x <= y)%N -> mono (l ++ [y]).
  Proof.
    intros Hm Hl Hxy i j a b Hij Ha Hb.
    apply lookup_app_Some in Ha as [Ha|[Hi Ha]]; apply lookup_app_Some in Hb as [Hb|[Hj Hb]].
    - by eapply Hm.
    - apply list_lookup_singleton_Some in Hb as [_ <-]. pose proof (lookup_lt_Some _ _ _ Ha).
      pose proof (Hm i (pred (length l)) a x ltac:(lia) Ha Hl). lia.
    - apply lookup_lt_Some in Hb. lia.
    - apply list_lookup_singleton_Some in Ha as [_ <-]. apply list_lookup_singleton_Some in Hb as [_ <-]. lia.
  Qed.
  Lemma lastis_app l y : lastis (l ++ [y]) y.
  Proof. unfold lastis. rewrite app_length. simpl. rewrite Nat.add_1_r. simpl. by rewrite list_lookup_middle. Qed.

  Lemma GI_publish ws rs sl tp tc g o r kp nw rel :
    GI c ws rs sl tp tc g -> g_ph g !! 0 = Some (Pending o) -> rel = true ->
    nw = ((g_np g + len (g_up g)) mod M)%N ->
    spec (AQ (g_q g) (g_kc g) (g_kp g)) o r (AQ (g_q g ++ g_up g) (g_kc g) kp) ->
    (kp <= g_kp g - len (g_up g))%N ->
    GI c (store_w rel nw ws tp).1 rs sl (store_w rel nw ws tp).2 tc (gpub g o r kp).
  Proof.
    intros [HW HS HK HR] Hp -> -> Hsp Hkp. pose proof (wi_space _ _ _ _ _ HW) as Hspace.
    pose proof (wi_size _ _ _ _ _ _ HW) as Hsz. split; simpl.
    - destruct HW. split; simpl; try done.
      + by rewrite !app_length, wi_lenw.
      + intros k m n Hm Hn. apply lookup_app_Some in Hm as [Hm|[Hk Hm]].
        * apply (wi_valw k m n Hm). rewrite lookup_app_l in Hn; [done|].
          apply lookup_lt_Some in Hm. by rewrite wi_lenw.
        * apply list_lookup_singleton_Some in Hm as [Hz <-]. simpl.
          rewrite lookup_app_r in Hn by lia. replace (k - _) with 0 in Hn by lia. simpl in Hn. congruence.
      + by eapply mono_app; [done|done|lia].
      + apply lastis_app.
      + intros k m Hm. rewrite app_length. simpl. apply lookup_app_Some in Hm as [Hm|[Hk Hm]].
        * destruct (wi_msgw k m Hm). lia.
        * apply list_lookup_singleton_Some in Hm as [_ <-]. simpl.
          destruct wi_seenp as (n & Hn & _). apply lookup_lt_Some in Hn. lia.
      + intros k m Hm. rewrite app_length. simpl. destruct (wi_msgr k m Hm). lia.
      + rewrite app_length. simpl. lia.
      + destruct wi_seenp as (n & Hn & Ha & Hb). exists n. split; [done|]. lia.
      + destruct wi_seenc as (n & Hn & Ha & Hb). exists n. split; [|done]. by apply lookup_app_l_Some.
      + rewrite app_length. lia.
      + rewrite app_length. lia.
    - destruct HS as [S1 S2 S3 S4 S5 S6 S7]. split; simpl; try done.
      + intros j x Hj Hx. rewrite app_nil_r in Hx. by apply S1.
      + intros Ht j Hj1 Hj2. rewrite app_nil_r in Hj1. by apply S2.
      + intros k m n Hm Hn Hlt. apply lookup_app_Some in Hm as [Hm|[Hk Hm]].
        * rewrite lookup_app_l in Hn; [by apply (S6 k m n)|].
          apply lookup_lt_Some in Hm. by rewrite (wi_lenw _ _ _ _ _ _ HW).
        * apply list_lookup_singleton_Some in Hm as [Hz <-]. simpl. split; [done|]. intros j Hj. apply S3.
      + intros k m n Hm Hn j Hj. eapply (S7 k m n Hm Hn). lia.
    - destruct HK as [?|(k & m & x & H1 & H2 & H3)]; [by left|]. right. exists k, m, x.
      split; [by apply lookup_app_l_Some|]. split; [by apply lookup_app_l_Some|done].
    - by eapply lrun_lin.
  Qed.

  (** ** The consumer *)
  Lemma wknow_slot ws rs sl tp tc g n j :
    GI c ws rs sl tp tc g -> wknow ws tc g n -> (j < n)%N ->
    (s_wp (slot_at sl ((g_nc g + j) mod M)) <= t_p tc)%N.
  Proof.
    intros HG [->|(k & m & x & H1 & H2 & H3 & H4 & H5)] Hj; [lia|].
    destruct (si_data _ _ _ _ _ _ _ (gi_si _ _ _ _ _ _ _ HG) k m x H1 H2 ltac:(lia)) as [_ Hd].
    specialize (Hd (g_nc g + j)%N ltac:(lia)). lia.
  Qed.

  Definition gac g (ac : nat) : ghost :=
    XG (g_np g) (g_nc g) (g_cw g) (g_cr g) (g_q g) (g_up g) ac (g_kc g) (g_kp g) (g_l g) (g_ph g).
  Definition cclk tc : thread V := Thread (t_sw tc) (t_sr tc) (t_p tc) (t_c tc + 1) (t_pc tc).

  (** An access to the slot of element [g_ac g], which is destroyed if [ac' > ac]. *)
  Lemma GI_write_c ws rs sl tp tc g ns ac' :
    let i := ((g_nc g + N.of_nat (g_ac g)) mod M)%N in
    GI c ws rs sl tp tc g -> g_ac g < length (g_q g) ->
    s_wp ns = s_wp (slot_at sl i) -> s_rp ns = s_rp (slot_at sl i) ->
    (s_wc ns <= t_c tc + 1)%N -> (s_rc ns <= t_c tc + 1)%N ->
    (exists n, g_cw g !! t_sw tc = Some n /\ (g_nc g + N.of_nat ac' <= n)%N) ->
    (ac' = g_ac g /\ s_val ns = s_val (slot_at sl i) \/
     ac' = S (g_ac g) /\ x_triv c = false /\ s_val ns = None) ->
    GI c ws rs (<[i := ns]> sl) tp (cclk tc) (gac g ac').
  Proof.
    intros i HG Hac E1 E2 E3 E4 Hseen Hup. pose proof HG as [HW HS HK HR].
    pose proof (wi_M _ _ _ _ _ HW) as HM. pose proof (wi_size _ _ _ _ _ _ HW) as Hsz.
    pose proof (wi_space _ _ _ _ _ HW) as Hspace. pose proof (wi_ac _ _ _ _ _ _ HW) as Hwac.
    split; [| | |done].
    - destruct HW. split; try done; simpl.
      + destruct wi_seenc as (n & Hn & Ha & Hb).
        destruct Hseen as (n' & Hn' & Hs). rewrite Hn in Hn'. injection Hn' as <-. exists n. done.
      + destruct Hup as [[-> _]|[-> _]]; lia.
    - destruct HS as [S1 S2 S3 S4 S5 S6 S7]. split; simpl.
      + intros k x Hk Hx. rewrite slot_insert. apply lookup_lt_Some in Hx as Hlt. rewrite app_length in Hlt.
        destruct (decide _) as [He|He].
        * unfold i in He.
          assert (Hle : k = g_ac g).
          { destruct (decide (k <= g_ac g)).
            - symmetry in He. apply (mod_inj M) in He; lia.
            - apply (mod_inj M) in He; lia. }
          subst k. destruct Hup as [[-> ->]|[-> Hup]].
          -- by apply S1.
          -- destruct Hup as [Ht _]. specialize (Hk Ht). lia.
        * apply S1; [|done]. intros Ht. specialize (Hk Ht). destruct Hup as [[-> _]|[-> _]]; lia.
      + intros Ht k Hk1 Hk2. rewrite slot_insert. rewrite app_length in Hk1. destruct (decide _) as [He|He].
        * unfold i in He. destruct Hup as [[-> Hv]|[-> [_ Hnone]]]; [|done].
          exfalso. apply (mod_inj M) in He; lia.
        * destruct Hup as [[-> Hv]|[-> Hnone]].
          -- apply S2; [done|rewrite app_length; lia|done].
          -- destruct (decide (N.of_nat k = N.of_nat (g_ac g) + M)%N) as [Heq|Hne].
             ++ exfalso. apply He. unfold i. rewrite Heq, N.add_assoc.
                replace (g_nc g + N.of_nat (g_ac g) + M)%N with (g_nc g + N.of_nat (g_ac g) + 1 * M)%N by lia.
                symmetry. apply N.mod_add. lia.
             ++ apply S2; [done|rewrite app_length; lia|]. lia.
      + intros k. rewrite slot_insert. destruct (decide _); [rewrite E1|]; apply S3.
      + intros k. rewrite slot_insert. destruct (decide _); [done|]. specialize (S4 k). lia.
      + intros k. rewrite slot_insert. destruct (decide _); [rewrite E2|]; apply S5.
      + intros k m n Hm Hn Hlt. destruct (S6 k m n Hm Hn Hlt) as [Hr Hd]. split; [done|].
        intros k' Hk'. rewrite slot_insert. destruct (decide _) as [He|He]; [|by apply Hd].
        rewrite E1. replace i with (k' mod M)%N. by apply Hd.
      + intros k m n Hm Hn k' Hk'. rewrite slot_insert. destruct (decide _) as [He|He]; [|by eapply S7].
        exfalso. unfold i in He. pose proof (wi_cr_le _ _ _ _ _ _ _ HW Hn).
        apply (mod_inj M) in He; lia.
    - destruct HK as [?|(k & m & x & H)]; [by left|]. right. exists k, m, x. done.
  Qed.

  Lemma gac_id g : gac g (g_ac g) = g.
  Proof. by destruct g. Qed.

  Lemma consume_ok ws rs sl tp tc g n wr i f x :
    GI c ws rs sl tp tc g -> wknow ws tc g n -> (N.of_nat (g_ac g) < n)%N ->
    g_q g !! g_ac g = Some x -> i = ((g_nc g + N.of_nat (g_ac g)) mod M)%N ->
    exists sl', consume c wr sl tc i f = f sl' (cclk tc) x /\ GI c ws rs sl' tp (cclk tc) g.
  Proof.
    intros HG Hk Hn Hx ->. pose proof HG as [HW HS HK HR]. pose proof (wi_M _ _ _ _ _ HW) as HM.
    unfold consume. rewrite decide_False by (apply N.nle_gt, N.mod_lt; lia).
    assert (Hv : s_val (slot_at sl ((g_nc g + N.of_nat (g_ac g)) mod M)) = Some x).
    { apply (si_vals _ _ _ _ _ _ _ HS); [done|]. by apply lookup_app_l_Some. }
    rewrite Hv. pose proof (wknow_slot _ _ _ _ _ _ _ _ HG Hk Hn) as Hs.
    pose proof (si_rp _ _ _ _ _ _ _ HS ((g_nc g + N.of_nat (g_ac g)) mod M)%N) as Hrp.
    pose proof (si_clkc _ _ _ _ _ _ _ HS ((g_nc g + N.of_nat (g_ac g)) mod M)%N) as Hcl.
    eexists. split.
    - unfold acc_c. rewrite decide_True by (split; [done|lia]). reflexivity.
    - match goal with |- GI _ _ _ ?m _ _ _ => cut (GI c ws rs m tp (cclk tc) (gac g (g_ac g))) end.
      { by rewrite gac_id. }
      apply GI_write_c; simpl; try done.
      + by apply lookup_lt_Some in Hx.
      + destruct wr; lia.
      + destruct wr; lia.
      + destruct (wi_seenc _ _ _ _ _ _ HW) as (y & Hy & Ha & Hb). exists y. done.
      + by left.
  Qed.

  Lemma destroy_ok ws rs sl tp tc g n i f x :
    GI c ws rs sl tp tc g -> wknow ws tc g n -> (N.of_nat (g_ac g) < n)%N ->
    g_q g !! g_ac g = Some x -> i = ((g_nc g + N.of_nat (g_ac g)) mod M)%N ->
    exists sl' tc', destroy c sl tc i f = f sl' tc' /\ GI c ws rs sl' tp tc' (gac g (S (g_ac g))) /\
      t_sw tc' = t_sw tc /\ t_sr tc' = t_sr tc /\ t_p tc' = t_p tc.
  Proof.
    intros HG Hk Hn Hx ->. pose proof HG as [HW HS HK HR].
    assert (Hsn : exists n, g_cw g !! t_sw tc = Some n /\ (g_nc g + N.of_nat (S (g_ac g)) <= n)%N).
    { destruct Hk as [->|(k & m & y & H1 & H2 & H3 & H4 & H5)]; [lia|].
      destruct (wi_seenc _ _ _ _ _ _ HW) as (z & Hz & _).
      pose proof (wi_monow _ _ _ _ _ _ HW _ _ _ _ H4 H2 Hz). exists z. split; [done|]. lia. }
    unfold destroy. destruct (x_triv c) eqn:Ht.
    - exists sl, tc. split; [done|]. split; [|done]. split; [| | |done].
      + destruct HW. split; try done; simpl.
        * destruct wi_seenc as (z & Hz & Ha & Hb). destruct Hsn as (z' & Hz' & Hs).
          rewrite Hz in Hz'. injection Hz' as <-. by exists z.
        * apply lookup_lt_Some in Hx. lia.
      + destruct HS. split; try done; simpl.
        * intros j y Hj Hy. apply si_vals; [congruence|done].
        * congruence.
      + destruct HK as [?|(k & m & y & H)]; [by left|]. right. exists k, m, y. done.
    - assert (Hv : s_val (slot_at sl ((g_nc g + N.of_nat (g_ac g)) mod M)) = Some x).
      { apply (si_vals _ _ _ _ _ _ _ HS); [done|]. by apply lookup_app_l_Some. }
      rewrite Hv. pose proof (wknow_slot _ _ _ _ _ _ _ _ HG Hk Hn) as Hs.
      pose proof (si_rp _ _ _ _ _ _ _ HS ((g_nc g + N.of_nat (g_ac g)) mod M)%N) as Hrp.
      pose proof (si_clkc _ _ _ _ _ _ _ HS ((g_nc g + N.of_nat (g_ac g)) mod M)%N) as Hcl.
      eexists _, (cclk tc). split.
      + unfold acc_c. rewrite decide_True by (split; [done|lia]). reflexivity.
      + split; [|done]. apply GI_write_c; simpl; try done.
        * by apply lookup_lt_Some in Hx.
        * lia.
        * right. done.
  Qed.

  (** ** The consumer gives up what it has consumed *)
  Definition ggive g o r kc : ghost :=
    XG (g_np g) (g_nc g + N.of_nat (g_ac g)) (g_cw g) (g_cr g ++ [g_nc g + N.of_nat (g_ac g)]%N)
       (drop (g_ac g) (g_q g)) (g_up g) 0 kc (g_kp g)
       (g_l g ++ [Lin 1 o r]) (<[1 := Done o r]> (g_ph g)).

  Lemma GI_give ws rs sl tp tc g o r kc nr rel :
    GI c ws rs sl tp tc g -> g_ph g !! 1 = Some (Pending o) -> rel = true ->
    nr = ((g_nc g + N.of_nat (g_ac g)) mod M)%N ->
    spec (AQ (g_q g) (g_kc g) (g_kp g)) o r (AQ (drop (g_ac g) (g_q g)) kc (g_kp g)) ->
    (kc <= g_kc g - N.of_nat (g_ac g))%N ->
    GI c ws (store_r rel nr rs tc).1 sl tp (store_r rel nr rs tc).2 (ggive g o r kc).
  Proof.
    intros [HW HS HK HR] Hp -> -> Hsp Hkc. pose proof (wi_space _ _ _ _ _ HW) as Hspace.
    pose proof (wi_size _ _ _ _ _ _ HW) as Hsz. pose proof (wi_ac _ _ _ _ _ _ HW) as Hac. split; simpl.
    - destruct HW. split; simpl; try done.
      + by rewrite !app_length, wi_lenr.
      + intros k m n Hm Hn. apply lookup_app_Some in Hm as [Hm|[Hk Hm]].
        * apply (wi_valr k m n Hm). rewrite lookup_app_l in Hn; [done|].
          apply lookup_lt_Some in Hm. by rewrite wi_lenr.
        * apply list_lookup_singleton_Some in Hm as [Hz <-]. simpl.
          rewrite lookup_app_r in Hn by lia. replace (k - _) with 0 in Hn by lia. simpl in Hn. congruence.
      + intros k m Hm. apply lookup_app_Some in Hm as [Hm|[Hk Hm]]; [by eapply wi_relr|].
        by apply list_lookup_singleton_Some in Hm as [_ <-].
      + by eapply mono_app; [done|done|lia].
      + apply lastis_app.
      + intros k m Hm. rewrite app_length. simpl. destruct (wi_msgw k m Hm). lia.
      + intros k m Hm. rewrite app_length. simpl. apply lookup_app_Some in Hm as [Hm|[Hk Hm]].
        * destruct (wi_msgr k m Hm). lia.
        * apply list_lookup_singleton_Some in Hm as [_ <-]. simpl.
          destruct wi_seenc as (n & Hn & _). apply lookup_lt_Some in Hn. lia.
      + rewrite app_length. simpl. lia.
      + destruct wi_seenp as (n & Hn & Ha & Hb). exists n. split; [|done]. by apply lookup_app_l_Some.
      + destruct wi_seenc as (n & Hn & Ha & Hb). exists n. split; [done|]. lia.
      + rewrite drop_length. lia.
      + lia.
    - destruct HS as [S1 S2 S3 S4 S5 S6 S7].
      assert (Hd : drop (g_ac g) (g_q g) ++ g_up g = drop (g_ac g) (g_q g ++ g_up g)).
      { by rewrite drop_app_le. }
      split; simpl; try done.
      + intros j x Hj Hx. rewrite Hd, lookup_drop in Hx.
        rewrite <- N.add_assoc, <- Nat2N.inj_add. apply S1; [lia|done].
      + intros Ht j Hj1 Hj2. rewrite Hd, drop_length in Hj1.
        rewrite <- N.add_assoc, <- Nat2N.inj_add. apply S2; [done|lia..].
      + intros k m n Hm Hn Hlt. destruct (S6 k m n Hm Hn ltac:(lia)) as [Hr Hj]. split; [done|].
        intros j Hj'. apply Hj. lia.
      + intros k m n Hm Hn j Hj. apply lookup_app_Some in Hm as [Hm|[Hk Hm]].
        * rewrite lookup_app_l in Hn; [by eapply (S7 k m n)|].
          apply lookup_lt_Some in Hm. by rewrite (wi_lenr _ _ _ _ _ _ HW).
        * apply list_lookup_singleton_Some in Hm as [Hz <-]. simpl. apply S4.
    - destruct (decide (kc = 0%N)) as [->|Hne]; [by left|].
      destruct HK as [Hz|(k & m & x & H1 & H2 & H3 & H4 & H5)]; [lia|]. right. exists k, m, x. simpl.
      do 4 (split; [done|]). lia.
    - by eapply lrun_lin.
  Qed.

  (** ** Giving up half-done batches of trivially destructible elements *)
  Lemma GI_drop_up ws rs sl tp tc g :
    x_triv c = true -> GI c ws rs sl tp tc g -> GI c ws rs sl tp tc (gup g []).
  Proof.
    intros Ht [HW HS HK HR]. split; [| | |done].
    - destruct HW. split; try done; simpl. destruct wi_seenp as (n & Hn & Ha & Hb). exists n. split; [done|]. lia.
    - destruct HS. split; try done; simpl.
      + intros j x Hj Hx. apply si_vals; [done|]. rewrite app_nil_r in Hx. by apply lookup_app_l_Some.
      + congruence.
    - destruct HK as [?|(k & m & y & H)]; [by left|]. right. exists k, m, y. done.
  Qed.
  Lemma GI_drop_ac ws rs sl tp tc g :
    x_triv c = true -> GI c ws rs sl tp tc g -> GI c ws rs sl tp tc (gac g 0).
  Proof.
    intros Ht [HW HS HK HR]. split; [| | |done].
    - destruct HW. split; try done; simpl.
      + destruct wi_seenc as (n & Hn & Ha & Hb). exists n. split; [done|]. lia.
      + lia.
    - destruct HS. split; try done; simpl.
      + intros j x Hj Hx. apply si_vals; [congruence|done].
      + congruence.
    - destruct HK as [?|(k & m & y & H)]; [by left|]. right. exists k, m, y. done.
  Qed.

  (** ** reset() of trivially destructible elements *)
  Definition greset g : ghost :=
    let n := (M * (g_np g / M + 2))%N in
    XG n n (g_cw g ++ [n]) (g_cr g ++ [n]) [] [] 0 0 (g_kp g)
       (g_l g ++ [Lin 1 OReset RUnit]) (<[1 := Done OReset RUnit]> (g_ph g)).

  Lemma GI_reset ws rs sl tp tc g ws' rs' th1 th2 pc1 pc2 :
    x_triv c = true ->
    GI c ws rs sl tp tc g -> g_ph g !! 1 = Some (Pending OReset) ->
    store_w false 0 ws tc = (ws', th1) -> store_r true 0 rs th1 = (rs', th2) ->
    GI c ws' rs' sl (Thread (t_sw tp `max` t_sw th2) (t_sr tp `max` t_sr th2)
                       (t_p tp `max` t_p th2) (t_c tp `max` t_c th2) pc1)
       (Thread (t_sw th2) (t_sr th2) (t_p th2) (t_c th2) pc2) (greset g).
  Proof.
    intros Ht [HW HS HK HR] Hp [= <- <-] [= <- <-]. simpl.
    pose proof (wi_space _ _ _ _ _ HW) as Hspace. pose proof (wi_M _ _ _ _ _ HW) as HM.
    pose proof (wi_size _ _ _ _ _ _ HW) as Hsz. pose proof (wi_ac _ _ _ _ _ _ HW) as Hac.
    pose proof (N.div_mod (g_np g) M ltac:(lia)) as Hdm. pose proof (N.mod_lt (g_np g) M ltac:(lia)) as Hml.
    set (n0 := (M * (g_np g / M + 2))%N). assert (Hn0 : (g_np g + M <= n0)%N) by (unfold n0; lia).
    assert (Hmod : (n0 mod M = 0)%N) by (unfold n0; rewrite N.mul_comm; apply N.mod_mul; lia).
    assert (Htsw : t_sw tc < length ws).
    { destruct (wi_seenc _ _ _ _ _ _ HW) as (n & Hn & _). apply lookup_lt_Some in Hn.
      pose proof (wi_lenw _ _ _ _ _ _ HW). lia. }
    assert (Htsr : t_sr tp < length rs).
    { destruct (wi_seenp _ _ _ _ _ _ HW) as (n & Hn & _). apply lookup_lt_Some in Hn.
      pose proof (wi_lenr _ _ _ _ _ _ HW). lia. }
    pose proof (wi_ownp _ _ _ _ _ _ HW) as Hownp. pose proof (wi_ownc _ _ _ _ _ _ HW) as Hownc.
    split; simpl; fold n0.
    - pose proof (wi_cw_le ws rs tp tc g) as Hcw. pose proof (wi_cr_le ws rs tp tc g) as Hcr.
      pose proof HW as HW0. destruct HW. split; simpl; fold n0; try done.
      + by rewrite !app_length, wi_lenw.
      + by rewrite !app_length, wi_lenr.
      + intros k m n Hm Hn. apply lookup_app_Some in Hm as [Hm|[Hk Hm]].
        * apply (wi_valw k m n Hm). rewrite lookup_app_l in Hn; [done|].
          apply lookup_lt_Some in Hm. by rewrite wi_lenw.
        * apply list_lookup_singleton_Some in Hm as [Hz <-]. simpl.
          rewrite lookup_app_r in Hn by lia. replace (k - _) with 0 in Hn by lia. simpl in Hn. congruence.
      + intros k m n Hm Hn. apply lookup_app_Some in Hm as [Hm|[Hk Hm]].
        * apply (wi_valr k m n Hm). rewrite lookup_app_l in Hn; [done|].
          apply lookup_lt_Some in Hm. by rewrite wi_lenr.
        * apply list_lookup_singleton_Some in Hm as [Hz <-]. simpl.
          rewrite lookup_app_r in Hn by lia. replace (k - _) with 0 in Hn by lia. simpl in Hn. congruence.
      + intros k m Hm. apply lookup_app_Some in Hm as [Hm|[Hk Hm]]; [by eapply wi_relr|].
        by apply list_lookup_singleton_Some in Hm as [_ <-].
      + by eapply mono_app; [done|done|lia].
      + by eapply mono_app; [done|done|lia].
      + apply lastis_app.
      + apply lastis_app.
      + intros k m Hm. rewrite !app_length. simpl. apply lookup_app_Some in Hm as [Hm|[Hk Hm]].
        * destruct (wi_msgw k m Hm). lia.
        * apply list_lookup_singleton_Some in Hm as [_ <-]. simpl. lia.
      + intros k m Hm. rewrite !app_length. simpl. apply lookup_app_Some in Hm as [Hm|[Hk Hm]].
        * destruct (wi_msgr k m Hm). lia.
        * apply list_lookup_singleton_Some in Hm as [_ <-]. simpl. lia.
      + rewrite app_length. simpl. lia.
      + rewrite app_length. simpl. lia.
      + destruct wi_seenp as (n & Hn & Ha & Hb). exists n0. split.
        * replace (t_sr tp `max` length rs) with (length (g_cr g)) by lia. by rewrite list_lookup_middle.
        * specialize (Hcr _ _ HW0 Hn). lia.
      + exists n0. split; [|lia]. rewrite <- wi_lenw. by rewrite list_lookup_middle.
      + lia.
    - pose proof (wi_cw_le ws rs tp tc g) as Hcw. pose proof (wi_cr_le ws rs tp tc g) as Hcr.
      destruct HS as [S1 S2 S3 S4 S5 S6 S7]. split; simpl; fold n0; try done.
      + congruence.
      + intros i. specialize (S3 i). lia.
      + intros k m n Hm Hn Hlt. exfalso. apply lookup_app_Some in Hn as [Hn|[Hk Hn]].
        * specialize (Hcw _ _ HW Hn). lia.
        * apply list_lookup_singleton_Some in Hn as [Hz <-]. lia.
      + intros k m n Hm Hn j Hj. apply lookup_app_Some in Hm as [Hm|[Hk Hm]].
        * exfalso. rewrite lookup_app_l in Hn.
          -- specialize (Hcr _ _ HW Hn). lia.
          -- apply lookup_lt_Some in Hm. by rewrite (wi_lenr _ _ _ _ _ _ HW).
        * apply list_lookup_singleton_Some in Hm as [Hz <-]. simpl. apply S4.
    - by left.
    - eapply lrun_lin; [done..|]. apply xs_reset. by left.
  Qed.
End step.
