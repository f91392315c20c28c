(** * A thread that has seen everything runs as on sequentially consistent memory *)
From stdpp Require Import gmap list numbers.
From Verif Require Import Lin PoolModel StackModel StackObs StackQuiet StackWrap
  RaMem RaFacts RaStackModel RaStackObs RaStackStep RaStackDemo RaStackWrap.

Set Default Proof Using "Type".

Section solo.
  Context (c : cfg).

  (** ** What a step does to the memory *)

  Lemma tstep_load x pc i a sp x' pc' :
    saccess c true pc = XLoad i a -> tstep c x pc sp None false = TGo x' pc' -> x' = x.
  Proof.
    intros Ha Hs.
    destruct pc as [b v a'|v n'|top bot r|top bot old r|top bot old r|b vs|b vs k te a'|b vs k te n'
      |b vs k te n'|cur| |old|old nxt|n'|rev|rev old|n' lst|n' lst nxt|n' k acc|n' k acc|n' k|n' d k|k| |r];
      simpl in Hs, Ha; try done; try (by repeat case_match; simplify_eq/=).
    - destruct a' as [|old|old nxt]; simpl in Hs, Ha; [by injection Hs as <- <-; destruct x|by case_decide|done].
    - destruct a' as [|old|old nxt]; simpl in Hs, Ha; [by injection Hs as <- <-; destruct x|by case_decide|done].
    - destruct d as [|old|old]; simpl in Hs, Ha; [by injection Hs as <- <-; destruct x|done..].
  Qed.

  Lemma tstep_none x pc sp x' pc' :
    saccess c true pc = XNone -> tstep c x pc sp None false = TGo x' pc' -> x' = x.
  Proof.
    intros Ha Hs.
    destruct pc as [b v a'|v n'|top bot r|top bot old r|top bot old r|b vs|b vs k te a'|b vs k te n'
      |b vs k te n'|cur| |old|old nxt|n'|rev|rev old|n' lst|n' lst nxt|n' k acc|n' k acc|n' k|n' d k|k| |r];
      simpl in Hs, Ha; try done; try (by repeat case_match; simplify_eq/=).
    - destruct a' as [|old|old nxt]; simpl in Hs, Ha; [done| |done]. case_decide; [|done].
      repeat case_match; by simplify_eq/=.
    - destruct a' as [|old|old nxt]; simpl in Hs, Ha; [done| |done]. case_decide; [|done].
      repeat case_match; by simplify_eq/=.
    - by destruct d.
  Qed.

  Lemma tstep_cas_fail x pc i old sp x' pc' :
    saccess c true pc = XCas i old -> rword i x <> old -> tstep c x pc sp None false = TGo x' pc' ->
    x' = x /\ tstep c x pc true None false = TGo x pc'.
  Proof.
    intros Ha Ho Hs.
    destruct pc as [b v a'|v n'|top bot r|top bot old' r|top bot old' r|b vs|b vs k te a'|b vs k te n'
      |b vs k te n'|cur| |old'|old' nxt|n'|rev|rev old'|n' lst|n' lst nxt|n' k acc|n' k acc|n' k|n' d k|k| |r];
      simpl in Hs, Ha; try done;
      try (injection Ha as <- <-; rewrite decide_False in Hs by (intros [_ ?]; done); injection Hs as <- <-;
           split; [done|]; reflexivity).
    - destruct a' as [|old'|old' nxt]; simpl in Hs, Ha; [done|by case_decide|].
      injection Ha as <- <-. rewrite decide_False in Hs by (intros [_ ?]; done). injection Hs as <- <-.
      destruct x. split; [done|]. reflexivity.
    - destruct a' as [|old'|old' nxt]; simpl in Hs, Ha; [done|by case_decide|].
      injection Ha as <- <-. rewrite decide_False in Hs by (intros [_ ?]; done). injection Hs as <- <-.
      destruct x. split; [done|]. reflexivity.
    - destruct d as [|old'|old']; simpl in Hs, Ha; [done|done|].
      injection Ha as <- <-. rewrite decide_False in Hs by (intros [_ ?]; done). injection Hs as <- <-.
      destruct x. split; [done|]. reflexivity.
  Qed.

  (** Links change only by writes to them. *)
  Lemma tstep_links x pc sp x' pc' m nd :
    tstep c x pc sp None false = TGo x' pc' -> s_heap x !! m = Some nd ->
    exists nd', s_heap x' !! m = Some nd' /\ (saccess c true pc = XWrite m \/ (nx nd').1 = (nx nd).1).
  Proof.
    intros Hs Hm.
    assert (Hsame : s_heap x' = s_heap x -> exists nd', s_heap x' !! m = Some nd' /\
      (saccess c true pc = XWrite m \/ (nx nd').1 = (nx nd).1)).
    { intros ->. eauto. }
    assert (Hins : forall n nd', s_heap x' = <[n := nd']> (s_heap x) ->
      (saccess c true pc = XWrite n \/ forall nd0, s_heap x !! n = Some nd0 -> (nx nd').1 = (nx nd0).1) ->
      exists nd', s_heap x' !! m = Some nd' /\ (saccess c true pc = XWrite m \/ (nx nd').1 = (nx nd).1)).
    { intros n nd' -> Hn. destruct (decide (n = m)) as [->|Hne].
      - rewrite lookup_insert. exists nd'. split; [done|]. destruct Hn as [?|Hn]; [by left|right; by apply Hn].
      - rewrite lookup_insert_ne by done. eauto. }
    destruct pc as [b v a'|v n'|top bot r|top bot old' r|top bot old' r|b vs|b vs k te a'|b vs k te n'
      |b vs k te n'|cur| |old'|old' nxt|n'|rev|rev old'|n' lst|n' lst nxt|n' k acc|n' k acc|n' k|n' d k|[|k]| |r];
      simpl in Hs; try done;
      try (repeat case_match; simplify_eq/=; by apply Hsame).
    - destruct a' as [|old'|old' nxt]; simpl in Hs; repeat case_match; simplify_eq/=; by apply Hsame.
    - destruct (s_heap x !! n') as [[lk [w|]]|] eqn:Hn'; simplify_eq/=. eapply (Hins n'); [done|]. right.
      intros nd0 E. rewrite Hn' in E. by injection E as <-.
    - destruct (s_heap x !! bot) as [nd0|] eqn:Hn'; simplify_eq/=. eapply (Hins bot); [done|]. by left.
    - destruct a' as [|old'|old' nxt]; simpl in Hs; repeat case_match; simplify_eq/=; by apply Hsame.
    - destruct (s_heap x !! n') as [[lk [w|]]|] eqn:Hn'; [done| |done]. destruct (vs !! k); simplify_eq/=.
      eapply (Hins n'); [done|]. right. intros nd0 E. rewrite Hn' in E. by injection E as <-.
    - destruct (s_heap x !! n') as [nd0|] eqn:Hn'; simplify_eq/=. eapply (Hins n'); [done|]. by left.
    - destruct (s_heap x !! n') as [nd0|] eqn:Hn'; simplify_eq/=. eapply (Hins n'); [done|]. by left.
    - destruct (s_heap x !! n') as [[lk [w|]]|] eqn:Hn'; simplify_eq/=. eapply (Hins n'); [done|]. right.
      intros nd0 E. rewrite Hn' in E. by injection E as <-.
    - destruct d as [|old'|old']; simpl in Hs.
      + simplify_eq/=. by apply Hsame.
      + destruct (s_heap x !! n') as [nd0|] eqn:Hn'; simplify_eq/=. eapply (Hins n'); [done|]. by left.
      + repeat case_match; simplify_eq/=; by apply Hsame.
  Qed.

  (** ** A view that has seen everything *)

  Definition full (x : sshared) (w : wmem) (V : view) : Prop :=
    (forall n, V (LNext n) = length (w_next w n)) /\ (forall n, V (LData n) = w_acc w n) /\
    (forall i, V (rloc i) <= pred (length (hist i x w))) /\
    (forall i m, m ∈ hist i x w -> vle m.2 V).

  (** The memory of [x' w'] is that of [x w] after some more writes. *)
  Definition later (x : sshared) (w : wmem) (x' : sshared) (w' : wmem) : Prop :=
    (forall i, hist i x w `prefix_of` hist i x' w') /\
    (forall n nd, s_heap x !! n = Some nd -> exists nd', s_heap x' !! n = Some nd' /\
       next_hist nd w n `prefix_of` next_hist nd' w' n).

  Lemma later_refl x w : later x w x w.
  Proof. split; [done|]. eauto. Qed.
  Lemma later_trans x w x1 w1 x2 w2 : later x w x1 w1 -> later x1 w1 x2 w2 -> later x w x2 w2.
  Proof.
    intros [H1 H2] [H3 H4]. split.
    - intros i. by transitivity (hist i x1 w1).
    - intros n nd Hn. destruct (H2 n nd Hn) as (nd1 & Hn1 & Hp1). destruct (H4 n nd1 Hn1) as (nd2 & Hn2 & Hp2).
      exists nd2. split; [done|]. by transitivity (next_hist nd1 w1 n).
  Qed.

  Lemma rword_see i x : see i x (rword i x) = x.
  Proof. by destruct i, x. Qed.

  Lemma hist_len i x w : length (hist i x w) = S (pred (length (hist i x w))).
  Proof. destruct i; simpl; unfold pool_hist, tos_hist; rewrite app_length; simpl; lia. Qed.

  Lemma full_tick x w V t : full x w V -> full x w (tick t V).
  Proof.
    intros (H1 & H2 & H3 & H4). unfold tick. split; [|split; [|split]].
    - intros n. by rewrite vset_ne.
    - intros n. by rewrite vset_ne.
    - intros i. rewrite vset_ne by (by destruct i). apply H3.
    - intros i m Hm. eapply vle_trans; [by apply (H4 i m)|]. apply vle_vset. lia.
  Qed.

  Lemma vle_eq_join V mv l : vle mv V -> vjoin V mv l = V l.
  Proof. intros H. unfold vjoin. specialize (H l). lia. Qed.

  Definition lastv (i : root) (w : wmem) : view := match i with RPool => w_poolv w | RTos => w_tosv w end.

  Lemma hist_last' i x w : hist i x w !! pred (length (hist i x w)) = Some (rword i x, lastv i w).
  Proof. apply hist_last. Qed.

  (** A step of a thread with a full view that reads the newest values. *)
  Lemma full_step x w V pc x' pc' :
    full x w V -> tstep c x pc false None false = TGo x' pc' ->
    exists ts w' V', rtstep c true x w V pc ts false None = RGo x' w' V' pc' /\ full x' w' V' /\ later x w x' w' /\
      vle V V' /\
      (forall old, saccess c true pc = XCas RTos old -> s_tos x = old -> w_tosv w' = V').
  Proof.
    intros (F1 & F2 & F3 & F4) Hs. unfold rtstep.
    destruct (saccess c true pc) as [|i a|i old|n|n|n] eqn:Ha.
    - (* no access *)
      pose proof (tstep_none _ _ _ _ _ Ha Hs) as ->. exists 0, w, V. rewrite Hs. simpl.
      do 2 (split; [done|]). split; [apply later_refl|]. split; [apply vle_refl|done].
    - (* load *)
      pose proof (tstep_load _ _ _ _ _ _ _ Ha Hs) as ->.
      set (ts := pred (length (hist i x w))). exists ts, w.
      set (mv := lastv i w). set (V' := vjoin (vset V (rloc i) ts) (if a then mv else v0)). exists V'.
      rewrite (hist_last' i x w : hist i x w !! ts = Some (rword i x, mv)). rewrite decide_True by apply F3. rewrite rword_see, Hs. simpl.
      assert (Hmv : vle mv V).
      { eapply (F4 i (rword i x, mv)). eapply elem_of_list_lookup_2. apply hist_last'. }
      assert (HV1 : vle V (vset V (rloc i) ts)) by (apply vle_vset, F3).
      assert (HV' : forall l, V' l = vset V (rloc i) ts l).
      { intros l. unfold V'. apply vle_eq_join. destruct a; [by eapply vle_trans|apply vle_v0]. }
      split; [done|]. split; [|split; [apply later_refl|split; [|done]]].
      + split; [|split; [|split]].
        * intros n. rewrite HV', vset_ne by (by destruct i). apply F1.
        * intros n. rewrite HV', vset_ne by (by destruct i). apply F2.
        * intros i'. rewrite HV'. destruct (decide (i' = i)) as [->|Hne]; [by rewrite vset_eq|].
          rewrite vset_ne by (by destruct i, i'). apply F3.
        * intros i' m Hm l. rewrite HV'. etransitivity; [by apply (F4 i' m)|]. apply HV1.
      + intros l. rewrite HV'. apply HV1.
    - (* compare-exchange *)
      set (ts := pred (length (hist i x w))). exists ts.
      set (mv := lastv i w). rewrite (hist_last' i x w : hist i x w !! ts = Some (rword i x, mv)). rewrite decide_True by apply F3.
      assert (Hmv : vle mv V).
      { eapply (F4 i (rword i x, mv)). eapply elem_of_list_lookup_2. apply hist_last'. }
      destruct (decide (rword i x = old)) as [Ho|Ho].
      + rewrite decide_True by (split; [symmetry; apply hist_len|done]). fold ts mv.
        set (V' := vset (vjoin V mv) (rloc i) (S ts)).
        exists (push_msg i x w V'), V'. rewrite Hs. simpl.
        assert (HV' : vle V V').
        { intros l. unfold V'. unfold vset. destruct (decide _) as [->|].
          - specialize (F3 i). fold ts in F3. lia.
          - unfold vjoin. lia. }
        assert (Hheap : s_heap x' = s_heap x /\ hist i x' (push_msg i x w V') = hist i x w ++ [(rword i x', V')] /\
          forall i', i' <> i -> hist i' x' (push_msg i x w V') = hist i' x w).
        { destruct i.
          - destruct (tstep_cas_pool c _ _ _ _ _ _ Ha Ho Hs) as [-> E]. split; [done|]. split; [done|].
            intros [] Hne; [done|]. simpl. unfold tos_hist. simpl. by rewrite E.
          - destruct (tstep_cas_tos c _ _ _ _ _ _ Ha Ho Hs) as [-> E]. split; [done|]. split; [done|].
            intros [] Hne; [|done]. simpl. unfold pool_hist. simpl. by rewrite E. }
        destruct Hheap as (Hh & Hhi & Hhn).
        split; [done|]. split; [|split; [|split; [done|]]].
        * split; [|split; [|split]].
          -- intros n. unfold V'. rewrite vset_ne by (by destruct i). rewrite vle_eq_join by done.
             rewrite F1. by destruct i.
          -- intros n. unfold V'. rewrite vset_ne by (by destruct i). rewrite vle_eq_join by done.
             rewrite F2. by destruct i.
          -- intros i'. destruct (decide (i' = i)) as [->|Hne].
             ++ rewrite Hhi, app_length. unfold V'. rewrite vset_eq. simpl. unfold ts. pose proof (hist_len i x w). lia.
             ++ rewrite Hhn by done. unfold V'. rewrite vset_ne by (by destruct i, i').
                rewrite vle_eq_join by done. apply F3.
          -- intros i' m Hm. destruct (decide (i' = i)) as [->|Hne].
             ++ rewrite Hhi in Hm. apply elem_of_app in Hm as [Hm|Hm].
                ** eapply vle_trans; [by apply (F4 i m)|done].
                ** apply elem_of_list_singleton in Hm as ->. apply vle_refl.
             ++ rewrite Hhn in Hm by done. eapply vle_trans; [by apply (F4 i' m)|done].
        * split.
          -- intros i'. destruct (decide (i' = i)) as [->|Hne]; [rewrite Hhi; by eexists|by rewrite Hhn].
          -- intros n nd Hn. exists nd. rewrite Hh. split; [done|]. unfold next_hist. by destruct i.
        * intros old' [= -> ->] _. done.
      + rewrite decide_False by (intros (_ & ? & _); done). fold ts mv.
        destruct (tstep_cas_fail _ _ _ _ _ _ _ Ha Ho Hs) as [-> Hs'].
        set (V' := vjoin (vset V (rloc i) ts) mv). exists w, V'. rewrite rword_see, Hs'. simpl.
        assert (HV1 : vle V (vset V (rloc i) ts)) by (apply vle_vset, F3).
        assert (HV' : forall l, V' l = vset V (rloc i) ts l).
        { intros l. unfold V'. apply vle_eq_join. by eapply vle_trans. }
        split; [done|]. split; [|split; [apply later_refl|split]].
        * split; [|split; [|split]].
          -- intros n. rewrite HV', vset_ne by (by destruct i). apply F1.
          -- intros n. rewrite HV', vset_ne by (by destruct i). apply F2.
          -- intros i'. rewrite HV'. destruct (decide (i' = i)) as [->|Hne]; [by rewrite vset_eq|].
             rewrite vset_ne by (by destruct i, i'). apply F3.
          -- intros i' m Hm l. rewrite HV'. etransitivity; [by apply (F4 i' m)|]. apply HV1.
        * intros l. rewrite HV'. apply HV1.
        * intros old' [= -> ->] Ho'. by destruct Ho.
    - (* read of a link *)
      pose proof (tstep_read c _ _ _ _ _ _ _ Ha Hs) as ->.
      destruct (s_heap x !! n) as [nd|] eqn:Hn.
      2:{ exfalso. destruct pc as [b v a'|v n'|top bot r|top bot old' r|top bot old' r|b vs|b vs k te a'|b vs k te n'
            |b vs k te n'|cur| |old'|old' nxt|n'|rev|rev old'|n' lst|n' lst nxt|n' k acc|n' k acc|n' k|n' d k|k| |r];
            simpl in Ha, Hs; try done; try (injection Ha as <-; by rewrite Hn in Hs).
          - destruct a' as [|old'|old' nxt]; simpl in Hs, Ha; [done| |done]. destruct (decide _); [done|].
            injection Ha as <-. by rewrite Hn in Hs.
          - destruct a' as [|old'|old' nxt]; simpl in Hs, Ha; [done| |done]. destruct (decide _); [done|].
            injection Ha as <-. by rewrite Hn in Hs.
          - by destruct d. }
      exists (length (w_next w n)), w, (vset V (LNext n) (length (w_next w n))).
      assert (Hl : next_hist nd w n !! length (w_next w n) = Some (nx nd).1).
      { unfold next_hist. rewrite lookup_app_r by lia. by rewrite Nat.sub_diag. }
      rewrite Hl, decide_True by (by rewrite F1). rewrite see_next_id by done. rewrite Hs. simpl.
      assert (HV : forall l, vset V (LNext n) (length (w_next w n)) l = V l).
      { intros l. unfold vset. destruct (decide _) as [->|]; [by rewrite F1|done]. }
      split; [done|]. split; [|split; [apply later_refl|split; [|done]]].
      + split; [|split; [|split]]; intros; rewrite ?HV; eauto. intros l. rewrite HV. by eapply F4.
      + intros l. by rewrite HV.
    - (* write of a link *)
      destruct (tstep_roots c x pc false None x' pc') as [Ht Hp]; [by rewrite Ha|done|].
      assert (exists nd, s_heap x !! n = Some nd) as [nd Hn].
      { destruct (s_heap x !! n) as [nd|] eqn:Hn; [by eauto|]. exfalso.
        destruct pc as [b v a'|v n'|top bot r|top bot old' r|top bot old' r|b vs|b vs k te a'|b vs k te n'
            |b vs k te n'|cur| |old'|old' nxt|n'|rev|rev old'|n' lst|n' lst nxt|n' k acc|n' k acc|n' k|n' d k|k| |r];
            simpl in Ha, Hs; try done; try (injection Ha as <-; by rewrite Hn in Hs).
        - destruct a' as [|old'|old' nxt]; simpl in Hs, Ha; [done| |done]. by destruct (decide _).
        - destruct a' as [|old'|old' nxt]; simpl in Hs, Ha; [done| |done]. by destruct (decide _).
        - destruct d; simpl in Hs, Ha; try done. injection Ha as <-. by rewrite Hn in Hs. }
      exists 0, (push_next w n (nx nd).1), (vset V (LNext n) (S (length (w_next w n)))).
      rewrite Hn, decide_True by apply F1. rewrite Hs. simpl.
      assert (Hhi : forall i, hist i x' (push_next w n (nx nd).1) = hist i x w).
      { intros []; simpl; unfold pool_hist, tos_hist; simpl; by rewrite ?Ht, ?Hp. }
      assert (HV : vle V (vset V (LNext n) (S (length (w_next w n))))) by (apply vle_vset; rewrite F1; lia).
      split; [done|]. split; [|split; [|split; [done|done]]].
      + split; [|split; [|split]].
        * intros m. simpl. unfold fupd. destruct (decide (m = n)) as [->|Hne].
          -- rewrite vset_eq, app_length. simpl. lia.
          -- rewrite vset_ne by congruence. apply F1.
        * intros m. rewrite vset_ne by done. apply F2.
        * intros i. rewrite Hhi, vset_ne by (by destruct i). apply F3.
        * intros i m Hm. rewrite Hhi in Hm. eapply vle_trans; [by apply (F4 i m)|done].
      + split; [intros i; by rewrite Hhi|]. intros m nd0 Hm.
        destruct (tstep_links _ _ _ _ _ _ _ Hs Hm) as (nd' & Hm' & Hw). exists nd'. split; [done|].
        unfold next_hist. simpl. unfold fupd. destruct (decide (m = n)) as [->|Hne].
        * rewrite Hn in Hm. injection Hm as <-. by eexists.
        * destruct Hw as [Hw|Hw]; [rewrite Ha in Hw; congruence|]. by rewrite Hw.
    - (* access to an element *)
      destruct (tstep_roots c x pc false None x' pc') as [Ht Hp]; [by rewrite Ha|done|].
      exists 0, (push_acc w n), (vset V (LData n) (S (w_acc w n))).
      rewrite decide_True by apply F2. rewrite Hs. simpl.
      assert (Hhi : forall i, hist i x' (push_acc w n) = hist i x w).
      { intros []; simpl; unfold pool_hist, tos_hist; simpl; by rewrite ?Ht, ?Hp. }
      assert (HV : vle V (vset V (LData n) (S (w_acc w n)))) by (apply vle_vset; rewrite F2; lia).
      split; [done|]. split; [|split; [|split; [done|done]]].
      + split; [|split; [|split]].
        * intros m. rewrite vset_ne by done. apply F1.
        * intros m. simpl. unfold fupd. destruct (decide (m = n)) as [->|Hne]; [by rewrite vset_eq|].
          rewrite vset_ne by congruence. apply F2.
        * intros i. rewrite Hhi, vset_ne by (by destruct i). apply F3.
        * intros i m Hm. rewrite Hhi in Hm. eapply vle_trans; [by apply (F4 i m)|done].
      + split; [intros i; by rewrite Hhi|]. intros m nd0 Hm.
        destruct (tstep_links _ _ _ _ _ _ _ Hs Hm) as (nd' & Hm' & Hw). exists nd'. split; [done|].
        unfold next_hist. simpl. destruct Hw as [Hw|Hw]; [rewrite Ha in Hw; congruence|]. by rewrite Hw.
  Qed.

  (** ** Executions *)

  Lemma rx_one s ch s' evs : rstep c true s ch = RNext s' evs -> rexec c true s evs s'.
  Proof. intros H. rewrite <- (app_nil_l evs). econstructor; [constructor|exact H]. Qed.

  Definition fulls (s : rstate) (t : nat) : Prop := full (r_x s) (r_w s) (r_view s t).
  Definition laters (s s' : rstate) : Prop := later (r_x s) (r_w s) (r_x s') (r_w s').

  Lemma rstep_run s t pc ts sp addr x w V pc' :
    r_pcs s !! t = Some pc -> rtstep c true (r_x s) (r_w s) (r_view s t) pc ts sp addr = RGo x w V pc' ->
    rstep c true s (RRun t ts sp addr) = RNext (RSt x w (<[t := pc']> (r_pcs s)) (set_view (r_view s) t V)) [].
  Proof. intros Hp Hs. cbn [rstep]. rewrite Hp. destruct pc; try (by rewrite Hs). discriminate Hs. Qed.

  (** [s'] is reached from [s] by steps of thread [t] alone; [pcs] says who is
      inside a call afterwards. *)
  Definition goes (t : nat) (s : rstate) (tr : list (sevent * view)) (s' : rstate) (x' : sshared)
      (pcs : gmap nat spc) : Prop :=
    rexec c true s tr s' /\ r_x s' = x' /\ r_pcs s' = pcs /\ (forall u, u <> t -> r_view s' u = r_view s u) /\
    fulls s' t /\ laters s s'.

  Lemma goes_trans t s tr s1 x1 pcs1 tr' s' x' pcs' :
    goes t s tr s1 x1 pcs1 -> goes t s1 tr' s' x' pcs' -> goes t s (tr ++ tr') s' x' pcs'.
  Proof.
    intros (H1 & H2 & H3 & H4 & H5 & H6) (I1 & I2 & I3 & I4 & I5 & I6).
    split; [by eapply rexec_trans|]. do 2 (split; [done|]). split; [|split; [done|by eapply later_trans]].
    intros u Hu. rewrite I4 by done. by apply H4.
  Qed.

  Lemma goes_step s t pc x' pc' :
    r_pcs s !! t = Some pc -> tstep c (r_x s) pc false None false = TGo x' pc' -> fulls s t ->
    exists s', goes t s [] s' x' (<[t := pc']> (r_pcs s)) /\
      (forall old, saccess c true pc = XCas RTos old -> s_tos (r_x s) = old -> w_tosv (r_w s') = r_view s' t).
  Proof.
    intros Hp Hs Hf. destruct (full_step _ _ _ _ _ _ Hf Hs) as (ts & w1 & V1 & Hr & Hf1 & Hl1 & _ & Hc).
    exists (RSt x' w1 (<[t := pc']> (r_pcs s)) (set_view (r_view s) t V1)).
    assert (E : set_view (r_view s) t V1 t = V1) by (unfold set_view; by rewrite decide_True).
    split; [|simpl; by rewrite E].
    split; [eapply rx_one; by eapply rstep_run|]. do 2 (split; [done|]). split; [|split; [|done]].
    - intros u Hu. simpl. unfold set_view. by rewrite decide_False.
    - unfold fulls. simpl. by rewrite E.
  Qed.

  Lemma goes_run x pc k x' pc' :
    tsteps c x pc k x' pc' -> forall s t, r_x s = x -> r_pcs s !! t = Some pc -> fulls s t ->
    exists s', goes t s [] s' x' (<[t := pc']> (r_pcs s)).
  Proof.
    induction 1 as [x pc|x pc x1 pc1 k x' pc' Hst H IH]; intros s t Hx Hp Hf.
    - exists s. split; [constructor|]. split; [done|]. split; [symmetry; by apply insert_id|].
      split; [done|]. split; [done|apply later_refl].
    - subst x. destruct (goes_step s t pc x1 pc1 Hp Hst Hf) as (s1 & Hg & _). pose proof Hg as (_ & Hx1 & Hp1 & _ & Hf1 & _).
      destruct (IH s1 t Hx1) as (s' & Hg'); [by rewrite Hp1, lookup_insert|done|].
      exists s'. rewrite Hp1, insert_insert in Hg'. exact (goes_trans _ _ _ _ _ _ _ _ _ _ Hg Hg').
  Qed.

  Lemma goes_inv s t o pc :
    r_pcs s !! t = None -> sstart c o = Some pc -> fulls s t ->
    exists V s', goes t s [(Inv t o, V)] s' (r_x s) (<[t := pc]> (r_pcs s)) /\ r_w s' = r_w s.
  Proof.
    intros Hp Hs Hf. exists (tick t (r_view s t)).
    exists (RSt (r_x s) (r_w s) (<[t := pc]> (r_pcs s)) (set_view (r_view s) t (tick t (r_view s t)))).
    split; [|done]. split; [|split; [done|split; [done|split; [|split]]]].
    - apply (rx_one _ (RInvoke t o)). cbn [rstep]. by rewrite Hp, Hs.
    - intros u Hu. simpl. unfold set_view. by rewrite decide_False.
    - unfold fulls. simpl. unfold set_view. rewrite decide_True by done. by apply full_tick.
    - apply later_refl.
  Qed.

  Lemma goes_ret s t r :
    r_pcs s !! t = Some (PcRet r) -> fulls s t ->
    exists V s', goes t s [(Res t r, V)] s' (r_x s) (delete t (r_pcs s)) /\ r_w s' = r_w s.
  Proof.
    intros Hp Hf. exists (tick t (r_view s t)).
    exists (RSt (r_x s) (r_w s) (delete t (r_pcs s)) (set_view (r_view s) t (tick t (r_view s t)))).
    split; [|done]. split; [|split; [done|split; [done|split; [|split]]]].
    - apply (rx_one _ (RRun t 0 false None)). cbn [rstep]. by rewrite Hp.
    - intros u Hu. simpl. unfold set_view. by rewrite decide_False.
    - unfold fulls. simpl. unfold set_view. rewrite decide_True by done. by apply full_tick.
    - apply later_refl.
  Qed.

  (** A whole call. *)
  Lemma goes_call s t o pc k x' r :
    r_pcs s !! t = None -> sstart c o = Some pc -> tsteps c (r_x s) pc k x' (PcRet r) -> fulls s t ->
    exists V V' s', goes t s [(Inv t o, V); (Res t r, V')] s' x' (r_pcs s).
  Proof.
    intros Hp Ho Ht Hf.
    destruct (goes_inv s t o pc Hp Ho Hf) as (V & s1 & G1 & _). pose proof G1 as (_ & X1 & P1 & _ & F1 & _).
    destruct (goes_run _ _ _ _ _ Ht s1 t X1) as (s2 & G2); [by rewrite P1, lookup_insert|done|].
    pose proof G2 as (_ & X2 & P2 & _ & F2 & _).
    destruct (goes_ret s2 t r) as (V' & s3 & G3 & _); [by rewrite P2, lookup_insert|done|].
    exists V, V', s3. pose proof (goes_trans _ _ _ _ _ _ _ _ _ _ (goes_trans _ _ _ _ _ _ _ _ _ _ G1 G2) G3) as G.
    rewrite X2, P2, P1, insert_insert, delete_insert in G by done. exact G.
  Qed.

  (** A whole call that ends with an update of [tos]: the view of the new value
      is full. *)
  Lemma goes_call_tos s t o pc k x1 pc1 old x' r :
    r_pcs s !! t = None -> sstart c o = Some pc -> tsteps c (r_x s) pc k x1 pc1 ->
    saccess c true pc1 = XCas RTos old -> s_tos x1 = old -> tstep c x1 pc1 false None false = TGo x' (PcRet r) ->
    fulls s t ->
    exists V V' s', goes t s [(Inv t o, V); (Res t r, V')] s' x' (r_pcs s) /\ full (r_x s') (r_w s') (w_tosv (r_w s')).
  Proof.
    intros Hp Ho Ht Ha Hold Hst Hf.
    destruct (goes_inv s t o pc Hp Ho Hf) as (V & s1 & G1 & _). pose proof G1 as (_ & X1 & P1 & _ & F1 & _).
    destruct (goes_run _ _ _ _ _ Ht s1 t X1) as (s2 & G2); [by rewrite P1, lookup_insert|done|].
    pose proof G2 as (_ & X2 & P2 & _ & F2 & _).
    destruct (goes_step s2 t pc1 x' (PcRet r)) as (s3 & G3 & Hc); [by rewrite P2, lookup_insert|by rewrite X2|done|].
    pose proof G3 as (_ & X3 & P3 & _ & F3 & _).
    destruct (goes_ret s3 t r) as (V' & s4 & G4 & W4); [by rewrite P3, lookup_insert|done|].
    exists V, V', s4. split.
    - pose proof (goes_trans _ _ _ _ _ _ _ _ _ _ (goes_trans _ _ _ _ _ _ _ _ _ _
        (goes_trans _ _ _ _ _ _ _ _ _ _ G1 G2) G3) G4) as G.
      rewrite X3, P3, P2, P1, !insert_insert, delete_insert in G by done. exact G.
    - pose proof G4 as (_ & X4 & _). rewrite W4, X4. rewrite (Hc old Ha) by by rewrite X2. exact F3.
  Qed.
End solo.
