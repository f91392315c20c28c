(** Solo runs of the queue with tags modulo M: lemmas for C60. *)
From stdpp Require Import gmap list numbers.
From Verif Require Import Lin LiveSum PoolModel QueueModel QueueObs QueueLive QueueAlone QueueWrapObs QueueWrapMain.
Set Default Proof Using "Type".

Section solo.
  Context (c : cfg) (M : N) (Hc : c_tagmod c = Some M) (HM : (2 <= M)%N).

  Lemma count_step k s t s' evs t' l :
    qstep c s (Run t false None false) = QNext s' evs -> qcount k s (Run t false None false) s' t' l <= S (k t' l).
  Proof. intros _. clear HM. unfold qcount. destruct (decide _); lia. Qed.

  Lemma qwat_step ns hist s k t s' evs :
    qwat c M ns hist s k -> qstep c s (Run t false None false) = QNext s' evs ->
    (forall t' l, is_Some (q_pcs s' !! t') -> (N.of_nat (qcount k s (Run t false None false) s' t' l) < M)%N) ->
    qwat c M ns (hist ++ evs) s' (qcount k s (Run t false None false) s').
  Proof.
    intros (a & s0 & H1 & H2 & H3 & H4 & H5) Hs Hk. exists a, s0. do 4 (split; [done|]). by econstructor.
  Qed.

  Lemma w_solo_or n t ns hist : forall s k,
    qwat c M ns hist s k -> is_Some (q_pcs s !! t) ->
    (forall t' l, is_Some (q_pcs s !! t') -> (N.of_nat (k t' l + n) < M)%N) ->
    (exists j s' r k', j <= n /\ qrun c s (replicate j (Run t false None false)) = Some ([Res t r], s') /\
       q_pcs s' = delete t (q_pcs s) /\ qwat c M ns (hist ++ [Res t r]) s' k') \/
    exists s', qwcont c M s k (replicate n (Run t false None false)) [] s'.
  Proof using Hc HM.
    induction n as [|n IH]; intros s k Hre Hin Hk; [right; eexists; by constructor|].
    destruct (w_enabled c M Hc HM ns hist s t) as (s1 & e1 & Hs); [|done|].
    { destruct Hre as (a & s0 & H1 & H2 & H3 & H4 & H5). by exists a, s0, k. }
    assert (Hp : forall t', is_Some (q_pcs s1 !! t') -> is_Some (q_pcs s !! t')).
    { intros t'. destruct (run_pcs _ _ _ _ _ Hs) as [(r & _ & ->)|[_ [pc ->]]].
      - destruct (decide (t = t')) as [->|]; [rewrite lookup_delete|rewrite lookup_delete_ne by done]; [by intros [??]|done].
      - destruct (decide (t = t')) as [->|]; [done|by rewrite lookup_insert_ne]. }
    set (k1 := qcount k s (Run t false None false) s1).
    assert (Hk1 : forall t' l, is_Some (q_pcs s1 !! t') -> (N.of_nat (k1 t' l + n) < M)%N).
    { intros t' l Ht'. specialize (Hk t' l (Hp _ Ht')). pose proof (count_step k _ _ _ _ t' l Hs) as Hcs.
      fold k1 in Hcs. lia. }
    assert (Hk0 : forall t' l, is_Some (q_pcs s1 !! t') -> (N.of_nat (k1 t' l) < M)%N).
    { intros t' l Ht'. specialize (Hk1 t' l Ht'). lia. }
    pose proof (qwat_step _ _ _ _ _ _ _ Hre Hs Hk0) as Hre1.
    destruct (run_pcs _ _ _ _ _ Hs) as [(r & -> & Hd)|[-> [pc Hd]]].
    - left. exists 1, s1, r, k1. split; [lia|]. split; [|done]. cbn [replicate qrun]. by rewrite Hs.
    - rewrite app_nil_r in Hre1.
      destruct (IH s1 k1 Hre1) as [(j & s' & r & k' & Hl & Hr & He & Hre')|[s' Hr]]; [|done| |].
      { rewrite Hd, lookup_insert. eauto. }
      + left. exists (S j), s', r, k'. split; [lia|]. split; [cbn [replicate qrun]; by rewrite Hs, Hr|].
        split; [|done]. by rewrite He, Hd, delete_insert_delete.
      + right. exists s'. cbn [replicate]. change (@nil qevent) with ([] ++ @nil qevent). by econstructor.
  Qed.

  Lemma w_solo_main ns hist s k t :
    qwat c M ns hist s k -> is_Some (q_pcs s !! t) ->
    (forall t' l, is_Some (q_pcs s !! t') ->
       (N.of_nat (k t' l + S (q_bound c (size (q_pcs s)) (msum q_work (q_pcs s)))) < M)%N) ->
    exists j s' r k', j <= S (q_bound c (size (q_pcs s)) (msum q_work (q_pcs s))) /\
      qrun c s (replicate j (Run t false None false)) = Some ([Res t r], s') /\
      q_pcs s' = delete t (q_pcs s) /\ qwat c M ns (hist ++ [Res t r]) s' k'.
  Proof using Hc HM.
    intros Hre Hin Hk. set (n := S _) in *.
    destruct (w_solo_or n t ns hist s k Hre Hin Hk) as [?|[s' Hr]]; [done|]. exfalso.
    pose proof (w_live c M Hc HM ns hist s k (replicate n (Run t false None false)) [] s' Hre) as H.
    assert (Hi : q_invoked (replicate n (Run t false None false)) = []).
    { clear. by induction n. }
    rewrite Hi in H. cbn [length fmap list_fmap sum_list foldr plus] in H.
    rewrite replicate_length, ?Nat.add_0_r in H. apply (Nat.lt_irrefl n).
    eapply Nat.le_lt_trans; [apply H; [|done|]|subst n; lia].
    - apply list.Forall_forall. intros ch Hch. apply elem_of_replicate_inv in Hch. by subst ch.
    - intros t' r. apply not_elem_of_nil.
  Qed.
End solo.
