(** Solo runs of the stack with tags modulo M: lemmas for C60. *)
From stdpp Require Import gmap list numbers.
From Verif Require Import Lin LiveSum PoolModel StackModel StackObs StackLive StackAlone StackWrapObs StackWrapMain.
Set Default Proof Using "Type".

Section solo.
  Context (c : cfg) (M : N) (Hc : c_tagmod c = Some M) (HM : (2 <= M)%N).

  Lemma count_step k s t s' evs t' l :
    sstep c s (Run t false None false) = SNext s' evs -> scount k s (Run t false None false) s' t' l <= S (k t' l).
  Proof. intros _. clear HM. unfold scount. destruct (decide _); lia. Qed.

  Lemma swat_step ns hist s k t s' evs :
    swat c M ns hist s k -> sstep c s (Run t false None false) = SNext s' evs ->
    (forall t' l, is_Some (s_pcs s' !! t') -> (N.of_nat (scount k s (Run t false None false) s' t' l) < M)%N) ->
    swat c M ns (hist ++ evs) s' (scount k s (Run t false None false) s').
  Proof.
    intros (H1 & H2 & H3 & H5) Hs Hk. do 2 (split; [done|]). split; [|by econstructor].
    intros t' o Hi. apply elem_of_app in Hi as [Hi|Hi]; [by eapply H3|].
    destruct (run_pcs _ _ _ _ _ Hs) as [(r & -> & _)|[-> _]].
    - apply elem_of_list_singleton in Hi. discriminate Hi.
    - by apply not_elem_of_nil in Hi.
  Qed.

  Lemma w_solo_or n t ns hist : forall s k,
    swat c M ns hist s k -> is_Some (s_pcs s !! t) ->
    (forall t' l, is_Some (s_pcs s !! t') -> (N.of_nat (k t' l + n) < M)%N) ->
    (exists j s' r k', j <= n /\ srun c s (replicate j (Run t false None false)) = Some ([Res t r], s') /\
       s_pcs s' = delete t (s_pcs s) /\ swat c M ns (hist ++ [Res t r]) s' k') \/
    exists s', swcont c M s k (replicate n (Run t false None false)) [] s'.
  Proof using Hc HM.
    induction n as [|n IH]; intros s k Hre Hin Hk; [right; eexists; by constructor|].
    destruct (w_enabled c M Hc HM ns hist s t) as (s1 & e1 & Hs); [|done|].
    { destruct Hre as (H1 & H2 & H3 & H5). do 3 (split; [done|]). by exists k. }
    assert (Hp : forall t', is_Some (s_pcs s1 !! t') -> is_Some (s_pcs s !! t')).
    { intros t'. destruct (run_pcs _ _ _ _ _ Hs) as [(r & _ & ->)|[_ [pc ->]]].
      - destruct (decide (t = t')) as [->|]; [rewrite lookup_delete|rewrite lookup_delete_ne by done]; [by intros [??]|done].
      - destruct (decide (t = t')) as [->|]; [done|by rewrite lookup_insert_ne]. }
    set (k1 := scount k s (Run t false None false) s1).
    assert (Hk1 : forall t' l, is_Some (s_pcs s1 !! t') -> (N.of_nat (k1 t' l + n) < M)%N).
    { intros t' l Ht'. specialize (Hk t' l (Hp _ Ht')). pose proof (count_step k _ _ _ _ t' l Hs) as Hcs.
      fold k1 in Hcs. lia. }
    assert (Hk0 : forall t' l, is_Some (s_pcs s1 !! t') -> (N.of_nat (k1 t' l) < M)%N).
    { intros t' l Ht'. specialize (Hk1 t' l Ht'). lia. }
    pose proof (swat_step _ _ _ _ _ _ _ Hre Hs Hk0) as Hre1.
    destruct (run_pcs _ _ _ _ _ Hs) as [(r & -> & Hd)|[-> [pc Hd]]].
    - left. exists 1, s1, r, k1. split; [lia|]. split; [|done]. cbn [replicate srun]. by rewrite Hs.
    - rewrite app_nil_r in Hre1.
      destruct (IH s1 k1 Hre1) as [(j & s' & r & k' & Hl & Hr & He & Hre')|[s' Hr]]; [|done| |].
      { rewrite Hd, lookup_insert. eauto. }
      + left. exists (S j), s', r, k'. split; [lia|]. split; [cbn [replicate srun]; by rewrite Hs, Hr|].
        split; [|done]. by rewrite He, Hd, delete_insert_delete.
      + right. exists s'. cbn [replicate]. change (@nil sevent) with ([] ++ @nil sevent). by econstructor.
  Qed.

  Lemma w_solo_main ns hist s k t :
    swat c M ns hist s k -> is_Some (s_pcs s !! t) ->
    (forall t' l, is_Some (s_pcs s !! t') ->
       (N.of_nat (k t' l + S (s_bound (size (s_pcs s)) (2 * s_alive s + msum s_work (s_pcs s)) (s_alive s + msum s_elems (s_pcs s)))) < M)%N) ->
    exists j s' r k', j <= S (s_bound (size (s_pcs s)) (2 * s_alive s + msum s_work (s_pcs s)) (s_alive s + msum s_elems (s_pcs s))) /\
      srun c s (replicate j (Run t false None false)) = Some ([Res t r], s') /\
      s_pcs s' = delete t (s_pcs s) /\ swat c M ns (hist ++ [Res t r]) s' k'.
  Proof using Hc HM.
    intros Hre Hin Hk. set (n := S _) in *.
    destruct (w_solo_or n t ns hist s k Hre Hin Hk) as [?|[s' Hr]]; [done|]. exfalso.
    pose proof (w_live c M Hc HM ns hist s k (replicate n (Run t false None false)) [] s' Hre) as H.
    assert (Hi : s_invoked (replicate n (Run t false None false)) = []).
    { clear. by induction n. }
    rewrite Hi in H. cbn [length fmap list_fmap sum_list foldr plus] in H.
    rewrite replicate_length, ?Nat.add_0_r in H. apply (Nat.lt_irrefl n).
    eapply Nat.le_lt_trans; [apply H; [|done|]|subst n; lia].
    - apply list.Forall_forall. intros ch Hch. apply elem_of_replicate_inv in Hch. by subst ch.
    - intros t' r. apply not_elem_of_nil.
  Qed.
End solo.
