(** * Histories in which tags grow by at most one *)
From stdpp Require Import gmap list numbers.
From Verif Require Import PoolModel WrapPool RaTags.

Definition stepwise (l : list tagged) : Prop :=
  forall j (a b : tagged), l !! j = Some a -> l !! S j = Some b -> (b.2 = a.2 \/ b.2 = a.2 + 1)%N.

Lemma stepwise_snoc (l : list tagged) (a b : tagged) : stepwise l -> list.last l = Some a -> (b.2 = a.2 \/ b.2 = a.2 + 1)%N -> stepwise (l ++ [b]).
Proof.
  intros Hl Ha Hb j y z Hy Hz. destruct (decide (S j < length l)) as [Hj|Hj].
  - rewrite lookup_app_l in Hy by lia. rewrite lookup_app_l in Hz by lia. by apply (Hl j).
  - assert (Hj' : S j = length l).
    { apply lookup_lt_Some in Hz. rewrite app_length in Hz. simpl in Hz.
      destruct (decide (S j = length l)); [done|]. lia. }
    rewrite lookup_app_l in Hy by lia. rewrite lookup_app_r in Hz by lia.
    replace (S j - length l) with 0 in Hz by lia. injection Hz as <-.
    rewrite last_lookup in Ha. replace (pred (length l)) with j in Ha by lia. by simplify_eq.
Qed.

Lemma stepwise_updates M (l : list tagged) (a z : tagged) :
  (2 <= M)%N -> stepwise (a :: l) -> list.last (a :: l) = Some z ->
  (a.2 <= z.2)%N /\ (z.2 <= a.2 + N.of_nat (tag_updates (mt M <$> (a :: l))))%N.
Proof.
  intros HM. revert a. induction l as [|b l IH]; intros a Hs Hz.
  - simpl in Hz. injection Hz as <-. lia.
  - destruct (IH b) as [H1 H2].
    + intros j y y' Hy Hy'. by apply (Hs (S j)).
    + done.
    + assert (Hab : (b.2 = a.2 \/ b.2 = a.2 + 1)%N) by by apply (Hs 0 a b).
      change (mt M <$> a :: b :: l) with (mt M a :: mt M b :: (mt M <$> l)).
      change (mt M <$> b :: l) with (mt M b :: (mt M <$> l)) in H2.
      remember (mt M b :: (mt M <$> l)) as l' eqn:Hl'. cbn [tag_updates]. rewrite Hl'. rewrite Hl' in H2.
      destruct (decide _) as [He|He]; [|lia].
      destruct Hab as [Hab|Hab]; [lia|].
      exfalso. unfold mt in He. simpl in He. rewrite Hab in He.
      assert (Hc : (clear M (0, a.2 + 1) (0, a.2))%N) by (apply clear_near; simpl; lia).
      unfold clear, mt in Hc. simpl in Hc. rewrite He in Hc. specialize (Hc eq_refl). injection Hc. lia.
Qed.

Lemma stepwise_near M (l : list tagged) j (a z : tagged) :
  (2 <= M)%N -> stepwise l -> l !! j = Some a -> list.last l = Some z ->
  (N.of_nat (tag_updates (drop j (mt M <$> l))) < M)%N -> clear M z a.
Proof.
  intros HM Hs Ha Hz Hu. rewrite <- fmap_drop in Hu. rewrite (drop_S _ _ _ Ha) in Hu.
  destruct (stepwise_updates M (drop (S j) l) a z) as [H1 H2]; [done| | |apply clear_near; lia].
  - rewrite <- (drop_S _ _ _ Ha). intros i y y' Hy Hy'. rewrite lookup_drop in Hy, Hy'.
    apply (Hs (j + i)); [done|]. by rewrite <- Nat.add_succ_r.
  - rewrite <- (drop_S _ _ _ Ha). rewrite last_lookup, drop_length, lookup_drop.
    apply lookup_lt_Some in Ha. rewrite last_lookup in Hz. rewrite <- Hz. f_equal. lia.
Qed.

Lemma tag_updates_app l1 l2 : tag_updates l1 <= tag_updates (l1 ++ l2).
Proof.
  induction l1 as [|a l1 IH]; [simpl; lia|]. destruct l1 as [|b l1]; [simpl; lia|].
  change ((a :: b :: l1) ++ l2) with (a :: b :: (l1 ++ l2)). change ((b :: l1) ++ l2) with (b :: (l1 ++ l2)) in IH.
  cbn [tag_updates] in *. destruct (decide _); lia.
Qed.

(** The same for a value that is not the last one. *)
Lemma stepwise_near_at M (l : list tagged) j k (a z : tagged) :
  (2 <= M)%N -> stepwise l -> l !! j = Some a -> l !! k = Some z -> j <= k ->
  (N.of_nat (tag_updates (drop j (mt M <$> l))) < M)%N -> clear M z a.
Proof.
  intros HM Hs Ha Hz Hjk Hu. apply (stepwise_near M (take (S k) l) j); [done| | | |].
  - intros i y y' Hy Hy'. apply lookup_take_Some in Hy as [Hy _]. apply lookup_take_Some in Hy' as [Hy' _]. by apply (Hs i).
  - rewrite lookup_take by lia. done.
  - pose proof (lookup_lt_Some _ _ _ Hz). rewrite last_lookup, take_length, lookup_take by lia.
    replace (pred (S k `min` length l)) with k by lia. done.
  - pose proof (tag_updates_app (drop j (mt M <$> take (S k) l)) (drop (S k) (mt M <$> l))) as Hle.
    pose proof (lookup_lt_Some _ _ _ Hz).
    rewrite fmap_take in Hle.
    replace (drop j (take (S k) (mt M <$> l)) ++ drop (S k) (mt M <$> l)) with (drop j (mt M <$> l)) in Hle.
    + rewrite fmap_take. lia.
    + rewrite <- (take_drop (S k) (mt M <$> l)) at 1. rewrite drop_app_le; [done|].
      rewrite take_length, fmap_length. lia.
Qed.
