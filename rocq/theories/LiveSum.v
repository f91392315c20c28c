(** * Sums over the threads inside a call *)
From stdpp Require Import gmap list numbers.

Set Default Proof Using "Type".

(** The sum of [f] over the values of a finite map. *)
Definition msum `{Countable K} {A} (f : A -> nat) (m : gmap K A) : nat := sum_list_with (fun p => f p.2) (map_to_list m).

Section msum.
  Context `{Countable K} {A : Type}.
  Implicit Types (f g : A -> nat) (m : gmap K A).

  Lemma sum_perm {B} (f : B -> nat) l1 l2 : l1 ≡ₚ l2 -> sum_list_with f l1 = sum_list_with f l2.
  Proof. induction 1; simpl; lia. Qed.

  Lemma msum_insert_new f m t a : m !! t = None -> msum f (<[t := a]> m) = f a + msum f m.
  Proof. intros Hm. unfold msum. by rewrite (sum_perm _ _ _ (map_to_list_insert m t a Hm)). Qed.

  Lemma msum_insert f m t a a' : m !! t = Some a -> msum f (<[t := a']> m) + f a = msum f m + f a'.
  Proof.
    intros Hm. rewrite <- (insert_delete m t a Hm) at 2. rewrite <- insert_delete_insert.
    rewrite !msum_insert_new by apply lookup_delete. lia.
  Qed.

  Lemma msum_ext f g m : (forall t a, m !! t = Some a -> f a = g a) -> msum f m = msum g m.
  Proof.
    revert m. refine (map_ind _ _ _); [done|]. intros t a m Hm IH Hf.
    rewrite !msum_insert_new by done. rewrite (Hf t a) by apply lookup_insert. f_equal.
    apply IH. intros t' a' H'. apply (Hf t'). rewrite lookup_insert_ne; [done|]. congruence.
  Qed.

  Lemma msum_le f m l : (forall t a, m !! t = Some a -> f a <= l) -> msum f m <= size m * l.
  Proof.
    revert m. refine (map_ind _ _ _); [done|]. intros t a m Hm IH Hf.
    rewrite msum_insert_new, map_size_insert_None by done.
    assert (f a <= l) by (apply (Hf t); apply lookup_insert).
    assert (msum f m <= size m * l); [|lia].
    apply IH. intros t' a' H'. apply (Hf t'). rewrite lookup_insert_ne; [done|]. congruence.
  Qed.
End msum.
