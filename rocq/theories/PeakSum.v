(** * Counting lemmas used for the number of nodes *)
From stdpp Require Import gmap list numbers.
From Verif Require Import LiveSum.

Set Default Proof Using "Type".

Lemma msum_delete `{Countable K} {A} (f : A -> nat) (m : gmap K A) t a :
  m !! t = Some a -> msum f (delete t m) + f a = msum f m.
Proof.
  intros Hm. rewrite <- (insert_delete m t a Hm) at 2.
  rewrite msum_insert_new by apply lookup_delete. lia.
Qed.

Lemma size_le {A} (h : gmap N A) (l : list N) : (forall n, is_Some (h !! n) -> n ∈ l) -> size h <= length l.
Proof.
  intros Hl. rewrite <- size_dom. transitivity (size (list_to_set (C := gset N) l)).
  - apply subseteq_size. intros n Hn. apply elem_of_list_to_set, Hl. by apply elem_of_dom.
  - clear Hl. induction l as [|n l IH]; [by rewrite list_to_set_nil, size_empty|].
    rewrite list_to_set_cons, size_union_alt, size_singleton. cbn [length].
    assert (size (list_to_set l ∖ {[n]} : gset N) <= size (list_to_set l : gset N)).
    { apply subseteq_size. set_solver. }
    lia.
Qed.
