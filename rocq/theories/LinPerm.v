(** * Changing the specification; the sequential orders of a history whose calls have all returned *)
From stdpp Require Import gmap list numbers.
From Verif Require Import Lin.

(** Runs of one specification as runs of another. *)
Lemma lruns_map {op ret st st'} (spec : st -> op -> ret -> st -> Prop) (spec' : st' -> op -> ret -> st' -> Prop)
    (f : st -> st') ph0 a0 l ph a :
  (forall a o r a', spec a o r a' -> spec' (f a) o r (f a')) ->
  lruns spec ph0 a0 l ph a -> lruns spec' ph0 (f a0) l ph (f a).
Proof. intros Hs. induction 1; econstructor; eauto. Qed.

Section perm.
  Context {op ret st : Type} (init : st) (spec : st -> op -> ret -> st -> Prop).

  (** Every call of [h] is in [L], with its result. *)
  Definition all_calls (h : list (event op ret)) (L : list (nat * op * ret)) : Prop :=
    NoDup L.*1.*1 /\
    (forall i t o, h !! i = Some (Inv t o) -> exists r, (i, o, r) ∈ L) /\
    (forall i o r, (i, o, r) ∈ L -> exists j t, call_returns h i j t o r).

  Lemma nodup_fst (S : list (nat * op * ret)) i o r o' r' :
    NoDup S.*1.*1 -> (i, o, r) ∈ S -> (i, o', r') ∈ S -> (i, o, r) = (i, o', r').
  Proof.
    intros Hnd H1 H2. apply elem_of_list_lookup in H1 as [a Ha]. apply elem_of_list_lookup in H2 as [b Hb].
    enough (a = b) as -> by congruence.
    eapply (NoDup_lookup _ a b i Hnd); rewrite !list_lookup_fmap; [by rewrite Ha|by rewrite Hb].
  Qed.

  Lemma fst_nodup (S : list (nat * op * ret)) : NoDup S.*1.*1 -> NoDup S.
  Proof. intros H. by do 2 eapply NoDup_fmap_1. Qed.

  (** The sequential orders are permutations of the calls. *)
  Lemma hw_orders h L :
    all_calls h L -> hw_linearizable init spec h ->
    exists S b, S ∈ permutations L /\ legal spec init S b /\
      forall S1 x S2 y S3 j t o r,
        S = S1 ++ x :: S2 ++ y :: S3 -> call_returns h y.1.1 j t o r -> x.1.1 <= j.
  Proof.
    intros (HL1 & HL2 & HL3) (S & b & HS1 & HS2 & HS3 & HS4 & HS5). exists S, b.
    split; [|split; [done|]].
    - apply permutations_Permutation, NoDup_Permutation; [by apply fst_nodup|by apply fst_nodup|].
      assert (Hsub : forall x, x ∈ L -> x ∈ S).
      { intros [[i o] r] Hx. destruct (HL3 _ _ _ Hx) as (j & t & Hc). by eapply HS3. }
      intros [[i o] r]. split; [apply Hsub|]. intros Hx. destruct (HS2 _ _ _ Hx) as [t Ht].
      destruct (HL2 _ _ _ Ht) as [r' Hr']. by rewrite (nodup_fst S i o r o r' HS1 Hx (Hsub _ Hr')).
    - intros S1 x S2 y S3 j t o r HS Hc. by eapply HS4.
  Qed.
End perm.
