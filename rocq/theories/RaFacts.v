(** * Facts about views *)
From stdpp Require Import gmap list numbers.
From Verif Require Import RaMem.

Lemma vle_refl v : vle v v.
Proof. intros l. lia. Qed.
Lemma vle_trans u v w : vle u v -> vle v w -> vle u w.
Proof. intros H1 H2 l. specialize (H1 l). specialize (H2 l). lia. Qed.
Lemma vle_join_l v w : vle v (vjoin v w).
Proof. intros l. unfold vjoin. lia. Qed.
Lemma vle_join_r v w : vle w (vjoin v w).
Proof. intros l. unfold vjoin. lia. Qed.
Lemma vle_v0 v : vle v0 v.
Proof. intros l. unfold v0. lia. Qed.
Lemma vset_eq v l k : vset v l k l = k.
Proof. unfold vset. by rewrite decide_True. Qed.
Lemma vset_ne v l k l' : l' <> l -> vset v l k l' = v l'.
Proof. intros. unfold vset. by rewrite decide_False. Qed.
Lemma vle_vset v l k : v l <= k -> vle v (vset v l k).
Proof.
  intros Hk l'. destruct (decide (l' = l)) as [->|Hne]; [by rewrite vset_eq|by rewrite vset_ne].
Qed.
Lemma vset_le v w l k : vle v w -> k <= w l -> vle (vset v l k) w.
Proof.
  intros Hv Hk l'. destruct (decide (l' = l)) as [->|Hne]; [by rewrite vset_eq|by rewrite vset_ne].
Qed.
Lemma vle_tick t v : vle v (tick t v).
Proof. apply vle_vset. lia. Qed.
