(** * Facts about histories and their linearizations *)
From stdpp Require Import gmap list numbers.
From Verif Require Import Lin LinObs.

(** The calls that have taken effect, in that order. *)
Fixpoint lins {op ret} (l : list (levent op ret)) : list (op * ret) :=
  match l with
  | [] => []
  | Ev _ :: l => lins l
  | Lin _ o r :: l => (o, r) :: lins l
  end.

Lemma lins_app {op ret} (l1 l2 : list (levent op ret)) : lins (l1 ++ l2) = lins l1 ++ lins l2.
Proof. induction l1 as [|[e|t o r] l1 IH]; simpl; congruence. Qed.

(** Those of them that have not returned. *)
Definition phop {op ret} (p : phase op ret) : op :=
  match p with Pending o | Done o _ => o end.
Definition phdone {op ret} (p : phase op ret) : option (op * ret) :=
  match p with Pending _ => None | Done o r => Some (o, r) end.
Definition dones {op ret} (ph : gmap nat (phase op ret)) : list (op * ret) :=
  omap phdone (map_to_list ph).*2.

Section facts.
  Context {op ret st : Type}.
  Context (init : st) (spec : st -> op -> ret -> st -> Prop).

  Lemma dones_fresh (ph : gmap nat (phase op ret)) t p :
    ph !! t = None -> dones (<[t := p]> ph) ≡ₚ option_list (phdone p) ++ dones ph.
  Proof.
    intros H. unfold dones. rewrite (map_to_list_insert _ _ _ H). simpl.
    destruct (phdone p); done.
  Qed.

  Lemma dones_delete (ph : gmap nat (phase op ret)) t p :
    ph !! t = Some p -> dones ph ≡ₚ option_list (phdone p) ++ dones (delete t ph).
  Proof.
    intros H. rewrite <- (insert_delete _ _ _ H) at 1. rewrite dones_fresh; [done|].
    apply lookup_delete.
  Qed.

  Lemma calls_snoc (h : list (event op ret)) e : calls (h ++ [e]) = completed_step (calls h) e.
  Proof. unfold calls. by rewrite foldl_app. Qed.

  (** The calls that have taken effect are the completed ones and those that
      are about to return. *)
  Lemma lruns_completed l ph a :
    lruns spec ∅ init l ph a ->
    (calls (erase l)).1 = phop <$> ph /\ lins l ≡ₚ completed (erase l) ++ dones ph.
  Proof.
    intros H. unfold completed.
    induction H as [|l ph a t o H [IH1 IH2] Hph|l ph a t o r a' H [IH1 IH2] Hph Hs|l ph a t o r H [IH1 IH2] Hph];
      rewrite ?erase_app, ?lins_app; simpl; rewrite ?app_nil_r.
    - split; [by rewrite fmap_empty|]. unfold dones. by rewrite map_to_list_empty.
    - rewrite calls_snoc. simpl. split; [by rewrite IH1, fmap_insert|].
      rewrite IH2, (dones_fresh ph t) by done. done.
    - split.
      + rewrite IH1, fmap_insert. simpl. symmetry. apply insert_id. by rewrite lookup_fmap, Hph.
      + rewrite IH2, <- insert_delete_insert, dones_fresh by apply lookup_delete.
        rewrite (dones_delete _ _ _ Hph). simpl. rewrite <- app_assoc. f_equiv.
        rewrite Permutation_app_comm. done.
    - rewrite calls_snoc. simpl. rewrite IH1, lookup_fmap, Hph. simpl. split; [by rewrite fmap_delete|].
      rewrite IH2, (dones_delete _ _ _ Hph). simpl. by rewrite <- app_assoc.
  Qed.

  Lemma dones_pending (ph : gmap nat (phase op ret)) (h : list (event op ret)) :
    (calls h).1 = phop <$> ph -> (dones ph).*1 ⊆+ pending h.
  Proof.
    intros H. unfold pending. rewrite H, map_to_list_fmap, <- list_fmap_compose.
    unfold dones. induction (map_to_list ph) as [|[t p] q IH]; [done|].
    simpl. destruct p as [o|o r]; simpl.
    - by apply submseteq_cons.
    - by apply submseteq_skip.
  Qed.

  (** The result of a call that has taken effect but not returned can be changed
      if the specification allows the same effect with the other result. *)
  Lemma lruns_relabel (ph0 : gmap nat (phase op ret)) a0 l ph a t o r r' :
    ph0 !! t = None -> lruns spec ph0 a0 l ph a -> ph !! t = Some (Done o r) ->
    (forall b b', spec b o r b' -> spec b o r' b') ->
    exists l', erase l' = erase l /\ lruns spec ph0 a0 l' (<[t := Done o r']> ph) a.
  Proof.
    intros H0 H Hd Hs. revert Hd.
    induction H as [|l ph a u o1 Hr IH Hn|l ph a u o1 r1 a' Hr IH Hp Hsp|l ph a u o1 r1 Hr IH Hdn]; intros Hd.
    - congruence.
    - destruct (decide (u = t)) as [->|Hne]; [by rewrite lookup_insert in Hd|].
      rewrite lookup_insert_ne in Hd by done. destruct (IH Hd) as (l' & He & Hl').
      exists (l' ++ [Ev (Inv u o1)]). rewrite !erase_app, He. split; [done|].
      rewrite insert_commute by done. constructor; [done|]. by rewrite lookup_insert_ne.
    - destruct (decide (u = t)) as [->|Hne].
      + rewrite lookup_insert in Hd. injection Hd as <- <-.
        exists (l ++ [Lin t o1 r']). rewrite !erase_app. split; [done|].
        rewrite insert_insert. econstructor; eauto.
      + rewrite lookup_insert_ne in Hd by done. destruct (IH Hd) as (l' & He & Hl').
        exists (l' ++ [Lin u o1 r1]). rewrite !erase_app, He. split; [done|].
        rewrite insert_commute by done. econstructor; [done| |done]. by rewrite lookup_insert_ne.
    - destruct (decide (u = t)) as [->|Hne]; [by rewrite lookup_delete in Hd|].
      rewrite lookup_delete_ne in Hd by done. destruct (IH Hd) as (l' & He & Hl').
      exists (l' ++ [Ev (Res u r1)]). rewrite !erase_app, He. split; [done|].
      rewrite <- delete_insert_ne by done. econstructor; [done|]. by rewrite lookup_insert_ne.
  Qed.

  Lemma omap_perm {A B} (f : A -> option B) l1 l2 : l1 ≡ₚ l2 -> omap f l1 ≡ₚ omap f l2.
  Proof. intros H. by rewrite H. Qed.

  Lemma omap_submseteq {A B} (f : A -> option B) l1 l2 : l1 ⊆+ l2 -> omap f l1 ⊆+ omap f l2.
  Proof.
    intros H. apply submseteq_Permutation in H as [k Hk].
    rewrite Hk, omap_app. apply submseteq_inserts_r. done.
  Qed.

  (** [x] occurs before [y]. *)
  Definition before {A} (l : list A) (x y : A) : Prop :=
    exists l1 l2 l3, l = l1 ++ x :: l2 ++ y :: l3.

  Lemma before_total {A} (l : list A) x y : x ∈ l -> y ∈ l -> x = y \/ before l x y \/ before l y x.
  Proof.
    intros Hx Hy. apply elem_of_list_split in Hx as (l1 & l2 & ->).
    apply elem_of_app in Hy as [Hy|Hy].
    - apply elem_of_list_split in Hy as (k1 & k2 & ->). right. right.
      exists k1, k2, l2. by rewrite <- app_assoc.
    - apply elem_of_cons in Hy as [->|Hy]; [by left|].
      apply elem_of_list_split in Hy as (k1 & k2 & ->). right. left. by exists l1, k1, k2.
  Qed.

  Lemma before_omap {A B} (f : A -> option B) l x y fx fy :
    before l x y -> f x = Some fx -> f y = Some fy -> before (omap f l) fx fy.
  Proof.
    intros (l1 & l2 & l3 & ->) Hx Hy. exists (omap f l1), (omap f l2), (omap f l3).
    rewrite omap_app. simpl. rewrite Hx, omap_app. simpl. by rewrite Hy.
  Qed.

  Lemma omap_split {A B} (f : A -> option B) l x q1 q2 :
    omap f l = q1 ++ x :: q2 ->
    exists l1 y l2, l = l1 ++ y :: l2 /\ f y = Some x /\ omap f l1 = q1 /\ omap f l2 = q2.
  Proof.
    revert q1. induction l as [|z l IH]; intros q1 H; simpl in H; [by destruct q1|].
    destruct (f z) as [fz|] eqn:Hz.
    - destruct q1 as [|w q1]; simpl in H; injection H as -> H.
      + exists [], z, l. done.
      + destruct (IH _ H) as (l1 & y & l2 & -> & Hy & <- & <-).
        exists (z :: l1), y, l2. simpl. by rewrite Hz.
    - destruct (IH _ H) as (l1 & y & l2 & -> & Hy & <- & <-).
      exists (z :: l1), y, l2. simpl. by rewrite Hz.
  Qed.

  Lemma before_omap_inv {A B} (f : A -> option B) l u v :
    before (omap f l) u v -> exists x y, before l x y /\ f x = Some u /\ f y = Some v.
  Proof.
    intros (q1 & q2 & q3 & H). apply omap_split in H as (l1 & x & l2 & -> & Hx & _ & H).
    apply omap_split in H as (l2' & y & l3 & -> & Hy & _ & _).
    exists x, y. split; [by exists l1, l2', l3|done].
  Qed.

  Lemma before_app_l {A} (l k : list A) x y : before l x y -> before (l ++ k) x y.
  Proof.
    intros (l1 & l2 & l3 & ->). exists l1, l2, (l3 ++ k). by rewrite <- !app_assoc; simpl; rewrite <- app_assoc.
  Qed.

  Lemma before_asym {A} (l : list A) x y : NoDup l -> before l x y -> before l y x -> False.
  Proof.
    intros Hnd (l1 & l2 & l3 & H1) (k1 & k2 & k3 & H2).
    assert (Hx : forall i j z, l !! i = Some z -> l !! j = Some z -> i = j).
    { intros i j z. by apply NoDup_lookup. }
    assert (Hx1 : l !! length l1 = Some x) by (rewrite H1; by apply list_lookup_middle).
    assert (Hy1 : l !! (length l1 + S (length l2)) = Some y).
    { rewrite H1, lookup_app_r by lia. replace (_ - _) with (S (length l2)) by lia. simpl.
      by apply list_lookup_middle. }
    assert (Hy2 : l !! length k1 = Some y) by (rewrite H2; by apply list_lookup_middle).
    assert (Hx2 : l !! (length k1 + S (length k2)) = Some x).
    { rewrite H2, lookup_app_r by lia. replace (_ - _) with (S (length k2)) by lia. simpl.
      by apply list_lookup_middle. }
    pose proof (Hx _ _ _ Hx1 Hx2). pose proof (Hx _ _ _ Hy1 Hy2). lia.
  Qed.
End facts.
