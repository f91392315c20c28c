(** * The theorems about the queue on release/acquire memory, from the invariant *)
From stdpp Require Import gmap list numbers.
From Verif Require Import Lin PoolModel QueueModel RaMem RaLin RaLog RaQueueModel RaQueueSpec RaQueueLog
  RaQueueObs RaQueueSafe.

(** ** Legal orders *)

Definition pv (x : nat * qop * qret) : val := match x.1.2 with Push _ v => v | _ => [] end.
Notation is_put := (fun x : nat * qop * qret => put_call x = true).
Notation is_take := (fun x : nat * qop * qret => take_call x = true).

Section order.
  Context (nb : bool).

  Lemma legal_app_inv S1 S2 a b :
    legal (rqspec nb) a (S1 ++ S2) b -> exists m, legal (rqspec nb) a S1 m /\ legal (rqspec nb) m S2 b.
  Proof.
    revert a. induction S1 as [|[[i o] r] S1 IH]; intros a H; simpl in H.
    - exists a. split; [constructor|done].
    - inversion H as [|? ? ? ? a1 ? ? Hs Hl]; subst. destruct (IH _ Hl) as (m & Hm1 & Hm2).
      exists m. split; [by econstructor|done].
  Qed.

  (** The elements: what has been put, without what has been taken. *)
  Lemma legal_state S a b :
    legal (rqspec nb) a S b ->
    b = drop (takes S) (a ++ (pv <$> filter is_put S)) /\ takes S <= length a + length (filter is_put S).
  Proof.
    induction 1 as [a|a i o r a1 S b Hs Hl IH]; [simpl; rewrite app_nil_r; unfold takes; simpl; split; [done|lia]|].
    destruct IH as [-> IH]. unfold takes in *. rewrite !filter_cons.
    inversion Hs; subst; repeat (first [rewrite decide_True by done|rewrite decide_False by done]); simpl;
      rewrite ?app_length in IH; simpl in IH; (split; [by rewrite <- ?app_assoc|lia]).
  Qed.

  Lemma legal_took S1 i v S3 b :
    legal (rqspec nb) [] (S1 ++ (i, Pop, RPop (Some v)) :: S3) b ->
    exists x, filter is_put S1 !! takes S1 = Some x /\ pv x = v.
  Proof.
    intros H. apply legal_app_inv in H as (m & H1 & H2). destruct (legal_state _ _ _ H1) as [Em _]. simpl in Em.
    inversion H2 as [|? ? ? ? a1 ? ? Hs Hl]; subst. inversion Hs as [| | |a v' Ea| | | |]; subst.
    assert (E : (pv <$> filter is_put S1) !! takes S1 = Some v).
    { rewrite <- (Nat.add_0_r (takes S1)), <- lookup_drop, <- Ea. done. }
    apply list_lookup_fmap_inv in E as (x & -> & Hx). eauto.
  Qed.

  Lemma filter_nth {A} (P : A -> Prop) `{forall x, Decision (P x)} (l : list A) k x :
    filter P l !! k = Some x -> exists l1 l2, l = l1 ++ x :: l2 /\ P x /\ length (filter P l1) = k.
  Proof.
    revert k. induction l as [|y l IH]; intros k; [done|]. rewrite filter_cons. case_decide as HP.
    - destruct k as [|k]; simpl.
      + intros [= ->]. by exists [], l.
      + intros Hk. destruct (IH k Hk) as (l1 & l2 & -> & Hx & <-). exists (y :: l1), l2.
        split; [done|]. split; [done|]. rewrite filter_cons, decide_True by done. done.
    - intros Hk. destruct (IH k Hk) as (l1 & l2 & -> & Hx & <-). exists (y :: l1), l2.
      split; [done|]. split; [done|]. by rewrite filter_cons, decide_False by done.
  Qed.
End order.

(** Positions. *)
Lemma pos_inj {A} (P : A -> Prop) `{forall x, Decision (P x)} (a b a' b' : list A) x y :
  a ++ x :: b = a' ++ y :: b' -> P x -> P y -> length (filter P a) = length (filter P a') -> a = a' /\ x = y.
Proof.
  revert a'. induction a as [|z a IH]; intros [|z' a'] E Hx Hy Hl; simpl in E; injection E as -> E.
  - done.
  - rewrite filter_cons, decide_True in Hl by done. done.
  - rewrite filter_cons, decide_True in Hl by done. done.
  - rewrite !filter_cons in Hl. destruct (IH a') as [-> ->]; [done|done|done|by case_decide; simpl in Hl; lia|done].
Qed.

(** The push that the pop called at [i] takes its element from. *)
Definition source (S : list (nat * qop * qret)) (i : nat) : nat :=
  match list_find (fun x : nat * qop * qret => x.1.1 = i) S with
  | Some (n, _) => match filter is_put S !! takes (take n S) with Some x => x.1.1 | None => 0 end
  | None => 0
  end.

Lemma split_same (S : list (nat * qop * qret)) x y :
  NoDup (S.*1.*1) -> x ∈ S -> y ∈ S -> x.1.1 = y.1.1 -> x = y.
Proof.
  induction S as [|z S IH]; intros Hnd Hx Hy E; [by apply elem_of_nil in Hx|].
  simpl in Hnd. apply list.NoDup_cons in Hnd as [Hz Hnd].
  assert (Hin : forall u, u ∈ S -> u.1.1 = z.1.1 -> False).
  { intros u Hu Eu. apply Hz. rewrite <- Eu. rewrite <- list_fmap_compose. apply elem_of_list_fmap. by exists u. }
  apply elem_of_cons in Hx as [->|Hx], Hy as [->|Hy].
  - done.
  - by destruct (Hin y Hy).
  - by destruct (Hin x Hx).
  - by apply IH.
Qed.

Lemma find_split (S1 : list (nat * qop * qret)) x S3 :
  NoDup ((S1 ++ x :: S3).*1.*1) ->
  list_find (fun y : nat * qop * qret => y.1.1 = x.1.1) (S1 ++ x :: S3) = Some (length S1, x).
Proof.
  intros Hnd. apply list_find_Some. split; [by rewrite lookup_app_r, Nat.sub_diag by lia|]. split; [done|].
  intros k y Hk Hlt E. rewrite lookup_app_l in Hk by done. apply elem_of_list_lookup_2 in Hk.
  rewrite !fmap_app in Hnd. apply NoDup_app in Hnd as (_ & Hd & _). apply (Hd x.1.1).
  - rewrite <- E. rewrite <- list_fmap_compose. apply elem_of_list_fmap. by exists y.
  - left.
Qed.

Lemma split_eq (a : list (nat * qop * qret)) x b a' y b' :
  NoDup ((a ++ x :: b).*1.*1) -> a ++ x :: b = a' ++ y :: b' -> x.1.1 = y.1.1 -> a = a'.
Proof.
  intros Hnd E Hk. pose proof (find_split _ _ _ Hnd) as F1. rewrite E in Hnd. pose proof (find_split _ _ _ Hnd) as F2.
  rewrite E, Hk, F2 in F1. injection F1 as F1 _. by apply app_inj_1 in E as [-> _].
Qed.

Lemma source_split S1 i o r S3 x :
  NoDup ((S1 ++ (i, o, r) :: S3).*1.*1) -> filter is_put S1 !! takes S1 = Some x ->
  source (S1 ++ (i, o, r) :: S3) i = x.1.1.
Proof.
  intros Hnd Hx. unfold source. pose proof (find_split _ _ _ Hnd) as Hf. simpl in Hf. rewrite Hf.
  rewrite take_app. rewrite list.filter_app. by rewrite (lookup_app_l_Some _ _ _ _ Hx).
Qed.

Section matching.
  Context (nb : bool) (tr : list vevent) (S : list (nat * qop * qret)) (b : list val).
  Context (HS : hb_order nb tr S b) (HP : handed_over tr S).

  (** What the order says about a pop in it. *)
  Lemma took S1 i v S3 :
    S = S1 ++ (i, Pop, RPop (Some v)) :: S3 ->
    exists T1 i' b' v' T2, S1 = T1 ++ (i', Push b' v', RBool true) :: T2 /\ v' = v /\ source S i = i' /\
      length (filter is_put T1) = takes S1.
  Proof using HS.
    intros E. pose proof (ho_legal _ _ _ _ HS) as Hl. pose proof (ho_nodup _ _ _ _ HS) as Hnd. rewrite E in Hl, Hnd.
    destruct (legal_took _ _ _ _ _ _ Hl) as ([[i' o'] r'] & Hx & Hv).
    pose proof (source_split _ _ _ _ _ _ Hnd Hx) as Hs. rewrite <- E in Hs.
    destruct (filter_nth _ _ _ _ Hx) as (T1 & T2 & -> & Hput & Hlen).
    unfold put_call in Hput. simpl in Hput. destruct o' as [b' v'| | | | | |]; try done. destruct r' as [[]| | |]; try done.
    exists T1, i', b', v', T2. done.
  Qed.

  Lemma took_ret i j t v :
    call_returns tr.*1 i j t Pop (RPop (Some v)) ->
    exists T1 i' b' T2 S3, source S i = i' /\
      S = (T1 ++ (i', Push b' v, RBool true) :: T2) ++ (i, Pop, RPop (Some v)) :: S3 /\
      length (filter is_put T1) = takes (T1 ++ (i', Push b' v, RBool true) :: T2).
  Proof using HS.
    intros Hc. pose proof (ho_complete _ _ _ _ HS _ _ _ _ _ Hc) as Hin.
    apply elem_of_list_split in Hin as (S1 & S3 & E).
    destruct (took _ _ _ _ E) as (T1 & i' & b' & v' & T2 & -> & -> & Hs & Hlen). eauto 10.
  Qed.

  Lemma in_order i o r : (i, o, r) ∈ S -> forall j t o' r', call_returns tr.*1 i j t o' r' -> o' = o /\ r' = r.
  Proof using HS.
    intros Hin j t o' r' Hc. pose proof (ho_complete _ _ _ _ HS _ _ _ _ _ Hc) as Hin'.
    pose proof (split_same S _ _ (ho_nodup _ _ _ _ HS) Hin' Hin eq_refl) as E. by injection E.
  Qed.

  Lemma matching_order : matching tr (source S).
  Proof using HS HP.
    split.
    - intros i j t v e W Hc Hj. destruct (took_ret _ _ _ _ Hc) as (T1 & i' & b' & T2 & S3 & Hsrc & E & Hlen). rewrite Hsrc in *.
      assert (Hin : (i', Push b' v, RBool true) ∈ S).
      { rewrite E. apply elem_of_app. left. apply elem_of_app. right. left. }
      destruct (ho_calls _ _ _ _ HS _ _ _ Hin) as [u Hu].
      apply list_lookup_fmap_inv in Hu as ([e' V] & E' & HV). simpl in E'. subst e'.
      exists u, b', V. split; [done|]. split; [|intros j' u' o r Hc'; by apply (in_order _ _ _ Hin) in Hc' as [_ ->]].
      eapply (HP T1 (i', Push b' v, RBool true) T2 (i, Pop, RPop (Some v)) S3); try done.
      + by rewrite <- app_assoc in E.
      + unfold puts. lia.
    - intros i1 j1 t1 v1 i2 j2 t2 v2 H1 H2 Es.
      destruct (took_ret _ _ _ _ H1) as (T1 & i1' & b1 & T2 & S3 & Hs1 & E1 & L1).
      destruct (took_ret _ _ _ _ H2) as (U1 & i2' & b2 & U2 & S4 & Hs2 & E2 & L2).
      pose proof (ho_nodup _ _ _ _ HS) as Hnd.
      assert (E : T1 = U1).
      { rewrite <- !app_assoc in E1, E2. simpl in E1, E2.
        eapply split_eq; [by rewrite <- E1|by rewrite <- E1, <- E2|simpl; congruence]. }
      rewrite E1 in E2. apply (pos_inj is_take) in E2 as [_ E2]; [by injection E2|done|done|].
      unfold takes in L1, L2. congruence.
    - intros i j t v i1 j1 t1 b1 v1 Hc Hc1 Hlt. destruct (took_ret _ _ _ _ Hc) as (T1 & i' & b' & T2 & S3 & Hsrc & E & Hlen). rewrite Hsrc in *.
      pose proof (ho_nodup _ _ _ _ HS) as Hnd.
      pose proof (ho_complete _ _ _ _ HS _ _ _ _ _ Hc1) as Hin1.
      assert (Hin : (i', Push b' v, RBool true) ∈ S).
      { rewrite E. apply elem_of_app. left. apply elem_of_app. right. left. }
      assert (i1 < j1) as Hij by apply Hc1.
      destruct (before_total S _ _ Hin1 Hin) as [(l1 & l2 & l3 & Eb)|(l1 & l2 & l3 & Eb)].
      { intros [= E']. lia. }
      2:{ pose proof (ho_time _ _ _ _ HS _ _ _ _ _ _ _ _ _ Eb (or_introl eq_refl) Hc1). simpl in *. lia. }
      assert (T1 = l1 ++ (i1, Push b1 v1, RBool true) :: l2) as ->.
      { rewrite <- app_assoc in E. simpl in E.
        eapply (split_eq T1 (i', Push b' v, RBool true) _ _ (i', Push b' v, RBool true));
          [by rewrite <- E| |done].
        rewrite <- E. rewrite Eb at 1. rewrite <- app_assoc. done. }
      set (S1 := (l1 ++ (i1, Push b1 v1, RBool true) :: l2) ++ (i', Push b' v, RBool true) :: T2) in *.
      assert (length (filter is_put l1) < takes S1) as Hk.
      { rewrite <- Hlen, list.filter_app, app_length, filter_cons, decide_True by done. simpl. lia. }
      unfold takes in Hk. apply lookup_lt_is_Some_2 in Hk as [[[i0 o0] r0] Hy0].
      destruct (filter_nth _ _ _ _ Hy0) as (S0 & S2 & ES1 & Htk & Hl0).
      pose proof Htk as Htk'. unfold take_call in Htk'. simpl in Htk'.
      destruct o0; try done. destruct r0 as [|[v0|]| |]; try done. clear Htk'.
      assert (ES : S = S0 ++ (i0, Pop, RPop (Some v0)) :: S2 ++ (i, Pop, RPop (Some v)) :: S3).
      { rewrite E at 1. rewrite ES1, <- app_assoc. done. }
      destruct (took _ _ _ _ ES) as (Q1 & i2 & b2 & v' & Q2 & EQ & -> & Hs & HlQ).
      assert (Heq : l1 = Q1 /\ (i1, Push b1 v1, RBool true) = (i2, Push b2 v0, RBool true)).
      { eapply (pos_inj is_put); [|done|done|unfold takes in HlQ; lia].
        etransitivity; [symmetry; exact Eb|]. rewrite ES at 1. rewrite EQ, <- app_assoc. simpl. reflexivity. }
      destruct Heq as [_ Heq]. injection Heq as -> -> ->.
      assert (Hin0 : (i0, Pop, RPop (Some v0)) ∈ S) by (rewrite ES; apply elem_of_app; right; left).
      destruct (ho_calls _ _ _ _ HS _ _ _ Hin0) as [t0 Ht0].
      exists i0, t0. split; [done|]. split; [done|]. split.
      + pose proof (ho_time _ _ _ _ HS _ _ _ _ _ _ _ _ _ ES (or_intror (conj Htk eq_refl)) Hc) as Hle. simpl in Hle.
        assert (i0 <> j); [|lia]. intros ->. destruct Hc as (_ & _ & C3 & _). by pose proof (eq_trans (eq_sym Ht0) C3).
      + intros j0 u o r Hc0. by apply (in_order _ _ _ Hin0) in Hc0 as [_ ->].
  Qed.
End matching.

Section main.
  Context (c : cfg) (Htag : c_tagmod c = None).
  Notation nb := (c_node_based c).

  Lemma rq_safe_main ns tr s ch : rqreach c true ns tr s -> rstep c true s ch <> RRace /\ rstep c true s ch <> RUB.
  Proof using Htag.
    intros (addr & s0 & H1 & H2 & H3 & H4 & H5).
    destruct (rexec_ok c Htag ns addr s0 tr s H1 H2 H3 H4 H5) as (g & HI).
    pose proof (rstep_ok c Htag s tr g ch HI) as Hst. by destruct (rstep c true s ch).
  Qed.

  Lemma rq_order_main ns tr s : rqreach c true ns tr s -> exists S b, hb_order nb tr S b /\ handed_over tr S.
  Proof using Htag.
    intros (addr & s0 & H1 & H2 & H3 & H4 & H5).
    destruct (rexec_ok c Htag ns addr s0 tr s H1 H2 H3 H4 H5) as (g & HI).
    eapply ql_order; [exact (in_l _ _ _ _ HI)|exact (in_c _ _ _ _ HI)].
  Qed.

  Lemma rq_matching_main ns tr s : rqreach c true ns tr s -> exists src, matching tr src.
  Proof using Htag.
    intros Hr. destruct (rq_order_main _ _ _ Hr) as (S & b & HS & HP). exists (source S). by eapply matching_order.
  Qed.
End main.
