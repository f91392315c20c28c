(** * An order of the calls of the queue

    Proof method for hb_order (RaQueueSpec.v).  The pushes and the pops are
    numbered from 1; the order is a list in which each of them is added at the
    end when it takes effect.  A pop that finds the queue empty after [e] pops has
    not seen push [e+1]; it splits the list: everything numbered up to [e] comes
    before it, everything else after it.  The function [kv] says how many pushes a
    view has seen. *)
From stdpp Require Import gmap list numbers.
From Verif Require Import Lin PoolModel QueueModel RaMem RaFacts RaLin RaLog RaQueueSpec.

Set Default Proof Using "Type".

Inductive kd := KPush | KPop | KLook | KNeu.
Global Instance kd_eq_dec : EqDecision kd.
Proof. solve_decision. Defined.

Record item := It { i_c : nat * qop * qret; i_x : nat; i_k : kd }.
Notation i_inv it := ((i_c it).1.1).

(** The numbers of pushes and pops so far. *)
Fixpoint qr (l : list item) (p q p' q' : nat) : Prop :=
  match l with
  | [] => p' = p /\ q' = q
  | it :: l =>
      match i_k it with
      | KPush => i_x it = S p /\ qr l (S p) q p' q'
      | KPop => i_x it = S q /\ S q <= p /\ qr l p (S q) p' q'
      | KLook => i_x it = p /\ p = q /\ qr l p q p' q'
      | KNeu => i_x it <= p /\ qr l p q p' q'
      end
  end.

Definition before {A} (l : list A) (x y : A) : Prop :=
  exists l1 l2 l3, l = l1 ++ x :: l2 ++ y :: l3.

Lemma before_app {A} (l1 l2 : list A) x y :
  before (l1 ++ l2) x y -> before l1 x y \/ before l2 x y \/ (x ∈ l1 /\ y ∈ l2).
Proof.
  revert l2. induction l1 as [|z l1 IH]; intros l2 (a & b & d & E).
  - right. left. by exists a, b, d.
  - destruct a as [|z' a]; simpl in E; injection E as -> E.
    + assert (y ∈ l1 ++ l2) as Hy.
      { rewrite E. apply elem_of_app. right. left. }
      apply elem_of_app in Hy as [Hy|Hy].
      * left. apply elem_of_list_split in Hy as (u & v & ->). by exists [], u, v.
      * right. right. split; [left|done].
    + destruct (IH l2) as [(u & v & w & ->)|[Hb|[Hx Hy]]].
      * by exists a, b, d.
      * left. by exists (z' :: u), v, w.
      * auto.
      * right. right. split; [by right|done].
Qed.

Lemma before_in {A} (l : list A) x y : before l x y -> x ∈ l /\ y ∈ l.
Proof. intros (a & b & d & ->). set_solver. Qed.

Lemma before_filter {A} (P : A -> Prop) `{forall x, Decision (P x)} (l : list A) x y :
  before (filter P l) x y -> before l x y.
Proof.
  induction l as [|z l IH]; [by intros (a & b & d & E); destruct a|].
  rewrite filter_cons. case_decide as Hz.
  - intros (a & b & d & E). destruct a as [|z' a]; simpl in E; injection E as -> E.
    + assert (y ∈ filter P l) as Hy. { rewrite E. apply elem_of_app. right. left. }
      apply elem_of_list_filter in Hy as [_ Hy]. apply elem_of_list_split in Hy as (u & v & ->). by exists [], u, v.
    + destruct IH as (u & v & w & ->); [by exists a, b, d|]. by exists (z' :: u), v, w.
  - intros Hb. destruct (IH Hb) as (u & v & w & ->). by exists (z :: u), v, w.
Qed.

(** ** Runs *)

Lemma qr_app l1 l2 p q p' q' :
  qr (l1 ++ l2) p q p' q' <-> exists p1 q1, qr l1 p q p1 q1 /\ qr l2 p1 q1 p' q'.
Proof.
  revert p q. induction l1 as [|it l1 IH]; intros p q; simpl.
  - split; [intros H; by exists p, q|by intros (? & ? & (-> & ->) & H)].
  - destruct (i_k it); rewrite ?IH; firstorder.
Qed.

Lemma qr_mono l p q p' q' : qr l p q p' q' -> p <= p' /\ q <= q' /\ (q <= p -> q' <= p').
Proof.
  revert p q. induction l as [|it l IH]; intros p q; simpl; [intros [-> ->]; lia|].
  destruct (i_k it).
  - intros (_ & H). apply IH in H. lia.
  - intros (_ & ? & H). apply IH in H. lia.
  - intros (_ & ? & H). apply IH in H. lia.
  - intros (_ & H). apply IH in H. lia.
Qed.

(** Splitting at [e]. *)
Lemma qr_low e l p q p' q' :
  qr l p q p' q' ->
  qr (filter (fun it => i_x it <= e) l) (p `min` e) (q `min` e) (p' `min` e) (q' `min` e).
Proof.
  revert p q. induction l as [|it l IH]; intros p q; [simpl; by intros [-> ->]|].
  rewrite filter_cons. destruct (i_k it) eqn:Hk; simpl; rewrite Hk.
  - intros (Hx & H). apply IH in H. case_decide; simpl; rewrite ?Hk.
    + replace (S p `min` e) with (S (p `min` e)) in H by lia. split; [lia|done].
    + by replace (S p `min` e) with (p `min` e) in H by lia.
  - intros (Hx & Hp & H). apply IH in H. case_decide; simpl; rewrite ?Hk.
    + replace (S q `min` e) with (S (q `min` e)) in H by lia. split; [lia|]. split; [lia|done].
    + by replace (S q `min` e) with (q `min` e) in H by lia.
  - intros (Hx & Hp & H). apply IH in H. case_decide; simpl; rewrite ?Hk; [|done]. split; [lia|]. split; [lia|done].
  - intros (Hx & H). apply IH in H. case_decide; simpl; rewrite ?Hk; [split; [lia|done]|done].
Qed.

Lemma qr_high e l p q p' q' :
  qr l p q p' q' ->
  qr (filter (fun it => e < i_x it) l) (p `max` e) (q `max` e) (p' `max` e) (q' `max` e).
Proof.
  revert p q. induction l as [|it l IH]; intros p q; [simpl; by intros [-> ->]|].
  rewrite filter_cons. destruct (i_k it) eqn:Hk; simpl; rewrite Hk.
  - intros (Hx & H). apply IH in H. case_decide; simpl; rewrite ?Hk.
    + replace (S p `max` e) with (S (p `max` e)) in H by lia. split; [lia|done].
    + by replace (S p `max` e) with (p `max` e) in H by lia.
  - intros (Hx & Hp & H). apply IH in H. case_decide; simpl; rewrite ?Hk.
    + replace (S q `max` e) with (S (q `max` e)) in H by lia. split; [lia|]. split; [lia|done].
    + by replace (S q `max` e) with (q `max` e) in H by lia.
  - intros (Hx & Hp & H). apply IH in H. case_decide; simpl; rewrite ?Hk; [|done]. split; [lia|]. split; [lia|done].
  - intros (Hx & H). apply IH in H. case_decide; simpl; rewrite ?Hk; [split; [lia|done]|done].
Qed.

Lemma qr_lower l p q p' q' it :
  qr l p q p' q' -> it ∈ l -> (i_k it = KPush -> p < i_x it <= p') /\ (i_k it = KPop -> q < i_x it <= q').
Proof.
  revert p q. induction l as [|i l IH]; intros p q H Hin; [by apply elem_of_nil in Hin|].
  assert (Hl : forall p1 q1, qr l p1 q1 p' q' -> p <= p1 -> q <= q1 -> it ∈ l ->
    (i_k it = KPush -> p < i_x it <= p') /\ (i_k it = KPop -> q < i_x it <= q')).
  { intros p1 q1 H1 Hp Hq Hi. destruct (IH _ _ H1 Hi) as [I1 I2]. split; intros E; [specialize (I1 E)|specialize (I2 E)]; lia. }
  simpl in H. apply elem_of_cons in Hin as [->|Hin].
  - destruct (i_k i); split; intros E; try done; destruct H as (Hx & H).
    + apply qr_mono in H. lia.
    + destruct H as [_ H]. apply qr_mono in H. lia.
  - destruct (i_k i).
    + destruct H as (_ & H). apply (Hl _ _ H); [lia|lia|done].
    + destruct H as (_ & _ & H). apply (Hl _ _ H); [lia|lia|done].
    + destruct H as (_ & _ & H). apply (Hl _ _ H); [lia|lia|done].
    + destruct H as (_ & H). apply (Hl _ _ H); [lia|lia|done].
Qed.

Lemma qr_before l p q p' q' x y :
  qr l p q p' q' -> before l x y -> i_k x = i_k y -> i_k x = KPush \/ i_k x = KPop -> i_x x < i_x y.
Proof.
  intros H (a & b & d & ->) Hk Hor. apply qr_app in H as (p1 & q1 & _ & H).
  change (x :: b ++ y :: d) with ([x] ++ (b ++ y :: d)) in H. apply qr_app in H as (p2 & q2 & Hx & H).
  assert (Hy : y ∈ b ++ y :: d) by set_solver.
  destruct (qr_lower _ _ _ _ _ _ H Hy) as [Y1 Y2].
  destruct (qr_lower _ _ _ _ _ x Hx) as [X1 X2]; [left|].
  destruct Hor as [Hp|Hp].
  - specialize (Y1 ltac:(congruence)). specialize (X1 Hp). lia.
  - specialize (Y2 ltac:(congruence)). specialize (X2 Hp). lia.
Qed.

(** A push has a higher number than everything before it. *)
Lemma qr_push_after l p q p' q' y x :
  qr l p q p' q' -> q <= p -> before l y x -> i_k x = KPush -> i_x y < i_x x.
Proof.
  intros H Hqp (a & b & d & ->) Hk. apply qr_app in H as (p1 & q1 & Ha & H). apply qr_mono in Ha as (_ & _ & Ha).
  change (y :: b ++ x :: d) with ([y] ++ (b ++ x :: d)) in H. apply qr_app in H as (p2 & q2 & Hy & H).
  assert (Hx : x ∈ b ++ x :: d) by set_solver.
  destruct (qr_lower _ _ _ _ _ _ H Hx) as [X1 _]. specialize (X1 Hk).
  simpl in Hy. destruct (i_k y); lia.
Qed.

Lemma before_total {A} (l : list A) x y : x ∈ l -> y ∈ l -> x <> y -> before l x y \/ before l y x.
Proof.
  intros Hx Hy Hne. apply elem_of_list_split in Hx as (a & b & ->).
  apply elem_of_app in Hy as [Hy|Hy].
  - right. apply elem_of_list_split in Hy as (u & v & ->). exists u, v, b. by rewrite <- app_assoc.
  - left. apply elem_of_cons in Hy as [->|Hy]; [done|]. apply elem_of_list_split in Hy as (u & v & ->). by exists a, u, v.
Qed.

(** ** Legality *)

Section legal.
  Context (nb : bool) (vs : list val).

  Definition it_ok (it : item) : Prop :=
    let '(_, o, r) := i_c it in
    match i_k it with
    | KPush => exists b v, o = Push b v /\ r = RBool true /\ vs !! i_x it = Some v
    | KPop => exists v, o = Pop /\ r = RPop (Some v) /\ vs !! i_x it = Some v
    | KLook => o = Pop /\ r = RPop None
    | KNeu => forall a, rqspec nb a o r a
    end.

  Definition sub (q p : nat) : list val := take (p - q) (drop (S q) vs).

  Lemma qr_legal l p q p' q' :
    qr l p q p' q' -> Forall it_ok l -> q <= p -> legal (rqspec nb) (sub q p) (i_c <$> l) (sub q' p').
  Proof.
    revert p q. induction l as [|it l IH]; intros p q H HF Hqp.
    - destruct H as [-> ->]. constructor.
    - apply Forall_cons_1 in HF as [Hit HF]. simpl. unfold it_ok in Hit. simpl in H.
      destruct (i_c it) as [[i o] r]. destruct (i_k it).
      + destruct Hit as (b & v & -> & -> & Hv). destruct H as (Hx & H). econstructor; [|by eapply IH; [done|done|lia]].
        enough (sub q (S p) = sub q p ++ [v]) as -> by constructor.
        unfold sub. replace (S p - q) with (S (p - q)) by lia. apply take_S_r.
        rewrite lookup_drop. rewrite Hx in Hv. by replace (S q + (p - q)) with (S p) by lia.
      + destruct Hit as (v & -> & -> & Hv). destruct H as (Hx & Hp & H). rewrite Hx in Hv. econstructor; [|by eapply IH; [done|done|lia]].
        enough (sub q p = v :: sub (S q) p) as -> by constructor.
        unfold sub. rewrite (drop_S _ _ _ Hv). by replace (p - q) with (S (p - S q)) by lia.
      + destruct Hit as [-> ->]. destruct H as (Hx & -> & H). econstructor; [|by eapply IH; [done|done|lia]].
        unfold sub. rewrite Nat.sub_diag. constructor.
      + destruct H as [_ H]. econstructor; [apply Hit|]. by eapply IH.
  Qed.

  Lemma it_ok_put it : it_ok it -> put_call (i_c it) = true <-> i_k it = KPush.
  Proof.
    unfold it_ok, put_call. destruct (i_c it) as [[i o] r]. simpl. destruct (i_k it).
    - intros (b & v & -> & -> & _). done.
    - intros (v & -> & -> & _). done.
    - intros [-> ->]. done.
    - intros Hn. split; [|done]. destruct o; try done. destruct r as [[]| | |]; try done. intros _.
      specialize (Hn []). by inversion Hn.
  Qed.
  Lemma it_ok_take it : it_ok it -> take_call (i_c it) = true <-> i_k it = KPop.
  Proof.
    unfold it_ok, take_call. destruct (i_c it) as [[i o] r]. simpl. destruct (i_k it).
    - intros (b & v & -> & -> & _). done.
    - intros (v & -> & -> & _). done.
    - intros [-> ->]. done.
    - intros Hn. split; [|done]. destruct o; try done. destruct r as [|[v|]| |]; try done. intros _.
      specialize (Hn []). by inversion Hn.
  Qed.

  Lemma qr_count l p q p' q' :
    qr l p q p' q' -> Forall it_ok l -> p' = p + puts (i_c <$> l) /\ q' = q + takes (i_c <$> l).
  Proof.
    revert p q. induction l as [|it l IH]; intros p q H HF; [simpl in *; unfold puts, takes; simpl; lia|].
    apply Forall_cons_1 in HF as [Hit HF]. unfold puts, takes. rewrite fmap_cons, !filter_cons.
    pose proof (it_ok_put _ Hit) as Hp. pose proof (it_ok_take _ Hit) as Ht. simpl in H.
    destruct (i_k it).
    - rewrite decide_True by (by apply Hp). rewrite decide_False by (intros E; by apply Ht in E).
      destruct H as (_ & H). destruct (IH _ _ H HF) as [-> ->]. unfold puts, takes. simpl. lia.
    - rewrite decide_False by (intros E; by apply Hp in E). rewrite decide_True by (by apply Ht).
      destruct H as (_ & _ & H). destruct (IH _ _ H HF) as [-> ->]. unfold puts, takes. simpl. lia.
    - rewrite decide_False by (intros E; by apply Hp in E). rewrite decide_False by (intros E; by apply Ht in E).
      destruct H as (_ & _ & H). by apply IH.
    - rewrite decide_False by (intros E; by apply Hp in E). rewrite decide_False by (intros E; by apply Ht in E).
      destruct H as [_ H]. by apply IH.
  Qed.
End legal.

(** ** The log *)

Section log.
  Context (nb : bool).
  Notation call := (nat * qop * qret)%type.

  (** What the caller had seen at the call, and has seen at the return. *)
  Definition low (pvs hms : list view) (kv : view -> nat) (it : item) (V : view) : Prop :=
    match i_k it with
    | KPush => kv V < i_x it /\ pvs !! i_x it = Some V
    | KPop => exists mv, hms !! i_x it = Some mv /\ vle V mv
    | KLook => kv V <= i_x it /\ exists mv, hms !! i_x it = Some mv /\ kv mv <= i_x it
    | KNeu => kv V = i_x it
    end.
  Definition high (pvs : list view) (kv : view -> nat) (it : item) (W : view) : Prop :=
    i_x it <= kv W /\
    (i_k it = KPop -> forall i (V : view), i <= i_x it -> pvs !! i = Some V -> vle V W).

  (** [vs], [pvs]: the elements in the order of their numbers and the views of
      the callers that pushed them (number 0 is the initial dummy node); [hms]: the
      views of the values of [head_]. *)
  Record QL (tr : list vevent) (ph : gmap nat (phase qop qret)) (cur : gmap nat nat) (l : list item)
      (vs : list val) (pvs hms : list view) (kv : view -> nat) (vw : nat -> view) : Prop := {
    ql_len : length pvs = length vs;
    ql_run : exists p q, length vs = S p /\ length hms = S q /\ q <= p /\ qr l 0 0 p q;
    ql_ok : Forall (it_ok nb vs) l;
    ql_nodup : NoDup ((i_c <$> l).*1.*1);
    ql_mono : forall V W, vle V W -> kv V <= kv W;
    ql_item : forall it, it ∈ l -> exists t o r (V : view), i_c it = (i_inv it, o, r) /\
      tr !! i_inv it = Some (Inv t o, V) /\ low pvs hms kv it V /\
      ((exists j (W : view), call_returns tr.*1 (i_inv it) j t o r /\ tr !! j = Some (Res t r, W) /\ high pvs kv it W) \/
       (cur !! t = Some (i_inv it) /\ ph !! t = Some (Done o r) /\ high pvs kv it (vw t)));
    ql_cur : forall t i, cur !! t = Some i ->
      exists o (V : view), tr !! i = Some (Inv t o, V) /\ vle V (vw t) /\
        (forall j e, i < j -> tr.*1 !! j = Some e -> ev_thread e <> t) /\
        (ph !! t = Some (Pending o) \/
         exists r it, ph !! t = Some (Done o r) /\ it ∈ l /\ i_c it = (i, o, r));
    ql_ph : forall t, is_Some (ph !! t) -> is_Some (cur !! t);
    ql_complete : forall i j t o r, call_returns tr.*1 i j t o r -> exists it, it ∈ l /\ i_c it = (i, o, r);
    ql_hb : forall x y j t o r e e' (V W : view), before l x y -> call_returns tr.*1 (i_inv y) j t o r ->
      tr !! j = Some (e, W) -> tr !! i_inv x = Some (e', V) -> vle W V -> i_inv x < j;
    ql_time : forall x y j t o r, x ∈ l -> y ∈ l -> i_k x = i_k y -> i_k x = KPush \/ i_k x = KPop ->
      i_x x < i_x y -> call_returns tr.*1 (i_inv y) j t o r -> i_inv x < j;
    ql_late : forall x y j t o r, before l x y -> i_k x = KPush -> call_returns tr.*1 (i_inv y) j t o r -> i_inv x < j;
  }.

  Lemma high_le pvs kv it (V W : view) :
    (forall V W, vle V W -> kv V <= kv W) -> vle V W -> high pvs kv it V -> high pvs kv it W.
  Proof.
    intros Hm Hle [H1 H2]. split; [specialize (Hm V W Hle); lia|]. intros Hk i V0 Hi HV0.
    eapply vle_trans; [by eapply H2|done].
  Qed.

  (** A longer list of numbers does not change the past. *)
  Lemma low_app pvs hms kv it V a b : low pvs hms kv it V -> low (pvs ++ a) (hms ++ b) kv it V.
  Proof.
    unfold low. destruct (i_k it).
    - intros [H1 H2]. split; [done|]. by apply lookup_app_l_Some.
    - intros (mv & H1 & H2). exists mv. split; [by apply lookup_app_l_Some|done].
    - intros [H0 (mv & H1 & H2)]. split; [done|]. exists mv. split; [by apply lookup_app_l_Some|done].
    - done.
  Qed.
  Lemma high_app pvs kv it V a :
    i_x it < length pvs \/ i_k it <> KPop -> high pvs kv it V -> high (pvs ++ a) kv it V.
  Proof.
    intros Hl [H1 H2]. split; [done|]. intros Hk i V0 Hi HV0. destruct Hl as [Hl|]; [|done].
    rewrite lookup_app_l in HV0 by lia. by eapply H2.
  Qed.
  Lemma it_ok_app vs it a : it_ok nb vs it -> it_ok nb (vs ++ a) it.
  Proof.
    unfold it_ok. destruct (i_c it) as [[i o] r]. destruct (i_k it); [| |done|done].
    - intros (b & v & H1 & H2 & H3). exists b, v. split; [done|]. split; [done|]. by apply lookup_app_l_Some.
    - intros (v & H1 & H2 & H3). exists v. split; [done|]. split; [done|]. by apply lookup_app_l_Some.
  Qed.

  (** Views grow. *)
  Lemma ql_view tr ph cur l vs pvs hms kv vw t V :
    QL tr ph cur l vs pvs hms kv vw -> vle (vw t) V -> QL tr ph cur l vs pvs hms kv (set_view vw t V).
  Proof.
    intros HL Hle. destruct HL as [H1 H2 H3 H4 H5 H6 H7 H8 H9 H10 H11 H12]. split; try done.
    - intros it Hin. destruct (H6 it Hin) as (u & o & r & V0 & Hc & Hi & Hlow & Hor).
      exists u, o, r, V0. split; [done|]. split; [done|]. split; [done|].
      destruct Hor as [Hor|(Hcu & Hp & Hh)]; [by left|right].
      split; [done|]. split; [done|]. eapply high_le; [done| |done]. by apply set_view_le.
    - intros u i Hc. destruct (H7 u i Hc) as (o & V0 & Hi & HV0 & Hrest). exists o, V0.
      split; [done|]. split; [|done]. eapply vle_trans; [done|]. by apply set_view_le.
  Qed.

  (** The counting function may change for views that have seen something new. *)
  Lemma ql_kv tr ph cur l vs pvs hms kv kv' vw :
    QL tr ph cur l vs pvs hms kv vw -> (forall V W, vle V W -> kv' V <= kv' W) ->
    (forall i e V, tr !! i = Some (e, V) -> kv' V = kv V) -> (forall mv, mv ∈ hms -> kv' mv = kv mv) ->
    (forall t, kv (vw t) <= kv' (vw t)) -> QL tr ph cur l vs pvs hms kv' vw.
  Proof.
    intros HL Hm Htr Hhm Hvw. destruct HL as [H1 H2 H3 H4 H5 H6 H7 H8 H9 H10 H11 H12]. split; try done.
    intros it Hin. destruct (H6 it Hin) as (u & o & r & V0 & Hc & Hi & Hlow & Hor).
    exists u, o, r, V0. split; [done|]. split; [done|]. split.
    - unfold low in *. pose proof (Htr _ _ _ Hi) as E. destruct (i_k it).
      + by rewrite E.
      + done.
      + rewrite E. destruct Hlow as [Hlow (mv & Hmv & Hk)]. split; [done|]. exists mv. split; [done|].
        by rewrite (Hhm _ (elem_of_list_lookup_2 _ _ _ Hmv)).
      + by rewrite E.
    - destruct Hor as [(j & W & Hr & Hj & [Ha Hb])|(Hcu & Hp & [Ha Hb])].
      + left. exists j, W. split; [done|]. split; [done|]. split; [by rewrite (Htr _ _ _ Hj)|done].
      + right. split; [done|]. split; [done|]. split; [specialize (Hvw u); lia|done].
  Qed.

  Lemma ql_inv tr ph cur l vs pvs hms kv vw t o V :
    QL tr ph cur l vs pvs hms kv vw -> ph !! t = None -> vle (vw t) V ->
    QL (tr ++ [(Inv t o, V)]) (<[t := Pending o]> ph) (<[t := length tr]> cur) l vs pvs hms kv (set_view vw t V).
  Proof.
    intros HL Hph Hle.
    assert (Hcur : cur !! t = None).
    { destruct (cur !! t) as [i|] eqn:Hc; [|done].
      destruct (ql_cur _ _ _ _ _ _ _ _ _ HL _ _ Hc) as (? & ? & _ & _ & _ & [Hp|(? & ? & Hp & _)]); congruence. }
    pose proof (ql_view _ _ _ _ _ _ _ _ _ t V HL Hle) as HL'.
    destruct HL' as [H1 H2 H3 H4 H5 H6 H7 H8 H9 H10 H11 H12].
    assert (Hcr : forall i j u o' r, call_returns (tr ++ [(Inv t o, V)]).*1 i j u o' r ->
      call_returns tr.*1 i j u o' r).
    { intros i j u o' r Hc. rewrite fmap_app in Hc. apply call_returns_snoc in Hc as [Hc|(_ & ? & _)]; done. }
    split; try done.
    - intros it Hin. destruct (H6 it Hin) as (u & o' & r & V0 & Hic & Hi & Hlow & Hor). exists u, o', r, V0.
      split; [done|]. split; [by apply lookup_app_l_Some|]. split; [done|].
      destruct Hor as [(j & W & Hc & Hj & Hrest)|(Hc & Hp & Hrest)].
      + left. exists j, W. rewrite fmap_app. split; [by apply call_returns_app|].
        split; [by apply lookup_app_l_Some|done].
      + right. assert (t <> u) by congruence. rewrite !lookup_insert_ne by done. done.
    - intros u i. destruct (decide (u = t)) as [->|Hne].
      + rewrite lookup_insert. intros [= <-]. exists o, V. rewrite lookup_insert.
        split; [by rewrite lookup_app_r, Nat.sub_diag by lia|].
        split; [unfold set_view; rewrite decide_True by done; intros x; lia|].
        split; [|by left]. intros j e Hj He. apply lookup_lt_Some in He.
        rewrite fmap_length, app_length in He. simpl in He. lia.
      + rewrite !lookup_insert_ne by done. intros Hc.
        destruct (H7 u i Hc) as (o' & V0 & Hi & HV0 & Hno & Hor). exists o', V0.
        split; [by apply lookup_app_l_Some|]. split; [done|]. split; [|done].
        intros j e Hj He. rewrite fmap_app in He. apply lookup_snoc_inv in He as [[He _]|[_ ->]]; [by eapply Hno|done].
    - intros u. destruct (decide (u = t)) as [->|Hne]; [rewrite !lookup_insert; eauto|].
      rewrite !lookup_insert_ne by done. apply H8.
    - intros i j u o' r Hc. by eapply H9, Hcr.
    - intros x y j u o' r e e' V1 W Hb Hc Hj Hi. apply Hcr in Hc as Hc'.
      destruct (before_in _ _ _ Hb) as [Hx _].
      destruct (H6 x Hx) as (? & ? & ? & ? & _ & Hi' & _).
      rewrite lookup_app_l in Hi by (by eapply lookup_lt_Some).
      rewrite lookup_app_l in Hj; [by eapply H10|].
      destruct Hc' as (_ & _ & C3 & _). apply lookup_lt_Some in C3. by rewrite fmap_length in C3.
    - intros x y j u o' r Hx Hy Hk Hor Hlt Hc. by eapply H11, Hcr.
    - intros x y j u o' r Hb Hk Hc. by eapply H12, Hcr.
  Qed.

  Lemma ql_res tr ph cur l vs pvs hms kv vw t o r V :
    QL tr ph cur l vs pvs hms kv vw -> ph !! t = Some (Done o r) -> vle (vw t) V ->
    QL (tr ++ [(Res t r, V)]) (delete t ph) (delete t cur) l vs pvs hms kv (set_view vw t V).
  Proof.
    intros HL Hph Hle.
    destruct (ql_ph _ _ _ _ _ _ _ _ _ HL t) as [i0 Hcur]; [eauto|].
    pose proof (ql_view _ _ _ _ _ _ _ _ _ t V HL Hle) as HL'.
    destruct HL' as [H1 H2 H3 H4 H5 H6 H7 H8 H9 H10 H11 H12].
    destruct (H7 _ _ Hcur) as (o0 & V0 & Hi0 & HV0 & Hno0 & [?|(r0 & it0 & Hd & Hin0 & Hit0)]); [congruence|].
    rewrite Hph in Hd. injection Hd as <- <-.
    assert (HR0 : call_returns (tr ++ [(Res t r, V)]).*1 i0 (length tr) t o r).
    { rewrite fmap_app. pose proof (lookup_lt_Some _ _ _ Hi0).
      split; [apply lookup_app_l_Some; by rewrite list_lookup_fmap, Hi0|]. split; [done|].
      split; [rewrite lookup_app_r, fmap_length, Nat.sub_diag by (rewrite fmap_length; lia); done|].
      intros k e [Hk1 Hk2] He. rewrite lookup_app_l in He by (by rewrite fmap_length). by eapply Hno0. }
    assert (Hcr : forall i j u o' r', call_returns (tr ++ [(Res t r, V)]).*1 i j u o' r' ->
      call_returns tr.*1 i j u o' r' \/ (i = i0 /\ j = length tr /\ o' = o /\ r' = r)).
    { intros i j u o' r' Hc. pose proof Hc as Hc0. rewrite fmap_app in Hc.
      apply call_returns_snoc in Hc as [Hc|(-> & He & Hi & Hlt & Hno)]; [by left|right]. rewrite fmap_length in *.
      simpl in He. injection He as -> ->.
      destruct HR0 as (R1 & R2 & R3 & R4). destruct Hc0 as (C1 & C2 & C3 & C4).
      assert (i = i0) as ->.
      { destruct (decide (i < i0)) as [Hl|].
        - exfalso. by eapply (C4 i0 _ (conj Hl R2) R1).
        - destruct (decide (i0 < i)) as [Hl|]; [|lia]. exfalso. by eapply (R4 i _ (conj Hl C2) C1). }
      rewrite R1 in C1. by injection C1. }
    split; try done.
    - intros it Hin. destruct (H6 it Hin) as (u & o' & r' & V1 & Hic & Hi & Hlow & Hor). exists u, o', r', V1.
      split; [done|]. split; [by apply lookup_app_l_Some|]. split; [done|].
      destruct Hor as [(j & W & Hc & Hj & Hrest)|(Hc & Hp & Hh)].
      + left. exists j, W. rewrite fmap_app. split; [by apply call_returns_app|].
        split; [by apply lookup_app_l_Some|done].
      + destruct (decide (u = t)) as [->|Hne].
        * left. rewrite Hcur in Hc. injection Hc as Hc. rewrite Hph in Hp. injection Hp as <- <-.
          exists (length tr), V. rewrite <- Hc. split; [done|].
          split; [by rewrite lookup_app_r, Nat.sub_diag by lia|].
          unfold set_view in Hh. by rewrite decide_True in Hh by done.
        * right. rewrite !lookup_delete_ne by done. done.
    - intros u i. destruct (decide (u = t)) as [->|Hne]; [by rewrite lookup_delete|].
      rewrite !lookup_delete_ne by done. intros Hc.
      destruct (H7 u i Hc) as (o' & V1 & Hi & HV1 & Hno & Hor). exists o', V1.
      split; [by apply lookup_app_l_Some|]. split; [done|]. split; [|done].
      intros j e Hj He. rewrite fmap_app in He. apply lookup_snoc_inv in He as [[He _]|[_ ->]]; [by eapply Hno|done].
    - intros u. destruct (decide (u = t)) as [->|Hne]; [rewrite lookup_delete; by intros [? ?]|].
      rewrite !lookup_delete_ne by done. apply H8.
    - intros i j u o' r' Hc. apply Hcr in Hc as [Hc|(-> & -> & -> & ->)]; [by eapply H9|eauto].
    - intros x y j u o' r' e e' V1 W Hb Hc Hj Hi Hvle.
      destruct (before_in _ _ _ Hb) as [Hx _].
      destruct (H6 x Hx) as (? & ? & ? & ? & _ & Hi' & _). pose proof (lookup_lt_Some _ _ _ Hi') as Hlx.
      apply Hcr in Hc as [Hc|(_ & -> & _)]; [|done].
      rewrite lookup_app_l in Hi by done.
      rewrite lookup_app_l in Hj; [exact (H10 _ _ _ _ _ _ _ _ _ _ Hb Hc Hj Hi Hvle)|].
      destruct Hc as (_ & _ & C3 & _). apply lookup_lt_Some in C3. by rewrite fmap_length in C3.
    - intros x y j u o' r' Hx Hy Hk Hor Hlt Hc. apply Hcr in Hc as [Hc|(_ & -> & _)]; [by eapply H11|].
      destruct (H6 x Hx) as (? & ? & ? & ? & _ & Hi' & _). by eapply lookup_lt_Some.
    - intros x y j u o' r' Hb Hk Hc. apply Hcr in Hc as [Hc|(_ & -> & _)]; [by eapply H12|].
      destruct (before_in _ _ _ Hb) as [Hx _].
      destruct (H6 x Hx) as (? & ? & ? & ? & _ & Hi' & _). by eapply lookup_lt_Some.
  Qed.

  (** Facts about a pending call. *)
  Lemma ql_pending tr ph cur l vs pvs hms kv vw t o :
    QL tr ph cur l vs pvs hms kv vw -> ph !! t = Some (Pending o) ->
    exists i V, cur !! t = Some i /\ tr !! i = Some (Inv t o, V) /\ vle V (vw t) /\
      i ∉ (i_c <$> l).*1.*1 /\ (forall j u o' r, ~ call_returns tr.*1 i j u o' r).
  Proof.
    intros HL Hph. destruct (ql_ph _ _ _ _ _ _ _ _ _ HL t) as [i Hcur]; [eauto|].
    destruct (ql_cur _ _ _ _ _ _ _ _ _ HL _ _ Hcur) as (o0 & V & Hi & HV & Hno & [Hp|(? & ? & Hp & _)]); [|congruence].
    rewrite Hph in Hp. injection Hp as <-.
    assert (Hnr : forall j u o' r, ~ call_returns tr.*1 i j u o' r).
    { intros j u o' r (C1 & C2 & C3 & _). rewrite list_lookup_fmap, Hi in C1. simpl in C1. simplify_eq.
      by eapply (Hno j _ C2 C3). }
    exists i, V. split; [done|]. split; [done|]. split; [done|]. split; [|done].
    intros Hin. rewrite <- !list_fmap_compose in Hin. apply elem_of_list_fmap in Hin as (it & Hi' & Hin).
    simpl in Hi'. destruct (ql_item _ _ _ _ _ _ _ _ _ HL _ Hin) as (u & o' & r & V' & _ & Hu & _ & Hor).
    rewrite <- Hi' in *. rewrite Hi in Hu. simplify_eq.
    destruct Hor as [(j & W & Hc & _)|(_ & Hd & _)]; [by eapply Hnr|congruence].
  Qed.

  (** A call that has returned. *)
  Lemma ql_returned tr ph cur l vs pvs hms kv vw y j u o r ev (W : view) :
    QL tr ph cur l vs pvs hms kv vw -> y ∈ l -> call_returns tr.*1 (i_inv y) j u o r ->
    tr !! j = Some (ev, W) -> ev_thread ev = u /\ high pvs kv y W.
  Proof.
    intros HL Hy (C1 & C2 & C3 & C4) Hj.
    assert (Hev : forall k ev (U : view), tr !! k = Some (ev, U) -> tr.*1 !! k = Some ev).
    { intros k ev' U Hk. by rewrite list_lookup_fmap, Hk. }
    destruct (ql_item _ _ _ _ _ _ _ _ _ HL y Hy) as (u' & o' & r' & Vy & Hic & Hiy & Hly & Hor).
    rewrite (Hev _ _ _ Hiy) in C1. injection C1 as -> ->.
    rewrite (Hev _ _ _ Hj) in C3. injection C3 as ->. split; [done|].
    destruct Hor as [(j' & W' & (D1 & D2 & D3 & D4) & Hj' & HW)|(Hcu & _)].
    - assert (j' = j) as ->.
      { destruct (decide (j' < j)) as [Hlt|].
        - exfalso. by eapply (C4 j' _ (conj D2 Hlt) D3).
        - destruct (decide (j < j')) as [Hlt|]; [|lia]. exfalso.
          by eapply (D4 j _ (conj C2 Hlt) (Hev _ _ _ Hj)). }
      rewrite Hj' in Hj. by injection Hj as _ ->.
    - exfalso. destruct (ql_cur _ _ _ _ _ _ _ _ _ HL _ _ Hcu) as (o2 & V2 & _ & _ & Hno & _).
      by apply (Hno j _ C2 (Hev _ _ _ Hj)).
  Qed.

  (** A pending call takes effect; [l'] is the list with the new item [it]. *)
  Lemma ql_add tr ph cur l vs pvs hms kv vw t o r i (V : view) it l' a b d :
    QL tr ph cur l vs pvs hms kv vw -> ph !! t = Some (Pending o) -> cur !! t = Some i ->
    tr !! i = Some (Inv t o, V) -> i_c it = (i, o, r) ->
    length a = length b ->
    (exists p q, length (vs ++ a) = S p /\ length (hms ++ d) = S q /\ q <= p /\ qr l' 0 0 p q) ->
    it_ok nb (vs ++ a) it ->
    (exists l1 l2, l' = l1 ++ it :: l2 /\ (forall x, x ∈ l <-> x ∈ l1 ++ l2) /\
       (NoDup ((i_c <$> l).*1.*1) -> NoDup ((i_c <$> l1 ++ l2).*1.*1))) ->
    low (pvs ++ b) (hms ++ d) kv it V -> high (pvs ++ b) kv it (vw t) ->
    (forall x y j u o' r' e e' (V' W : view), before l' x y -> call_returns tr.*1 (i_inv y) j u o' r' ->
      tr !! j = Some (e, W) -> tr !! i_inv x = Some (e', V') -> vle W V' -> i_inv x < j) ->
    (forall y j u o' r', y ∈ l -> i_k it = i_k y -> i_k it = KPush \/ i_k it = KPop ->
      i_x it < i_x y -> call_returns tr.*1 (i_inv y) j u o' r' -> i < j) ->
    (forall x y j u o' r', before l' x y -> i_k x = KPush -> y <> it -> call_returns tr.*1 (i_inv y) j u o' r' ->
      i_inv x < j) ->
    QL tr (<[t := Done o r]> ph) cur l' (vs ++ a) (pvs ++ b) (hms ++ d) kv vw.
  Proof.
    intros HL Hph Hcur Hi Hit Hab Hrun Hok (l1 & l2 & El & Hmem & Hnd) Hlow Hhigh Hhb Htime Hlate.
    destruct (ql_pending _ _ _ _ _ _ _ _ _ t o HL Hph) as (i' & V' & Hcur' & Hi' & HV & Hnin & Hnr).
    assert (i' = i) as -> by congruence. clear V' Hi' HV Hcur'.
    pose proof (ql_run _ _ _ _ _ _ _ _ _ HL) as (p0 & q0 & Hp0 & Hq0 & Hqp0 & Hrun0).
    destruct HL as [H1 H2 H3 H4 H5 H6 H7 H8 H9 H10 H11 H12].
    assert (Hin' : forall x, x ∈ l' <-> x = it \/ x ∈ l).
    { intros x. rewrite El, Hmem, !elem_of_app, elem_of_cons. tauto. }
    assert (Hother : forall u, cur !! u = Some i -> u = t).
    { intros u Hu. destruct (H7 u i Hu) as (? & ? & Hu' & _). congruence. }
    assert (Hne : forall y, y ∈ l -> i_inv y <> i).
    { intros y Hy E. apply Hnin. rewrite <- E. rewrite <- !list_fmap_compose. apply elem_of_list_fmap. by exists y. }
    split; try done.
    - rewrite !app_length. lia.
    - apply list.Forall_forall. intros x Hx. apply Hin' in Hx as [->|Hx]; [done|].
      apply it_ok_app. rewrite list.Forall_forall in H3. by apply H3.
    - assert (HP : (i_c <$> l').*1.*1 ≡ₚ i :: (i_c <$> l1 ++ l2).*1.*1).
      { rewrite El, !fmap_app. simpl. rewrite Hit. simpl. by rewrite <- Permutation_middle. }
      rewrite HP. apply list.NoDup_cons. split; [|by apply Hnd].
      intros Hin. rewrite <- !list_fmap_compose in Hin. apply elem_of_list_fmap in Hin as (y & E & Hy).
      apply (Hne y); [|done]. by apply Hmem.
    - intros x Hx. apply Hin' in Hx as [->|Hx].
      + exists t, o, r, V. rewrite Hit. simpl. split; [done|]. split; [done|]. split; [done|]. right.
        rewrite lookup_insert. done.
      + destruct (H6 x Hx) as (u & o' & r' & V1 & Hic & Hix & Hlx & Hor). exists u, o', r', V1.
        split; [done|]. split; [done|]. split; [by apply low_app|].
        assert (i_x x < length pvs \/ i_k x <> KPop) as Hlx'.
        { destruct (decide (i_k x = KPop)) as [Hk|]; [|by right]. left.
          destruct (qr_lower _ _ _ _ _ _ Hrun0 Hx) as [_ Hl]. specialize (Hl Hk). lia. }
        destruct Hor as [(j & W & Hr & Hj & Hh)|(Hcu & Hp & Hh)].
        * left. exists j, W. split; [done|]. split; [done|]. by apply high_app.
        * right. split; [done|]. assert (u <> t).
          { intros ->. rewrite Hph in Hp. done. }
          rewrite lookup_insert_ne by done. split; [done|]. by apply high_app.
    - intros u k Hu. destruct (H7 u k Hu) as (o' & V1 & Hk & HV1 & Hno & Hor). exists o', V1.
      split; [done|]. split; [done|]. split; [done|]. destruct (decide (u = t)) as [->|Hne'].
      + rewrite lookup_insert. assert (k = i) as -> by congruence. right. exists r, it.
        rewrite Hi in Hk. injection Hk as <- _. split; [done|]. split; [|done]. apply Hin'. by left.
      + rewrite lookup_insert_ne by done. destruct Hor as [Hor|(r' & x & Hd & Hx & Hxc)]; [by left|right].
        exists r', x. split; [done|]. split; [|done]. apply Hin'. by right.
    - intros u. destruct (decide (u = t)) as [->|Hne']; [rewrite Hcur; eauto|].
      rewrite lookup_insert_ne by done. apply H8.
    - intros i1 j1 u o' r' Hc. destruct (H9 _ _ _ _ _ Hc) as (x & Hx & Hxc). exists x. split; [|done].
      apply Hin'. by right.
    - intros x y j u o' r' Hx Hy Hk Hor Hlt Hc.
      apply Hin' in Hy as [->|Hy]; [exfalso; rewrite Hit in Hc; by eapply Hnr|].
      apply Hin' in Hx as [->|Hx]; [rewrite Hit; by eapply Htime|by eapply H11].
    - intros x y j u o' r' Hb Hk Hc. eapply Hlate; [done|done| |done].
      intros ->. rewrite Hit in Hc. by eapply Hnr.
  Qed.

  (** An item at the end. *)
  Lemma ql_snoc tr ph cur l vs pvs hms kv vw t o r i (V : view) it a b d :
    QL tr ph cur l vs pvs hms kv vw -> ph !! t = Some (Pending o) -> cur !! t = Some i ->
    tr !! i = Some (Inv t o, V) -> i_c it = (i, o, r) ->
    length a = length b ->
    (exists p q, length (vs ++ a) = S p /\ length (hms ++ d) = S q /\ q <= p /\ qr (l ++ [it]) 0 0 p q) ->
    it_ok nb (vs ++ a) it ->
    low (pvs ++ b) (hms ++ d) kv it V -> high (pvs ++ b) kv it (vw t) ->
    (forall y, y ∈ l -> i_k it = i_k y -> i_k it = KPush \/ i_k it = KPop -> ~ i_x it < i_x y) ->
    QL tr (<[t := Done o r]> ph) cur (l ++ [it]) (vs ++ a) (pvs ++ b) (hms ++ d) kv vw.
  Proof.
    intros HL Hph Hcur Hi Hit Hab Hrun Hok Hlow Hhigh Hmax.
    destruct (ql_pending _ _ _ _ _ _ _ _ _ t o HL Hph) as (i' & V' & Hcur' & Hi' & HV & Hnin & Hnr).
    assert (i' = i) as -> by congruence.
    eapply (ql_add _ _ _ _ _ _ _ _ _ t o r i V it); try done.
    - exists l, []. rewrite app_nil_r. split; [done|]. by split.
    - intros x y j u o' r' e e' V1 W Hb Hc Hj Hx Hle. apply before_app in Hb as [Hb|[Hb|[_ Hy]]].
      + by eapply (ql_hb _ _ _ _ _ _ _ _ _ HL).
      + destruct Hb as (q1 & q2 & q3 & E). exfalso. apply (f_equal length) in E. rewrite app_length in E. simpl in E.
        rewrite app_length in E. simpl in E. lia.
      + apply elem_of_list_singleton in Hy as ->. rewrite Hit in Hc. exfalso. by eapply Hnr.
    - intros y j u o' r' Hy Hk Hor Hlt. exfalso. by eapply Hmax.
    - intros x y j u o' r' Hb Hk Hy Hc. apply before_app in Hb as [Hb|[Hb|[_ Hy']]].
      + by eapply (ql_late _ _ _ _ _ _ _ _ _ HL).
      + destruct Hb as (q1 & q2 & q3 & E). exfalso. apply (f_equal length) in E. rewrite app_length in E. simpl in E.
        rewrite app_length in E. simpl in E. lia.
      + apply elem_of_list_singleton in Hy'. done.
  Qed.

  Lemma ql_neutral tr ph cur l vs pvs hms kv vw t o r :
    QL tr ph cur l vs pvs hms kv vw -> ph !! t = Some (Pending o) -> (forall a, rqspec nb a o r a) ->
    kv (vw t) < length vs ->
    exists l', QL tr (<[t := Done o r]> ph) cur l' vs pvs hms kv vw.
  Proof.
    intros HL Hph Hn Hkv.
    destruct (ql_pending _ _ _ _ _ _ _ _ _ t o HL Hph) as (i & V & Hcur & Hi & HV & Hnin & Hnr).
    destruct (ql_run _ _ _ _ _ _ _ _ _ HL) as (p & q & Hp & Hq & Hqp & Hrun).
    exists (l ++ [It (i, o, r) (kv V) KNeu]).
    rewrite <- (app_nil_r vs), <- (app_nil_r pvs), <- (app_nil_r hms).
    eapply ql_snoc; try done.
    - rewrite !app_nil_r. exists p, q. split; [done|]. split; [done|]. split; [done|].
      apply qr_app. exists p, q. split; [done|]. simpl. split; [|done].
      pose proof (ql_mono _ _ _ _ _ _ _ _ _ HL _ _ HV). lia.
    - split; [|done]. simpl. by apply (ql_mono _ _ _ _ _ _ _ _ _ HL).
    - intros y Hy Hk [?|?]; done.
  Qed.

  Lemma ql_push tr ph cur l vs pvs hms kv vw t b v i (V : view) p :
    QL tr ph cur l vs pvs hms kv vw -> ph !! t = Some (Pending (Push b v)) -> cur !! t = Some i ->
    tr !! i = Some (Inv t (Push b v), V) -> length vs = S p ->
    kv V <= p -> S p <= kv (vw t) ->
    exists l', QL tr (<[t := Done (Push b v) (RBool true)]> ph) cur l' (vs ++ [v]) (pvs ++ [V]) hms kv vw.
  Proof.
    intros HL Hph Hcur Hi Hlen Hlo Hhi.
    destruct (ql_run _ _ _ _ _ _ _ _ _ HL) as (p' & q & Hp & Hq & Hqp & Hrun).
    assert (p' = p) as -> by lia. pose proof (ql_len _ _ _ _ _ _ _ _ _ HL) as Hl.
    exists (l ++ [It (i, Push b v, RBool true) (S p) KPush]). rewrite <- (app_nil_r hms).
    eapply ql_snoc; try done.
    - exists (S p), q. rewrite app_nil_r, app_length. simpl. split; [lia|]. split; [done|]. split; [lia|].
      apply qr_app. exists p, q. done.
    - exists b, v. split; [done|]. split; [done|]. simpl. rewrite lookup_app_r by lia. by rewrite Hlen, Nat.sub_diag.
    - split; [simpl; lia|]. simpl. rewrite lookup_app_r by lia. by rewrite Hl, Hlen, Nat.sub_diag.
    - intros y Hy Hk _. simpl in *. destruct (qr_lower _ _ _ _ _ _ Hrun Hy) as [H _]. specialize (H ltac:(congruence)). lia.
  Qed.

  Lemma ql_pop tr ph cur l vs pvs hms kv vw t v i (V mv : view) q :
    QL tr ph cur l vs pvs hms kv vw -> ph !! t = Some (Pending Pop) -> cur !! t = Some i ->
    tr !! i = Some (Inv t Pop, V) -> length hms = S q -> vs !! S q = Some v ->
    vle V mv -> S q <= kv (vw t) -> (forall j (W : view), j <= S q -> pvs !! j = Some W -> vle W (vw t)) ->
    exists l', QL tr (<[t := Done Pop (RPop (Some v))]> ph) cur l' vs pvs (hms ++ [mv]) kv vw.
  Proof.
    intros HL Hph Hcur Hi Hlen Hv Hmv Hhi Hpub.
    destruct (ql_run _ _ _ _ _ _ _ _ _ HL) as (p & q' & Hp & Hq & Hqp & Hrun).
    assert (q' = q) as -> by lia. pose proof (lookup_lt_Some _ _ _ Hv) as Hlt.
    exists (l ++ [It (i, Pop, RPop (Some v)) (S q) KPop]). rewrite <- (app_nil_r vs), <- (app_nil_r pvs).
    eapply ql_snoc; try done.
    - exists p, (S q). rewrite app_nil_r, app_length. simpl. split; [lia|]. split; [lia|]. split; [lia|].
      apply qr_app. exists p, q. split; [done|]. simpl. split; [done|]. split; [lia|done].
    - exists v. rewrite app_nil_r. done.
    - exists mv. split; [|done]. simpl. rewrite lookup_app_r by lia. by rewrite Hlen, Nat.sub_diag.
    - rewrite app_nil_r. split; [done|]. intros _ j W Hj HW. by eapply Hpub.
    - intros y Hy Hk _. simpl in *. destruct (qr_lower _ _ _ _ _ _ Hrun Hy) as [_ H]. specialize (H ltac:(congruence)). lia.
  Qed.

  (** A pop that finds the queue empty. *)
  Lemma ql_look tr ph cur l vs pvs hms kv vw t i (V mv : view) e :
    QL tr ph cur l vs pvs hms kv vw -> ph !! t = Some (Pending Pop) -> cur !! t = Some i ->
    tr !! i = Some (Inv t Pop, V) -> hms !! e = Some mv -> kv mv <= e -> kv V <= e -> e <= kv (vw t) ->
    (forall j (W : view), j <= e -> hms !! j = Some W -> vle W mv) ->
    exists l', QL tr (<[t := Done Pop (RPop None)]> ph) cur l' vs pvs hms kv vw.
  Proof.
    intros HL Hph Hcur Hi Hmv Hkmv HkV Hhi Hchain.
    destruct (ql_pending _ _ _ _ _ _ _ _ _ t Pop HL Hph) as (i' & V' & Hcur' & Hi' & HV & Hnin & Hnr).
    assert (i' = i) as -> by congruence. clear V' Hcur' Hi' HV.
    destruct (ql_run _ _ _ _ _ _ _ _ _ HL) as (p & q & Hp & Hq & Hqp & Hrun).
    pose proof (lookup_lt_Some _ _ _ Hmv) as Heq. pose proof (ql_mono _ _ _ _ _ _ _ _ _ HL) as Hmono.
    assert (Hev : forall k ev (U : view), tr !! k = Some (ev, U) -> tr.*1 !! k = Some ev).
    { intros k ev U Hk. by rewrite list_lookup_fmap, Hk. }
    set (it := It (i, Pop, RPop None) e KLook).
    set (l1 := filter (fun x => i_x x <= e) l). set (l2 := filter (fun x => e < i_x x) l).
    assert (Hmem : forall x, x ∈ l <-> x ∈ l1 ++ l2).
    { intros x. unfold l1, l2. rewrite elem_of_app, !elem_of_list_filter. split; [|tauto].
      intros Hx. destruct (decide (i_x x <= e)); [by left|]. right. split; [lia|done]. }
    (* a low item was called without knowledge of the high ones *)
    assert (Hcall : forall x ev (U : view), x ∈ l -> i_x x <= e -> tr !! i_inv x = Some (ev, U) -> kv U <= e).
    { intros x ev U Hx Hxe HU.
      destruct (ql_item _ _ _ _ _ _ _ _ _ HL x Hx) as (u' & o' & r' & Vx & Hic & Hix & Hlx & _).
      rewrite Hix in HU. injection HU as <- <-. unfold low in Hlx. destruct (i_k x).
      - lia.
      - destruct Hlx as (m1 & Hm1 & Hle). pose proof (Hmono _ _ (vle_trans _ _ _ Hle (Hchain _ _ Hxe Hm1))). lia.
      - lia.
      - lia. }
    assert (E1 : p `min` e = e) by lia. assert (E2 : q `min` e = e) by lia.
    pose proof (qr_low e _ _ _ _ _ Hrun) as Hlow. pose proof (qr_high e _ _ _ _ _ Hrun) as Hhigh.
    simpl in Hlow, Hhigh. rewrite E1, E2 in Hlow.
    replace (p `max` e) with p in Hhigh by lia. replace (q `max` e) with q in Hhigh by lia.
    exists (l1 ++ it :: l2).
    rewrite <- (app_nil_r vs), <- (app_nil_r pvs), <- (app_nil_r hms).
    eapply (ql_add tr ph cur l vs pvs hms kv vw t Pop (RPop None) i V it); try done.
    - rewrite !app_nil_r. exists p, q. split; [done|]. split; [done|]. split; [done|].
      apply qr_app. exists e, e. split; [done|]. simpl. done.
    - exists l1, l2. split; [done|]. split; [done|]. intros Hnd.
      rewrite <- !list_fmap_compose in *. eapply NoDup_Permutation_proper; [|exact Hnd].
      apply Permutation_map. unfold l1, l2. clear. induction l as [|x l IH]; [done|].
      rewrite !filter_cons. destruct (decide (i_x x <= e)); [rewrite (decide_False (P := e < i_x x)) by lia|
        rewrite (decide_True (P := e < i_x x)) by lia].
      + simpl. by constructor.
      + rewrite <- Permutation_middle. by constructor.
    - split; [done|]. rewrite app_nil_r. exists mv. done.
    - intros x y j u o r ev ev' U W Hb Hc Hj Hx Hle.
      assert (Hcross : x = it \/ x ∈ l1 -> y ∈ l2 -> False).
      { intros Hx1 Hy2. apply elem_of_list_filter in Hy2 as [Hye Hy].
        destruct (ql_returned _ _ _ _ _ _ _ _ _ _ _ _ _ _ _ _ HL Hy Hc Hj) as (_ & Hky & _).
        pose proof (Hmono _ _ Hle).
        assert (kv U <= e); [|lia]. destruct Hx1 as [->|Hx1].
        - simpl in Hx. rewrite Hi in Hx. by injection Hx as <- <-.
        - apply elem_of_list_filter in Hx1 as [Hxe Hx1]. exact (Hcall _ _ _ Hx1 Hxe Hx). }
      assert (Hyit : y <> it) by (intros ->; by eapply Hnr).
      apply before_app in Hb as [Hb|[Hb|[Hx1 Hy1]]].
      + apply before_filter in Hb. by eapply (ql_hb _ _ _ _ _ _ _ _ _ HL).
      + destruct Hb as ([|z z1] & z2 & z3 & E); simpl in E; injection E as -> E.
        * exfalso. apply Hcross; [by left|]. rewrite E. apply elem_of_app. right. left.
        * assert (Hb : before l2 x y) by (by exists z1, z2, z3). apply before_filter in Hb.
          by eapply (ql_hb _ _ _ _ _ _ _ _ _ HL).
      + exfalso. apply elem_of_cons in Hy1 as [->|Hy1]; [done|]. apply Hcross; [by right|done].
    - intros y j u o' r' _ _ [?|?]; done.
    - intros x y j u o' r' Hb Hk Hy Hc.
      apply before_app in Hb as [Hb|[Hb|[Hx1 Hy1]]].
      + apply before_filter in Hb. by eapply (ql_late _ _ _ _ _ _ _ _ _ HL).
      + destruct Hb as ([|z z1] & z2 & z3 & E); simpl in E; injection E as Ex E; [by rewrite <- Ex in Hk|].
        assert (Hb : before l2 x y) by (by exists z1, z2, z3). apply before_filter in Hb.
        by eapply (ql_late _ _ _ _ _ _ _ _ _ HL).
      + apply elem_of_cons in Hy1 as [->|Hy1]; [done|].
        apply elem_of_list_filter in Hx1 as [Hxe Hx1]. apply elem_of_list_filter in Hy1 as [Hye Hy1].
        destruct (before_total l x y) as [Hb|Hb]; [done|done|intros ->; lia| |].
        * by eapply (ql_late _ _ _ _ _ _ _ _ _ HL).
        * pose proof (qr_push_after _ _ _ _ _ _ _ Hrun ltac:(lia) Hb Hk). lia.
  Qed.

  (** ** The order of a log *)
  Lemma ql_order tr ph cur l vs pvs hms kv vw live :
    QL tr ph cur l vs pvs hms kv vw -> CK tr live vw ->
    exists S b, hb_order nb tr S b /\ handed_over tr S.
  Proof.
    intros HL HC. destruct (ql_run _ _ _ _ _ _ _ _ _ HL) as (p & q & Hp & Hq & Hqp & Hrun).
    pose proof (ql_ok _ _ _ _ _ _ _ _ _ HL) as Hok.
    assert (Hev : forall k ev (U : view), tr !! k = Some (ev, U) -> tr.*1 !! k = Some ev).
    { intros k ev U Hk. by rewrite list_lookup_fmap, Hk. }
    assert (Hdec : forall S1 x S2 y S3, i_c <$> l = S1 ++ x :: S2 ++ y :: S3 ->
      exists l1 ix l2 iy l3, l = l1 ++ ix :: l2 ++ iy :: l3 /\ S1 = i_c <$> l1 /\ S2 = i_c <$> l2 /\
        i_c ix = x /\ i_c iy = y).
    { intros S1 x S2 y S3 E. apply fmap_app_inv in E as (l1 & l' & -> & E & ->).
      destruct l' as [|ix l']; [done|]. simpl in E. injection E as -> E. symmetry in E.
      apply fmap_app_inv in E as (l2 & l'' & -> & E & ->). destruct l'' as [|iy l3]; [done|].
      simpl in E. injection E as -> E. exists l1, ix, l2, iy, l3. done. }
    exists (i_c <$> l), (sub vs q p). split; [split|].
    - apply (ql_nodup _ _ _ _ _ _ _ _ _ HL).
    - intros i o r Hin. apply elem_of_list_fmap in Hin as (it & E & Hin).
      destruct (ql_item _ _ _ _ _ _ _ _ _ HL it Hin) as (u & o' & r' & V & Hic & Hi & _).
      rewrite <- E in *. simpl in *. injection Hic as <- <-. eauto.
    - intros i j t o r Hc. destruct (ql_complete _ _ _ _ _ _ _ _ _ HL _ _ _ _ _ Hc) as (it & Hin & E).
      apply elem_of_list_fmap. by exists it.
    - intros S1 x S2 y S3 j t o r e e' V W E Hc Hj Hi Hhb.
      destruct (Hdec _ _ _ _ _ E) as (l1 & ix & l2 & iy & l3 & El & -> & -> & <- & <-).
      assert (Hb : before l ix iy) by (by exists l1, l2, l3).
      destruct (before_in _ _ _ Hb) as [Hx Hy].
      destruct (ql_returned _ _ _ _ _ _ _ _ _ _ _ _ _ _ _ _ HL Hy Hc Hj) as [He _]. unfold hb in Hhb.
      assert (HVW : vle V W). { eapply ck_close; [exact HC|exact Hj|by eapply ck_ev|]. by rewrite He. }
      pose proof (ql_hb _ _ _ _ _ _ _ _ _ HL _ _ _ _ _ _ _ _ _ _ Hb Hc Hj Hi HVW) as Hlt.
      pose proof (ck_order _ _ _ HC _ _ _ _ _ _ Hlt Hi Hj) as Hck. rewrite He in Hck. lia.
    - intros S1 x S2 y S3 j t o r E Hkind Hc.
      destruct (Hdec _ _ _ _ _ E) as (l1 & ix & l2 & iy & l3 & El & -> & -> & <- & <-).
      assert (Hb : before l ix iy) by (by exists l1, l2, l3).
      destruct (before_in _ _ _ Hb) as [Hx Hy]. rewrite list.Forall_forall in Hok.
      pose proof (Hok _ Hx) as Ox. pose proof (Hok _ Hy) as Oy.
      destruct Hkind as [K1|[K1 K2]].
      { apply (it_ok_put nb vs) in K1; [|done].
        pose proof (ql_late _ _ _ _ _ _ _ _ _ HL _ _ _ _ _ _ Hb K1 Hc). lia. }
      apply (it_ok_take nb vs) in K1, K2; [|done|done].
      assert (i_k ix = i_k iy) as Hk by congruence.
      assert (i_k ix = KPush \/ i_k ix = KPop) as Hor by auto.
      pose proof (qr_before _ _ _ _ _ _ _ Hrun Hb Hk Hor) as Hlt.
      pose proof (ql_time _ _ _ _ _ _ _ _ _ HL _ _ _ _ _ _ Hx Hy Hk Hor Hlt Hc). lia.
    - enough (sub vs 0 0 = []) as <- by (by apply qr_legal). unfold sub. by rewrite Nat.sub_diag.
    - intros S1 x S2 y S3 j t o r e e' V W E Kx Ky Hcnt Hc Hj Hi.
      destruct (Hdec _ _ _ _ _ E) as (l1 & ix & l2 & iy & l3 & El & -> & -> & <- & <-).
      assert (Hb : before l ix iy) by (by exists l1, l2, l3).
      destruct (before_in _ _ _ Hb) as [Hx Hy]. pose proof Hok as Hok'. rewrite list.Forall_forall in Hok'.
      apply (it_ok_put nb vs) in Kx; [|by apply Hok']. apply (it_ok_take nb vs) in Ky; [|by apply Hok'].
      destruct (ql_returned _ _ _ _ _ _ _ _ _ _ _ _ _ _ _ _ HL Hy Hc Hj) as [He [_ Hpub]].
      destruct (ql_item _ _ _ _ _ _ _ _ _ HL ix Hx) as (u & o' & r' & Vx & _ & Hix & Hlow & _).
      rewrite Hix in Hi. injection Hi as <- <-. unfold low in Hlow. rewrite Kx in Hlow.
      eapply (Hpub Ky (i_x ix)); [|apply Hlow].
      (* numbers are counts *)
      rewrite El in Hrun. apply qr_app in Hrun as (p1 & q1 & R1 & R2).
      change (ix :: l2 ++ iy :: l3) with ((ix :: l2) ++ iy :: l3) in R2.
      assert (F1 : Forall (it_ok nb vs) l1 /\ Forall (it_ok nb vs) (ix :: l2)).
      { rewrite El in Hok. change (ix :: l2 ++ iy :: l3) with ((ix :: l2) ++ iy :: l3) in Hok.
        apply Forall_app in Hok as [Hok1 Hok2]. apply Forall_app in Hok2 as [Hok2 _]. done. }
      destruct F1 as [F1 F2].
      apply qr_app in R2 as (p2 & q2 & R2 & R3).
      destruct (qr_count nb vs _ _ _ _ _ R1 F1) as [Ep1 Eq1].
      destruct (qr_count nb vs _ _ _ _ _ R2 F2) as [Ep2 Eq2].
      simpl in R2, R3. rewrite Kx in R2. rewrite Ky in R3. destruct R2 as [-> _]. destruct R3 as [-> _].
      assert (takes ((i_c <$> l1) ++ i_c ix :: (i_c <$> l2)) = takes (i_c <$> l1) + takes (i_c <$> ix :: l2)).
      { unfold takes. rewrite list.filter_app, app_length. done. }
      lia.
  Qed.
End log.
