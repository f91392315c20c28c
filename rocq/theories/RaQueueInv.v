(** * Invariant of the queue on release/acquire memory

    Every node that was ever appended to the queue gets a number (0: the initial
    dummy node); [es] lists what is known about them.  The values of [head_] and
    [tail_] have the same numbers. *)
From stdpp Require Import gmap list numbers.
From Verif Require Import Lin PoolModel Chain PoolProofs QueueModel RaMem RaFacts RaLog RaQueueSpec RaQueueModel.

Set Default Proof Using "Type".

(** An entry: the node, the number of the null link that its constructor stored,
    the element, and the view of the caller of the push. *)
Record ent := Ent { e_n : N; e_l : nat; e_v : val; e_pv : view }.

Definition views (i : root) (w : wmem) : list view :=
  match i with
  | RPool => (w_pool w).*2 ++ [w_poolv w]
  | RHead => (w_head w).*2 ++ [w_headv w]
  | RTail => (w_tail w).*2 ++ [w_tailv w]
  end.
Definition nviews (w : wmem) (n : N) : list view := (w_next w n).*2 ++ [w_nextv w n].

(** All values of the link of [n]. *)
Definition nh (x : qshared) (w : wmem) (n : N) : list (tagged * view) :=
  match q_heap x !! n with Some nd => nhist nd w n | None => [] end.

#[global] Instance root_eq_dec : EqDecision root.
Proof. solve_decision. Defined.

(** The number of links that [V] has seen, from the first entry on. *)
Fixpoint kn (es : list ent) (V : view) : nat :=
  match es with
  | [] => 0
  | e :: es => if decide (S (e_l e) <= V (LNext (e_n e))) then S (kn es V) else 0
  end.

(** ** Facts about histories *)

Lemma set_view_eq vw t V : set_view vw t V t = V.
Proof. unfold set_view. by rewrite decide_True. Qed.
Lemma set_view_ne vw t V u : u <> t -> set_view vw t V u = vw u.
Proof. intros. unfold set_view. by rewrite decide_False. Qed.
Lemma fupd_eq {A} (f : N -> A) n a : fupd f n a n = a.
Proof. unfold fupd. by rewrite decide_True. Qed.
Lemma fupd_ne {A} (f : N -> A) n a m : m <> n -> fupd f n a m = f m.
Proof. intros. unfold fupd. by rewrite decide_False. Qed.

Lemma hist_views i x w : (hist i x w).*2 = views i w.
Proof. destruct i; simpl; by rewrite fmap_app. Qed.
Lemma hist_length i x w : length (hist i x w) = length (views i w).
Proof. by rewrite <- (hist_views i x), fmap_length. Qed.
Lemma views_hist i x w j (mv : view) : views i w !! j = Some mv <-> exists v, hist i x w !! j = Some (v, mv).
Proof.
  rewrite <- (hist_views i x), list_lookup_fmap. destruct (hist i x w !! j) as [[v mv']|]; simpl.
  - split; [intros [= ->]; eauto|intros [v' [= -> ->]]; done].
  - split; [done|intros [v' ?]; done].
Qed.
Lemma hist_view i x w j v (mv : view) : hist i x w !! j = Some (v, mv) -> views i w !! j = Some mv.
Proof. intros H. apply (views_hist i x). eauto. Qed.
Lemma views_in i w j mv : views i w !! j = Some mv -> mv ∈ views i w.
Proof. apply elem_of_list_lookup_2. Qed.

Lemma views_len i w :
  length (views i w) = S (match i with RPool => length (w_pool w) | RHead => length (w_head w) | RTail => length (w_tail w) end).
Proof. destruct i; simpl; rewrite app_length, fmap_length; simpl; lia. Qed.
Lemma views_last i w :
  views i w !! (match i with RPool => length (w_pool w) | RHead => length (w_head w) | RTail => length (w_tail w) end)
    = Some (match i with RPool => w_poolv w | RHead => w_headv w | RTail => w_tailv w end).
Proof.
  destruct i; simpl; rewrite lookup_app_r; rewrite fmap_length; try lia; by rewrite Nat.sub_diag.
Qed.
Lemma hist_last i x w :
  hist i x w !! (match i with RPool => length (w_pool w) | RHead => length (w_head w) | RTail => length (w_tail w) end)
    = Some (match i with RPool => (q_pool x, w_poolv w) | RHead => (q_head x, w_headv w) | RTail => (q_tail x, w_tailv w) end).
Proof.
  destruct i; simpl; setoid_rewrite lookup_app_r; try apply Nat.le_refl; by setoid_rewrite Nat.sub_diag.
Qed.
Lemma hist_last_inv i x w j v (mv : view) :
  hist i x w !! j = Some (v, mv) -> S j = length (hist i x w) ->
  (v, mv) = match i with RPool => (q_pool x, w_poolv w) | RHead => (q_head x, w_headv w) | RTail => (q_tail x, w_tailv w) end.
Proof.
  intros Hj Hl. rewrite hist_length, views_len in Hl. injection Hl as ->. rewrite hist_last in Hj. by injection Hj as <-.
Qed.

Lemma nh_Some x w n nd : q_heap x !! n = Some nd -> nh x w n = w_next w n ++ [(nx nd, w_nextv w n)].
Proof. unfold nh. by intros ->. Qed.
Lemma nh_dom x w n j m : nh x w n !! j = Some m -> exists nd, q_heap x !! n = Some nd.
Proof. unfold nh. destruct (q_heap x !! n); [eauto|done]. Qed.
Lemma nh_len x w n nd : q_heap x !! n = Some nd -> length (nh x w n) = S (length (w_next w n)).
Proof. intros H. rewrite (nh_Some _ _ _ _ H), app_length. simpl. lia. Qed.
Lemma nh_last x w n nd : q_heap x !! n = Some nd -> nh x w n !! length (w_next w n) = Some (nx nd, w_nextv w n).
Proof. intros H. rewrite (nh_Some _ _ _ _ H). setoid_rewrite lookup_app_r; [|apply Nat.le_refl]. by setoid_rewrite Nat.sub_diag. Qed.
Lemma nh_lt x w n j m : nh x w n !! j = Some m -> j <= length (w_next w n).
Proof.
  intros H. destruct (nh_dom _ _ _ _ _ H) as [nd Hnd]. apply lookup_lt_Some in H. rewrite (nh_len _ _ _ _ Hnd) in H. lia.
Qed.
Lemma nh_views x w n j v (mv : view) : nh x w n !! j = Some (v, mv) -> mv ∈ nviews w n.
Proof.
  intros H. destruct (nh_dom _ _ _ _ _ H) as [nd Hnd]. rewrite (nh_Some _ _ _ _ Hnd) in H.
  apply elem_of_list_lookup_2 in H. unfold nviews. apply elem_of_app in H as [H|H].
  - apply elem_of_app. left. apply elem_of_list_fmap. by exists (v, mv).
  - apply elem_of_list_singleton in H. injection H as _ ->. apply elem_of_app. right. left.
Qed.

(** ** Known links *)

Lemma kn_spec es V n :
  n <= kn es V <-> (forall i, i < n -> exists e, es !! i = Some e /\ S (e_l e) <= V (LNext (e_n e))).
Proof.
  revert n. induction es as [|e es IH]; intros n; simpl.
  - split; [intros ? i Hi; lia|]. intros H. destruct n as [|n]; [lia|].
    destruct (H 0 ltac:(lia)) as (e & He & _). done.
  - case_decide as Hd.
    + destruct n as [|n]; [split; [intros ? i Hi; lia|lia]|].
      transitivity (n <= kn es V); [lia|]. rewrite IH. split.
      * intros H i Hi. destruct i as [|i]; [eauto|]. apply (H i). lia.
      * intros H i Hi. apply (H (S i)). lia.
    + split; [intros ? i Hi; lia|]. intros H. destruct n as [|n]; [lia|].
      destruct (H 0 ltac:(lia)) as (e' & He & Hl). simpl in He. injection He as <-. lia.
Qed.
Lemma kn_mono es V W : vle V W -> kn es V <= kn es W.
Proof.
  intros H. apply kn_spec. intros i Hi. destruct (proj1 (kn_spec es V (kn es V)) ltac:(lia) i Hi) as (e & He & Hl).
  exists e. split; [done|]. specialize (H (LNext (e_n e))). lia.
Qed.
Lemma kn_app es r V : kn es V <= kn (es ++ r) V.
Proof.
  apply kn_spec. intros i Hi. destruct (proj1 (kn_spec es V (kn es V)) ltac:(lia) i Hi) as (e & He & Hl).
  exists e. split; [by apply lookup_app_l_Some|done].
Qed.
(** The link of entry [i] has not been seen. *)
Lemma kn_le es V i e : es !! i = Some e -> V (LNext (e_n e)) <= e_l e -> kn es V <= i.
Proof.
  intros He Hl. destruct (decide (kn es V <= i)); [done|]. exfalso.
  destruct (proj1 (kn_spec es V (S i)) ltac:(lia) i ltac:(lia)) as (e' & He' & Hl'). rewrite He in He'. injection He' as <-. lia.
Qed.
Lemma kn_app_eq es r V i e : es !! i = Some e -> V (LNext (e_n e)) <= e_l e -> kn (es ++ r) V = kn es V.
Proof.
  intros He Hl. pose proof (kn_app es r V). pose proof (kn_le (es ++ r) V i e ltac:(by apply lookup_app_l_Some) Hl) as Hi.
  enough (kn (es ++ r) V <= kn es V) by lia. apply kn_spec. intros j Hj.
  destruct (proj1 (kn_spec _ _ _) (Nat.le_refl (kn (es ++ r) V)) j Hj) as (e' & He' & Hl').
  exists e'. split; [|done]. rewrite lookup_app_l in He'; [done|]. apply lookup_lt_Some in He. lia.
Qed.

(** ** Views *)

Record okv (w : wmem) (V : view) : Prop := {
  ok_root : forall i, V (rloc i) < length (views i w);
  ok_cl : forall i j (mv : view), j <= V (rloc i) -> views i w !! j = Some mv -> vle mv V;
  ok_next : forall n, V (LNext n) <= length (w_next w n);
  ok_data : forall n, V (LData n) <= w_acc w n;
}.

Definition freshn (w : wmem) (V : view) (n : N) : Prop := V (LNext n) = length (w_next w n).
Definition freshd (w : wmem) (V : view) (n : N) : Prop := V (LData n) = w_acc w n.
Definition fresh (w : wmem) (V : view) (n : N) : Prop := freshn w V n /\ freshd w V n.

Lemma okv_join w V W : okv w V -> okv w W -> okv w (vjoin V W).
Proof.
  intros [A1 A2 A3 A4] [B1 B2 B3 B4]. unfold vjoin. split.
  - intros i. specialize (A1 i). specialize (B1 i). lia.
  - intros i j mv Hj Hv. destruct (decide (j <= V (rloc i))) as [H|H].
    + intros l. specialize (A2 i j mv H Hv l). lia.
    + intros l. specialize (B2 i j mv ltac:(lia) Hv l). lia.
  - intros n. specialize (A3 n). specialize (B3 n). lia.
  - intros n. specialize (A4 n). specialize (B4 n). lia.
Qed.
Lemma okv_tick w V t : okv w V -> okv w (tick t V).
Proof.
  intros [A1 A2 A3 A4]. unfold tick. split.
  - intros i. rewrite vset_ne by (by destruct i). apply A1.
  - intros i j mv Hj Hv. rewrite vset_ne in Hj by (by destruct i). eapply vle_trans; [by eapply A2|apply vle_tick].
  - intros n. rewrite vset_ne by done. apply A3.
  - intros n. rewrite vset_ne by done. apply A4.
Qed.
Lemma okv_vset_next w V n k : okv w V -> V (LNext n) <= k <= length (w_next w n) -> okv w (vset V (LNext n) k).
Proof.
  intros [A1 A2 A3 A4] Hk. split.
  - intros i. rewrite vset_ne by (by destruct i). apply A1.
  - intros i j mv Hj Hv. rewrite vset_ne in Hj by (by destruct i). eapply vle_trans; [by eapply A2|].
    apply vle_vset. lia.
  - intros m. unfold vset. case_decide as E; [injection E as ->; lia|apply A3].
  - intros m. rewrite vset_ne by done. apply A4.
Qed.
(** A load of an atomic word. *)
Lemma okv_load w V i ts mv :
  okv w V -> okv w mv -> V (rloc i) <= ts -> views i w !! ts = Some mv -> mv (rloc i) = ts ->
  okv w (vjoin (vset V (rloc i) ts) mv).
Proof.
  intros [A1 A2 A3 A4] [B1 B2 B3 B4] Hts Hv Hm. pose proof (vle_vset V (rloc i) ts Hts) as Hle. unfold vjoin. split.
  - intros i'. specialize (A1 i'). specialize (B1 i'). unfold vset. case_decide as E.
    + assert (i' = i) as -> by (by destruct i, i'). lia.
    + lia.
  - intros i' j mv' Hj Hv' l. destruct (decide (j <= mv (rloc i'))) as [H|H].
    + specialize (B2 i' j mv' H Hv' l). lia.
    + destruct (decide (i' = i)) as [->|E].
      * exfalso. rewrite vset_eq in Hj. lia.
      * rewrite vset_ne in Hj by (by destruct i, i'). specialize (A2 i' j mv' ltac:(lia) Hv' l). specialize (Hle l). lia.
  - intros n. rewrite vset_ne by (by destruct i). specialize (A3 n). specialize (B3 n). lia.
  - intros n. rewrite vset_ne by (by destruct i). specialize (A4 n). specialize (B4 n). lia.
Qed.

Lemma okv_ext w w' V :
  okv w V -> (forall i, views i w `prefix_of` views i w') ->
  (forall n, length (w_next w n) <= length (w_next w' n)) -> (forall n, w_acc w n <= w_acc w' n) -> okv w' V.
Proof.
  intros [A1 A2 A3 A4] Hp Hn Ha. split.
  - intros i. eapply Nat.lt_le_trans; [apply A1|]. by apply prefix_length.
  - intros i j mv Hj Hv. apply (A2 i j mv Hj). destruct (Hp i) as [r Hr]. rewrite Hr in Hv.
    rewrite lookup_app_l in Hv; [done|]. specialize (A1 i). lia.
  - intros n. specialize (A3 n). specialize (Hn n). lia.
  - intros n. specialize (A4 n). specialize (Ha n). lia.
Qed.

Lemma freshn_le w V W n : vle V W -> okv w W -> freshn w V n -> freshn w W n.
Proof. unfold freshn. intros H Hw Hf. specialize (H (LNext n)). pose proof (ok_next _ _ Hw n). lia. Qed.
Lemma freshd_le w V W n : vle V W -> okv w W -> freshd w V n -> freshd w W n.
Proof. unfold freshd. intros H Hw Hf. specialize (H (LData n)). pose proof (ok_data _ _ Hw n). lia. Qed.
Lemma fresh_le w V W n : vle V W -> okv w W -> fresh w V n -> fresh w W n.
Proof. intros H Hw [Hn Hd]. split; [by eapply freshn_le|by eapply freshd_le]. Qed.
Lemma okv_tail w V j mv : okv w V -> j <= V (LRoot 2) -> views RTail w !! j = Some mv -> vle mv V.
Proof. intros Hw. apply (ok_cl _ _ Hw RTail). Qed.
Lemma okv_head w V j mv : okv w V -> j <= V (LRoot 1) -> views RHead w !! j = Some mv -> vle mv V.
Proof. intros Hw. apply (ok_cl _ _ Hw RHead). Qed.

(** [V] has seen entry [i]: the node as its constructor left it, the element
    (as long as the node is in the queue), and the links and pushes before. *)
Definition knows (w : wmem) (es : list ent) (i : nat) (V : view) : Prop :=
  exists e, es !! i = Some e /\ e_l e <= V (LNext (e_n e)) /\ i <= kn es V /\ i <= S (V (LRoot 2)) /\
    vle (e_pv e) V /\ (length (w_head w) <= i -> freshd w V (e_n e)).

(** Node [n] is not in the queue and can be written by a thread with view [V]. *)
Definition mine (w : wmem) (es : list ent) (n : N) (V : view) : Prop :=
  fresh w V n /\ (forall i e, es !! i = Some e -> e_n e = n -> i < V (LRoot 1)).

Lemma knows_le w es i V W : vle V W -> okv w W -> knows w es i V -> knows w es i W.
Proof.
  intros H Hw (e & He & H1 & H2 & H3 & H4 & H5). exists e. split; [done|].
  split; [specialize (H (LNext (e_n e))); lia|]. split; [pose proof (kn_mono es V W H); lia|].
  split; [specialize (H (LRoot 2)); lia|]. split; [by eapply vle_trans|].
  intros Hi. eapply freshd_le; eauto.
Qed.
Lemma mine_le w es n V W : vle V W -> okv w W -> mine w es n V -> mine w es n W.
Proof.
  intros H Hw [Hf Hp]. split; [by eapply fresh_le|]. intros i e He Hn. specialize (Hp i e He Hn). specialize (H (LRoot 1)). lia.
Qed.

Section inv.
  Context (c : cfg).
  Notation null := (c_null c).

  Definition known_pool (x : qshared) (w : wmem) (own : gmap N owner) (v : tagged) (V : view) : Prop :=
    (v.2 <= (q_pool x).2)%N /\ (v.1 <> null -> is_Some (q_heap x !! v.1)) /\
    (v.2 = (q_pool x).2 -> v.1 <> null -> own !! v.1 = Some OF /\ freshn w V v.1).

  Record QI (x : qshared) (w : wmem) (es : list ent) (own : gmap N owner) (fn : list N)
      (vw : nat -> view) : Prop := {
    qi_pi : PI c (q_heap x) (q_pool x) own fn;
    qi_dat : forall n nd, q_heap x !! n = Some nd -> length (dat nd) = c_words c;
    qi_ord : length (w_head w) <= length (w_tail w) < length es /\ length es <= S (S (length (w_tail w)));
    qi_head : forall i v (mv : view), hist RHead x w !! i = Some (v, mv) ->
      exists e, es !! i = Some e /\ v = (e_n e, N.of_nat i) /\ i <= mv (LRoot 2);
    qi_tail : forall i v (mv : view), hist RTail x w !! i = Some (v, mv) ->
      exists e, es !! i = Some e /\ v = (e_n e, N.of_nat i) /\ knows w es i mv;
    qi_self : forall i j (mv : view), views i w !! j = Some mv -> mv (rloc i) = j;
    qi_null : forall i e, es !! i = Some e ->
      exists tg (mv : view), nh x w (e_n e) !! e_l e = Some ((null, tg), mv);
    qi_link : forall i e e', es !! i = Some e -> es !! S i = Some e' ->
      exists tg (mv lv : view), nh x w (e_n e) !! e_l e = Some ((null, tg), mv) /\
        nh x w (e_n e) !! S (e_l e) = Some ((e_n e', (tg + 1)%N), lv) /\ knows w es (S i) lv;
    qi_in : forall i e, length (w_head w) <= i -> es !! i = Some e ->
      own !! e_n e = Some OQ /\ (exists nd, q_heap x !! e_n e = Some nd /\ dat nd = e_v e) /\
      length (w_next w (e_n e)) = if decide (S i = length es) then e_l e else S (e_l e);
    qi_dup : forall i j e e', i < j -> es !! i = Some e -> es !! j = Some e' -> e_n e = e_n e' ->
      S (S (e_l e)) <= e_l e';
    qi_tag : forall n i j v v' (mv mv' : view), i <= j -> nh x w n !! i = Some (v, mv) -> nh x w n !! j = Some (v', mv') ->
      (v.2 <= v'.2)%N;
    qi_nself : forall n j v (mv : view), nh x w n !! j = Some (v, mv) -> mv (LNext n) = j;
    qi_past : forall i e j v (mv : view), es !! i = Some e -> nh x w (e_n e) !! j = Some (v, mv) ->
      S (S (e_l e)) <= j -> i < mv (LRoot 1);
    qi_own : forall t n, own !! n = Some (OT t) -> mine w es n (vw t);
    qi_free : forall n, own !! n = Some OF -> mine w es n (w_poolv w);
    qi_pool : forall v (mv : view), (v, mv) ∈ hist RPool x w -> known_pool x w own v mv;
    qi_vw : forall t, okv w (vw t);
    qi_views : forall i (mv : view), mv ∈ views i w -> okv w mv;
    qi_nviews : forall n (mv : view), mv ∈ nviews w n -> okv w mv;
    qi_none : forall n, q_heap x !! n = None -> w_next w n = [] /\ w_nextv w n = v0 /\ w_acc w n = 0;
  }.

  Section facts.
    Context (x : qshared) (w : wmem) (es : list ent) (own : gmap N owner) (fn : list N) (vw : nat -> view).
    Context (HI : QI x w es own fn vw).

    Lemma qi_dom i e : es !! i = Some e -> exists nd, q_heap x !! e_n e = Some nd.
    Proof using HI. intros He. destruct (qi_null _ _ _ _ _ _ HI i e He) as (tg & mv & H). by eapply nh_dom. Qed.
    Lemma qi_nn i e : es !! i = Some e -> e_n e <> null.
    Proof using HI.
      intros He Hn. destruct (qi_dom i e He) as [nd Hnd]. rewrite Hn, (pi_null _ _ _ _ _ (qi_pi _ _ _ _ _ _ HI)) in Hnd. done.
    Qed.
    Lemma qi_okv i j mv : views i w !! j = Some mv -> okv w mv.
    Proof using HI. intros H. eapply (qi_views _ _ _ _ _ _ HI i). by eapply views_in. Qed.
    Lemma qi_okh i j v (mv : view) : hist i x w !! j = Some (v, mv) -> okv w mv.
    Proof using HI. intros H. eapply qi_okv. by eapply hist_view. Qed.
    Lemma qi_okn n j v (mv : view) : nh x w n !! j = Some (v, mv) -> okv w mv.
    Proof using HI. intros H. eapply (qi_nviews _ _ _ _ _ _ HI). by eapply nh_views. Qed.
    Lemma qi_okpool : okv w (w_poolv w).
    Proof using HI. eapply (qi_okv RPool). apply (views_last RPool). Qed.

    (** Someone who has seen value [i] of [tail_] knows entry [i]. *)
    Lemma knows_tail V i : okv w V -> i <= V (LRoot 2) -> knows w es i V.
    Proof using HI.
      intros HV Hi. assert (Hl : i < length (views RTail w)) by (eapply Nat.le_lt_trans; [exact Hi|apply (ok_root _ _ HV RTail)]).
      destruct (lookup_lt_is_Some_2 (views RTail w) i Hl) as [mv Hmv].
      destruct (proj1 (views_hist RTail x w i mv) Hmv) as [v Hv].
      destruct (qi_tail _ _ _ _ _ _ HI i v mv Hv) as (e & _ & _ & Hk).
      eapply knows_le; [|done|done]. by eapply okv_tail.
    Qed.
    (** Someone who has seen value [i] of [head_] has seen value [i] of [tail_]. *)
    Lemma head_tail V i : okv w V -> i <= V (LRoot 1) -> i <= V (LRoot 2).
    Proof using HI.
      intros HV Hi. assert (Hl : i < length (views RHead w)) by (eapply Nat.le_lt_trans; [exact Hi|apply (ok_root _ _ HV RHead)]).
      destruct (lookup_lt_is_Some_2 (views RHead w) i Hl) as [mv Hmv].
      destruct (proj1 (views_hist RHead x w i mv) Hmv) as [v Hv].
      destruct (qi_head _ _ _ _ _ _ HI i v mv Hv) as (e & _ & _ & Hk).
      pose proof (okv_head _ _ _ _ HV Hi Hmv (LRoot 2)). lia.
    Qed.
    Lemma es_last : exists e, es !! (length es - 1) = Some e.
    Proof using HI. apply lookup_lt_is_Some_2. pose proof (qi_ord _ _ _ _ _ _ HI). lia. Qed.

    (** No view has seen a link behind the last entry. *)
    Lemma kn_last e V : es !! (length es - 1) = Some e -> okv w V -> V (LNext (e_n e)) <= e_l e.
    Proof using HI.
      intros He HV. pose proof (qi_ord _ _ _ _ _ _ HI) as Hord.
      destruct (qi_in _ _ _ _ _ _ HI (length es - 1) e ltac:(lia) He) as (_ & _ & Hl).
      rewrite decide_True in Hl by lia. rewrite <- Hl. apply (ok_next _ _ HV).
    Qed.
    Lemma kn_lt V : okv w V -> kn es V < length es.
    Proof using HI.
      intros HV. destruct es_last as [e He]. pose proof (kn_le es V _ e He (kn_last e V He HV)).
      pose proof (lookup_lt_Some _ _ _ He). lia.
    Qed.
    Lemma kn_old V e' : okv w V -> kn (es ++ [e']) V = kn es V.
    Proof using HI. intros HV. destruct es_last as [e He]. eapply kn_app_eq; [done|]. by apply kn_last. Qed.

    (** Entries in the queue are different nodes. *)
    Lemma qi_inj i j e e' :
      length (w_head w) <= i -> i < j -> es !! i = Some e -> es !! j = Some e' -> e_n e <> e_n e'.
    Proof using HI.
      intros Hh Hij He He' Hn. pose proof (qi_dup _ _ _ _ _ _ HI i j e e' Hij He He' Hn) as Hd.
      destruct (qi_in _ _ _ _ _ _ HI i e Hh He) as (_ & _ & Hl).
      destruct (qi_null _ _ _ _ _ _ HI j e' He') as (tg & mv & Hm). apply nh_lt in Hm. rewrite <- Hn, Hl in Hm.
      case_decide; lia.
    Qed.
  End facts.
End inv.
