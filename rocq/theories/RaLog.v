(** * A log of calls that determines an order of them

    Proof method for RaLin.v, independent of any container.  One atomic word
    ([L0]) has one message for every state of the container.  Every call that has
    been decided is in the log with the number of the message (of the state) it
    belongs to: an effective call with the message it wrote, any other call with
    a message it may have seen.  The order is: by message, then by position in
    the log. *)
From stdpp Require Import gmap list numbers.
From Verif Require Import Lin RaMem RaFacts RaLin.

Set Default Proof Using "Type".

Lemma call_returns_app {op ret} (h h' : list (event op ret)) i j t o r :
  call_returns h i j t o r -> call_returns (h ++ h') i j t o r.
Proof.
  intros (H1 & H2 & H3 & H4). split; [by apply lookup_app_l_Some|]. split; [done|].
  split; [by apply lookup_app_l_Some|]. intros k e Hk He. eapply H4; [done|].
  rewrite lookup_app_l in He; [done|]. apply lookup_lt_Some in H3. lia.
Qed.

Lemma fmap_lookup_inv {A B} (f : A -> B) (l : list A) (k : nat) y :
  (f <$> l) !! k = Some y -> exists x, l !! k = Some x /\ y = f x.
Proof. rewrite list_lookup_fmap. destruct (l !! k) as [x|]; simpl; [|done]. intros [= <-]. eauto. Qed.

Section log.
  Context {op ret st : Type}.
  Context (init : st) (spec : st -> op -> ret -> st -> Prop) (L0 : loc).
  Notation vevent := (event op ret * view)%type.
  Notation call := (nat * op * ret)%type.

  Notation neutral := (neutral spec).

  Definition seg (log : list (nat * call)) (k : nat) : list call := (filter (fun e => e.1 = k) log).*2.
  Definition order (log : list (nat * call)) (n : nat) : list call := concat (seg log <$> seq 0 n).
  Definition pre (conts : list st) (k : nat) : st :=
    match k with 0 => init | S k => default init (conts !! k) end.

  Record RL (tr : list vevent) (ph : gmap nat (phase op ret)) (cur : gmap nat nat)
      (log : list (nat * call)) (conts : list st) (msgs : list view) (vw : nat -> view) : Prop := {
    lo_len : length conts = length msgs;
    lo_wf : forall t, vw t L0 < length msgs;
    lo_k : forall k e, (k, e) ∈ log -> k < length msgs;
    lo_legal : forall k a, conts !! k = Some a -> legal spec (pre conts k) (seg log k) a;
    lo_nodup : NoDup (log.*2.*1.*1);
    lo_entry : forall k i o r, (k, (i, o, r)) ∈ log ->
      exists t (V : view), tr !! i = Some (Inv t o, V) /\ V L0 <= k /\
        ((exists j (W : view), call_returns tr.*1 i j t o r /\ tr !! j = Some (Res t r, W) /\ k <= W L0 /\
            (~ neutral o r -> exists mv, msgs !! k = Some mv /\ vle mv W)) \/
         (cur !! t = Some i /\ ph !! t = Some (Done o r) /\ k <= vw t L0 /\
            (~ neutral o r -> exists mv, msgs !! k = Some mv /\ vle mv (vw t))));
    lo_cur : forall t i, cur !! t = Some i ->
      exists o (V : view), tr !! i = Some (Inv t o, V) /\ vle V (vw t) /\
        (forall j e, i < j -> tr.*1 !! j = Some e -> ev_thread e <> t) /\
        (ph !! t = Some (Pending o) \/
         exists r k, ph !! t = Some (Done o r) /\ (k, (i, o, r)) ∈ log);
    lo_ph : forall t, is_Some (ph !! t) -> is_Some (cur !! t);
    lo_complete : forall i j t o r, call_returns tr.*1 i j t o r -> exists k, (k, (i, o, r)) ∈ log;
    lo_order : forall p q k k' x y j t o r, log !! p = Some (k, x) -> log !! q = Some (k', y) -> p < q ->
      call_returns tr.*1 y.1.1 j t o r -> x.1.1 < j;
    lo_eff : forall p q k k' i o r x, log !! p = Some (k, (i, o, r)) -> effective spec o r ->
      q < p -> log !! q = Some (k', x) -> k' < k;
    lo_pub : forall k k' i o r e (V mv : view), (k, (i, o, r)) ∈ log -> effective spec o r ->
      tr !! i = Some (e, V) -> msgs !! k' = Some mv -> k <= k' -> vle V mv;
  }.

  (** Vector clocks: [live] are the views that threads, events and messages have. *)
  Record CK (tr : list vevent) (live : view -> Prop) (vw : nat -> view) : Prop := {
    ck_close : forall p e (V W : view), tr !! p = Some (e, V) -> live W ->
      V (LClk (ev_thread e)) <= W (LClk (ev_thread e)) -> vle V W;
    ck_max : forall W t, live W -> W (LClk t) <= vw t (LClk t);
    ck_order : forall p q e e' (V W : view), p < q -> tr !! p = Some (e, V) -> tr !! q = Some (e', W) ->
      V (LClk (ev_thread e')) < W (LClk (ev_thread e'));
    ck_vw : forall t, live (vw t);
    ck_ev : forall p e (V : view), tr !! p = Some (e, V) -> live V;
  }.

  (** ** Segments *)

  Lemma seg_snoc log k e k' : seg (log ++ [(k, e)]) k' = seg log k' ++ if decide (k = k') then [e] else [].
  Proof.
    unfold seg. rewrite list.filter_app, fmap_app. f_equal. rewrite filter_cons. simpl.
    case_decide; done.
  Qed.

  Lemma elem_of_seg log k e : e ∈ seg log k <-> (k, e) ∈ log.
  Proof.
    unfold seg. rewrite elem_of_list_fmap. split.
    - intros ([k' e'] & -> & Hin). apply elem_of_list_filter in Hin as [Hk Hin]. simpl in *. by subst.
    - intros Hin. exists (k, e). split; [done|]. by apply elem_of_list_filter.
  Qed.

  Lemma order_S log n : order log (S n) = order log n ++ seg log n.
  Proof.
    unfold order. rewrite seq_S, fmap_app, concat_app. simpl. by rewrite app_nil_r.
  Qed.

  Lemma elem_of_order log n e : e ∈ order log n <-> exists k, k < n /\ (k, e) ∈ log.
  Proof.
    induction n as [|n IH].
    - split; [intros H; by apply elem_of_nil in H|intros (k & ? & _); lia].
    - rewrite order_S, elem_of_app, IH, elem_of_seg. split.
      + intros [(k & Hk & Hin)|Hin]; eauto with lia.
      + intros (k & Hk & Hin). destruct (decide (k = n)) as [->|]; [by right|].
        left. exists k. split; [lia|done].
  Qed.

  (** [x] comes before [y]. *)
  Definition comes (log : list (nat * call)) (x y : call) : Prop :=
    exists p q kx ky, log !! p = Some (kx, x) /\ log !! q = Some (ky, y) /\
      (kx < ky \/ (kx = ky /\ p < q)).

  Lemma comes_app log l x y : comes log x y -> comes (log ++ l) x y.
  Proof.
    intros (p & q & kx & ky & H1 & H2 & H3). exists p, q, kx, ky.
    split; [by apply lookup_app_l_Some|]. split; [by apply lookup_app_l_Some|done].
  Qed.

  Lemma comes_seg log k a b x y :
    seg log k !! a = Some x -> seg log k !! b = Some y -> a < b -> comes log x y.
  Proof.
    revert a b. induction log as [|[k' e] log IH] using rev_ind; intros a b Ha Hb Hab.
    - unfold seg in Ha. by rewrite filter_nil in Ha.
    - rewrite seg_snoc in Ha, Hb.
      destruct (decide (k' = k)) as [->|Hne]; [|rewrite app_nil_r in Ha, Hb; by eapply comes_app, IH].
      apply lookup_snoc_inv in Ha as [[Ha _]|[-> ->]].
      + apply lookup_snoc_inv in Hb as [[Hb _]|[-> ->]]; [by eapply comes_app, IH|].
        apply elem_of_list_lookup_2, elem_of_seg, elem_of_list_lookup in Ha as [p Hp].
        exists p, (length log), k, k. split; [by apply lookup_app_l_Some|].
        split; [|right; split; [done|by eapply lookup_lt_Some]].
        rewrite lookup_app_r, Nat.sub_diag by lia. done.
      + apply lookup_snoc_inv in Hb as [[Hb ?]|[-> _]]; lia.
  Qed.

  Lemma comes_order log n a b x y :
    order log n !! a = Some x -> order log n !! b = Some y -> a < b -> comes log x y.
  Proof.
    revert a b. induction n as [|n IH]; intros a b Ha Hb Hab; [done|].
    rewrite order_S in Ha, Hb.
    apply lookup_app_Some in Ha as [Ha|[Hla Ha]]; apply lookup_app_Some in Hb as [Hb|[Hlb Hb]].
    - by eapply IH.
    - apply elem_of_list_lookup_2, elem_of_order in Ha as (k & Hk & Hin).
      apply elem_of_list_lookup in Hin as [p Hp].
      apply elem_of_list_lookup_2, elem_of_seg, elem_of_list_lookup in Hb as [q Hq].
      exists p, q, k, n. auto.
    - apply lookup_lt_Some in Hb. lia.
    - eapply comes_seg; [exact Ha|exact Hb|lia].
  Qed.

  Lemma nodup_order log n : NoDup (log.*2.*1.*1) -> NoDup ((order log n).*1.*1).
  Proof.
    intros Hnd. rewrite <- list_fmap_compose. rewrite <- list_fmap_compose in Hnd.
    apply NoDup_alt. intros a b z Ha Hb.
    apply fmap_lookup_inv in Ha as (x & Ha & ->). apply fmap_lookup_inv in Hb as (y & Hb & E).
    assert (Hc : forall a b x y, order log n !! a = Some x -> order log n !! b = Some y -> a < b ->
      x.1.1 <> y.1.1).
    { clear -Hnd. intros a b x y Ha Hb Hab E. destruct (comes_order _ _ _ _ _ _ Ha Hb Hab)
        as (p & q & kx & ky & Hp & Hq & Hor).
      assert (p = q) as <-.
      { rewrite <- list_fmap_compose in Hnd. eapply NoDup_lookup; [exact Hnd| |];
          rewrite list_lookup_fmap; [rewrite Hp|rewrite Hq]; simpl; by rewrite ?E. }
      rewrite Hp in Hq. injection Hq as ? ?. lia. }
    destruct (decide (a = b)) as [->|Hne]; [done|]. exfalso.
    destruct (decide (a < b)); [by eapply (Hc a b)|]. eapply (Hc b a); eauto. lia.
  Qed.

  Lemma legal_app2 a S1 b S2 d : legal spec a S1 b -> legal spec b S2 d -> legal spec a (S1 ++ S2) d.
  Proof. induction 1; simpl; [done|]. intros. econstructor; eauto. Qed.

  Lemma legal_order tr ph cur log conts msgs vw n a :
    RL tr ph cur log conts msgs vw -> conts !! n = Some a -> legal spec init (order log (S n)) a.
  Proof.
    intros HL. revert a. induction n as [|n IH]; intros a Hn; rewrite order_S.
    - simpl. apply (lo_legal _ _ _ _ _ _ _ HL 0 a Hn).
    - destruct (lookup_lt_is_Some_2 conts n) as [b Hb]; [apply lookup_lt_Some in Hn; lia|].
      eapply legal_app2; [by apply IH|]. pose proof (lo_legal _ _ _ _ _ _ _ HL (S n) a Hn) as Hl.
      simpl in Hl. by rewrite Hb in Hl.
  Qed.

  (** ** The order of a log *)

  Lemma lo_order_ok tr ph cur log conts msgs vw live :
    RL tr ph cur log conts msgs vw -> CK tr live vw ->
    exists S b, list.last conts = Some b /\ ra_order init spec tr S b /\ published spec tr S.
  Proof.
    intros HL HC. pose proof (lo_wf _ _ _ _ _ _ _ HL 0) as Hpos.
    destruct (length msgs) as [|n] eqn:Hn; [lia|].
    pose proof (lo_len _ _ _ _ _ _ _ HL) as Hlen.
    destruct (lookup_lt_is_Some_2 conts n) as [b Hb]; [lia|].
    assert (Hdec : forall S1 x S2 y S3, order log (S n) = S1 ++ x :: S2 ++ y :: S3 -> comes log x y).
    { intros S1 x S2 y S3 HS. apply (comes_order log (S n) (length S1) (length S1 + S (length S2))).
      - rewrite HS, lookup_app_r, Nat.sub_diag by lia. done.
      - rewrite HS, lookup_app_r by lia. replace (_ - _) with (S (length S2)) by lia. simpl.
        rewrite lookup_app_r, Nat.sub_diag by lia. done.
      - lia. }
    assert (Hev : forall i e (V : view), tr !! i = Some (e, V) -> tr.*1 !! i = Some e).
    { intros i e V Hi. by rewrite list_lookup_fmap, Hi. }
    (* an entry that has returned *)
    assert (Hret : forall k i o r j t o' r' e (W : view), (k, (i, o, r)) ∈ log -> call_returns tr.*1 i j t o' r' ->
      tr !! j = Some (e, W) -> ev_thread e = t /\ k <= W L0 /\
        (~ neutral o r -> exists mv, msgs !! k = Some mv /\ vle mv W)).
    { intros k i o r j t o' r' e W Hin Hc Hj.
      destruct (lo_entry _ _ _ _ _ _ _ HL _ _ _ _ Hin) as (u & V & Hi & HV & Hor).
      destruct Hc as (C1 & C2 & C3 & C4). rewrite (Hev _ _ _ Hi) in C1. simplify_eq.
      rewrite (Hev _ _ _ Hj) in C3. simplify_eq.
      destruct Hor as [(j' & W' & (D1 & D2 & D3 & D4) & Hj' & HW & Hs)|(Hcur & _)].
      - assert (j' = j) as ->.
        { destruct (decide (j' < j)) as [Hlt|].
          - exfalso. by eapply (C4 j' _ (conj D2 Hlt) D3).
          - destruct (decide (j < j')) as [Hlt|]; [|lia]. exfalso.
            by eapply (D4 j _ (conj C2 Hlt) (Hev _ _ _ Hj)). }
        simplify_eq. done.
      - exfalso. destruct (lo_cur _ _ _ _ _ _ _ HL _ _ Hcur) as (o2 & V2 & _ & _ & Hno & _).
        by eapply (Hno j _ C2 (Hev _ _ _ Hj)). }
    exists (order log (S n)), b. split; [rewrite last_lookup; by replace (pred (length conts)) with n by lia|].
    split; [split|].
    - apply nodup_order, HL.
    - intros i o r Hin. apply elem_of_order in Hin as (k & _ & Hin).
      destruct (lo_entry _ _ _ _ _ _ _ HL _ _ _ _ Hin) as (t & V & Hi & _). eauto.
    - intros i j t o r Hc. destruct (lo_complete _ _ _ _ _ _ _ HL _ _ _ _ _ Hc) as [k Hk].
      apply elem_of_order. exists k. split; [|done]. rewrite <- Hn. by apply (lo_k _ _ _ _ _ _ _ HL _ _ Hk).
    - (* happens-before *)
      intros S1 x S2 y S3 j t o r e e' V W HS Hc Hj Hi Hhb.
      destruct (Hdec _ _ _ _ _ HS) as (p & q & kx & ky & Hp & Hq & Hor).
      destruct x as [[ix ox] rx]. destruct y as [[iy oy] ry]. simpl in *.
      assert (Hinx : (kx, (ix, ox, rx)) ∈ log) by (by eapply elem_of_list_lookup_2).
      assert (Hiny : (ky, (iy, oy, ry)) ∈ log) by (by eapply elem_of_list_lookup_2).
      destruct (Hret _ _ _ _ _ _ _ _ _ _ Hiny Hc Hj) as (He & Hky & _).
      destruct (lo_entry _ _ _ _ _ _ _ HL _ _ _ _ Hinx) as (tx & Vx & Hix & HVx & _).
      rewrite Hix in Hi. injection Hi as <- <-. unfold hb in Hhb.
      assert (HVW : vle V Vx).
      { eapply ck_close; [exact HC|exact Hj|by eapply ck_ev|]. by rewrite He. }
      assert (Hji : j < ix).
      { destruct (decide (j < ix)) as [|Hnl]; [done|]. exfalso.
        destruct (decide (j = ix)) as [->|].
        - destruct Hc as (_ & _ & C3 & _). rewrite (Hev _ _ _ Hix) in C3. done.
        - pose proof (ck_order _ _ _ HC ix j _ _ _ _ ltac:(lia) Hix Hj) as Hlt. rewrite He in Hlt. lia. }
      pose proof (HVW L0). destruct Hor as [Hor|[Hkk Hpq]]; [lia|].
      pose proof (lo_order _ _ _ _ _ _ _ HL p q _ _ _ _ _ _ _ _ Hp Hq Hpq Hc). simpl in *. lia.
    - (* real time, effective calls *)
      intros S1 x S2 y S3 j t o r HS Heff Hc.
      destruct (Hdec _ _ _ _ _ HS) as (p & q & kx & ky & Hp & Hq & Hor).
      destruct x as [[ix ox] rx]. simpl in *.
      assert (Hpq : p < q).
      { destruct Hor as [Hk|[_ Hpq]]; [|done]. destruct (decide (p < q)) as [|Hnl]; [done|]. exfalso.
        destruct (decide (p = q)) as [->|]; [rewrite Hp in Hq; simplify_eq; lia|].
        pose proof (lo_eff _ _ _ _ _ _ _ HL p q _ _ _ _ _ _ Hp Heff ltac:(lia) Hq). lia. }
      pose proof (lo_order _ _ _ _ _ _ _ HL p q _ _ _ _ _ _ _ _ Hp Hq Hpq Hc). simpl in *. lia.
    - by eapply legal_order.
    - (* publication *)
      intros S1 x S2 y S3 j t o r e e' V W HS Heff Hneu Hc Hj Hi.
      destruct (Hdec _ _ _ _ _ HS) as (p & q & kx & ky & Hp & Hq & Hor).
      destruct x as [[ix ox] rx]. destruct y as [[iy oy] ry]. simpl in *.
      assert (Hinx : (kx, (ix, ox, rx)) ∈ log) by (by eapply elem_of_list_lookup_2).
      assert (Hiny : (ky, (iy, oy, ry)) ∈ log) by (by eapply elem_of_list_lookup_2).
      destruct (Hret _ _ _ _ _ _ _ _ _ _ Hiny Hc Hj) as (He & Hky & Hs).
      destruct (Hs Hneu) as (mv & Hmv & Hle).
      pose proof (lo_pub _ _ _ _ _ _ _ HL kx ky _ _ _ _ _ _ Hinx Heff Hi Hmv ltac:(lia)) as Hle'.
      intros l. specialize (Hle l). specialize (Hle' l). lia.
  Qed.

  (** ** Steps *)

  Lemma set_view_le vw t V u : vle (vw t) V -> vle (vw u) (set_view vw t V u).
  Proof.
    intros Hle. unfold set_view. case_decide; [by subst|]. intros l. lia.
  Qed.

  (** Views grow. *)
  Lemma lo_view tr ph cur log conts msgs vw t V :
    RL tr ph cur log conts msgs vw -> vle (vw t) V -> V L0 < length msgs ->
    RL tr ph cur log conts msgs (set_view vw t V).
  Proof.
    intros HL Hle HV. destruct HL as [H1 H2 H3 H4 H5 H6 H7 H8 H9 H10 H11 H12]. split; try done.
    - intros u. unfold set_view. case_decide; [done|apply H2].
    - intros k i o r Hin. destruct (H6 k i o r Hin) as (u & V0 & Hi & HV0 & Hor). exists u, V0.
      split; [done|]. split; [done|]. destruct Hor as [Hor|(Hc & Hp & Hk & Hs)]; [by left|right].
      split; [done|]. split; [done|]. pose proof (set_view_le vw t V u Hle) as Hu. split.
      + specialize (Hu L0). lia.
      + intros Hn. destruct (Hs Hn) as (mv & Hmv & Hmle). exists mv. split; [done|]. by eapply vle_trans.
    - intros u i Hc. destruct (H7 u i Hc) as (o & V0 & Hi & HV0 & Hno & Hor). exists o, V0.
      split; [done|]. split; [|done]. eapply vle_trans; [done|]. by apply set_view_le.
  Qed.

  (** A call. *)
  Lemma lo_inv tr ph cur log conts msgs vw t o V :
    RL tr ph cur log conts msgs vw -> ph !! t = None -> vle (vw t) V -> V L0 = vw t L0 ->
    RL (tr ++ [(Inv t o, V)]) (<[t := Pending o]> ph) (<[t := length tr]> cur) log conts msgs (set_view vw t V).
  Proof.
    intros HL Hph Hle HV.
    assert (Hcur : cur !! t = None).
    { destruct (cur !! t) as [i|] eqn:Hc; [|done].
      destruct (lo_cur _ _ _ _ _ _ _ HL _ _ Hc) as (? & ? & _ & _ & _ & [Hp|(? & ? & Hp & _)]); congruence. }
    pose proof (lo_view _ _ _ _ _ _ _ t V HL Hle ltac:(rewrite HV; apply HL)) as HL'.
    destruct HL' as [H1 H2 H3 H4 H5 H6 H7 H8 H9 H10 H11 H12].
    assert (Hcr : forall i j u o' r, call_returns (tr ++ [(Inv t o, V)]).*1 i j u o' r ->
      call_returns tr.*1 i j u o' r).
    { intros i j u o' r Hc. rewrite fmap_app in Hc. apply call_returns_snoc in Hc as [Hc|(_ & ? & _)]; done. }
    split; try done.
    - intros k i o' r Hin. destruct (H6 k i o' r Hin) as (u & V0 & Hi & HV0 & Hor). exists u, V0.
      split; [by apply lookup_app_l_Some|]. split; [done|].
      destruct Hor as [(j & W & Hc & Hj & Hrest)|(Hc & Hp & Hrest)].
      + left. exists j, W. rewrite fmap_app. split; [by apply call_returns_app|].
        split; [by apply lookup_app_l_Some|done].
      + right. assert (t <> u) by congruence. rewrite !lookup_insert_ne by done. done.
    - intros u i. destruct (decide (u = t)) as [->|Hne].
      + rewrite lookup_insert. intros [= <-]. exists o, V. rewrite lookup_insert.
        split; [by rewrite lookup_app_r, Nat.sub_diag by lia|].
        split; [unfold set_view; rewrite decide_True by done; intros l; lia|].
        split; [|by left]. intros j e Hj He. apply lookup_lt_Some in He.
        rewrite fmap_length, app_length in He. simpl in He. lia.
      + rewrite !lookup_insert_ne by done. intros Hc.
        destruct (H7 u i Hc) as (o' & V0 & Hi & HV0 & Hno & Hor). exists o', V0.
        split; [by apply lookup_app_l_Some|]. split; [done|]. split; [|done].
        intros j e Hj He. rewrite fmap_app in He. apply lookup_snoc_inv in He as [[He _]|[_ ->]]; [by eapply Hno|done].
    - intros u. destruct (decide (u = t)) as [->|Hne]; [rewrite !lookup_insert; eauto|].
      rewrite !lookup_insert_ne by done. apply H8.
    - intros i j u o' r Hc. by eapply H9, Hcr.
    - intros p q k k' x y j u o' r Hp Hq Hpq Hc. by eapply H10, Hcr.
    - intros k k' i o' r e V0 mv Hin He Hi. destruct (H6 k i o' r Hin) as (u & V1 & Hi' & _).
      rewrite lookup_app_l in Hi by (by eapply lookup_lt_Some). by eapply H12.
  Qed.

  (** A return. *)
  Lemma lo_res tr ph cur log conts msgs vw t o r V :
    RL tr ph cur log conts msgs vw -> ph !! t = Some (Done o r) -> vle (vw t) V -> V L0 = vw t L0 ->
    RL (tr ++ [(Res t r, V)]) (delete t ph) (delete t cur) log conts msgs (set_view vw t V).
  Proof.
    intros HL Hph Hle HV.
    destruct (lo_ph _ _ _ _ _ _ _ HL t) as [i0 Hcur]; [eauto|].
    pose proof (lo_view _ _ _ _ _ _ _ t V HL Hle ltac:(rewrite HV; apply HL)) as HL'.
    destruct HL' as [H1 H2 H3 H4 H5 H6 H7 H8 H9 H10 H11 H12].
    destruct (H7 _ _ Hcur) as (o0 & V0 & Hi0 & HV0 & Hno0 & [?|(r0 & k0 & Hd & Hin0)]); [congruence|].
    rewrite Hph in Hd. injection Hd as <- <-.
    assert (HR0 : call_returns (tr ++ [(Res t r, V)]).*1 i0 (length tr) t o r).
    { rewrite fmap_app. pose proof (lookup_lt_Some _ _ _ Hi0).
      split; [apply lookup_app_l_Some; by rewrite list_lookup_fmap, Hi0|]. split; [done|].
      split; [rewrite lookup_app_r, fmap_length, Nat.sub_diag by (rewrite fmap_length; lia); done|].
      intros k e [Hk1 Hk2] He. rewrite lookup_app_l in He by (by rewrite fmap_length). by eapply Hno0. }
    assert (Hcr : forall i j u o' r', call_returns (tr ++ [(Res t r, V)]).*1 i j u o' r' ->
      call_returns tr.*1 i j u o' r' \/ (i = i0 /\ j = length tr /\ o' = o /\ r' = r)).
    { intros i j u o' r' Hc. pose proof Hc as Hc0. rewrite fmap_app in Hc.
      apply call_returns_snoc in Hc as [Hc|(-> & He & Hi & Hlt & Hno)]; [by left|right]. rewrite fmap_length in *.
      simpl in He. injection He as -> ->.
      destruct HR0 as (R1 & R2 & R3 & R4). destruct Hc0 as (C1 & C2 & C3 & C4).
      assert (i = i0) as ->.
      { destruct (decide (i < i0)) as [Hl|].
        - exfalso. by eapply (C4 i0 _ (conj Hl R2) R1).
        - destruct (decide (i0 < i)) as [Hl|]; [|lia]. exfalso. by eapply (R4 i _ (conj Hl C2) C1). }
      rewrite R1 in C1. by injection C1. }
    split; try done.
    - intros k i o' r' Hin. destruct (H6 k i o' r' Hin) as (u & V1 & Hi & HV1 & Hor). exists u, V1.
      split; [by apply lookup_app_l_Some|]. split; [done|].
      destruct Hor as [(j & W & Hc & Hj & Hrest)|(Hc & Hp & Hk & Hs)].
      + left. exists j, W. rewrite fmap_app. split; [by apply call_returns_app|].
        split; [by apply lookup_app_l_Some|done].
      + destruct (decide (u = t)) as [->|Hne].
        * left. simplify_eq. exists (length tr), V. split; [done|].
          split; [by rewrite lookup_app_r, Nat.sub_diag by lia|].
          unfold set_view in Hk, Hs. rewrite decide_True in Hk by done. rewrite decide_True in Hs by done. done.
        * right. rewrite !lookup_delete_ne by done. done.
    - intros u i. destruct (decide (u = t)) as [->|Hne]; [by rewrite lookup_delete|].
      rewrite !lookup_delete_ne by done. intros Hc.
      destruct (H7 u i Hc) as (o' & V1 & Hi & HV1 & Hno & Hor). exists o', V1.
      split; [by apply lookup_app_l_Some|]. split; [done|]. split; [|done].
      intros j e Hj He. rewrite fmap_app in He. apply lookup_snoc_inv in He as [[He _]|[_ ->]]; [by eapply Hno|done].
    - intros u. destruct (decide (u = t)) as [->|Hne]; [rewrite lookup_delete; by intros [? ?]|].
      rewrite !lookup_delete_ne by done. apply H8.
    - intros i j u o' r' Hc. apply Hcr in Hc as [Hc|(-> & -> & -> & ->)]; [by eapply H9|eauto].
    - intros p q k k' x y j u o' r' Hp Hq Hpq Hc. apply Hcr in Hc as [Hc|(_ & -> & _)]; [by eapply H10|].
      destruct x as [[ix ox] rx]. apply elem_of_list_lookup_2 in Hp.
      destruct (H6 _ _ _ _ Hp) as (? & ? & Hix & _). by eapply lookup_lt_Some.
    - intros k k' i o' r' e V1 mv Hin He Hi. destruct (H6 k i o' r' Hin) as (u & V2 & Hi' & _).
      rewrite lookup_app_l in Hi by (by eapply lookup_lt_Some). by eapply H12.
  Qed.

  (** Facts about a pending call. *)
  Lemma lo_pending tr ph cur log conts msgs vw t o :
    RL tr ph cur log conts msgs vw -> ph !! t = Some (Pending o) ->
    exists i V, cur !! t = Some i /\ tr !! i = Some (Inv t o, V) /\ vle V (vw t) /\
      i ∉ log.*2.*1.*1 /\ (forall j u o' r, ~ call_returns tr.*1 i j u o' r).
  Proof.
    intros HL Hph. destruct (lo_ph _ _ _ _ _ _ _ HL t) as [i Hcur]; [eauto|].
    destruct (lo_cur _ _ _ _ _ _ _ HL _ _ Hcur) as (o0 & V & Hi & HV & Hno & [Hp|(? & ? & Hp & _)]); [|congruence].
    rewrite Hph in Hp. injection Hp as <-.
    assert (Hnr : forall j u o' r, ~ call_returns tr.*1 i j u o' r).
    { intros j u o' r (C1 & C2 & C3 & _). rewrite list_lookup_fmap, Hi in C1. simpl in C1. simplify_eq.
      by eapply (Hno j _ C2 C3). }
    exists i, V. split; [done|]. split; [done|]. split; [done|]. split; [|done].
    intros Hin. rewrite <- !list_fmap_compose in Hin. apply elem_of_list_fmap in Hin as ([k [[i' o'] r]] & Hi' & Hin).
    simpl in Hi'. subst i'. destruct (lo_entry _ _ _ _ _ _ _ HL _ _ _ _ Hin) as (u & V' & Hu & _ & Hor).
    rewrite Hi in Hu. simplify_eq. destruct Hor as [(j & W & Hc & _)|(_ & Hd & _)]; [by eapply Hnr|congruence].
  Qed.

  Lemma not_eff_spec a o r : spec a o r a -> ~ effective spec o r.
  Proof. intros Hs He. by apply (He a). Qed.

  Lemma legal_snoc a S b i o r d :
    legal spec a S b -> spec b o r d -> legal spec a (S ++ [(i, o, r)]) d.
  Proof. intros H1 H2. eapply legal_app2; [done|]. econstructor; [done|constructor]. Qed.

  (** A call is decided that does not change the state. *)
  Lemma lo_look tr ph cur log conts msgs vw t o r V k a :
    RL tr ph cur log conts msgs vw -> ph !! t = Some (Pending o) -> vle (vw t) V -> V L0 < length msgs ->
    vw t L0 <= k <= V L0 -> conts !! k = Some a -> spec a o r a ->
    (~ neutral o r -> exists mv, msgs !! k = Some mv /\ vle mv V) ->
    exists log', RL tr (<[t := Done o r]> ph) cur log' conts msgs (set_view vw t V).
  Proof.
    intros HL Hph Hle HV [Hk1 Hk2] Ha Hs Hmv.
    destruct (lo_pending _ _ _ _ _ _ _ t o HL Hph) as (i & Vi & Hcur & Hi & HVi & Hni & Hnr).
    exists (log ++ [(k, (i, o, r))]).
    pose proof (lo_view _ _ _ _ _ _ _ t V HL Hle HV) as HL'.
    destruct HL' as [H1 H2 H3 H4 H5 H6 H7 H8 H9 H10 H11 H12].
    assert (Hkl : k < length msgs) by (rewrite <- H1; by eapply lookup_lt_Some).
    split; try done.
    - intros k' e Hin. apply elem_of_app in Hin as [Hin|Hin]; [by eapply H3|].
      apply elem_of_list_singleton in Hin. by simplify_eq.
    - intros k' b Hb. rewrite seg_snoc. case_decide; [subst k'|rewrite app_nil_r; by apply H4].
      rewrite Ha in Hb. injection Hb as <-. eapply legal_snoc; [by apply H4|done].
    - rewrite !fmap_app. apply NoDup_app. split; [done|]. split; [|apply NoDup_singleton].
      intros j Hj Hj'. apply elem_of_list_singleton in Hj'. simpl in Hj'. by subst j.
    - intros k' i' o' r' Hin. apply elem_of_app in Hin as [Hin|Hin].
      + destruct (H6 k' i' o' r' Hin) as (u & V0 & Hi' & HV0 & Hor). exists u, V0.
        split; [done|]. split; [done|]. destruct Hor as [Hor|(Hc & Hp & Hrest)]; [by left|right].
        rewrite lookup_insert_ne; [done|]. intros ->. congruence.
      + apply elem_of_list_singleton in Hin. simplify_eq. exists t, Vi. split; [done|].
        pose proof (HVi L0). split; [lia|]. right. split; [done|]. rewrite lookup_insert.
        unfold set_view. rewrite decide_True by done. split; [done|]. split; [lia|done].
    - intros u j Hc. destruct (H7 u j Hc) as (o' & V0 & Hj & HV0 & Hno & Hor). exists o', V0.
      split; [done|]. split; [done|]. split; [done|]. destruct (decide (u = t)) as [->|Hne].
      + simplify_eq. right. exists r, k. rewrite lookup_insert. split; [done|].
        apply elem_of_app. right. by apply elem_of_list_singleton.
      + rewrite lookup_insert_ne by done. destruct Hor as [Hp|(r' & k' & Hp & Hin)]; [by left|right].
        exists r', k'. split; [done|]. apply elem_of_app. by left.
    - intros u. destruct (decide (u = t)) as [->|Hne]; [rewrite Hcur; eauto|].
      rewrite lookup_insert_ne by done. apply H8.
    - intros i' j u o' r' Hc. destruct (H9 _ _ _ _ _ Hc) as [k' Hk']. exists k'. apply elem_of_app. by left.
    - intros p q k1 k2 x y j u o' r' Hp Hq Hpq Hc.
      apply lookup_snoc_inv in Hq as [[Hq _]|[_ Hq]].
      + apply lookup_snoc_inv in Hp as [[Hp _]|[-> _]]; [by eapply H10|]. apply lookup_lt_Some in Hq. lia.
      + injection Hq as -> ->. simpl in Hc. by apply Hnr in Hc.
    - intros p q k1 k2 i' o' r' x Hp He Hqp Hq.
      apply lookup_snoc_inv in Hp as [[Hp Hpl]|[_ Hp]].
      + rewrite lookup_app_l in Hq by lia. by eapply H11.
      + exfalso. simplify_eq. by apply not_eff_spec in Hs.
    - intros k1 k2 i' o' r' e V0 mv Hin He. apply elem_of_app in Hin as [Hin|Hin]; [by eapply H12|].
      apply elem_of_list_singleton in Hin. simplify_eq. by apply not_eff_spec in Hs.
  Qed.

  (** A call is decided that changes the state. *)
  Lemma lo_effect tr ph cur log conts msgs vw t o r V a a' mv :
    RL tr ph cur log conts msgs vw -> ph !! t = Some (Pending o) -> vle (vw t) V -> V L0 = length msgs ->
    list.last conts = Some a -> list.last msgs = Some mv -> spec a o r a' -> vle mv V ->
    exists log', RL tr (<[t := Done o r]> ph) cur log' (conts ++ [a']) (msgs ++ [V]) (set_view vw t V).
  Proof.
    intros HL Hph Hle HV Ha Hlm Hs Hmv.
    destruct (lo_pending _ _ _ _ _ _ _ t o HL Hph) as (i & Vi & Hcur & Hi & HVi & Hni & Hnr).
    exists (log ++ [(length msgs, (i, o, r))]).
    destruct HL as [H1 H2 H3 H4 H5 H6 H7 H8 H9 H10 H11 H12].
    assert (Hseg : seg log (length msgs) = []).
    { destruct (seg log (length msgs)) as [|e l] eqn:E; [done|].
      assert (Hin : e ∈ seg log (length msgs)) by (rewrite E; left).
      apply elem_of_seg, H3 in Hin. lia. }
    assert (Hln : length msgs <> 0). { intros E. specialize (H2 0). lia. }
    split; try done.
    - rewrite !app_length. simpl. lia.
    - intros u. rewrite app_length. simpl. unfold set_view. case_decide; [lia|]. specialize (H2 u). lia.
    - intros k e Hin. rewrite app_length. simpl. apply elem_of_app in Hin as [Hin|Hin]; [apply H3 in Hin; lia|].
      apply elem_of_list_singleton in Hin. simplify_eq. lia.
    - intros k b Hb. rewrite seg_snoc.
      assert (Hpre : k <= length conts -> pre (conts ++ [a']) k = pre conts k).
      { intros Hk. destruct k; simpl; [done|]. by rewrite lookup_app_l. }
      apply lookup_snoc_inv in Hb as [[Hb Hk]|[-> ->]].
      + rewrite decide_False by lia. rewrite app_nil_r, Hpre by lia. by apply H4.
      + rewrite Hpre, H1, Hseg by lia. rewrite decide_True by done. simpl.
        econstructor; [|constructor]. destruct (length msgs) as [|n] eqn:En; [done|].
        rewrite list.last_lookup, H1 in Ha. simpl in *. by rewrite Ha.
    - rewrite !fmap_app. apply NoDup_app. split; [done|]. split; [|apply NoDup_singleton].
      intros j Hj Hj'. apply elem_of_list_singleton in Hj'. simpl in Hj'. by subst j.
    - intros k' i' o' r' Hin. apply elem_of_app in Hin as [Hin|Hin].
      + destruct (H6 k' i' o' r' Hin) as (u & V0 & Hi' & HV0 & Hor). exists u, V0.
        split; [done|]. split; [done|]. destruct Hor as [(j & W & Hc & Hj & Hk & Hn)|(Hc & Hp & Hk & Hn)].
        * left. exists j, W. split; [done|]. split; [done|]. split; [done|]. intros Hne.
          destruct (Hn Hne) as (mv' & Hl & ?). exists mv'. split; [by apply lookup_app_l_Some|done].
        * right. assert (u <> t) by congruence. unfold set_view.
          rewrite lookup_insert_ne, decide_False by done. split; [done|]. split; [done|]. split; [done|].
          intros Hne. destruct (Hn Hne) as (mv' & Hl & ?). exists mv'. split; [by apply lookup_app_l_Some|done].
      + apply elem_of_list_singleton in Hin. simplify_eq. exists t, Vi. split; [done|].
        pose proof (HVi L0). specialize (H2 t). split; [lia|]. right. split; [done|]. rewrite lookup_insert.
        unfold set_view. rewrite decide_True by done. split; [done|]. split; [lia|].
        intros _. exists V. split; [by rewrite lookup_app_r, Nat.sub_diag by lia|]. intros l. lia.
    - intros u j Hc. destruct (H7 u j Hc) as (o' & V0 & Hj & HV0 & Hno & Hor). exists o', V0.
      split; [done|]. split; [eapply vle_trans; [done|]; by apply set_view_le|]. split; [done|].
      destruct (decide (u = t)) as [->|Hne].
      + simplify_eq. right. exists r, (length msgs). rewrite lookup_insert. split; [done|].
        apply elem_of_app. right. by apply elem_of_list_singleton.
      + rewrite lookup_insert_ne by done. destruct Hor as [Hp|(r' & k' & Hp & Hin)]; [by left|right].
        exists r', k'. split; [done|]. apply elem_of_app. by left.
    - intros u. destruct (decide (u = t)) as [->|Hne]; [rewrite Hcur; eauto|].
      rewrite lookup_insert_ne by done. apply H8.
    - intros i' j u o' r' Hc. destruct (H9 _ _ _ _ _ Hc) as [k' Hk']. exists k'. apply elem_of_app. by left.
    - intros p q k1 k2 x y j u o' r' Hp Hq Hpq Hc.
      apply lookup_snoc_inv in Hq as [[Hq _]|[_ Hq]].
      + apply lookup_snoc_inv in Hp as [[Hp _]|[-> _]]; [by eapply H10|]. apply lookup_lt_Some in Hq. lia.
      + injection Hq as -> ->. simpl in Hc. by apply Hnr in Hc.
    - intros p q k1 k2 i' o' r' x Hp He Hqp Hq.
      apply lookup_snoc_inv in Hp as [[Hp Hpl]|[-> Hp]].
      + rewrite lookup_app_l in Hq by lia. by eapply H11.
      + injection Hp as -> -> -> ->. rewrite lookup_app_l in Hq by lia.
        apply elem_of_list_lookup_2, H3 in Hq. lia.
    - intros k1 k2 i' o' r' e V0 mv' Hin He Hi' Hm Hk. apply lookup_snoc_inv in Hm as [[Hm Hl]|[-> ->]].
      + apply elem_of_app in Hin as [Hin|Hin]; [by eapply H12|].
        apply elem_of_list_singleton in Hin. simplify_eq. lia.
      + apply elem_of_app in Hin as [Hin|Hin].
        * eapply vle_trans; [|exact Hmv]. pose proof (H3 _ _ Hin). rewrite list.last_lookup in Hlm.
          eapply H12; [done|done|done|exact Hlm|lia].
        * apply elem_of_list_singleton in Hin. simplify_eq. by eapply vle_trans.
  Qed.

  (** ** Clocks *)

  (** A new view made of live views. *)
  Definition made (live : view -> Prop) (V : view) : Prop :=
    forall t, exists A, live A /\ vle A V /\ V (LClk t) = A (LClk t).

  Lemma ck_made tr live vw t V (live' : view -> Prop) :
    CK tr live vw -> made live V -> vle (vw t) V -> (forall W, live' W -> live W \/ W = V) ->
    (forall u, live' (set_view vw t V u)) -> (forall p e (W : view), tr !! p = Some (e, W) -> live' W) ->
    CK tr live' (set_view vw t V).
  Proof.
    intros [C1 C2 C3 C4 C5] Hm Hle Hl Hl1 Hl2. split.
    - intros p e V0 W Hp HW Hclk. destruct (Hl W HW) as [HW'| ->]; [by eapply C1|].
      destruct (Hm (ev_thread e)) as (A & HA & HAV & Hc). eapply vle_trans; [|exact HAV].
      eapply C1; [done|done|]. by rewrite <- Hc.
    - intros W u HW.
      assert (Hu : vw u (LClk u) <= set_view vw t V u (LClk u)) by (by apply set_view_le).
      destruct (Hl W HW) as [HW'| ->]; [pose proof (C2 W u HW'); lia|].
      destruct (Hm u) as (A & HA & HAV & Hc). pose proof (C2 A u HA). lia.
    - done.
    - done.
    - done.
  Qed.

  (** An event. *)
  Lemma ck_event tr live vw t e (live' : view -> Prop) :
    CK tr live vw -> ev_thread e = t ->
    (forall W, live' W -> live W \/ W = tick t (vw t)) ->
    (forall u, live' (set_view vw t (tick t (vw t)) u)) ->
    (forall p e' (W : view), (tr ++ [(e, tick t (vw t))]) !! p = Some (e', W) -> live' W) ->
    CK (tr ++ [(e, tick t (vw t))]) live' (set_view vw t (tick t (vw t))).
  Proof.
    intros [C1 C2 C3 C4 C5] He Hl Hl1 Hl2.
    assert (Hle : vle (vw t) (tick t (vw t))).
    { intros l. unfold tick, vset. case_decide; subst; lia. }
    assert (Ht : tick t (vw t) (LClk t) = S (vw t (LClk t))).
    { unfold tick, vset. by rewrite decide_True. }
    assert (Hn : forall u, u <> t -> tick t (vw t) (LClk u) = vw t (LClk u)).
    { intros u Hu. unfold tick, vset. rewrite decide_False; [done|]. congruence. }
    split.
    - intros p e0 V0 W Hp HW Hclk. apply lookup_snoc_inv in Hp as [[Hp _]|[_ Hp]].
      + destruct (Hl W HW) as [HW'| ->]; [by eapply C1|]. eapply vle_trans; [|exact Hle].
        eapply C1; [done|done|]. destruct (decide (ev_thread e0 = t)) as [E|Hne].
        * rewrite E. apply C2. by eapply C5.
        * rewrite Hn in Hclk by done. done.
      + injection Hp as -> ->. rewrite He, Ht in Hclk. destruct (Hl W HW) as [HW'| ->].
        * pose proof (C2 W t HW'). lia.
        * intros l. lia.
    - intros W u HW.
      assert (Hu : vw u (LClk u) <= set_view vw t (tick t (vw t)) u (LClk u)) by (by apply set_view_le).
      destruct (Hl W HW) as [HW'| ->]; [pose proof (C2 W u HW'); lia|].
      destruct (decide (u = t)) as [->|Hne].
      + unfold set_view. by rewrite decide_True.
      + rewrite Hn by done. unfold set_view. rewrite decide_False by done. by apply C2.
    - intros p q e1 e2 V0 W Hpq Hp Hq. apply lookup_snoc_inv in Hq as [[Hq _]|[-> Hq]].
      + apply lookup_snoc_inv in Hp as [[Hp _]|[-> _]]; [by eapply C3|]. apply lookup_lt_Some in Hq. lia.
      + injection Hq as -> ->. rewrite lookup_app_l in Hp by done. rewrite He, Ht.
        pose proof (C2 V0 t ltac:(by eapply C5)). lia.
    - done.
    - done.
  Qed.
End log.
