(** * The history of a shared spsc_queue with the names of its threads

    [SpscShare.v] relates the history without names to the queue with one producer and one
    consumer.  Here the linearizability of the history itself is derived: a call that starts and
    ends while its thread has the lock starts and ends in the history without names too. *)
From stdpp Require Import gmap list numbers.
From Verif Require Import Lin SpscModel SpscSpec SpscObs SpscHist SpscLife SpscMain SpscShareModel SpscShare.
Set Default Proof Using "Type".

Lemma lookup_snoc_cases {A} (l : list A) x i y :
  (l ++ [x]) !! i = Some y -> (i < length l /\ l !! i = Some y) \/ (i = length l /\ y = x).
Proof.
  intros H. destruct (decide (i < length l)) as [Hl|Hl].
  - left. split; [done|]. by rewrite lookup_app_l in H by done.
  - right. rewrite lookup_app_r in H by lia. destruct (i - length l) as [|n] eqn:E; [|done].
    injection H as ->. split; [lia|done].
Qed.

Section alternate.
  Context {op ret st : Type} (spec : st -> op -> ret -> st -> Prop) (init : st).

  Lemma idle_answered l ph a t i o :
    lruns spec ∅ init l ph a -> ph !! t = None -> erase l !! i = Some (Inv t o) ->
    exists k r, i < k /\ erase l !! k = Some (Res t r).
  Proof.
    induction 1 as [|l ph a t1 o1 H IH Hn|l ph a t1 o1 r1 a' H IH Hp Hs|l ph a t1 o1 r1 H IH Hd];
      rewrite ?erase_app; simpl; intros Hph Hi.
    - done.
    - apply lookup_insert_None in Hph as [Hph Hne]. apply lookup_snoc_cases in Hi as [[Hlt Hi]|[-> Hi]].
      + destruct (IH Hph Hi) as (k & r & Hk & Hr). exists k, r. split; [done|]. by apply lookup_app_l_Some.
      + by injection Hi as <- <-.
    - rewrite app_nil_r in *. apply lookup_insert_None in Hph as [Hph Hne]. by apply IH.
    - apply lookup_snoc_cases in Hi as [[Hlt Hi]|[-> Hi]]; [|done].
      destruct (decide (t1 = t)) as [->|Hne].
      + exists (length (erase l)), r1. split; [done|]. rewrite lookup_app_r, Nat.sub_diag by done. done.
      + rewrite lookup_delete_ne in Hph by done. destruct (IH Hph Hi) as (k & r & Hk & Hr). exists k, r.
        split; [done|]. by apply lookup_app_l_Some.
  Qed.

  Lemma alternate l ph a t i k o o' :
    lruns spec ∅ init l ph a -> erase l !! i = Some (Inv t o) -> erase l !! k = Some (Inv t o') -> i < k ->
    exists m r, i < m < k /\ erase l !! m = Some (Res t r).
  Proof.
    induction 1 as [|l ph a t1 o1 H IH Hn|l ph a t1 o1 r1 a' H IH Hp Hs|l ph a t1 o1 r1 H IH Hd];
      rewrite ?erase_app; simpl; intros Hi Hk Hlt.
    - done.
    - apply lookup_snoc_cases in Hk as [[Hl Hk]|[-> Hk]].
      + rewrite lookup_app_l in Hi by lia. destruct (IH Hi Hk Hlt) as (m & r & Hm & Hr). exists m, r.
        split; [done|]. by apply lookup_app_l_Some.
      + injection Hk as -> ->. rewrite lookup_app_l in Hi by lia.
        destruct (idle_answered _ _ _ _ _ _ H Hn Hi) as (m & r & Hm & Hr). exists m, r.
        split; [split; [done|by eapply lookup_lt_Some]|]. by apply lookup_app_l_Some.
    - rewrite app_nil_r in *. by apply IH.
    - apply lookup_snoc_cases in Hk as [[Hl Hk]|[-> Hk]]; [|done].
      rewrite lookup_app_l in Hi by lia. destruct (IH Hi Hk Hlt) as (m & r & Hm & Hr). exists m, r.
      split; [done|]. by apply lookup_app_l_Some.
  Qed.
End alternate.

Section names.
  Context {V : Type} (c : xcfg).
  Notation ev := (event (xop V) (xret V)).

  Lemma xstep_ev (x x' : xstate V) ch evs :
    xstep c x ch = XNext x' evs ->
    (evs = [] /\ forall t o, ch <> XInvoke t o) \/ (exists t o, ch = XInvoke t o /\ evs = [Inv (tid t) o]) \/
    (exists t k thr r, ch = XRun t k thr /\ evs = [Res (tid t) r]).
  Proof.
    intros Hs. unfold xstep in Hs. destruct (x_dead x); [discriminate Hs|].
    assert (Hl : forall t (o : tout V), lift x t o = XNext x' evs -> evs = []).
    { intros t o H. destruct o; by simplify_eq/=. }
    destruct ch as [[] o|[] k thr|].
    - repeat case_match; simplify_eq; eauto 6.
    - repeat case_match; simplify_eq; eauto 6.
    - destruct (t_pc (x_prod x)) as [pc|]; [|done]. destruct pc; try (left; split; [by eapply Hl|done]). simplify_eq. eauto 10.
    - destruct (t_pc (x_cons x)) as [pc|]; [|done]. destruct pc; try (left; split; [by eapply Hl|done]).
      + left. split; [|done]. repeat case_match; by simplify_eq.
      + destruct (x_excl x); simplify_eq; eauto 10.
    - left. split; [|done]. repeat case_match; by simplify_eq.
  Qed.

  Definition is_inv (e : ev) : Prop := match e with Inv _ _ => True | _ => False end.
  Definition sid (e : ev) : nat := ev_thread e mod 2.
  (** The thread that made the last call on a side. *)
  Definition lastof (s : mstate V) (b : nat) : nat :=
    if decide (b = 0) then 2 * m_lastp s else 1 + 2 * m_lastc s.
  Definition NoInv (h : list ev) (b i k : nat) : Prop :=
    forall m e, i < m < k -> h !! m = Some e -> is_inv e -> sid e <> b.

  Definition Named (h : list ev) (s : mstate V) : Prop :=
    (forall i t o, h !! i = Some (Inv t o) -> NoInv h (t mod 2) i (length h) -> t = lastof s (t mod 2)) /\
    (forall i k t o t' r, h !! i = Some (Inv t o) -> h !! k = Some (Res t' r) -> i < k -> t' mod 2 = t mod 2 ->
       NoInv h (t mod 2) i k -> t' = t).

  Lemma NoInv_snoc h e b i k : NoInv (h ++ [e]) b i k -> NoInv h b i k.
  Proof. intros H m e' Hm He. apply (H m e' Hm). by apply lookup_app_l_Some. Qed.

  Lemma Named_last h s s' : Named h s -> m_lastp s' = m_lastp s -> m_lastc s' = m_lastc s -> Named h s'.
  Proof. intros [H1 H2] E1 E2. split; [|done]. unfold lastof. rewrite E1, E2. exact H1. Qed.

  Lemma Named_inv h s s' t o :
    Named h s -> t = lastof s' (t mod 2) -> (forall b, b <> t mod 2 -> b < 2 -> lastof s' b = lastof s b) ->
    Named (h ++ [Inv t o]) s'.
  Proof.
    intros [H1 H2] Ht Ho. split.
    - intros i t1 o1 Hi Hn. apply lookup_snoc_cases in Hi as [[Hl Hi]|[-> Hi]].
      + assert (Hne : t mod 2 <> t1 mod 2).
        { rewrite app_length in Hn. simpl in Hn. refine (Hn (length h) (Inv t o) _ _ I); [lia|].
          by rewrite lookup_app_r, Nat.sub_diag by done. }
        rewrite Ho; [|done|by apply Nat.mod_upper_bound]. eapply H1; [exact Hi|].
        intros m e Hm He. apply (Hn m e); [rewrite app_length; lia|by apply lookup_app_l_Some].
      + by injection Hi as <- <-.
    - intros i k t1 o1 t2 r Hi Hk Hlt Hs Hn. apply lookup_snoc_cases in Hk as [[Hl Hk]|[-> Hk]]; [|done].
      rewrite lookup_app_l in Hi by lia. eapply H2; [exact Hi|exact Hk|done|done|by eapply NoInv_snoc].
  Qed.

  Lemma Named_res h s t r : Named h s -> t = lastof s (t mod 2) -> Named (h ++ [Res t r]) s.
  Proof.
    intros [H1 H2] Ht. split.
    - intros i t1 o1 Hi Hn. apply lookup_snoc_cases in Hi as [[Hl Hi]|[-> Hi]]; [|done].
      eapply H1; [exact Hi|]. intros m e Hm He. apply (Hn m e); [rewrite app_length; lia|by apply lookup_app_l_Some].
    - intros i k t1 o1 t2 r2 Hi Hk Hlt Hs Hn. apply lookup_snoc_cases in Hk as [[Hl Hk]|[-> Hk]].
      + rewrite lookup_app_l in Hi by lia. eapply H2; [exact Hi|exact Hk|done|done|by eapply NoInv_snoc].
      + injection Hk as <- <-. rewrite lookup_app_l in Hi by lia. apply NoInv_snoc in Hn.
        rewrite (H1 _ _ _ Hi Hn), Ht. by rewrite Hs.
  Qed.

  Lemma tid_at t i : (tid t + 2 * i) mod 2 = tid t.
  Proof. rewrite (Nat.mul_comm 2), Nat.mod_add by done. by destruct t. Qed.

  Lemma msteps_named hist (s : mstate V) : msteps c true hist s -> Named hist s.
  Proof.
    induction 1 as [|hist s i ch s' evs H IH Hs]; [done|].
    assert (HS : Sim c hist s) by (by apply msteps_sim).
    destruct (mstep_from c hist s i ch HS ltac:(by rewrite Hs)) as [_ He]. rewrite Hs in He.
    destruct (xstep c _ ch) as [x e'| |] eqn:Hx; [|done|done]. injection He as -> ->.
    apply xstep_ev in Hx as [[-> Hni]|[(t & o & -> & ->)|(t & k & thr & r & -> & ->)]].
    - simpl. rewrite app_nil_r. destruct ch as [[] o|[] k thr|]; try (by eapply Named_last).
      all: by destruct (Hni _ _ eq_refl).
    - destruct t.
      + refine (Named_inv hist s _ (tid RP + 2 * i) o IH _ _); rewrite (tid_at RP); [done|].
        intros b Hb Hb2. unfold lastof. by rewrite !decide_False by done.
      + refine (Named_inv hist s _ (tid RC + 2 * i) o IH _ _); rewrite (tid_at RC); [done|].
        intros b Hb Hb2. assert (b = 0) as -> by (simpl in Hb; lia). done.
    - destruct t.
      + refine (Named_res hist _ (tid RP + 2 * m_lastp s) r _ _); [by eapply Named_last|by rewrite (tid_at RP)].
      + refine (Named_res hist _ (tid RC + 2 * m_lastc s) r _ _); [by eapply Named_last|by rewrite (tid_at RC)].
  Qed.

  (** A call of the history is one of the history without names. *)
  Lemma call_side hist (s : mstate V) i j t o r :
    code_cfg c -> msteps c true hist s -> call_returns hist i j t o r ->
    call_returns (side <$> hist) i j (t mod 2) o r.
  Proof.
    intros Hc H (Hi & Hlt & Hj & Hn). destruct (msteps_named _ _ H) as [_ Hnm].
    destruct (lin_main c Hc _ _ (reach_main c hist s H)) as (_ & l & ph & a & Hl & He & _).
    split; [by rewrite list_lookup_fmap, Hi|]. split; [done|].
    split; [by rewrite list_lookup_fmap, Hj|].
    assert (Hall : forall k e, i < k < j -> hist !! k = Some e -> sid e <> t mod 2).
    { intros k. induction (lt_wf k) as [k _ IH]. intros e Hk He1 Hs.
      assert (Hns : NoInv hist (t mod 2) i k).
      { intros m e' Hm He' _. apply (IH m); [lia|lia|done]. }
      destruct e as [t' o'|t' r'].
      - destruct (alternate _ _ l ph a (t mod 2) i k o o' Hl) as (m & r' & Hm & Hr);
          [by rewrite He, list_lookup_fmap, Hi| |lia|].
        { rewrite He, list_lookup_fmap, He1. unfold sid in Hs. simpl in *. by rewrite Hs. }
        rewrite He, list_lookup_fmap in Hr. destruct (hist !! m) as [e|] eqn:Em; [|done].
        apply (IH m ltac:(lia) e ltac:(lia) Em). destruct e; simpl in Hr; by simplify_eq.
      - apply (Hn k _ Hk He1). simpl. eapply Hnm; [exact Hi|exact He1|lia|exact Hs|exact Hns]. }
    intros k e Hk He1. rewrite list_lookup_fmap in He1. destruct (hist !! k) as [e'|] eqn:Ek; [|done].
    simpl in He1. injection He1 as <-. pose proof (Hall k e' Hk Ek) as Hne. by destruct e'.
  Qed.

  Lemma named_lin {st} (init : st) spec hist (s : mstate V) :
    code_cfg c -> msteps c true hist s ->
    hw_linearizable init spec (side <$> hist) -> hw_linearizable init spec hist.
  Proof.
    intros Hc H (S & b & H1 & H2 & H3 & H4 & H5). exists S, b. split; [done|]. split.
    - intros i o r Hin. destruct (H2 _ _ _ Hin) as [t Ht]. rewrite list_lookup_fmap in Ht.
      destruct (hist !! i) as [[t' o'|t' r']|]; simpl in Ht; simplify_eq. eauto.
    - split; [intros i j t o r Hcr; eapply H3; by eapply call_side|]. split; [|done].
      intros S1 x S2 y S3 i j t o r HS Hi Hcr. eapply H4; [done|done|by eapply call_side].
  Qed.
End names.
