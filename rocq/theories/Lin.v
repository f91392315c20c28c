(** * Linearizability: the specification side.

    This file does not mention any code of /repo.  It fixes what it means for
    a history of concurrent calls to be linearizable with respect to a
    sequential specification [spec : state -> op -> ret -> state -> Prop].

    Two definitions are given:
    - [linearizable]   : the history is one of the canonical atomic object
      (every call takes effect at one instant between its invocation and its
      response);
    - [hw_linearizable]: the definition of Herlihy and Wing (1990): there is a
      legal sequential order of the completed calls and some of the pending
      ones that extends the real-time order.
    [linearizable_hw] proves that the first implies the second. *)

From stdpp Require Import gmap list numbers.

(** A history is a list of invocations and responses, oldest first.
    [t] is the calling thread. *)
Inductive event (op ret : Type) :=
  | Inv (t : nat) (o : op)
  | Res (t : nat) (r : ret).
Arguments Inv {op ret} t o.
Arguments Res {op ret} t r.

Definition ev_thread {op ret} (e : event op ret) : nat :=
  match e with Inv t _ => t | Res t _ => t end.

(** A history extended with the instants at which calls take effect. *)
Inductive levent (op ret : Type) :=
  | Ev (e : event op ret)
  | Lin (t : nat) (o : op) (r : ret).
Arguments Ev {op ret} e.
Arguments Lin {op ret} t o r.

Definition lev_thread {op ret} (e : levent op ret) : nat :=
  match e with Ev e => ev_thread e | Lin t _ _ => t end.

Fixpoint erase {op ret} (l : list (levent op ret)) : list (event op ret) :=
  match l with
  | [] => []
  | Ev e :: l => e :: erase l
  | Lin _ _ _ :: l => erase l
  end.

(** The progress of a thread's current call; a thread without entry is not
    inside a call. *)
Inductive phase (op ret : Type) :=
  | Pending (o : op)          (* called, has not taken effect *)
  | Done (o : op) (r : ret).  (* has taken effect, will return [r] *)
Arguments Pending {op ret} o.
Arguments Done {op ret} o r.

Section lin.
  Context {op ret st : Type}.
  Context (init : st) (spec : st -> op -> ret -> st -> Prop).
  Notation event := (event op ret).
  Notation levent := (levent op ret).
  Notation phase := (phase op ret).

  (** [lruns ph0 a0 l ph a]: the extended history [l] is a run of the canonical
      atomic object from call phases [ph0] and object state [a0] to [ph], [a]. *)
  Inductive lruns (ph0 : gmap nat phase) (a0 : st) : list levent -> gmap nat phase -> st -> Prop :=
    | lrun_nil : lruns ph0 a0 [] ph0 a0
    | lrun_inv l ph a t o :
        lruns ph0 a0 l ph a -> ph !! t = None ->
        lruns ph0 a0 (l ++ [Ev (Inv t o)]) (<[t := Pending o]> ph) a
    | lrun_lin l ph a t o r a' :
        lruns ph0 a0 l ph a -> ph !! t = Some (Pending o) -> spec a o r a' ->
        lruns ph0 a0 (l ++ [Lin t o r]) (<[t := Done o r]> ph) a'
    | lrun_res l ph a t o r :
        lruns ph0 a0 l ph a -> ph !! t = Some (Done o r) ->
        lruns ph0 a0 (l ++ [Ev (Res t r)]) (delete t ph) a.

  (** Runs from the initial state with no call in progress. *)
  Notation lrun := (lruns ∅ init).

  Definition linearizable (h : list event) : Prop :=
    exists l ph a, lrun l ph a /\ erase l = h.

  (** ** Herlihy–Wing linearizability *)

  (** The call invoked at position [i] of [h] returns at position [j]. *)
  Definition call_returns (h : list event) (i j t : nat) (o : op) (r : ret) : Prop :=
    h !! i = Some (Inv t o) /\ i < j /\ h !! j = Some (Res t r) /\
    forall k e, i < k < j -> h !! k = Some e -> ev_thread e <> t.

  (** Sequential legality of a list of (invocation position, op, result). *)
  Inductive legal : st -> list (nat * op * ret) -> st -> Prop :=
    | legal_nil a : legal a [] a
    | legal_cons a i o r a' S b :
        spec a o r a' -> legal a' S b -> legal a ((i, o, r) :: S) b.

  Definition hw_linearizable (h : list event) : Prop :=
    exists (S : list (nat * op * ret)) (b : st),
      (* each call at most once *)
      NoDup (S.*1.*1) /\
      (* only calls of the history *)
      (forall i o r, (i, o, r) ∈ S -> exists t, h !! i = Some (Inv t o)) /\
      (* every completed call, with the result it returned *)
      (forall i j t o r, call_returns h i j t o r -> (i, o, r) ∈ S) /\
      (* a call that returned before another was invoked comes first *)
      (forall S1 x S2 y S3 i j t o r,
          S = S1 ++ x :: S2 ++ y :: S3 -> i = y.1.1 ->
          call_returns h i j t o r -> x.1.1 <= j) /\
      (* and the sequential order is legal *)
      legal init S b.

  (** ** Basic facts *)

  Lemma erase_app l1 l2 : erase (l1 ++ l2) = erase l1 ++ erase (op:=op) (ret:=ret) l2.
  Proof. induction l1 as [|[e|t o r] l1 IH]; simpl; congruence. Qed.

  Lemma legal_app a S b i o r b' :
    legal a S b -> spec b o r b' -> legal a (S ++ [(i, o, r)]) b'.
  Proof.
    induction 1 as [a|a i' o' r' a' S b Hs HS IH]; intros Hb; simpl.
    - econstructor; [exact Hb|constructor].
    - econstructor; eauto.
  Qed.

  (** Invariant behind [linearizable_hw]: [S] is the list of calls that have
      taken effect, [pos t] the position of thread [t]'s current invocation. *)
  Record hwinv (h : list event) (ph : gmap nat phase) (S : list (nat * op * ret)) : Prop := {
    hw_nodup : NoDup (S.*1.*1);
    hw_mem : forall i o r, (i, o, r) ∈ S -> exists t, h !! i = Some (Inv t o);
    hw_compl : forall i j t o r, call_returns h i j t o r -> (i, o, r) ∈ S;
    hw_rt : forall S1 x S2 y S3 i j t o r,
          S = S1 ++ x :: S2 ++ y :: S3 -> i = y.1.1 ->
          call_returns h i j t o r -> x.1.1 <= j;
    hw_pend : forall t o, ph !! t = Some (Pending o) ->
          exists i, h !! i = Some (Inv t o) /\ i ∉ S.*1.*1 /\
               (forall k e, i < k -> h !! k = Some e -> ev_thread e <> t);
    hw_done : forall t o r, ph !! t = Some (Done o r) ->
          exists i, h !! i = Some (Inv t o) /\ (i, o, r) ∈ S /\
               (forall k e, i < k -> h !! k = Some e -> ev_thread e <> t);
  }.

  Lemma lookup_snoc_inv {A} (l : list A) x k y :
    (l ++ [x]) !! k = Some y -> (l !! k = Some y /\ k < length l) \/ (k = length l /\ y = x).
  Proof.
    intros H. destruct (decide (k < length l)) as [Hk|Hk].
    - rewrite lookup_app_l in H by done. by left.
    - right. rewrite lookup_app_r in H by lia.
      destruct (k - length l) eqn:E; simpl in H; [|done]. split; [lia|congruence].
  Qed.

  Lemma call_returns_snoc h e i j t o r :
    call_returns (h ++ [e]) i j t o r ->
    call_returns h i j t o r \/
    (j = length h /\ e = Res t r /\ h !! i = Some (Inv t o) /\ i < length h /\
     forall k e', i < k -> h !! k = Some e' -> ev_thread e' <> t).
  Proof.
    intros (Hi & Hlt & Hj & Hbt).
    apply lookup_snoc_inv in Hj. destruct Hj as [[Hj Hjl]|[-> He]].
    - left. rewrite lookup_app_l in Hi by lia.
      split; [done|]. split; [done|]. split; [done|].
      intros k e' Hk Hke. eapply (Hbt k); [lia|].
      rewrite lookup_app_l; [done|]. apply lookup_lt_Some in Hke. done.
    - right. rewrite lookup_app_l in Hi by lia.
      split; [done|]. split; [done|]. split; [done|]. split; [lia|].
      intros k e' Hk Hke. eapply (Hbt k).
      + apply lookup_lt_Some in Hke. lia.
      + rewrite lookup_app_l; [done|]. apply lookup_lt_Some in Hke. done.
  Qed.

  Lemma call_returns_lt h i j t o r : call_returns h i j t o r -> j < length h.
  Proof. intros (_ & _ & Hj & _). by apply lookup_lt_Some in Hj. Qed.

  Lemma lrun_hw l ph a :
    lrun l ph a -> exists S, hwinv (erase l) ph S /\ legal init S a.
  Proof.
    induction 1 as [|l ph a t o Hr (S & HI & HL) Hn
                    |l ph a t o r a' Hr (S & HI & HL) Hp Hs
                    |l ph a t o r Hr (S & HI & HL) Hd].
    - exists []. split; [|constructor]. split.
      + constructor.
      + intros i o r Hin. by apply elem_of_nil in Hin.
      + intros i j t o r (Hi & _). done.
      + intros S1 x S2 y S3 i j t o r HS. by destruct S1.
      + intros t o. by rewrite lookup_empty.
      + intros t o r. by rewrite lookup_empty.
    - (* invocation *)
      exists S. split; [|done]. rewrite erase_app. simpl.
      set (h := erase l) in *.
      assert (Hmemlt : forall i, i ∈ S.*1.*1 -> i < length h).
      { intros i Hin. apply elem_of_list_fmap in Hin as ([i' o'] & -> & Hin).
        apply elem_of_list_fmap in Hin as ([[i'' o''] r''] & Heq & Hin). simplify_eq/=.
        destruct (hw_mem _ _ _ HI _ _ _ Hin) as (t' & Ht'). by apply lookup_lt_Some in Ht'. }
      split.
      + apply (hw_nodup _ _ _ HI).
      + intros i o' r' Hin. destruct (hw_mem _ _ _ HI _ _ _ Hin) as (t' & Ht').
        exists t'. by apply lookup_app_l_Some.
      + intros i j t' o' r' Hc. apply call_returns_snoc in Hc as [Hc|(_ & He & _)]; [|done].
        by eapply hw_compl.
      + intros S1 x S2 y S3 i j t' o' r' HS Hi Hc.
        apply call_returns_snoc in Hc as [Hc|(_ & He & _)]; [|done].
        by eapply hw_rt.
      + intros t' o' Ht'. destruct (decide (t = t')) as [->|Hne].
        * rewrite lookup_insert in Ht'. simplify_eq.
          exists (length h). split; [|split].
          -- rewrite lookup_app_r by lia. by rewrite Nat.sub_diag.
          -- intros Hin. apply Hmemlt in Hin. lia.
          -- intros k e Hk Hke. apply lookup_lt_Some in Hke. rewrite app_length in Hke; simpl in Hke. lia.
        * rewrite lookup_insert_ne in Ht' by done.
          destruct (hw_pend _ _ _ HI _ _ Ht') as (i & Hi & Hni & Hlast).
          exists i. split; [by apply lookup_app_l_Some|]. split; [done|].
          intros k e Hk Hke. apply lookup_snoc_inv in Hke as [[Hke _]|[_ ->]]; [by eapply Hlast|].
          simpl. congruence.
      + intros t' o' r' Ht'. destruct (decide (t = t')) as [->|Hne].
        * rewrite lookup_insert in Ht'. done.
        * rewrite lookup_insert_ne in Ht' by done.
          destruct (hw_done _ _ _ HI _ _ _ Ht') as (i & Hi & Hni & Hlast).
          exists i. split; [by apply lookup_app_l_Some|]. split; [done|].
          intros k e Hk Hke. apply lookup_snoc_inv in Hke as [[Hke _]|[_ ->]]; [by eapply Hlast|].
          simpl. congruence.
    - (* linearization point *)
      rewrite erase_app. simpl. rewrite app_nil_r.
      destruct (hw_pend _ _ _ HI _ _ Hp) as (i & Hi & Hni & Hlast).
      exists (S ++ [(i, o, r)]). split; [|by eapply legal_app].
      set (h := erase l) in *.
      assert (Hnoret : forall j t' o' r', call_returns h i j t' o' r' -> False).
      { intros j t' o' r' (Hi' & Hlt & Hj & _). simplify_eq.
        eapply Hlast in Hj; [|done]. done. }
      split.
      + rewrite !fmap_app. apply NoDup_app. split; [apply (hw_nodup _ _ _ HI)|].
        split; [|simpl; apply NoDup_singleton].
        intros x Hx Hx'. simpl in Hx'. apply elem_of_list_singleton in Hx'. by subst.
      + intros i' o' r' Hin. apply elem_of_app in Hin as [Hin|Hin]; [by eapply hw_mem|].
        apply elem_of_list_singleton in Hin. simplify_eq. by exists t.
      + intros i' j t' o' r' Hc. apply elem_of_app. left. by eapply hw_compl.
      + intros S1 x S2 y S3 i' j t' o' r' HS Hi' Hc.
        destruct S3 as [|z S3 _] using rev_ind.
        * (* y is the new call: it has not returned *)
          replace (S1 ++ x :: S2 ++ [y]) with ((S1 ++ x :: S2) ++ [y]) in HS
            by (rewrite <- app_assoc; done).
          apply app_inj_tail in HS as [_ HS]. subst y. simpl in Hi'. subst i'.
          exfalso. by eapply Hnoret.
        * replace (S1 ++ x :: S2 ++ y :: S3 ++ [z]) with ((S1 ++ x :: S2 ++ y :: S3) ++ [z]) in HS
            by (rewrite <- !app_assoc; simpl; rewrite <- !app_assoc; done).
          apply app_inj_tail in HS as [HS _]. by eapply hw_rt.
      + intros t' o' Ht'. destruct (decide (t = t')) as [->|Hne].
        * by rewrite lookup_insert in Ht'.
        * rewrite lookup_insert_ne in Ht' by done.
          destruct (hw_pend _ _ _ HI _ _ Ht') as (i' & Hi' & Hni' & Hlast').
          exists i'. split; [done|]. split; [|done].
          rewrite !fmap_app. simpl. intros Hin. apply elem_of_app in Hin as [Hin|Hin]; [done|].
          apply elem_of_list_singleton in Hin. subst. congruence.
      + intros t' o' r' Ht'. destruct (decide (t = t')) as [->|Hne].
        * rewrite lookup_insert in Ht'. simplify_eq. exists i.
          split; [done|]. split; [|done]. apply elem_of_app. right. by apply elem_of_list_singleton.
        * rewrite lookup_insert_ne in Ht' by done.
          destruct (hw_done _ _ _ HI _ _ _ Ht') as (i' & Hi' & Hni' & Hlast').
          exists i'. split; [done|]. split; [|done]. apply elem_of_app. by left.
    - (* response *)
      exists S. split; [|done]. rewrite erase_app. simpl.
      set (h := erase l) in *.
      destruct (hw_done _ _ _ HI _ _ _ Hd) as (i & Hi & HiS & Hlast).
      assert (Huniq : forall i' o', h !! i' = Some (Inv t o') ->
                 (forall k e, i' < k -> h !! k = Some e -> ev_thread e <> t) -> i' = i).
      { intros i' o' Hi' Hl'.
        destruct (lt_eq_lt_dec i i') as [[Hlt|Heqi]|Hlt]; [|by subst|]; exfalso.
        - by eapply Hlast in Hi'.
        - by eapply Hl' in Hi. }
      assert (Hmemlt : forall i, i ∈ S.*1.*1 -> i < length h).
      { intros i0 Hin. apply elem_of_list_fmap in Hin as ([i' o'] & -> & Hin).
        apply elem_of_list_fmap in Hin as ([[i'' o''] r''] & Heq & Hin). simplify_eq/=.
        destruct (hw_mem _ _ _ HI _ _ _ Hin) as (t' & Ht'). by apply lookup_lt_Some in Ht'. }
      split.
      + apply (hw_nodup _ _ _ HI).
      + intros i' o' r' Hin. destruct (hw_mem _ _ _ HI _ _ _ Hin) as (t' & Ht').
        exists t'. by apply lookup_app_l_Some.
      + intros i' j t' o' r' Hc.
        apply call_returns_snoc in Hc as [Hc|(_ & He & Hi' & _ & Hl')]; [by eapply hw_compl|].
        simplify_eq. assert (i' = i) as -> by (by eapply Huniq).
        rewrite Hi in Hi'. by simplify_eq.
      + intros S1 x S2 y S3 i' j t' o' r' HS Hi' Hc.
        apply call_returns_snoc in Hc as [Hc|(-> & He & Hi'' & _ & Hl')]; [by eapply hw_rt|].
        assert (x.1.1 < length h); [|lia]. apply Hmemlt.
        apply elem_of_list_fmap. exists x.1. split; [done|].
        apply elem_of_list_fmap. exists x. split; [done|].
        rewrite HS. apply elem_of_app. right. apply elem_of_cons. by left.
      + intros t' o' Ht'. destruct (decide (t = t')) as [->|Hne].
        * by rewrite lookup_delete in Ht'.
        * rewrite lookup_delete_ne in Ht' by done.
          destruct (hw_pend _ _ _ HI _ _ Ht') as (i' & Hi' & Hni' & Hlast').
          exists i'. split; [by apply lookup_app_l_Some|]. split; [done|].
          intros k e Hk Hke. apply lookup_snoc_inv in Hke as [[Hke _]|[_ ->]]; [by eapply Hlast'|].
          simpl. congruence.
      + intros t' o' r' Ht'. destruct (decide (t = t')) as [->|Hne].
        * by rewrite lookup_delete in Ht'.
        * rewrite lookup_delete_ne in Ht' by done.
          destruct (hw_done _ _ _ HI _ _ _ Ht') as (i' & Hi' & Hni' & Hlast').
          exists i'. split; [by apply lookup_app_l_Some|]. split; [done|].
          intros k e Hk Hke. apply lookup_snoc_inv in Hke as [[Hke _]|[_ ->]]; [by eapply Hlast'|].
          simpl. congruence.
  Qed.

  Theorem linearizable_hw h : linearizable h -> hw_linearizable h.
  Proof.
    intros (l & ph & a & Hr & <-). destruct (lrun_hw _ _ _ Hr) as (S & HI & HL).
    exists S, a. split; [apply HI|]. split; [apply HI|]. split; [apply HI|].
    split; [apply HI|done].
  Qed.

  (** ** Linearizing in the past

      [canlin l ph a t o r]: [l] is a run, and somewhere after thread [t]'s
      pending invocation of [o] there was an instant at which [o] could have
      taken effect with result [r] without changing the object. *)
  Definition canlin (l : list levent) (ph : gmap nat phase) (a : st) (t : nat) (o : op) (r : ret) : Prop :=
    exists l1 l2 ph1 a1,
      l = l1 ++ l2 /\ lrun l1 ph1 a1 /\ lruns ph1 a1 l2 ph a /\
      ph1 !! t = Some (Pending o) /\
      spec a1 o r a1 /\ Forall (fun e => lev_thread e <> t) l2.

  Lemma lruns_app ph0 a0 l1 ph1 a1 l2 ph2 a2 :
    lruns ph0 a0 l1 ph1 a1 -> lruns ph1 a1 l2 ph2 a2 -> lruns ph0 a0 (l1 ++ l2) ph2 a2.
  Proof.
    intros H1. induction 1 as [|l ph a t o Hr IH Hn|l ph a t o r a' Hr IH Hp Hs|l ph a t o r Hr IH Hd].
    - by rewrite app_nil_r.
    - rewrite app_assoc. by constructor.
    - rewrite app_assoc. by econstructor.
    - rewrite app_assoc. by econstructor.
  Qed.

  Lemma canlin_now l ph a t o r :
    lrun l ph a -> ph !! t = Some (Pending o) -> spec a o r a -> canlin l ph a t o r.
  Proof.
    intros Hr Hp Hs. exists l, [], ph, a. rewrite app_nil_r.
    repeat split; try done. constructor.
  Qed.

  (** Events of other threads keep the possibility. *)
  Lemma canlin_ext l ph a t o r l' ph' a' :
    canlin l ph a t o r -> lruns ph a l' ph' a' ->
    Forall (fun e => lev_thread e <> t) l' -> canlin (l ++ l') ph' a' t o r.
  Proof.
    intros (l1 & l2 & ph1 & a1 & -> & H1 & H2 & Hp & Hs & HF) Hr HF'.
    exists l1, (l2 ++ l'), ph1, a1. rewrite <- app_assoc.
    split; [done|]. split; [done|]. split; [by eapply lruns_app|].
    split; [done|]. split; [done|]. by apply Forall_app.
  Qed.

  Lemma lruns_phase_other ph0 a0 l ph a t :
    lruns ph0 a0 l ph a -> Forall (fun e => lev_thread e <> t) l -> ph !! t = ph0 !! t.
  Proof.
    induction 1 as [|l ph a t' o Hr IH Hn|l ph a t' o r a' Hr IH Hp Hs|l ph a t' o r Hr IH Hd];
      intros HF; [done|..]; apply Forall_app in HF as [HF1 HF2]; rewrite Forall_singleton in HF2; simpl in HF2.
    - rewrite lookup_insert_ne by done. auto.
    - rewrite lookup_insert_ne by done. auto.
    - rewrite lookup_delete_ne by done. auto.
  Qed.

  (** A phase that no event of [l] looks at can be replaced. *)
  Lemma lruns_frame ph0 a0 l ph a t p :
    lruns ph0 a0 l ph a -> Forall (fun e => lev_thread e <> t) l ->
    lruns (<[t:=p]> ph0) a0 l (<[t:=p]> ph) a.
  Proof.
    induction 1 as [|l ph a t' o Hr IH Hn|l ph a t' o r a' Hr IH Hp Hs|l ph a t' o r Hr IH Hd];
      intros HF; [constructor|..]; apply Forall_app in HF as [HF1 HF2]; rewrite Forall_singleton in HF2; simpl in HF2.
    - rewrite insert_commute by done. constructor; [by auto|]. by rewrite lookup_insert_ne.
    - rewrite insert_commute by done. econstructor; [by auto| |done]. by rewrite lookup_insert_ne.
    - rewrite <- delete_insert_ne by done. econstructor; [by auto|]. by rewrite lookup_insert_ne.
  Qed.

  (** From here on the specification determines the next state from the
      operation and its result. *)
  Context (spec_det : forall a o r a1 a2, spec a o r a1 -> spec a o r a2 -> a1 = a2).

  Lemma lruns_det ph0 a0 l ph a ph' a' :
    lruns ph0 a0 l ph a -> lruns ph0 a0 l ph' a' -> ph = ph' /\ a = a'.
  Proof using spec_det.
    intros H. revert ph' a'.
    induction H as [|l ph a t o Hr IH Hn|l ph a t o r a' Hr IH Hp Hs|l ph a t o r Hr IH Hd];
      intros ph2 a2 H2; inversion H2 as [Heq|l0 ph3 a3 t3 o3 Hr3 Hn3 Heq Hph Ha
       |l0 ph3 a3 t3 o3 r3 a3' Hr3 Hp3 Hs3 Heq Hph Ha|l0 ph3 a3 t3 o3 r3 Hr3 Hd3 Heq Hph Ha];
      try (by destruct l); try (by destruct l0); try done;
      apply app_inj_tail in Heq as [-> Heq]; simplify_eq;
      destruct (IH _ _ Hr3) as [-> ->]; try done.
    split; [done|]. by eapply spec_det.
  Qed.

  Lemma lruns_app_inv ph0 a0 l1 l2 ph a :
    lruns ph0 a0 (l1 ++ l2) ph a ->
    exists ph1 a1, lruns ph0 a0 l1 ph1 a1 /\ lruns ph1 a1 l2 ph a.
  Proof.
    revert ph a. induction l2 as [|e l2 IH] using rev_ind; intros ph a H.
    - rewrite app_nil_r in H. exists ph, a. split; [done|constructor].
    - rewrite app_assoc in H. inversion H as [Heq|l0 ph3 a3 t3 o3 Hr3 Hn3 Heq Hph Ha
       |l0 ph3 a3 t3 o3 r3 a3' Hr3 Hp3 Hs3 Heq Hph Ha|l0 ph3 a3 t3 o3 r3 Hr3 Hd3 Heq Hph Ha];
      try (symmetry in Heq; apply app_eq_nil in Heq as [_ ?]; done);
      apply app_inj_tail in Heq as [-> <-]; destruct (IH _ _ Hr3) as (ph1 & a1 & H1 & H2);
      exists ph1, a1; (split; [done|]); subst; by econstructor.
  Qed.

  (** The call may be decided to have taken effect at that past instant, and
      other threads' past instants stay available. *)
  Lemma canlin_commit l ph a t o r :
    canlin l ph a t o r ->
    exists l', erase l' = erase l /\ lrun l' (<[t:=Done o r]> ph) a /\
      (forall t' o' r', t' <> t -> canlin l ph a t' o' r' ->
         canlin l' (<[t:=Done o r]> ph) a t' o' r').
  Proof using spec_det.
    intros (l1 & l2 & ph1 & a1 & -> & H1 & H2 & Hp & Hs & HF).
    assert (Hnew : lrun (l1 ++ [Lin t o r]) (<[t:=Done o r]> ph1) a1) by (by econstructor).
    exists (l1 ++ [Lin t o r] ++ l2). split; [|split].
    - rewrite !erase_app. done.
    - rewrite app_assoc. eapply lruns_app; [done|]. by apply lruns_frame.
    - intros t' o' r' Hne (m1 & m2 & q1 & b1 & Heq & K1 & K2 & Kp & Ks & KF).
      apply app_eq_inv in Heq as [(k & -> & ->)|(k & -> & ->)].
      + (* the new point comes after the end of [m1] *)
        exists m1, (k ++ [Lin t o r] ++ l2), q1, b1.
        rewrite <- app_assoc. split; [done|]. split; [done|].
        split; [|split; [done|split; [done|]]].
        * apply lruns_app_inv in H1 as (q1' & b1' & H1a & H1b).
          destruct (lruns_det _ _ _ _ _ _ _ H1a K1) as [-> ->].
          eapply lruns_app; [exact H1b|]. eapply lruns_app.
          -- rewrite <- (app_nil_l [_]). econstructor; [constructor|done|done].
          -- by apply lruns_frame.
        * apply Forall_app in KF as [KF1 KF2]. apply Forall_app. split; [done|].
          apply Forall_app. split; [|done]. apply Forall_singleton. simpl. congruence.
      + (* the new point lies inside [m1] *)
        apply Forall_app in HF as [HF1 HF2].
        exists (l1 ++ [Lin t o r] ++ k), m2, (<[t:=Done o r]> q1), b1.
        split; [by rewrite <- !app_assoc|].
        apply lruns_app_inv in K1 as (q1' & b1' & K1a & K1b).
        destruct (lruns_det _ _ _ _ _ _ _ H1 K1a) as [<- <-].
        split; [rewrite app_assoc; eapply lruns_app; [done|]; by apply lruns_frame|].
        split; [by apply lruns_frame|]. split; [by rewrite lookup_insert_ne|]. done.
  Qed.

End lin.
