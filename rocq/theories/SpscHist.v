(** * What the specification says about histories *)
From stdpp Require Import gmap list numbers.
From Verif Require Import Lin LinFacts SpscModel SpscSpec SpscObs.

Set Default Proof Using "Type".

(** Calls of thread [t] that have taken effect. *)
Fixpoint tlins {op ret} (t : nat) (l : list (levent op ret)) : list (op * ret) :=
  match l with
  | [] => []
  | Lin u o r :: l => if decide (u = t) then (o, r) :: tlins t l else tlins t l
  | Ev _ :: l => tlins t l
  end.
Lemma tlins_app {op ret} t (l1 l2 : list (levent op ret)) : tlins t (l1 ++ l2) = tlins t l1 ++ tlins t l2.
Proof. induction l1 as [|[e|u o r] l1 IH]; simpl; [done|done|]. destruct (decide _); simpl; by rewrite IH. Qed.

Lemma tcalls_snoc {op ret} t (h : list (event op ret)) e : tcalls t (h ++ [e]) = tcalls_step t (tcalls t h) e.
Proof. unfold tcalls. by rewrite foldl_app. Qed.

Section gen.
  Context {op ret st : Type} (init : st) (spec : st -> op -> ret -> st -> Prop).

  Lemma lruns_tcalls t l ph a :
    lruns spec ∅ init l ph a ->
    tpending t (erase l) = phop <$> ph !! t /\
    tlins t l = tdone t (erase l) ++ match ph !! t with Some (Done o r) => [(o, r)] | _ => [] end.
  Proof.
    unfold tpending, tdone.
    induction 1 as [|l ph a u o H [IH1 IH2] Hph|l ph a u o r a' H [IH1 IH2] Hph Hs|l ph a u o r H [IH1 IH2] Hph];
      rewrite ?erase_app, ?tlins_app; simpl; rewrite ?app_nil_r, ?tcalls_snoc; simpl.
    - by rewrite lookup_empty.
    - destruct (decide (u = t)) as [->|Hne]; simpl.
      + rewrite lookup_insert. rewrite Hph in IH2. done.
      + by rewrite lookup_insert_ne.
    - destruct (decide (u = t)) as [->|Hne]; simpl.
      + rewrite lookup_insert. rewrite Hph in *. simpl in *. split; [done|]. by rewrite IH2, app_nil_r.
      + rewrite lookup_insert_ne by done. by rewrite app_nil_r.
    - destruct (decide (u = t)) as [->|Hne]; simpl.
      + rewrite lookup_delete. rewrite Hph in *. simpl in *. rewrite IH1. simpl. by rewrite app_nil_r.
      + by rewrite lookup_delete_ne.
  Qed.

  Lemma erase_snoc_inv (l : list (levent op ret)) h e :
    erase l = h ++ [e] -> exists la lb, l = la ++ Ev e :: lb /\ erase la = h /\ erase lb = [].
  Proof.
    induction l as [|[e'|u o r] l IH] using rev_ind; rewrite ?erase_app; simpl; intros H.
    - by destruct h.
    - apply app_inj_tail in H as [<- <-]. by exists l, [].
    - rewrite app_nil_r in H. destruct (IH H) as (la & lb & -> & <- & Hlb).
      exists la, (lb ++ [Lin u o r]). split; [by rewrite <- app_assoc|]. split; [done|]. by rewrite erase_app, Hlb.
  Qed.

  Lemma lruns_before_res ph0 a0 la t r lb ph a :
    lruns spec ph0 a0 (la ++ Ev (Res t r) :: lb) ph a ->
    exists ph1 a1 o, lruns spec ph0 a0 la ph1 a1 /\ ph1 !! t = Some (Done o r).
  Proof.
    revert ph a. induction lb as [|e lb IH] using rev_ind; intros ph a H.
    - inversion H; subst; try (by destruct la);
        match goal with H0 : _ ++ [_] = _ ++ [_] |- _ => apply app_inj_tail in H0 as [Hla Hle] end; simplify_eq.
      eauto.
    - assert (Hs : la ++ Ev (Res t r) :: lb ++ [e] = (la ++ Ev (Res t r) :: lb) ++ [e]) by by rewrite <- app_assoc.
      rewrite Hs in H. inversion H; subst; try (by destruct la);
        match goal with H0 : _ ++ [_] = _ ++ [_] |- _ => apply app_inj_tail in H0 as [-> _] end; eauto.
  Qed.
End gen.

Section hist.
  Context {V : Type} (cap : N) (sc : bool).
  Notation spec := (xspec (V := V) cap sc).

  Definition isp (o : xop V) : bool :=
    match o with OPush _ | OPushN _ | OWAvail | OEmpty RP _ => true | _ => false end.
  Definition isc (o : xop V) : bool :=
    match o with OPush _ | OPushN _ | OWAvail | OEmpty RP _ => false | _ => true end.
  Definition typed (e : event (xop V) (xret V)) : Prop :=
    match e with Lin.Inv t o => (t = 0 /\ isp o = true) \/ (t = 1 /\ isc o = true) | Res _ _ => True end.
  Definition ptyped (t : nat) (o : xop V) : Prop := (t = 0 /\ isp o = true) \/ (t = 1 /\ isc o = true).

  Lemma lruns_typed l ph a t p :
    lruns spec ∅ xs_init l ph a -> Forall typed (erase l) -> ph !! t = Some p -> ptyped t (phop p).
  Proof.
    intros H. revert t p. induction H as [|l ph a u o H IH Hph|l ph a u o r a' H IH Hph Hs|l ph a u o r H IH Hph];
      intros t p Hty Hp; rewrite ?erase_app in Hty; simpl in Hty.
    - by rewrite lookup_empty in Hp.
    - apply Forall_app in Hty as [Hty He]. destruct (decide (u = t)) as [->|Hne].
      + rewrite lookup_insert in Hp. injection Hp as <-. simpl. by apply Forall_inv in He.
      + rewrite lookup_insert_ne in Hp by done. by apply IH.
    - rewrite app_nil_r in Hty. destruct (decide (u = t)) as [->|Hne].
      + rewrite lookup_insert in Hp. injection Hp as <-. simpl. apply (IH t (Pending o)); done.
      + rewrite lookup_insert_ne in Hp by done. by apply IH.
    - apply Forall_app in Hty as [Hty He]. destruct (decide (u = t)) as [->|Hne].
      + by rewrite lookup_delete in Hp.
      + rewrite lookup_delete_ne in Hp by done. by apply IH.
  Qed.

  Ltac opcases :=
    repeat match goal with H : ?o = _ \/ ?o = _ |- _ => destruct H as [->| ->] end; simpl in *; try done;
    try (match goal with o : xop V |- _ => by destruct o end).

  (** ** Conservation *)
  Definition drops (o : xop V) : bool := match o with OReset | ODestroy => true | _ => false end.

  Lemma lruns_conserve l ph a :
    lruns spec ∅ xs_init l ph a -> Forall typed (erase l) ->
    Forall (fun e => match e with Lin.Inv _ o => drops o = false | _ => True end) (erase l) ->
    concat ((fun x => pushvals x.1 x.2) <$> tlins 0 l) =
    concat ((fun x => popvals x.2) <$> tlins 1 l) ++ a_q a /\
    (forall t o, (ph !! t = Some (Pending o) \/ exists r, ph !! t = Some (Done o r)) -> drops o = false).
  Proof.
    intros H. induction H as [|l ph a u o H IH Hph|l ph a u o r a' H IH Hph Hs|l ph a u o r H IH Hph];
      intros Hty Hnr; rewrite ?erase_app in Hty, Hnr; simpl in Hty, Hnr; rewrite ?tlins_app; simpl.
    - split; [done|]. intros t o [Hp|[r Hp]]; by rewrite lookup_empty in Hp.
    - apply Forall_app in Hty as [Hty He]. apply Forall_app in Hnr as [Hnr He2].
      destruct (IH Hty Hnr) as [IH1 IH2]. rewrite !app_nil_r. split; [done|].
      intros t o' Hp. destruct (decide (u = t)) as [->|Hne].
      + rewrite lookup_insert in Hp. destruct Hp as [Hp|[r Hp]]; [|done]. injection Hp as <-. by apply Forall_inv in He2.
      + rewrite lookup_insert_ne in Hp by done. by apply (IH2 t).
    - rewrite app_nil_r in Hty, Hnr. destruct (IH Hty Hnr) as [IH1 IH2].
      assert (Hd : drops o = false) by (apply (IH2 u); by left).
      pose proof (lruns_typed _ _ _ _ _ H Hty Hph) as Ht. simpl in Ht. split.
      + destruct Ht as [[-> Hi]|[-> Hi]]; simpl; rewrite ?app_nil_r, fmap_app, concat_app; simpl;
          rewrite ?app_nil_r; rewrite IH1.
        * destruct Hs; opcases; rewrite ?app_nil_r, ?app_assoc; try done.
          destruct o; simpl; by rewrite app_nil_r.
        * rewrite <- app_assoc. f_equal. destruct Hs; opcases; done.
      + intros t o' Hp. destruct (decide (u = t)) as [->|Hne].
        * rewrite lookup_insert in Hp. destruct Hp as [Hp|[r' Hp]]; [done|]. injection Hp as <- <-. done.
        * rewrite lookup_insert_ne in Hp by done. by apply (IH2 t).
    - apply Forall_app in Hty as [Hty He]. apply Forall_app in Hnr as [Hnr He2].
      destruct (IH Hty Hnr) as [IH1 IH2]. rewrite !app_nil_r. split; [done|].
      intros t o' Hp. destruct (decide (u = t)) as [->|Hne].
      + rewrite lookup_delete in Hp. by destruct Hp as [?|[??]].
      + rewrite lookup_delete_ne in Hp by done. by apply (IH2 t).
  Qed.

  (** ** Promises *)
  Lemma lruns_promises l ph a :
    lruns spec ∅ xs_init l ph a -> Forall typed (erase l) ->
    a_kc a = foldl known_after 0%N (tlins 1 l).*2 /\ a_kp a = pspace (tlins 0 l) /\
    (forall o r, ph !! 1 = Some (Done o r) -> keeps (promised (erase l)) o r) /\
    (forall o r, ph !! 0 = Some (Done o r) -> keeps_p (room (erase l)) o r).
  Proof.
    intros H. induction H as [|l ph a u o H IH Hph|l ph a u o r a' H IH Hph Hs|l ph a u o r H IH Hph];
      intros Hty; rewrite ?erase_app in Hty; simpl in Hty; rewrite ?tlins_app, ?erase_app; simpl.
    - split; [done|]. split; [done|]. split; intros o r Hp; by rewrite lookup_empty in Hp.
    - apply Forall_app in Hty as [Hty He]. destruct (IH Hty) as (IH1 & IH2 & IH3 & IH4). rewrite !app_nil_r.
      split; [done|]. split; [done|]. unfold promised, room, tdone in *. rewrite !tcalls_snoc. simpl.
      split; intros o' r' Hp.
      + destruct (decide (u = 1)) as [->|Hne]; [by rewrite lookup_insert in Hp|].
        rewrite lookup_insert_ne in Hp by done. by apply IH3.
      + destruct (decide (u = 0)) as [->|Hne]; [by rewrite lookup_insert in Hp|].
        rewrite lookup_insert_ne in Hp by done. by apply IH4.
    - rewrite app_nil_r in *. destruct (IH Hty) as (IH1 & IH2 & IH3 & IH4).
      pose proof (lruns_typed _ _ _ _ _ H Hty Hph) as Ht. simpl in Ht.
      destruct Ht as [[-> Hi]|[-> Hi]]; simpl; rewrite ?app_nil_r.
      + pose proof (lruns_tcalls _ _ 0 _ _ _ H) as [_ Hl]. rewrite Hph, app_nil_r in Hl.
        split; [rewrite <- IH1; destruct Hs; opcases|].
        split.
        { unfold pspace. rewrite foldl_app. simpl. fold (pspace (tlins 0 l)). rewrite <- IH2.
          destruct Hs; opcases. }
        split; intros o' r' Hp.
        * rewrite lookup_insert_ne in Hp by done. by apply IH3.
        * rewrite lookup_insert in Hp. injection Hp as <- <-. unfold room. rewrite <- Hl, <- IH2.
          destruct Hs; opcases.
      + pose proof (lruns_tcalls _ _ 1 _ _ _ H) as [_ Hl]. rewrite Hph, app_nil_r in Hl.
        split.
        { rewrite fmap_app, foldl_app. simpl. rewrite <- IH1.
          destruct Hs; opcases. }
        split; [rewrite <- IH2; destruct Hs; opcases|].
        split; intros o' r' Hp.
        * rewrite lookup_insert in Hp. injection Hp as <- <-. unfold promised. rewrite <- Hl, <- IH1.
          destruct Hs as [| | | | | | | |o ? ? ? ? Ho| | |o ? ? ? Ho|? o]; simpl in *; try done; try lia.
          -- destruct Ho as [->| ->]; simpl; lia.
          -- by destruct Ho as [->| ->].
          -- by destruct o.
        * rewrite lookup_insert_ne in Hp by done. by apply IH4.
    - apply Forall_app in Hty as [Hty He]. destruct (IH Hty) as (IH1 & IH2 & IH3 & IH4). rewrite !app_nil_r.
      split; [done|]. split; [done|]. unfold promised, room, tdone in *. rewrite !tcalls_snoc. simpl.
      split; intros o' r' Hp.
      + destruct (decide (u = 1)) as [->|Hne]; [by rewrite lookup_delete in Hp|].
        rewrite lookup_delete_ne in Hp by done. by apply IH3.
      + destruct (decide (u = 0)) as [->|Hne]; [by rewrite lookup_delete in Hp|].
        rewrite lookup_delete_ne in Hp by done. by apply IH4.
  Qed.

  (** ** front() *)

  (** What a front() has shown and no later call has taken away. *)
  Definition seen_step (m : option V) (x : xop V * xret V) : option V :=
    match x.2 with
    | RFront v => Some v
    | RUnit => None
    | r => match popvals r with [] => m | _ :: _ => None end
    end.
  Definition seen (l : list (xop V * xret V)) : option V := foldl seen_step None l.

  (** Each result agrees with what has been seen before. *)
  Definition agrees (m : option V) (x : xop V * xret V) : Prop :=
    forall v, m = Some v -> x.2 <> RPop None /\ (forall y, head (popvals x.2) = Some y -> y = v) /\ (forall y, x.2 = RFront y -> y = v).
  Fixpoint all_agree (m : option V) (l : list (xop V * xret V)) : Prop :=
    match l with
    | [] => True
    | x :: l => agrees m x /\ all_agree (seen_step m x) l
    end.
  Lemma all_agree_snoc m l x : all_agree m (l ++ [x]) <-> all_agree m l /\ agrees (foldl seen_step m l) x.
  Proof. revert m. induction l as [|y l IH]; intros m; simpl; [tauto|]. rewrite IH. tauto. Qed.

  Lemma lruns_front l ph a :
    lruns spec ∅ xs_init l ph a -> Forall typed (erase l) ->
    all_agree None (tlins 1 l) /\
    (forall v, seen (tlins 1 l) = Some v -> head (a_q a) = Some v /\ (0 < a_kc a)%N).
  Proof.
    intros H. induction H as [|l ph a u o H IH Hph|l ph a u o r a' H IH Hph Hs|l ph a u o r H IH Hph];
      intros Hty; rewrite ?erase_app in Hty; simpl in Hty; rewrite ?tlins_app; simpl.
    - done.
    - apply Forall_app in Hty as [Hty He]. rewrite app_nil_r. by apply IH.
    - rewrite app_nil_r in Hty. destruct (IH Hty) as (IH1 & IH2).
      pose proof (lruns_typed _ _ _ _ _ H Hty Hph) as Ht. simpl in Ht.
      destruct Ht as [[-> Hi]|[-> Hi]]; simpl; rewrite ?app_nil_r.
      + split; [done|]. intros v Hv. destruct (IH2 v Hv) as [Hq Hk].
        destruct Hs; opcases.
        * by destruct q.
        * by destruct q.
      + split.
        * apply all_agree_snoc. split; [done|]. intros v Hv. destruct (IH2 v Hv) as [Hq Hk]. simpl.
          destruct Hs; simpl in *; try done; try (split; [done|]; split; intros y Hy; congruence).
          -- split; [done|]. split; intros y Hy; destruct l0; simpl in *; congruence.
          -- split; [done|]. split; intros y Hy; destruct l0; simpl in *; congruence.
        * intros v Hv. unfold seen in *. rewrite foldl_app in Hv. simpl in Hv.
          unfold seen_step in Hv at 1. destruct Hs; simpl in *; try done; try (by apply IH2).
          -- destruct l0; [|done]. simpl in *. destruct (IH2 v Hv). split; [done|]. lia.
          -- destruct l0; [|done]. simpl in *. destruct (IH2 v Hv). split; [done|]. lia.
          -- destruct (IH2 v Hv). split; [done|]. lia.
    - apply Forall_app in Hty as [Hty He]. rewrite app_nil_r. by apply IH.
  Qed.

  Lemma all_agree_app m l1 l2 : all_agree m (l1 ++ l2) <-> all_agree m l1 /\ all_agree (foldl seen_step m l1) l2.
  Proof. revert m. induction l1 as [|y l1 IH]; intros m; simpl; [tauto|]. rewrite IH. tauto. Qed.

  Lemma agree_next m l1 v mid x l2 :
    all_agree m (l1 ++ (OFront, RFront v) :: mid ++ x :: l2) ->
    Forall (fun y => popvals y.2 = [] /\ y.2 <> RUnit) mid -> agrees (Some v) x.
  Proof.
    intros H Hm. apply all_agree_app in H as [_ H]. simpl in H. destruct H as [_ H].
    unfold seen_step in H at 1. simpl in H.
    induction Hm as [|y mid (Hy1 & Hy2) Hm IH]; simpl in H; [apply H|]. destruct H as [Hy H].
    apply IH. enough (seen_step (Some v) y = Some v) as <- by done.
    unfold seen_step. destruct y as [o [| | |[]|l| w | |]]; simpl in *; try done; [by rewrite Hy1|].
    f_equal. by apply (Hy v eq_refl).
  Qed.
End hist.
