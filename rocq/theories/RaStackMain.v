(** * The theorems about the stack on release/acquire memory, from the invariant *)
From stdpp Require Import gmap list numbers.
From Verif Require Import Lin LinObs LinFacts PoolModel StackModel StackSpec StackObs RaMem RaLin RaLog RaStackModel
  RaStackObs RaStackSafe.

Section main.
  Context (c : cfg) (Htag : c_tagmod c = None) (Hth : c_throws c = false).
  Notation spec := (sspec (c_node_based c) (c_throws c)).

  Lemma ra_safe_main ns tr s ch :
    rreach c true ns tr s -> rch_ok ch -> rstep c true s ch <> RRace /\ rstep c true s ch <> RUB.
  Proof using Htag Hth.
    intros (H1 & H2 & H3 & H4) Hch. destruct (rexec_ok c Htag Hth ns tr s H1 H2 H4 H3) as (g & lg & HI).
    pose proof (rstep_ok c Htag Hth s tr g lg ch HI) as Hst.
    destruct (rstep c true s ch); try done; destruct Hst; intros t o ->; done.
  Qed.

  Lemma ra_order_main ns tr s :
    rreach c true ns tr s -> exists S b, ra_order [] spec tr S b /\ published spec tr S.
  Proof using Htag Hth.
    intros (H1 & H2 & H3 & H4). destruct (rexec_ok c Htag Hth ns tr s H1 H2 H4 H3) as (g & lg & HI).
    destruct (lo_order_ok _ _ _ _ _ _ _ _ _ _ _ (in_l _ _ _ _ _ HI) (in_c _ _ _ _ _ HI)) as (S & b & _ & HS).
    by exists S, b.
  Qed.

  Lemma legal_app_inv S1 S2 a b :
    legal spec a (S1 ++ S2) b -> exists m, legal spec a S1 m /\ legal spec m S2 b.
  Proof using Type.
    revert a. induction S1 as [|[[i o] r] S1 IH]; intros a H; simpl in H.
    - exists a. split; [constructor|done].
    - inversion H as [|? ? ? ? a1 ? ? Hs Hl]; subst. destruct (IH _ Hl) as (m & Hm1 & Hm2).
      exists m. split; [by econstructor|done].
  Qed.

  Lemma longer {A} (l a : list A) : l ++ a = a -> l = [].
  Proof using Type. intros E. apply (f_equal length) in E. rewrite app_length in E. destruct l; [done|]. simpl in E. lia. Qed.

  (** Every element on the stack has been put there. *)
  Lemma legal_from S a b v :
    legal spec a S b -> v ∈ b -> v ∈ a \/
    exists S1 x S2, S = S1 ++ x :: S2 /\ pushes x.1.2 v /\ effective spec x.1.2 x.2.
  Proof using Type.
    induction 1 as [|a i o r a1 S b Hs Hl IH]; [by left|]. intros Hv.
    destruct (IH Hv) as [Hin|(S1 & x & S2 & -> & Hp & He)].
    - assert (Hnew : v ∈ a \/ (pushes o v /\ effective spec o r)).
      { clear -Hs Hin. inversion Hs; subst; try (by left).
        - apply elem_of_cons in Hin as [->|Hin]; [|by left]. right. split; [done|].
          intros a2 H2. inversion H2; subst; match goal with E : ?y :: a2 = a2 |- _ => by apply (longer [y]) in E end.
        - apply elem_of_app in Hin as [Hin|Hin]; [|by left]. right.
          apply elem_of_reverse, elem_of_take in Hin as (j & Hj & Hlt).
          split; [by eapply elem_of_list_lookup_2|]. intros a2 H2. inversion H2; subst.
          match goal with E' : _ ++ a2 = a2 |- _ => rename E' into E end. apply longer, (f_equal length) in E. rewrite reverse_length, take_length in E.
          apply lookup_lt_Some in Hj. simpl in E. lia.
        - left. by apply elem_of_list_further.
        - left. by apply elem_of_list_further.
        - by apply elem_of_nil in Hin.
        - by apply elem_of_nil in Hin.
        - apply elem_of_cons in Hin as [->|Hin]; [|by left]. right. split; [done|].
          intros a2 H2. inversion H2; subst; match goal with E : ?y :: a2 = a2 |- _ => by apply (longer [y]) in E end.
        - apply elem_of_app in Hin as [Hin|Hin]; [|by left]. right. rewrite elem_of_reverse in Hin.
          split; [exact Hin|]. intros a2 H2. inversion H2; subst.
          match goal with E' : _ ++ a2 = a2 |- _ => rename E' into E end. apply longer in E. apply (f_equal length) in E. rewrite reverse_length in E.
          destruct vs; [by apply elem_of_nil in Hin|done].
        - left. by apply elem_of_list_further.
        - left. by apply elem_of_list_further. }
      destruct Hnew as [Hin'|[Hp He]]; [by left|]. right. by exists [], (i, o, r), S.
    - right. by exists ((i, o, r) :: S1), x, S2.
  Qed.

  (** Whoever gets an element has seen what the one who pushed it had seen. *)
  Lemma ra_transfer_main ns tr s i j t o r v e W :
    rreach c true ns tr s -> call_returns tr.*1 i j t o r -> gives r v -> tr !! j = Some (e, W) ->
    exists i' u o' V, tr !! i' = Some (Inv u o', V) /\ pushes o' v /\ vle V W.
  Proof using Htag Hth.
    intros Hr Hc Hg Hj. destruct (ra_order_main _ _ _ Hr) as (S & b & HS & HP).
    pose proof (ro_complete _ _ _ _ _ HS _ _ _ _ _ Hc) as Hin.
    apply elem_of_list_split in Hin as (S1 & S3 & E).
    destruct (legal_app_inv S1 ((i, o, r) :: S3) [] b) as (m & Hm & Hl).
    { rewrite <- E. apply HS. }
    inversion Hl as [|? ? ? ? a1 ? ? Hs _]; subst.
    assert (Hv : v ∈ m /\ ~ neutral spec o r).
    { clear -Hs Hg. destruct r as [|[v'|]|n vs| | |]; simpl in Hg; try done.
      - subst v'. inversion Hs; subst; (split; [left|]); intros Hn; specialize (Hn []); inversion Hn.
      - inversion Hs; subst. split.
        + unfold visit_order in Hg. destruct rev; [by rewrite elem_of_reverse in Hg|done].
        + intros Hn. specialize (Hn []). inversion Hn as [| | | | | | | |? ? E1 E2| | | | | | | | | | | | | |].
          subst. simpl in *. destruct m; [|done]. by destruct rev; apply elem_of_nil in Hg. }
    destruct Hv as [Hv Hnn].
    destruct (legal_from _ _ _ _ Hm Hv) as [Hv'|(S0 & x & S2 & -> & Hp & He)]; [by apply elem_of_nil in Hv'|].
    destruct (ro_calls _ _ _ _ _ HS x.1.1 x.1.2 x.2) as [u Hu].
    { destruct x as [[? ?] ?]. simpl. rewrite <- app_assoc. apply elem_of_app. right. left. }
    apply list_lookup_fmap_inv in Hu as ([e' V] & E & HV). simpl in E. subst e'.
    exists x.1.1, u, x.1.2, V. split; [done|]. split; [done|].
    eapply (HP S0 x S2 (i, o, r) S3); try done. by rewrite <- app_assoc.
  Qed.
End main.
