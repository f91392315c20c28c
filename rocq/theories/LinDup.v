(** * Histories in which something that was put in once is taken out twice are
      not linearizable *)
From stdpp Require Import gmap list numbers.
From Verif Require Import Lin.

Set Default Proof Using "Type".

Section dup.
  Context {op ret st : Type} (init : st) (spec : st -> op -> ret -> st -> Prop).
  (** How many copies of it a state contains, an operation may put in, and an
      operation with this result takes out. *)
  Context (cnt : st -> nat) (gain : op -> nat) (loss : op -> ret -> nat).
  Context (Hinit : cnt init = 0).
  Context (Hspec : forall a o r a', spec a o r a' -> loss o r + cnt a' <= cnt a + gain o).

  Lemma legal_balance a S b :
    legal spec a S b ->
    sum_list_with (fun e => loss e.1.2 e.2) S + cnt b <= cnt a + sum_list_with (fun e => gain e.1.2) S.
  Proof using Hspec.
    clear Hinit.
    induction 1 as [a|a i o r a' S b Hs HS IH]; simpl; [lia|].
    apply Hspec in Hs. lia.
  Qed.

  Lemma gain_le (S : list (nat * op * ret)) i1 :
    NoDup (S.*1.*1) -> (forall i o r, (i, o, r) ∈ S -> 0 < gain o -> i = i1 /\ gain o = 1) ->
    sum_list_with (fun e => gain e.1.2) S <= (if decide (i1 ∈ S.*1.*1) then 1 else 0).
  Proof.
    clear Hinit Hspec. induction S as [|[[i o] r] S IH]; simpl; intros Hnd Hg; [lia|].
    apply list.NoDup_cons in Hnd as [Hni Hnd].
    specialize (IH Hnd ltac:(intros i' o' r' Hin; eapply Hg; by right)).
    destruct (decide (gain o = 0)) as [H0|H0].
    - rewrite H0. simpl. destruct (decide (i1 ∈ S.*1.*1)); destruct (decide _) as [|Hn]; try lia.
      exfalso. apply Hn. by right.
    - destruct (Hg i o r ltac:(left) ltac:(lia)) as [-> ->]. rewrite decide_False in IH by done.
      rewrite decide_True by left. lia.
  Qed.

  Lemma loss_ge (S : list (nat * op * ret)) i1 o1 r1 i2 o2 r2 :
    (i1, o1, r1) ∈ S -> (i2, o2, r2) ∈ S -> i1 <> i2 ->
    loss o1 r1 + loss o2 r2 <= sum_list_with (fun e => loss e.1.2 e.2) S.
  Proof.
    clear Hinit Hspec. assert (H1 : forall (S : list (nat * op * ret)) i o r, (i, o, r) ∈ S -> loss o r <= sum_list_with (fun e => loss e.1.2 e.2) S).
    { clear. induction S as [|e S IH]; intros i o r H; [by apply elem_of_nil in H|]. simpl.
      apply elem_of_cons in H as [<-|H]; [simpl; lia|]. specialize (IH _ _ _ H). lia. }
    induction S as [|e S IH]; intros Ha Hb Hne; [by apply elem_of_nil in Ha|]. simpl.
    apply elem_of_cons in Ha as [<-|Ha]; apply elem_of_cons in Hb as [Hb|Hb].
    - by injection Hb as ->.
    - apply H1 in Hb. simpl. lia.
    - subst e. apply H1 in Ha. simpl. lia.
    - specialize (IH Ha Hb Hne). lia.
  Qed.

  Lemma hw_once h i0 ia ja ta oa ra ib jb tb ob rb :
    hw_linearizable init spec h ->
    (forall i t o, h !! i = Some (Inv t o) -> 0 < gain o -> i = i0 /\ gain o = 1) ->
    call_returns h ia ja ta oa ra -> 0 < loss oa ra ->
    call_returns h ib jb tb ob rb -> 0 < loss ob rb -> ia = ib.
  Proof using Hinit Hspec.
    intros (S & b & HS1 & HS2 & HS3 & _ & HS5) Hg Ha Hla Hb Hlb.
    destruct (decide (ia = ib)) as [|Hne]; [done|]. exfalso.
    pose proof (legal_balance _ _ _ HS5) as Hbal. rewrite Hinit in Hbal.
    pose proof (loss_ge S _ _ _ _ _ _ (HS3 _ _ _ _ _ Ha) (HS3 _ _ _ _ _ Hb) Hne) as Hl.
    assert (Hgain : sum_list_with (fun e => gain e.1.2) S <= if decide (i0 ∈ S.*1.*1) then 1 else 0).
    { apply gain_le; [done|]. intros i o r Hin Hgo. destruct (HS2 _ _ _ Hin) as [t Ht]. by eapply Hg. }
    destruct (decide _); lia.
  Qed.
End dup.

(** A call that spans the rest of a history. *)
Lemma call_returns_span {op ret} (h1 h2 : list (event op ret)) t o r :
  Forall (fun e => ev_thread e <> t) h2 ->
  call_returns (h1 ++ Inv t o :: h2 ++ [Res t r]) (length h1) (length h1 + S (length h2)) t o r.
Proof.
  intros H. split; [|split; [lia|split]].
  - rewrite lookup_app_r, Nat.sub_diag by done. done.
  - rewrite lookup_app_r by lia. replace (_ - _) with (S (length h2)) by lia. simpl.
    by rewrite lookup_app_r, Nat.sub_diag by done.
  - intros k e Hk He. rewrite lookup_app_r in He by lia.
    destruct (k - length h1) as [|m] eqn:E; [lia|]. simpl in He. rewrite lookup_app_l in He by lia.
    rewrite list.Forall_forall in H. apply H. by eapply elem_of_list_lookup_2.
Qed.

Lemma call_returns_ext {op ret} (h h' : list (event op ret)) i j t o r :
  call_returns h i j t o r -> call_returns (h ++ h') i j t o r.
Proof.
  intros (H1 & H2 & H3 & H4).
  assert (Hj : j < length h) by by eapply lookup_lt_Some.
  split; [by apply lookup_app_l_Some|]. split; [done|]. split; [by apply lookup_app_l_Some|].
  intros k e Hk He. rewrite lookup_app_l in He by lia. by eapply H4.
Qed.
