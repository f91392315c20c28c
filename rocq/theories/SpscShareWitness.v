(** * Concrete executions used in PropSpscShare.v *)
From stdpp Require Import gmap list numbers.
From Verif Require Import Lin LinPerm SpscModel SpscSpec SpscObs SpscWait SpscDemo SpscShareModel.
Set Default Proof Using "Type".

(** A step of producer or consumer [i]; loads return the latest store. *)
Definition mchoice (s : mstate N) (i : nat) (d : dstep) : xchoice N :=
  match d with
  | DI RC _ | DR RC | DK RC _ | DT RC => dchoice (pair_of s (m_lastp s) i) d
  | _ => dchoice (pair_of s i (m_lastc s)) d
  end.
Fixpoint mdrun (c : xcfg) (b : bool) (s : mstate N) (ds : list (nat * dstep)) :
    option (list (event (xop N) (xret N)) * mstate N) :=
  match ds with
  | [] => Some ([], s)
  | (i, d) :: ds =>
      match mstep c b s i (mchoice s i d) with
      | MNext s' evs =>
          match mdrun c b s' ds with
          | Some (h, s'') => Some (evs ++ h, s'')
          | None => None
          end
      | _ => None
      end
  end.
Lemma mdrun_steps c b ds : forall hist s h s',
  msteps c b hist s -> mdrun c b s ds = Some (h, s') -> msteps c b (hist ++ h) s'.
Proof.
  induction ds as [|[i d] ds IH]; intros hist s h s' Hm Hr; cbn [mdrun] in Hr.
  - injection Hr as <- <-. by rewrite app_nil_r.
  - destruct (mstep c b s i (mchoice s i d)) as [s1 evs| |] eqn:Hs; [|discriminate Hr..].
    destruct (mdrun c b s1 ds) as [[h1 s2]|] eqn:Hr1; [|discriminate Hr]. injection Hr as <- <-.
    rewrite app_assoc. eapply IH; [|exact Hr1]. by econstructor.
Qed.
Lemma mdrun_reach c b ds h :
  fst <$> mdrun c b minit ds = Some h -> exists s, msteps c b h s.
Proof.
  intros H. destruct (mdrun c b minit ds) as [[h' s]|] eqn:Hr; [|discriminate H]. injection H as <-.
  exists s. by apply (mdrun_steps c b ds [] minit); [constructor|].
Qed.

Definition mcall (i : nat) (t : role) (o : xop N) (k : nat) : list (nat * dstep) := pair i <$> dcall t o k.
Definition mrs (i : nat) (t : role) (k : nat) : list (nat * dstep) := pair i <$> drs t k.

(** With locks: producers 0 and 1 push, consumers 0 and 1 pop, overlapping each other. *)
Definition mlocked : list (nat * dstep) :=
  mcall 0 RP (OPush 7%N) 5 ++ (1, DI RP (OPush 8%N)) :: mrs 1 RP 3 ++
  (0, DI RC OPop) :: mrs 0 RC 3 ++ mrs 1 RP 2 ++ mrs 0 RC 3 ++ mcall 0 RP (OPush 9%N) 5 ++
  mcall 1 RC OPop 6 ++ mcall 0 RC OPop 6.
Definition mlockedhist : list (event (xop N) (xret N)) :=
  [Inv 0 (OPush 7%N); Res 0 (RBool true); Inv 2 (OPush 8%N); Inv 1 OPop; Res 2 (RBool true);
   Res 1 (RPop (Some 7%N)); Inv 0 (OPush 9%N); Res 0 (RBool true);
   Inv 3 OPop; Res 3 (RPop (Some 8%N)); Inv 1 OPop; Res 1 (RPop (Some 9%N))].
Lemma mlocked_demo : exists s, msteps xdemoR true mlockedhist s.
Proof. apply (mdrun_reach _ _ mlocked). vm_compute. reflexivity. Qed.

(** Without: both producers take the same slot. *)
Definition xdemoU : xcfg := XCfg 4 true true true false true true true true.
Definition mtwop : list (nat * dstep) :=
  (0, DI RP (OPush 7%N)) :: mrs 0 RP 2 ++ mcall 1 RP (OPush 8%N) 5 ++ mrs 0 RP 3 ++
  mcall 0 RC OPop 6 ++ mcall 0 RC OPop 3.
Definition mtwophist : list (event (xop N) (xret N)) :=
  [Inv 0 (OPush 7%N); Inv 2 (OPush 8%N); Res 2 (RBool true); Res 0 (RBool true);
   Inv 1 OPop; Res 1 (RPop (Some 7%N)); Inv 1 OPop; Res 1 (RPop None)].
Lemma mtwop_demo : exists s, msteps xdemoU false mtwophist s.
Proof. apply (mdrun_reach _ _ mtwop). vm_compute. reflexivity. Qed.

(** Both consumers take the same element. *)
Definition mtwoc : list (nat * dstep) :=
  mcall 0 RP (OPush 7%N) 5 ++ (0, DI RC OPop) :: mrs 0 RC 3 ++ mcall 1 RC OPop 6 ++ mrs 0 RC 3.
Definition mtwochist : list (event (xop N) (xret N)) :=
  [Inv 0 (OPush 7%N); Res 0 (RBool true); Inv 1 OPop; Inv 3 OPop; Res 3 (RPop (Some 7%N));
   Res 1 (RPop (Some 7%N))].
Lemma mtwoc_demo : exists s, msteps xdemoU false mtwochist s.
Proof. apply (mdrun_reach _ _ mtwoc). vm_compute. reflexivity. Qed.

Definition mtwopcalls : list (nat * xop N * xret N) :=
  [(0, OPush 7%N, RBool true); (1, OPush 8%N, RBool true); (4, OPop, RPop (Some 7%N)); (6, OPop, RPop None)].
Lemma mtwop_all : all_calls mtwophist mtwopcalls.
Proof.
  split; [repeat (constructor; [set_solver|]); constructor|]. split.
  - intros i t o Hi. do 8 (destruct i as [|i]; [simpl in Hi; simplify_eq; unfold mtwopcalls; set_solver|]). done.
  - intros i o r Hin. unfold mtwopcalls in Hin. rewrite !elem_of_cons, elem_of_nil in Hin.
    destruct Hin as [Hin|[Hin|[Hin|[Hin|[]]]]]; injection Hin as -> -> ->.
    + exists 3, 0. split; [done|]. split; [lia|]. split; [done|]. intros k e Hk He.
      assert (k = 1 \/ k = 2) as [->| ->] by lia; simpl in He; by simplify_eq.
    + exists 2, 2. split; [done|]. split; [lia|]. split; [done|]. intros k e Hk. lia.
    + exists 5, 1. split; [done|]. split; [lia|]. split; [done|]. intros k e Hk. lia.
    + exists 7, 1. split; [done|]. split; [lia|]. split; [done|]. intros k e Hk. lia.
Qed.
Definition mtwoccalls : list (nat * xop N * xret N) :=
  [(0, OPush 7%N, RBool true); (2, OPop, RPop (Some 7%N)); (3, OPop, RPop (Some 7%N))].
Lemma mtwoc_all : all_calls mtwochist mtwoccalls.
Proof.
  split; [repeat (constructor; [set_solver|]); constructor|]. split.
  - intros i t o Hi. do 6 (destruct i as [|i]; [simpl in Hi; simplify_eq; unfold mtwoccalls; set_solver|]). done.
  - intros i o r Hin. unfold mtwoccalls in Hin. rewrite !elem_of_cons, elem_of_nil in Hin.
    destruct Hin as [Hin|[Hin|[Hin|[]]]]; injection Hin as -> -> ->.
    + exists 1, 0. split; [done|]. split; [lia|]. split; [done|]. intros k e Hk. lia.
    + exists 5, 1. split; [done|]. split; [lia|]. split; [done|]. intros k e Hk He.
      assert (k = 3 \/ k = 4) as [->| ->] by lia; simpl in He; by simplify_eq.
    + exists 4, 3. split; [done|]. split; [lia|]. split; [done|]. intros k e Hk. lia.
Qed.

Lemma fifo_inv (q : list N) o r b S i :
  legal (fifo 3) q ((i, o, r) :: S) b -> exists q1, fifo 3 q o r q1 /\ legal (fifo 3) q1 S b.
Proof. inversion 1; subst. eauto. Qed.

Lemma mtwoc_not_lin : ~ hw_linearizable [] (fifo 3) mtwochist.
Proof.
  intros Hl. destruct (hw_orders _ _ _ _ mtwoc_all Hl) as (S & b & HS & Hleg & _).
  unfold mtwoccalls in HS. cbn in HS. rewrite !elem_of_cons, elem_of_nil in HS.
  repeat match type of HS with _ \/ _ => destruct HS as [->|HS] end; [..|done].
  all: repeat match goal with
       | H : legal _ _ (_ :: _) _ |- _ => apply fifo_inv in H as (? & ? & H)
       | H : fifo _ _ _ _ _ |- _ => inversion H; clear H; simplify_eq/=
       end.
Qed.

Lemma mtwop_not_lin : ~ hw_linearizable [] (fifo 3) mtwophist.
Proof.
  intros Hl. destruct (hw_orders _ _ _ _ mtwop_all Hl) as (S & b & HS & Hleg & Hrt).
  assert (Hr0 : call_returns mtwophist 0 3 0 (OPush 7%N) (RBool true)).
  { split; [done|]. split; [lia|]. split; [done|]. intros k e Hk He.
    assert (k = 1 \/ k = 2) as [->| ->] by lia; simpl in He; by simplify_eq. }
  assert (Hr1 : call_returns mtwophist 1 2 2 (OPush 8%N) (RBool true)).
  { split; [done|]. split; [lia|]. split; [done|]. intros k e Hk. lia. }
  assert (Hb : forall S1 S2 y S3, S = S1 ++ (6, OPop, RPop None) :: S2 ++ (y, OPush 8%N, RBool true) :: S3 -> y <> 1).
  { intros S1 S2 y S3 E ->. specialize (Hrt S1 _ S2 _ S3 2 _ _ _ E Hr1). simpl in Hrt. lia. }
  assert (Hc : forall S1 S2 y S3, S = S1 ++ (6, OPop, RPop None) :: S2 ++ (y, OPush 7%N, RBool true) :: S3 -> y <> 0).
  { intros S1 S2 y S3 E ->. specialize (Hrt S1 _ S2 _ S3 3 _ _ _ E Hr0). simpl in Hrt. lia. }
  clear Hrt. unfold mtwopcalls in HS. cbn in HS. rewrite !elem_of_cons, elem_of_nil in HS.
  repeat match type of HS with _ \/ _ => destruct HS as [HS|HS] end; [..|done].
  all: try (exfalso; first
    [ refine (Hb [] [] _ _ HS eq_refl) | refine (Hb [] [_] _ _ HS eq_refl) | refine (Hb [] [_; _] _ _ HS eq_refl)
    | refine (Hb [_] [] _ _ HS eq_refl) | refine (Hb [_] [_] _ _ HS eq_refl)
    | refine (Hb [_; _] [] _ _ HS eq_refl)
    | refine (Hc [] [] _ _ HS eq_refl) | refine (Hc [] [_] _ _ HS eq_refl) | refine (Hc [] [_; _] _ _ HS eq_refl)
    | refine (Hc [_] [] _ _ HS eq_refl) | refine (Hc [_] [_] _ _ HS eq_refl)
    | refine (Hc [_; _] [] _ _ HS eq_refl) ]; fail).
  all: clear Hb Hc; subst S; repeat match goal with
       | H : legal _ _ (_ :: _) _ |- _ => apply fifo_inv in H as (? & ? & H)
       | H : fifo _ _ _ _ _ |- _ => inversion H; clear H; simplify_eq/=
       end.
Qed.
