(** * Concrete executions of spsc_queue used in PropSpsc.v *)
From stdpp Require Import gmap list numbers.
From Verif Require Import Lin LinPerm SpscModel SpscSpec SpscObs SpscLife SpscDemo.

(** ** Examples *)

(** The consumer acts on old views: its second pop fails although there is an
    element. *)
Definition xsched1 : list dstep :=
  dcall RP (OPush 1%N) 5 ++ dcall RP (OPush 2%N) 5 ++
  [DI RC OPop; DK RC 1] ++ drs RC 5 ++ [DI RC OPop; DK RC 1] ++ drs RC 2 ++ dcall RC OPop 6.
Definition xhist1 : list (event (xop N) (xret N)) :=
  [Inv 0 (OPush 1%N); Res 0 (RBool true); Inv 0 (OPush 2%N); Res 0 (RBool true);
   Inv 1 OPop; Res 1 (RPop (Some 1%N)); Inv 1 OPop; Res 1 (RPop None); Inv 1 OPop; Res 1 (RPop (Some 2%N))].
Lemma xdemo_stale : exists s, xreach xdemoR xhist1 s /\ xsize xdemoR s = 0%N.
Proof.
  destruct (dshow_reach xdemoR xsched1 xhist1 0 [None; None; None; None] false false false) as (s & H & Hz & _);
    [vm_compute; reflexivity|]. by exists s.
Qed.

(** A batch that wraps around, while the consumer pops. *)
Definition xpre : list dstep :=
  dcall RP (OPush 1%N) 5 ++ dcall RP (OPush 2%N) 5 ++ dcall RP (OPush 3%N) 5 ++ dcall RC OPop 6 ++ dcall RC OPop 6.
Definition xsched2 : list dstep :=
  xpre ++ [DI RP (OPushN [5; 6; 7]%N)] ++ drs RP 3 ++ [DI RC OPop] ++ drs RC 6 ++ drs RP 5 ++ dcall RC OPopAll 10.
Definition xhist2 : list (event (xop N) (xret N)) :=
  [Inv 0 (OPush 1%N); Res 0 (RBool true); Inv 0 (OPush 2%N); Res 0 (RBool true); Inv 0 (OPush 3%N); Res 0 (RBool true);
   Inv 1 OPop; Res 1 (RPop (Some 1%N)); Inv 1 OPop; Res 1 (RPop (Some 2%N));
   Inv 0 (OPushN [5; 6; 7]%N); Inv 1 OPop; Res 1 (RPop (Some 3%N)); Res 0 (RCount 2);
   Inv 1 OPopAll; Res 1 (RList [5; 6]%N)].
Lemma xdemo_batch : exists s, xreach xdemoS xhist2 s /\ xsize xdemoS s = 0%N.
Proof.
  destruct (dshow_reach xdemoS xsched2 xhist2 0 [None; None; None; None] false false false) as (s & H & Hz & _);
    [vm_compute; reflexivity|]. by exists s.
Qed.
Lemma xdemo_window :
  exists s0 win s, window xdemoS RP (OPushN [5; 6; 7]%N) s0 win s /\ t_pc (th RP s) = Some (XRet (RCount 2)).
Proof.
  apply (wdemo_window xdemoS xpre RP (OPushN [5; 6; 7]%N) (drs RP 3 ++ [DI RC OPop] ++ drs RC 6 ++ drs RP 4)).
  vm_compute. reflexivity.
Qed.
Lemma xdemo_window_r :
  exists s0 win s, window xdemoR RC OPop s0 win s /\ t_pc (th RC s) = Some (XRet (RPop (Some 3%N))).
Proof.
  apply (wdemo_window xdemoR xpre RC OPop (drs RC 3 ++ dcall RP (OPushN [5; 6; 7]%N) 5 ++ drs RC 2)).
  vm_compute. reflexivity.
Qed.
Lemma xdemo_solo :
  exists s s1 s2, solo_state xdemoR [3; 4; 5]%N s /\
    solo_call xdemoR RC (OPopN 5) (RList [3; 4; 5]%N) s s1 /\ solo_call xdemoR RP (OPush 6%N) (RBool false) s s2.
Proof.
  apply (sdemo_solo xdemoR (xpre ++ dcall RP (OPushN [4; 5]%N) 8 ++ [DS]) _ _ _ 12 _ _ _ 3). vm_compute. reflexivity.
Qed.
Lemma xdemo_avail :
  exists s s1 s2, solo_state xdemoR [3%N] s /\
    solo_call xdemoR RC ORAvail (RNum 1) s s1 /\ solo_call xdemoR RP OWAvail (RNum 2) s s2.
Proof. apply (sdemo_solo xdemoR (xpre ++ [DS]) _ _ _ 3 _ _ _ 3). vm_compute. reflexivity. Qed.

(** read_available() promises two elements; three have been pushed. *)
Definition xsched3 : list dstep :=
  dcall RP (OPush 1%N) 5 ++ dcall RP (OPush 2%N) 5 ++ [DI RC ORAvail; DK RC 2] ++ drs RC 2 ++
  dcall RP (OPush 3%N) 5 ++ dcall RC OFront 3 ++ [DI RC (OEmpty RC true); DR RC; DK RC 2; DR RC] ++
  [DI RC (OPopN 5); DK RC 2] ++ drs RC 8.
Definition xhist3 : list (event (xop N) (xret N)) :=
  [Inv 0 (OPush 1%N); Res 0 (RBool true); Inv 0 (OPush 2%N); Res 0 (RBool true); Inv 1 ORAvail; Res 1 (RNum 2);
   Inv 0 (OPush 3%N); Res 0 (RBool true); Inv 1 OFront; Res 1 (RFront 1%N);
   Inv 1 (OEmpty RC true); Res 1 (RBool false); Inv 1 (OPopN 5); Res 1 (RList [1; 2]%N)].
Lemma xdemo_promise : exists s, xreach xdemoR xhist3 s /\ xsize xdemoR s = 1%N.
Proof.
  destruct (dshow_reach xdemoR xsched3 xhist3 1 [None; None; Some 3%N; None] false false false) as (s & H & Hz & _);
    [vm_compute; reflexivity|]. by exists s.
Qed.

(** A destroyed queue. *)
Definition xhist4 : list (event (xop N) (xret N)) :=
  [Inv 0 (OPush 1%N); Res 0 (RBool true); Inv 0 (OPush 2%N); Res 0 (RBool true); Inv 0 (OPush 3%N); Res 0 (RBool true);
   Inv 1 OPop; Res 1 (RPop (Some 1%N)); Inv 1 OPop; Res 1 (RPop (Some 2%N)); Inv 1 ODestroy; Res 1 RUnit].
Lemma xdemo_destroy : exists w s, xsteps xdemoR xinit w xhist4 s /\ x_dead s = true.
Proof.
  destruct (dshow_reach xdemoR (xpre ++ dcall RC ODestroy 7) xhist4 0 [None; None; None; None] false false true)
    as (s & [w H] & _ & _ & _ & Hd); [vm_compute; reflexivity|]. by exists w, s.
Qed.

(** Throwing functors. *)
Lemma xdemo_throw_one :
  exists h (s s' : xstate N) k evs, xreach xdemoR h s /\ t_pc (x_cons s) = Some (C3 0) /\
    xstep xdemoR s (XRun RC k true) = XNext s' evs.
Proof.
  destruct (pcshow_reach xdemoR (dcall RP (OPush 1%N) 5 ++ [DI RC OPop] ++ drs RC 2) (DT RC) (C3 0))
    as (h & s & s' & evs & H1 & H2 & H3); [vm_compute; reflexivity|]. eauto 10.
Qed.
Lemma xdemo_throw_all :
  exists h (s s' : xstate N) k evs, xreach xdemoT h s /\ t_pc (x_cons s) = Some (B3 KAll 3 4 None 0 [3%N]) /\
    xstep xdemoT s (XRun RC k true) = XNext s' evs.
Proof.
  destruct (pcshow_reach xdemoT (xpre ++ dcall RP (OPush 4%N) 5 ++ [DI RC OAll] ++ drs RC 4) (DT RC)
    (B3 KAll 3 4 None 0 [3%N])) as (h & s & s' & evs & H1 & H2 & H3); [vm_compute; reflexivity|]. eauto 10.
Qed.

(** ** What goes wrong otherwise *)

Definition errs (c : xcfg) (e : xerr) : Prop :=
  exists h (s : xstate N) ch, xreach c h s /\ xstep c s ch = XErr e.

(** Each of the four memory orders is necessary. *)
Lemma xorders :
  errs (XCfg 4 false false false false false true true true) ERace /\
  errs (XCfg 4 false false false false true false true true) ERace /\
  errs (XCfg 4 false false false false true true false true) ERace /\
  errs (XCfg 4 false false false false true true true false) ERace.
Proof.
  split; [|split; [|split]].
  - apply (derr_reach _ (xpre ++ dcall RP (OPush 4%N) 5 ++ DI RP (OPush 5%N) :: drs RP 2) (DR RP)).
    vm_compute. reflexivity.
  - apply (derr_reach _ (dcall RP (OPush 1%N) 5 ++ DI RC OPop :: drs RC 2) (DR RC)). vm_compute. reflexivity.
  - apply (derr_reach _ (dcall RP (OPush 1%N) 5 ++ DI RC OPop :: drs RC 2) (DR RC)). vm_compute. reflexivity.
  - apply (derr_reach _ (xpre ++ dcall RP (OPush 4%N) 5 ++ DI RP (OPush 5%N) :: drs RP 2) (DR RP)).
    vm_compute. reflexivity.
Qed.

(** empty() does not justify front(). *)
Lemma xunchecked : errs (XCfg 4 false false false true true true true true) ERace.
Proof.
  apply (derr_reach _ (dcall RP (OPush 1%N) 5 ++ dcall RC (OEmpty RC false) 3 ++ DI RC OFront :: drs RC 1) (DR RC)).
  vm_compute. reflexivity.
Qed.

(** Elements with destructor: consume_all throws at the second element, then
    pop. *)
Lemma xthrow_dead : errs (XCfg 4 false true false false true true true true) EDead.
Proof.
  apply (derr_reach _ (dcall RP (OPush 1%N) 5 ++ dcall RP (OPush 2%N) 5 ++
    (DI RC OAll :: drs RC 4) ++ [DT RC; DR RC] ++ DI RC OPop :: drs RC 2) (DR RC)).
  vm_compute. reflexivity.
Qed.
(** The copy of the last element of a batch throws, after the wrap-around; then
    push. *)
Lemma xthrow_alive : errs (XCfg 4 false true false false true true true true) EAlive.
Proof.
  apply (derr_reach _ (xpre ++ (DI RP (OPushN [5; 6]%N) :: drs RP 4) ++ [DT RP; DR RP; DR RP] ++
    DI RP (OPush 7%N) :: drs RP 2) (DR RP)).
  vm_compute. reflexivity.
Qed.

(** The index arithmetic with one slot more than 2^63. *)
Lemma xtight :
  exists w n, (w < 2 ^ 63 + 1 /\ n < 2 ^ 63 + 1)%N /\
    sections w n (2 ^ 63 + 1) <> (2 ^ 63 + 1, Some (w + n - (2 ^ 63 + 1)), w + n - (2 ^ 63 + 1))%N /\
    (2 ^ 63 + 1 < w + n)%N.
Proof. exists (2 ^ 63)%N, (2 ^ 63)%N. split; [done|]. split; [|done]. vm_compute. done. Qed.

(** ** Batches are not maximal at one instant *)
Definition xdemo2 : xcfg := XCfg 3 false false true false true true true true.
Definition xsched5 : list dstep :=
  dcall RP (OPush 1%N) 5 ++ (DI RP (OPushN [2; 3]%N) :: drs RP 2) ++ dcall RC OPop 6 ++ dcall RC OPop 3 ++ drs RP 4.
Definition xhist5 : list (event (xop N) (xret N)) :=
  [Inv 0 (OPush 1%N); Res 0 (RBool true); Inv 0 (OPushN [2; 3]%N); Inv 1 OPop; Res 1 (RPop (Some 1%N));
   Inv 1 OPop; Res 1 (RPop None); Res 0 (RCount 1)].
Definition xcalls5 : list (nat * xop N * xret N) :=
  [(0, OPush 1%N, RBool true); (2, OPushN [2; 3]%N, RCount 1); (3, OPop, RPop (Some 1%N)); (5, OPop, RPop None)].

Lemma xcalls5_all : all_calls xhist5 xcalls5.
Proof.
  split; [repeat (constructor; [set_solver|]); constructor|]. split.
  - intros i t o Hi. do 8 (destruct i as [|i]; [simpl in Hi; simplify_eq; unfold xcalls5; set_solver|]). done.
  - intros i o r Hin. unfold xcalls5 in Hin. rewrite !elem_of_cons, elem_of_nil in Hin.
    destruct Hin as [Hin|[Hin|[Hin|[Hin|[]]]]]; injection Hin as -> -> ->.
    + exists 1, 0. split; [done|]. split; [lia|]. split; [done|]. intros k e Hk. lia.
    + exists 7, 0. split; [done|]. split; [lia|]. split; [done|]. intros k e Hk He.
      assert (k = 3 \/ k = 4 \/ k = 5 \/ k = 6) as [->|[->|[->| ->]]] by lia; simpl in He; by simplify_eq.
    + exists 4, 1. split; [done|]. split; [lia|]. split; [done|]. intros k e Hk. lia.
    + exists 6, 1. split; [done|]. split; [lia|]. split; [done|]. intros k e Hk. lia.
Qed.

Lemma strict_inv (q : list N) o r b S i :
  legal (strict 2) q ((i, o, r) :: S) b ->
  exists q1, strict 2 q o r q1 /\ legal (strict 2) q1 S b.
Proof. inversion 1; subst. eauto. Qed.

Lemma xstrict_refuted :
  (exists s, xreach xdemo2 xhist5 s) /\ ~ hw_linearizable [] (strict (x_max xdemo2 - 1)) xhist5.
Proof.
  split.
  { destruct (dshow_reach xdemo2 xsched5 xhist5 1 [None; Some 2%N; None] false false false) as (s & H & _);
      [vm_compute; reflexivity|]. by exists s. }
  intros Hl. destruct (hw_orders _ _ _ _ xcalls5_all Hl) as (S & b & HS & Hleg & Hrt).
  change (x_max xdemo2 - 1)%N with 2%N in Hleg.
  assert (Hr : call_returns xhist5 3 4 1 OPop (RPop (Some 1%N))).
  { split; [done|]. split; [lia|]. split; [done|]. intros k e Hk. lia. }
  unfold xcalls5 in HS. cbn in HS. rewrite !elem_of_cons, elem_of_nil in HS.
  repeat match type of HS with _ \/ _ => destruct HS as [->|HS] end; [..|done].
  all: repeat match goal with
       | H : legal _ _ (_ :: _) _ |- _ => apply strict_inv in H as (? & [? ?] & H)
       | H : fifo _ _ _ _ _ |- _ => inversion H; clear H; simplify_eq/=
       end.
  all: try done.
  (* only the order in which the failing pop comes first is legal *)
  pose proof (Hrt [] (5, OPop, RPop None) [(0, OPush 1%N, RBool true); (2, OPushN [2; 3]%N, RCount 1)]
    (3, OPop, RPop (Some 1%N)) [] 4 1 OPop (RPop (Some 1%N)) eq_refl Hr) as Hle. simpl in Hle. lia.
Qed.
