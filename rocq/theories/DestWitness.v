(** * Concrete executions for the statements about destinations *)
From stdpp Require Import gmap list numbers.
From Verif Require Import Lin PoolModel DestSpec DestFacts.
From Verif Require QueueModel QueueObs QueueDemo DestQueueModel StackModel StackObs StackDemo DestStackModel.

Set Default Proof Using "Type".

(** A test for [serial]; [u] is the thread inside a call of the kind. *)
Fixpoint serialb {op ret V} (k : op -> bool) (u : option nat) (tr : list (dev op ret V)) : bool :=
  match tr with
  | [] => true
  | DEv (Inv t o) :: tr =>
      if k o then match u with None => serialb k (Some t) tr | Some _ => false end
      else serialb k u tr
  | DEv (Res t _) :: tr => serialb k (if decide (u = Some t) then None else u) tr
  | DAsg _ _ :: tr => serialb k u tr
  end.

Lemma inside_tail {op ret V} t (x : dev op ret V) tr : inside t (x :: tr) -> inside t tr.
Proof. intros H e He. apply H. by right. Qed.

Lemma serialb_open {op ret V} (k : op -> bool) (tr : list (dev op ret V)) t b u p d :
  serialb k (Some t) tr = true -> tr = b ++ DEv (Inv u p) :: d -> k p = true -> ~ inside t b.
Proof.
  revert b. induction tr as [|x tr IH]; intros b Hs He Hk Hin; [by destruct b|].
  destruct b as [|y b]; simplify_eq/=.
  - by rewrite Hk in Hs.
  - destruct y as [[t' o|t' r]|t' v].
    + destruct (k o); [done|]. eapply IH; eauto using inside_tail.
    + destruct (decide (Some t = Some t')) as [[= <-]|Hne].
      * apply (Hin (Res t r)); [left|done].
      * eapply IH; eauto using inside_tail.
    + eapply IH; eauto using inside_tail.
Qed.

Lemma serialb_sound {op ret V} (k : op -> bool) (K : op -> Prop) w (tr : list (dev op ret V)) :
  (forall o, K o -> k o = true) -> serialb k w tr = true -> serial K tr.
Proof.
  intros HK. revert w. induction tr as [|x tr IH]; intros w Hs a t o b u p d He Ho Hp; [by destruct a|].
  destruct a as [|y a]; simplify_eq/=.
  - rewrite (HK _ Ho) in Hs. destruct w as [|]; [done|]. eapply serialb_open; [done|done|by apply HK].
  - destruct y as [[t' o'|t' r]|t' v].
    + destruct (k o').
      * destruct w; [done|]. by eapply IH.
      * by eapply IH.
    + by eapply IH.
    + by eapply IH.
Qed.

Section queue.
  Import QueueModel QueueObs QueueDemo DestQueueModel.

  (** Run a schedule and keep the trace. *)
  Fixpoint qdrun (c : cfg) (s : qstate) (chs : list qchoice) : option (list qdev * qstate) :=
    match chs with
    | [] => Some ([], s)
    | ch :: chs =>
        match qstep c s ch with
        | QNext s' evs =>
            match qdrun c s' chs with
            | Some (tr, s2) => Some (qvisible c s ch evs ++ tr, s2)
            | None => None
            end
        | _ => None
        end
    end.

  Lemma qdexec_trans c weak s0 tr s tr' s' :
    qdexec c weak s0 tr s -> qdexec c weak s tr' s' -> qdexec c weak s0 (tr ++ tr') s'.
  Proof.
    intros H. induction 1 as [|tr1 s1 ch s2 evs He IH Hs Hw].
    - by rewrite app_nil_r.
    - rewrite app_assoc. by econstructor.
  Qed.

  Lemma qdrun_exec c weak chs : forall s tr s',
    qdrun c s chs = Some (tr, s') -> (weak = true \/ forallb (fun ch => negb (qspurious ch)) chs = true) ->
    qdexec c weak s tr s'.
  Proof.
    induction chs as [|ch chs IH]; intros s tr s' H Hw; simpl in H.
    - injection H as <- <-. constructor.
    - destruct (qstep c s ch) as [s1 evs| |] eqn:Hs; [|done..].
      destruct (qdrun c s1 chs) as [[h1 s2]|] eqn:Hr; [|done]. injection H as <- <-.
      eapply qdexec_trans; [|apply IH; [done|]].
      + rewrite <- (app_nil_l (qvisible _ _ _ _)). econstructor; [constructor|done|].
        intros Hsp. destruct Hw as [|Hw]; [done|]. simpl in Hw. by rewrite Hsp in Hw.
      + destruct Hw as [|Hw]; [by left|right]. simpl in Hw. by apply andb_true_iff in Hw as [_ ?].
  Qed.

  Definition qdfrom (c : cfg) (ns : list N) (chs : list qchoice) : option (list qdev * qstate) :=
    match qinit c ns None with
    | Some s0 => qdrun c s0 chs
    | None => None
    end.

  Lemma qdfrom_reach c weak ns chs tr s :
    qdfrom c ns chs = Some (tr, s) -> NoDup ns -> c_null c ∉ ns -> ns <> [] ->
    (weak = true \/ forallb (fun ch => negb (qspurious ch)) chs = true) -> qdreach c weak ns tr s.
  Proof.
    unfold qdfrom. destruct (qinit c ns None) as [s0|] eqn:Hi; [|done]. intros Hr H1 H2 H3 Hw.
    exists None, s0. do 2 (split; [done|]). split; [by left|]. split; [done|]. by eapply qdrun_exec.
  Qed.

  Lemma qdfrom_trace c weak ns chs tr :
    fst <$> qdfrom c ns chs = Some tr -> NoDup ns -> c_null c ∉ ns -> ns <> [] ->
    (weak = true \/ forallb (fun ch => negb (qspurious ch)) chs = true) -> exists s, qdreach c weak ns tr s.
  Proof.
    intros H. apply fmap_Some in H as ([tr' s] & He & ->). intros. exists s. by eapply qdfrom_reach.
  Qed.

  (** The elements that calls were to push. *)
  Definition qpushed (tr : list qdev) : list val :=
    omap (fun e => match e with Inv _ o => pushes o | Res _ _ => None end) (events tr).
End queue.

Section queue_runs.
  Import QueueModel QueueObs QueueDemo DestQueueModel.

  Definition dpool : list N := [0; 1; 2; 3]%N.

  (** Thread 1 has copied the first element when thread 2 pops it. *)
  Definition qd1 : list qdev :=
    [DEv (Inv 0 (Push false [1%N])); DEv (Res 0 (RBool true));
     DEv (Inv 0 (Push false [2%N])); DEv (Res 0 (RBool true));
     DEv (Inv 1 Pop); DEv (Inv 2 Pop); DAsg 2 [1%N]; DEv (Res 2 (RPop (Some [1%N])));
     DAsg 1 [1%N]; DAsg 1 [2%N]; DEv (Res 1 (RPop (Some [2%N])))].
  Lemma qd1_reach : exists s, qdreach demoF false dpool qd1 s.
  Proof.
    apply (qdfrom_trace demoF _ _
      (whole 0 (Push false [1%N]) 12 ++ whole 0 (Push false [2%N]) 12 ++
       Invoke 1 Pop false :: runs 1 5 ++ whole 2 Pop 10 ++ runs 1 11)); [by vm_compute| | |done|right; by vm_compute].
    - repeat (constructor; [set_solver|]). constructor.
    - simpl. set_solver.
  Qed.

  (** The same with one element: the call of thread 1 fails. *)
  Definition qd2 : list qdev :=
    [DEv (Inv 0 (Push false [1%N])); DEv (Res 0 (RBool true));
     DEv (Inv 1 Pop); DEv (Inv 2 Pop); DAsg 2 [1%N]; DEv (Res 2 (RPop (Some [1%N])));
     DAsg 1 [1%N]; DEv (Res 1 (RPop None))].
  Lemma qd2_reach : exists s, qdreach demoF false dpool qd2 s.
  Proof.
    apply (qdfrom_trace demoF _ _
      (whole 0 (Push false [1%N]) 12 ++ Invoke 1 Pop false :: runs 1 5 ++ whole 2 Pop 10 ++ runs 1 6)); [by vm_compute| | |done|right; by vm_compute].
    - repeat (constructor; [set_solver|]). constructor.
    - simpl. set_solver.
  Qed.

  (** One thread; the compare-exchange fails spuriously. *)
  Definition qd3 : list qdev :=
    [DEv (Inv 0 (Push false [1%N])); DEv (Res 0 (RBool true));
     DEv (Inv 0 Pop); DAsg 0 [1%N]; DAsg 0 [1%N]; DEv (Res 0 (RPop (Some [1%N])))].
  Lemma qd3_reach : exists s, qdreach demoF true dpool qd3 s.
  Proof.
    apply (qdfrom_trace demoF _ _
      (whole 0 (Push false [1%N]) 12 ++ Invoke 0 Pop false :: runs 0 5 ++ Run 0 true None false :: runs 0 10)); [by vm_compute| | |done|by left].
    - repeat (constructor; [set_solver|]). constructor.
    - simpl. set_solver.
  Qed.

  (** Elements of two words: the node is used again while it is copied. *)
  Definition qd4 : list qdev :=
    [DEv (Inv 0 (Push true [1%N; 1%N])); DEv (Res 0 (RBool true));
     DEv (Inv 0 (Push true [2%N; 2%N])); DEv (Res 0 (RBool true));
     DEv (Inv 1 Pop);
     DEv (Inv 2 Pop); DAsg 2 [1%N; 1%N]; DEv (Res 2 (RPop (Some [1%N; 1%N])));
     DEv (Inv 2 Pop); DAsg 2 [2%N; 2%N]; DEv (Res 2 (RPop (Some [2%N; 2%N])));
     DEv (Inv 0 (Push true [3%N; 3%N])); DEv (Res 0 (RBool true));
     DAsg 1 [1%N; 3%N]].
  Lemma qd4_reach : exists s, qdreach demoN false [1; 2; 3]%N qd4 s.
  Proof.
    apply (qdfrom_trace demoN _ _
      (whole 0 (Push true [1;1]%N) 13 ++ whole 0 (Push true [2;2]%N) 13 ++ Invoke 1 Pop false :: runs 1 5 ++
       whole 2 Pop 11 ++ whole 2 Pop 11 ++ whole 0 (Push true [3;3]%N) 13 ++ runs 1 2)); [by vm_compute| | |done|right; by vm_compute].
    - repeat (constructor; [set_solver|]). constructor.
    - simpl. set_solver.
  Qed.

  (** One consumer, while another thread pushes. *)
  Definition qd5 : list qdev :=
    [DEv (Inv 0 (Push false [1%N])); DEv (Res 0 (RBool true));
     DEv (Inv 1 Pop); DEv (Inv 0 (Push false [2%N])); DEv (Res 0 (RBool true));
     DAsg 1 [1%N]; DEv (Res 1 (RPop (Some [1%N])));
     DEv (Inv 2 Pop); DAsg 2 [2%N]; DEv (Res 2 (RPop (Some [2%N])));
     DEv (Inv 1 Pop); DEv (Res 1 (RPop None))].
  Lemma qd5_reach : exists s, qdreach demoF false dpool qd5 s.
  Proof.
    apply (qdfrom_trace demoF _ _
      (whole 0 (Push false [1%N]) 12 ++ Invoke 1 Pop false :: runs 1 3 ++ whole 0 (Push false [2%N]) 12 ++ runs 1 7 ++
       whole 2 Pop 10 ++ whole 1 Pop 5)); [by vm_compute| | |done|right; by vm_compute].
    - repeat (constructor; [set_solver|]). constructor.
    - simpl. set_solver.
  Qed.
  Lemma qd5_serial : serial (fun o => o = Pop) qd5.
  Proof.
    apply (serialb_sound (fun o => match o with Pop => true | _ => false end) _ None);
      [by intros ? ->|by vm_compute].
  Qed.
  Lemma qd3_serial : serial (fun o => o = Pop) qd3.
  Proof.
    apply (serialb_sound (fun o => match o with Pop => true | _ => false end) _ None);
      [by intros ? ->|by vm_compute].
  Qed.
End queue_runs.

Section stack_runs.
  Import StackModel StackObs StackDemo DestStackModel.

  Fixpoint sdrun (c : cfg) (s : sstate) (chs : list schoice) : option (list sdev * sstate) :=
    match chs with
    | [] => Some ([], s)
    | ch :: chs =>
        match sstep c s ch with
        | SNext s' evs =>
            match sdrun c s' chs with
            | Some (tr, s2) => Some (svisible s ch evs ++ tr, s2)
            | None => None
            end
        | _ => None
        end
    end.

  Lemma sdexec_trans c s0 tr s tr' s' :
    sdexec c s0 tr s -> sdexec c s tr' s' -> sdexec c s0 (tr ++ tr') s'.
  Proof.
    intros H. induction 1 as [|tr1 s1 ch s2 evs He IH Hs].
    - by rewrite app_nil_r.
    - rewrite app_assoc. by econstructor.
  Qed.

  Lemma sdrun_exec c chs : forall s tr s', sdrun c s chs = Some (tr, s') -> sdexec c s tr s'.
  Proof.
    induction chs as [|ch chs IH]; intros s tr s' H; simpl in H.
    - injection H as <- <-. constructor.
    - destruct (sstep c s ch) as [s1 evs| |] eqn:Hs; [|done..].
      destruct (sdrun c s1 chs) as [[h1 s2]|] eqn:Hr; [|done]. injection H as <- <-.
      eapply sdexec_trans; [|by apply IH].
      rewrite <- (app_nil_l (svisible _ _ _)). econstructor; [constructor|done].
  Qed.

  (** Thread 1 has read tos when thread 2 pops; then it fails once, and a later
      call finds the stack empty. *)
  Definition sd1 : list sdev :=
    [DEv (Inv 0 (SPush true 5%N)); DEv (Res 0 (SBool true));
     DEv (Inv 0 (SPush true 6%N)); DEv (Res 0 (SBool true));
     DEv (Inv 1 SPop); DEv (Inv 2 SPop); DAsg 2 6%N; DEv (Res 2 (SGot (Some 6%N)));
     DAsg 1 5%N; DEv (Res 1 (SGot (Some 5%N)));
     DEv (Inv 1 SPop); DEv (Res 1 (SGot None))].
  Lemma sd1_reach : exists s, sdreach sdemoN [1; 2; 3]%N sd1 s.
  Proof.
    assert (fst <$> sdrun sdemoN (sinit sdemoN [1; 2; 3]%N)
      (swhole 0 (SPush true 5%N) 8 ++ swhole 0 (SPush true 6%N) 8 ++
       Invoke 1 SPop :: sruns 1 2 ++ swhole 2 SPop 9 ++ sruns 1 9 ++ swhole 1 SPop 2) = Some sd1) as H
      by by vm_compute.
    apply fmap_Some in H as ([tr s] & He & ->). exists s. split; [|split].
    - clear. repeat (constructor; [set_solver|]). constructor.
    - clear. simpl. set_solver.
    - eapply sdrun_exec. exact He.
  Qed.
End stack_runs.
