(** * Concrete executions with consume_all, used as witnesses in PropLoop.v *)
From stdpp Require Import gmap list numbers.
From Verif Require Import Lin LinObs PoolModel LoopModel LoopObs.
From Verif Require QueueModel QueueSpec QueueObs QueueDemo QueueWitness StackModel StackSpec StackObs StackDemo.

(** ** Running schedules *)
Section run.
  Context {st ch op ret V : Type}.
  Context (step : st -> ch -> bout st (event op ret)) (busy : st -> nat -> bool)
    (who : ch -> nat) (unsync : ch -> bool) (call_pop : nat -> ch) (got : ret -> popped V)
    (after : bool).
  Notation lstep := (lstep step busy who unsync call_pop got after).
  Notation lexec := (lexec step busy who unsync call_pop got after).

  Fixpoint lrun (s : @lstate st V) (cs : list (lchoice ch)) : option (list (ltrace op ret V) * @lstate st V) :=
    match cs with
    | [] => Some ([], s)
    | x :: cs =>
        match lstep s x with
        | BNext s' evs =>
            match lrun s' cs with Some (tr, s2) => Some (evs ++ tr, s2) | None => None end
        | _ => None
        end
    end.

  Lemma lexec_trans s0 tr s tr' s' : lexec s0 tr s -> lexec s tr' s' -> lexec s0 (tr ++ tr') s'.
  Proof.
    intros H. induction 1 as [|tr' s' x s'' evs H' IH Hs]; [by rewrite app_nil_r|].
    rewrite app_assoc. by econstructor.
  Qed.

  Lemma lrun_exec cs : forall s tr s', lrun s cs = Some (tr, s') -> lexec s tr s'.
  Proof.
    induction cs as [|x cs IH]; intros s tr s' H; cbn [lrun] in H.
    - injection H as <- <-. constructor.
    - destruct (lstep s x) as [s1 evs| |] eqn:E; [|done|done].
      destruct (lrun s1 cs) as [[tr1 s2]|] eqn:Er; [|done]. injection H as <- <-.
      eapply lexec_trans; [|by apply IH]. change evs with ([] ++ evs). econstructor; [constructor|done].
  Qed.

  (** The states passed through. *)
  Fixpoint lstates (s : @lstate st V) (cs : list (lchoice ch)) : option (list (@lstate st V)) :=
    match cs with
    | [] => Some []
    | x :: cs =>
        match lstep s x with
        | BNext s' _ => cons s' <$> lstates s' cs
        | _ => None
        end
    end.
End run.

(** ** The queue *)
Section queue.
  Import QueueModel QueueSpec QueueObs QueueDemo QueueWitness.

  Definition qlrun c := lrun (qbelow c) qbusy qwho qunsync (fun t => Invoke t Pop false) qgot true.
  Definition qlstates c := lstates (qbelow c) qbusy qwho qunsync (fun t => Invoke t Pop false) qgot true.
  Definition qlfrom c ns addr cs :=
    match qinit c ns addr with Some s0 => qlrun c (LSt s0 ∅) cs | None => None end.

  Lemma qlfrom_reach c ns addr cs tr s :
    qlfrom c ns addr cs = Some (tr, s) -> NoDup ns -> c_null c ∉ ns -> (ns <> [] \/ c_node_based c = true) ->
    qlreach c ns tr s.
  Proof.
    unfold qlfrom. destruct (qinit c ns addr) as [s0|] eqn:Hi; [|done]. intros Hr H1 H2 H3.
    exists addr, s0. do 4 (split; [done|]). by eapply lrun_exec.
  Qed.

  Lemma qlcall_states c ns t cs : forall w s ws,
    qlcall c ns t w s -> qlstates c s cs = Some ws ->
    forallb (fun s' => bool_decide (is_Some (l_in s' !! t))) ws = true ->
    qlcall c ns t (w ++ ws) (default s (list.last ws)).
  Proof.
    induction cs as [|x cs IH]; intros w s ws Hc Hs HF; cbn [qlstates lstates] in Hs.
    - injection Hs as <-. by rewrite app_nil_r.
    - unfold qlstates in Hs. cbn [lstates] in Hs.
      destruct (lstep _ _ _ _ _ _ _ s x) as [s1 evs| |] eqn:Hst; [|done..].
      destruct (lstates _ _ _ _ _ _ _ s1 cs) as [ws1|] eqn:Hw; [|done]. injection Hs as <-.
      cbn [forallb] in HF. apply andb_prop in HF as [H1 HF]. apply bool_decide_eq_true in H1.
      assert (Hc1 : qlcall c ns t (w ++ [s1]) s1) by (by eapply qlcall_step).
      specialize (IH _ _ _ Hc1 Hw HF). rewrite <- app_assoc in IH. cbn [app] in IH.
      rewrite last_cons. destruct (list.last ws1); done.
  Qed.

  (** The states of a call of consume_all by [t] that starts after [pre], is
      followed by [cs], and is about to return [n]. *)
  Definition qlwindow c ns addr pre t cs : option (list (@lstate qstate val)) :=
    match qlfrom c ns addr pre with
    | Some (_, s) =>
        match qlstep c s (LCall t) with
        | BNext s1 _ => cons s1 <$> qlstates c s1 cs
        | _ => None
        end
    | None => None
    end.
  Definition qlwshow c ns addr pre t cs :=
    match qlwindow c ns addr pre t cs with
    | Some w => Some (forallb (fun s' => bool_decide (is_Some (l_in s' !! t))) w,
                      list.last w ≫= fun s => l_in s !! t)
    | None => None
    end.

  Lemma qlwshow_callret c ns addr pre t cs n :
    qlwshow c ns addr pre t cs = Some (true, Some (LEnd n)) ->
    NoDup ns -> c_null c ∉ ns -> (ns <> [] \/ c_node_based c = true) ->
    exists w, qlcallret c ns t w n.
  Proof.
    unfold qlwshow, qlwindow. destruct (qlfrom c ns addr pre) as [[tr s]|] eqn:Hf; [|done].
    destruct (qlstep c s (LCall t)) as [s1 evs| |] eqn:Hs; [|done..].
    destruct (qlstates c s1 cs) as [ws|] eqn:Hw; [|done]. cbn [fmap option_fmap option_map]. intros H H1 H2 H3.
    injection H as HF Hl. apply andb_prop in HF as [_ HF].
    exists (s1 :: ws), (default s1 (list.last ws)), (Run t false None false), false. eexists. split.
    - apply (qlcall_states c ns t cs [s1] s1 ws); [|done|done]. eapply qlcall_start; [by eapply qlfrom_reach|done].
    - rewrite last_cons in Hl.
      assert (Hl' : l_in (default s1 (list.last ws)) !! t = Some (LEnd n)) by (by destruct (list.last ws)).
      unfold qlstep. cbn [lstep]. rewrite Hl'. reflexivity.
  Qed.

  (** [k] steps of thread [t] in consume_all. *)
  Definition goes (t k : nat) : list (lchoice qchoice) := replicate k (LGo t (Run t false None false) false).

  (** What a schedule leads to. *)
  Definition qlshow c ns addr cs :=
    match qlfrom c ns addr cs with
    | Some (tr, s) =>
        match contentsb c (l_st s) with
        | Some a => Some (tr, a, size (q_pcs (l_st s)), size (l_in s))
        | None => None
        end
    | None => None
    end.

  Lemma qlshow_reach c ns addr cs tr a :
    qlshow c ns addr cs = Some (tr, a, 0, 0) -> NoDup ns -> c_null c ∉ ns ->
    (ns <> [] \/ c_node_based c = true) ->
    exists s, qlreach c ns tr s /\ qcontents c (l_st s) a /\ qlquiescent s.
  Proof.
    unfold qlshow. destruct (qlfrom c ns addr cs) as [[tr' s]|] eqn:Hf; [|done].
    destruct (contentsb c (l_st s)) as [a'|] eqn:Hc; [|done]. intros H H1 H2 H3. injection H as -> -> Hp Hi.
    exists s. split; [by eapply qlfrom_reach|]. split; [by apply contentsb_ok|].
    apply map_size_empty_inv in Hp, Hi. done.
  Qed.

  (** Two elements; thread 1 calls consume_all; when it has consumed one, thread
      0 pushes a third; consume_all consumes that, too. *)
  Definition lpre : list (lchoice qchoice) :=
    (LOwn <$> whole 0 (Push false [7%N]) 12) ++ (LOwn <$> whole 0 (Push false [8%N]) 12).
  Definition lcs : list (lchoice qchoice) :=
    goes 1 12 ++ (LOwn <$> whole 0 (Push false [9%N]) 12) ++ goes 1 30.
  Definition lpretr : list (ltrace qop qret val) :=
    [Own (Inv 0 (Push false [7%N])); Own (Res 0 (RBool true));
     Own (Inv 0 (Push false [8%N])); Own (Res 0 (RBool true))].
  Definition lcstr : list (ltrace qop qret val) :=
    [Sub (Inv 1 Pop); Sub (Res 1 (RPop (Some [7%N]))); AllApply 1 [7%N];
     Own (Inv 0 (Push false [9%N])); Own (Res 0 (RBool true));
     Sub (Inv 1 Pop); Sub (Res 1 (RPop (Some [8%N]))); AllApply 1 [8%N];
     Sub (Inv 1 Pop); Sub (Res 1 (RPop (Some [9%N]))); AllApply 1 [9%N];
     Sub (Inv 1 Pop); Sub (Res 1 (RPop None))].

  Lemma ldemo_pre : exists s, qlreach demoF pool2 lpretr s /\ qcontents demoF (l_st s) [[7%N]; [8%N]] /\ qlquiescent s.
  Proof. destruct pool2_ok as (H1 & H2 & H3). apply (qlshow_reach _ _ None lpre); [vm_compute; reflexivity|done..]. Qed.

  Lemma ldemo :
    exists s, qlreach demoF pool2 (lpretr ++ AllCall 1 :: lcstr ++ [AllRet 1 3]) s /\
      qcontents demoF (l_st s) [] /\ qlquiescent s.
  Proof.
    destruct pool2_ok as (H1 & H2 & H3).
    apply (qlshow_reach _ _ None (lpre ++ LCall 1 :: lcs ++ goes 1 1)); [vm_compute; reflexivity|done..].
  Qed.

  Lemma ldemo_call : exists w, qlcallret demoF pool2 1 w 3.
  Proof.
    destruct pool2_ok as (H1 & H2 & H3).
    apply (qlwshow_callret _ _ None lpre _ lcs); [vm_compute; reflexivity|done..].
  Qed.

  (** The functor throws: the element it was applied to is gone, the other one is
      still there. *)
  Lemma ldemo_throw :
    exists s, qlreach demoF pool2 (lpretr ++ [AllCall 1; Sub (Inv 1 Pop); Sub (Res 1 (RPop (Some [7%N])));
        AllApply 1 [7%N]; AllThrow 1]) s /\
      qcontents demoF (l_st s) [[8%N]] /\ qlquiescent s.
  Proof.
    destruct pool2_ok as (H1 & H2 & H3).
    apply (qlshow_reach _ _ None (lpre ++ LCall 1 :: goes 1 11 ++ [LGo 1 (Run 1 false None false) true]));
      [vm_compute; reflexivity|done..].
  Qed.

  (** An empty queue with two nodes. *)
  Lemma ldemo_empty :
    exists s, qlreach demoF pool2 [] s /\ qlquiescent s /\ qcontents demoF (l_st s) [] /\
      2 <= size (q_heap (q_sh (l_st s))).
  Proof.
    destruct pool2_ok as (H1 & H2 & H3).
    destruct (qinit demoF pool2 None) as [s0|] eqn:E; [|by vm_compute in E].
    exists (LSt s0 ∅). split; [exists None, s0; do 4 (split; [done|]); constructor|].
    assert (Hs : (contentsb demoF s0, size (q_pcs s0), bool_decide (2 <= size (q_heap (q_sh s0)))) = (Some [], 0, true)).
    { assert (E' : Some s0 = qinit demoF pool2 None) by done. clear E.
      revert E'. vm_compute (qinit demoF pool2 None). intros E'. injection E' as ->. vm_compute. reflexivity. }
    injection Hs as Hc Hp Hz. apply map_size_empty_inv in Hp. apply bool_decide_eq_true in Hz.
    split; [done|]. split; [by apply contentsb_ok|done].
  Qed.
End queue.

(** ** The stack *)
Section stack.
  Import StackModel StackSpec StackObs StackDemo.

  Definition slrun c := lrun (sbelow c) sbusy ch_thread sunsync (fun t => Invoke t SPop) sgot false.
  Definition slstates c := lstates (sbelow c) sbusy ch_thread sunsync (fun t => Invoke t SPop) sgot false.

  Lemma slrun_reach c ns cs tr s :
    slrun c (LSt (sinit c ns) ∅) cs = Some (tr, s) -> pool_ok c ns -> hist_okb (omap below tr) = true ->
    slreach c ns tr s.
  Proof.
    intros Hr [H1 H2] H3. do 2 (split; [done|]). split; [by apply hist_okb_ok|]. by eapply lrun_exec.
  Qed.

  Definition slch_okb (x : lchoice schoice) : bool := match x with LOwn x => ch_okb x | _ => true end.
  Lemma slch_okb_ok x : slch_okb x = true -> slch_ok x.
  Proof. destruct x; [apply ch_okb_ok|done|done]. Qed.

  Lemma slcall_states c ns t cs : forall w s ws,
    slcall c ns t w s -> slstates c s cs = Some ws -> forallb slch_okb cs = true ->
    forallb (fun s' => bool_decide (is_Some (l_in s' !! t))) ws = true ->
    slcall c ns t (w ++ ws) (default s (list.last ws)).
  Proof.
    induction cs as [|x cs IH]; intros w s ws Hc Hs Hok HF; unfold slstates in Hs; cbn [lstates] in Hs.
    - injection Hs as <-. by rewrite app_nil_r.
    - destruct (lstep _ _ _ _ _ _ _ s x) as [s1 evs| |] eqn:Hst; [|done..].
      destruct (lstates _ _ _ _ _ _ _ s1 cs) as [ws1|] eqn:Hw; [|done]. injection Hs as <-.
      cbn [forallb] in HF, Hok. apply andb_prop in HF as [H1 HF]. apply andb_prop in Hok as [H2 Hok].
      apply bool_decide_eq_true in H1.
      assert (Hc1 : slcall c ns t (w ++ [s1]) s1) by (eapply slcall_step; [done|by apply slch_okb_ok|done|done]).
      specialize (IH _ _ _ Hc1 Hw Hok HF). rewrite <- app_assoc in IH. cbn [app] in IH.
      rewrite last_cons. destruct (list.last ws1); done.
  Qed.

  Definition slwindow c ns pre t cs : option (list (ltrace sop sret N) * list (@lstate sstate N)) :=
    match slrun c (LSt (sinit c ns) ∅) pre with
    | Some (tr, s) =>
        match slstep c s (LCall t) with
        | BNext s1 _ => (fun ws => (tr, s1 :: ws)) <$> slstates c s1 cs
        | _ => None
        end
    | None => None
    end.
  Definition slwshow c ns pre t cs :=
    match slwindow c ns pre t cs with
    | Some (tr, w) => Some (hist_okb (omap below tr) && forallb slch_okb cs,
                      forallb (fun s' => bool_decide (is_Some (l_in s' !! t))) w,
                      list.last w ≫= fun s => l_in s !! t)
    | None => None
    end.

  Lemma slwshow_callret c ns pre t cs n :
    slwshow c ns pre t cs = Some (true, true, Some (LEnd n)) -> pool_ok c ns ->
    exists w, slcallret c ns t w n.
  Proof.
    unfold slwshow, slwindow. destruct (slrun c (LSt (sinit c ns) ∅) pre) as [[tr s]|] eqn:Hf; [|done].
    destruct (slstep c s (LCall t)) as [s1 evs| |] eqn:Hs; [|done..].
    destruct (slstates c s1 cs) as [ws|] eqn:Hw; [|done]. cbn [fmap option_fmap option_map]. intros H H1.
    injection H as Hok HF Hl. apply andb_prop in HF as [_ HF]. apply andb_prop in Hok as [Hok1 Hok2].
    exists (s1 :: ws), (default s1 (list.last ws)), (Run t false None false), false. eexists. split.
    - apply (slcall_states c ns t cs [s1] s1 ws); [|done|done|done]. eapply slcall_start; [by eapply slrun_reach|done].
    - rewrite last_cons in Hl.
      assert (Hl' : l_in (default s1 (list.last ws)) !! t = Some (LEnd n)) by (by destruct (list.last ws)).
      unfold slstep. cbn [lstep]. rewrite Hl'. reflexivity.
  Qed.

  Definition slshow c ns cs :=
    match slrun c (LSt (sinit c ns) ∅) cs with
    | Some (tr, s) =>
        match contentsb c (l_st s) with
        | Some a => Some (tr, a, size (s_pcs (l_st s)), size (l_in s), hist_okb (omap below tr))
        | None => None
        end
    | None => None
    end.

  Lemma slshow_reach c ns cs tr a :
    slshow c ns cs = Some (tr, a, 0, 0, true) -> pool_ok c ns ->
    exists s, slreach c ns tr s /\ scontents c (l_st s) a /\ slquiescent s.
  Proof.
    unfold slshow. destruct (slrun c (LSt (sinit c ns) ∅) cs) as [[tr' s]|] eqn:Hf; [|done].
    destruct (contentsb c (l_st s)) as [a'|] eqn:Hc; [|done]. intros H H1. injection H as -> -> Hp Hi Hok.
    exists s. split; [by eapply slrun_reach|]. split; [by apply contentsb_ok|].
    apply map_size_empty_inv in Hp, Hi. done.
  Qed.

  Definition sgoes (t k : nat) : list (lchoice schoice) := replicate k (LGo t (Run t false None false) false).
  Definition spre : list (lchoice schoice) :=
    (LOwn <$> swhole 0 (SPush false 7%N) 8) ++ (LOwn <$> swhole 0 (SPush false 8%N) 8).
  Definition scs : list (lchoice schoice) :=
    sgoes 1 11 ++ (LOwn <$> swhole 0 (SPush false 9%N) 8) ++ sgoes 1 25.
  Definition spretr : list (ltrace sop sret N) :=
    [Own (Inv 0 (SPush false 7%N)); Own (Res 0 (SBool true));
     Own (Inv 0 (SPush false 8%N)); Own (Res 0 (SBool true))].
  Definition scstr : list (ltrace sop sret N) :=
    [Sub (Inv 1 SPop); Sub (Res 1 (SGot (Some 8%N))); AllApply 1 8%N;
     Own (Inv 0 (SPush false 9%N)); Own (Res 0 (SBool true));
     Sub (Inv 1 SPop); Sub (Res 1 (SGot (Some 9%N))); AllApply 1 9%N;
     Sub (Inv 1 SPop); Sub (Res 1 (SGot (Some 7%N))); AllApply 1 7%N;
     Sub (Inv 1 SPop); Sub (Res 1 (SGot None))].

  Definition spool : list N := [1; 2; 3]%N.
  Lemma spool_ok c : c_null c = 0%N \/ c_null c = 9%N -> pool_ok c spool.
  Proof.
    intros H. split; [repeat (constructor; [set_solver|]); constructor|].
    unfold spool. rewrite !elem_of_cons, elem_of_nil. intros H'. destruct H as [H|H]; rewrite H in H'; naive_solver lia.
  Qed.

  Lemma sldemo_pre :
    exists s, slreach sdemoF spool spretr s /\ scontents sdemoF (l_st s) [8; 7]%N /\ slquiescent s.
  Proof. apply (slshow_reach _ _ spre); [vm_compute; reflexivity|apply spool_ok; by right]. Qed.

  Lemma sldemo :
    exists s, slreach sdemoF spool (spretr ++ AllCall 1 :: scstr ++ [AllRet 1 3]) s /\
      scontents sdemoF (l_st s) [] /\ slquiescent s.
  Proof.
    apply (slshow_reach _ _ (spre ++ LCall 1 :: scs ++ sgoes 1 1)); [vm_compute; reflexivity|apply spool_ok; by right].
  Qed.

  Lemma sldemo_call : exists w, slcallret sdemoF spool 1 w 3.
  Proof. apply (slwshow_callret _ _ spre _ scs); [vm_compute; reflexivity|apply spool_ok; by right]. Qed.

  (** The functor throws. *)
  Lemma sldemo_throw :
    exists s, slreach sdemoT spool (spretr ++ [AllCall 1; Sub (Inv 1 SPop); Sub (Res 1 (SExn [8%N]));
        AllApply 1 8%N; AllThrow 1]) s /\
      scontents sdemoT (l_st s) [7%N] /\ slquiescent s.
  Proof.
    apply (slshow_reach _ _ (spre ++ LCall 1 :: sgoes 1 4 ++ LGo 1 (Run 1 false None true) false :: sgoes 1 1));
      [vm_compute; reflexivity|apply spool_ok; by left].
  Qed.
End stack.
