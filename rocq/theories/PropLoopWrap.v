(** Property C44 with tags that wrap modulo [M] (2^16 in the library).
    [qlwreach c M ns tr s] is like [qlreach] in PropLoop.v, for executions in which
    no tag is updated [M] times during a call of the program or a pop made by
    consume_all; likewise the other names with [w]. *)
From stdpp Require Import gmap list numbers.
From Verif Require Import Lin LinObs PoolModel LoopModel LoopObs LoopDemo LoopWrapObs LoopWrap LoopWrapWitness.
From Verif Require QueueModel QueueSpec QueueObs QueueWitness QueueWrapObs StackModel StackSpec StackObs StackFlow StackWrapObs.

(** ** The queue *)
Section queue.
  Import QueueModel QueueSpec QueueObs QueueWitness QueueWrapObs.

  Theorem C44_queue_consume_all_safe_wrap c M ns tr s x :
    c_tagmod c = Some M -> (2 <= M)%N -> qlwreach c M ns tr s -> qlstep c s x <> BUB.
  Proof. exact (fun Hc HM => wql_safe c M Hc HM ns tr s x). Qed.
  Print Assumptions C44_queue_consume_all_safe_wrap.

  Theorem C44_queue_consume_all_pops_linearizable_wrap c M ns tr s :
    c_tagmod c = Some M -> (2 <= M)%N -> qlwreach c M ns tr s ->
    hw_linearizable [] (qspec (c_node_based c) (c_throws c)) (omap below tr).
  Proof. exact (fun Hc HM => wql_linearizable c M Hc HM ns tr s). Qed.
  Print Assumptions C44_queue_consume_all_pops_linearizable_wrap.

  (** 75 elements are pushed and consumed with tags modulo 64; each consume_all
      consumes an element that is pushed while it runs. *)
  Example C44_queue_wrap_nonvacuous :
    c_tagmod lwcfg = Some 64%N /\
    length (filter (fun e => match e with AllApply _ _ => true | _ => false end = true) lwtr) = 75 /\
    exists s, qlwreach lwcfg 64 pool2 lwtr s /\ qlquiescent s /\ qtag (l_st s) LHead = 11%N.
  Proof.
    split; [reflexivity|]. split; [vm_compute; reflexivity|].
    destruct lwdemo as (s & H1 & H2 & _ & H3 & _). exists s. done.
  Qed.

  Theorem C44_queue_consume_all_result_wrap c M ns tr s t p m n q :
    c_tagmod c = Some M -> (2 <= M)%N -> qlwreach c M ns tr s ->
    tr = p ++ AllCall t :: m ++ AllRet t n :: q -> AllCall t ∉ m ->
    exists vs, n = length vs /\
      of_thread t m = rounds Pop (fun v => RPop (Some v)) t vs ++ last_round Pop (RPop None) t.
  Proof. exact (fun Hc HM => wql_call c M Hc HM ns tr s t p m n q). Qed.
  Print Assumptions C44_queue_consume_all_result_wrap.

  Example C44_queue_result_wrap_nonvacuous : exists p q, lwtr = p ++ AllCall 1 :: lcstr ++ AllRet 1 3 :: q.
  Proof. exists lpretr, (drop 19 lwtr). vm_compute. reflexivity. Qed.

  Theorem C44_queue_consume_all_empties_wrap c M ns t w n :
    c_tagmod c = Some M -> (2 <= M)%N -> qlwcallret c M ns t w n -> exists s, s ∈ w /\ qcontents c (l_st s) [].
  Proof. exact (fun Hc HM => wql_empty c M Hc HM ns t w n). Qed.
  Print Assumptions C44_queue_consume_all_empties_wrap.

  Example C44_queue_empties_wrap_nonvacuous : exists w, qlwcallret lwcfg 64 pool2 1 w 3.
  Proof. exact lwdemo_call. Qed.

  Theorem C44_queue_consume_all_conserves_wrap c M ns tr s :
    c_tagmod c = Some M -> (2 <= M)%N -> qlwreach c M ns tr s -> qlquiescent s ->
    exists a, qcontents c (l_st s) a /\
      omap puts (completed (omap below tr)) ≡ₚ omap received tr ++ a.
  Proof. exact (fun Hc HM => wql_conserve c M Hc HM ns tr s). Qed.
  Print Assumptions C44_queue_consume_all_conserves_wrap.

  Theorem C44_queue_consume_all_alone_wrap c M ns tr s a t :
    c_tagmod c = Some M -> (2 <= M)%N -> qlwreach c M ns tr s -> qlquiescent s -> qcontents c (l_st s) a ->
    exists s', qlquiescent s' /\ qcontents c (l_st s') [] /\
      qlexec c s ([AllCall t] ++ rounds Pop (fun v => RPop (Some v)) t a ++ last_round Pop (RPop None) t ++
        [AllRet t (length a)]) s'.
  Proof. exact (fun Hc HM => wql_alone c M Hc HM ns tr s a t). Qed.
  Print Assumptions C44_queue_consume_all_alone_wrap.

  Example C44_queue_alone_wrap_nonvacuous :
    exists s, qlwreach lwcfg 64 pool2 (lwtr ++ lpretr) s /\ qlquiescent s /\ qcontents lwcfg (l_st s) [[7%N]; [8%N]].
  Proof. exact lwdemo_pre. Qed.

  (** Here, too, a call need not end. *)
  Theorem C44_queue_consume_all_bounded_wrap_refuted c M ns tr s t u v k :
    c_tagmod c = Some M -> (2 <= M)%N -> t <> u -> c_throws c = false -> length v = c_words c ->
    qlwreach c M ns tr s -> qlquiescent s -> qcontents c (l_st s) [] -> 2 <= size (q_heap (q_sh (l_st s))) ->
    exists tr' s', qlexec c s (AllCall t :: tr') s' /\ is_Some (l_in s' !! t) /\
      of_thread t tr' = rounds Pop (fun v => RPop (Some v)) t (replicate k v) /\
      of_thread u tr' = concat (replicate k [Own (Inv u (Push true v)); Own (Res u (RBool true))]).
  Proof. exact (fun Hc HM => wql_unbounded c M Hc HM ns tr s t u v k). Qed.
  Print Assumptions C44_queue_consume_all_bounded_wrap_refuted.

  Example C44_queue_bounded_wrap_nonvacuous :
    exists s, qlwreach lwcfg 64 pool2 lwtr s /\ qlquiescent s /\ qcontents lwcfg (l_st s) [] /\
      qtag (l_st s) LHead = 11%N /\ size (q_heap (q_sh (l_st s))) = 3.
  Proof. exact lwdemo. Qed.
End queue.

(** ** The stack *)
Section stack.
  Import StackModel StackSpec StackObs StackFlow StackWrapObs.

  Theorem C44_stack_consume_all_safe_wrap c M ns tr s x :
    c_tagmod c = Some M -> (2 <= M)%N -> slwreach c M ns tr s -> slch_ok x -> slstep c s x <> BUB.
  Proof. exact (fun Hc HM => wsl_safe c M Hc HM ns tr s x). Qed.
  Print Assumptions C44_stack_consume_all_safe_wrap.

  Theorem C44_stack_consume_all_pops_linearizable_wrap c M ns tr s :
    c_tagmod c = Some M -> (2 <= M)%N -> slwreach c M ns tr s ->
    hw_linearizable [] (sspec (c_node_based c) (c_throws c)) (omap below tr).
  Proof. exact (fun Hc HM => wsl_linearizable c M Hc HM ns tr s). Qed.
  Print Assumptions C44_stack_consume_all_pops_linearizable_wrap.

  Example C44_stack_wrap_nonvacuous :
    c_tagmod slwcfg = Some 32%N /\
    length (filter (fun e => match e with AllApply _ _ => true | _ => false end = true) slwtr) = 75 /\
    exists s, slwreach slwcfg 32 spool slwtr s /\ slquiescent s /\ stag (l_st s) LTos = 11%N.
  Proof.
    split; [reflexivity|]. split; [vm_compute; reflexivity|].
    destruct slwdemo as (s & H1 & H2 & _ & H3). exists s. done.
  Qed.

  Theorem C44_stack_consume_all_result_wrap c M ns tr s t p m n q :
    c_tagmod c = Some M -> (2 <= M)%N -> slwreach c M ns tr s ->
    tr = p ++ AllCall t :: m ++ AllRet t n :: q -> AllCall t ∉ m ->
    exists vs, n = length vs /\
      of_thread t m = rounds SPop (fun v => SGot (Some v)) t vs ++ last_round SPop (SGot None) t.
  Proof. exact (fun Hc HM => wsl_call c M Hc HM ns tr s t p m n q). Qed.
  Print Assumptions C44_stack_consume_all_result_wrap.

  Example C44_stack_result_wrap_nonvacuous : exists p q, slwtr = p ++ AllCall 1 :: scstr ++ AllRet 1 3 :: q.
  Proof. exists spretr, (drop 19 slwtr). vm_compute. reflexivity. Qed.

  Theorem C44_stack_consume_all_empties_wrap c M ns t w n :
    c_tagmod c = Some M -> (2 <= M)%N -> slwcallret c M ns t w n -> exists s, s ∈ w /\ scontents c (l_st s) [].
  Proof. exact (fun Hc HM => wsl_empty c M Hc HM ns t w n). Qed.
  Print Assumptions C44_stack_consume_all_empties_wrap.

  Example C44_stack_empties_wrap_nonvacuous : exists w, slwcallret slwcfg 32 spool 1 w 3.
  Proof. exact slwdemo_call. Qed.

  Theorem C44_stack_consume_all_alone_wrap c M ns tr s a t :
    c_tagmod c = Some M -> (2 <= M)%N -> slwreach c M ns tr s -> slquiescent s -> scontents c (l_st s) a ->
    exists s', slquiescent s' /\ scontents c (l_st s') [] /\
      slexec c s ([AllCall t] ++ rounds SPop (fun v => SGot (Some v)) t a ++ last_round SPop (SGot None) t ++
        [AllRet t (length a)]) s'.
  Proof. exact (fun Hc HM => wsl_alone c M Hc HM ns tr s a t). Qed.
  Print Assumptions C44_stack_consume_all_alone_wrap.

  Example C44_stack_alone_wrap_nonvacuous :
    exists s, slwreach slwcfg 32 spool (slwtr ++ spretr) s /\ slquiescent s /\ scontents slwcfg (l_st s) [8; 7]%N.
  Proof. exact slwdemo_pre. Qed.

  Theorem C44_stack_consume_all_conserves_wrap c M ns tr s :
    c_tagmod c = Some M -> (2 <= M)%N -> slwreach c M ns tr s -> slquiescent s ->
    exists D a, scontents c (l_st s) a /\
      (completed (omap below tr) ≫= sputs) ≡ₚ (tr ≫= sreceived) ++ D ++ a /\
      (Forall (fun x => cut_short x = false) (completed (omap below tr)) -> D = []).
  Proof. exact (fun Hc HM => wsl_conserve c M Hc HM ns tr s). Qed.
  Print Assumptions C44_stack_consume_all_conserves_wrap.
End stack.
