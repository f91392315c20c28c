(** Property C44: [consume_all] of queue and stack (queue.hpp:553-573,
    stack.hpp:579-598), the loop around [consume_one], while other threads use
    the container.

    A trace contains the program's own calls ([Own]), the calls of pop made by
    the loops ([Sub]), and the calls, functor applications, returns and
    exceptions of consume_all. *)
From stdpp Require Import gmap list numbers.
From Verif Require Import Lin LinObs PoolModel LoopModel LoopObs LoopQueue LoopStack LoopDemo.
From Verif Require QueueModel QueueSpec QueueObs QueueMain QueueDemo QueueWitness
  StackModel StackSpec StackObs StackFlow StackMain StackDemo.

(** ** The queue *)
Section queue.
  Import QueueModel QueueSpec QueueObs QueueDemo QueueWitness.

  (** Nothing a program with consume_all does is undefined. *)
  Theorem C44_queue_consume_all_safe c ns tr s x :
    c_tagmod c = None -> qlreach c ns tr s -> qlstep c s x <> BUB.
  Proof. exact (fun Ht => ql_safe c Ht ns tr s x). Qed.
  Print Assumptions C44_queue_consume_all_safe.

  (** The calls below are linearizable: consume_all is not an atomic operation,
      but the pops it is made of are. *)
  Theorem C44_queue_consume_all_pops_linearizable c ns tr s :
    c_tagmod c = None -> qlreach c ns tr s ->
    hw_linearizable [] (qspec (c_node_based c) (c_throws c)) (omap below tr).
  Proof. exact (fun Ht H => proj1 (QueueMain.linearizable_main c Ht _ _ _ (qlreach_below c ns tr s H))). Qed.
  Print Assumptions C44_queue_consume_all_pops_linearizable.

  (** A call that returns [n] has popped [n] elements, applied the functor once
      to each, in that order, and then found the queue empty; it has done
      nothing else. *)
  Theorem C44_queue_consume_all_result c ns tr s t p m n q :
    qlreach c ns tr s -> tr = p ++ AllCall t :: m ++ AllRet t n :: q -> AllCall t ∉ m ->
    exists vs, n = length vs /\
      of_thread t m = rounds Pop (fun v => RPop (Some v)) t vs ++ last_round Pop (RPop None) t.
  Proof. exact (ql_call c ns tr s t p m n q). Qed.
  Print Assumptions C44_queue_consume_all_result.

  Example C44_queue_result_nonvacuous :
    exists s, qlreach demoF pool2 (lpretr ++ AllCall 1 :: lcstr ++ [AllRet 1 3]) s /\
      of_thread 1 lcstr = rounds Pop (fun v => RPop (Some v)) 1 [[7]; [8]; [9]]%N ++ last_round Pop (RPop None) 1.
  Proof. destruct ldemo as (s & H & _). exists s. split; [exact H|vm_compute; reflexivity]. Qed.

  (** At an instant of the call the queue was empty. *)
  Theorem C44_queue_consume_all_empties c ns t w n :
    c_tagmod c = None -> qlcallret c ns t w n -> exists s, s ∈ w /\ qcontents c (l_st s) [].
  Proof. exact (fun Ht => ql_empty c Ht ns t w n). Qed.
  Print Assumptions C44_queue_consume_all_empties.

  Example C44_queue_empties_nonvacuous : exists w, qlcallret demoF pool2 1 w 3.
  Proof. exact ldemo_call. Qed.

  (** Nothing is lost or duplicated: with no call in progress, what was pushed is
      what pops returned or functors were applied to, and what is stored (also
      if functors threw). *)
  Theorem C44_queue_consume_all_conserves c ns tr s :
    c_tagmod c = None -> qlreach c ns tr s -> qlquiescent s ->
    exists a, qcontents c (l_st s) a /\
      omap puts (completed (omap below tr)) ≡ₚ omap received tr ++ a.
  Proof. exact (fun Ht => ql_conserve c Ht ns tr s). Qed.
  Print Assumptions C44_queue_consume_all_conserves.

  Example C44_queue_conserves_nonvacuous :
    exists s, qlreach demoF pool2 (lpretr ++ [AllCall 1; Sub (Inv 1 Pop); Sub (Res 1 (RPop (Some [7%N])));
        AllApply 1 [7%N]; AllThrow 1]) s /\
      qcontents demoF (l_st s) [[8%N]] /\ qlquiescent s.
  Proof. exact ldemo_throw. Qed.

  (** Without other calls it consumes the queue's elements in order. *)
  Theorem C44_queue_consume_all_alone c ns tr s a t :
    c_tagmod c = None -> qlreach c ns tr s -> qlquiescent s -> qcontents c (l_st s) a ->
    exists s', qlquiescent s' /\ qcontents c (l_st s') [] /\
      qlexec c s ([AllCall t] ++ rounds Pop (fun v => RPop (Some v)) t a ++ last_round Pop (RPop None) t ++
        [AllRet t (length a)]) s'.
  Proof. exact (fun Ht => ql_alone c Ht ns tr s a t). Qed.
  Print Assumptions C44_queue_consume_all_alone.

  Example C44_queue_alone_nonvacuous :
    exists s, qlreach demoF pool2 lpretr s /\ qcontents demoF (l_st s) [[7%N]; [8%N]] /\ qlquiescent s.
  Proof. exact ldemo_pre. Qed.

  (** It need not end: while another thread pushes, a call that started on an
      empty queue can be made to consume any number [k] of elements and still
      be running. *)
  Theorem C44_queue_consume_all_bounded_refuted c ns tr s t u v k :
    c_tagmod c = None -> t <> u -> c_throws c = false -> length v = c_words c ->
    qlreach c ns tr s -> qlquiescent s -> qcontents c (l_st s) [] -> 2 <= size (q_heap (q_sh (l_st s))) ->
    exists tr' s', qlexec c s (AllCall t :: tr') s' /\ is_Some (l_in s' !! t) /\
      of_thread t tr' = rounds Pop (fun v => RPop (Some v)) t (replicate k v) /\
      of_thread u tr' = concat (replicate k [Own (Inv u (Push true v)); Own (Res u (RBool true))]).
  Proof. exact (fun Ht => ql_unbounded c Ht ns tr s t u v k). Qed.
  Print Assumptions C44_queue_consume_all_bounded_refuted.

  Example C44_queue_bounded_nonvacuous :
    exists s, qlreach demoF pool2 [] s /\ qlquiescent s /\ qcontents demoF (l_st s) [] /\
      2 <= size (q_heap (q_sh (l_st s))).
  Proof. exact ldemo_empty. Qed.
End queue.

(** ** The stack *)
Section stack.
  Import StackModel StackSpec StackObs StackFlow StackDemo.

  Theorem C44_stack_consume_all_safe c ns tr s x :
    c_tagmod c = None -> slreach c ns tr s -> slch_ok x -> slstep c s x <> BUB.
  Proof. exact (fun Ht => sl_safe c Ht ns tr s x). Qed.
  Print Assumptions C44_stack_consume_all_safe.

  Theorem C44_stack_consume_all_pops_linearizable c ns tr s :
    c_tagmod c = None -> slreach c ns tr s ->
    hw_linearizable [] (sspec (c_node_based c) (c_throws c)) (omap below tr).
  Proof. exact (fun Ht H => proj1 (StackMain.linearizable_main c Ht _ _ _ (slreach_below c ns tr s H))). Qed.
  Print Assumptions C44_stack_consume_all_pops_linearizable.

  Theorem C44_stack_consume_all_result c ns tr s t p m n q :
    slreach c ns tr s -> tr = p ++ AllCall t :: m ++ AllRet t n :: q -> AllCall t ∉ m ->
    exists vs, n = length vs /\
      of_thread t m = rounds SPop (fun v => SGot (Some v)) t vs ++ last_round SPop (SGot None) t.
  Proof. exact (sl_call c ns tr s t p m n q). Qed.
  Print Assumptions C44_stack_consume_all_result.

  Example C44_stack_result_nonvacuous :
    exists s, slreach sdemoF spool (spretr ++ AllCall 1 :: scstr ++ [AllRet 1 3]) s /\
      of_thread 1 scstr = rounds SPop (fun v => SGot (Some v)) 1 [8; 9; 7]%N ++ last_round SPop (SGot None) 1.
  Proof. destruct sldemo as (s & H & _). exists s. split; [exact H|vm_compute; reflexivity]. Qed.

  Theorem C44_stack_consume_all_empties c ns t w n :
    c_tagmod c = None -> slcallret c ns t w n -> exists s, s ∈ w /\ scontents c (l_st s) [].
  Proof. exact (fun Ht => sl_empty c Ht ns t w n). Qed.
  Print Assumptions C44_stack_consume_all_empties.

  Example C44_stack_empties_nonvacuous : exists w, slcallret sdemoF spool 1 w 3.
  Proof. exact sldemo_call. Qed.

  Theorem C44_stack_consume_all_alone c ns tr s a t :
    c_tagmod c = None -> slreach c ns tr s -> slquiescent s -> scontents c (l_st s) a ->
    exists s', slquiescent s' /\ scontents c (l_st s') [] /\
      slexec c s ([AllCall t] ++ rounds SPop (fun v => SGot (Some v)) t a ++ last_round SPop (SGot None) t ++
        [AllRet t (length a)]) s'.
  Proof. exact (fun Ht => sl_alone c Ht ns tr s a t). Qed.
  Print Assumptions C44_stack_consume_all_alone.

  Example C44_stack_alone_nonvacuous :
    exists s, slreach sdemoF spool spretr s /\ scontents sdemoF (l_st s) [8; 7]%N /\ slquiescent s.
  Proof. exact sldemo_pre. Qed.

  (** As for the queue; [D] are elements lost by a functor that threw in
      consume_all_atomic. *)
  Theorem C44_stack_consume_all_conserves c ns tr s :
    c_tagmod c = None -> slreach c ns tr s -> slquiescent s ->
    exists D a, scontents c (l_st s) a /\
      (completed (omap below tr) ≫= sputs) ≡ₚ (tr ≫= sreceived) ++ D ++ a /\
      (Forall (fun x => cut_short x = false) (completed (omap below tr)) -> D = []).
  Proof. exact (fun Ht => sl_conserve c Ht ns tr s). Qed.
  Print Assumptions C44_stack_consume_all_conserves.

  (** A throwing functor leaves consume_all with the elements below still on the
      stack. *)
  Example C44_stack_conserves_nonvacuous :
    exists s, slreach sdemoT spool (spretr ++ [AllCall 1; Sub (Inv 1 SPop); Sub (Res 1 (SExn [8%N]));
        AllApply 1 8%N; AllThrow 1]) s /\
      scontents sdemoT (l_st s) [7%N] /\ slquiescent s.
  Proof. exact sldemo_throw. Qed.
End stack.
