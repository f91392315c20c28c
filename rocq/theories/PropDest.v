(** Property C52: what pop does to the variable it is given. *)
From stdpp Require Import gmap list numbers.
From Verif Require Import Lin PoolModel DestSpec DestFacts DestWitness.
From Verif Require QueueModel QueueObs QueueDemo DestQueueModel DestQueue.
From Verif Require StackModel StackObs StackDemo DestStackModel DestStack.

(** ** Stack *)
Section stack.
  Import StackModel StackDemo DestStackModel.

  (** C52, stack.  A call that returns true has assigned its destination once,
      with the element it returns; all other calls, those left by an exception
      included, have not touched it.  Any configuration, any number of threads,
      any tags. *)
  Theorem C52_stack_destination c ns tr s t o r l :
    sdreach c ns tr s -> one_call tr t o r l ->
    l = option_list (sval r).
  Proof. exact (DestStack.stack_destination c ns tr s t o r l). Qed.
  Print Assumptions C52_stack_destination.

  (** Destinations that own what is assigned to them: nothing is destroyed, and
      the callers own exactly the elements returned to them. *)
  Theorem C52_stack_owning c ns tr s :
    sdreach c ns tr s ->
    w_gone (owners tr) = [] /\ w_given (owners tr) = returned sval tr.
  Proof. exact (DestStack.stack_owning c ns tr s). Qed.
  Print Assumptions C52_stack_owning.

  (** The traces are those of all executions. *)
  Theorem C52_stack_observed c s0 hist s :
    sexec c s0 hist s <-> exists tr, sdexec c s0 tr s /\ events tr = hist.
  Proof. exact (DestStack.stack_observed c s0 hist s). Qed.
  Print Assumptions C52_stack_observed.

  Example C52_stack_nonvacuous :
    (exists s, sdreach sdemoN [1; 2; 3]%N sd1 s) /\
    one_call sd1 1 SPop (SGot (Some 5%N)) [5%N] /\ one_call sd1 1 SPop (SGot None) [] /\
    returned sval sd1 = [6; 5]%N.
  Proof.
    split; [exact sd1_reach|]. split_and!.
    - exists (take 4 sd1), [DEv (Inv 2 SPop); DAsg 2 6%N; DEv (Res 2 (SGot (Some 6%N))); DAsg 1 5%N], (drop 10 sd1).
      split; [reflexivity|]. split; [|reflexivity].
      intros e He. repeat (apply elem_of_cons in He as [He|He]; [try injection He as ->; done|]).
      by apply elem_of_nil in He.
    - exists (take 10 sd1), [], []. split; [reflexivity|]. split; [|reflexivity].
      intros e He. by apply elem_of_nil in He.
    - reflexivity.
  Qed.
End stack.

(** ** Queue *)
Section queue.
  Import QueueModel QueueDemo DestQueueModel.

  (** C52, queue.  A call of pop that returns true leaves the element it returns
      in its destination; nothing but pop assigns anything.  A pop that returns
      false, or whose conversion throws, may have assigned its destination
      before. *)
  Theorem C52_queue_destination c weak ns tr s t o r l :
    qdreach c weak ns tr s -> one_call tr t o r l ->
    match r with
    | RPop (Some v) => list.last l = Some v
    | RPop None => True
    | RExn => o = Pop \/ l = []
    | _ => l = []
    end.
  Proof. exact (DestQueue.queue_destination c weak ns tr s t o r l). Qed.
  Print Assumptions C52_queue_destination.

  (** If pops do not overlap and weak compare-exchanges do not fail spuriously:
      as for the stack.  Pushes may run concurrently. *)
  Theorem C52_queue_serial_destination c ns tr s t o r l :
    qdreach c false ns tr s -> serial (fun o => o = Pop) tr -> one_call tr t o r l ->
    l = option_list (qval r).
  Proof. exact (DestQueue.queue_serial_destination c ns tr s t o r l). Qed.
  Print Assumptions C52_queue_serial_destination.

  Theorem C52_queue_serial_owning c ns tr s :
    qdreach c false ns tr s -> serial (fun o => o = Pop) tr ->
    w_gone (owners tr) = [] /\ w_given (owners tr) = returned qval tr.
  Proof. exact (DestQueue.queue_serial_owning c ns tr s). Qed.
  Print Assumptions C52_queue_serial_owning.

  (** The traces are those of all executions. *)
  Theorem C52_queue_observed c s0 hist s :
    qexec c s0 hist s <-> exists tr, qdexec c true s0 tr s /\ events tr = hist.
  Proof. exact (DestQueue.queue_observed c s0 hist s). Qed.
  Print Assumptions C52_queue_observed.

  Example C52_queue_nonvacuous :
    (exists s, qdreach demoF false dpool qd5 s) /\ serial (fun o => o = Pop) qd5 /\
    one_call qd5 1 Pop (RPop (Some [1%N])) [[1%N]] /\ returned qval qd5 = [[1%N]; [2%N]].
  Proof.
    split; [exact qd5_reach|]. split; [exact qd5_serial|]. split.
    - exists (take 2 qd5), [DEv (Inv 0 (Push false [2%N])); DEv (Res 0 (RBool true)); DAsg 1 [1%N]], (drop 7 qd5).
      split; [reflexivity|]. split; [|reflexivity].
      intros e He. repeat (apply elem_of_cons in He as [He|He]; [try injection He as ->; done|]).
      by apply elem_of_nil in He.
    - reflexivity.
  Qed.

  (** Overlapping pops: a call copies an element that another call pops; when it
      tries again, the destination, which owns what it was given, destroys it.
      Here the elements pushed are distinct, and one of them is owned by a caller
      although it has been destroyed. *)
  Theorem C52_queue_owning_refuted :
    exists c ns tr s v, qdreach c false ns tr s /\ NoDup (qpushed tr) /\
      v ∈ w_given (owners tr) /\ v ∈ w_gone (owners tr).
  Proof.
    destruct qd1_reach as [s Hs]. exists demoF, dpool, qd1, s, [1%N].
    split; [exact Hs|]. split_and!.
    - vm_compute. repeat (constructor; [clear; set_solver|]). constructor.
    - vm_compute. left.
    - vm_compute. left.
  Qed.
  Print Assumptions C52_queue_owning_refuted.

  (** The same without any concurrency, if a weak compare-exchange fails
      spuriously. *)
  Theorem C52_queue_spurious_refuted :
    exists c ns tr s v, qdreach c true ns tr s /\ NoDup (qpushed tr) /\ serial (fun o => o = Pop) tr /\
      (forall e, e ∈ events tr -> ev_thread e = 0) /\
      v ∈ w_given (owners tr) /\ v ∈ w_gone (owners tr).
  Proof.
    destruct qd3_reach as [s Hs]. exists demoF, dpool, qd3, s, [1%N].
    split; [exact Hs|]. split_and!.
    - vm_compute. repeat (constructor; [clear; set_solver|]). constructor.
    - exact qd3_serial.
    - intros e He. change (events qd3) with
        [Inv 0 (Push false [1%N]); Res 0 (RBool true); Inv 0 Pop; Res 0 (RPop (Some [1%N]))] in He.
      repeat (apply elem_of_cons in He as [->|He]; [done|]). by apply elem_of_nil in He.
    - vm_compute. left.
    - vm_compute. left.
  Qed.
  Print Assumptions C52_queue_spurious_refuted.

  (** A call that returns false may have assigned its destination (the comment at
      queue.hpp:416 says so). *)
  Theorem C52_queue_failed_pop_refuted :
    exists c ns tr s t l, qdreach c false ns tr s /\ one_call tr t Pop (RPop None) l /\ l <> [].
  Proof.
    destruct qd2_reach as [s Hs]. exists demoF, dpool, qd2, s, 1, [[1%N]].
    split; [exact Hs|]. split; [|done].
    exists (take 2 qd2), [DEv (Inv 2 Pop); DAsg 2 [1%N]; DEv (Res 2 (RPop (Some [1%N]))); DAsg 1 [1%N]], [].
    split; [reflexivity|]. split; [|reflexivity].
    intros e He. repeat (apply elem_of_cons in He as [He|He]; [try injection He as ->; done|]).
    by apply elem_of_nil in He.
  Qed.
  Print Assumptions C52_queue_failed_pop_refuted.

  (** A conversion may be given a value that nobody has pushed: half of one
      element and half of another. *)
  Theorem C52_queue_torn_refuted :
    exists c ns tr s t v, qdreach c false ns tr s /\ v ∈ asgs t tr /\ v ∉ qpushed tr.
  Proof.
    destruct qd4_reach as [s Hs]. exists demoN, [1; 2; 3]%N, qd4, s, 1, [1%N; 3%N].
    split; [exact Hs|]. split.
    - vm_compute. left.
    - change (qpushed qd4) with [[1%N; 1%N]; [2%N; 2%N]; [3%N; 3%N]]. clear. set_solver.
  Qed.
  Print Assumptions C52_queue_torn_refuted.
End queue.
