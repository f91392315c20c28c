(** * Counting exceptions in executions of the queue

    Vocabulary for the statements of PropQueueLeak.v; nothing in this file is
    used by the model. *)
From stdpp Require Import gmap list numbers.
From Verif Require Import Lin PoolModel QueueModel QueueWrapObs.

(** How many exceptions thrown by the copy of an element into a node the choice
    [ch] stands for in state [s]: by push (queue.hpp:336-366 via
    freelist.hpp:95-101 and 462-471) or by unsynchronized_push (377-394).  A
    conversion or assignment that throws in pop (419-456) or unsynchronized_pop
    (482-517) is not counted: it costs nothing. *)
Definition thrown (s : qstate) (ch : qchoice) : nat :=
  match ch with
  | Invoke _ _ _ => 0
  | Run _ _ _ false => 0
  | Run t _ _ true => match q_pcs s !! t with Some (PcWord _ _ _) => 1 | _ => 0 end
  | Unsync _ (UPush _) _ true => 1
  | Unsync _ _ _ _ => 0
  end.

(** Executions with [k] such exceptions. *)
Inductive qexec_thrown (c : cfg) (s0 : qstate) : nat -> list qevent -> qstate -> Prop :=
  | qt_nil : qexec_thrown c s0 0 [] s0
  | qt_step k hist s ch s' evs :
      qexec_thrown c s0 k hist s -> qstep c s ch = QNext s' evs ->
      qexec_thrown c s0 (k + thrown s ch) (hist ++ evs) s'.

(** The states after a construction on the nodes [ns] and such an execution. *)
Definition qreach_thrown (c : cfg) (ns : list N) (k : nat) (hist : list qevent) (s : qstate) : Prop :=
  exists addr s0,
    NoDup ns /\ c_null c ∉ ns /\ (ns <> [] \/ c_node_based c = true) /\
    qinit c ns addr = Some s0 /\ qexec_thrown c s0 k hist s.

(** The same in the executions of [qwexec], with fewer than [b] updates of a tag
    during a call. *)
Inductive qwexec_thrown (c : cfg) (b : N) (s0 : qstate) :
    nat -> list qevent -> qstate -> (nat -> qloc -> nat) -> Prop :=
  | qwt_nil : qwexec_thrown c b s0 0 [] s0 (fun _ _ => 0)
  | qwt_step k hist s m ch s' evs :
      qwexec_thrown c b s0 k hist s m -> qstep c s ch = QNext s' evs ->
      (forall t l, is_Some (q_pcs s' !! t) -> (N.of_nat (qcount m s ch s' t l) < b)%N) ->
      qwexec_thrown c b s0 (k + thrown s ch) (hist ++ evs) s' (qcount m s ch s').

Definition qwreach_thrown (c : cfg) (b : N) (ns : list N) (k : nat) (hist : list qevent) (s : qstate) : Prop :=
  exists addr s0 m,
    NoDup ns /\ c_null c ∉ ns /\ (ns <> [] \/ c_node_based c = true) /\
    qinit c ns addr = Some s0 /\ qwexec_thrown c b s0 k hist s m.
