(** * Sequential specification of the queue

    The abstract state is the list of elements, oldest first. *)
From stdpp Require Import gmap list numbers.
From Verif Require Import Lin PoolModel QueueModel.

(** [nb]: node-based configuration; [ct]: element copies may throw.
    - [push] appends.  It may report failure (without effect) only in a
      fixed-size configuration or as [bounded_push]; it may be left by an
      exception (without effect) only if copies may throw or it may allocate.
    - [pop] removes the oldest element and fails exactly on the empty queue; it
      may be left by an exception (without effect) only if copies may throw.
    - [empty] may answer false only if the queue is not empty.  Its answer
      true is not constrained here.
    - [reserve] has no effect on the elements.
    - the unsynchronized operations have the same effect. *)
Inductive qspec (nb ct : bool) : list val -> qop -> qret -> list val -> Prop :=
  | sp_push a b v : qspec nb ct a (Push b v) (RBool true) (a ++ [v])
  | sp_push_fail a b v : nb = false \/ b = true -> qspec nb ct a (Push b v) (RBool false) a
  | sp_push_exn a b v : ct = true \/ (nb = true /\ b = false) -> qspec nb ct a (Push b v) RExn a
  | sp_pop a v : qspec nb ct (v :: a) Pop (RPop (Some v)) a
  | sp_pop_empty : qspec nb ct [] Pop (RPop None) []
  | sp_pop_exn a : ct = true -> qspec nb ct a Pop RExn a
  | sp_empty_false a : a <> [] -> qspec nb ct a Empty (RBool false) a
  | sp_empty_true a : qspec nb ct a Empty (RBool true) a
  | sp_reserve a n : qspec nb ct a (Reserve n) RUnit a
  | sp_reserve_exn a n : qspec nb ct a (Reserve n) RExn a
  | sp_upush a v : qspec nb ct a (UPush v) (RBool true) (a ++ [v])
  | sp_upush_exn a v : qspec nb ct a (UPush v) RExn a
  | sp_upop a v : qspec nb ct (v :: a) UPop (RPop (Some v)) a
  | sp_upop_empty : qspec nb ct [] UPop (RPop None) []
  | sp_upop_exn a : ct = true -> qspec nb ct a UPop RExn a
  | sp_ureserve a n : qspec nb ct a (UReserve n) RUnit a
  | sp_ureserve_exn a n : qspec nb ct a (UReserve n) RExn a.

(** A history of the queue is linearizable. *)
Definition q_linearizable (nb ct : bool) (h : list qevent) : Prop :=
  linearizable [] (qspec nb ct) h.

Lemma qspec_det nb ct a o r a1 a2 : qspec nb ct a o r a1 -> qspec nb ct a o r a2 -> a1 = a2.
Proof. intros H1 H2. inversion H1; subst; inversion H2; subst; congruence. Qed.
