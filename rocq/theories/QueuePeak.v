(** * How many nodes a queue ever needs: vocabulary

    Nothing in this file is used by the model. *)
From stdpp Require Import gmap list numbers.
From Verif Require Import Lin PoolModel QueueModel QueueSpec QueueObs QueueWrapObs.

(** The nodes that the calls in a history have asked for by reserve or
    reserve_unsafe. *)
Definition qasked (e : qevent) : nat :=
  match e with
  | Inv _ (Reserve n) | Inv _ (UReserve n) => n
  | _ => 0
  end.
Definition qreserved (hist : list qevent) : nat := sum_list_with qasked hist.

Section peak.
  Context (c : cfg).

  (** [qexec] all of whose states satisfy [P]. *)
  Inductive qexec_all (P : qstate -> Prop) (s0 : qstate) : list qevent -> qstate -> Prop :=
    | qall_nil : P s0 -> qexec_all P s0 [] s0
    | qall_step hist s ch s' evs :
        qexec_all P s0 hist s -> qstep c s ch = QNext s' evs -> P s' ->
        qexec_all P s0 (hist ++ evs) s'.

  (** [qwexec] all of whose states satisfy [P]. *)
  Inductive qwexec_all (b : N) (P : qstate -> Prop) (s0 : qstate) :
      list qevent -> qstate -> (nat -> qloc -> nat) -> Prop :=
    | qwall_nil : P s0 -> qwexec_all b P s0 [] s0 (fun _ _ => 0)
    | qwall_step hist s k ch s' evs :
        qwexec_all b P s0 hist s k -> qstep c s ch = QNext s' evs ->
        (forall t l, is_Some (q_pcs s' !! t) -> (N.of_nat (qcount k s ch s' t l) < b)%N) -> P s' ->
        qwexec_all b P s0 (hist ++ evs) s' (qcount k s ch s').

  (** The elements, the dummy node and the calls in progress are at most [B]. *)
  Definition qneeds (B : nat) (s : qstate) : Prop :=
    exists a, qcontents c s a /\ S (length a) + size (q_pcs s) <= B.
End peak.
