(** * Assignments made by queue::pop (queue.hpp:404-456, 466-512)

    [pop(U& ret)] copies the element into [ret] before it tries to move head_
    (446-449), so every attempt assigns [ret] once.  The layer below observes the
    machine of QueueModel.v: an execution as there, with the assignments.  That
    [detail::copy_payload] (copy_payload.hpp:40-47) chooses between [u = t] and
    [u = U(t)] makes no difference here.  If the conversion throws, nothing is
    assigned. *)
From stdpp Require Import gmap list numbers.
From Verif Require Import Lin PoolModel QueueModel DestSpec.

Notation qdev := (dev qop qret val).

(** The element that a call returns through its destination. *)
Definition qval (r : qret) : option val := match r with RPop r => r | _ => None end.

Section dest.
  Context (c : cfg).

  (** What a choice adds to the trace.  [pop]: all words of the element have been
      read, [ret] is assigned unless the conversion throws, and the
      compare-exchange follows (446-449).
      [unsynchronized_pop]: [ret] is assigned right before head_ is (505-507), and
      the call returns true. *)
  Definition qvisible (s : qstate) (ch : qchoice) (evs : list qevent) : list qdev :=
    match ch with
    | Invoke _ _ _ => DEv <$> evs
    | Run t _ _ thr =>
        match q_pcs s !! t with
        | Some (PcOCopy hd np acc) =>
            if thr then DEv <$> evs
            else if decide (length acc < c_words c) then DEv <$> evs else DAsg t acc :: (DEv <$> evs)
        | _ => DEv <$> evs
        end
    | Unsync t _ _ _ =>
        match evs with
        | [i; Res u (RPop (Some v))] => [DEv i; DAsg t v; DEv (Res u (RPop (Some v)))]
        | _ => DEv <$> evs
        end
    end.

  (** A weak compare-exchange fails although it could succeed. *)
  Definition qspurious (ch : qchoice) : bool :=
    match ch with Run _ sp _ _ => sp | _ => false end.

  (** [qdexec weak s0 tr s]: an execution from [s0] to [s] with trace [tr]; weak
      compare-exchanges fail spuriously only if [weak] is set. *)
  Inductive qdexec (weak : bool) (s0 : qstate) : list qdev -> qstate -> Prop :=
    | qdexec_nil : qdexec weak s0 [] s0
    | qdexec_step tr s ch s' evs :
        qdexec weak s0 tr s -> qstep c s ch = QNext s' evs ->
        (qspurious ch = true -> weak = true) ->
        qdexec weak s0 (tr ++ qvisible s ch evs) s'.

  (** From construction. *)
  Definition qdreach (weak : bool) (ns : list N) (tr : list qdev) (s : qstate) : Prop :=
    exists addr s0,
      NoDup ns /\ c_null c ∉ ns /\ (ns <> [] \/ c_node_based c = true) /\
      qinit c ns addr = Some s0 /\ qdexec weak s0 tr s.
End dest.
