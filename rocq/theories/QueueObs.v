(** * Vocabulary for the statements about the queue

    Nothing in this file is used by the model; the definitions only say what
    can be observed of a state or an execution of the machine of QueueModel.v. *)
From stdpp Require Import gmap list numbers.
From Verif Require Import Lin LinObs PoolModel QueueModel QueueSpec.

(** ** Histories *)

(** The value that a call has put into, resp. taken out of the queue. *)
Definition puts (cl : qop * qret) : option val :=
  match cl with
  | (Push _ v, RBool true) | (UPush v, RBool true) => Some v
  | _ => None
  end.
Definition takes (cl : qop * qret) : option val :=
  match cl with
  | (Pop, RPop (Some v)) | (UPop, RPop (Some v)) => Some v
  | _ => None
  end.

(** The value that a call is meant to put into the queue, if it is a push; and
    whether it is a pop. *)
Definition pushes (o : qop) : option val :=
  match o with Push _ v | UPush v => Some v | _ => None end.
Definition is_pop (o : qop) : bool :=
  match o with Pop | UPop => true | _ => false end.

Section obs.
  Context (c : cfg).

  (** ** Reachable states *)

  (** [qreach ns hist s]: a queue constructed with the pool nodes [ns] (distinct
      and not null; a fixed-size queue has at least one) can reach [s] with
      history [hist]. *)
  Definition qreach (ns : list N) (hist : list qevent) (s : qstate) : Prop :=
    exists addr s0,
      NoDup ns /\ c_null c ∉ ns /\ (ns <> [] \/ c_node_based c = true) /\
      qinit c ns addr = Some s0 /\ qexec c s0 hist s.

  (** The calls that may obtain memory from the allocator. *)
  Definition allocates (o : qop) : bool :=
    match o with
    | Push b _ => c_node_based c && negb b
    | Reserve _ | UReserve _ | UPush _ => c_node_based c
    | Pop | Empty | UPop => false
    end.

  (** No call is in progress. *)
  Definition quiescent (s : qstate) : Prop := q_pcs s = ∅.

  (** ** Contents of memory *)

  (** The values found by following links from [p] to null. *)
  Inductive chain (h : gmap N qnode) : N -> list val -> Prop :=
    | chain_end : chain h (c_null c) []
    | chain_node p nd a :
        p <> c_null c -> h !! p = Some nd -> chain h (nx nd).1 a -> chain h p (dat nd :: a).

  (** The elements of the queue: those behind the dummy node. *)
  Definition qcontents (s : qstate) (a : list val) : Prop :=
    exists nd, q_heap (q_sh s) !! (q_head (q_sh s)).1 = Some nd /\
               chain (q_heap (q_sh s)) (nx nd).1 a.

  (** The nodes found by following links. *)
  Inductive nodes (h : gmap N qnode) : N -> list N -> Prop :=
    | nodes_end : nodes h (c_null c) []
    | nodes_node p nd l :
        p <> c_null c -> h !! p = Some nd -> nodes h (nx nd).1 l -> nodes h p (p :: l).

  (** The node that a call has taken from the pool (or the allocator) or out of
      the queue and not yet put anywhere. *)
  Definition holds (pc : qpc) : option N :=
    match pc with
    | PcWord _ n _ | PcNStore n _ | PcPTail n | PcPNext n _ | PcPCheck n _ _ | PcPLink n _ _
    | PcPSwing n _ _ | PcDealloc n _ _ => Some n
    | _ => None
    end.

  (** The pool is exhausted: its list is empty, and every node is the dummy or
      an element of the queue, or held by a call in progress. *)
  Definition exhausted (s : qstate) : Prop :=
    (q_pool (q_sh s)).1 = c_null c /\
    exists l, nodes (q_heap (q_sh s)) (q_head (q_sh s)).1 l /\
      forall n, is_Some (q_heap (q_sh s) !! n) ->
        n ∈ l \/ exists t pc, q_pcs s !! t = Some pc /\ holds pc = Some n.

  (** ** Calls *)

  (** [qcall s0 t o w s]: an execution from [s0] has reached [s], in which thread
      [t] is inside a call of [o], and [w] are the states since the invocation,
      [s] included. *)
  Inductive qcall (s0 : qstate) (t : nat) (o : qop) : list qstate -> qstate -> Prop :=
    | qcall_start hist s tf s' evs :
        qexec c s0 hist s -> qstep c s (Invoke t o tf) = QNext s' evs ->
        qcall s0 t o [s'] s'
    | qcall_step w s ch s' evs :
        qcall s0 t o w s -> qstep c s ch = QNext s' evs -> is_Some (q_pcs s' !! t) ->
        qcall s0 t o (w ++ [s']) s'.

  (** The next step of [t] in [s] returns [r]. *)
  Definition qreturns (s : qstate) (t : nat) (r : qret) : Prop :=
    exists sp addr thr s', qstep c s (Run t sp addr thr) = QNext s' [Res t r].

  (** [qcallret ns t o w r]: some call of [o] by [t] returns [r], and [w] are the
      states from its invocation to its return. *)
  Definition qcallret (ns : list N) (t : nat) (o : qop) (w : list qstate) (r : qret) : Prop :=
    exists addr s0 s,
      NoDup ns /\ c_null c ∉ ns /\ (ns <> [] \/ c_node_based c = true) /\
      qinit c ns addr = Some s0 /\ qcall s0 t o w s /\ qreturns s t r.
End obs.
