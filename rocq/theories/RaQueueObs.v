(** * What the theorems about the queue on release/acquire memory refer to *)
From stdpp Require Import gmap list numbers.
From Verif Require Import Lin PoolModel QueueModel RaMem RaQueueModel.

(** [rqreach c rel ns tr s]: a queue constructed with the pool nodes [ns]
    (distinct and not null; a fixed-size queue has at least one) can reach [s];
    [tr] is the history, with the view of the thread at each event. *)
Definition rqreach (c : cfg) (rel : bool) (ns : list N) (tr : list (qevent * view)) (s : rstate) : Prop :=
  exists addr s0,
    NoDup ns /\ c_null c ∉ ns /\ (ns <> [] \/ c_node_based c = true) /\
    rinit c ns addr = Some s0 /\ rexec c rel s0 tr s.

(** Someone with view [V] has seen the last write to every location: a load can
    only return the newest value, and no access is a race. *)
Definition sees_all (w : wmem) (V : view) : Prop :=
  V (LRoot 0) = length (w_pool w) /\ V (LRoot 1) = length (w_head w) /\ V (LRoot 2) = length (w_tail w) /\
  forall n, V (LNext n) = length (w_next w n) /\ V (LData n) = w_acc w n.

(** The view of [t] includes those of all returns in the history: [t] has
    synchronized with every thread after its last call. *)
Definition synced (tr : list (qevent * view)) (V : view) : Prop :=
  forall u r W, (Res u r, W) ∈ tr -> vle W V.

(** [src] tells for a pop which push its element comes from (calls are named by
    their positions in the history). *)
Record matching (tr : list (qevent * view)) (src : nat -> nat) : Prop := {
  (* The element was pushed by a call that did not fail, and the pop has, when it
     returns, seen everything that the pushing thread had seen when it called push. *)
  m_from : forall i j t v e W, call_returns tr.*1 i j t Pop (RPop (Some v)) -> tr !! j = Some (e, W) ->
    exists u b V, tr !! src i = Some (Inv u (Push b v), V) /\ vle V W /\
      (forall j' u' o r, call_returns tr.*1 (src i) j' u' o r -> r = RBool true);
  (* Different pops take different elements. *)
  m_once : forall i1 j1 t1 v1 i2 j2 t2 v2,
    call_returns tr.*1 i1 j1 t1 Pop (RPop (Some v1)) -> call_returns tr.*1 i2 j2 t2 Pop (RPop (Some v2)) ->
    src i1 = src i2 -> i1 = i2;
  (* If a push returned before the push of a popped element was called, then its
     element is taken by a pop that was called earlier than this one returned. *)
  m_fifo : forall i j t v i1 j1 t1 b1 v1,
    call_returns tr.*1 i j t Pop (RPop (Some v)) -> call_returns tr.*1 i1 j1 t1 (Push b1 v1) (RBool true) ->
    j1 < src i ->
    exists i0 t0, tr.*1 !! i0 = Some (Inv t0 Pop) /\ src i0 = i1 /\ i0 < j /\
      (forall j0 u o r, call_returns tr.*1 i0 j0 u o r -> r = RPop (Some v1));
}.
