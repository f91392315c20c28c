(** * What the theorems about the stack on release/acquire memory refer to *)
From stdpp Require Import gmap list numbers.
From Verif Require Import Lin PoolModel StackModel StackObs RaMem RaStackModel.

Definition rch_ok (ch : rchoice) : Prop :=
  match ch with RInvoke _ o => nonempty_op o | _ => True end.

(** [rreach c acq ns tr s]: a stack constructed with the pool nodes [ns] (distinct
    and not null) can reach [s]; [tr] is the history, with the view of the
    thread at each event. *)
Definition rreach (c : cfg) (acq : bool) (ns : list N) (tr : list (sevent * view)) (s : rstate) : Prop :=
  NoDup ns /\ c_null c ∉ ns /\ hist_ok tr.*1 /\ rexec c acq (rinit c ns) tr s.

(** Someone with view [V] has seen the last write (the last access, for elements)
    to every location: a load can only return the newest value, and no access is
    a race. *)
Definition sees_all (w : wmem) (V : view) : Prop :=
  V (LRoot 0) = length (w_pool w) /\ V (LRoot 1) = length (w_tos w) /\
  forall n, V (LNext n) = length (w_next w n) /\ V (LData n) = w_acc w n.

(** The view of [t] includes those of all returns in the history: [t] has
    synchronized with every thread after its last call. *)
Definition synced (tr : list (sevent * view)) (V : view) : Prop :=
  forall u r W, (Res u r, W) ∈ tr -> vle W V.

(** A call that may put [v] on the stack. *)
Definition pushes (o : sop) (v : N) : Prop :=
  match o with
  | SPush _ v' | SUPush v' => v = v'
  | SRange _ vs | SURange vs => v ∈ vs
  | _ => False
  end.

(** The elements that a call has been given. *)
Definition gives (r : sret) (v : N) : Prop :=
  match r with
  | SGot (Some v') => v = v'
  | SCount _ vs => v ∈ vs
  | _ => False
  end.
