(** * Release/acquire memory: views

    Locations are numbered families; a view says, for every location, which of
    its writes (numbered in modification order from 0) a thread has seen.

    - [LRoot i]: an atomic word of the container (0: [pool_] of the freelist;
      1: [tos] of the stack, [head_] of the queue; 2: [tail_] of the queue);
    - [LNext n]: the link of node [n];
    - [LData n]: the element object in node [n]; the number counts the accesses
      (reads and writes) to it;
    - [LClk t]: the events (call, return) of thread [t]; this component is the
      vector clock that defines happens-before. *)
From stdpp Require Import gmap list numbers.

Inductive loc :=
  | LRoot (i : nat)
  | LNext (n : N)
  | LData (n : N)
  | LClk (t : nat).

Global Instance loc_eq_dec : EqDecision loc.
Proof. solve_decision. Defined.

Definition view := loc -> nat.

Definition v0 : view := fun _ => 0.
Definition vjoin (v w : view) : view := fun l => v l `max` w l.
Definition vset (v : view) (l : loc) (k : nat) : view := fun l' => if decide (l' = l) then k else v l'.

(** [v] has seen nothing that [w] has not seen. *)
Definition vle (v w : view) : Prop := forall l, v l <= w l.

(** A new event of thread [t]. *)
Definition tick (t : nat) (v : view) : view := vset v (LClk t) (S (v (LClk t))).

(** The views of all threads, updated at one thread. *)
Definition set_view (vw : nat -> view) (t : nat) (V : view) : nat -> view :=
  fun u => if decide (u = t) then V else vw u.
