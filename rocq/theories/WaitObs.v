(** * Vocabulary for the statements about calls that never return

    Nothing in this file is used by a model. *)
From stdpp Require Import gmap list numbers.
From Verif Require Import Lin PoolModel QueueModel StackModel.

(** The steps that a schedule gives to thread [t]. *)
Definition q_own (t : nat) (ch : qchoice) : bool :=
  match ch with QueueModel.Run t' _ _ _ => bool_decide (t' = t) | _ => false end.
Definition q_steps (t : nat) (chs : list qchoice) : nat := length (List.filter (q_own t) chs).
Definition s_own (t : nat) (ch : schoice) : bool :=
  match ch with StackModel.Run t' _ _ _ => bool_decide (t' = t) | _ => false end.
Definition s_steps (t : nat) (chs : list schoice) : nat := length (List.filter (s_own t) chs).

(** No compare-exchange fails spuriously, nothing throws, and the allocator is
    not asked. *)
Definition q_calm (ch : qchoice) : Prop :=
  match ch with
  | QueueModel.Invoke _ _ _ => True
  | QueueModel.Run _ sp addr thr => sp = false /\ addr = None /\ thr = false
  | QueueModel.Unsync _ _ _ _ => False
  end.
Definition s_calm (ch : schoice) : Prop :=
  match ch with
  | StackModel.Invoke _ _ => True
  | StackModel.Run _ sp addr thr => sp = false /\ addr = None /\ thr = false
  | StackModel.Unsync _ _ _ _ => False
  end.

(** What happens in [k] rounds of a thread [u] that takes an element and puts
    [v] back, resp. puts [v] and takes an element; [ws] are the elements it
    takes. *)
Definition q_pop_push (u : nat) (v : val) (ws : list val) : list qevent :=
  ws ≫= fun w => [Inv u Pop; Res u (RPop (Some w)); Inv u (Push true v); Res u (RBool true)].
Definition q_push_pop (u : nat) (v : val) (ws : list val) : list qevent :=
  ws ≫= fun w => [Inv u (Push true v); Res u (RBool true); Inv u Pop; Res u (RPop (Some w))].
Definition s_pop_push (u : nat) (v : N) (ws : list N) : list sevent :=
  ws ≫= fun w => [Inv u SPop; Res u (SGot (Some w)); Inv u (SPush true v); Res u (SBool true)].
Definition s_push_pop (u : nat) (v : N) (ws : list N) : list sevent :=
  ws ≫= fun w => [Inv u (SPush true v); Res u (SBool true); Inv u SPop; Res u (SGot (Some w))].
