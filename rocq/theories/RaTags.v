(** * Counting tag updates in a history (vocabulary for C46-C51 with tags that wrap) *)
From stdpp Require Import gmap list numbers.
From Verif Require Import PoolModel.

(** The number of updates of a tag in a sequence of values of its word. *)
Fixpoint tag_updates (l : list tagged) : nat :=
  match l with
  | x :: l' => match l' with
               | y :: _ => (if decide (x.2 = y.2) then 0 else 1) + tag_updates l'
               | [] => 0
               end
  | [] => 0
  end.
