(** * Vocabulary: what calls put on the stack and took from it *)
From stdpp Require Import gmap list numbers.
From Verif Require Import Lin PoolModel StackModel.

(** The values that a call with result [r] has put on the stack. *)
Definition sputs (x : sop * sret) : list N :=
  match x with
  | (SPush _ v, SBool true) | (SUPush v, SBool true) => [v]
  | (SRange _ vs, SIter k) | (SURange vs, SIter k) => take k vs
  | _ => []
  end.
(** The values that a call may put on the stack. *)
Definition soffers (o : sop) : list N :=
  match o with
  | SPush _ v | SUPush v => [v]
  | SRange _ vs | SURange vs => vs
  | _ => []
  end.
(** The values that a call with result [r] has handed to its caller: returned,
    or passed to the caller's functor. *)
Definition svals (r : sret) : list N :=
  match r with
  | SGot (Some v) => [v]
  | SCount _ vs | SExn vs => vs
  | _ => []
  end.
Definition stakes (x : sop * sret) : list N := svals x.2.
(** The functor of consume_all_atomic threw: the elements it had not seen are
    lost (stack.hpp:609-685 has no handler). *)
Definition cut_short (x : sop * sret) : bool :=
  match x with (SAll _, SExn _) => true | _ => false end.
