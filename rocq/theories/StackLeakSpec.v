(** * Counting exceptions in executions of the stack

    Vocabulary for the statements of PropStackLeak.v; nothing in this file is used
    by the model. *)
From stdpp Require Import gmap list numbers.
From Verif Require Import Lin PoolModel StackModel StackWrapObs.

(** How many exceptions of the element type or of a functor the choice [ch]
    stands for in state [s]: the copy of the element in push
    (stack.hpp:353-361 via freelist.hpp:86-92 and 450-459) or of an element of a
    range (285-317, 364-376), and the functor or conversion applied by
    consume_one and pop (472-478, 531-566).  [None]: a functor of
    consume_all_atomic or consume_all_atomic_reversed throws (609-645, 696-750),
    which loses all nodes not yet visited and is left out.  For an
    unsynchronized call, [thr] says which copy throws. *)
Definition thrown (s : sstate) (ch : schoice) : option nat :=
  match ch with
  | Invoke _ _ => Some 0
  | Run t _ _ false => Some 0
  | Run t _ _ true =>
      match s_pcs s !! t with
      | Some (PcCons _ _) | Some (PcRCons _ _ _ _ _) | Some (PcCFun _) => Some 1
      | Some (PcVisit _ _ _) => None
      | _ => Some 0
      end
  | Unsync _ _ _ thr => Some (match thr with Some _ => 1 | None => 0 end)
  end.

(** Executions with [k] such exceptions. *)
Inductive sexec_thrown (c : cfg) (s0 : sstate) : nat -> list sevent -> sstate -> Prop :=
  | st_nil : sexec_thrown c s0 0 [] s0
  | st_step k hist s ch j s' evs :
      sexec_thrown c s0 k hist s -> thrown s ch = Some j -> sstep c s ch = SNext s' evs ->
      sexec_thrown c s0 (k + j) (hist ++ evs) s'.

(** The same in the executions of [swexec], with fewer than [b] updates of a tag
    during a call. *)
Inductive swexec_thrown (c : cfg) (b : N) (s0 : sstate) :
    nat -> list sevent -> sstate -> (nat -> sloc -> nat) -> Prop :=
  | swt_nil : swexec_thrown c b s0 0 [] s0 (fun _ _ => 0)
  | swt_step k hist s m ch j s' evs :
      swexec_thrown c b s0 k hist s m -> thrown s ch = Some j -> sstep c s ch = SNext s' evs ->
      (forall t l, is_Some (s_pcs s' !! t) -> (N.of_nat (scount m s ch s' t l) < b)%N) ->
      swexec_thrown c b s0 (k + j) (hist ++ evs) s' (scount m s ch s').
