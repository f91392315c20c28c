(** * Model of consume_all (queue.hpp:553-573, stack.hpp:579-598)

    [while (consume_one(f)) element_count += 1; return element_count;]

    The loop is put on top of a machine whose steps are the steps of
    consume_one and of all other operations: the machine of QueueModel.v, where
    consume_one is pop followed by an application of the functor
    (queue.hpp:523-543), or that of StackModel.v, where the functor is applied
    inside consume_one (stack.hpp:531-569).  Other threads keep using the
    operations of that machine, and may run consume_all as well. *)
From stdpp Require Import gmap list numbers.
From Verif Require Import Lin.

(** ** What can be observed *)

Inductive ltrace (op ret V : Type) :=
  | Own (e : event op ret)       (* a call made by the program, or its return *)
  | Sub (e : event op ret)       (* a call of pop made by a consume_all, or its return *)
  | AllCall (t : nat)            (* [t] calls consume_all *)
  | AllApply (t : nat) (v : V)   (* consume_all of [t] applies the functor to [v] *)
  | AllRet (t : nat) (n : nat)   (* consume_all of [t] returns [n] *)
  | AllThrow (t : nat).          (* consume_all of [t] is left by an exception, of the functor or of pop *)
Arguments Own {op ret V} e.
Arguments Sub {op ret V} e.
Arguments AllCall {op ret V} t.
Arguments AllApply {op ret V} t v.
Arguments AllRet {op ret V} t n.
Arguments AllThrow {op ret V} t.

(** The history of the machine below. *)
Definition below {op ret V} (e : ltrace op ret V) : option (event op ret) :=
  match e with Own e | Sub e => Some e | _ => None end.

(** ** State *)

(** Where a thread is inside consume_all; [n] is [element_count]. *)
Inductive lpc (V : Type) :=
  | LTest (n : nat)              (* about to call consume_one : queue.hpp:557, stack.hpp:583 *)
  | LPop (n : nat)               (* inside pop : queue.hpp:526 *)
  | LFun (n : nat) (v : V)       (* pop has returned true : queue.hpp:527-530 *)
  | LEnd (n : nat).              (* consume_one has returned false : queue.hpp:560 *)
Arguments LTest {V} n.
Arguments LPop {V} n.
Arguments LFun {V} n v.
Arguments LEnd {V} n.

(** A result of pop. *)
Inductive popped (V : Type) :=
  | GotOne (v : V)               (* true *)
  | GotNone                      (* false *)
  | GotThrow (v : V)             (* the functor was applied to [v] and threw *)
  | GotLeft                      (* left by an exception before it took an element *)
  | GotOther.                    (* not a result of pop *)
Arguments GotOne {V} v.
Arguments GotNone {V}.
Arguments GotThrow {V} v.
Arguments GotLeft {V}.
Arguments GotOther {V}.

(** Outcome of a step of the machine below. *)
Inductive bout (st ev : Type) :=
  | BNext (s : st) (evs : list ev)
  | BUB
  | BDisabled.
Arguments BNext {st ev} s evs.
Arguments BUB {st ev}.
Arguments BDisabled {st ev}.

Inductive lchoice (ch : Type) :=
  | LOwn (x : ch)                (* a step of the machine below, of a thread not in consume_all *)
  | LCall (t : nat)              (* call consume_all *)
  | LGo (t : nat) (x : ch) (thr : bool).
      (* a step of a thread in consume_all; [x]: its step below, if it is inside pop; [thr]: the
         functor throws *)
Arguments LOwn {ch} x.
Arguments LCall {ch} t.
Arguments LGo {ch} t x thr.

Section loop.
  Context {st ch op ret V : Type}.
  (** The machine below: its step function, whether a thread is inside a call,
      the thread of a choice, whether a choice is that of a call without
      synchronization, the choice that invokes pop, the meaning of its results,
      and whether the functor is applied after pop (queue) or inside (stack). *)
  Context (step : st -> ch -> bout st (event op ret)) (busy : st -> nat -> bool)
    (who : ch -> nat) (unsync : ch -> bool) (call_pop : nat -> ch) (got : ret -> popped V)
    (after : bool).

  Record lstate := LSt {
    l_st : st;
    l_in : gmap nat (lpc V);     (* threads inside consume_all *)
  }.

  Definition lset (s : lstate) (t : nat) (p : lpc V) : lstate := LSt (l_st s) (<[t := p]> (l_in s)).

  Definition lstep (s : lstate) (c : lchoice ch) : bout lstate (ltrace op ret V) :=
    match c with
    | LOwn x =>
        if decide (l_in s !! who x = None /\ (unsync x = true -> l_in s = ∅)) then
          match step (l_st s) x with
          | BNext b evs => BNext (LSt b (l_in s)) (Own <$> evs)
          | BUB => BUB
          | BDisabled => BDisabled
          end
        else BDisabled
    | LCall t =>
        if decide (l_in s !! t = None /\ busy (l_st s) t = false) then
          BNext (lset s t (LTest 0)) [AllCall t]
        else BDisabled
    | LGo t x thr =>
        match l_in s !! t with
        | None => BDisabled
        | Some (LTest n) =>
            match step (l_st s) (call_pop t) with
            | BNext b evs => BNext (LSt b (<[t := LPop n]> (l_in s))) (Sub <$> evs)
            | BUB => BUB
            | BDisabled => BDisabled
            end
        | Some (LPop n) =>
            if decide (who x = t /\ unsync x = false) then
              match step (l_st s) x with
              | BNext b [] => BNext (LSt b (l_in s)) []
              | BNext b [Res t' r] =>
                  match got r with
                  | GotOne v => BNext (LSt b (<[t := LFun n v]> (l_in s))) [Sub (Res t' r)]
                  | GotNone => BNext (LSt b (<[t := LEnd n]> (l_in s))) [Sub (Res t' r)]
                  | GotThrow v =>
                      BNext (LSt b (delete t (l_in s))) [Sub (Res t' r); AllApply t v; AllThrow t]
                  | GotLeft => BNext (LSt b (delete t (l_in s))) [Sub (Res t' r); AllThrow t]
                  | GotOther => BUB
                  end
              | BNext _ _ => BUB
              | BUB => BUB
              | BDisabled => BDisabled
              end
            else BDisabled
        | Some (LFun n v) =>
            if thr then
              if after then BNext (LSt (l_st s) (delete t (l_in s))) [AllApply t v; AllThrow t]
              else BDisabled
            else BNext (lset s t (LTest (S n))) [AllApply t v]
        | Some (LEnd n) => BNext (LSt (l_st s) (delete t (l_in s))) [AllRet t n]
        end
    end.

  Inductive lexec (s0 : lstate) : list (ltrace op ret V) -> lstate -> Prop :=
    | lexec_nil : lexec s0 [] s0
    | lexec_step tr s c s' evs :
        lexec s0 tr s -> lstep s c = BNext s' evs -> lexec s0 (tr ++ evs) s'.
End loop.
