(** * Assignments made by stack::pop (stack.hpp:457-478, 489-520)

    [pop(U& ret)] is consume_one with the functor [consume_via_copy]
    (copy_payload.hpp:49-63), which assigns the element to [ret] after the node
    has been taken off the stack (542-543).  The layer below observes the machine
    of StackModel.v.  If the conversion throws, nothing is assigned. *)
From stdpp Require Import gmap list numbers.
From Verif Require Import Lin PoolModel StackModel DestSpec.

Notation sdev := (dev sop sret N).

(** The element that a call returns through its destination. *)
Definition sval (r : sret) : option N := match r with SGot r => r | _ => None end.

Section dest.
  Context (c : cfg).

  (** What a choice adds to the trace.  [pop]: the functor is applied to the
      element (543).  [unsynchronized_pop]: [ret] is assigned after tos is
      (516-517), and the call returns true. *)
  Definition svisible (s : sstate) (ch : schoice) (evs : list sevent) : list sdev :=
    match ch with
    | Invoke _ _ => DEv <$> evs
    | Run t _ _ thr =>
        match s_pcs s !! t with
        | Some (PcCFun n) =>
            match s_heap (s_sh s) !! n with
            | Some (Node _ (Some v)) => if thr then DEv <$> evs else DAsg t v :: (DEv <$> evs)
            | _ => DEv <$> evs
            end
        | _ => DEv <$> evs
        end
    | Unsync t _ _ _ =>
        match evs with
        | [i; Res u (SGot (Some v))] => [DEv i; DAsg t v; DEv (Res u (SGot (Some v)))]
        | _ => DEv <$> evs
        end
    end.

  Inductive sdexec (s0 : sstate) : list sdev -> sstate -> Prop :=
    | sdexec_nil : sdexec s0 [] s0
    | sdexec_step tr s ch s' evs :
        sdexec s0 tr s -> sstep c s ch = SNext s' evs ->
        sdexec s0 (tr ++ svisible s ch evs) s'.

  Definition sdreach (ns : list N) (tr : list sdev) (s : sstate) : Prop :=
    NoDup ns /\ c_null c ∉ ns /\ sdexec (sinit c ns) tr s.
End dest.
