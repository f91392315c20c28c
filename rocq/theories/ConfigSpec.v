(** * What the documentation says about options and constructors *)
From stdpp Require Import gmap list numbers.
From Verif Require Import PoolModel ConfigModel.

(** The number of elements asked for: by the option [capacity<n>], or by the argument of
    the constructor. *)
Definition requested (o : opts) (kc : ctor) : N :=
  match kc, o_capacity o with
  | (KSize n | KSizeAllocU n | KSizeAlloc n), _ => n
  | _, Some n => n
  | _, None => 0%N
  end.

(** The \pre of the constructors: "Must specify a capacity<> argument", "Must not specify a
    capacity<> argument". *)
Definition documented (o : opts) (kc : ctor) : Prop :=
  match kc with
  | KDefault | KAllocU | KAlloc => o_capacity o <> None
  | KSize _ | KSizeAllocU _ | KSizeAlloc _ => o_capacity o = None
  end.

(** The nodes are in an array: "capacity<>: implies that a data structure is bounded and
    fixed-sized". *)
Definition bounded (o : opts) : Prop := o_capacity o <> None \/ o_fixed o = Some true.

(** How many nodes a container for [n] elements needs. *)
Definition nodes_for (k : container) (n : N) : N :=
  match k with CQueue => n + 1 | CStack => n end%N.

(** The largest number of elements in a fixed-size container ("usually 2**16-2": this is the
    queue, the stack has no dummy node). *)
Definition largest (k : container) : N := match k with CQueue => 65534 | CStack => 65535 end%N.

(** Answers of an allocator that serves every request of a constructor for [n]
    elements: distinct addresses, not null; one for each node, or one for the array. *)
Definition served (k : container) (o : opts) (n : N) (answers : list (option N)) : Prop :=
  match o_capacity o, o_fixed o with
  | Some _, _ => answers = []
  | None, Some true => exists a, answers = [Some a]
  | None, _ => exists ns, answers = Some <$> ns /\ NoDup ns /\ (0%N) ∉ ns /\ N.of_nat (length ns) = nodes_for k n
  end.
