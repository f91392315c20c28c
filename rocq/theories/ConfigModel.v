(** * Template options and constructors

    What the options of [queue], [stack] and [spsc_queue] select
    (policies.hpp:41-58, detail/parameter.hpp:26-71, freelist.hpp:617-634), what the
    static assertions reject, and what the constructors build.  [std::size_t] has
    64 bits; arithmetic on it wraps. *)
From stdpp Require Import gmap list numbers.
From Verif Require Import PoolModel QueueModel StackModel.
From Verif Require Import TaggedModel SpscModel.

(** ** Options *)

(** The options of a container: [capacity<n>], [fixed_sized<b>], [allocator<A>].
    Not given: [None], resp. [false] for the allocator. *)
Record opts := Opts {
  o_capacity : option N;
  o_fixed : option bool;
  o_alloc : bool;
}.

(** extract_capacity (parameter.hpp:33-43) *)
Definition has_capacity (o : opts) : bool :=
  match o_capacity o with Some _ => true | None => false end.
Definition extract_capacity (o : opts) : N :=
  match o_capacity o with Some n => n | None => 0%N end.
(** extract_fixed_sized, whose default is false (59-69) *)
Definition extract_fixed_sized (o : opts) : bool :=
  match o_fixed o with Some b => b | None => false end.

(** ** Queue and stack *)

Inductive container := CQueue | CStack.

(** The class constants: queue.hpp:105-109, stack.hpp:79-83. *)
Definition capacity_const (k : container) (o : opts) : N :=
  match k with
  | CQueue => add64 (extract_capacity o) 1   (* the queue uses one dummy node *)
  | CStack => extract_capacity o
  end.
Definition node_based (o : opts) : bool := negb (has_capacity o || extract_fixed_sized o).
Definition compile_time_sized (o : opts) : bool := has_capacity o.

(** select_freelist (freelist.hpp:617-627) *)
Inductive storage :=
  | SCompile (size : N)    (* compiletime_sized_freelist_storage: 333-358 *)
  | SRun.                  (* runtime_sized_freelist_storage: 360-393 *)
Inductive pool :=
  | PList                  (* freelist_stack: 37-258 *)
  | PFixed (st : storage). (* fixed_size_freelist: 396-615 *)
Definition select_freelist (ct fixed : bool) (cap : N) : pool :=
  let st := if ct then SCompile cap else SRun in
  if ct || fixed then PFixed st else PList.
(** queue.hpp:136-137, stack.hpp:96-97 *)
Definition pool_t (k : container) (o : opts) : pool :=
  select_freelist (compile_time_sized o) (extract_fixed_sized o) (capacity_const k o).

(** The type of handles: [tagged_ptr] or [tagged_index]. *)
Inductive handle := HPtr | HIndex.
(** [tagged_node_handle] of the two freelists (47-48, 421-422) *)
Definition pool_handle (p : pool) : handle :=
  match p with PList => HPtr | PFixed _ => HIndex end.
(** select_tagged_handle (629-634) *)
Definition select_tagged_handle (nb : bool) : handle := if nb then HPtr else HIndex.

(** The static assertions of the classes: freelist.hpp:337; stack.hpp:101-103,
    where [capacity - 1] is unsigned. *)
Definition class_compiles (k : container) (o : opts) : bool :=
  match pool_t k o with
  | PFixed (SCompile size) => (size <? 65536)%N
  | _ => true
  end &&
  match k with
  | CStack => if has_capacity o then (sub64 (capacity_const k o) 1 <? 65535)%N else true
  | CQueue => true
  end.

(** The constructors, in the order of queue.hpp:180-269 and stack.hpp:144-216. *)
Inductive ctor :=
  | KDefault                 (* queue() *)
  | KAllocU                  (* queue(alloc), the allocator of another type *)
  | KAlloc                   (* queue(alloc) *)
  | KSize (n : N)            (* queue(n) *)
  | KSizeAllocU (n : N)      (* queue(n, alloc), the allocator of another type *)
  | KSizeAlloc (n : N).      (* queue(n, alloc) *)

(** BOOST_STATIC_ASSERT in a constructor (queue.hpp:206, 252, 267; stack.hpp:163, 199, 214) *)
Definition ctor_compiles (o : opts) (kc : ctor) : bool :=
  match kc with
  | KAllocU => has_capacity o
  | KSizeAllocU _ | KSizeAlloc _ => negb (has_capacity o)
  | KDefault | KAlloc | KSize _ => true
  end.
(** BOOST_ASSERT in a constructor: not checked if NDEBUG is defined
    (queue.hpp:187, 222, 237; stack.hpp:149, 175, 187) *)
Definition ctor_assert (o : opts) (kc : ctor) : bool :=
  match kc with
  | KDefault | KAlloc => has_capacity o
  | KSize _ => negb (has_capacity o)
  | KAllocU | KSizeAllocU _ | KSizeAlloc _ => true
  end.

(** The number of nodes asked of the pool (queue.hpp:183, 204, 218, 233, 250, 265;
    stack.hpp:145, 161, 171, 183, 197, 212) *)
Definition pool_count (k : container) (o : opts) (kc : ctor) : N :=
  match kc with
  | KDefault | KAllocU | KAlloc => capacity_const k o
  | KSize n | KSizeAllocU n | KSizeAlloc n =>
      match k with CQueue => add64 n 1 | CStack => n end
  end.

(** ** Construction of the pool *)

(** The outcome of a constructor.  [answers] below are the answers of the allocator in the
    order of the calls; [None]: it throws. *)
Inductive built (A : Type) :=
  | BDone (a : A)                (* constructed *)
  | BThrow (kept : list N)       (* an exception; these nodes have been allocated and not been given back *)
  | BUB                          (* undefined behaviour *)
  | BDisabled.                   (* no run with these answers *)
Arguments BDone {A} a.
Arguments BThrow {A} kept.
Arguments BUB {A}.
Arguments BDisabled {A}.

Section construct.
  Context {D : Type} (d0 : D).

  (** freelist_stack(alloc, n) (freelist.hpp:50-65), the loop at [i] of [n] rounds; [l] are
      the nodes obtained so far.  A constructor that throws does not run
      the destructor of its own class. *)
  Fixpoint list_ctor (c : cfg) (answers : list (option N)) (i n : N) (l : list N)
      (h : gmap N (node D)) (p : tagged) : built (gmap N (node D) * tagged) :=
    match answers with
    | [] => if decide (i = n) then BDone (h, p) else BDisabled
    | a :: answers =>
        if decide (i = n) then BDisabled
        else match a with
        | None => BThrow l
        | Some a =>
            if decide (h !! a = None /\ a <> c_null c) then
              match dealloc_unsafe a (<[a := Node (0%N, 0%N) d0]> h) p with
              | DDone h p => list_ctor c answers (i + 1)%N n (l ++ [a]) h p
              | DCont _ _ _ | DUB => BUB
              end
            else BDisabled
        end
    end.

  (** The node array after [memset]/[fill] with zero (freelist.hpp:345, 376). *)
  Definition array (count : N) : list N := N.of_nat <$> seq 0 (N.to_nat count).
  Definition zeroed (count : N) : gmap N (node D) :=
    list_to_map ((fun i => (i, Node (0%N, 0%N) d0)) <$> array count).

  (** fixed_size_freelist::initialize (405-418): for each node, [set_index(null_handle())]
      and [deallocate<false>]; an index has 16 bits. *)
  Fixpoint initialize (c : cfg) (is : list N) (h : gmap N (node D)) (p : tagged)
      : built (gmap N (node D) * tagged) :=
    match is with
    | [] => BDone (h, p)
    | i :: is =>
        match h !! i with
        | None => BUB
        | Some nd =>
            match dealloc_unsafe (i mod 2 ^ 16)%N (<[i := Node (c_null c, (nx nd).2) (dat nd)]> h) p with
            | DDone h p => initialize c is h p
            | DCont _ _ _ | DUB => BUB
            end
        end
    end.

  (** fixed_size_freelist(alloc, count) (425-430) over a storage of [size] nodes. *)
  Definition fixed_ctor (c : cfg) (size count : N) : built (gmap N (node D) * tagged) :=
    initialize c (array size) (zeroed size) (count mod 2 ^ 16, 0)%N.

  (** The pool of a container.  The run-time sized storage makes one request, for the whole
      array (371-375); the compile-time sized one ignores [count] (341-346). *)
  Definition pool_ctor (c : cfg) (pl : pool) (count : N) (answers : list (option N))
      : built (gmap N (node D) * tagged) :=
    match pl with
    | PList => list_ctor c answers 0 count [] ∅ (c_null c, 0%N)
    | PFixed (SCompile size) =>
        match answers with [] => fixed_ctor c size count | _ => BDisabled end
    | PFixed SRun =>
        match runtime_storage count with
        | None => match answers with [] => BThrow [] | _ => BDisabled end
        | Some size =>
            match answers with
            | [Some _] => fixed_ctor c size count
            | [None] => BThrow []
            | _ => BDisabled
            end
        end
    end.
End construct.

(** The number of nodes of an array pool (freelist.hpp:354-357, 389-392). *)
Definition node_count (pl : pool) (count : N) : N :=
  match pl with PFixed (SCompile size) => size | _ => count end.

(** The configuration of the machines of QueueModel.v and StackModel.v: the null handle
    (freelist.hpp:156-159, 496-499), and the period of the tags, 2^16 for indices and
    compressed pointers ([comp]: BOOST_LOCKFREE_PTR_COMPRESSION, prefix.hpp:26-28), 2^64
    otherwise (tagged_ptr_dcas.hpp:32).  [throws], [words]: about the element type. *)
Definition config (comp : bool) (k : container) (o : opts) (kc : ctor) (throws : bool) (words : nat) : cfg :=
  let pl := pool_t k o in
  Cfg (match pl with PList => 0%N | PFixed _ => null_handle (node_count pl (pool_count k o kc)) end)
      (node_based o)
      (Some (match select_tagged_handle (node_based o), comp with
             | HPtr, false => 2 ^ 64
             | _, _ => 2 ^ 16
             end)%N)
      throws words.

(** The queue: the pool, then initialize() (queue.hpp:142-148), which takes the dummy node
    from the pool; [addr]: the allocator's answer if it has to be asked. *)
Definition queue_ctor (comp : bool) (o : opts) (kc : ctor) (throws : bool) (words : nat)
    (answers : list (option N)) (addr : option N) : built qstate :=
  let c := config comp CQueue o kc throws words in
  match pool_ctor (qd0 c) c (pool_t CQueue o) (pool_count CQueue o kc) answers with
  | BDone (h, p) =>
      match alloc_unsafe c (qd0 c) false h p addr with
      | AGot h' p' n =>
          match h' !! n with
          | None => BUB
          | Some nd => BDone (QSt (QSh (<[n := Node (c_null c, 0%N) (dat nd)]> h') p' (n, 0%N) (n, 0%N)) ∅)
          end
      | AFail => BDone (QSt (QSh h p (c_null c, 0%N) (c_null c, 0%N)) ∅)
      | AThrow => BThrow []       (* ~freelist_stack runs, and the pool was empty *)
      | AUB => BUB
      | ADisabled | ACont _ _ _ => BDisabled
      end
  | BThrow l => BThrow l
  | BUB => BUB
  | BDisabled => BDisabled
  end.

(** The stack: the pool, then initialize() (stack.hpp:257-260). *)
Definition stack_ctor (comp : bool) (o : opts) (kc : ctor) (throws : bool)
    (answers : list (option N)) : built sstate :=
  let c := config comp CStack o kc throws 1 in
  match pool_ctor (@None N) c (pool_t CStack o) (pool_count CStack o kc) answers with
  | BDone (h, p) => BDone (SSt (SSh h p (c_null c, 0%N)) ∅)
  | BThrow l => BThrow l
  | BUB => BUB
  | BDisabled => BDisabled
  end.

(** ** spsc_queue *)

(** A ring buffer: [max_size] resp. [max_elements_], which is passed to every function of
    ringbuffer_base, and the number of slots for which there is memory. *)
Record ring := Ring { g_max : N; g_slots : N }.

(** The static assertion of make_ringbuffer (spsc_queue.hpp:689-691): an allocator only for
    a run-time sized buffer. *)
Definition ring_compiles (o : opts) : bool := if has_capacity o then negb (o_alloc o) else true.

(** The constructors (750-817).  The compile-time sized buffer has a default constructor only,
    the run-time sized one none, so that the wrong ones do not compile; this
    includes what BOOST_STATIC_ASSERT and BOOST_ASSERT check. *)
Definition ring_ctor_compiles (o : opts) (kc : ctor) : bool :=
  match kc with
  | KDefault | KAllocU | KAlloc => has_capacity o
  | KSize _ | KSizeAllocU _ | KSizeAlloc _ => negb (has_capacity o)
  end.

Definition mul64 (x y : N) : N := ((x * y) mod w64)%N.

(** compile_time_sized_ringbuffer (421-445): [max_size = MaxSize + 1], and an aligned_storage of
    [max_size * sizeof(T)] bytes.  runtime_sized_ringbuffer (524-585): [max_elements_ =
    max_elements + 1], and an array of that many elements from the allocator. *)
Definition ring_ctor (o : opts) (kc : ctor) (sz : N) (answer : option N) : built ring :=
  match kc with
  | KDefault | KAllocU | KAlloc =>
      let max_size := add64 (extract_capacity o) 1 in
      BDone (Ring max_size (mul64 max_size sz / sz)%N)
  | KSize n | KSizeAllocU n | KSizeAlloc n =>
      let max_elements := add64 n 1 in
      match answer with
      | Some _ => BDone (Ring max_elements max_elements)
      | None => BThrow []
      end
  end.

(** ~runtime_sized_ringbuffer (587-599): the number of elements passed to
    [deallocate], after the elements have been destroyed (SpscModel.v). *)
Definition ring_dealloc (r : ring) : N := g_max r.

(** The configuration of the machine of SpscModel.v for this buffer. *)
Definition ring_cfg (r : ring) (triv bthrow : bool) : xcfg :=
  XCfg (g_max r) triv bthrow false false true true true true.
