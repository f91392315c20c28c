(** * Model of the node pool (include/boost/lockfree/detail/freelist.hpp)

    One model covers [freelist_stack] (node-based, addresses as handles,
    freelist.hpp:37-257) and [fixed_size_freelist] (array indices as handles,
    freelist.hpp:396-614): a handle is a number, [c_null] is the null handle
    (0 for pointers, the node count for indices), and a shared word is a pair
    (handle, tag) which is loaded and compare-exchanged as a unit.

    The thread-safe functions are step machines: one step performs at most one
    access to shared memory.  Memory is sequentially consistent; see DESIGN.md
    for what this leaves out. *)

From stdpp Require Import gmap list numbers.

(** A tagged handle: tagged_ptr (tagged_ptr_ptrcompression.hpp:23-163,
    tagged_ptr_dcas.hpp:29-137) or tagged_index (freelist.hpp:258-331). *)
Definition tagged : Type := N * N.

(** The compile-time configuration of a container. *)
Record cfg := Cfg {
  c_null : N;              (* null_handle(): freelist.hpp:156-159, 496-499 *)
  c_node_based : bool;     (* queue.hpp:108, stack.hpp:82 *)
  c_tagmod : option N;     (* tags count modulo this; None = no wrap-around *)
  c_throws : bool;         (* the element's copy constructor, or a conversion in pop, may throw *)
  c_words : nat;           (* size of an element in words (queue only) *)
}.

(** [get_next_tag] (tagged_ptr_ptrcompression.hpp:130-134,
    tagged_ptr_dcas.hpp:104-108, freelist.hpp:306-310); TaggedProofs.v shows
    that the bit-level code is addition modulo 2^16 resp. 2^64. *)
Definition next_tag (c : cfg) (t : N) : N :=
  match c_tagmod c with
  | None => (t + 1)%N
  | Some M => ((t + 1) mod M)%N
  end.

(** A node.  Its first member is the link [nx]; the pool overlays its own
    [freelist_node::next] on the same bytes (freelist.hpp:40-43, 233, 398-403).
    [dat] is the rest. *)
Record node (D : Type) := Node { nx : tagged; dat : D }.
Arguments Node {D} nx dat.
Arguments nx {D}.
Arguments dat {D}.

Section pool.
  Context {D : Type}.
  Context (c : cfg).
  (** The image of an element after [memset 0] (freelist.hpp:58, 72, 181). *)
  Context (d0 : D).

  (** ** allocate_impl (freelist.hpp:173-195, 543-560) *)

  (** Where a thread is inside allocate_impl, with its locals. *)
  Inductive apc :=
    | ALoad                            (* old_pool = pool_.load() : 176, 545 *)
    | ATest (old : tagged)             (* if old_pool is null ...; else read old_pool->next : 179-188, 548-555 *)
    | ACas (old : tagged) (nxt : N).   (* pool_.compare_exchange_weak : 190, 557 *)

  Inductive aout :=
    | ACont (h : gmap N (node D)) (p : tagged) (a : apc)  (* continue at [a] *)
    | AGot (h : gmap N (node D)) (p : tagged) (n : N)     (* returns node [n] *)
    | AFail                                               (* returns 0 / null_handle *)
    | AThrow                                              (* Alloc::allocate throws *)
    | AUB                                                 (* dereferences a non-node *)
    | ADisabled.                                          (* impossible environment choice *)

  (** One step.  [h] is the memory, [p] the contents of [pool_]; [bounded] the
      template parameter; [sp] makes a weak compare-exchange fail spuriously;
      [addr] is the answer of [Alloc::allocate] ([None]: it throws).  The fresh
      memory is private until the function returns, so [Alloc::allocate] and
      the [memset] (180-181) are one step.  A failing compare-exchange stores
      the current value in [old_pool] and the loop continues. *)
  Definition astep (bounded : bool) (h : gmap N (node D)) (p : tagged) (a : apc)
      (sp : bool) (addr : option N) : aout :=
    match a with
    | ALoad => ACont h p (ATest p)
    | ATest old =>
        if decide (old.1 = c_null c) then
          if c_node_based c && negb bounded then
            match addr with
            | None => AThrow
            | Some n =>
                if decide (h !! n = None /\ n <> c_null c) then
                  AGot (<[n := Node (c_null c, 0%N) d0]> h) p n
                else ADisabled
            end
          else AFail
        else
          match h !! old.1 with
          | None => AUB
          | Some nd => ACont h p (ACas old (nx nd).1)
          end
    | ACas old nxt =>
        if decide (sp = false /\ p = old) then AGot h (nxt, next_tag c old.2) old.1
        else ACont h p (ATest p)
    end.

  (** ** deallocate_impl (freelist.hpp:230-243, 588-600) *)

  Inductive dpc :=
    | DLoad                  (* old_pool = pool_.load() : 233, 591 *)
    | DSet (old : tagged)    (* new_pool->next.set_ptr(old_pool.get_ptr()) : 238, 595 *)
    | DCas (old : tagged).   (* pool_.compare_exchange_weak : 240, 597 *)

  Inductive dout :=
    | DCont (h : gmap N (node D)) (p : tagged) (d : dpc)
    | DDone (h : gmap N (node D)) (p : tagged)
    | DUB.

  (** One step of returning node [n].  [set_ptr]/[set_index] keep the tag that
      is stored in the node (116-120 of tagged_ptr_ptrcompression.hpp, 294-297). *)
  Definition dstep (n : N) (h : gmap N (node D)) (p : tagged) (d : dpc) (sp : bool) : dout :=
    match d with
    | DLoad => DCont h p (DSet p)
    | DSet old =>
        match h !! n with
        | None => DUB
        | Some nd => DCont (<[n := Node (old.1, (nx nd).2) (dat nd)]> h) p (DCas old)
        end
    | DCas old =>
        if decide (sp = false /\ p = old) then DDone h (n, old.2)
        else DCont h p (DSet p)
    end.

  (** ** The versions without synchronization *)

  (** allocate_impl_unsafe (freelist.hpp:198-217, 562-577). *)
  Definition alloc_unsafe (bounded : bool) (h : gmap N (node D)) (p : tagged)
      (addr : option N) : aout :=
    if decide (p.1 = c_null c) then
      if c_node_based c && negb bounded then
        match addr with
        | None => AThrow
        | Some n =>
            if decide (h !! n = None /\ n <> c_null c) then
              AGot (<[n := Node (c_null c, 0%N) d0]> h) p n
            else ADisabled
        end
      else AFail
    else
      match h !! p.1 with
      | None => AUB
      | Some nd => AGot h ((nx nd).1, next_tag c p.2) p.1
      end.

  (** deallocate_impl_unsafe (freelist.hpp:245-255, 602-611). *)
  Definition dealloc_unsafe (n : N) (h : gmap N (node D)) (p : tagged) : dout :=
    match h !! n with
    | None => DUB
    | Some nd => DDone (<[n := Node (p.1, (nx nd).2) (dat nd)]> h) (n, p.2)
    end.

  (** Constructors: [freelist_stack] allocates [n] nodes, clears and deallocates
      each (freelist.hpp:52-65); [fixed_size_freelist] does the same for the
      elements of its array (405-418, 425-430).  [ns] are the handles in the
      order in which they are added; the null link written first (freelist.hpp:410)
      is overwritten by the deallocation. *)
  Fixpoint pool_add (ns : list N) (h : gmap N (node D)) (p : tagged) : gmap N (node D) * tagged :=
    match ns with
    | [] => (h, p)
    | n :: ns => pool_add ns (<[n := Node (p.1, 0%N) d0]> h) (n, p.2)
    end.

  Definition pool_init (ns : list N) : gmap N (node D) * tagged :=
    pool_add ns ∅ (c_null c, 0%N).

  (** ~freelist_stack (freelist.hpp:119-129): walks the list and hands each
      node to the allocator.  The result is the list of addresses passed to
      [Alloc::deallocate]; [None] if it dereferences a non-node or does not
      terminate within [fuel] iterations.  A deallocated node leaves the heap, so
      deallocating it twice or reading it afterwards would give [None]. *)
  Fixpoint pool_dtor (fuel : nat) (h : gmap N (node D)) (cur : N) : option (list N) :=
    if decide (cur = c_null c) then Some []
    else match fuel with
         | O => None
         | S fuel =>
             match h !! cur with
             | None => None
             | Some nd => (cons cur) <$> pool_dtor fuel (delete cur h) (nx nd).1
             end
         end.
End pool.
