(** * Model of boost::lockfree::stack (include/boost/lockfree/stack.hpp)

    A step machine in the style of QueueModel.v: one step performs at most one
    access to shared memory.  An element is a number.  The second component of
    a node is the state of its element object: [Some v] while it is alive,
    [None] while the node is raw memory.  Using a dead element object,
    constructing over a live one and dereferencing a handle that is not a node
    are undefined behaviour.  Memory is sequentially consistent. *)

From stdpp Require Import gmap list numbers.
From Verif Require Import Lin PoolModel.

(** ** Interface *)

Inductive sop :=
  | SPush (bounded : bool) (v : N)            (* push / bounded_push : stack.hpp:333-349 *)
  | SRange (bounded : bool) (vs : list N)     (* push / bounded_push of a range : 388-406 *)
  | SPop                                      (* pop : 457-478; consume_one : 531-569 *)
  | SAll (rev : bool)                         (* consume_all_atomic / _reversed : 609-808 *)
  | SEmpty                                    (* empty : 815-818 *)
  | SReserve (n : nat)                        (* reserve : 222-228 *)
  | SUPush (v : N)                            (* unsynchronized_push : 417-425 *)
  | SURange (vs : list N)                     (* unsynchronized_push of a range : 434-446 *)
  | SUPop                                     (* unsynchronized_pop : 489-520 *)
  | SUReserve (n : nat).                      (* reserve_unsafe : 236-242 *)

Inductive sret :=
  | SBool (b : bool)
  | SGot (r : option N)               (* pop: Some v: true with [v] stored; None: false *)
  | SCount (k : nat) (vs : list N)    (* consume_all_atomic: returns [k]; the functor was applied to
                                         [vs] in this order *)
  | SIter (k : nat)                   (* range push: iterator to position [k] *)
  | SUnit
  | SExn (vs : list N).               (* left by an exception; the functor was applied to [vs], the
                                         last application threw *)

Definition sevent := event sop sret.
Notation snode := (node (option N)).

(** Shared memory: tos (stack.hpp:822), the pool's pool_, and the nodes. *)
Record sshared := SSh {
  s_heap : gmap N snode;
  s_pool : tagged;
  s_tos : tagged;
}.

(** What follows the destruction of a node. *)
Inductive skont :=
  | KRet (r : sret)
  | KReserve (k : nat)
  | KUndo (cur : N)                          (* next iteration of the catch block : 309-313 *)
  | KVisit (nxt : N) (k : nat) (vs : list N).  (* next iteration : 633-646, 733-746 *)

(** Program counters with live locals. *)
Inductive spc :=
  (* do_push (353-361) *)
  | PcAlloc (b : bool) (v : N) (a : apc)     (* pool.construct: allocate : 356, freelist.hpp:87-94 *)
  | PcCons (v : N) (n : N)                   (* new (node) T(arg): v(val) : 86-88, freelist.hpp:92 *)
  (* link_nodes_atomic (262-272), then return [r] *)
  | PcLLoad (top bot : N) (r : sret)                 (* old_tos = tos.load() : 264 *)
  | PcLSet (top bot : N) (old : tagged) (r : sret)   (* end_node->next = get_handle(old_tos) : 267 *)
  | PcLCas (top bot : N) (old : tagged) (r : sret)   (* tos.compare_exchange_weak : 269 *)
  (* prepare_node_list (285-321) for element [k] of [vs]; [te] are new_top_node
     and end_node once the first node exists *)
  | PcRFirst (b : bool) (vs : list N)        (* *it++ with it == begin : 288-289 *)
  | PcRAlloc (b : bool) (vs : list N) (k : nat) (te : option (N * N)) (a : apc)
                                             (* pool.construct: allocate : 289, 301 *)
  | PcRCons (b : bool) (vs : list N) (k : nat) (te : option (N * N)) (n : N)
                                             (* new (node) T(arg) *)
  | PcRLink (b : bool) (vs : list N) (k : nat) (te : option (N * N)) (n : N)
                                             (* end_node->next = NULL : 295;
                                                newnode->next = new_top_node : 304 *)
  | PcUndo (cur : N)                         (* next = current_node->next : 310 *)
  (* consume_one (531-569) *)
  | PcCLoad                                  (* old_tos = tos.load(); null test : 533-538 *)
  | PcCNext (old : tagged)                   (* old_tos_pointer->next : 540 *)
  | PcCCas (old : tagged) (nxt : N)          (* tos.compare_exchange_weak; on failure null test : 542 *)
  | PcCFun (n : N)                           (* f(old_tos_pointer->v) : 543 *)
  (* consume_all_atomic (609-685), consume_all_atomic_reversed (696-808) *)
  | PcALoad (rev : bool)                     (* old_tos = tos.load(); null test : 612-617, 699-704 *)
  | PcACas (rev : bool) (old : tagged)       (* tos.compare_exchange_weak : 621, 708 *)
  | PcRevNext (n lst : N)                    (* next_node = node_pointer->next : 717-718 *)
  | PcRevSet (n lst nxt : N)                 (* node_pointer->next = last_node_pointer : 720-729 *)
  | PcVisit (n : N) (k : nat) (vs : list N)  (* f(node_pointer->v); ++element_count : 628-630, 735-737 *)
  | PcVNext (n : N) (k : nat) (vs : list N)  (* next_node = node_pointer->next : 632, 739 *)
  (* pool.destruct<true> (freelist.hpp:104-117) *)
  | PcDestroy (n : N) (k : skont)            (* n->~T() *)
  | PcDealloc (n : N) (d : dpc) (k : skont)  (* deallocate<true>(n) *)
  (* reserve (freelist.hpp:68-75) *)
  | PcReserve (k : nat)
  (* empty (815-818) *)
  | PcEmpty
  (* return to the caller *)
  | PcRet (r : sret).

Record sstate := SSt {
  s_sh : sshared;
  s_pcs : gmap nat spc;       (* threads inside a call *)
}.

(** ** The environment's choices *)

Inductive schoice :=
  | Invoke (t : nat) (o : sop)
  | Run (t : nat) (sp : bool) (addr : option N) (thr : bool)
      (* [sp]: a weak compare-exchange fails spuriously; [addr]: answer of the
         allocator; [thr]: the element's copy constructor or the functor throws *)
  | Unsync (t : nat) (o : sop) (addrs : list (option N)) (thr : option nat).
      (* a call without synchronization, while no other call is running;
         [thr]: the copy with this number throws *)

Inductive soutcome :=
  | SNext (s : sstate) (evs : list sevent)
  | SUB
  | SDisabled.

Section stack.
  Context (c : cfg).

  Definition set_pc (s : sstate) (t : nat) (pc : spc) : sstate :=
    SSt (s_sh s) (<[t := pc]> (s_pcs s)).
  Definition set_heap_pool (x : sshared) (h : gmap N snode) (p : tagged) : sshared :=
    SSh h p (s_tos x).
  Definition set_heap (x : sshared) (h : gmap N snode) : sshared :=
    SSh h (s_pool x) (s_tos x).
  Definition set_tos (x : sshared) (ts : tagged) : sshared :=
    SSh (s_heap x) (s_pool x) ts.

  (** Assignment to a node's [next], an untagged handle (stack.hpp:90-91).  What
      becomes of the bytes that the pool uses for its tag does not matter, since
      nobody uses the tag of a link (freelist.hpp:187-190, 554-557 combine the
      handle of the link with the tag of [pool_]). *)
  Definition set_next (nd : snode) (p : N) : snode := Node (p, (nx nd).2) (dat nd).

  (** First program counter of a call ([None]: the call does not exist in this
      configuration or has to be made through [Unsync]).  The range versions
      only compile for the node-based stack (304 assigns a node* to [next]), and
      so does [reserve]. *)
  Definition sstart (o : sop) : option spc :=
    match o with
    | SPush b v => Some (PcAlloc b v ALoad)
    | SRange b vs => if c_node_based c then Some (PcRFirst b vs) else None
    | SPop => Some PcCLoad
    | SAll rev => Some (PcALoad rev)
    | SEmpty => Some PcEmpty
    | SReserve n => if c_node_based c then Some (PcReserve n) else None
    | SUPush _ | SURange _ | SUPop | SUReserve _ => None
    end.

  Inductive tout :=
    | TGo (x : sshared) (pc : spc)
    | TUB
    | TDisabled.

  (** Where consume_one resp. consume_all_atomic continue with [old_tos]. *)
  Definition c_test (old : tagged) : spc :=
    if decide (old.1 = c_null c) then PcRet (SGot None) else PcCNext old.
  Definition a_test (rev : bool) (old : tagged) : spc :=
    if decide (old.1 = c_null c) then PcRet (SCount 0 []) else PcACas rev old.

  (** The loop condition of prepare_node_list (300) after element [k]. *)
  Definition r_next (b : bool) (vs : list N) (k : nat) (te : N * N) : spc :=
    if decide (k < length vs) then PcRAlloc b vs k (Some te) ALoad
    else PcLLoad te.1 te.2 (SIter k).

  (** Where an exception goes to inside prepare_node_list: without effect before
      the first node is there, otherwise to the catch block. *)
  Definition r_catch (te : option (N * N)) : spc :=
    match te with
    | None => PcRet (SExn [])
    | Some te => PcUndo te.1
    end.

  (** What follows pool.destruct. *)
  Definition kgo (k : skont) : spc :=
    match k with
    | KRet r => PcRet r
    | KReserve j => PcReserve j
    | KUndo cur => if decide (cur = c_null c) then PcRet (SExn []) else PcUndo cur
    | KVisit nxt k vs => if decide (nxt = c_null c) then PcRet (SCount k vs) else PcVisit nxt k vs
    end.

  (** One step of a thread at [pc] (not [PcRet]). *)
  Definition tstep (x : sshared) (pc : spc) (sp : bool) (addr : option N) (thr : bool) : tout :=
    match pc with
    | PcAlloc b v a =>
        match astep c None b (s_heap x) (s_pool x) a sp addr with
        | ACont h p a' => TGo (set_heap_pool x h p) (PcAlloc b v a')
        | AGot h p n => TGo (set_heap_pool x h p) (PcCons v n)
        | AFail => TGo x (PcRet (SBool false))
        | AThrow => TGo x (PcRet (SExn []))
        | AUB => TUB
        | ADisabled => TDisabled
        end
    | PcCons v n =>
        match s_heap x !! n with
        | Some (Node lk None) =>
            if thr then
              (* the exception leaves construct(); the node is not given back *)
              if c_throws c then TGo x (PcRet (SExn [])) else TDisabled
            else TGo (set_heap x (<[n := Node lk (Some v)]> (s_heap x))) (PcLLoad n n (SBool true))
        | _ => TUB
        end
    | PcLLoad top bot r => TGo x (PcLSet top bot (s_tos x) r)
    | PcLSet top bot old r =>
        match s_heap x !! bot with
        | None => TUB
        | Some nd => TGo (set_heap x (<[bot := set_next nd old.1]> (s_heap x))) (PcLCas top bot old r)
        end
    | PcLCas top bot old r =>
        if decide (sp = false /\ s_tos x = old) then TGo (set_tos x (top, old.2)) (PcRet r)
        else TGo x (PcLSet top bot (s_tos x) r)
    | PcRFirst b vs =>
        match vs with
        | [] => TUB      (* dereferences the end iterator *)
        | _ => TGo x (PcRAlloc b vs 0 None ALoad)
        end
    | PcRAlloc b vs k te a =>
        match astep c None b (s_heap x) (s_pool x) a sp addr with
        | ACont h p a' => TGo (set_heap_pool x h p) (PcRAlloc b vs k te a')
        | AGot h p n => TGo (set_heap_pool x h p) (PcRCons b vs k te n)
        | AFail => TGo x (match te with
                          | None => PcRet (SIter 0)
                          | Some te => PcLLoad te.1 te.2 (SIter k)
                          end)
        | AThrow => TGo x (r_catch te)
        | AUB => TUB
        | ADisabled => TDisabled
        end
    | PcRCons b vs k te n =>
        match s_heap x !! n, vs !! k with
        | Some (Node lk None), Some v =>
            if thr then
              if c_throws c then TGo x (r_catch te) else TDisabled
            else TGo (set_heap x (<[n := Node lk (Some v)]> (s_heap x))) (PcRLink b vs k te n)
        | _, _ => TUB
        end
    | PcRLink b vs k te n =>
        match s_heap x !! n with
        | None => TUB
        | Some nd =>
            TGo (set_heap x (<[n := set_next nd (match te with None => c_null c | Some te => te.1 end)]>
                               (s_heap x)))
                (r_next b vs (S k) (match te with None => (n, n) | Some te => (n, te.2) end))
        end
    | PcUndo cur =>
        match s_heap x !! cur with
        | None => TUB
        | Some nd => TGo x (PcDestroy cur (KUndo (nx nd).1))
        end
    | PcCLoad => TGo x (c_test (s_tos x))
    | PcCNext old =>
        match s_heap x !! old.1 with
        | None => TUB
        | Some nd => TGo x (PcCCas old (nx nd).1)
        end
    | PcCCas old nxt =>
        if decide (sp = false /\ s_tos x = old) then
          TGo (set_tos x (nxt, next_tag c old.2)) (PcCFun old.1)
        else TGo x (c_test (s_tos x))
    | PcCFun n =>
        match s_heap x !! n with
        | Some (Node _ (Some v)) =>
            if thr then
              (* the node is neither destroyed nor given back *)
              if c_throws c then TGo x (PcRet (SExn [v])) else TDisabled
            else TGo x (PcDestroy n (KRet (SGot (Some v))))
        | _ => TUB
        end
    | PcALoad rev => TGo x (a_test rev (s_tos x))
    | PcACas rev old =>
        if decide (sp = false /\ s_tos x = old) then
          TGo (set_tos x (c_null c, next_tag c old.2))
              (if rev then PcRevNext old.1 (c_null c) else PcVisit old.1 0 [])
        else TGo x (a_test rev (s_tos x))
    | PcRevNext n lst =>
        match s_heap x !! n with
        | None => TUB
        | Some nd => TGo x (PcRevSet n lst (nx nd).1)
        end
    | PcRevSet n lst nxt =>
        match s_heap x !! n with
        | None => TUB
        | Some nd =>
            TGo (set_heap x (<[n := set_next nd lst]> (s_heap x)))
                (if decide (nxt = c_null c) then PcVisit n 0 [] else PcRevNext nxt n)
        end
    | PcVisit n k vs =>
        match s_heap x !! n with
        | Some (Node _ (Some v)) =>
            if thr then
              (* the remaining nodes are neither destroyed nor given back *)
              if c_throws c then TGo x (PcRet (SExn (vs ++ [v]))) else TDisabled
            else TGo x (PcVNext n (S k) (vs ++ [v]))
        | _ => TUB
        end
    | PcVNext n k vs =>
        match s_heap x !! n with
        | None => TUB
        | Some nd => TGo x (PcDestroy n (KVisit (nx nd).1 k vs))
        end
    | PcDestroy n k =>
        match s_heap x !! n with
        | Some (Node lk (Some v)) =>
            TGo (set_heap x (<[n := Node lk None]> (s_heap x))) (PcDealloc n DLoad k)
        | _ => TUB
        end
    | PcDealloc n d k =>
        match dstep n (s_heap x) (s_pool x) d sp with
        | DCont h p d' => TGo (set_heap_pool x h p) (PcDealloc n d' k)
        | DDone h p => TGo (set_heap_pool x h p) (kgo k)
        | DUB => TUB
        end
    | PcReserve 0 => TGo x (PcRet SUnit)
    | PcReserve (S k) =>
        match addr with
        | None => TGo x (PcRet (SExn []))
        | Some n =>
            if decide (s_heap x !! n = None /\ n <> c_null c) then
              TGo (set_heap x (<[n := Node (c_null c, 0%N) None]> (s_heap x)))
                  (PcDealloc n DLoad (KReserve k))
            else TDisabled
        end
    | PcEmpty => TGo x (PcRet (SBool (bool_decide ((s_tos x).1 = c_null c))))
    | PcRet _ => TDisabled
    end.

  (** ** Operations without synchronization *)

  Inductive uout :=
    | UDone (x : sshared) (r : sret)
    | UUB
    | UDisabled.

  (** link_nodes_unsafe (stack.hpp:274-282). *)
  Definition ulink (x : sshared) (top bot : N) (r : sret) : uout :=
    match s_heap x !! bot with
    | None => UUB
    | Some nd =>
        UDone (SSh (<[bot := set_next nd (s_tos x).1]> (s_heap x)) (s_pool x) (top, (s_tos x).2)) r
    end.

  (** unsynchronized_push (stack.hpp:417-425). *)
  Definition upush (x : sshared) (v : N) (addr : option N) (thr : bool) : uout :=
    match alloc_unsafe c None false (s_heap x) (s_pool x) addr with
    | AGot h p n =>
        match h !! n with
        | Some (Node lk None) =>
            if thr then
              if c_throws c then UDone (set_heap_pool x h p) (SExn []) else UDisabled
            else ulink (set_heap_pool x (<[n := Node lk (Some v)]> h) p) n n (SBool true)
        | _ => UUB
        end
    | AFail => UDone x (SBool false)
    | AThrow => UDone x (SExn [])
    | AUB => UUB
    | ADisabled => UDisabled
    | ACont _ _ _ => UDisabled
    end.

  (** The catch block of prepare_node_list<false, false> (309-313). *)
  Fixpoint uundo (fuel : nat) (x : sshared) (cur : N) : uout :=
    if decide (cur = c_null c) then UDone x (SExn [])
    else match fuel with
         | O => UUB
         | S fuel =>
             match s_heap x !! cur with
             | Some (Node lk (Some _)) =>
                 match dealloc_unsafe cur (<[cur := Node lk None]> (s_heap x)) (s_pool x) with
                 | DDone h p => uundo fuel (set_heap_pool x h p) lk.1
                 | _ => UUB
                 end
             | _ => UUB
             end
         end.

  Definition ucatch (x : sshared) (te : option (N * N)) : uout :=
    match te with
    | None => UDone x (SExn [])
    | Some te => uundo (size (s_heap x)) x te.1
    end.

  (** prepare_node_list<false, false> and link_nodes_unsafe (285-321, 434-446);
      [vs] is what is left of the range, [k] the number of elements done. *)
  Fixpoint urange (x : sshared) (vs : list N) (k : nat) (te : option (N * N))
      (addrs : list (option N)) (thr : option nat) : uout :=
    match vs with
    | [] =>
        match te with
        | None => UUB        (* dereferences the end iterator *)
        | Some te => ulink x te.1 te.2 (SIter k)
        end
    | v :: vs =>
        match alloc_unsafe c None false (s_heap x) (s_pool x)
                (match addrs with a :: _ => a | [] => None end) with
        | AGot h p n =>
            match h !! n with
            | Some (Node lk None) =>
                if decide (thr = Some k) then
                  if c_throws c then ucatch (set_heap_pool x h p) te else UDisabled
                else
                  urange (set_heap_pool x
                            (<[n := Node (match te with None => c_null c | Some te => te.1 end, lk.2) (Some v)]> h) p)
                         vs (S k) (Some (match te with None => (n, n) | Some te => (n, te.2) end))
                         (if decide ((s_pool x).1 = c_null c) then tail addrs else addrs) thr
            | _ => UUB
            end
        | AFail =>
            match te with
            | None => UDone x (SIter 0)
            | Some te => ulink x te.1 te.2 (SIter k)
            end
        | AThrow => ucatch x te
        | AUB => UUB
        | ADisabled => UDisabled
        | ACont _ _ _ => UDisabled
        end
    end.

  (** unsynchronized_pop (stack.hpp:504-520). *)
  Definition upop (x : sshared) (thr : bool) : uout :=
    let old := s_tos x in
    if decide (old.1 = c_null c) then UDone x (SGot None)
    else
      match s_heap x !! old.1 with
      | Some (Node lk (Some v)) =>
          let x1 := set_tos x (lk.1, next_tag c old.2) in
          if thr then
            if c_throws c then UDone x1 (SExn [v]) else UDisabled
          else
            match dealloc_unsafe old.1 (<[old.1 := Node lk None]> (s_heap x)) (s_pool x) with
            | DDone h p => UDone (set_heap_pool x1 h p) (SGot (Some v))
            | _ => UUB
            end
      | _ => UUB
      end.

  (** reserve_unsafe (stack.hpp:236-242, freelist.hpp:68-75). *)
  Fixpoint ureserve (n : nat) (x : sshared) (addrs : list (option N)) : uout :=
    match n with
    | O => UDone x SUnit
    | S n =>
        match addrs with
        | [] => UDisabled
        | None :: _ => UDone x (SExn [])
        | Some a :: addrs =>
            if decide (s_heap x !! a = None /\ a <> c_null c) then
              match dealloc_unsafe a (<[a := Node (c_null c, 0%N) None]> (s_heap x)) (s_pool x) with
              | DDone h p => ureserve n (set_heap_pool x h p) addrs
              | _ => UUB
              end
            else UDisabled
        end
    end.

  Definition ucall (x : sshared) (o : sop) (addrs : list (option N)) (thr : option nat) : uout :=
    match o with
    | SUPush v => upush x v (match addrs with a :: _ => a | [] => None end) (bool_decide (is_Some thr))
    | SURange vs => if c_node_based c then urange x vs 0 None addrs thr else UDisabled
    | SUPop => upop x (bool_decide (is_Some thr))
    | SUReserve n => if c_node_based c then ureserve n x addrs else UDisabled
    | _ => UDisabled
    end.

  (** ** The machine *)

  Definition sstep (s : sstate) (ch : schoice) : soutcome :=
    match ch with
    | Invoke t o =>
        match s_pcs s !! t, sstart o with
        | None, Some pc => SNext (set_pc s t pc) [Inv t o]
        | _, _ => SDisabled
        end
    | Run t sp addr thr =>
        match s_pcs s !! t with
        | None => SDisabled
        | Some (PcRet r) => SNext (SSt (s_sh s) (delete t (s_pcs s))) [Res t r]
        | Some pc =>
            match tstep (s_sh s) pc sp addr thr with
            | TGo x pc' => SNext (SSt x (<[t := pc']> (s_pcs s))) []
            | TUB => SUB
            | TDisabled => SDisabled
            end
        end
    | Unsync t o addrs thr =>
        if decide (s_pcs s = ∅) then
          match ucall (s_sh s) o addrs thr with
          | UDone x r => SNext (SSt x ∅) [Inv t o; Res t r]
          | UUB => SUB
          | UDisabled => SDisabled
          end
        else SDisabled
    end.

  (** ** Construction and destruction *)

  (** Constructors (stack.hpp:144-216) and initialize (257-260). *)
  Definition sinit (ns : list N) : sstate :=
    let '(h, p) := pool_init c None ns in
    SSt (SSh h p (c_null c, 0%N)) ∅.

  (** ~stack (stack.hpp:249-253): consume_all with a functor that does nothing,
      i.e. consume_one until the stack is empty.  Nobody else is running, so
      consume_one is [upop] here (a weak compare-exchange that fails spuriously
      is repeated).  The result is the memory and the elements destroyed. *)
  Fixpoint sdtor_pop (fuel : nat) (x : sshared) : option (sshared * list N) :=
    match fuel with
    | O => None
    | S fuel =>
        match upop x false with
        | UDone x' (SGot (Some v)) =>
            match sdtor_pop fuel x' with
            | Some (x'', vs) => Some (x'', v :: vs)
            | None => None
            end
        | UDone x' (SGot None) => Some (x', [])
        | _ => None
        end
    end.

  (** ... followed by ~freelist_stack (freelist.hpp:119-129) on the node-based
      stack: the elements destroyed and the addresses passed to
      [Alloc::deallocate]. *)
  Definition sdtor (x : sshared) : option (list N * list N) :=
    match sdtor_pop (S (size (s_heap x))) x with
    | None => None
    | Some (x', vs) => pair vs <$> pool_dtor c (S (size (s_heap x'))) (s_heap x') (s_pool x').1
    end.

  (** ** Executions *)

  Inductive sexec (s0 : sstate) : list sevent -> sstate -> Prop :=
    | sexec_nil : sexec s0 [] s0
    | sexec_step hist s ch s' evs :
        sexec s0 hist s -> sstep s ch = SNext s' evs -> sexec s0 (hist ++ evs) s'.

  Fixpoint srun (s : sstate) (chs : list schoice) : option (list sevent * sstate) :=
    match chs with
    | [] => Some ([], s)
    | ch :: chs =>
        match sstep s ch with
        | SNext s' evs =>
            match srun s' chs with
            | Some (h, s'') => Some (evs ++ h, s'')
            | None => None
            end
        | _ => None
        end
    end.
End stack.
