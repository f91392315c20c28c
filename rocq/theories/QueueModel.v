(** * Model of boost::lockfree::queue (include/boost/lockfree/queue.hpp)

    A step machine.  Any number of threads call the thread-safe operations;
    one step performs at most one access to shared memory (a load, a store or
    a compare-exchange of one word, one word of an element, or one step of the
    node pool).  An element is a list of [c_words] machine words which are
    copied one at a time.  Memory is sequentially consistent. *)

From stdpp Require Import gmap list numbers.
From Verif Require Import Lin PoolModel.

(** An element of the queue: its words. *)
Notation val := (list N).

(** ** Interface *)

Inductive qop :=
  | Push (bounded : bool) (v : val)   (* push / bounded_push : queue.hpp:314-330 *)
  | Pop                               (* pop : 404-456 (and consume_one : 523-543) *)
  | Empty                             (* empty : 301-304 *)
  | Reserve (n : nat)                 (* reserve : 273-276 *)
  | UPush (v : val)                   (* unsynchronized_push : 377-396 *)
  | UPop                              (* unsynchronized_pop : 466-512 *)
  | UReserve (n : nat).               (* reserve_unsafe : 280-283 *)

Inductive qret :=
  | RBool (b : bool)
  | RPop (r : option val)             (* Some v: true with [v] stored; None: false *)
  | RUnit
  | RExn.                             (* left by an exception *)

Definition qevent := event qop qret.
Notation qnode := (node (list N)).

(** Shared memory: head_, tail_ (queue.hpp:575-579), the pool's pool_, and the
    nodes. *)
Record qshared := QSh {
  q_heap : gmap N qnode;
  q_pool : tagged;
  q_head : tagged;
  q_tail : tagged;
}.

(** What follows a deallocation. *)
Inductive qkont :=
  | KRet (r : qret)
  | KReserve (k : nat).

(** Program counters with live locals. *)
Inductive qpc :=
  (* do_push (335-365) *)
  | PcAlloc (b : bool) (v : val) (a : apc)  (* pool.construct: allocate : 338, freelist.hpp:96-102 *)
  | PcWord (v : val) (n : N) (k : nat)      (* node ctor: copy word [k] of data; after the last
                                               one old_next = next.load() : 116-120 *)
  | PcNStore (n : N) (tag : N)              (* node ctor: next.store((null, tag+1)) : 121-122 *)
  | PcPTail (n : N)                         (* tail = tail_.load() : 345 *)
  | PcPNext (n : N) (tl : tagged)           (* next = tail_node->next.load() : 347 *)
  | PcPCheck (n : N) (tl nx : tagged)       (* tail2 = tail_.load(); tail == tail2 : 350-352 *)
  | PcPLink (n : N) (tl nx : tagged)        (* tail_node->next.compare_exchange_weak : 354 *)
  | PcPDone (n : N) (tl : tagged)           (* tail_.compare_exchange_strong; return true : 355-357 *)
  | PcPSwing (n : N) (tl : tagged) (np : N) (* tail_.compare_exchange_strong; loop : 360-361 *)
  (* pop (419-456) *)
  | PcOHead                                 (* head = head_.load() : 422 *)
  | PcOTail (hd : tagged)                   (* tail = tail_.load() : 425 *)
  | PcONext (hd tl : tagged)                (* next = head_ptr->next.load() : 426 *)
  | PcOCheck (hd tl nx : tagged)            (* head2 = head_.load(); head == head2 : 429-445 *)
  | PcOSwing (tl : tagged) (np : N)         (* tail_.compare_exchange_strong; loop : 435-436 *)
  | PcOCopy (hd : tagged) (np : N) (acc : val)
                                            (* copy_payload, one word per step; after the last one
                                               head_.compare_exchange_weak : 446-449 *)
  (* pool.destruct<true> / deallocate<true> *)
  | PcDealloc (n : N) (d : dpc) (k : qkont) (* 450, freelist.hpp:105-109; reserve: freelist.hpp:73 *)
  (* reserve (273-276, freelist.hpp:68-75) *)
  | PcReserve (k : nat)                     (* loop test; Alloc::allocate, memset : freelist.hpp:70-72 *)
  (* empty (301-304); C++ leaves open which operand of == is loaded first *)
  | PcEHead                                 (* head_.load() first *)
  | PcEHeadTail (h : N)                     (* ... then tail_.load(), compare *)
  | PcETail                                 (* tail_.load() first *)
  | PcETailHead (tl : N)                    (* ... then head_.load(), compare *)
  (* return to the caller *)
  | PcRet (r : qret).

Record qstate := QSt {
  q_sh : qshared;
  q_pcs : gmap nat qpc;       (* threads inside a call *)
}.

(** ** The environment's choices *)

Inductive qchoice :=
  | Invoke (t : nat) (o : qop) (tail_first : bool)
  | Run (t : nat) (sp : bool) (addr : option N) (thr : bool)
      (* [sp]: a weak compare-exchange fails spuriously; [addr]: answer of the
         allocator; [thr]: the element's copy constructor, or the conversion to
         the type of pop's argument, throws *)
  | Unsync (t : nat) (o : qop) (addrs : list (option N)) (thr : bool).
      (* a call without synchronization, while no other call is running *)

Inductive qoutcome :=
  | QNext (s : qstate) (evs : list qevent)
  | QUB             (* undefined behaviour *)
  | QDisabled.      (* not a possible choice in this state *)

Section queue.
  Context (c : cfg).

  (** Memory of an element after [memset 0] (freelist.hpp:58, 72, 181). *)
  Definition qd0 : val := replicate (c_words c) 0%N.

  Definition set_pc (s : qstate) (t : nat) (pc : qpc) : qstate :=
    QSt (q_sh s) (<[t := pc]> (q_pcs s)).
  Definition set_heap_pool (x : qshared) (h : gmap N qnode) (p : tagged) : qshared :=
    QSh h p (q_head x) (q_tail x).
  Definition set_heap (x : qshared) (h : gmap N qnode) : qshared :=
    QSh h (q_pool x) (q_head x) (q_tail x).
  Definition set_head (x : qshared) (hd : tagged) : qshared :=
    QSh (q_heap x) (q_pool x) hd (q_tail x).
  Definition set_tail (x : qshared) (tl : tagged) : qshared :=
    QSh (q_heap x) (q_pool x) (q_head x) tl.

  (** First program counter of a call ([None]: the call does not exist in this
      configuration or has to be made through [Unsync]).  [reserve] only
      compiles for the node-based pool. *)
  Definition qstart (o : qop) (tail_first : bool) : option qpc :=
    match o with
    | Push b v => if decide (length v = c_words c) then Some (PcAlloc b v ALoad) else None
    | Pop => Some PcOHead
    | Empty => Some (if tail_first then PcETail else PcEHead)
    | Reserve n => if c_node_based c then Some (PcReserve n) else None
    | UPush _ | UPop | UReserve _ => None
    end.

  (** Outcome of a thread step: new shared memory and program counter. *)
  Inductive tout :=
    | TGo (x : qshared) (pc : qpc)
    | TUB
    | TDisabled.

  (** One step of a thread at [pc] (not [PcRet]).  Each branch cites the lines
      of queue.hpp next to its program counter above. *)
  Definition tstep (x : qshared) (pc : qpc) (sp : bool) (addr : option N) (thr : bool) : tout :=
    match pc with
    | PcAlloc b v a =>
        match astep c qd0 b (q_heap x) (q_pool x) a sp addr with
        | ACont h p a' => TGo (set_heap_pool x h p) (PcAlloc b v a')
        | AGot h p n => TGo (set_heap_pool x h p) (PcWord v n 0)
        | AFail => TGo x (PcRet (RBool false))
        | AThrow => TGo x (PcRet RExn)
        | AUB => TUB
        | ADisabled => TDisabled
        end
    | PcWord v n k =>
        match q_heap x !! n with
        | None => TUB
        | Some nd =>
            if thr then
              (* the exception leaves construct(); the node is not given back *)
              if c_throws c then TGo x (PcRet RExn) else TDisabled
            else match v !! k with
                 | Some w => TGo (set_heap x (<[n := Node (nx nd) (<[k := w]> (dat nd))]> (q_heap x)))
                                 (PcWord v n (S k))
                 | None => TGo x (PcNStore n (nx nd).2)
                 end
        end
    | PcNStore n tag =>
        match q_heap x !! n with
        | None => TUB
        | Some nd => TGo (set_heap x (<[n := Node (c_null c, next_tag c tag) (dat nd)]> (q_heap x)))
                         (PcPTail n)
        end
    | PcPTail n => TGo x (PcPNext n (q_tail x))
    | PcPNext n tl =>
        match q_heap x !! tl.1 with
        | None => TUB
        | Some nd => TGo x (PcPCheck n tl (nx nd))
        end
    | PcPCheck n tl nx =>
        if decide (tl = q_tail x) then
          if decide (nx.1 = c_null c) then TGo x (PcPLink n tl nx)
          else TGo x (PcPSwing n tl nx.1)
        else TGo x (PcPTail n)
    | PcPLink n tl nx' =>
        match q_heap x !! tl.1 with
        | None => TUB
        | Some nd =>
            if decide (sp = false /\ nx nd = nx') then
              TGo (set_heap x (<[tl.1 := Node (n, next_tag c nx'.2) (dat nd)]> (q_heap x)))
                  (PcPDone n tl)
            else TGo x (PcPTail n)
        end
    | PcPDone n tl =>
        TGo (if decide (q_tail x = tl) then set_tail x (n, next_tag c tl.2) else x)
            (PcRet (RBool true))
    | PcPSwing n tl np =>
        TGo (if decide (q_tail x = tl) then set_tail x (np, next_tag c tl.2) else x)
            (PcPTail n)
    | PcOHead => TGo x (PcOTail (q_head x))
    | PcOTail hd => TGo x (PcONext hd (q_tail x))
    | PcONext hd tl =>
        match q_heap x !! hd.1 with
        | None => TUB
        | Some nd => TGo x (PcOCheck hd tl (nx nd))
        end
    | PcOCheck hd tl nx =>
        if decide (hd = q_head x) then
          if decide (hd.1 = tl.1) then
            if decide (nx.1 = c_null c) then TGo x (PcRet (RPop None))
            else TGo x (PcOSwing tl nx.1)
          else if decide (nx.1 = c_null c) then TGo x PcOHead
          else TGo x (PcOCopy hd nx.1 [])
        else TGo x PcOHead
    | PcOSwing tl np =>
        TGo (if decide (q_tail x = tl) then set_tail x (np, next_tag c tl.2) else x) PcOHead
    | PcOCopy hd np acc =>
        if thr then
          (* copy_payload throws : 446, copy_payload.hpp:24-41 *)
          if c_throws c then TGo x (PcRet RExn) else TDisabled
        else if decide (length acc < c_words c) then
          match q_heap x !! np with
          | None => TUB
          | Some nd =>
              match dat nd !! length acc with
              | None => TUB
              | Some w => TGo x (PcOCopy hd np (acc ++ [w]))
              end
          end
        else if decide (sp = false /\ q_head x = hd) then
          TGo (set_head x (np, next_tag c hd.2)) (PcDealloc hd.1 DLoad (KRet (RPop (Some acc))))
        else TGo x PcOHead
    | PcDealloc n d k =>
        match dstep n (q_heap x) (q_pool x) d sp with
        | DCont h p d' => TGo (set_heap_pool x h p) (PcDealloc n d' k)
        | DDone h p =>
            TGo (set_heap_pool x h p)
                (match k with KRet r => PcRet r | KReserve j => PcReserve j end)
        | DUB => TUB
        end
    | PcReserve 0 => TGo x (PcRet RUnit)
    | PcReserve (S k) =>
        match addr with
        | None => TGo x (PcRet RExn)
        | Some n =>
            if decide (q_heap x !! n = None /\ n <> c_null c) then
              TGo (set_heap x (<[n := Node (c_null c, 0%N) qd0]> (q_heap x)))
                  (PcDealloc n DLoad (KReserve k))
            else TDisabled
        end
    | PcEHead => TGo x (PcEHeadTail (q_head x).1)
    | PcEHeadTail h => TGo x (PcRet (RBool (bool_decide (h = (q_tail x).1))))
    | PcETail => TGo x (PcETailHead (q_tail x).1)
    | PcETailHead tl => TGo x (PcRet (RBool (bool_decide ((q_head x).1 = tl))))
    | PcRet _ => TDisabled
    end.

  (** ** Operations without synchronization *)

  Inductive uout :=
    | UDone (x : qshared) (r : qret)
    | UUB
    | UDisabled.

  (** The loop of unsynchronized_push (queue.hpp:384-396); running out of
      [fuel] stands for not terminating and counts as [UUB]. *)
  Fixpoint upush_loop (fuel : nat) (x : qshared) (n : N) : uout :=
    match fuel with
    | O => UUB
    | S fuel =>
        let tl := q_tail x in
        match q_heap x !! tl.1 with
        | None => UUB
        | Some nd =>
            if decide ((nx nd).1 = c_null c) then
              UDone (QSh (<[tl.1 := Node (n, next_tag c (nx nd).2) (dat nd)]> (q_heap x))
                         (q_pool x) (q_head x) (n, next_tag c tl.2))
                    (RBool true)
            else upush_loop fuel (set_tail x ((nx nd).1, next_tag c tl.2)) n
        end
    end.

  (** unsynchronized_push (queue.hpp:377-396). *)
  Definition upush (x : qshared) (v : val) (addr : option N) (thr : bool) : uout :=
    match alloc_unsafe c qd0 false (q_heap x) (q_pool x) addr with
    | AGot h p n =>
        match h !! n with
        | None => UUB
        | Some nd =>
            if thr then
              (* the exception leaves construct(); the node is not given back *)
              if c_throws c then UDone (set_heap_pool x h p) RExn else UDisabled
            else
            let h' := <[n := Node (c_null c, next_tag c (nx nd).2) v]> h in
            upush_loop (S (size h')) (set_heap_pool x h' p) n
        end
    | AFail => UDone x (RBool false)
    | AThrow => UDone x RExn
    | AUB => UUB
    | ADisabled => UDisabled
    | ACont _ _ _ => UDisabled
    end.

  (** unsynchronized_pop (queue.hpp:482-512). *)
  Fixpoint upop_loop (fuel : nat) (x : qshared) (thr : bool) : uout :=
    match fuel with
    | O => UUB
    | S fuel =>
        let hd := q_head x in
        let tl := q_tail x in
        match q_heap x !! hd.1 with
        | None => UUB
        | Some nd =>
            if decide (hd.1 = tl.1) then
              if decide ((nx nd).1 = c_null c) then UDone x (RPop None)
              else upop_loop fuel (set_tail x ((nx nd).1, next_tag c tl.2)) thr
            else if decide ((nx nd).1 = c_null c) then upop_loop fuel x thr
            else
              match q_heap x !! (nx nd).1 with
              | None => UUB
              | Some nd2 =>
                  if thr then
                    (* copy_payload throws : 505 *)
                    if c_throws c then UDone x RExn else UDisabled
                  else
                  match dealloc_unsafe hd.1 (q_heap x) (q_pool x) with
                  | DDone h p =>
                      UDone (QSh h p ((nx nd).1, next_tag c hd.2) tl) (RPop (Some (dat nd2)))
                  | _ => UUB
                  end
              end
        end
    end.

  Definition upop (x : qshared) (thr : bool) : uout := upop_loop (S (size (q_heap x))) x thr.

  (** reserve_unsafe (queue.hpp:280-283, freelist.hpp:68-75). *)
  Fixpoint ureserve (n : nat) (x : qshared) (addrs : list (option N)) : uout :=
    match n with
    | O => UDone x RUnit
    | S n =>
        match addrs with
        | [] => UDisabled
        | None :: _ => UDone x RExn
        | Some a :: addrs =>
            if decide (q_heap x !! a = None /\ a <> c_null c) then
              match dealloc_unsafe a (<[a := Node (c_null c, 0%N) qd0]> (q_heap x)) (q_pool x) with
              | DDone h p => ureserve n (set_heap_pool x h p) addrs
              | _ => UUB
              end
            else UDisabled
        end
    end.

  (** A call without synchronization; unsynchronized_push and reserve_unsafe
      only compile for the node-based queue ([tail->next] at 386). *)
  Definition ucall (x : qshared) (o : qop) (addrs : list (option N)) (thr : bool) : uout :=
    match o with
    | UPush v =>
        if decide (c_node_based c = true /\ length v = c_words c) then
          upush x v (match addrs with a :: _ => a | [] => None end) thr
        else UDisabled
    | UPop => upop x thr
    | UReserve n => if c_node_based c then ureserve n x addrs else UDisabled
    | _ => UDisabled
    end.

  (** ** The machine *)

  Definition qstep (s : qstate) (ch : qchoice) : qoutcome :=
    match ch with
    | Invoke t o tf =>
        match q_pcs s !! t, qstart o tf with
        | None, Some pc => QNext (set_pc s t pc) [Inv t o]
        | _, _ => QDisabled
        end
    | Run t sp addr thr =>
        match q_pcs s !! t with
        | None => QDisabled
        | Some (PcRet r) => QNext (QSt (q_sh s) (delete t (q_pcs s))) [Res t r]
        | Some pc =>
            match tstep (q_sh s) pc sp addr thr with
            | TGo x pc' => QNext (QSt x (<[t := pc']> (q_pcs s))) []
            | TUB => QUB
            | TDisabled => QDisabled
            end
        end
    | Unsync t o addrs thr =>
        if decide (q_pcs s = ∅) then
          match ucall (q_sh s) o addrs thr with
          | UDone x r => QNext (QSt x ∅) [Inv t o; Res t r]
          | UUB => QUB
          | UDisabled => QDisabled
          end
        else QDisabled
    end.

  (** ** Construction and destruction *)

  (** Constructors (queue.hpp:180-269) and initialize (142-148).  [ns] are the
      nodes of the pool (n+1 of them: 106, 232), [addr] the answer of the
      allocator if the pool is empty.  The node constructor 125-127 leaves
      [data] unset. *)
  Definition qinit (ns : list N) (addr : option N) : option qstate :=
    let '(h, p) := pool_init c qd0 ns in
    match alloc_unsafe c qd0 false h p addr with
    | AGot h' p' n =>
        match h' !! n with
        | None => None
        | Some nd =>
            Some (QSt (QSh (<[n := Node (c_null c, 0%N) (dat nd)]> h') p' (n, 0%N) (n, 0%N)) ∅)
        end
    | AFail => Some (QSt (QSh h p (c_null c, 0%N) (c_null c, 0%N)) ∅)
    | _ => None
    end.

  (** ~queue (queue.hpp:287-293) followed by ~freelist_stack
      (freelist.hpp:119-129) on the node-based queue: the addresses passed to
      [Alloc::deallocate]. *)
  Fixpoint qdtor_pop (fuel : nat) (x : qshared) : option qshared :=
    match fuel with
    | O => None
    | S fuel =>
        match upop x false with
        | UDone x' (RPop (Some _)) => qdtor_pop fuel x'
        | UDone x' (RPop None) => Some x'
        | _ => None
        end
    end.

  Definition qdtor (x : qshared) : option (list N) :=
    match qdtor_pop (S (size (q_heap x))) x with
    | None => None
    | Some x' =>
        match dealloc_unsafe (q_head x').1 (q_heap x') (q_pool x') with
        | DDone h p => pool_dtor c (S (size h)) h p.1
        | _ => None
        end
    end.

  (** ** Executions *)

  (** [qexec s0 hist s]: some sequence of choices leads from [s0] to [s] and
      produces the history [hist]. *)
  Inductive qexec (s0 : qstate) : list qevent -> qstate -> Prop :=
    | qexec_nil : qexec s0 [] s0
    | qexec_step hist s ch s' evs :
        qexec s0 hist s -> qstep s ch = QNext s' evs -> qexec s0 (hist ++ evs) s'.

  (** The same for a given schedule, computable. *)
  Fixpoint qrun (s : qstate) (chs : list qchoice) : option (list qevent * qstate) :=
    match chs with
    | [] => Some ([], s)
    | ch :: chs =>
        match qstep s ch with
        | QNext s' evs =>
            match qrun s' chs with
            | Some (h, s'') => Some (evs ++ h, s'')
            | None => None
            end
        | _ => None
        end
    end.
End queue.
