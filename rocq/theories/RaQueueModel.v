(** * The queue on release/acquire memory

    The same code as in QueueModel.v (queue.hpp, freelist.hpp) on a memory in
    which loads may return old values.  The program of a thread is the step
    function [tstep] of QueueModel.v; this file says what each step may see.

    - [head_], [tail_] and [pool_] are atomic words that are changed by
      compare-exchange operations only, so each new value is the last one in
      modification order.  A load (and a compare-exchange that fails) returns any
      value that is not older than what the thread has already seen of the word.
      A compare-exchange succeeds only if it finds the last value; a strong one
      (queue.hpp:356, 361, 436) does not fail when it finds the expected value.
    - A successful compare-exchange (memory_order_seq_cst: no order is given in
      queue.hpp:354, 356, 361, 436, 449, freelist.hpp:190, 240, 557, 597) releases
      the view of its thread with the value it stores, and acquires the view of
      the value it replaces.  A failed one acquires the view of the value it returns.
    - The loads with memory_order_acquire (queue.hpp:345, 347, 350, 422, 425, 426,
      429), with memory_order_consume (freelist.hpp:175, 233, 545, 591) and
      without order (queue.hpp:303) acquire the view of the value they return;
      compilers treat consume as acquire.  The load in the node's constructor
      (queue.hpp:120) is relaxed.
    - The link of a node is an atomic word as well: stored by the constructor of
      the node with memory_order_release (queue.hpp:122) and changed by the
      compare-exchange at 354.  But the freelist keeps its own link in the same
      bytes (freelist.hpp:40-43, 398-403) and accesses it as an ordinary variable.
      [rel] says how its write (freelist.hpp:238, 595) is seen by the atomic loads:
      as a release store ([rel = true]) or as a relaxed store ([rel = false]).
      By the letter of the standard it is a data race.
    - Storing a link without having seen all its earlier values is reported as a
      race.
    - The freelist's read of the link (freelist.hpp:187, 555) and pop's copy of the
      element (queue.hpp:446) are ordinary reads that may race with a write.  Such a
      read returns an arbitrary value (chosen by the environment, [junk]) if the
      thread has not seen the last write; it is not reported.
    - Writing a word of an element without having seen all earlier writes to the
      element is reported as a race.

    The total order of seq_cst operations is not modelled, which allows more
    executions than the standard does.  There are no load buffering executions
    (a load never returns a value that is stored later).  Copies of elements do
    not throw, and the operations without synchronization are left out. *)
From stdpp Require Import gmap list numbers.
From Verif Require Import Lin PoolModel QueueModel RaMem.

(** ** Memory: the newest values are in [qshared]; this is the rest *)

Record wmem := WMem {
  w_pool : list (tagged * view);   (* the older values of pool_, oldest first, with their views *)
  w_poolv : view;                  (* the view of the newest value *)
  w_head : list (tagged * view);   (* likewise for head_ *)
  w_headv : view;
  w_tail : list (tagged * view);   (* and tail_ *)
  w_tailv : view;
  w_next : N -> list (tagged * view);  (* and the link of a node *)
  w_nextv : N -> view;
  w_acc : N -> nat;                (* the number of writes to a node's element *)
}.

Inductive root := RPool | RHead | RTail.

Definition hist (i : root) (x : qshared) (w : wmem) : list (tagged * view) :=
  match i with
  | RPool => w_pool w ++ [(q_pool x, w_poolv w)]
  | RHead => w_head w ++ [(q_head x, w_headv w)]
  | RTail => w_tail w ++ [(q_tail x, w_tailv w)]
  end.
Definition nhist (nd : qnode) (w : wmem) (n : N) : list (tagged * view) :=
  w_next w n ++ [(nx nd, w_nextv w n)].

Definition rloc (i : root) : loc :=
  match i with RPool => LRoot 0 | RHead => LRoot 1 | RTail => LRoot 2 end.

Definition fupd {A} (f : N -> A) (n : N) (a : A) : N -> A := fun m => if decide (m = n) then a else f m.

(** The memory as seen by a load that returns [v]. *)
Definition see (i : root) (x : qshared) (v : tagged) : qshared :=
  match i with
  | RPool => QSh (q_heap x) v (q_head x) (q_tail x)
  | RHead => QSh (q_heap x) (q_pool x) v (q_tail x)
  | RTail => QSh (q_heap x) (q_pool x) (q_head x) v
  end.
Definition see_next (x : qshared) (n : N) (v : tagged) (nd : qnode) : qshared :=
  set_heap x (<[n := Node v (dat nd)]> (q_heap x)).
Definition see_word (x : qshared) (n : N) (k : nat) (v : N) (nd : qnode) : qshared :=
  set_heap x (<[n := Node (nx nd) (<[k := v]> (dat nd))]> (q_heap x)).

(** ** The access made by the next step of a thread *)

Inductive access :=
  | XNone
  | XLoad (i : root)                (* load-acquire of an atomic word *)
  | XCas (i : root) (old : tagged) (strong : bool)  (* compare-exchange, expected value [old] *)
  | XNLoad (n : N) (a : bool)       (* load of the link of [n]; [a]: acquire *)
  | XNCas (n : N) (old : tagged)    (* compare_exchange_weak of the link of [n] *)
  | XNStore (n : N)                 (* store-release of the link of [n] *)
  | XRead (n : N)                   (* the freelist reads the link of [n] *)
  | XWrite (n : N)                  (* the freelist writes the link of [n] *)
  | XPut (n : N)                    (* writes a word of the element in [n] *)
  | XGet (n : N) (k : nat).         (* reads word [k] of the element in [n] *)

Record rstate := RSt {
  r_x : qshared;
  r_w : wmem;
  r_pcs : gmap nat qpc;
  r_view : nat -> view;
}.

Inductive rchoice :=
  | RInvoke (t : nat) (o : qop) (tail_first : bool)
  | RRun (t : nat) (ts : nat) (sp : bool) (addr : option N) (junk : N)
      (* [ts]: number of the value returned by a load; [junk]: result of a
         racing read; [sp], [addr] as in [Run] *)
  | RSync (t u : nat).
      (* the program synchronizes [u] with [t] by other means *)

Inductive routcome :=
  | RNext (s : rstate) (evs : list (qevent * view))
  | RRace        (* data race *)
  | RUB          (* other undefined behaviour, as in QueueModel.v *)
  | RDisabled.

Section raqueue.
  Context (c : cfg) (rel : bool).

  Definition aaccess (a : apc) : access :=
    match a with
    | ALoad => XLoad RPool                           (* freelist.hpp:175, 545 *)
    | ATest old => if decide (old.1 = c_null c) then XNone else XRead old.1   (* 187, 555 *)
    | ACas old _ => XCas RPool old false             (* 190, 557 *)
    end.
  Definition daccess (n : N) (d : dpc) : access :=
    match d with
    | DLoad => XLoad RPool                           (* 233, 591 *)
    | DSet _ => XWrite n                             (* 238, 595 *)
    | DCas old => XCas RPool old false               (* 240, 597 *)
    end.
  Definition qaccess (pc : qpc) : access :=
    match pc with
    | PcAlloc _ _ a => aaccess a
    | PcWord v n k => match v !! k with
                      | Some _ => XPut n             (* queue.hpp:117 *)
                      | None => XNLoad n false       (* 120 *)
                      end
    | PcNStore n _ => XNStore n                      (* 122 *)
    | PcPTail _ => XLoad RTail                       (* 345 *)
    | PcPNext _ tl => XNLoad tl.1 true               (* 347 *)
    | PcPCheck _ _ _ => XLoad RTail                  (* 350 *)
    | PcPLink _ tl nx => XNCas tl.1 nx               (* 354 *)
    | PcPDone _ tl => XCas RTail tl true             (* 356 *)
    | PcPSwing _ tl _ => XCas RTail tl true          (* 361 *)
    | PcOHead => XLoad RHead                         (* 422 *)
    | PcOTail _ => XLoad RTail                       (* 425 *)
    | PcONext hd _ => XNLoad hd.1 true               (* 426 *)
    | PcOCheck _ _ _ => XLoad RHead                  (* 429 *)
    | PcOSwing tl _ => XCas RTail tl true            (* 436 *)
    | PcOCopy hd np acc => if decide (length acc < c_words c) then XGet np (length acc)  (* 446 *)
                           else XCas RHead hd false  (* 449 *)
    | PcDealloc n d _ => daccess n d
    | PcReserve _ => XNone                           (* a fresh node is private *)
    | PcEHead => XLoad RHead                         (* 303 *)
    | PcEHeadTail _ => XLoad RTail
    | PcETail => XLoad RTail
    | PcETailHead _ => XLoad RHead
    | PcRet _ => XNone
    end.

  (** The memory after a successful compare-exchange by a thread whose view is
      then [V]; [x] is the memory before. *)
  Definition push_msg (i : root) (x : qshared) (w : wmem) (V : view) : wmem :=
    match i with
    | RPool => WMem (hist RPool x w) V (w_head w) (w_headv w) (w_tail w) (w_tailv w)
                    (w_next w) (w_nextv w) (w_acc w)
    | RHead => WMem (w_pool w) (w_poolv w) (hist RHead x w) V (w_tail w) (w_tailv w)
                    (w_next w) (w_nextv w) (w_acc w)
    | RTail => WMem (w_pool w) (w_poolv w) (w_head w) (w_headv w) (hist RTail x w) V
                    (w_next w) (w_nextv w) (w_acc w)
    end.
  Definition push_next (nd : qnode) (w : wmem) (n : N) (V : view) : wmem :=
    WMem (w_pool w) (w_poolv w) (w_head w) (w_headv w) (w_tail w) (w_tailv w)
         (fupd (w_next w) n (nhist nd w n)) (fupd (w_nextv w) n V) (w_acc w).
  Definition push_acc (w : wmem) (n : N) : wmem :=
    WMem (w_pool w) (w_poolv w) (w_head w) (w_headv w) (w_tail w) (w_tailv w)
         (w_next w) (w_nextv w) (fupd (w_acc w) n (S (w_acc w n))).

  Inductive rout :=
    | RGo (x : qshared) (w : wmem) (V : view) (pc : qpc)
    | RGRace
    | RGUB
    | RGDisabled.

  (** A load (or failing compare-exchange) leaves the memory alone. *)
  Definition rread (x : qshared) (w : wmem) (V : view) (out : tout) : rout :=
    match out with
    | TGo _ pc => RGo x w V pc
    | TUB => RGUB
    | TDisabled => RGDisabled
    end.
  Definition rwrite (w : wmem) (V : view) (out : tout) : rout :=
    match out with
    | TGo x pc => RGo x w V pc
    | TUB => RGUB
    | TDisabled => RGDisabled
    end.

  (** A store to the link of [n] by a thread with view [V]; [r]: release. *)
  Definition rstore (x : qshared) (w : wmem) (V : view) (n : N) (r : bool) (out : tout) : rout :=
    match q_heap x !! n with
    | None => RGUB
    | Some nd =>
        if decide (V (LNext n) = length (w_next w n)) then
          let V' := vset V (LNext n) (S (length (w_next w n))) in
          rwrite (push_next nd w n (if r then V' else v0)) V' out
        else RGRace
    end.

  (** One step of a thread at [pc] with view [V]. *)
  Definition rtstep (x : qshared) (w : wmem) (V : view) (pc : qpc) (ts : nat) (sp : bool)
      (addr : option N) (junk : N) : rout :=
    match qaccess pc with
    | XNone => rwrite w V (tstep c x pc sp addr false)
    | XLoad i =>
        match hist i x w !! ts with
        | Some (v, mv) =>
            if decide (V (rloc i) <= ts) then
              rread x w (vjoin (vset V (rloc i) ts) mv) (tstep c (see i x v) pc sp addr false)
            else RGDisabled
        | None => RGDisabled
        end
    | XCas i old strong =>
        match hist i x w !! ts with
        | Some (v, mv) =>
            if decide (V (rloc i) <= ts) then
              if decide (S ts = length (hist i x w) /\ v = old /\ (strong = true \/ sp = false)) then
                let V' := vset (vjoin V mv) (rloc i) (S ts) in
                rwrite (push_msg i x w V') V' (tstep c x pc false addr false)
              else if decide (strong = true /\ v = old) then RGDisabled
              else rread x w (vjoin (vset V (rloc i) ts) mv) (tstep c (see i x v) pc true addr false)
            else RGDisabled
        | None => RGDisabled
        end
    | XNLoad n a =>
        match q_heap x !! n with
        | None => RGUB
        | Some nd =>
            match nhist nd w n !! ts with
            | Some (v, mv) =>
                if decide (V (LNext n) <= ts) then
                  rread x w (vjoin (vset V (LNext n) ts) (if a then mv else v0))
                        (tstep c (see_next x n v nd) pc sp addr false)
                else RGDisabled
            | None => RGDisabled
            end
        end
    | XNCas n old =>
        match q_heap x !! n with
        | None => RGUB
        | Some nd =>
            match nhist nd w n !! ts with
            | Some (v, mv) =>
                if decide (V (LNext n) <= ts) then
                  if decide (S ts = length (nhist nd w n) /\ v = old /\ sp = false) then
                    let V' := vset (vjoin V mv) (LNext n) (S ts) in
                    rwrite (push_next nd w n V') V' (tstep c x pc false addr false)
                  else
                    rread x w (vjoin (vset V (LNext n) ts) mv)
                          (tstep c (see_next x n v nd) pc true addr false)
                else RGDisabled
            | None => RGDisabled
            end
        end
    | XNStore n => rstore x w V n true (tstep c x pc sp addr false)
    | XWrite n => rstore x w V n rel (tstep c x pc sp addr false)
    | XRead n =>
        match q_heap x !! n with
        | None => RGUB
        | Some nd =>
            if decide (V (LNext n) = length (w_next w n)) then
              rread x w V (tstep c x pc sp addr false)
            else rread x w V (tstep c (see_next x n (junk, (nx nd).2) nd) pc sp addr false)
        end
    | XPut n =>
        if decide (V (LData n) = w_acc w n) then
          rwrite (push_acc w n) (vset V (LData n) (S (w_acc w n))) (tstep c x pc sp addr false)
        else RGRace
    | XGet n k =>
        match q_heap x !! n with
        | None => RGUB
        | Some nd =>
            if decide (V (LData n) = w_acc w n) then
              rread x w V (tstep c x pc sp addr false)
            else rread x w V (tstep c (see_word x n k junk nd) pc sp addr false)
        end
    end.

  Definition rstep (s : rstate) (ch : rchoice) : routcome :=
    match ch with
    | RInvoke t o tf =>
        match r_pcs s !! t, qstart c o tf with
        | None, Some pc =>
            let V := tick t (r_view s t) in
            RNext (RSt (r_x s) (r_w s) (<[t := pc]> (r_pcs s)) (set_view (r_view s) t V)) [(Inv t o, V)]
        | _, _ => RDisabled
        end
    | RRun t ts sp addr junk =>
        match r_pcs s !! t with
        | None => RDisabled
        | Some (PcRet r) =>
            let V := tick t (r_view s t) in
            RNext (RSt (r_x s) (r_w s) (delete t (r_pcs s)) (set_view (r_view s) t V)) [(Res t r, V)]
        | Some pc =>
            match rtstep (r_x s) (r_w s) (r_view s t) pc ts sp addr junk with
            | RGo x w V pc' => RNext (RSt x w (<[t := pc']> (r_pcs s)) (set_view (r_view s) t V)) []
            | RGRace => RRace
            | RGUB => RUB
            | RGDisabled => RDisabled
            end
        end
    | RSync t u =>
        RNext (RSt (r_x s) (r_w s) (r_pcs s) (set_view (r_view s) u (vjoin (r_view s u) (r_view s t)))) []
    end.

  (** After the constructor; everything that follows happens after it. *)
  Definition rinit (ns : list N) (addr : option N) : option rstate :=
    match qinit c ns addr with
    | Some s => Some (RSt (q_sh s) (WMem [] v0 [] v0 [] v0 (fun _ => []) (fun _ => v0) (fun _ => 0)) ∅ (fun _ => v0))
    | None => None
    end.

  Inductive rexec (s0 : rstate) : list (qevent * view) -> rstate -> Prop :=
    | rexec_nil : rexec s0 [] s0
    | rexec_step tr s ch s' evs :
        rexec s0 tr s -> rstep s ch = RNext s' evs -> rexec s0 (tr ++ evs) s'.
End raqueue.
