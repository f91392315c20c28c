(** * The stack on release/acquire memory

    The same code as in StackModel.v (stack.hpp, freelist.hpp) on a memory in
    which loads may return old values.  The program of a thread is the step
    function [tstep] of StackModel.v; this file says what each step may see.

    - [tos] and [pool_] are atomic words that are changed by compare-exchange
      operations only, so each new value is the last one in modification order.
      A load (and a compare-exchange that fails) returns any value that is not
      older than what the thread has already seen of the word.  A compare-exchange
      succeeds only if it finds the last value.
    - A successful compare-exchange (memory_order_seq_cst: no order is given in
      stack.hpp:269, 542, 621, 708, freelist.hpp:190, 240, 557, 597) releases the
      view of its thread with the value it stores, and acquires the view of the
      value it replaces.  A failed one acquires the view of the value it returns.
    - A load with memory_order_consume (stack.hpp:533, 554, 612, 652, 699, 757,
      freelist.hpp:175, 233, 545, 591) or without order (stack.hpp:817) acquires
      the view of the value it returns; compilers treat consume as acquire.
      [acq = false] weakens the consume loads to relaxed.
    - The load in link_nodes_atomic (stack.hpp:264) is relaxed.
    - The link of a node is an ordinary variable, which consume_one and
      allocate_impl read while another thread may be writing it (stack.hpp:540,
      freelist.hpp:187, 555; a data race by the letter of the standard).  It is
      treated like a relaxed atomic: a read returns any value that is not older
      than what the thread has seen.  Writing a link without having seen all its
      earlier writes is reported as a race.
    - The element object in a node is ordinary memory: accessing it without
      having seen all its earlier accesses (even reads) is reported as a race.

    The total order of seq_cst operations is not modelled, which allows more
    executions than the standard does.  There are no load buffering executions
    (a load never returns a value that is stored later). *)
From stdpp Require Import gmap list numbers.
From Verif Require Import Lin PoolModel StackModel RaMem.

(** ** Memory: the newest values are in [sshared]; this is the rest *)

Record wmem := WMem {
  w_pool : list (tagged * view);   (* the older values of pool_, oldest first, with their views *)
  w_poolv : view;                  (* the view of the newest value *)
  w_tos : list (tagged * view);    (* likewise for tos *)
  w_tosv : view;
  w_next : N -> list N;            (* the older values of a node's link *)
  w_acc : N -> nat;                (* the number of accesses to a node's element *)
}.

Definition pool_hist (x : sshared) (w : wmem) : list (tagged * view) := w_pool w ++ [(s_pool x, w_poolv w)].
Definition tos_hist (x : sshared) (w : wmem) : list (tagged * view) := w_tos w ++ [(s_tos x, w_tosv w)].
Definition next_hist (nd : snode) (w : wmem) (n : N) : list N := w_next w n ++ [(nx nd).1].

Definition fupd {A} (f : N -> A) (n : N) (a : A) : N -> A := fun m => if decide (m = n) then a else f m.

(** The memory as seen by a load that returns [v]. *)
Definition see_pool (x : sshared) (v : tagged) : sshared := SSh (s_heap x) v (s_tos x).
Definition see_tos (x : sshared) (v : tagged) : sshared := SSh (s_heap x) (s_pool x) v.
Definition see_next (x : sshared) (n p : N) (nd : snode) : sshared :=
  SSh (<[n := set_next nd p]> (s_heap x)) (s_pool x) (s_tos x).

(** ** The access made by the next step of a thread *)

Inductive root := RPool | RTos.
Inductive access :=
  | XNone
  | XLoad (i : root) (a : bool)     (* load of an atomic word; [a]: acquire *)
  | XCas (i : root) (old : tagged)  (* compare-exchange with this expected value *)
  | XRead (n : N)                   (* reads the link of [n] *)
  | XWrite (n : N)                  (* writes the link of [n] *)
  | XData (n : N).                  (* reads, constructs or destroys the element in [n] *)

Record rstate := RSt {
  r_x : sshared;
  r_w : wmem;
  r_pcs : gmap nat spc;
  r_view : nat -> view;
}.

Inductive rchoice :=
  | RInvoke (t : nat) (o : sop)
  | RRun (t : nat) (ts : nat) (sp : bool) (addr : option N)
      (* [ts]: number of the value returned by a load; [sp], [addr] as in [Run] *)
  | RSync (t u : nat).
      (* the program synchronizes [u] with [t] by other means *)

Inductive routcome :=
  | RNext (s : rstate) (evs : list (sevent * view))
  | RRace        (* data race *)
  | RUB          (* other undefined behaviour, as in StackModel.v *)
  | RDisabled.

Section rastack.
  Context (c : cfg) (acq : bool).

  Definition aaccess (a : apc) : access :=
    match a with
    | ALoad => XLoad RPool acq                       (* freelist.hpp:175, 545 *)
    | ATest old => if decide (old.1 = c_null c) then XNone else XRead old.1   (* 187, 555 *)
    | ACas old _ => XCas RPool old                   (* 190, 557 *)
    end.
  Definition daccess (n : N) (d : dpc) : access :=
    match d with
    | DLoad => XLoad RPool acq                       (* 233, 591 *)
    | DSet _ => XWrite n                             (* 238, 595 *)
    | DCas old => XCas RPool old                     (* 240, 597 *)
    end.
  Definition saccess (pc : spc) : access :=
    match pc with
    | PcAlloc _ _ a | PcRAlloc _ _ _ _ a => aaccess a
    | PcCons _ n | PcRCons _ _ _ _ n => XData n      (* freelist.hpp:91 *)
    | PcLLoad _ _ _ => XLoad RTos false              (* stack.hpp:264 *)
    | PcLSet _ bot _ _ => XWrite bot                 (* 267 *)
    | PcLCas _ _ old _ => XCas RTos old              (* 269 *)
    | PcRFirst _ _ => XNone
    | PcRLink _ _ _ _ n => XWrite n                  (* 295, 304 *)
    | PcUndo cur => XRead cur                        (* 311 *)
    | PcCLoad => XLoad RTos acq                      (* 533, 554 *)
    | PcCNext old => XRead old.1                     (* 540, 561 *)
    | PcCCas old _ => XCas RTos old                  (* 542, 563 *)
    | PcCFun n => XData n                            (* 543, 564 *)
    | PcALoad _ => XLoad RTos acq                    (* 612, 652, 699, 757 *)
    | PcACas _ old => XCas RTos old                  (* 621, 661, 708, 766 *)
    | PcRevNext n _ => XRead n                       (* 718, 776 *)
    | PcRevSet n _ _ => XWrite n                     (* 720, 778 *)
    | PcVisit n _ _ => XData n                       (* 629, 669, 734, 792 *)
    | PcVNext n _ _ => XRead n                       (* 632, 672, 737, 795 *)
    | PcDestroy n _ => XData n                       (* freelist.hpp:108, 115 *)
    | PcDealloc n d _ => daccess n d
    | PcReserve _ => XNone                           (* a fresh node is private *)
    | PcEmpty => XLoad RTos true                     (* stack.hpp:817 *)
    | PcRet _ => XNone
    end.

  Definition hist (i : root) (x : sshared) (w : wmem) : list (tagged * view) :=
    match i with RPool => pool_hist x w | RTos => tos_hist x w end.
  Definition see (i : root) (x : sshared) (v : tagged) : sshared :=
    match i with RPool => see_pool x v | RTos => see_tos x v end.
  Definition rloc (i : root) : loc := match i with RPool => LRoot 0 | RTos => LRoot 1 end.

  (** The memory after a successful compare-exchange by a thread whose view is
      then [V]; [x] is the memory before. *)
  Definition push_msg (i : root) (x : sshared) (w : wmem) (V : view) : wmem :=
    match i with
    | RPool => WMem (pool_hist x w) V (w_tos w) (w_tosv w) (w_next w) (w_acc w)
    | RTos => WMem (w_pool w) (w_poolv w) (tos_hist x w) V (w_next w) (w_acc w)
    end.
  Definition push_next (w : wmem) (n p : N) : wmem :=
    WMem (w_pool w) (w_poolv w) (w_tos w) (w_tosv w) (fupd (w_next w) n (w_next w n ++ [p])) (w_acc w).
  Definition push_acc (w : wmem) (n : N) : wmem :=
    WMem (w_pool w) (w_poolv w) (w_tos w) (w_tosv w) (w_next w) (fupd (w_acc w) n (S (w_acc w n))).

  Inductive rout :=
    | RGo (x : sshared) (w : wmem) (V : view) (pc : spc)
    | RGRace
    | RGUB
    | RGDisabled.

  (** A load (or failing compare-exchange) leaves the memory alone. *)
  Definition rread (x : sshared) (w : wmem) (V : view) (out : tout) : rout :=
    match out with
    | TGo _ pc => RGo x w V pc
    | TUB => RGUB
    | TDisabled => RGDisabled
    end.
  Definition rwrite (w : wmem) (V : view) (out : tout) : rout :=
    match out with
    | TGo x pc => RGo x w V pc
    | TUB => RGUB
    | TDisabled => RGDisabled
    end.

  (** One step of a thread at [pc] with view [V]. *)
  Definition rtstep (x : sshared) (w : wmem) (V : view) (pc : spc) (ts : nat) (sp : bool)
      (addr : option N) : rout :=
    match saccess pc with
    | XNone => rwrite w V (tstep c x pc sp addr false)
    | XLoad i a =>
        match hist i x w !! ts with
        | Some (v, mv) =>
            if decide (V (rloc i) <= ts) then
              rread x w (vjoin (vset V (rloc i) ts) (if a then mv else v0))
                    (tstep c (see i x v) pc sp addr false)
            else RGDisabled
        | None => RGDisabled
        end
    | XCas i old =>
        match hist i x w !! ts with
        | Some (v, mv) =>
            if decide (V (rloc i) <= ts) then
              if decide (S ts = length (hist i x w) /\ v = old /\ sp = false) then
                let V' := vset (vjoin V mv) (rloc i) (S ts) in
                rwrite (push_msg i x w V') V' (tstep c x pc false addr false)
              else
                rread x w (vjoin (vset V (rloc i) ts) mv) (tstep c (see i x v) pc true addr false)
            else RGDisabled
        | None => RGDisabled
        end
    | XRead n =>
        match s_heap x !! n with
        | None => RGUB
        | Some nd =>
            match next_hist nd w n !! ts with
            | Some p =>
                if decide (V (LNext n) <= ts) then
                  rread x w (vset V (LNext n) ts) (tstep c (see_next x n p nd) pc sp addr false)
                else RGDisabled
            | None => RGDisabled
            end
        end
    | XWrite n =>
        match s_heap x !! n with
        | None => RGUB
        | Some nd =>
            if decide (V (LNext n) = length (w_next w n)) then
              rwrite (push_next w n (nx nd).1) (vset V (LNext n) (S (length (w_next w n))))
                     (tstep c x pc sp addr false)
            else RGRace
        end
    | XData n =>
        if decide (V (LData n) = w_acc w n) then
          rwrite (push_acc w n) (vset V (LData n) (S (w_acc w n))) (tstep c x pc sp addr false)
        else RGRace
    end.

  Definition rstep (s : rstate) (ch : rchoice) : routcome :=
    match ch with
    | RInvoke t o =>
        match r_pcs s !! t, sstart c o with
        | None, Some pc =>
            let V := tick t (r_view s t) in
            RNext (RSt (r_x s) (r_w s) (<[t := pc]> (r_pcs s)) (set_view (r_view s) t V)) [(Inv t o, V)]
        | _, _ => RDisabled
        end
    | RRun t ts sp addr =>
        match r_pcs s !! t with
        | None => RDisabled
        | Some (PcRet r) =>
            let V := tick t (r_view s t) in
            RNext (RSt (r_x s) (r_w s) (delete t (r_pcs s)) (set_view (r_view s) t V)) [(Res t r, V)]
        | Some pc =>
            match rtstep (r_x s) (r_w s) (r_view s t) pc ts sp addr with
            | RGo x w V pc' => RNext (RSt x w (<[t := pc']> (r_pcs s)) (set_view (r_view s) t V)) []
            | RGRace => RRace
            | RGUB => RUB
            | RGDisabled => RDisabled
            end
        end
    | RSync t u =>
        RNext (RSt (r_x s) (r_w s) (r_pcs s) (set_view (r_view s) u (vjoin (r_view s u) (r_view s t)))) []
    end.

  (** After the constructor; everything that follows happens after it. *)
  Definition rinit (ns : list N) : rstate :=
    let s := sinit c ns in
    RSt (s_sh s) (WMem [] v0 [] v0 (fun _ => []) (fun _ => 0)) ∅ (fun _ => v0).

  Inductive rexec (s0 : rstate) : list (sevent * view) -> rstate -> Prop :=
    | rexec_nil : rexec s0 [] s0
    | rexec_step tr s ch s' evs :
        rexec s0 tr s -> rstep s ch = RNext s' evs -> rexec s0 (tr ++ evs) s'.
End rastack.
