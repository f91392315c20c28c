(** * Model of spsc_queue (include/boost/lockfree/spsc_queue.hpp)

    One producer and one consumer under release/acquire memory.  The two
    indices are atomic locations whose stores form a history; a load may return
    any store that is not older than what the thread has already seen of that
    location (stale reads).  An acquire load that returns a release store takes
    over the views of the storing thread.  The buffer's slots are ordinary
    memory: every access is checked, with vector clocks, for a happens-before
    edge from all conflicting earlier accesses by the other thread.

    Simplifications:
    - every index is stored to by one thread only, so a store always comes last in
      the modification order; no promises (relaxed loads occur only for a
      thread's own index and in [empty]);
    - a relaxed store does not continue a release sequence (there are no relaxed stores
      during concurrent use);
    - ranges and arrays are given as lists (std::distance is exact);
    - [reset] and the destructor are "not thread-safe": they run with no other call in
      progress and synchronize with the calls before and after;
    - addresses are offsets into the buffer. *)
From stdpp Require Import gmap list numbers.
From Verif Require Import Lin.

(** ** Index arithmetic: std::size_t is 64 bits wide and unsigned *)

Definition w64 : N := (2 ^ 64)%N.
Definition add64 (x y : N) : N := ((x + y) mod w64)%N.
Definition sub64 (x y : N) : N := ((x + w64 - y) mod w64)%N.

(** The loop of next_index (lines 68-69); [None]: more than [fuel] iterations. *)
Fixpoint next_loop (fuel : nat) (ret max_size : N) : option N :=
  if (max_size <=? ret)%N then
    match fuel with
    | O => None
    | S fuel => next_loop fuel (sub64 ret max_size) max_size
    end
  else Some ret.
(** next_index (65-71), allowing one iteration. *)
Definition next_index (arg max_size : N) : option N :=
  next_loop 1 (add64 arg 1) max_size.

(** read_available (73-80) *)
Definition read_available (write_index read_index max_size : N) : N :=
  if (read_index <=? write_index)%N then sub64 write_index read_index
  else sub64 (add64 write_index max_size) read_index.

(** write_available (82-88) *)
Definition write_available (write_index read_index max_size : N) : N :=
  let ret := sub64 (sub64 read_index write_index) 1 in
  if (read_index <=? write_index)%N then add64 ret max_size else ret.

(** Where a batch of [count] elements starting at slot [i] lies, and the index
    behind it: (133-156, 208-224, 278-293, 310-324).
    The end of the first section, the end of the second section (if there is
    one), and the new index. *)
Definition sections (i count max_size : N) : N * option N * N :=
  let new_index := add64 i count in
  if (max_size <? add64 i count)%N then
    let count0 := sub64 max_size i in
    let count1 := sub64 count count0 in
    (max_size, Some count1, sub64 new_index max_size)
  else
    (add64 i count, None, if (new_index =? max_size)%N then 0%N else new_index).

(** ** Parameters *)
Record xcfg := XCfg {
  x_max : N;          (* max_size: capacity + 1 *)
  x_triv : bool;      (* T's destructor is trivial *)
  x_bthrow : bool;    (* in batch operations, functors and copies may throw (where this is critical) *)
  x_sc : bool;        (* loads return the latest store (interleaving semantics) *)
  x_unchecked : bool; (* front() may be called without asking read_available() *)
  x_acqR : bool;      (* the producer's loads of read_index_ are acquire *)
  x_relW : bool;      (* the producer's stores to write_index_ are release *)
  x_acqW : bool;      (* the consumer's loads of write_index_ are acquire *)
  x_relR : bool;      (* the consumer's stores to read_index_ are release *)
}.

Inductive role := RP | RC.
Definition tid (t : role) : nat := match t with RP => 0 | RC => 1 end.

Section machine.
  Context {V : Type}.

  Inductive xop :=
    | OPush (v : V)           (* push(t) *)
    | OPushN (vs : list V)    (* push(array,n), push(begin,end) *)
    | OWAvail                 (* write_available() *)
    | OEmpty (t : role) (rfirst : bool) (* empty(); the order of the two loads is unspecified *)
    | OPop                    (* pop(), pop(ret), consume_one(f) *)
    | OPopN (n : N)           (* pop(array,n) *)
    | OPopAll                 (* pop(output iterator) *)
    | OAll                    (* consume_all(f) *)
    | OFront                  (* front() *)
    | ORAvail                 (* read_available() *)
    | OReset                  (* reset() *)
    | ODestroy.               (* the destructor *)

  Inductive xret :=
    | RBool (b : bool)
    | RCount (k : N)          (* number of elements pushed *)
    | RNum (n : N)            (* read_available, write_available *)
    | RPop (x : option V)     (* false, or true and the element *)
    | RList (l : list V)      (* the elements, in the order in which they were passed on *)
    | RFront (x : V)
    | RUnit
    | RThrow.                 (* an exception of T's copy or of the functor *)

  Notation xevent := (event xop xret).

  (** The kinds of batch consumption. *)
  Inductive bkind := KPop (n : N) | KPopAll | KAll | KReset | KDestroy.
  (** consume_all runs a functor; pop copies. *)
  Definition b_functor (k : bkind) : bool :=
    match k with KPop _ | KPopAll => false | _ => true end.
  (** reset and the destructor use consume_noop, which does not throw. *)
  Definition b_user (k : bkind) : bool :=
    match k with KReset | KDestroy => false | _ => true end.

  Inductive xpc :=
    (* push(t): 104-117 *)
    | P1 (v : V)                     (* 106: write_index_.load(relaxed) *)
    | P2 (v : V) (w : N)             (* 107-109: next_index; read_index_.load(acquire) *)
    | P3 (v : V) (w next : N)        (* 112: construct *)
    | P4 (next : N)                  (* 114: write_index_.store(release) *)
    (* push(begin,end): 125-160 *)
    | N1 (vs : list V)               (* 129 *)
    | N2 (vs : list V) (w : N)       (* 130-142 *)
    | N3 (second : bool) (vs rest : list V) (base i : N) (k nw : N)
        (* 149-150,153: uninitialized_copy has reached slot [i] of the section
           beginning at [base], [vs] is left in it, [rest] is the next section *)
    | NU (base i : N)                (* uninitialized_copy destroys what it has constructed *)
    | N4 (k nw : N)                  (* 158: store *)
    (* write_available(): 97-102 *)
    | A1 | A2 (w : N)
    (* empty(): 367-370 *)
    | E1 (rfirst : bool) | E2 (rfirst : bool) (x : N)
    (* consume_one: 163-194 *)
    | C1                             (* 165: write_index_.load(acquire) *)
    | C2 (w : N)                     (* 166-168 *)
    | C3 (r : N)                     (* 171: functor *)
    | C4 (r : N) (x : V)             (* 172-174: destructor; next_index *)
    | C5 (nr : N) (x : V)            (* 175: read_index_.store(release) *)
    (* consume_all, pop, pop_to_output_iterator: 197-328 *)
    | B1 (kd : bkind)
    | B2 (kd : bkind) (w : N)
    | B3 (kd : bkind) (i e : N) (e2 : option N) (nr : N) (acc : list V)
        (* 388-417: [first] = i, [last] = e *)
    | B4 (kd : bkind) (i e : N) (e2 : option N) (nr : N) (acc : list V) (x : V)
        (* the destructor of slot [i] *)
    | B5 (kd : bkind) (nr : N) (acc : list V)
    (* front(): 330-340 *)
    | F1 | F2 (r : N)
    (* read_available(): 90-95 *)
    | V1 | V2 (w : N)
    (* reset() for trivial destructors: 357-358 *)
    | S1
    | XRet (r : xret).

  (** ** Memory *)

  (** A store to an index: the value, whether it is a release store, and the
      storing thread's views: the stores it has seen of the two indices, and its
      vector clock. *)
  Record msg := Msg { m_val : N; m_rel : bool; m_sw : nat; m_sr : nat; m_p : N; m_c : N }.

  (** A slot: the object in it, if any, and the clocks of the last write and
      the last read by the producer and by the consumer. *)
  Record slot := Slot { s_val : option V; s_wp : N; s_wc : N; s_rp : N; s_rc : N }.
  Definition raw : slot := Slot None 0 0 0 0.

  Record thread := Thread { t_sw : nat; t_sr : nat; t_p : N; t_c : N; t_pc : option xpc }.

  Record xstate := XSt {
    x_w : list msg;               (* write_index_ *)
    x_r : list msg;               (* read_index_ *)
    x_slots : gmap N slot;        (* the buffer *)
    x_prod : thread;
    x_cons : thread;
    x_known : N;                  (* so many elements the consumer knows of from read_available() *)
    x_excl : option bool;         (* reset (false) or destructor (true) in progress *)
    x_dead : bool;                (* destroyed *)
  }.

  Inductive xerr :=
    | ERace       (* data race on a slot *)
    | EDead       (* access to or destruction of an object that does not exist *)
    | EAlive      (* construction over an object that has not been destroyed *)
    | ERange      (* slot outside the buffer *)
    | EHang.      (* next_index iterates more than once *)

  Inductive xoutcome :=
    | XNext (s : xstate) (evs : list xevent)
    | XErr (e : xerr)
    | XDisabled.

  Definition slot_at (sl : gmap N slot) (i : N) : slot := default raw (sl !! i).

  Definition set_pc (th : thread) (pc : xpc) : thread :=
    Thread (t_sw th) (t_sr th) (t_p th) (t_c th) (Some pc).

  Definition join_msg (th : thread) (m : msg) : thread :=
    Thread (t_sw th `max` m_sw m) (t_sr th `max` m_sr m)
           (t_p th `max` m_p m) (t_c th `max` m_c m) (t_pc th).

  (** Loading the [k]-th store to the write index. *)
  Definition load_w (sc acq : bool) (k : nat) (ws : list msg) (th : thread) : option (N * thread) :=
    match ws !! k with
    | None => None
    | Some m =>
        if decide (t_sw th <= k /\ (sc = true -> S k = length ws)) then
          let th' := Thread k (t_sr th) (t_p th) (t_c th) (t_pc th) in
          Some (m_val m, if acq && m_rel m then join_msg th' m else th')
        else None
    end.
  Definition load_r (sc acq : bool) (k : nat) (rs : list msg) (th : thread) : option (N * thread) :=
    match rs !! k with
    | None => None
    | Some m =>
        if decide (t_sr th <= k /\ (sc = true -> S k = length rs)) then
          let th' := Thread (t_sw th) k (t_p th) (t_c th) (t_pc th) in
          Some (m_val m, if acq && m_rel m then join_msg th' m else th')
        else None
    end.

  Definition store_w (rel : bool) (x : N) (ws : list msg) (th : thread) : list msg * thread :=
    (ws ++ [Msg x rel (length ws) (t_sr th) (t_p th) (t_c th)],
     Thread (length ws) (t_sr th) (t_p th) (t_c th) (t_pc th)).
  Definition store_r (rel : bool) (x : N) (rs : list msg) (th : thread) : list msg * thread :=
    (rs ++ [Msg x rel (t_sw th) (length rs) (t_p th) (t_c th)],
     Thread (t_sw th) (length rs) (t_p th) (t_c th) (t_pc th)).

  (** An access to a slot by the producer: to construct or destroy. *)
  Definition acc_p (sl : slot) (th : thread) (v : option V) : option (slot * thread) :=
    if decide (s_wc sl <= t_c th /\ s_rc sl <= t_c th)%N then
      let p := (t_p th + 1)%N in
      Some (Slot v p (s_wc sl) (s_rp sl) (s_rc sl),
            Thread (t_sw th) (t_sr th) p (t_c th) (t_pc th))
    else None.
  (** An access by the consumer; [wr]: a write. *)
  Definition acc_c (wr : bool) (sl : slot) (th : thread) (v : option V) : option (slot * thread) :=
    if decide (s_wp sl <= t_p th /\ (wr = true -> s_rp sl <= t_p th))%N then
      let k := (t_c th + 1)%N in
      Some (Slot v (s_wp sl) (if wr then k else s_wc sl) (s_rp sl) (if wr then s_rc sl else k),
            Thread (t_sw th) (t_sr th) (t_p th) k (t_pc th))
    else None.

  Context (c : xcfg).

  (** One step of the producer; [k]: which store a load returns, [thr]: a copy
      throws.  Result: the new histories, slots, thread. *)
  Inductive tout :=
    | TNext (ws rs : list msg) (sl : gmap N slot) (th : thread)
    | TErr (e : xerr)
    | TDisabled.

  (** Construction in slot [i], then [f]. *)
  Definition construct (sl : gmap N slot) (th : thread) (i : N) (v : V)
      (f : gmap N slot -> thread -> tout) : tout :=
    if decide (x_max c <= i)%N then TErr ERange
    else match x_triv c, s_val (slot_at sl i) with
         | false, Some _ => TErr EAlive
         | _, _ =>
             match acc_p (slot_at sl i) th (Some v) with
             | None => TErr ERace
             | Some (x, th') => f (<[i := x]> sl) th'
             end
         end.

  Definition pstep (ws rs : list msg) (sl : gmap N slot) (th : thread) (pc : xpc) (k : nat) (thr : bool) : tout :=
    match pc with
    | P1 v =>
        match load_w (x_sc c) false k ws th with
        | Some (w, th') => TNext ws rs sl (set_pc th' (P2 v w))
        | None => TDisabled
        end
    | P2 v w =>
        match next_index w (x_max c) with
        | None => TErr EHang
        | Some next =>
            match load_r (x_sc c) (x_acqR c) k rs th with
            | Some (r, th') =>
                TNext ws rs sl (set_pc th' (if decide (next = r) then XRet (RBool false) else P3 v w next))
            | None => TDisabled
            end
        end
    | P3 v w next =>
        if thr then TNext ws rs sl (set_pc th (XRet RThrow))
        else construct sl th w v (fun sl' th' => TNext ws rs sl' (set_pc th' (P4 next)))
    | P4 next =>
        let '(ws', th') := store_w (x_relW c) next ws th in
        TNext ws' rs sl (set_pc th' (XRet (RBool true)))
    | N1 vs =>
        match load_w (x_sc c) false k ws th with
        | Some (w, th') => TNext ws rs sl (set_pc th' (N2 vs w))
        | None => TDisabled
        end
    | N2 vs w =>
        match load_r (x_sc c) (x_acqR c) k rs th with
        | None => TDisabled
        | Some (r, th') =>
            let avail := write_available w r (x_max c) in
            if (avail =? 0)%N then TNext ws rs sl (set_pc th' (XRet (RCount 0)))
            else
              let count := (N.of_nat (length vs) `min` avail)%N in
              let input := take (N.to_nat count) vs in
              let '(_, e2, nw) := sections w count (x_max c) in
              let n0 := match e2 with
                        | None => length input
                        | Some _ => N.to_nat (sub64 (x_max c) w)
                        end in
              TNext ws rs sl (set_pc th' (N3 false (take n0 input) (drop n0 input) w w count nw))
        end
    | N3 second [] [] base i count nw => TNext ws rs sl (set_pc th (N4 count nw))
    | N3 second [] rest base i count nw => TNext ws rs sl (set_pc th (N3 true rest [] 0 0 count nw))
    | N3 second (v :: vs) rest base i count nw =>
        if thr then
          (* an exception in the second section of a type with destructor loses the
             first section: only if x_bthrow *)
          if second && negb (x_triv c) && negb (x_bthrow c) then TDisabled
          else TNext ws rs sl (set_pc th (if x_triv c then XRet RThrow else NU base i))
        else construct sl th i v (fun sl' th' => TNext ws rs sl' (set_pc th' (N3 second vs rest base (i + 1) count nw)))
    | NU base i =>
        if decide (i <= base)%N then TNext ws rs sl (set_pc th (XRet RThrow))
        else
          match s_val (slot_at sl (i - 1)) with
          | None => TErr EDead
          | Some _ =>
              match acc_p (slot_at sl (i - 1)) th None with
              | None => TErr ERace
              | Some (x, th') => TNext ws rs (<[(i - 1)%N := x]> sl) (set_pc th' (NU base (i - 1)))
              end
          end
    | N4 count nw =>
        let '(ws', th') := store_w (x_relW c) nw ws th in
        TNext ws' rs sl (set_pc th' (XRet (RCount count)))
    | A1 =>
        match load_w (x_sc c) false k ws th with
        | Some (w, th') => TNext ws rs sl (set_pc th' (A2 w))
        | None => TDisabled
        end
    | A2 w =>
        match load_r (x_sc c) (x_acqR c) k rs th with
        | Some (r, th') => TNext ws rs sl (set_pc th' (XRet (RNum (write_available w r (x_max c)))))
        | None => TDisabled
        end
    | _ => TDisabled
    end.

  (** empty(), by either thread *)
  Definition estep (ws rs : list msg) (sl : gmap N slot) (th : thread) (pc : xpc) (k : nat) : tout :=
    match pc with
    | E1 false =>
        match load_w (x_sc c) false k ws th with
        | Some (w, th') => TNext ws rs sl (set_pc th' (E2 false w))
        | None => TDisabled
        end
    | E1 true =>
        match load_r (x_sc c) false k rs th with
        | Some (r, th') => TNext ws rs sl (set_pc th' (E2 true r))
        | None => TDisabled
        end
    | E2 false w =>
        match load_r (x_sc c) false k rs th with
        | Some (r, th') => TNext ws rs sl (set_pc th' (XRet (RBool (bool_decide (w = r)))))
        | None => TDisabled
        end
    | E2 true r =>
        match load_w (x_sc c) false k ws th with
        | Some (w, th') => TNext ws rs sl (set_pc th' (XRet (RBool (bool_decide (w = r)))))
        | None => TDisabled
        end
    | _ => TDisabled
    end.

  (** The consumer looks at the object in slot [i] (by a functor, which may write
      to it, or by copying it), then [f]. *)
  Definition consume (wr : bool) (sl : gmap N slot) (th : thread) (i : N)
      (f : gmap N slot -> thread -> V -> tout) : tout :=
    if decide (x_max c <= i)%N then TErr ERange
    else match s_val (slot_at sl i) with
         | None => TErr EDead
         | Some x =>
             match acc_c wr (slot_at sl i) th (Some x) with
             | None => TErr ERace
             | Some (y, th') => f (<[i := y]> sl) th' x
             end
         end.
  (** The destructor of the object in slot [i], then [f]. *)
  Definition destroy (sl : gmap N slot) (th : thread) (i : N) (f : gmap N slot -> thread -> tout) : tout :=
    if x_triv c then f sl th
    else match s_val (slot_at sl i) with
         | None => TErr EDead
         | Some x =>
             match acc_c true (slot_at sl i) th None with
             | None => TErr ERace
             | Some (y, th') => f (<[i := y]> sl) th'
             end
         end.

  Definition b_result (kd : bkind) (acc : list V) : xret := if b_user kd then RList acc else RUnit.

  Definition cstep (ws rs : list msg) (sl : gmap N slot) (th : thread) (pc : xpc) (k : nat) (thr : bool) : tout :=
    match pc with
    | C1 =>
        match load_w (x_sc c) (x_acqW c) k ws th with
        | Some (w, th') => TNext ws rs sl (set_pc th' (C2 w))
        | None => TDisabled
        end
    | C2 w =>
        match load_r (x_sc c) false k rs th with
        | Some (r, th') => TNext ws rs sl (set_pc th' (if decide (w = r) then XRet (RPop None) else C3 r))
        | None => TDisabled
        end
    | C3 r =>
        consume true sl th r
          (fun sl' th' x => TNext ws rs sl' (set_pc th' (if thr then XRet RThrow else C4 r x)))
    | C4 r x =>
        destroy sl th r
          (fun sl' th' => match next_index r (x_max c) with
                          | None => TErr EHang
                          | Some nr => TNext ws rs sl' (set_pc th' (C5 nr x))
                          end)
    | C5 nr x =>
        let '(rs', th') := store_r (x_relR c) nr rs th in
        TNext ws rs' sl (set_pc th' (XRet (RPop (Some x))))
    | B1 kd =>
        match load_w (x_sc c) (x_acqW c) k ws th with
        | Some (w, th') => TNext ws rs sl (set_pc th' (B2 kd w))
        | None => TDisabled
        end
    | B2 kd w =>
        match load_r (x_sc c) false k rs th with
        | None => TDisabled
        | Some (r, th') =>
            let avail := read_available w r (x_max c) in
            if (avail =? 0)%N then TNext ws rs sl (set_pc th' (XRet (b_result kd [])))
            else
              let count := match kd with KPop n => (n `min` avail)%N | _ => avail end in
              let '(e, e2, nr) := sections r count (x_max c) in
              TNext ws rs sl (set_pc th' (B3 kd r e e2 nr []))
        end
    | B3 kd i e e2 nr acc =>
        if decide (i = e) then
          match e2 with
          | Some e' => TNext ws rs sl (set_pc th (B3 kd 0 e' None nr acc))
          | None => TNext ws rs sl (set_pc th (B5 kd nr acc))
          end
        else
          consume (b_functor kd) sl th i
            (fun sl' th' x =>
               if thr then
                 if b_user kd && (x_triv c || x_bthrow c) then TNext ws rs sl' (set_pc th' (XRet RThrow))
                 else TDisabled
               else TNext ws rs sl' (set_pc th' (B4 kd i e e2 nr acc x)))
    | B4 kd i e e2 nr acc x =>
        destroy sl th i (fun sl' th' => TNext ws rs sl' (set_pc th' (B3 kd (i + 1) e e2 nr (acc ++ [x]))))
    | B5 kd nr acc =>
        let '(rs', th') := store_r (x_relR c) nr rs th in
        TNext ws rs' sl (set_pc th' (XRet (b_result kd acc)))
    | F1 =>
        match load_r (x_sc c) false k rs th with
        | Some (r, th') => TNext ws rs sl (set_pc th' (F2 r))
        | None => TDisabled
        end
    | F2 r => consume true sl th r (fun sl' th' x => TNext ws rs sl' (set_pc th' (XRet (RFront x))))
    | V1 =>
        match load_w (x_sc c) (x_acqW c) k ws th with
        | Some (w, th') => TNext ws rs sl (set_pc th' (V2 w))
        | None => TDisabled
        end
    | V2 w =>
        match load_r (x_sc c) false k rs th with
        | Some (r, th') => TNext ws rs sl (set_pc th' (XRet (RNum (read_available w r (x_max c)))))
        | None => TDisabled
        end
    | _ => TDisabled
    end.

  (** ** The whole machine *)

  Inductive xchoice :=
    | XInvoke (t : role) (o : xop)
    | XRun (t : role) (k : nat) (thr : bool)
    | XSync.      (* with no call in progress, the two threads synchronize otherwise *)

  Definition join_threads (a b : thread) (pc : option xpc) : thread :=
    Thread (t_sw a `max` t_sw b) (t_sr a `max` t_sr b) (t_p a `max` t_p b) (t_c a `max` t_c b) pc.

  Definition xstart (t : role) (o : xop) : option xpc :=
    match t, o with
    | RP, OPush v => Some (P1 v)
    | RP, OPushN vs => Some (N1 vs)
    | RP, OWAvail => Some A1
    | RP, OEmpty RP b => Some (E1 b)
    | RC, OEmpty RC b => Some (E1 b)
    | RC, OPop => Some C1
    | RC, OPopN n => Some (B1 (KPop n))
    | RC, OPopAll => Some (B1 KPopAll)
    | RC, OAll => Some (B1 KAll)
    | RC, OFront => Some F1
    | RC, ORAvail => Some V1
    | RC, OReset => Some (if x_triv c then S1 else B1 KReset)
    | RC, ODestroy => Some (B1 KDestroy)
    | _, _ => None
    end.

  Definition exclusive (o : xop) : option bool :=
    match o with OReset => Some false | ODestroy => Some true | _ => None end.

  (** What the consumer knows after a call that returns [r]. *)
  Definition known_after (o : N) (r : xret) : N :=
    match r with
    | RNum n => n
    | RPop (Some _) => (o - 1)%N
    | RList l => (o - N.of_nat (length l))%N
    | RUnit => 0%N
    | _ => o
    end.

  Definition may_start (s : xstate) (o : xop) : bool :=
    match o with
    | OFront => x_unchecked c || (0 <? x_known s)%N
    | _ => true
    end.

  Definition lift (s : xstate) (t : role) (o : tout) : xoutcome :=
    match o with
    | TNext ws rs sl th =>
        XNext (match t with
               | RP => XSt ws rs sl th (x_cons s) (x_known s) (x_excl s) (x_dead s)
               | RC => XSt ws rs sl (x_prod s) th (x_known s) (x_excl s) (x_dead s)
               end) []
    | TErr e => XErr e
    | TDisabled => XDisabled
    end.

  Definition idle (th : thread) : thread := Thread (t_sw th) (t_sr th) (t_p th) (t_c th) None.

  Definition xstep (s : xstate) (ch : xchoice) : xoutcome :=
    if x_dead s then XDisabled else
    match ch with
    | XInvoke RP o =>
        match t_pc (x_prod s), x_excl s, xstart RP o with
        | None, None, Some pc =>
            XNext (XSt (x_w s) (x_r s) (x_slots s) (set_pc (x_prod s) pc) (x_cons s) (x_known s) None false)
                  [Inv (tid RP) o]
        | _, _, _ => XDisabled
        end
    | XInvoke RC o =>
        match t_pc (x_cons s), xstart RC o with
        | None, Some pc =>
            if may_start s o then
              match exclusive o with
              | None =>
                  XNext (XSt (x_w s) (x_r s) (x_slots s) (x_prod s) (set_pc (x_cons s) pc) (x_known s) None false)
                        [Inv (tid RC) o]
              | Some d =>
                  match t_pc (x_prod s) with
                  | None =>
                      XNext (XSt (x_w s) (x_r s) (x_slots s) (x_prod s)
                                 (join_threads (x_cons s) (x_prod s) (Some pc)) (x_known s) (Some d) false)
                            [Inv (tid RC) o]
                  | Some _ => XDisabled
                  end
              end
            else XDisabled
        | _, _ => XDisabled
        end
    | XRun RP k thr =>
        match t_pc (x_prod s) with
        | None => XDisabled
        | Some (XRet r) =>
            XNext (XSt (x_w s) (x_r s) (x_slots s) (idle (x_prod s)) (x_cons s) (x_known s) (x_excl s) false)
                  [Res (tid RP) r]
        | Some (E1 b) => lift s RP (estep (x_w s) (x_r s) (x_slots s) (x_prod s) (E1 b) k)
        | Some (E2 b x) => lift s RP (estep (x_w s) (x_r s) (x_slots s) (x_prod s) (E2 b x) k)
        | Some pc => lift s RP (pstep (x_w s) (x_r s) (x_slots s) (x_prod s) pc k thr)
        end
    | XRun RC k thr =>
        match t_pc (x_cons s) with
        | None => XDisabled
        | Some (XRet r) =>
            match x_excl s with
            | None =>
                XNext (XSt (x_w s) (x_r s) (x_slots s) (x_prod s) (idle (x_cons s)) (known_after (x_known s) r) None false)
                      [Res (tid RC) r]
            | Some d =>
                XNext (XSt (x_w s) (x_r s) (x_slots s) (join_threads (x_prod s) (x_cons s) None) (idle (x_cons s))
                           (known_after (x_known s) r) None d)
                      [Res (tid RC) r]
            end
        | Some (E1 b) => lift s RC (estep (x_w s) (x_r s) (x_slots s) (x_cons s) (E1 b) k)
        | Some (E2 b x) => lift s RC (estep (x_w s) (x_r s) (x_slots s) (x_cons s) (E2 b x) k)
        | Some S1 =>
            (* both indices are set to 0; nothing can happen in between *)
            let '(ws, th1) := store_w false 0 (x_w s) (x_cons s) in
            let '(rs, th2) := store_r true 0 (x_r s) th1 in
            XNext (XSt ws rs (x_slots s) (join_threads (x_prod s) th2 None) (set_pc th2 (XRet RUnit))
                       (x_known s) (x_excl s) false) []
        | Some pc => lift s RC (cstep (x_w s) (x_r s) (x_slots s) (x_cons s) pc k thr)
        end
    | XSync =>
        match t_pc (x_prod s), t_pc (x_cons s) with
        | None, None =>
            XNext (XSt (x_w s) (x_r s) (x_slots s) (join_threads (x_prod s) (x_cons s) None)
                       (join_threads (x_cons s) (x_prod s) None) (x_known s) (x_excl s) false) []
        | _, _ => XDisabled
        end
    end.

  (** Construction (59-62): both indices are 0; the constructor happens before everything. *)
  Definition xinit : xstate :=
    XSt [Msg 0 true 0 0 0 0] [Msg 0 true 0 0 0 0] ∅ (Thread 0 0 0 0 None) (Thread 0 0 0 0 None) 0 None false.

  (** Executions, with the steps made. *)
  Record xrec := XRec { r_pre : xstate; r_ch : xchoice; r_post : xstate }.

  Inductive xsteps (s0 : xstate) : list xrec -> list xevent -> xstate -> Prop :=
    | xsteps_nil : xsteps s0 [] [] s0
    | xsteps_cons w hist s ch s' evs :
        xsteps s0 w hist s -> xstep s ch = XNext s' evs ->
        xsteps s0 (w ++ [XRec s ch s']) (hist ++ evs) s'.

  Definition xreach (hist : list xevent) (s : xstate) : Prop := exists w, xsteps xinit w hist s.

  Fixpoint xrun (s : xstate) (chs : list xchoice) : option (list xevent * xstate) :=
    match chs with
    | [] => Some ([], s)
    | ch :: chs =>
        match xstep s ch with
        | XNext s' evs =>
            match xrun s' chs with
            | Some (h, s'') => Some (evs ++ h, s'')
            | None => None
            end
        | _ => None
        end
    end.
End machine.
Arguments xop V : clear implicits.
Arguments xret V : clear implicits.
Arguments xpc V : clear implicits.
Arguments xstate V : clear implicits.
Arguments xchoice V : clear implicits.
Arguments xoutcome V : clear implicits.
Arguments xrec V : clear implicits.
Arguments slot V : clear implicits.
Arguments thread V : clear implicits.
Arguments tout V : clear implicits.
