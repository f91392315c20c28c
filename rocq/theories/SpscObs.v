(** * Vocabulary for the properties of spsc_queue *)
From stdpp Require Import gmap list numbers.
From Verif Require Import Lin SpscModel SpscSpec.

(** The code as it is: a buffer of at most 2^63 slots, the memory orders of
    spsc_queue.hpp, clients that call front() only if read_available() has
    promised an element; batch operations on elements with destructors do not
    throw halfway. *)
Definition code_cfg (c : xcfg) : Prop :=
  (0 < x_max c <= 2 ^ 63)%N /\
  (x_acqR c = true /\ x_relW c = true /\ x_acqW c = true /\ x_relR c = true) /\
  (x_triv c = true \/ x_bthrow c = false) /\ x_unchecked c = false.

(** The calls of one thread: the call in progress, and the completed ones with
    their results. *)
Definition tcalls_step {op ret} (t : nat) (st : option op * list (op * ret)) (e : event op ret) :
    option op * list (op * ret) :=
  match e with
  | Lin.Inv u o => if decide (u = t) then (Some o, st.2) else st
  | Res u r =>
      if decide (u = t) then
        match st.1 with Some o => (None, st.2 ++ [(o, r)]) | None => st end
      else st
  end.
Definition tcalls {op ret} (t : nat) (h : list (event op ret)) := foldl (tcalls_step t) (None, []) h.
Definition tpending {op ret} (t : nat) (h : list (event op ret)) : option op := (tcalls t h).1.
Definition tdone {op ret} (t : nat) (h : list (event op ret)) : list (op * ret) := (tcalls t h).2.

Section obs.
  Context {V : Type}.
  Notation xevent := (event (xop V) (xret V)).

  (** What has been pushed and popped by completed calls. *)
  Definition pushed (h : list xevent) : list V := concat ((fun x => pushvals x.1 x.2) <$> tdone 0 h).
  Definition popped (h : list xevent) : list V := concat ((fun x => popvals x.2) <$> tdone 1 h).

  (** The number of elements the consumer may count on: the last answer of
      read_available() less what it has popped since. *)
  Definition promised (h : list xevent) : N := foldl known_after 0%N (tdone 1 h).*2.
  (** The number of places the producer may count on: the last answer of
      write_available() less what it has pushed since. *)
  Definition space_after (k : N) (r : xret V) : N :=
    match r with
    | RNum n => n
    | RBool true => (k - 1)%N
    | RCount n => (k - n)%N
    | _ => k
    end.
  Definition pspace (l : list (xop V * xret V)) : N :=
    foldl (fun k x => match x.1 with OEmpty _ _ => k | _ => space_after k x.2 end) 0%N l.
  Definition room (h : list xevent) : N := pspace (tdone 0 h).

  (** The answer [r] to the consumer's [o] when [k] elements are promised. *)
  Definition keeps (k : N) (o : xop V) (r : xret V) : Prop :=
    match o, r with
    | OPop, RPop None => k = 0%N
    | OPopN n, RList l => (k `min` n <= len l)%N
    | (OPopAll | OAll), RList l => (k <= len l)%N
    | ORAvail, RNum n => (k <= n)%N
    | _, _ => True
    end.
  (** The answer [r] to the producer's [o] when there is room for [k]. *)
  Definition keeps_p (k : N) (o : xop V) (r : xret V) : Prop :=
    match o, r with
    | OPush _, RBool false => k = 0%N
    | OPushN vs, RCount n => (k `min` len vs <= n)%N
    | OWAvail, RNum n => (k <= n)%N
    | _, _ => True
    end.

  (** The answer [r] to [o] is exact for a queue of [z] elements. *)
  Definition exact (cap : N) (o : xop V) (r : xret V) (z : N) : Prop :=
    match o, r with
    | OPush _, RBool b => b = bool_decide (z < cap)%N
    | OPushN vs, RCount k => k = (len vs `min` (cap - z))%N
    | OWAvail, RNum n => n = (cap - z)%N
    | OEmpty _ _, RBool b => b = bool_decide (z = 0%N)
    | OPop, RPop x => match x with None => z = 0%N | Some _ => (0 < z)%N end
    | OPopN n, RList l => len l = (n `min` z)%N
    | (OPopAll | OAll), RList l => len l = z
    | ORAvail, RNum n => n = z
    | _, _ => True
    end.

  Definition th (t : role) (s : xstate V) : thread V := match t with RP => x_prod s | RC => x_cons s end.
  (** The index that only the thread stores to. *)
  Definition own_index (t : role) (s : xstate V) : list msg := match t with RP => x_w s | RC => x_r s end.

  Definition is_invoke (t : role) (x : xrec V) : bool :=
    match t, r_ch x with RP, XInvoke RP _ | RC, XInvoke RC _ => true | _, _ => false end.
  Definition is_run (t : role) (x : xrec V) : bool :=
    match t, r_ch x with RP, XRun RP _ _ | RC, XRun RC _ _ => true | _, _ => false end.

  (** [win] are the steps since thread [t] has called [o] in state [s0], in an
      execution leading to [s]: the call is in progress, or it is the last one
      the thread has made. *)
  Definition window (c : xcfg) (t : role) (o : xop V) (s0 : xstate V) (win : list (xrec V)) (s : xstate V) : Prop :=
    exists w1 h s1, xsteps c xinit (w1 ++ XRec s0 (XInvoke t o) s1 :: win) h s /\
      Forall (fun x => is_invoke t x = false) win.

  (** The loads of [t] return the latest stores: loads always do, or [t] has seen
      them (its own index it always knows). *)
  Definition latest (c : xcfg) (t : role) (s : xstate V) : Prop :=
    x_sc c = true \/
    match t with
    | RP => S (t_sr (x_prod s)) = length (x_r s)
    | RC => S (t_sw (x_cons s)) = length (x_w s)
    end.

  (** The call [o] by [t], made in [s] with no other thread running, returns [r]
      in [s']. *)
  Definition solo_call (c : xcfg) (t : role) (o : xop V) (r : xret V) (s s' : xstate V) : Prop :=
    exists s1 win, xsteps c s (XRec s (XInvoke t o) s1 :: win) [Lin.Inv (tid t) o; Res (tid t) r] s' /\
      Forall (fun x => is_run t x = true) win.

  (** The functional specification of the queue for sequential use. *)
  Definition seqf (cap : N) (q : list V) (o : xop V) : option (xret V * list V) :=
    match o with
    | OPush v => Some (if decide (len q < cap)%N then (RBool true, q ++ [v]) else (RBool false, q))
    | OPushN vs =>
        let k := (len vs `min` (cap - len q))%N in Some (RCount k, q ++ take (N.to_nat k) vs)
    | OWAvail => Some (RNum (cap - len q), q)
    | OEmpty _ _ => Some (RBool (bool_decide (q = [])), q)
    | OPop => Some (match q with [] => (RPop None, []) | x :: q' => (RPop (Some x), q') end)
    | OPopN n => let k := N.to_nat (n `min` len q) in Some (RList (take k q), drop k q)
    | OPopAll | OAll => Some (RList q, [])
    | OFront => match q with [] => None | x :: _ => Some (RFront x, q) end
    | ORAvail => Some (RNum (len q), q)
    | OReset | ODestroy => Some (RUnit, [])
    end.

  (** The bounded FIFO queue.  A batch transfers some of its elements, and none only
      if the queue is full (empty). *)
  Inductive fifo (cap : N) : list V -> xop V -> xret V -> list V -> Prop :=
    | f_push q v : (len q < cap)%N -> fifo cap q (OPush v) (RBool true) (q ++ [v])
    | f_full q v : len q = cap -> fifo cap q (OPush v) (RBool false) q
    | f_pushN q vs k :
        (k <= len vs)%N -> (len q + k <= cap)%N -> (k = 0%N -> vs <> [] -> len q = cap) ->
        fifo cap q (OPushN vs) (RCount k) (q ++ take (N.to_nat k) vs)
    | f_wavail q : fifo cap q OWAvail (RNum (cap - len q)) q
    | f_empty q t b : fifo cap q (OEmpty t b) (RBool (bool_decide (q = []))) q
    | f_pop x q : fifo cap (x :: q) OPop (RPop (Some x)) q
    | f_none : fifo cap [] OPop (RPop None) []
    | f_popN l q n :
        (len l <= n)%N -> (l = [] -> n <> 0%N -> q = []) -> fifo cap (l ++ q) (OPopN n) (RList l) q
    | f_popall o l q :
        o = OPopAll \/ o = OAll -> (l = [] -> q = []) -> fifo cap (l ++ q) o (RList l) q
    | f_front x q : fifo cap (x :: q) OFront (RFront x) (x :: q)
    | f_ravail q : fifo cap q ORAvail (RNum (len q)) q
    | f_reset o q : o = OReset \/ o = ODestroy -> fifo cap q o RUnit []
    | f_throw q o :
        match o with OPush _ | OPushN _ | OPop | OPopN _ | OPopAll | OAll => True | _ => False end ->
        fifo cap q o RThrow q.

  (** The number of own steps of a thread. *)
  Definition own (t : role) (w : list (xrec V)) : N := len (List.filter (is_run t) w).
  (** A bound for them by the batch size; [cap]: the capacity. *)
  Definition steps_bound (cap : N) (o : xop V) : N :=
    match o with
    | OPush _ => 5
    | OPushN vs => 2 * (len vs `min` cap) + 6
    | OWAvail | OEmpty _ _ | OFront | ORAvail => 3
    | OPop => 6
    | OPopN n => 2 * (n `min` cap) + 6
    | OPopAll | OAll | OReset | ODestroy => 2 * cap + 6
    end%N.

  (** The step constructs (destroys) an object in slot [i]. *)
  Definition constructs (i : N) (x : xrec V) : bool :=
    match r_ch x with
    | XRun RP _ false =>
        match t_pc (x_prod (r_pre x)) with
        | Some (P3 _ w _) => (w =? i)%N
        | Some (N3 _ (_ :: _) _ _ j _ _) => (j =? i)%N
        | _ => false
        end
    | _ => false
    end.
  Definition destroys (i : N) (x : xrec V) : bool :=
    match r_ch x with
    | XRun RP _ _ =>
        match t_pc (x_prod (r_pre x)) with
        | Some (NU base j) => (base <? j)%N && (j - 1 =? i)%N
        | _ => false
        end
    | XRun RC _ _ =>
        match t_pc (x_cons (r_pre x)) with
        | Some (C4 r _) => (r =? i)%N
        | Some (B4 _ j _ _ _ _ _) => (j =? i)%N
        | _ => false
        end
    | _ => false
    end.
  Definition alive (s : xstate V) (i : N) : bool :=
    match s_val (slot_at (x_slots s) i) with Some _ => true | None => false end.

  (** The specification if batches had to move as much as possible at the instant
      at which they take effect. *)
  Definition strict (cap : N) (q : list V) (o : xop V) (r : xret V) (q' : list V) : Prop :=
    fifo cap q o r q' /\ exact cap o r (len q).
End obs.
