(** * Specification of spsc_queue

    The abstract state is the sequence of elements, and what the two clients may
    rely on from earlier answers: the consumer on [a_kc] elements (from
    read_available), the producer on [a_kp] free places (from
    write_available).

    [cap]: the capacity.  [sc]: answers are exact; otherwise, under release/acquire
    memory, a call may act on an old view: fail although the queue is not full
    or not empty, or transfer less than there is, or report less. *)
From stdpp Require Import gmap list numbers.
From Verif Require Import Lin SpscModel.

Record aq (V : Type) := AQ { a_q : list V; a_kc : N; a_kp : N }.
Arguments AQ {V} _ _ _.
Arguments a_q {V} _.
Arguments a_kc {V} _.
Arguments a_kp {V} _.

Notation len l := (N.of_nat (length l)).

Inductive xspec {V} (cap : N) (sc : bool) : aq V -> xop V -> xret V -> aq V -> Prop :=
  | xs_push q kc kp v :
      (len q < cap)%N ->
      xspec cap sc (AQ q kc kp) (OPush v) (RBool true) (AQ (q ++ [v]) kc (kp - 1))
  | xs_full q kc v :
      (sc = true -> len q = cap) ->
      xspec cap sc (AQ q kc 0) (OPush v) (RBool false) (AQ q kc 0)
  | xs_pushN q kc kp vs k :
      (k <= len vs)%N -> (len q + k <= cap)%N -> (kp `min` len vs <= k)%N ->
      (k = 0%N -> vs <> [] -> sc = true -> len q = cap) ->
      xspec cap sc (AQ q kc kp) (OPushN vs) (RCount k) (AQ (q ++ take (N.to_nat k) vs) kc (kp - k))
  | xs_wavail q kc kp n :
      (kp <= n)%N -> (len q + n <= cap)%N -> (sc = true -> len q + n = cap)%N ->
      xspec cap sc (AQ q kc kp) OWAvail (RNum n) (AQ q kc n)
  | xs_empty a t b x :
      (sc = true -> x = bool_decide (a_q a = [])) ->
      (t = RP -> x = true -> a_q a = []) -> (t = RC -> x = false -> a_q a <> []) ->
      xspec cap sc a (OEmpty t b) (RBool x) a
  | xs_pop q kc kp x :
      xspec cap sc (AQ (x :: q) kc kp) OPop (RPop (Some x)) (AQ q (kc - 1) kp)
  | xs_none q kp :
      (sc = true -> q = []) ->
      xspec cap sc (AQ q 0 kp) OPop (RPop None) (AQ q 0 kp)
  | xs_popN l q kc kp n :
      (len l <= n)%N -> (kc `min` n <= len l)%N ->
      (l = [] -> n <> 0%N -> sc = true -> q = []) ->
      xspec cap sc (AQ (l ++ q) kc kp) (OPopN n) (RList l) (AQ q (kc - len l) kp)
  | xs_popall o l q kc kp :
      o = OPopAll \/ o = OAll ->
      (kc <= len l)%N -> (l = [] -> sc = true -> q = []) ->
      xspec cap sc (AQ (l ++ q) kc kp) o (RList l) (AQ q (kc - len l) kp)
  | xs_front q kc kp x :
      (0 < kc)%N ->
      xspec cap sc (AQ (x :: q) kc kp) OFront (RFront x) (AQ (x :: q) kc kp)
  | xs_ravail q kc kp n :
      (kc <= n)%N -> (n <= len q)%N -> (sc = true -> n = len q) ->
      xspec cap sc (AQ q kc kp) ORAvail (RNum n) (AQ q n kp)
  | xs_reset o q kc kp :
      o = OReset \/ o = ODestroy ->
      xspec cap sc (AQ q kc kp) o RUnit (AQ [] 0 kp)
  | xs_throw a o :
      match o with OPush _ | OPushN _ | OPop | OPopN _ | OPopAll | OAll => True | _ => False end ->
      xspec cap sc a o RThrow a.

(** Initially the queue is empty. *)
Definition xs_init {V} : aq V := AQ [] 0 0.

(** ** Vocabulary *)

(** The values the consumer gets by a response. *)
Definition popvals {V} (r : xret V) : list V :=
  match r with RPop (Some x) => [x] | RList l => l | _ => [] end.
(** The values a push with a given response has put into the queue. *)
Definition pushvals {V} (o : xop V) (r : xret V) : list V :=
  match o, r with
  | OPush v, RBool true => [v]
  | OPushN vs, RCount k => take (N.to_nat k) vs
  | _, _ => []
  end.

(** No call in progress. *)
Definition xquiet {V} (s : xstate V) : Prop := t_pc (x_prod s) = None /\ t_pc (x_cons s) = None.

(** The latest values of the indices, and the number of elements between them. *)
Definition lastv (h : list msg) : N := match h !! pred (length h) with Some m => m_val m | None => 0%N end.
Definition xsize {V} (c : xcfg) (s : xstate V) : N :=
  ((lastv (x_w s) + x_max c - lastv (x_r s)) mod x_max c)%N.
(** The elements in the buffer (when no call is in progress). *)
Definition xcontents {V} (c : xcfg) (s : xstate V) (q : list V) : Prop :=
  len q = xsize c s /\
  forall j x, q !! j = Some x ->
    s_val (slot_at (x_slots s) ((lastv (x_r s) + N.of_nat j) mod x_max c)) = Some x.
