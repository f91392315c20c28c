(** Properties C28-C35 and C41: spsc_queue.

    [code_cfg c]: the memory orders of the code, a buffer of at most 2^63 slots,
    no front() without a promise of read_available(), and no exceptions in the
    middle of batch operations on elements with destructors (for these see C33,
    C35).  [x_sc c = true] is interleaving semantics; otherwise loads may return
    old values (release/acquire).  The capacity is [x_max c - 1].  Thread 0 is
    the producer, thread 1 the consumer. *)
From stdpp Require Import gmap list numbers.
From Verif Require Import Lin SpscModel SpscSpec SpscObs SpscHist SpscLife SpscMain SpscDemo SpscWitness.

(** C28.  Every history is linearizable with respect to the bounded FIFO queue;
    between calls, its abstract contents are what is in the buffer. *)
Theorem C28_spsc_linearizable {V} c h (s : xstate V) :
  code_cfg c -> x_sc c = true -> xreach c h s ->
  hw_linearizable [] (fifo (x_max c - 1)) h /\
  exists l ph q, lruns (fifo (x_max c - 1)) ∅ [] l ph q /\ erase l = h /\ (xquiet s -> xcontents c s q).
Proof. exact (fun H => fifo_main c H h s). Qed.
Print Assumptions C28_spsc_linearizable.

Example C28_nonvacuous :
  code_cfg xdemoS /\ x_sc xdemoS = true /\ exists s, xreach xdemoS xhist2 s /\ xsize xdemoS s = 0%N.
Proof. exact (conj (code_demo 4 false true ltac:(done)) (conj eq_refl xdemo_batch)). Qed.

(** Every answer of a call - push succeeds or fails, how many elements are
    moved - is exact for the number of elements in the queue at an instant of
    the call before the call takes effect. *)
Theorem C28_spsc_answers_exact {V} c t o s0 win (s : xstate V) r :
  code_cfg c -> x_sc c = true -> window c t o s0 win s -> t_pc (th t s) = Some (XRet r) ->
  exists x, x ∈ win /\ own_index t (r_pre x) = own_index t s0 /\
    exact (x_max c - 1) o r (xsize c (r_pre x)).
Proof. exact (fun H => exact_main c H t o s0 win s r). Qed.
Print Assumptions C28_spsc_answers_exact.

Example C28_exact_nonvacuous :
  exists s0 win s, window xdemoS RP (OPushN [5; 6; 7]%N) s0 win s /\ t_pc (th RP s) = Some (XRet (RCount 2)).
Proof. exact xdemo_window. Qed.

(** That instant is not the one at which the batch takes effect: with the specification
    that a batch moves as much as is possible when it takes effect, histories
    are not linearizable. *)
Theorem C28_spsc_batch_atomic_refuted :
  exists c h, code_cfg c /\ x_sc c = true /\ (exists s, xreach c h s) /\
    ~ hw_linearizable [] (strict (V := N) (x_max c - 1)) h.
Proof. exact (ex_intro _ xdemo2 (ex_intro _ xhist5 (conj (code_demo 3 false true ltac:(done)) (conj eq_refl xstrict_refuted)))). Qed.
Print Assumptions C28_spsc_batch_atomic_refuted.

(** C29.  No step leads to an error: a data race, an access to a dead object, an
    access outside the buffer, or a hanging loop. *)
Theorem C29_spsc_race_free {V} c h (s : xstate V) ch e :
  code_cfg c -> xreach c h s -> xstep c s ch <> XErr e.
Proof. exact (fun H => no_err c H h s ch e). Qed.
Print Assumptions C29_spsc_race_free.

(** The second pop reads an old index. *)
Example C29_nonvacuous :
  code_cfg xdemoR /\ x_sc xdemoR = false /\ exists s, xreach xdemoR xhist1 s /\ xsize xdemoR s = 0%N.
Proof. exact (conj (code_demo 4 false false ltac:(done)) (conj eq_refl xdemo_stale)). Qed.

(** What has been popped is a prefix of what has been pushed (unless elements are
    dropped by reset or destruction). *)
Theorem C29_spsc_prefix {V} c h (s : xstate V) :
  code_cfg c -> xreach c h s ->
  Forall (fun e => match e with Inv _ OReset | Inv _ ODestroy => False | _ => True end) h ->
  popped h `prefix_of` pushed h ++
    match tpending 0 h with Some (OPush v) => [v] | Some (OPushN vs) => vs | _ => [] end.
Proof. exact (fun H => prefix_main' c H h s). Qed.
Print Assumptions C29_spsc_prefix.

Example C29_prefix_nonvacuous : popped xhist1 = [1; 2]%N /\ pushed xhist1 = [1; 2]%N.
Proof. done. Qed.

(** With old values, histories are linearizable with respect to a queue whose calls may
    fail, move less and report less - but never less than has been promised. *)
Theorem C29_spsc_linearizable_stale {V} c h (s : xstate V) :
  code_cfg c -> xreach c h s ->
  hw_linearizable xs_init (xspec (x_max c - 1) (x_sc c)) h /\
  exists l ph a, lruns (xspec (x_max c - 1) (x_sc c)) ∅ xs_init l ph a /\ erase l = h /\
    (xquiet s -> xcontents c s (a_q a)).
Proof. exact (fun H => lin_main c H h s). Qed.
Print Assumptions C29_spsc_linearizable_stale.

(** Each of the four acquire/release orders is necessary. *)
Theorem C29_spsc_relaxed_orders_refuted :
  errs (XCfg 4 false false false false false true true true) ERace /\
  errs (XCfg 4 false false false false true false true true) ERace /\
  errs (XCfg 4 false false false false true true false true) ERace /\
  errs (XCfg 4 false false false false true true true false) ERace.
Proof. exact xorders. Qed.
Print Assumptions C29_spsc_relaxed_orders_refuted.

(** C30.  A call made while no other call is in progress, by a thread that has
    seen the other's last store, does exactly what [seqf] says - whatever the
    positions of the indices - unless an exception leaves the queue as it was. *)
Theorem C30_spsc_batch_maximal {V} c h t o r (s s' : xstate V) q :
  code_cfg c -> xreach c h s -> xquiet s -> x_dead s = false -> latest c t s -> xcontents c s q ->
  solo_call c t o r s s' ->
  exists q', xcontents c s' q' /\ xquiet s' /\
    ((r = RThrow /\ q' = q) \/ seqf (x_max c - 1) q o = Some (r, q')).
Proof. exact (fun H => seq_main c H h t o r s s' q). Qed.
Print Assumptions C30_spsc_batch_maximal.

Example C30_nonvacuous :
  code_cfg xdemoR /\
  exists s s1 s2, solo_state xdemoR [3; 4; 5]%N s /\
    solo_call xdemoR RC (OPopN 5) (RList [3; 4; 5]%N) s s1 /\ solo_call xdemoR RP (OPush 6%N) (RBool false) s s2.
Proof. exact (conj (code_demo 4 false false ltac:(done)) xdemo_solo). Qed.

(** In such states the contents are determined, and synchronization makes a
    thread see the last stores. *)
Theorem C30_spsc_contents {V} c h (s : xstate V) :
  code_cfg c -> xreach c h s -> xquiet s ->
  (exists q, xcontents c s q /\ forall q', xcontents c s q' -> q' = q) /\
  forall t s' evs, xstep c s XSync = XNext s' evs -> latest c t s'.
Proof. exact (fun H H1 H2 => conj (contents_main c H h s H1 H2) (fun t s' evs => sync_latest c H h t s s' evs H1)). Qed.
Print Assumptions C30_spsc_contents.

(** C31.  Without concurrency the availabilities are exact and add up to the
    capacity. *)
Theorem C31_spsc_available {V} c h (s s1 s2 : xstate V) n m q :
  code_cfg c -> xreach c h s -> xquiet s -> x_dead s = false -> xcontents c s q ->
  latest c RC s -> solo_call c RC ORAvail (RNum n) s s1 ->
  latest c RP s -> solo_call c RP OWAvail (RNum m) s s2 ->
  n = N.of_nat (length q) /\ (N.of_nat (length q) + m = x_max c - 1)%N /\ (n + m = x_max c - 1)%N.
Proof. exact (fun H => avail_main c H h s s1 s2 n m q). Qed.
Print Assumptions C31_spsc_available.

Example C31_nonvacuous :
  exists s s1 s2, solo_state xdemoR [3%N] s /\
    solo_call xdemoR RC ORAvail (RNum 1) s s1 /\ solo_call xdemoR RP OWAvail (RNum 2) s s2.
Proof. exact xdemo_avail. Qed.

(** Under concurrency, also with old values: a call of the consumer finds at
    least the elements promised by read_available() and not popped since, a call
    of the producer the places promised by write_available(). *)
Theorem C31_spsc_promises {V} c h (s : xstate V) o r :
  code_cfg c ->
  (xreach c (h ++ [Res 1 r]) s -> tpending 1 h = Some o -> keeps (promised h) o r) /\
  (xreach c (h ++ [Res 0 r]) s -> tpending 0 h = Some o -> keeps_p (room h) o r).
Proof. exact (fun H => promise_main c H h s o r). Qed.
Print Assumptions C31_spsc_promises.

(** Two elements are promised, and popped, while three have been pushed. *)
Example C31_promises_nonvacuous :
  (exists s, xreach xdemoR xhist3 s /\ xsize xdemoR s = 1%N) /\
  exists h, xhist3 = h ++ [Res 1 (RList [1; 2]%N)] /\ tpending 1 h = Some (OPopN 5) /\ promised h = 2%N.
Proof. exact (conj xdemo_promise (ex_intro _ (take 13 xhist3) (conj eq_refl (conj eq_refl eq_refl)))). Qed.

(** C32.  The number of own steps of a call is bounded by a function of the batch
    size (and the capacity), and a thread with a call in progress can always
    make a step. *)
Theorem C32_spsc_wait_free {V} c t o s0 win (s : xstate V) :
  code_cfg c -> window c t o s0 win s ->
  (own t win <= steps_bound (x_max c - 1) o)%N /\
  (t_pc (th t s) <> None -> exists k s' evs, xstep c s (XRun t k false) = XNext s' evs).
Proof. exact (fun H => wait_main c H t o s0 win s). Qed.
Print Assumptions C32_spsc_wait_free.

Example C32_nonvacuous :
  exists s0 win s, window xdemoR RC OPop s0 win s /\ t_pc (th RC s) = Some (XRet (RPop (Some 3%N))).
Proof. exact xdemo_window_r. Qed.

(** C33.  For elements with a destructor: in every slot, constructions and
    destructions balance except for a live object; after reset and destruction
    there is none; between calls the live objects are exactly those in the queue.
    (That nothing dead is accessed or destroyed and nothing is constructed over a
    live object is [C29_spsc_race_free].) *)
Theorem C33_spsc_lifetimes {V} c w h (s : xstate V) :
  code_cfg c -> x_triv c = false -> xsteps c xinit w h s ->
  (forall i, cnt (constructs i) w = cnt (destroys i) w + (if alive s i then 1 else 0)) /\
  (x_dead s = true \/ t_pc (x_cons s) = Some (XRet RUnit) -> forall i, alive s i = false) /\
  (forall q i, xquiet s -> xcontents c s q ->
     alive s i = true <-> exists j, j < length q /\ i = ((lastv (x_r s) + N.of_nat j) mod x_max c)%N).
Proof. exact (fun H => life_main c H w h s). Qed.
Print Assumptions C33_spsc_lifetimes.

Theorem C33_spsc_alive_accesses {V} c h (s : xstate V) ch :
  code_cfg c -> xreach c h s -> xstep c s ch <> XErr EDead /\ xstep c s ch <> XErr EAlive.
Proof. exact (fun H H1 => conj (no_err c H h s ch EDead H1) (no_err c H h s ch EAlive H1)). Qed.
Print Assumptions C33_spsc_alive_accesses.

Example C33_nonvacuous : code_cfg xdemoR /\ exists w s, xsteps xdemoR xinit w xhist4 s /\ x_dead s = true.
Proof. exact (conj (code_demo 4 false false ltac:(done)) xdemo_destroy). Qed.

(** With exceptions in batch operations it fails: a throwing copy in a batch push
    that has wrapped around leaves objects that are never destroyed, and over
    which others are constructed; a throwing functor or copy in consume_all and the
    batch pops leaves destroyed objects in the queue, which are accessed later. *)
Theorem C33_spsc_throwing_batches_refuted :
  errs (XCfg 4 false true false false true true true true) EAlive /\
  errs (XCfg 4 false true false false true true true true) EDead.
Proof. exact (conj xthrow_alive xthrow_dead). Qed.
Print Assumptions C33_spsc_throwing_batches_refuted.

(** C34.  The 64-bit computations give the exact results, and next_index's loop
    makes at most one iteration. *)
Theorem C34_spsc_arithmetic M w r n :
  (0 < M <= 2 ^ 63)%N -> (w < M)%N -> (r < M)%N -> (n < M)%N ->
  (forall fuel, next_loop (S fuel) (add64 w 1) M = Some (if decide (w + 1 = M) then 0 else w + 1))%N /\
  (read_available w r M = if decide (r <= w) then w - r else w + M - r)%N /\
  (read_available w r M + write_available w r M = M - 1)%N /\
  (sections w n M =
     if decide (M < w + n) then (M, Some (w + n - M), w + n - M)
     else (w + n, None, if decide (w + n = M) then 0 else w + n))%N.
Proof. exact (arith_main M w r n). Qed.
Print Assumptions C34_spsc_arithmetic.

Example C34_nonvacuous :
  sections (2 ^ 63 - 1) (2 ^ 63 - 1) (2 ^ 63) = (2 ^ 63, Some (2 ^ 63 - 2), 2 ^ 63 - 2)%N /\
  write_available (2 ^ 63 - 1) 0 (2 ^ 63) = 0%N.
Proof. exact (conj eq_refl eq_refl). Qed.

(** The indices stay inside the buffer. *)
Theorem C34_spsc_indices {V} c h (s : xstate V) m :
  code_cfg c -> xreach c h s -> m ∈ x_w s \/ m ∈ x_r s -> (m_val m < x_max c)%N.
Proof. exact (index_main c h s m). Qed.
Print Assumptions C34_spsc_indices.

(** The bound is tight, and a capacity of SIZE_MAX (an empty buffer) makes
    next_index loop forever. *)
Theorem C34_spsc_larger_refuted :
  (exists w n, (w < 2 ^ 63 + 1 /\ n < 2 ^ 63 + 1)%N /\
    sections w n (2 ^ 63 + 1) <> (2 ^ 63 + 1, Some (w + n - (2 ^ 63 + 1)), w + n - (2 ^ 63 + 1))%N /\
    (2 ^ 63 + 1 < w + n)%N) /\
  (forall fuel ret, next_loop fuel ret 0 = None).
Proof. exact (conj xtight next_loop_zero). Qed.
Print Assumptions C34_spsc_larger_refuted.

(** C35.  A functor that throws in consume_one: nothing changes in the queue, and
    the call ends with the exception. *)
Theorem C35_spsc_consume_one_throws {V} c (s s' : xstate V) k r evs :
  t_pc (x_cons s) = Some (C3 r) -> xstep c s (XRun RC k true) = XNext s' evs ->
  same_queue s s' /\ t_pc (x_cons s') = Some (XRet RThrow).
Proof. exact (throw_one_main c s s' k r evs). Qed.
Print Assumptions C35_spsc_consume_one_throws.

Example C35_one_nonvacuous :
  exists h (s s' : xstate N) k evs, xreach xdemoR h s /\ t_pc (x_cons s) = Some (C3 0) /\
    xstep xdemoR s (XRun RC k true) = XNext s' evs.
Proof. exact xdemo_throw_one. Qed.

(** In consume_all on elements without destructor, nothing changes in the queue
    before the index is stored. *)
Theorem C35_spsc_consume_all_throws_partial {V} c (s s' : xstate V) k thr evs :
  x_triv c = true ->
  match t_pc (x_cons s) with Some (B3 _ _ _ _ _ _) | Some (B4 _ _ _ _ _ _ _) => True | _ => False end ->
  xstep c s (XRun RC k thr) = XNext s' evs -> same_queue s s'.
Proof. exact (throw_all_main c s s' k thr evs). Qed.
Print Assumptions C35_spsc_consume_all_throws_partial.

Example C35_all_nonvacuous :
  exists h (s s' : xstate N) k evs, xreach xdemoT h s /\ t_pc (x_cons s) = Some (B3 KAll 3 4 None 0 [3%N]) /\
    xstep xdemoT s (XRun RC k true) = XNext s' evs.
Proof. exact xdemo_throw_all. Qed.

(** With destructors the elements consumed before the exception are destroyed
    and stay in the queue: the next pop accesses a destroyed object. *)
Theorem C35_spsc_consume_all_throws_refuted : errs (XCfg 4 false true false false true true true true) EDead.
Proof. exact xthrow_dead. Qed.
Print Assumptions C35_spsc_consume_all_throws_refuted.

(** C41.  After front() has returned [v], with no pop and no reset in between,
    the next call of the consumer does not find the queue empty, and the first element
    it pops (or another front() returns) is [v]. *)
Theorem C41_spsc_front {V} c h (s : xstate V) l1 v mid x l2 :
  code_cfg c -> xreach c h s -> tdone 1 h = l1 ++ (OFront, RFront v) :: mid ++ x :: l2 ->
  Forall (fun y => popvals y.2 = [] /\ y.2 <> RUnit) mid ->
  x.2 <> RPop None /\ (forall y, head (popvals x.2) = Some y -> y = v) /\ (forall y, x.2 = RFront y -> y = v).
Proof. exact (fun H => front_main c H h s l1 v mid x l2). Qed.
Print Assumptions C41_spsc_front.

Example C41_nonvacuous :
  (exists s, xreach xdemoR xhist3 s /\ xsize xdemoR s = 1%N) /\
  tdone 1 xhist3 = [(ORAvail, RNum 2)] ++ (OFront, RFront 1%N) :: [(OEmpty RC true, RBool false)] ++
    (OPopN 5, RList [1; 2]%N) :: [].
Proof. exact (conj xdemo_promise eq_refl). Qed.

(** front() after !empty() instead of read_available() > 0 races with the
    producer. *)
Theorem C41_spsc_front_after_empty_refuted : errs (XCfg 4 false false false true true true true true) ERace.
Proof. exact xunchecked. Qed.
Print Assumptions C41_spsc_front_after_empty_refuted.
