(** Properties C15-C22, C24, C26, C27, C43 and the stack's part of C13 and C42, with
    tags that do not wrap ([c_tagmod c = None]; for wrapping tags see C25).

    [c] is any configuration, [ns] the pool's initial nodes.  [sreach] and
    [scallret] ask for nonempty ranges (for empty ones see C18).  In [effect c t w
    a a'], [w] are all steps, of all threads, from the invocation of a call of
    [t] to its return; one step of [t] turns the contents [a] into [a'], and no
    other step of [t] changes the contents. *)
From stdpp Require Import gmap list numbers.
From Verif Require Import Lin LinObs PoolModel StackModel StackSpec StackObs StackQuiet StackMain
  StackDemo StackWitness.

(** C15.  Every reachable history is linearizable, in the sense of Herlihy and
    Wing; and there is a placement of the calls' effects after which the
    abstract stack is what is stored in memory. *)
Theorem C15_stack_linearizable c ns hist s :
  c_tagmod c = None -> sreach c ns hist s ->
  hw_linearizable [] (sspec (c_node_based c) (c_throws c)) hist /\
  exists l ph a, lruns (sspec (c_node_based c) (c_throws c)) ∅ [] l ph a /\
    erase l = hist /\ scontents c s a.
Proof. exact (fun Ht => linearizable_main c Ht ns hist s). Qed.
Print Assumptions C15_stack_linearizable.

(** The node that thread 1 is about to pop is popped by thread 2 and pushed
    again by thread 0. *)
Example C15_nonvacuous :
  c_tagmod sdemoN = None /\
  exists s, sreach sdemoN [1; 2; 3]%N
    [Inv 0 (SPush true 5%N); Res 0 (SBool true); Inv 0 (SPush true 6%N); Res 0 (SBool true);
     Inv 1 SPop; Inv 2 SPop; Res 2 (SGot (Some 6%N)); Inv 0 (SPush true 7%N); Res 0 (SBool true);
     Res 1 (SGot (Some 7%N))] s /\ quiescent s /\ scontents sdemoN s [5%N].
Proof. exact (conj eq_refl sdemo1). Qed.

(** A pop removes and returns the first element in one step (and fails exactly
    if there is none). *)
Theorem C15_stack_pop_top c ns t w x :
  c_tagmod c = None -> scallret c ns t SPop w (SGot x) ->
  exists a, effect c t w a (tail a) /\ x = head a.
Proof. exact (fun Ht => pop_main c Ht ns t w x). Qed.
Print Assumptions C15_stack_pop_top.

Example C15_pop_nonvacuous : exists w, scallret sdemoF [0; 1; 2; 3; 4]%N 1 SPop w (SGot (Some 3%N)).
Proof. exact sdemo_pop. Qed.

(** C16.  No choice of the environment in a reachable state leads to undefined
    behaviour. *)
Theorem C16_stack_safe c ns hist s ch :
  c_tagmod c = None -> sreach c ns hist s -> ch_ok ch -> sstep c s ch <> SUB.
Proof. exact (fun Ht => safe_main c Ht ns hist s ch). Qed.
Print Assumptions C16_stack_safe.

Example C16_nonvacuous : exists s, sreach sdemoN [1; 2; 3]%N shist1 s /\ ch_ok (Unsync 0 (SURange [1%N]) [] None).
Proof. destruct sdemo1 as (s & H & _). by exists s. Qed.

(** C17.  A range push makes the first [k] elements appear in one step, the last
    of them on top, and returns the iterator to element [k]; it stops before
    the end only as bounded_push and with an exhausted pool. *)
Theorem C17_stack_range_push c ns t b vs w k :
  c_tagmod c = None -> scallret c ns t (SRange b vs) w (SIter k) ->
  (exists a, effect c t w a (reverse (take k vs) ++ a)) /\ k <= length vs /\
  (k < length vs ->
     b = true /\ exists st, st ∈ w /\ (s_pool (s_sh (r_post st))).1 = c_null c /\
                            (c_throws c = false -> exhausted c (r_post st))).
Proof. exact (fun Ht => range_main c Ht ns t b vs w k). Qed.
Print Assumptions C17_stack_range_push.

(** Three nodes; the compare-exchange fails once. *)
Example C17_nonvacuous : exists w, scallret sdemoN [1; 2; 3]%N 0 (SRange true [6; 7; 8; 9]%N) w (SIter 3).
Proof. exact sdemo_range. Qed.

(** C18 is false: on every node-based stack, in every state, the range pushes
    dereference the begin iterator of an empty range. *)
Theorem C18_stack_empty_range_refuted c s t b :
  c_node_based c = true -> s_pcs s !! t = None ->
  exists s1, sstep c s (Invoke t (SRange b [])) = SNext s1 [Inv t (SRange b [])] /\
    forall sp addr thr, sstep c s1 (Run t sp addr thr) = SUB.
Proof. exact (sdemo_empty_range c s t b). Qed.
Print Assumptions C18_stack_empty_range_refuted.

Theorem C18_stack_empty_range_unsynchronized_refuted c s t addrs thr :
  c_node_based c = true -> quiescent s -> sstep c s (Unsync t (SURange []) addrs thr) = SUB.
Proof. exact (sdemo_empty_urange c s t addrs thr). Qed.
Print Assumptions C18_stack_empty_range_unsynchronized_refuted.

Example C18_nonvacuous :
  c_node_based sdemoN = true /\ s_pcs (sinit sdemoN []) !! 0 = None /\ quiescent (sinit sdemoN []).
Proof. split; [reflexivity|]. split; reflexivity. Qed.

(** C19.  consume_all_atomic empties the stack in one step, shows the functor
    all elements of that moment from top to bottom and returns their number. *)
Theorem C19_stack_consume_all_atomic c ns t w k vs :
  c_tagmod c = None -> scallret c ns t (SAll false) w (SCount k vs) ->
  exists a, effect c t w a [] /\ k = length a /\ vs = a.
Proof. exact (fun Ht => all_main c Ht ns t false w k vs). Qed.
Print Assumptions C19_stack_consume_all_atomic.

(** Element 4 is pushed after the call has loaded tos, 5 after the removal. *)
Example C19_nonvacuous : exists w, scallret sdemoF [0; 1; 2; 3; 4]%N 1 (SAll false) w (SCount 4 [4; 3; 2; 1]%N).
Proof. exact sdemo_all. Qed.

(** C20.  The reversed variant shows them from bottom to top. *)
Theorem C20_stack_consume_all_reversed c ns t w k vs :
  c_tagmod c = None -> scallret c ns t (SAll true) w (SCount k vs) ->
  exists a, effect c t w a [] /\ k = length a /\ vs = reverse a.
Proof. exact (fun Ht => all_main c Ht ns t true w k vs). Qed.
Print Assumptions C20_stack_consume_all_reversed.

Example C20_nonvacuous : exists w, scallret sdemoF [0; 1; 2; 3; 4]%N 1 (SAll true) w (SCount 4 [1; 2; 3; 4]%N).
Proof. exact sdemo_all_rev. Qed.

(** C21.  empty() is right about the contents at one of its steps, which changes
    nothing. *)
Theorem C21_stack_empty c ns t w b :
  c_tagmod c = None -> scallret c ns t SEmpty w (SBool b) ->
  exists a, effect c t w a a /\ b = bool_decide (a = []).
Proof. exact (fun Ht => empty_main c Ht ns t w b). Qed.
Print Assumptions C21_stack_empty.

Example C21_nonvacuous :
  (exists w, scallret sdemoF [0; 1; 2; 3; 4]%N 1 SEmpty w (SBool false)) /\
  (exists w, scallret sdemoF [0; 1; 2; 3; 4]%N 1 SEmpty w (SBool true)).
Proof. exact sdemo_empty. Qed.

(** C22.  A push that returns false is one of a fixed-size stack or a
    bounded_push, and the pool's list was empty after a step of the call; if
    copying does not throw, every node was then in use. *)
Theorem C22_stack_push_fails_only_exhausted c ns t b v w :
  c_tagmod c = None -> scallret c ns t (SPush b v) w (SBool false) ->
  (c_node_based c = false \/ b = true) /\
  exists st, st ∈ w /\ (s_pool (s_sh (r_post st))).1 = c_null c /\
             (c_throws c = false -> exhausted c (r_post st)).
Proof. exact (fun Ht => push_fail_main c Ht ns t b v w). Qed.
Print Assumptions C22_stack_push_fails_only_exhausted.

Example C22_nonvacuous : exists w, scallret sdemoF [0; 1]%N 1 (SPush false 3%N) w (SBool false).
Proof. exact sdemo_push_fail. Qed.

(** As long as no call may allocate, the contents never exceed the pool; and
    with no other call running, bounded_push (push, if fixed-size) succeeds iff
    fewer elements are stored than there are nodes. *)
Theorem C22_stack_capacity c ns hist s a :
  c_tagmod c = None -> sreach c ns hist s ->
  (forall t o, Inv t o ∈ hist -> allocates c o = false) ->
  size (s_heap (s_sh s)) = length ns /\ (scontents c s a -> length a <= length ns).
Proof. exact (fun Ht => bounds_main c Ht ns hist s a). Qed.
Print Assumptions C22_stack_capacity.

Theorem C22_stack_push_iff_space c ns hist s a t b v :
  c_tagmod c = None -> c_throws c = false ->
  sreach c ns hist s -> quiescent s -> scontents c s a -> c_node_based c = false \/ b = true ->
  exists k s', srun c s (Invoke t (SPush b v) :: replicate k (Run t false None false)) =
      Some ([Inv t (SPush b v); Res t (SBool (bool_decide (length a < size (s_heap (s_sh s)))))], s') /\
    quiescent s' /\
    scontents c s' (if decide (length a < size (s_heap (s_sh s))) then v :: a else a).
Proof. exact (fun Ht => push_quiet c Ht ns hist s a t b v). Qed.
Print Assumptions C22_stack_push_iff_space.

Example C22_space_nonvacuous :
  c_throws sdemoN = false /\ exists s, sreach sdemoN [1; 2; 3]%N shist1 s /\ quiescent s /\ scontents sdemoN s [5%N].
Proof. exact (conj eq_refl sdemo1). Qed.

(** C24.  The destructor destroys exactly the elements on the stack, each once,
    and passes every node to the allocator exactly once ([s_heap] holds every
    node ever obtained: it never shrinks). *)
Theorem C24_stack_destructor c ns hist s a :
  c_tagmod c = None -> c_throws c = false -> sreach c ns hist s -> quiescent s -> scontents c s a ->
  exists l, sdtor c (s_sh s) = Some (a, l) /\ NoDup l /\
    forall n, n ∈ l <-> is_Some (s_heap (s_sh s) !! n).
Proof. exact (fun Ht => dtor_main c Ht ns hist s a). Qed.
Print Assumptions C24_stack_destructor.

Theorem C24_stack_nodes_kept c s0 hist s :
  sexec c s0 hist s -> dom (s_heap (s_sh s0)) ⊆ dom (s_heap (s_sh s)).
Proof. exact (sexec_dom c s0 hist s). Qed.
Print Assumptions C24_stack_nodes_kept.

Example C24_nonvacuous :
  c_throws sdemoN = false /\ exists s, sreach sdemoN [1; 2; 3]%N shist1 s /\ quiescent s /\ scontents sdemoN s [5%N].
Proof. exact (conj eq_refl sdemo1). Qed.

(** C26.  A push or range push left by an exception changes nothing: none of
    its steps changes the contents. *)
Theorem C26_stack_push_exception c ns t o w es :
  c_tagmod c = None -> scallret c ns t o w (SExn es) ->
  match o with SPush _ _ | SRange _ _ => True | _ => False end ->
  (exists a, effect c t w a a) /\ forall st, st ∈ w -> ch_thread (r_ch st) = t -> silent c st.
Proof. exact (fun Ht => exn_main c Ht ns t o w es). Qed.
Print Assumptions C26_stack_push_exception.

(** Copying the third element of a range throws (two nodes are taken back). *)
Example C26_nonvacuous :
  (exists w, scallret sdemoT [1; 2; 3; 4]%N 0 (SRange true [6; 7; 8; 9]%N) w (SExn [])) /\
  (exists w, scallret sdemoT [1; 2; 3]%N 0 (SPush false 6%N) w (SExn [])).
Proof. exact sdemo_exn. Qed.

(** C27 is false: after a push left by an exception of the copy constructor the
    node is neither in the pool nor on the stack; the empty stack cannot take an
    element any more, and destruction does not release the node. *)
Theorem C27_stack_throwing_copy_refuted :
  exists s, sreach sdemoT [1%N] [Inv 0 (SPush true 7%N); Res 0 (SExn [])] s /\ quiescent s /\
    scontents sdemoT s [] /\ is_Some (s_heap (s_sh s) !! 1%N) /\ sdtor sdemoT (s_sh s) = Some ([], []) /\
    exists s', srun sdemoT s (Invoke 0 (SPush true 8%N) :: replicate 3 (Run 0 false None false)) =
                 Some ([Inv 0 (SPush true 8%N); Res 0 (SBool false)], s').
Proof. exact sdemo_leak. Qed.
Print Assumptions C27_stack_throwing_copy_refuted.

(** C13, stack part.  No step of a bounded push, pop, consume_all_atomic or
    empty, nor of any call on a fixed-size stack, obtains a node; for any
    tags. *)
Theorem C13_stack_no_allocation c :
  (forall ns t o w s sp addr thr s' evs,
     scall c ns t o w s -> allocates c o = false ->
     sstep c s (Run t sp addr thr) = SNext s' evs ->
     dom (s_heap (s_sh s')) = dom (s_heap (s_sh s))) /\
  (forall s t o addrs thr s' evs,
     allocates c o = false -> sstep c s (Unsync t o addrs thr) = SNext s' evs ->
     dom (s_heap (s_sh s')) = dom (s_heap (s_sh s))) /\
  (forall ns hist s, sreach c ns hist s ->
     (forall t o, Inv t o ∈ hist -> allocates c o = false) ->
     dom (s_heap (s_sh s)) = list_to_set ns) /\
  (c_node_based c = false -> forall o, allocates c o = false).
Proof. exact (noalloc_main c). Qed.
Print Assumptions C13_stack_no_allocation.

Example C13_stack_nonvacuous :
  allocates sdemoN (SRange true [1%N]) = false /\ allocates sdemoN (SPush false 1%N) = true /\
  exists s, sreach sdemoN [1; 2; 3]%N shist1 s /\ forall t o, Inv t o ∈ shist1 -> allocates sdemoN o = false.
Proof.
  do 2 (split; [reflexivity|]). destruct sdemo1 as (s & H & _). exists s. split; [done|].
  intros t o Hin. unfold shist1 in Hin.
  repeat (apply elem_of_cons in Hin as [Hin|Hin]; [by inversion Hin|]). by apply elem_of_nil in Hin.
Qed.

(** C42, stack part. *)
Theorem C42_stack_reserve c ns hist s a t n chs h s' :
  c_tagmod c = None -> sreach c ns hist s -> quiescent s -> scontents c s a ->
  Forall (fun ch => exists sp addr thr, ch = Run t sp addr thr) chs ->
  srun c s (Invoke t (SReserve n) :: chs) = Some (h, s') -> Res t SUnit ∈ h ->
  size (s_heap (s_sh s')) = size (s_heap (s_sh s)) + n /\ scontents c s' a /\ quiescent s'.
Proof. exact (fun Ht => reserve_main c Ht ns hist s a t n chs h s'). Qed.
Print Assumptions C42_stack_reserve.

Theorem C42_stack_bounded_pushes c ns t vs hist s a :
  c_tagmod c = None -> c_throws c = false -> sreach c ns hist s -> quiescent s -> scontents c s a ->
  exists chs s',
    srun c s chs =
      Some (concat (imap (fun i v =>
              [Inv t (SPush true v);
               Res t (SBool (bool_decide (length a + i < size (s_heap (s_sh s)))))]) vs), s') /\
    quiescent s' /\ scontents c s' (reverse (take (size (s_heap (s_sh s)) - length a) vs) ++ a).
Proof. exact (fun Ht => push_many c Ht ns t vs hist s a). Qed.
Print Assumptions C42_stack_bounded_pushes.

Example C42_stack_nonvacuous :
  exists s h, sreach sdemoN [] [] (sinit sdemoN []) /\ quiescent (sinit sdemoN []) /\
    scontents sdemoN (sinit sdemoN []) [] /\
    srun sdemoN (sinit sdemoN []) (Invoke 0 (SReserve 2) :: schedV) = Some (h, s) /\ Res 0 SUnit ∈ h.
Proof. exact sdemo_reserve. Qed.

(** C43.  The unsynchronized operations of the stack do what the specification says,
    and the resulting state is reachable, so the other theorems hold for what
    follows. *)
Theorem C43_stack_unsynchronized c ns hist s a t o addrs thr s' evs :
  c_tagmod c = None -> sreach c ns hist s -> scontents c s a -> nonempty_op o ->
  sstep c s (Unsync t o addrs thr) = SNext s' evs ->
  exists r a', evs = [Inv t o; Res t r] /\ sspec (c_node_based c) (c_throws c) a o r a' /\
    quiescent s' /\ scontents c s' a'.
Proof. exact (fun Ht => unsync_main c Ht ns hist s a t o addrs thr s' evs). Qed.
Print Assumptions C43_stack_unsynchronized.

Theorem C43_stack_then_concurrent c ns hist s ch s' evs :
  sreach c ns hist s -> ch_ok ch -> sstep c s ch = SNext s' evs -> sreach c ns (hist ++ evs) s'.
Proof. exact (sreach_step c ns hist s ch s' evs). Qed.
Print Assumptions C43_stack_then_concurrent.

Example C43_nonvacuous :
  exists s', sstep sdemoN (sinit sdemoN [1%N]) (Unsync 0 (SURange [7; 8]%N) [Some 2%N] None) =
    SNext s' [Inv 0 (SURange [7; 8]%N); Res 0 (SIter 2)].
Proof. eexists. vm_compute. reflexivity. Qed.
