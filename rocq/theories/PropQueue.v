(** Properties C01-C08, C10, C11, C13, C14, C42: the multi-producer
    multi-consumer queue, with tags that do not wrap ([c_tagmod c = None]; for
    wrapping tags see C12).

    [c] is any configuration: node-based or fixed-size, any null handle, any
    number of words per element.  [ns] are the pool's initial nodes. *)
From stdpp Require Import gmap list numbers.
From Verif Require Import Lin LinObs PoolModel QueueModel QueueSpec QueueObs QueueSolo QueueMain QueueDemo QueueWitness.

(** C01.  Every reachable history is linearizable, in the sense of Herlihy and
    Wing; and there is a placement of the calls' effects after which the
    abstract queue is what is stored in memory. *)
Theorem C01_queue_linearizable c ns hist s :
  c_tagmod c = None -> qreach c ns hist s ->
  hw_linearizable [] (qspec (c_node_based c) (c_throws c)) hist /\
  exists l ph a, lruns (qspec (c_node_based c) (c_throws c)) ∅ [] l ph a /\
    erase l = hist /\ qcontents c s a.
Proof. exact (fun Ht => linearizable_main c Ht ns hist s). Qed.
Print Assumptions C01_queue_linearizable.

(** Two pops overlap on one element and a push recycles its dummy node. *)
Example C01_nonvacuous :
  c_tagmod demoN = None /\
  exists s, qreach demoN [1; 2; 3]%N
    [Inv 0 (Push true [1; 1]%N); Res 0 (RBool true); Inv 0 (Push true [2; 2]%N); Res 0 (RBool true);
     Inv 1 Pop; Inv 2 Pop; Res 2 (RPop (Some [1; 1]%N)); Inv 0 (Push true [3; 3]%N); Res 0 (RBool true);
     Res 1 (RPop (Some [2; 2]%N))] s /\ quiescent s /\ qcontents demoN s [[3; 3]%N].
Proof. exact (conj eq_refl demo1). Qed.

(** C02.  No choice of the environment in a reachable state leads to undefined
    behaviour. *)
Theorem C02_queue_safe c ns hist s ch :
  c_tagmod c = None -> qreach c ns hist s -> qstep c s ch <> QUB.
Proof. exact (fun Ht => safe_main c Ht ns hist s ch). Qed.
Print Assumptions C02_queue_safe.

(** [qreach] asks for a fixed-size queue to have at least one node.  Without
    (constructor argument SIZE_MAX, n + 1 = 0) the third step of a pop
    dereferences null. *)
Theorem C02_no_nodes_refuted :
  exists s0 s1 evs1 s2 evs2 s3 evs3,
    qinit demoF [] None = Some s0 /\ qstep demoF s0 (Invoke 0 Pop false) = QNext s1 evs1 /\
    qstep demoF s1 (Run 0 false None false) = QNext s2 evs2 /\
    qstep demoF s2 (Run 0 false None false) = QNext s3 evs3 /\
    qstep demoF s3 (Run 0 false None false) = QUB.
Proof. exact demo_no_nodes. Qed.
Print Assumptions C02_no_nodes_refuted.

(** C03.  Whatever a pop returns was, with all its words, the argument of a push
    called before. *)
Theorem C03_queue_no_torn_value c ns hist s h1 h2 t v :
  c_tagmod c = None -> qreach c ns hist s -> hist = h1 ++ Res t (RPop (Some v)) :: h2 ->
  exists t' o, Inv t' o ∈ h1 /\ pushes o = Some v.
Proof. exact (fun Ht => origin_main c Ht ns hist s h1 h2 t v). Qed.
Print Assumptions C03_queue_no_torn_value.

Example C03_nonvacuous :
  exists h1, hist1 = h1 ++ [Res 1 (RPop (Some [2; 2]%N))] /\ exists s, qreach demoN pool1 hist1 s.
Proof. exists (take 9 hist1). split; [reflexivity|]. destruct demo1 as (s & H & _). by exists s. Qed.

(** C04.  A push that returns false is one of a fixed-size queue or a
    bounded_push, and the pool's list was empty at an instant of the call; if
    copying does not throw, every node was then in use. *)
Theorem C04_queue_push_fails_only_exhausted c ns t b v w :
  c_tagmod c = None -> qcallret c ns t (Push b v) w (RBool false) ->
  (c_node_based c = false \/ b = true) /\
  exists s, s ∈ w /\ (q_pool (q_sh s)).1 = c_null c /\ (c_throws c = false -> exhausted c s).
Proof. exact (fun Ht => push_fail_main c Ht ns t b v w). Qed.
Print Assumptions C04_queue_push_fails_only_exhausted.

Example C04_nonvacuous : exists w, qcallret demoF pool2 0 (Push false [9%N]) w (RBool false).
Proof. exact demo_push_fail. Qed.

(** C05.  A pop that returns false saw the queue empty. *)
Theorem C05_queue_pop_empty_justified c ns t w :
  c_tagmod c = None -> qcallret c ns t Pop w (RPop None) -> exists s, s ∈ w /\ qcontents c s [].
Proof. exact (fun Ht => pop_empty_main c Ht ns t w). Qed.
Print Assumptions C05_queue_pop_empty_justified.

Example C05_nonvacuous : exists w, qcallret demoF pool2 1 Pop w (RPop None).
Proof. exact demo_pop_empty. Qed.

(** C06.  The pushes that have taken effect, in order, are the pops that have
    taken effect followed by the contents.  The former are those that have
    returned and some of those in progress. *)
Theorem C06_queue_conservation c ns hist s :
  c_tagmod c = None -> qreach c ns hist s ->
  exists P T a, qcontents c s a /\ P = T ++ a /\
    omap puts (completed hist) ⊆+ P /\
    P ⊆+ omap puts (completed hist) ++ omap pushes (pending hist) /\
    omap takes (completed hist) ⊆+ T /\
    length T <= length (omap takes (completed hist)) +
                length (filter (fun o => is_pop o = true) (pending hist)).
Proof. exact (fun Ht => conserve_main c Ht ns hist s). Qed.
Print Assumptions C06_queue_conservation.

Theorem C06_queue_conservation_quiescent c ns hist s :
  c_tagmod c = None -> qreach c ns hist s -> quiescent s ->
  exists a, qcontents c s a /\ omap puts (completed hist) ≡ₚ omap takes (completed hist) ++ a.
Proof. exact (fun Ht => conserve_quiet_main c Ht ns hist s). Qed.
Print Assumptions C06_queue_conservation_quiescent.

Example C06_nonvacuous :
  omap puts (completed hist1) = [v1; v2; v3] /\ omap takes (completed hist1) = [v1; v2] /\
  exists s, qreach demoN pool1 hist1 s /\ quiescent s.
Proof.
  split; [vm_compute; reflexivity|]. split; [vm_compute; reflexivity|].
  destruct demo1 as (s & H & Hq & _). by exists s.
Qed.

(** C07.  [v1], [v2] are pushed once each, the push of [v1] returns before that
    of [v2] is called, and both are popped: then the pop of [v2] does not
    return before that of [v1] is called. *)
Theorem C07_queue_fifo c ns hist s :
  c_tagmod c = None -> qreach c ns hist s ->
  forall i1 j1 t1 o1 i2 t2 o2 k1 l1 s1 p1 k2 l2 s2 p2 v1 v2,
    v1 <> v2 ->
    (forall i t o, hist !! i = Some (Inv t o) -> pushes o = Some v1 -> i = i1) ->
    (forall i t o, hist !! i = Some (Inv t o) -> pushes o = Some v2 -> i = i2) ->
    call_returns hist i1 j1 t1 o1 (RBool true) -> pushes o1 = Some v1 ->
    hist !! i2 = Some (Inv t2 o2) -> pushes o2 = Some v2 -> j1 < i2 ->
    call_returns hist k1 l1 s1 p1 (RPop (Some v1)) -> is_pop p1 = true ->
    call_returns hist k2 l2 s2 p2 (RPop (Some v2)) -> is_pop p2 = true ->
    k1 <= l2.
Proof. exact (fun Ht => fifo_main c Ht ns hist s). Qed.
Print Assumptions C07_queue_fifo.

(** In [hist1] the pushes return at 1 and 3, the pops run from 5 to 6 and from
    4 to 9. *)
Example C07_nonvacuous :
  call_returns hist1 0 1 0 (Push true v1) (RBool true) /\ hist1 !! 2 = Some (Inv 0 (Push true v2)) /\
  call_returns hist1 5 6 2 Pop (RPop (Some v1)) /\ call_returns hist1 4 9 1 Pop (RPop (Some v2)) /\
  (exists s, qreach demoN pool1 hist1 s).
Proof.
  assert (Hcr : forall i j t o r, hist1 !! i = Some (Inv t o) -> i < j -> hist1 !! j = Some (Res t r) ->
    (forall e, e ∈ take (j - S i) (drop (S i) hist1) -> ev_thread e <> t) -> call_returns hist1 i j t o r).
  { intros i j t o r H1 H2 H3 H4. do 3 (split; [done|]). intros k e Hk He. apply H4.
    apply elem_of_list_lookup. exists (k - S i). rewrite lookup_take by lia. rewrite lookup_drop.
    by replace (S i + (k - S i)) with k by lia. }
  split; [|split; [done|split; [|split; [|destruct demo1 as (s & H & _); by exists s]]]];
    (apply Hcr; [done|lia|done|]); intros e He; vm_compute in He;
    repeat (apply elem_of_cons in He as [->|He]; [done|]); by apply elem_of_nil in He.
Qed.

(** C08.  Without other calls empty() is exact (and does not change anything);
    a false answer is justified by an instant of the call. *)
Theorem C08_queue_empty_quiescent c ns hist s a t tf :
  c_tagmod c = None -> qreach c ns hist s -> quiescent s -> qcontents c s a ->
  qrun c s (Invoke t Empty tf :: replicate 3 (Run t false None false)) =
    Some ([Inv t Empty; Res t (RBool (bool_decide (a = [])))], s).
Proof. exact (fun Ht => empty_quiet_main c Ht ns hist s a t tf). Qed.
Print Assumptions C08_queue_empty_quiescent.

Theorem C08_queue_empty_false_justified c ns t w :
  c_tagmod c = None -> qcallret c ns t Empty w (RBool false) ->
  exists s v a, s ∈ w /\ qcontents c s (v :: a).
Proof. exact (fun Ht => empty_false_main c Ht ns t w). Qed.
Print Assumptions C08_queue_empty_false_justified.

Example C08_nonvacuous :
  (exists s, qreach demoN pool1 hist1 s /\ quiescent s /\ qcontents demoN s [v3]) /\
  (exists w, qcallret demoF pool2 1 Empty w (RBool false)).
Proof. exact (conj demo1 demo_empty_false). Qed.

(** A true answer is not justified: here no state of the call is empty (and all
    other calls complete, so this is not a matter of a push in progress). *)
Theorem C08_queue_empty_true_refuted :
  exists w, qcallret demoF [0; 1; 2; 3]%N 1 Empty w (RBool true) /\
    Forall (fun s => exists v a, qcontents demoF s (v :: a)) w.
Proof. exact demo_empty_wrong. Qed.
Print Assumptions C08_queue_empty_true_refuted.

(** C10.  As long as no call may allocate (always, for a fixed-size queue), a
    queue with n + 1 = [length ns] nodes never holds more than n elements, even
    concurrently; and with no other call running, bounded_push (push, if
    fixed-size) succeeds iff fewer than n elements are stored. *)
Theorem C10_queue_capacity_bound c ns hist s a :
  c_tagmod c = None -> ns <> [] -> qreach c ns hist s ->
  (forall t o, Inv t o ∈ hist -> allocates c o = false) ->
  size (q_heap (q_sh s)) = length ns /\ (qcontents c s a -> S (length a) <= length ns).
Proof. exact (fun Ht => bounds_main c Ht ns hist s a). Qed.
Print Assumptions C10_queue_capacity_bound.

Theorem C10_queue_push_iff_space c ns hist s a t b v tf :
  c_tagmod c = None -> c_throws c = false ->
  qreach c ns hist s -> quiescent s -> qcontents c s a ->
  length v = c_words c -> c_node_based c = false \/ b = true ->
  exists k s', qrun c s (Invoke t (Push b v) tf :: replicate k (Run t false None false)) =
      Some ([Inv t (Push b v); Res t (RBool (bool_decide (S (length a) < size (q_heap (q_sh s)))))], s') /\
    quiescent s' /\
    qcontents c s' (if decide (S (length a) < size (q_heap (q_sh s))) then a ++ [v] else a).
Proof. exact (fun Ht => push_quiet_main c Ht ns hist s a t b v tf). Qed.
Print Assumptions C10_queue_push_iff_space.

Theorem C10_queue_pop_returns_first c ns hist s a t tf :
  c_tagmod c = None -> qreach c ns hist s -> quiescent s -> qcontents c s a ->
  exists k s', qrun c s (Invoke t Pop tf :: replicate k (Run t false None false)) =
      Some ([Inv t Pop; Res t (RPop (head a))], s') /\ quiescent s' /\ qcontents c s' (tail a).
Proof. exact (fun Ht => pop_quiet_main c Ht ns hist s a t tf). Qed.
Print Assumptions C10_queue_pop_returns_first.

Example C10_nonvacuous :
  pool2 = [0; 1; 2]%N /\
  exists s, qreach demoF pool2
    [Inv 0 (Push false [7%N]); Res 0 (RBool true); Inv 0 (Push false [8%N]); Res 0 (RBool true);
     Inv 0 (Push false [9%N]); Res 0 (RBool false)] s /\ quiescent s /\ qcontents demoF s [[7%N]; [8%N]].
Proof. exact (conj eq_refl demo2). Qed.

(** If the element's copy constructor throws, push loses the node for good: here
    a queue for one element is empty, no call is running, and its pool is
    exhausted; and destruction does not release node 1. *)
Theorem C10_C11_throwing_copy_refuted :
  exists s, qreach demoT [1; 2]%N [Inv 0 (Push true [7%N]); Res 0 RExn] s /\ quiescent s /\
    qcontents demoT s [] /\ qdtor demoT (q_sh s) = Some [2%N] /\
    is_Some (q_heap (q_sh s) !! 1%N) /\ (q_pool (q_sh s)).1 = c_null demoT.
Proof. exact demo_leak. Qed.
Print Assumptions C10_C11_throwing_copy_refuted.

(** C11.  The destructor passes every node to the allocator exactly once
    ([q_heap] holds every node ever obtained: it never shrinks). *)
Theorem C11_queue_destructor c ns hist s :
  c_tagmod c = None -> c_throws c = false -> qreach c ns hist s -> quiescent s ->
  exists l, qdtor c (q_sh s) = Some l /\ NoDup l /\
    forall n, n ∈ l <-> is_Some (q_heap (q_sh s) !! n).
Proof. exact (fun Ht Hth => dtor_main c Ht ns hist s Hth). Qed.
Print Assumptions C11_queue_destructor.

Theorem C11_queue_nodes_kept c s0 hist s :
  qexec c s0 hist s -> dom (q_heap (q_sh s0)) ⊆ dom (q_heap (q_sh s)).
Proof. exact (QueueQuiet.qexec_dom c s0 hist s). Qed.
Print Assumptions C11_queue_nodes_kept.

Example C11_nonvacuous : c_throws demoN = false /\ exists s, qreach demoN pool1 hist1 s /\ quiescent s.
Proof. split; [reflexivity|]. destruct demo1 as (s & H & Hq & _). by exists s. Qed.

(** C13.  No step of a bounded_push, pop or empty, nor of any call on a
    fixed-size queue, obtains a node; for any tags. *)
Theorem C13_queue_no_allocation c :
  (forall s0 t o w s sp addr thr s' evs,
     qcall c s0 t o w s -> allocates c o = false ->
     qstep c s (Run t sp addr thr) = QNext s' evs ->
     dom (q_heap (q_sh s')) = dom (q_heap (q_sh s))) /\
  (forall s t o addrs thr s' evs,
     allocates c o = false -> qstep c s (Unsync t o addrs thr) = QNext s' evs ->
     dom (q_heap (q_sh s')) = dom (q_heap (q_sh s))) /\
  (forall ns hist s, ns <> [] -> qreach c ns hist s ->
     (forall t o, Inv t o ∈ hist -> allocates c o = false) ->
     dom (q_heap (q_sh s)) = list_to_set ns) /\
  (c_node_based c = false -> forall o, allocates c o = false).
Proof. exact (noalloc_main c). Qed.
Print Assumptions C13_queue_no_allocation.

Example C13_nonvacuous :
  allocates demoN (Push true v1) = false /\ allocates demoN Pop = false /\
  allocates demoN (Push false v1) = true /\
  exists s, qreach demoN pool1 hist1 s /\ forall t o, Inv t o ∈ hist1 -> allocates demoN o = false.
Proof.
  do 3 (split; [reflexivity|]). destruct demo1 as (s & H & _). exists s. split; [done|].
  intros t o Hin. unfold hist1 in Hin.
  repeat (apply elem_of_cons in Hin as [Hin|Hin]; [by inversion Hin|]). by apply elem_of_nil in Hin.
Qed.

(** C14.  The unsynchronized operations, while no other call is running.  The
    resulting state is again reachable, so C01-C13 hold for what follows. *)
Theorem C14_queue_unsynchronized c ns hist s a t :
  c_tagmod c = None -> qreach c ns hist s -> quiescent s -> qcontents c s a ->
  (exists s', qstep c s (Unsync t UPop [] false) = QNext s' [Inv t UPop; Res t (RPop (head a))] /\
     quiescent s' /\ qcontents c s' (tail a)) /\
  (forall v addr, c_node_based c = true -> length v = c_words c ->
     (q_pool (q_sh s)).1 <> c_null c \/
     (exists n, addr = Some n /\ q_heap (q_sh s) !! n = None /\ n <> c_null c) ->
     exists s', qstep c s (Unsync t (UPush v) [addr] false) = QNext s' [Inv t (UPush v); Res t (RBool true)] /\
       quiescent s' /\ qcontents c s' (a ++ [v])) /\
  (forall v, c_node_based c = true -> length v = c_words c -> (q_pool (q_sh s)).1 = c_null c ->
     exists s', qstep c s (Unsync t (UPush v) [None] false) = QNext s' [Inv t (UPush v); Res t RExn] /\
       quiescent s' /\ qcontents c s' a) /\
  (forall n addrs thr s' evs, qstep c s (Unsync t (UReserve n) addrs thr) = QNext s' evs ->
     quiescent s' /\ qcontents c s' a) /\
  (forall o addrs thr s' evs, qstep c s (Unsync t o addrs thr) = QNext s' evs -> Res t RExn ∈ evs ->
     quiescent s' /\ qcontents c s' a).
Proof. exact (fun Ht => unsync_main c Ht ns hist s a t). Qed.
Print Assumptions C14_queue_unsynchronized.

Theorem C14_queue_then_concurrent c ns hist s ch s' evs :
  qreach c ns hist s -> qstep c s ch = QNext s' evs -> qreach c ns (hist ++ evs) s'.
Proof. exact (qreach_step c ns hist s ch s' evs). Qed.
Print Assumptions C14_queue_then_concurrent.

Example C14_nonvacuous :
  c_node_based demoN = true /\ exists s, qreach demoN pool1 hist1 s /\ quiescent s /\ qcontents demoN s [v3].
Proof. exact (conj eq_refl demo1). Qed.

(** An element whose copy or conversion throws: in pop, in unsynchronized_pop and
    in unsynchronized_push. *)
Example C14_exception_nonvacuous :
  exists s s1 s2, qreach demoT pool1
    [Inv 0 (Push true [7%N]); Res 0 (RBool true); Inv 0 (Push true [8%N]); Res 0 (RBool true);
     Inv 1 Pop; Inv 2 Pop; Res 1 RExn; Res 2 (RPop (Some [7%N]))] s /\
    quiescent s /\ qcontents demoT s [[8%N]] /\
    qstep demoT s (Unsync 3 UPop [] true) = QNext s1 [Inv 3 UPop; Res 3 RExn] /\
    qstep demoT s (Unsync 3 (UPush [9%N]) [None] true) = QNext s2 [Inv 3 (UPush [9%N]); Res 3 RExn].
Proof. exact demo_exn. Qed.

(** C42.  reserve(n) that returns normally adds exactly n nodes and leaves the
    contents.  Bounded pushes of [vs] one after the other succeed exactly while
    a node is left over: with n more nodes, n more of them. *)
Theorem C42_queue_reserve c ns hist s a t n tf chs h s' :
  c_tagmod c = None -> qreach c ns hist s -> quiescent s -> qcontents c s a ->
  Forall (fun ch => exists sp addr thr, ch = Run t sp addr thr) chs ->
  qrun c s (Invoke t (Reserve n) tf :: chs) = Some (h, s') -> Res t RUnit ∈ h ->
  size (q_heap (q_sh s')) = size (q_heap (q_sh s)) + n /\ qcontents c s' a /\ quiescent s'.
Proof. exact (fun Ht => reserve_main c Ht ns hist s a t n tf chs h s'). Qed.
Print Assumptions C42_queue_reserve.

Theorem C42_queue_bounded_pushes c ns t vs hist s a :
  c_tagmod c = None -> c_throws c = false -> qreach c ns hist s -> quiescent s -> qcontents c s a ->
  Forall (fun v => length v = c_words c) vs ->
  exists chs s',
    qrun c s chs =
      Some (concat (imap (fun i v =>
              [Inv t (Push true v);
               Res t (RBool (bool_decide (S (length a) + i < size (q_heap (q_sh s)))))]) vs), s') /\
    quiescent s' /\ qcontents c s' (a ++ take (size (q_heap (q_sh s)) - S (length a)) vs).
Proof. exact (fun Ht => push_many c Ht ns t vs hist s a). Qed.
Print Assumptions C42_queue_bounded_pushes.

Example C42_nonvacuous :
  exists s0 s h, qreach demoN [1%N] [] s0 /\ quiescent s0 /\ qcontents demoN s0 [] /\
    qrun demoN s0 (Invoke 0 (Reserve 2) false :: tail sched5) = Some (h, s) /\ Res 0 RUnit ∈ h.
Proof. exact demo_reserve. Qed.
