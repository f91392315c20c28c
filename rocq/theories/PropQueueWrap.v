(** Properties C01, C03-C11, C14 and C42 of the queue, with tags that wrap modulo
    [M] (2^16 in the library) and executions in which no tag is updated [M] times
    during a call.  (For C02 see C12; C13 holds for any tags.)

    [qwreach], [qwcallret] etc. are like [qreach], [qcallret] in PropQueue.v, in
    such executions.  That the restriction is needed is shown by
    [C12_queue_wraparound_refuted]. *)
From stdpp Require Import gmap list numbers.
From Verif Require Import Lin LinObs LiveSum PoolModel QueueModel QueueSpec QueueObs QueueLive QueueWrapObs
  QueueWrapMain WrapWitness WrapMainWitness.

(** C01.  Also, some placement of the calls' effects leads to what is stored. *)
Theorem C01_queue_linearizable_wrap c M ns hist s :
  c_tagmod c = Some M -> (2 <= M)%N -> qwreach c M ns hist s ->
  hw_linearizable [] (qspec (c_node_based c) (c_throws c)) hist /\
  exists l ph a, lruns (qspec (c_node_based c) (c_throws c)) ∅ [] l ph a /\
    erase l = hist /\ qcontents c s a.
Proof. exact (fun Hc HM => w_linearizable c M Hc HM ns hist s). Qed.
Print Assumptions C01_queue_linearizable_wrap.

(** 120 pops with tags modulo 64, a third of them interrupted by a pop and a
    push; and one more push. *)
Example C01_wrap_nonvacuous :
  c_tagmod qwcfg = Some 64%N /\
  exists s, qwreach qwcfg 64 [1; 2; 3]%N (qwhist ++ [Inv 0 (Push true [9%N]); Res 0 (RBool true)]) s /\
    quiescent s /\ qcontents qwcfg s [[9%N]].
Proof. exact (conj eq_refl qwdemo_one). Qed.

(** C03. *)
Theorem C03_queue_no_torn_value_wrap c M ns hist s h1 h2 t v :
  c_tagmod c = Some M -> (2 <= M)%N -> qwreach c M ns hist s -> hist = h1 ++ Res t (RPop (Some v)) :: h2 ->
  exists t' o, Inv t' o ∈ h1 /\ pushes o = Some v.
Proof. exact (fun Hc HM => w_origin c M Hc HM ns hist s h1 h2 t v). Qed.
Print Assumptions C03_queue_no_torn_value_wrap.

Example C03_wrap_nonvacuous :
  (exists h1, qwhist = h1 ++ Res 2 (RPop (Some [7%N])) :: []) /\ exists s, qwreach qwcfg 64 [1; 2; 3]%N qwhist s.
Proof.
  split; [exists (take 479 qwhist); vm_compute; reflexivity|]. destruct qwrap_demo as (s & H & _). by exists s.
Qed.

(** C04. *)
Theorem C04_queue_push_fails_only_exhausted_wrap c M ns t b v w :
  c_tagmod c = Some M -> (2 <= M)%N -> qwcallret c M ns t (Push b v) w (RBool false) ->
  (c_node_based c = false \/ b = true) /\
  exists s, s ∈ w /\ (q_pool (q_sh s)).1 = c_null c /\ (c_throws c = false -> exhausted c s).
Proof. exact (fun Hc HM => w_push_fail c M Hc HM ns t b v w). Qed.
Print Assumptions C04_queue_push_fails_only_exhausted_wrap.

Example C04_wrap_nonvacuous : exists w, qwcallret qwcfg 64 [1; 2; 3]%N 1 (Push true [9%N]) w (RBool false).
Proof. exact qwdemo_push_fail. Qed.

(** C05. *)
Theorem C05_queue_pop_empty_justified_wrap c M ns t w :
  c_tagmod c = Some M -> (2 <= M)%N -> qwcallret c M ns t Pop w (RPop None) -> exists s, s ∈ w /\ qcontents c s [].
Proof. exact (fun Hc HM => w_pop_empty c M Hc HM ns t w). Qed.
Print Assumptions C05_queue_pop_empty_justified_wrap.

Example C05_wrap_nonvacuous : exists w, qwcallret qwcfg 64 [1; 2; 3]%N 1 Pop w (RPop None).
Proof. exact qwdemo_pop_empty. Qed.

(** C06. *)
Theorem C06_queue_conservation_wrap c M ns hist s :
  c_tagmod c = Some M -> (2 <= M)%N -> qwreach c M ns hist s ->
  exists P T a, qcontents c s a /\ P = T ++ a /\
    omap puts (completed hist) ⊆+ P /\
    P ⊆+ omap puts (completed hist) ++ omap pushes (pending hist) /\
    omap takes (completed hist) ⊆+ T /\
    length T <= length (omap takes (completed hist)) +
                length (filter (fun o => is_pop o = true) (pending hist)).
Proof. exact (fun Hc HM => w_conserve c M Hc HM ns hist s). Qed.
Print Assumptions C06_queue_conservation_wrap.

Theorem C06_queue_conservation_quiescent_wrap c M ns hist s :
  c_tagmod c = Some M -> (2 <= M)%N -> qwreach c M ns hist s -> quiescent s ->
  exists a, qcontents c s a /\ omap puts (completed hist) ≡ₚ omap takes (completed hist) ++ a.
Proof. exact (fun Hc HM => w_conserve_quiet c M Hc HM ns hist s). Qed.
Print Assumptions C06_queue_conservation_quiescent_wrap.

Example C06_wrap_nonvacuous :
  length (omap puts (completed qwhist1)) = 121 /\ length (omap takes (completed qwhist1)) = 120 /\
  exists s, qwreach qwcfg 64 [1; 2; 3]%N qwhist1 s /\ quiescent s.
Proof.
  split; [vm_compute; reflexivity|]. split; [vm_compute; reflexivity|].
  destruct qwdemo_one as (s & H & Hq & _). by exists s.
Qed.

(** C07. *)
Theorem C07_queue_fifo_wrap c M ns hist s :
  c_tagmod c = Some M -> (2 <= M)%N -> qwreach c M ns hist s ->
  forall i1 j1 t1 o1 i2 t2 o2 k1 l1 s1 p1 k2 l2 s2 p2 v1 v2,
    v1 <> v2 ->
    (forall i t o, hist !! i = Some (Inv t o) -> pushes o = Some v1 -> i = i1) ->
    (forall i t o, hist !! i = Some (Inv t o) -> pushes o = Some v2 -> i = i2) ->
    call_returns hist i1 j1 t1 o1 (RBool true) -> pushes o1 = Some v1 ->
    hist !! i2 = Some (Inv t2 o2) -> pushes o2 = Some v2 -> j1 < i2 ->
    call_returns hist k1 l1 s1 p1 (RPop (Some v1)) -> is_pop p1 = true ->
    call_returns hist k2 l2 s2 p2 (RPop (Some v2)) -> is_pop p2 = true ->
    k1 <= l2.
Proof. exact (fun Hc HM => w_fifo c M Hc HM ns hist s). Qed.
Print Assumptions C07_queue_fifo_wrap.

(** The last four calls: pushes of [8] and [9], and pops of them. *)
Example C07_wrap_nonvacuous :
  (exists s, qwreach qwcfg 64 [1; 2; 3]%N qwhist2 s) /\
  (forall i t o, qwhist2 !! i = Some (Inv t o) -> pushes o = Some [8%N] -> i = 480) /\
  (forall i t o, qwhist2 !! i = Some (Inv t o) -> pushes o = Some [9%N] -> i = 482) /\
  call_returns qwhist2 480 481 0 (Push true [8%N]) (RBool true) /\
  qwhist2 !! 482 = Some (Inv 0 (Push true [9%N])) /\
  call_returns qwhist2 484 485 1 Pop (RPop (Some [8%N])) /\
  call_returns qwhist2 486 487 2 Pop (RPop (Some [9%N])).
Proof.
  assert (Hcr : forall i t o r, qwhist2 !! i = Some (Inv t o) -> qwhist2 !! S i = Some (Res t r) ->
    call_returns qwhist2 i (S i) t o r).
  { intros i t o r H1 H2. split; [done|]. split; [lia|]. split; [done|]. intros k e Hk. lia. }
  split; [exact qwdemo_two|]. split; [apply qwdemo_unique; vm_compute; reflexivity|].
  split; [apply qwdemo_unique; vm_compute; reflexivity|].
  split; [apply Hcr; vm_compute; reflexivity|]. split; [vm_compute; reflexivity|].
  split; apply Hcr; vm_compute; reflexivity.
Qed.

(** C08. *)
Theorem C08_queue_empty_quiescent_wrap c M ns hist s a t tf :
  c_tagmod c = Some M -> (2 <= M)%N -> qwreach c M ns hist s -> quiescent s -> qcontents c s a ->
  qrun c s (Invoke t Empty tf :: replicate 3 (Run t false None false)) =
    Some ([Inv t Empty; Res t (RBool (bool_decide (a = [])))], s).
Proof. exact (fun Hc HM => w_empty_quiet c M Hc HM ns hist s a t tf). Qed.
Print Assumptions C08_queue_empty_quiescent_wrap.

Theorem C08_queue_empty_false_justified_wrap c M ns t w :
  c_tagmod c = Some M -> (2 <= M)%N -> qwcallret c M ns t Empty w (RBool false) ->
  exists s v a, s ∈ w /\ qcontents c s (v :: a).
Proof. exact (fun Hc HM => w_empty_false c M Hc HM ns t w). Qed.
Print Assumptions C08_queue_empty_false_justified_wrap.

Example C08_wrap_nonvacuous : exists w, qwcallret qwcfg 64 [1; 2; 3]%N 1 Empty w (RBool false).
Proof. exact qwdemo_empty_false. Qed.

(** C09.  An execution from a reachable state in which no call completes has at
    most [q_bound] steps; and a thread inside a call is never blocked. *)
Theorem C09_queue_no_completion_bounded_wrap c M ns hist s k chs h s' :
  c_tagmod c = Some M -> (2 <= M)%N -> qwat c M ns hist s k -> Forall q_fair chs ->
  qwcont c M s k chs h s' -> (forall t r, Res t r ∉ h) ->
  length chs <= length (q_invoked chs) +
    q_bound c (size (q_pcs s) + length (q_invoked chs))
              (msum q_work (q_pcs s) + sum_list (q_opwork <$> q_invoked chs)).
Proof. exact (fun Hc HM => w_live c M Hc HM ns hist s k chs h s'). Qed.
Print Assumptions C09_queue_no_completion_bounded_wrap.

Theorem C09_queue_never_blocked_wrap c M ns hist s t :
  c_tagmod c = Some M -> (2 <= M)%N -> qwreach c M ns hist s -> is_Some (q_pcs s !! t) ->
  exists s' evs, qstep c s (Run t false None false) = QNext s' evs.
Proof. exact (fun Hc HM => w_enabled c M Hc HM ns hist s t). Qed.
Print Assumptions C09_queue_never_blocked_wrap.

(** Two pushes and two pops make 25 steps, and none of them completes. *)
Example C09_wrap_nonvacuous : length qwfrag = 25 /\
  exists s k s', qwat qwcfg 64 [1; 2; 3]%N qwhist s k /\ Forall q_fair qwfrag /\
    qwcont qwcfg 64 s k qwfrag [Inv 1 (Push true [5%N]); Inv 2 Pop; Inv 3 (Push true [6%N]); Inv 4 Pop] s'.
Proof. exact (conj eq_refl qwdemo_live). Qed.

(** C10. *)
Theorem C10_queue_capacity_bound_wrap c M ns hist s a :
  c_tagmod c = Some M -> (2 <= M)%N -> ns <> [] -> qwreach c M ns hist s ->
  (forall t o, Inv t o ∈ hist -> allocates c o = false) ->
  size (q_heap (q_sh s)) = length ns /\ (qcontents c s a -> S (length a) <= length ns).
Proof. exact (fun Hc HM => w_bounds c M Hc HM ns hist s a). Qed.
Print Assumptions C10_queue_capacity_bound_wrap.

Theorem C10_queue_push_iff_space_wrap c M ns hist s a t b v tf :
  c_tagmod c = Some M -> (2 <= M)%N -> c_throws c = false ->
  qwreach c M ns hist s -> quiescent s -> qcontents c s a ->
  length v = c_words c -> c_node_based c = false \/ b = true ->
  exists k s', qrun c s (Invoke t (Push b v) tf :: replicate k (Run t false None false)) =
      Some ([Inv t (Push b v); Res t (RBool (bool_decide (S (length a) < size (q_heap (q_sh s)))))], s') /\
    quiescent s' /\
    qcontents c s' (if decide (S (length a) < size (q_heap (q_sh s))) then a ++ [v] else a).
Proof. exact (fun Hc HM => w_push_quiet c M Hc HM ns hist s a t b v tf). Qed.
Print Assumptions C10_queue_push_iff_space_wrap.

Theorem C10_queue_pop_returns_first_wrap c M ns hist s a t tf :
  c_tagmod c = Some M -> (2 <= M)%N -> qwreach c M ns hist s -> quiescent s -> qcontents c s a ->
  exists k s', qrun c s (Invoke t Pop tf :: replicate k (Run t false None false)) =
      Some ([Inv t Pop; Res t (RPop (head a))], s') /\ quiescent s' /\ qcontents c s' (tail a).
Proof. exact (fun Hc HM => w_pop_quiet c M Hc HM ns hist s a t tf). Qed.
Print Assumptions C10_queue_pop_returns_first_wrap.

(** C11. *)
Theorem C11_queue_destructor_wrap c M ns hist s :
  c_tagmod c = Some M -> (2 <= M)%N -> c_throws c = false -> qwreach c M ns hist s -> quiescent s ->
  exists l, qdtor c (q_sh s) = Some l /\ NoDup l /\
    forall n, n ∈ l <-> is_Some (q_heap (q_sh s) !! n).
Proof. exact (fun Hc HM => w_dtor c M Hc HM ns hist s). Qed.
Print Assumptions C11_queue_destructor_wrap.

(** C14. *)
Theorem C14_queue_unsynchronized_wrap c M ns hist s a t :
  c_tagmod c = Some M -> (2 <= M)%N -> qwreach c M ns hist s -> quiescent s -> qcontents c s a ->
  (exists s', qstep c s (Unsync t UPop [] false) = QNext s' [Inv t UPop; Res t (RPop (head a))] /\
     quiescent s' /\ qcontents c s' (tail a)) /\
  (forall v addr, c_node_based c = true -> length v = c_words c ->
     (q_pool (q_sh s)).1 <> c_null c \/
     (exists n, addr = Some n /\ q_heap (q_sh s) !! n = None /\ n <> c_null c) ->
     exists s', qstep c s (Unsync t (UPush v) [addr] false) = QNext s' [Inv t (UPush v); Res t (RBool true)] /\
       quiescent s' /\ qcontents c s' (a ++ [v])) /\
  (forall v, c_node_based c = true -> length v = c_words c -> (q_pool (q_sh s)).1 = c_null c ->
     exists s', qstep c s (Unsync t (UPush v) [None] false) = QNext s' [Inv t (UPush v); Res t RExn] /\
       quiescent s' /\ qcontents c s' a) /\
  (forall n addrs thr s' evs, qstep c s (Unsync t (UReserve n) addrs thr) = QNext s' evs ->
     quiescent s' /\ qcontents c s' a) /\
  (forall o addrs thr s' evs, qstep c s (Unsync t o addrs thr) = QNext s' evs -> Res t RExn ∈ evs ->
     quiescent s' /\ qcontents c s' a).
Proof. exact (fun Hc HM => w_unsync c M Hc HM ns hist s a t). Qed.
Print Assumptions C14_queue_unsynchronized_wrap.

(** No call is in progress afterwards, so no count is in the way. *)
Theorem C14_queue_then_concurrent_wrap c M ns hist s t o addrs thr s' evs :
  qwreach c M ns hist s -> qstep c s (Unsync t o addrs thr) = QNext s' evs -> qwreach c M ns (hist ++ evs) s'.
Proof. exact (w_unsync_reach c M ns hist s t o addrs thr s' evs). Qed.
Print Assumptions C14_queue_then_concurrent_wrap.

(** C42. *)
Theorem C42_queue_reserve_wrap c M ns hist s a t n tf chs h s' :
  c_tagmod c = Some M -> (2 <= M)%N -> qwreach c M ns hist s -> quiescent s -> qcontents c s a ->
  Forall (fun ch => exists sp addr thr, ch = Run t sp addr thr) chs ->
  qrun c s (Invoke t (Reserve n) tf :: chs) = Some (h, s') -> Res t RUnit ∈ h ->
  size (q_heap (q_sh s')) = size (q_heap (q_sh s)) + n /\ qcontents c s' a /\ quiescent s'.
Proof. exact (fun Hc HM => w_reserve c M Hc HM ns hist s a t n tf chs h s'). Qed.
Print Assumptions C42_queue_reserve_wrap.

Theorem C42_queue_bounded_pushes_wrap c M ns t vs hist s a :
  c_tagmod c = Some M -> (2 <= M)%N -> c_throws c = false ->
  qwreach c M ns hist s -> quiescent s -> qcontents c s a ->
  Forall (fun v => length v = c_words c) vs ->
  exists chs s',
    qrun c s chs =
      Some (concat (imap (fun i v =>
              [Inv t (Push true v);
               Res t (RBool (bool_decide (S (length a) + i < size (q_heap (q_sh s)))))]) vs), s') /\
    quiescent s' /\ qcontents c s' (a ++ take (size (q_heap (q_sh s)) - S (length a)) vs).
Proof. exact (fun Hc HM => w_push_many c M Hc HM ns t vs hist s a). Qed.
Print Assumptions C42_queue_bounded_pushes_wrap.

(** The hypotheses of C08, C10, C11, C14 and C42 about states. *)
Example C10_C11_C14_C42_wrap_nonvacuous :
  c_throws qwcfg = false /\ c_node_based qwcfg = true /\
  (forall t o, Inv t o ∈ qwhist1 -> allocates qwcfg o = false) /\
  exists s, qwreach qwcfg 64 [1; 2; 3]%N qwhist1 s /\ quiescent s /\ qcontents qwcfg s [[9%N]].
Proof.
  do 2 (split; [reflexivity|]). split; [|exact qwdemo_one].
  intros t o Hin.
  assert (Hn : forallb (fun e => match e with Inv _ o => negb (allocates qwcfg o) | _ => true end) qwhist1 = true)
    by (vm_compute; reflexivity).
  rewrite forallb_forall in Hn. apply elem_of_list_In, Hn in Hin. by apply negb_true_iff in Hin.
Qed.
