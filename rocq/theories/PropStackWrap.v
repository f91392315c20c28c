(** Properties C15, C17, C19-C24, C26, C42, C43 and C45 of the stack, with tags
    that wrap modulo [M] (2^16 in the library) and executions in which no tag is
    updated [M] times during a call.  (For C16 see C25; C13 holds for any tags.)

    [swreach], [swcallret] etc. are like [sreach], [scallret] in PropStack.v, in
    such executions.  That the restriction is needed is shown by
    [C25_stack_wraparound_refuted]. *)
From stdpp Require Import gmap list numbers.
From Verif Require Import Lin LinObs LiveSum PoolModel StackModel StackSpec StackObs StackFlow StackLive StackWrapObs
  StackWrapMain WrapWitness WrapMainWitness.

(** C15. *)
Theorem C15_stack_linearizable_wrap c M ns hist s :
  c_tagmod c = Some M -> (2 <= M)%N -> swreach c M ns hist s ->
  hw_linearizable [] (sspec (c_node_based c) (c_throws c)) hist /\
  exists l ph a, lruns (sspec (c_node_based c) (c_throws c)) ∅ [] l ph a /\
    erase l = hist /\ scontents c s a.
Proof. exact (fun Hc HM => w_linearizable c M Hc HM ns hist s). Qed.
Print Assumptions C15_stack_linearizable_wrap.

(** 120 pops with tags modulo 32, and a push; in 40 of them the node on top is
    popped and pushed again between the two accesses to [tos]. *)
Example C15_wrap_nonvacuous :
  c_tagmod swcfg = Some 32%N /\
  exists s, swreach swcfg 32 [1; 2; 3]%N (swhist ++ [Inv 0 (SPush true 9%N); Res 0 (SBool true)]) s /\
    quiescent s /\ scontents swcfg s [9%N].
Proof. exact (conj eq_refl swdemo_one). Qed.

Theorem C15_stack_pop_top_wrap c M ns t w x :
  c_tagmod c = Some M -> (2 <= M)%N -> swcallret c M ns t SPop w (SGot x) ->
  exists a, effect c t w a (tail a) /\ x = head a.
Proof. exact (fun Hc HM => w_pop c M Hc HM ns t w x). Qed.
Print Assumptions C15_stack_pop_top_wrap.

Example C15_pop_wrap_nonvacuous : exists w, swcallret swcfg 32 [1; 2; 3]%N 1 SPop w (SGot (Some 7%N)).
Proof. exact swdemo_pop. Qed.

(** C17. *)
Theorem C17_stack_range_push_wrap c M ns t b vs w k :
  c_tagmod c = Some M -> (2 <= M)%N -> swcallret c M ns t (SRange b vs) w (SIter k) ->
  (exists a, effect c t w a (reverse (take k vs) ++ a)) /\ k <= length vs /\
  (k < length vs ->
     b = true /\ exists st, st ∈ w /\ (s_pool (s_sh (r_post st))).1 = c_null c /\
                            (c_throws c = false -> exhausted c (r_post st))).
Proof. exact (fun Hc HM => w_range c M Hc HM ns t b vs w k). Qed.
Print Assumptions C17_stack_range_push_wrap.

Example C17_wrap_nonvacuous : exists w, swcallret swcfg 32 [1; 2; 3]%N 1 (SRange true [7; 8; 9]%N) w (SIter 1).
Proof. exact swdemo_range. Qed.

(** C19 and C20. *)
Theorem C19_stack_consume_all_atomic_wrap c M ns t w k vs :
  c_tagmod c = Some M -> (2 <= M)%N -> swcallret c M ns t (SAll false) w (SCount k vs) ->
  exists a, effect c t w a [] /\ k = length a /\ vs = a.
Proof. exact (fun Hc HM => w_all c M Hc HM ns t false w k vs). Qed.
Print Assumptions C19_stack_consume_all_atomic_wrap.

Theorem C20_stack_consume_all_reversed_wrap c M ns t w k vs :
  c_tagmod c = Some M -> (2 <= M)%N -> swcallret c M ns t (SAll true) w (SCount k vs) ->
  exists a, effect c t w a [] /\ k = length a /\ vs = reverse a.
Proof. exact (fun Hc HM => w_all c M Hc HM ns t true w k vs). Qed.
Print Assumptions C20_stack_consume_all_reversed_wrap.

(** Element 7 is pushed after the call has loaded [tos]. *)
Example C19_C20_wrap_nonvacuous :
  (exists w, swcallret swcfg 32 [1; 2; 3]%N 1 (SAll false) w (SCount 2 [7; 5]%N)) /\
  (exists w, swcallret swcfg 32 [1; 2; 3]%N 1 (SAll true) w (SCount 2 [5; 7]%N)).
Proof. exact (conj (swdemo_all false) (swdemo_all true)). Qed.

(** C21. *)
Theorem C21_stack_empty_wrap c M ns t w b :
  c_tagmod c = Some M -> (2 <= M)%N -> swcallret c M ns t SEmpty w (SBool b) ->
  exists a, effect c t w a a /\ b = bool_decide (a = []).
Proof. exact (fun Hc HM => w_empty c M Hc HM ns t w b). Qed.
Print Assumptions C21_stack_empty_wrap.

Example C21_wrap_nonvacuous : exists w, swcallret swcfg 32 [1; 2; 3]%N 1 SEmpty w (SBool false).
Proof. exact swdemo_empty. Qed.

(** C22. *)
Theorem C22_stack_push_fails_only_exhausted_wrap c M ns t b v w :
  c_tagmod c = Some M -> (2 <= M)%N -> swcallret c M ns t (SPush b v) w (SBool false) ->
  (c_node_based c = false \/ b = true) /\
  exists st, st ∈ w /\ (s_pool (s_sh (r_post st))).1 = c_null c /\
             (c_throws c = false -> exhausted c (r_post st)).
Proof. exact (fun Hc HM => w_push_fail c M Hc HM ns t b v w). Qed.
Print Assumptions C22_stack_push_fails_only_exhausted_wrap.

Example C22_wrap_nonvacuous : exists w, swcallret swcfg 32 [1; 2; 3]%N 1 (SPush true 9%N) w (SBool false).
Proof. exact swdemo_push_fail. Qed.

Theorem C22_stack_capacity_wrap c M ns hist s a :
  c_tagmod c = Some M -> (2 <= M)%N -> swreach c M ns hist s ->
  (forall t o, Inv t o ∈ hist -> allocates c o = false) ->
  size (s_heap (s_sh s)) = length ns /\ (scontents c s a -> length a <= length ns).
Proof. exact (fun Hc HM => w_bounds c M Hc HM ns hist s a). Qed.
Print Assumptions C22_stack_capacity_wrap.

Theorem C22_stack_push_iff_space_wrap c M ns hist s a t b v :
  c_tagmod c = Some M -> (2 <= M)%N -> c_throws c = false ->
  swreach c M ns hist s -> quiescent s -> scontents c s a -> c_node_based c = false \/ b = true ->
  exists k s', srun c s (Invoke t (SPush b v) :: replicate k (Run t false None false)) =
      Some ([Inv t (SPush b v); Res t (SBool (bool_decide (length a < size (s_heap (s_sh s)))))], s') /\
    quiescent s' /\
    scontents c s' (if decide (length a < size (s_heap (s_sh s))) then v :: a else a).
Proof. exact (fun Hc HM => w_push_quiet c M Hc HM ns hist s a t b v). Qed.
Print Assumptions C22_stack_push_iff_space_wrap.

(** C23.  An execution from a reachable state in which no call completes has at
    most [s_bound] steps; and a thread inside a call is never blocked. *)
Theorem C23_stack_no_completion_bounded_wrap c M ns hist s k chs h s' :
  c_tagmod c = Some M -> (2 <= M)%N -> swat c M ns hist s k -> Forall s_fair chs ->
  swcont c M s k chs h s' -> (forall t r, Res t r ∉ h) ->
  length chs <= length (s_invoked chs) +
    s_bound (size (s_pcs s) + length (s_invoked chs))
            (2 * s_alive s + msum s_work (s_pcs s) + sum_list (s_opwork <$> s_invoked chs))
            (s_alive s + msum s_elems (s_pcs s) + sum_list (s_opelems <$> s_invoked chs)).
Proof. exact (fun Hc HM => w_live c M Hc HM ns hist s k chs h s'). Qed.
Print Assumptions C23_stack_no_completion_bounded_wrap.

Theorem C23_stack_never_blocked_wrap c M ns hist s t :
  c_tagmod c = Some M -> (2 <= M)%N -> swreach c M ns hist s -> is_Some (s_pcs s !! t) ->
  exists s' evs, sstep c s (Run t false None false) = SNext s' evs.
Proof. exact (fun Hc HM => w_enabled c M Hc HM ns hist s t). Qed.
Print Assumptions C23_stack_never_blocked_wrap.

(** Two pushes, a pop and a consume_all make 17 steps, and none of them
    completes. *)
Example C23_wrap_nonvacuous : length swfrag = 17 /\
  exists s k s', swat swcfg 32 [1; 2; 3]%N swhist s k /\ Forall s_fair swfrag /\
    swcont swcfg 32 s k swfrag
      [Inv 1 (SPush true 5%N); Inv 2 SPop; Inv 3 (SPush true 6%N); Inv 4 (SAll true)] s'.
Proof. exact (conj eq_refl swdemo_live). Qed.

(** C24. *)
Theorem C24_stack_destructor_wrap c M ns hist s a :
  c_tagmod c = Some M -> (2 <= M)%N -> c_throws c = false ->
  swreach c M ns hist s -> quiescent s -> scontents c s a ->
  exists l, sdtor c (s_sh s) = Some (a, l) /\ NoDup l /\
    forall n, n ∈ l <-> is_Some (s_heap (s_sh s) !! n).
Proof. exact (fun Hc HM => w_dtor c M Hc HM ns hist s a). Qed.
Print Assumptions C24_stack_destructor_wrap.

(** C26. *)
Theorem C26_stack_push_exception_wrap c M ns t o w es :
  c_tagmod c = Some M -> (2 <= M)%N -> swcallret c M ns t o w (SExn es) ->
  match o with SPush _ _ | SRange _ _ => True | _ => False end ->
  (exists a, effect c t w a a) /\ forall st, st ∈ w -> ch_thread (r_ch st) = t -> silent c st.
Proof. exact (fun Hc HM => w_exn c M Hc HM ns t o w es). Qed.
Print Assumptions C26_stack_push_exception_wrap.

Example C26_wrap_nonvacuous : exists w, swcallret swcfgT 32 [1; 2; 3]%N 1 (SRange true [7; 8]%N) w (SExn []).
Proof. exact swdemo_exn. Qed.

(** C42. *)
Theorem C42_stack_reserve_wrap c M ns hist s a t n chs h s' :
  c_tagmod c = Some M -> (2 <= M)%N -> swreach c M ns hist s -> quiescent s -> scontents c s a ->
  Forall (fun ch => exists sp addr thr, ch = Run t sp addr thr) chs ->
  srun c s (Invoke t (SReserve n) :: chs) = Some (h, s') -> Res t SUnit ∈ h ->
  size (s_heap (s_sh s')) = size (s_heap (s_sh s)) + n /\ scontents c s' a /\ quiescent s'.
Proof. exact (fun Hc HM => w_reserve c M Hc HM ns hist s a t n chs h s'). Qed.
Print Assumptions C42_stack_reserve_wrap.

Theorem C42_stack_bounded_pushes_wrap c M ns t vs hist s a :
  c_tagmod c = Some M -> (2 <= M)%N -> c_throws c = false ->
  swreach c M ns hist s -> quiescent s -> scontents c s a ->
  exists chs s',
    srun c s chs =
      Some (concat (imap (fun i v =>
              [Inv t (SPush true v);
               Res t (SBool (bool_decide (length a + i < size (s_heap (s_sh s)))))]) vs), s') /\
    quiescent s' /\ scontents c s' (reverse (take (size (s_heap (s_sh s)) - length a) vs) ++ a).
Proof. exact (fun Hc HM => w_push_many c M Hc HM ns t vs hist s a). Qed.
Print Assumptions C42_stack_bounded_pushes_wrap.

(** C43. *)
Theorem C43_stack_unsynchronized_wrap c M ns hist s a t o addrs thr s' evs :
  c_tagmod c = Some M -> (2 <= M)%N -> swreach c M ns hist s -> scontents c s a -> nonempty_op o ->
  sstep c s (Unsync t o addrs thr) = SNext s' evs ->
  exists r a', evs = [Inv t o; Res t r] /\ sspec (c_node_based c) (c_throws c) a o r a' /\
    quiescent s' /\ scontents c s' a'.
Proof. exact (fun Hc HM => w_unsync c M Hc HM ns hist s a t o addrs thr s' evs). Qed.
Print Assumptions C43_stack_unsynchronized_wrap.

(** No call is in progress afterwards, so no count is in the way. *)
Theorem C43_stack_then_concurrent_wrap c M ns hist s t o addrs thr s' evs :
  swreach c M ns hist s -> nonempty_op o -> sstep c s (Unsync t o addrs thr) = SNext s' evs ->
  swreach c M ns (hist ++ evs) s'.
Proof. exact (w_unsync_reach c M ns hist s t o addrs thr s' evs). Qed.
Print Assumptions C43_stack_then_concurrent_wrap.

(** C45. *)
Theorem C45_stack_conservation_wrap c M ns hist s :
  c_tagmod c = Some M -> (2 <= M)%N -> swreach c M ns hist s ->
  exists P T D a, scontents c s a /\ P ≡ₚ T ++ D ++ a /\
    (completed hist ≫= sputs) ⊆+ P /\
    P ⊆+ (completed hist ≫= sputs) ++ (pending hist ≫= soffers) /\
    (completed hist ≫= stakes) ⊆+ T /\ (c_throws c = false -> D = []).
Proof. exact (fun Hc HM => w_conserve c M Hc HM ns hist s). Qed.
Print Assumptions C45_stack_conservation_wrap.

Theorem C45_stack_conservation_quiescent_wrap c M ns hist s :
  c_tagmod c = Some M -> (2 <= M)%N -> swreach c M ns hist s -> quiescent s ->
  exists D a, scontents c s a /\
    (completed hist ≫= sputs) ≡ₚ (completed hist ≫= stakes) ++ D ++ a /\
    (Forall (fun x => cut_short x = false) (completed hist) -> D = []).
Proof. exact (fun Hc HM => w_conserve_quiet c M Hc HM ns hist s). Qed.
Print Assumptions C45_stack_conservation_quiescent_wrap.

(** The hypotheses of C22, C24, C42, C43 and C45 about states. *)
Example C22_C24_C42_C43_C45_wrap_nonvacuous :
  c_throws swcfg = false /\ c_node_based swcfg = true /\
  length (completed swhist1 ≫= sputs) = 121 /\ length (completed swhist1 ≫= stakes) = 120 /\
  Forall (fun x => cut_short x = false) (completed swhist1) /\
  (forall t o, Inv t o ∈ swhist1 -> allocates swcfg o = false) /\
  exists s, swreach swcfg 32 [1; 2; 3]%N swhist1 s /\ quiescent s /\ scontents swcfg s [9%N].
Proof.
  do 2 (split; [reflexivity|]). do 2 (split; [vm_compute; reflexivity|]).
  split; [vm_compute; repeat constructor|]. split; [|exact swdemo_one].
  intros t o Hin.
  assert (Hn : forallb (fun e => match e with Inv _ o => negb (allocates swcfg o) | _ => true end) swhist1 = true)
    by (vm_compute; reflexivity).
  rewrite forallb_forall in Hn. apply elem_of_list_In, Hn in Hin. by apply negb_true_iff in Hin.
Qed.
