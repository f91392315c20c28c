(** Properties C09 and C23 with weak compare-exchanges that fail spuriously.

    [q_sync] and [s_sync] are the steps of threads, with or without a spurious
    failure, and invocations of thread-safe operations.  [q_spurious] and
    [s_spurious] count the steps marked as failing.  Each of them costs at most a
    constant (for the stack: a constant per element that a consume_all may have
    to walk through) in the bound on executions in which no call completes. *)
From stdpp Require Import gmap list numbers.
From Verif Require Import Lin LiveSum PoolModel.
From Verif Require QueueModel QueueObs QueueDemo QueueLive QueueSpurious QueueWrapObs QueueSpuriousWrap.
From Verif Require StackModel StackObs StackDemo StackLive StackSpurious StackWrapObs StackSpuriousWrap.
From Verif Require Import WrapWitness LiveWitness WrapMainWitness SpuriousWitness.

Section queue.
  Import QueueModel QueueObs QueueDemo QueueLive QueueSpurious QueueWrapObs QueueSpuriousWrap.

  (** C09. *)
  Theorem C09_queue_spurious_bounded c ns hist s chs h s' :
    c_tagmod c = None -> qreach c ns hist s -> Forall q_sync chs -> qrun c s chs = Some (h, s') ->
    (forall t r, Res t r ∉ h) ->
    length chs <= length (q_invoked chs) +
      q_bound c (size (q_pcs s) + length (q_invoked chs))
                (msum q_work (q_pcs s) + sum_list (q_opwork <$> q_invoked chs)) +
      q_spurious chs * (2 * c_words c + 22).
  Proof. exact (fun Ht => spurious_main c Ht ns hist s chs h s'). Qed.

  (** 79 steps, 70 of which fail if they are compare-exchanges; none completes. *)
  Example C09_spurious_nonvacuous : exists s s',
    qreach demoN qpool qprehist s /\ Forall q_sync qffrag /\
    q_spurious qffrag = 70 /\ length qffrag = 79 /\
    qrun demoN s qffrag = Some ([Inv 4 Pop], s').
  Proof. exact qspurious_demo. Qed.

  (** With tags that wrap modulo [M], none of them being updated [M] times during
      a call. *)
  Theorem C09_queue_spurious_bounded_wrap c M ns hist s k chs h s' :
    c_tagmod c = Some M -> (2 <= M)%N -> qwat c M ns hist s k -> Forall q_sync chs ->
    qwcont c M s k chs h s' -> (forall t r, Res t r ∉ h) ->
    length chs <= length (q_invoked chs) +
      q_bound c (size (q_pcs s) + length (q_invoked chs))
                (msum q_work (q_pcs s) + sum_list (q_opwork <$> q_invoked chs)) +
      q_spurious chs * (2 * c_words c + 22).
  Proof. exact (fun Hc HM => w_spurious c M Hc HM ns hist s k chs h s'). Qed.

  Example C09_spurious_wrap_nonvacuous : length qwffrag = 40 /\ q_spurious qwffrag = 20 /\
    exists s k s', qwat qwcfg 64 [1; 2; 3]%N qwhist s k /\ Forall q_sync qwffrag /\
      qwcont qwcfg 64 s k qwffrag [Inv 1 (Push true [5%N]); Inv 2 Pop; Inv 3 (Push true [6%N]); Inv 4 Pop] s'.
  Proof. exact (conj eq_refl (conj eq_refl qwspurious_demo)). Qed.
End queue.

Section stack.
  Import StackModel StackObs StackDemo StackLive StackSpurious StackWrapObs StackSpuriousWrap.

  (** C23. *)
  Theorem C23_stack_spurious_bounded c ns hist s chs h s' :
    c_tagmod c = None -> sreach c ns hist s -> Forall s_sync chs -> srun c s chs = Some (h, s') ->
    (forall t r, Res t r ∉ h) ->
    length chs <= length (s_invoked chs) +
      s_bound (size (s_pcs s) + length (s_invoked chs))
              (2 * s_alive s + msum s_work (s_pcs s) + sum_list (s_opwork <$> s_invoked chs))
              (s_alive s + msum s_elems (s_pcs s) + sum_list (s_opelems <$> s_invoked chs)) +
      s_spurious chs *
        (2 * (s_alive s + msum s_elems (s_pcs s) + sum_list (s_opelems <$> s_invoked chs)) + 10).
  Proof. exact (fun Ht => spurious_main c Ht ns hist s chs h s'). Qed.

  Example C23_spurious_nonvacuous : exists s s',
    sreach sdemoN spool sprehist s /\ Forall s_sync sffrag /\
    s_spurious sffrag = 41 /\ length sffrag = 57 /\
    srun sdemoN s sffrag = Some ([Inv 4 (SPush true 8%N)], s').
  Proof. exact sspurious_demo. Qed.

  Theorem C23_stack_spurious_bounded_wrap c M ns hist s k chs h s' :
    c_tagmod c = Some M -> (2 <= M)%N -> swat c M ns hist s k -> Forall s_sync chs ->
    swcont c M s k chs h s' -> (forall t r, Res t r ∉ h) ->
    length chs <= length (s_invoked chs) +
      s_bound (size (s_pcs s) + length (s_invoked chs))
              (2 * s_alive s + msum s_work (s_pcs s) + sum_list (s_opwork <$> s_invoked chs))
              (s_alive s + msum s_elems (s_pcs s) + sum_list (s_opelems <$> s_invoked chs)) +
      s_spurious chs *
        (2 * (s_alive s + msum s_elems (s_pcs s) + sum_list (s_opelems <$> s_invoked chs)) + 10).
  Proof. exact (fun Hc HM => w_spurious c M Hc HM ns hist s k chs h s'). Qed.

  Example C23_spurious_wrap_nonvacuous : length swffrag = 23 /\ s_spurious swffrag = 12 /\
    exists s k s', swat swcfg 32 [1; 2; 3]%N swhist s k /\ Forall s_sync swffrag /\
      swcont swcfg 32 s k swffrag
        [Inv 1 (SPush true 5%N); Inv 2 SPop; Inv 3 (SPush true 6%N); Inv 4 (SAll true)] s'.
  Proof. exact (conj eq_refl (conj eq_refl swspurious_demo)). Qed.
End stack.

Print Assumptions C09_queue_spurious_bounded.
Print Assumptions C09_queue_spurious_bounded_wrap.
Print Assumptions C23_stack_spurious_bounded.
Print Assumptions C23_stack_spurious_bounded_wrap.
