(** Property C61: several threads that push or pop on one spsc_queue.

    Producers are the threads 0, 2, 4, ..., consumers 1, 3, 5, ....  In [msteps c true]
    the producers share a lock, and the consumers share another; in [msteps c false]
    there are no locks.  [side] replaces the name of a thread by 0 for producers and
    1 for consumers. *)
From stdpp Require Import gmap list numbers.
From Verif Require Import Lin SpscModel SpscSpec SpscObs SpscHist SpscLife SpscMain SpscDemo
  SpscShareModel SpscShare SpscShareNames SpscShareWitness.

(** With locks, what happens is what can happen with one producer and one consumer
    - so all theorems about these (C28-C35) hold. *)
Theorem C61_spsc_shared_reach {V} c hist (s : mstate V) :
  msteps c true hist s ->
  exists x, xreach c (side <$> hist) x /\
    x_w x = m_w s /\ x_r x = m_r s /\ x_slots x = m_slots s /\ x_dead x = m_dead s.
Proof. exact (fun H => ex_intro _ _ (conj (reach_main c hist s H) (conj eq_refl (conj eq_refl (conj eq_refl eq_refl))))). Qed.
Print Assumptions C61_spsc_shared_reach.

(** No data race, no access to a dead object and none outside the buffer. *)
Theorem C61_spsc_shared_race_free {V} c hist (s : mstate V) i ch e :
  code_cfg c -> msteps c true hist s -> mstep c true s i ch <> MErr e.
Proof. exact (fun Hc H He => match err_main c hist s i ch e H He with
  ex_intro _ h (ex_intro _ x (conj Hx Hs)) => no_err c Hc h x ch e Hx Hs end). Qed.
Print Assumptions C61_spsc_shared_race_free.

(** What all consumers have popped is a prefix of what all producers have pushed. *)
Theorem C61_spsc_shared_prefix {V} c hist (s : mstate V) :
  code_cfg c -> msteps c true hist s ->
  Forall (fun e => match e with Inv _ OReset | Inv _ ODestroy => False | _ => True end) (side <$> hist) ->
  popped (side <$> hist) `prefix_of` pushed (side <$> hist) ++
    match tpending 0 (side <$> hist) with Some (OPush v) => [v] | Some (OPushN vs) => vs | _ => [] end.
Proof. exact (fun Hc H => prefix_main' c Hc _ _ (reach_main c hist s H)). Qed.
Print Assumptions C61_spsc_shared_prefix.

(** Linearizability, with old values and without. *)
Theorem C61_spsc_shared_linearizable {V} c hist (s : mstate V) :
  code_cfg c -> msteps c true hist s ->
  hw_linearizable xs_init (xspec (x_max c - 1) (x_sc c)) hist /\
  (x_sc c = true -> hw_linearizable [] (fifo (x_max c - 1)) hist).
Proof. exact (fun Hc H => conj
  (named_lin c _ _ hist s Hc H (proj1 (lin_main c Hc _ _ (reach_main c hist s H))))
  (fun Hsc => named_lin c _ _ hist s Hc H (proj1 (fifo_main c Hc _ _ Hsc (reach_main c hist s H))))). Qed.
Print Assumptions C61_spsc_shared_linearizable.

(** Two producers and two consumers, under release/acquire; elements have destructors. *)
Example C61_nonvacuous :
  code_cfg xdemoR /\ x_sc xdemoR = false /\
  (exists s, msteps xdemoR true
    [Inv 0 (OPush 7%N); Res 0 (RBool true); Inv 2 (OPush 8%N); Inv 1 OPop; Res 2 (RBool true);
     Res 1 (RPop (Some 7%N)); Inv 0 (OPush 9%N); Res 0 (RBool true);
     Inv 3 OPop; Res 3 (RPop (Some 8%N)); Inv 1 OPop; Res 1 (RPop (Some 9%N))] s) /\
  popped (side <$> mlockedhist) = [7; 8; 9]%N.
Proof. exact (conj (code_demo 4 false false ltac:(done)) (conj eq_refl (conj mlocked_demo eq_refl))). Qed.

(** Without the lock of the producers an element is lost, even in sequentially
    consistent memory: both pushes succeed, one element arrives. *)
Theorem C61_spsc_two_producers_refuted :
  exists c hist, code_cfg c /\ x_sc c = true /\ (exists s : mstate N, msteps c false hist s) /\
    hist = [Inv 0 (OPush 7%N); Inv 2 (OPush 8%N); Res 2 (RBool true); Res 0 (RBool true);
            Inv 1 OPop; Res 1 (RPop (Some 7%N)); Inv 1 OPop; Res 1 (RPop None)] /\
    ~ hw_linearizable [] (fifo (x_max c - 1)) hist.
Proof. exact (ex_intro _ xdemoU (ex_intro _ mtwophist (conj (code_demo 4 true true ltac:(done))
  (conj eq_refl (conj mtwop_demo (conj eq_refl mtwop_not_lin)))))). Qed.
Print Assumptions C61_spsc_two_producers_refuted.

(** Without the lock of the consumers an element arrives twice. *)
Theorem C61_spsc_two_consumers_refuted :
  exists c hist, code_cfg c /\ x_sc c = true /\ (exists s : mstate N, msteps c false hist s) /\
    hist = [Inv 0 (OPush 7%N); Res 0 (RBool true); Inv 1 OPop; Inv 3 OPop; Res 3 (RPop (Some 7%N));
            Res 1 (RPop (Some 7%N))] /\
    ~ hw_linearizable [] (fifo (x_max c - 1)) hist.
Proof. exact (ex_intro _ xdemoU (ex_intro _ mtwochist (conj (code_demo 4 true true ltac:(done))
  (conj eq_refl (conj mtwoc_demo (conj eq_refl mtwoc_not_lin)))))). Qed.
Print Assumptions C61_spsc_two_consumers_refuted.
