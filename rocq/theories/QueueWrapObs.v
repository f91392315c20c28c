(** * Counting tag updates (vocabulary for C12) *)
From stdpp Require Import gmap list numbers.
From Verif Require Import Lin PoolModel QueueModel QueueObs.

(** The tagged words of a queue: head_, tail_, the pool's pool_, and the link of
    each node. *)
Inductive qloc := LHead | LTail | LPool | LNext (n : N).

(** The tag stored there. *)
Definition qtag (s : qstate) (l : qloc) : N :=
  match l with
  | LHead => (q_head (q_sh s)).2
  | LTail => (q_tail (q_sh s)).2
  | LPool => (q_pool (q_sh s)).2
  | LNext n => match q_heap (q_sh s) !! n with Some nd => (nx nd).2 | None => 0%N end
  end.

(** [k t l] is the number of updates of the tag of [l] since the current call of
    thread [t] began; this is how a step changes it. *)
Definition qcount (k : nat -> qloc -> nat) (s : qstate) (ch : qchoice) (s' : qstate) (t : nat) (l : qloc) : nat :=
  let k' := k t l + (if decide (qtag s l = qtag s' l) then 0 else 1) in
  match ch with
  | Invoke t' _ _ => if decide (t' = t) then 0 else k'
  | _ => k'
  end.

(** [qwexec c b s0 hist s k]: an execution as in [qexec], in which during every
    call the tag of every location is updated fewer than [b] times. *)
Inductive qwexec (c : cfg) (b : N) (s0 : qstate) : list qevent -> qstate -> (nat -> qloc -> nat) -> Prop :=
  | qwexec_nil : qwexec c b s0 [] s0 (fun _ _ => 0)
  | qwexec_step hist s k ch s' evs :
      qwexec c b s0 hist s k -> qstep c s ch = QNext s' evs ->
      (forall t l, is_Some (q_pcs s' !! t) -> (N.of_nat (qcount k s ch s' t l) < b)%N) ->
      qwexec c b s0 (hist ++ evs) s' (qcount k s ch s').

(** ... from a queue constructed with the pool nodes [ns]. *)
Definition qwreach (c : cfg) (b : N) (ns : list N) (hist : list qevent) (s : qstate) : Prop :=
  exists addr s0 k,
    NoDup ns /\ c_null c ∉ ns /\ (ns <> [] \/ c_node_based c = true) /\
    qinit c ns addr = Some s0 /\ qwexec c b s0 hist s k.

(** The same with the counts reached. *)
Definition qwat (c : cfg) (b : N) (ns : list N) (hist : list qevent) (s : qstate) (k : nat -> qloc -> nat) : Prop :=
  exists addr s0,
    NoDup ns /\ c_null c ∉ ns /\ (ns <> [] \/ c_node_based c = true) /\
    qinit c ns addr = Some s0 /\ qwexec c b s0 hist s k.

(** [qwcont c b s k chs h s']: such an execution, continued from [s] with the
    choices [chs]. *)
Inductive qwcont (c : cfg) (b : N) (s : qstate) (k : nat -> qloc -> nat) : list qchoice -> list qevent -> qstate -> Prop :=
  | qwcont_nil : qwcont c b s k [] [] s
  | qwcont_cons ch s1 evs chs h s' :
      qstep c s ch = QNext s1 evs ->
      (forall t l, is_Some (q_pcs s1 !! t) -> (N.of_nat (qcount k s ch s1 t l) < b)%N) ->
      qwcont c b s1 (qcount k s ch s1) chs h s' ->
      qwcont c b s k (ch :: chs) (evs ++ h) s'.

(** [qwcall c b s0 t o w s k]: a call as in [qcall], in such an execution. *)
Inductive qwcall (c : cfg) (b : N) (s0 : qstate) (t : nat) (o : qop) : list qstate -> qstate -> (nat -> qloc -> nat) -> Prop :=
  | qwcall_start hist s k tf s' evs :
      qwexec c b s0 hist s k -> qstep c s (Invoke t o tf) = QNext s' evs ->
      (forall t' l, is_Some (q_pcs s' !! t') -> (N.of_nat (qcount k s (Invoke t o tf) s' t' l) < b)%N) ->
      qwcall c b s0 t o [s'] s' (qcount k s (Invoke t o tf) s')
  | qwcall_step w s k ch s' evs :
      qwcall c b s0 t o w s k -> qstep c s ch = QNext s' evs -> is_Some (q_pcs s' !! t) ->
      (forall t' l, is_Some (q_pcs s' !! t') -> (N.of_nat (qcount k s ch s' t' l) < b)%N) ->
      qwcall c b s0 t o (w ++ [s']) s' (qcount k s ch s').

Definition qwcallret (c : cfg) (b : N) (ns : list N) (t : nat) (o : qop) (w : list qstate) (r : qret) : Prop :=
  exists addr s0 s k,
    NoDup ns /\ c_null c ∉ ns /\ (ns <> [] \/ c_node_based c = true) /\
    qinit c ns addr = Some s0 /\ qwcall c b s0 t o w s k /\ qreturns c s t r.

(** A value pushed by at most one call is returned by two pops. *)
Definition popped_twice (hist : list qevent) (v : val) : Prop :=
  (exists i0, forall i t o, hist !! i = Some (Inv t o) -> pushes o = Some v -> i = i0) /\
  exists i j t i' j' t', i <> i' /\
    call_returns hist i j t Pop (RPop (Some v)) /\ call_returns hist i' j' t' Pop (RPop (Some v)).
