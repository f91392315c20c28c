(** * Counting tag updates (vocabulary for C25) *)
From stdpp Require Import gmap list numbers.
From Verif Require Import Lin PoolModel StackModel StackObs.

(** The tagged words of a stack: tos and the pool's pool_ (a link of the stack
    has no tag, and nobody uses the tag of a link of the pool). *)
Inductive sloc := LTos | LPool.

Definition stag (s : sstate) (l : sloc) : N :=
  match l with
  | LTos => (s_tos (s_sh s)).2
  | LPool => (s_pool (s_sh s)).2
  end.

(** [k t l] is the number of updates of the tag of [l] since the current call of
    thread [t] began; this is how a step changes it. *)
Definition scount (k : nat -> sloc -> nat) (s : sstate) (ch : schoice) (s' : sstate) (t : nat) (l : sloc) : nat :=
  let k' := k t l + (if decide (stag s l = stag s' l) then 0 else 1) in
  match ch with
  | Invoke t' _ => if decide (t' = t) then 0 else k'
  | _ => k'
  end.

(** [swexec c b s0 hist s k]: an execution as in [sexec], in which during every
    call the tag of every location is updated fewer than [b] times. *)
Inductive swexec (c : cfg) (b : N) (s0 : sstate) : list sevent -> sstate -> (nat -> sloc -> nat) -> Prop :=
  | swexec_nil : swexec c b s0 [] s0 (fun _ _ => 0)
  | swexec_step hist s k ch s' evs :
      swexec c b s0 hist s k -> sstep c s ch = SNext s' evs ->
      (forall t l, is_Some (s_pcs s' !! t) -> (N.of_nat (scount k s ch s' t l) < b)%N) ->
      swexec c b s0 (hist ++ evs) s' (scount k s ch s').

(** ... from a stack constructed with the pool nodes [ns]. *)
Definition swreach (c : cfg) (b : N) (ns : list N) (hist : list sevent) (s : sstate) : Prop :=
  NoDup ns /\ c_null c ∉ ns /\ hist_ok hist /\ exists k, swexec c b (sinit c ns) hist s k.

(** The same with the counts reached. *)
Definition swat (c : cfg) (b : N) (ns : list N) (hist : list sevent) (s : sstate) (k : nat -> sloc -> nat) : Prop :=
  NoDup ns /\ c_null c ∉ ns /\ hist_ok hist /\ swexec c b (sinit c ns) hist s k.

(** [swcont c b s k chs h s']: such an execution, continued from [s] with the
    choices [chs]. *)
Inductive swcont (c : cfg) (b : N) (s : sstate) (k : nat -> sloc -> nat) : list schoice -> list sevent -> sstate -> Prop :=
  | swcont_nil : swcont c b s k [] [] s
  | swcont_cons ch s1 evs chs h s' :
      sstep c s ch = SNext s1 evs ->
      (forall t l, is_Some (s_pcs s1 !! t) -> (N.of_nat (scount k s ch s1 t l) < b)%N) ->
      swcont c b s1 (scount k s ch s1) chs h s' ->
      swcont c b s k (ch :: chs) (evs ++ h) s'.

(** [swcall c b ns t o w s k]: a call as in [scall], in such an execution. *)
Inductive swcall (c : cfg) (b : N) (ns : list N) (t : nat) (o : sop) : list srec -> sstate -> (nat -> sloc -> nat) -> Prop :=
  | swcall_start hist s k s' evs :
      swat c b ns hist s k -> nonempty_op o -> sstep c s (Invoke t o) = SNext s' evs ->
      (forall t' l, is_Some (s_pcs s' !! t') -> (N.of_nat (scount k s (Invoke t o) s' t' l) < b)%N) ->
      swcall c b ns t o [SRec s (Invoke t o) s'] s' (scount k s (Invoke t o) s')
  | swcall_step w s k ch s' evs :
      swcall c b ns t o w s k -> ch_ok ch -> sstep c s ch = SNext s' evs -> is_Some (s_pcs s' !! t) ->
      (forall t' l, is_Some (s_pcs s' !! t') -> (N.of_nat (scount k s ch s' t' l) < b)%N) ->
      swcall c b ns t o (w ++ [SRec s ch s']) s' (scount k s ch s').

Definition swcallret (c : cfg) (b : N) (ns : list N) (t : nat) (o : sop) (w : list srec) (r : sret) : Prop :=
  exists s k, swcall c b ns t o w s k /\ sreturns c s t r.

(** The elements that a call is meant to put on the stack. *)
Definition spushes (o : sop) : list N :=
  match o with SPush _ v | SUPush v => [v] | SRange _ vs | SURange vs => vs | _ => [] end.

(** An element pushed by at most one call, and once by it, is returned by two pops. *)
Definition popped_twice (hist : list sevent) (v : N) : Prop :=
  (exists i0, forall i t o, hist !! i = Some (Inv t o) -> v ∈ spushes o -> i = i0 /\ spushes o = [v]) /\
  exists i j t i' j' t', i <> i' /\
    call_returns hist i j t SPop (SGot (Some v)) /\ call_returns hist i' j' t' SPop (SGot (Some v)).
