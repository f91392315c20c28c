(** * Counting tag updates of the pool word (vocabulary for C39 with tags that wrap) *)
From stdpp Require Import gmap list numbers.
From Verif Require Import Lin PoolModel PoolMachine.

Section obs.
  Context {D : Type} (c : cfg) (d0 : D).

  (** [k t] is the number of updates of the tag of [pool_] since the current call
      of thread [t] began; this is how a step changes it. *)
  Definition pcount (k : nat -> nat) (s : pstate D) (ch : pchoice D) (s' : pstate D) (t : nat) : nat :=
    let k' := k t + (if decide ((p_pool s).2 = (p_pool s').2) then 0 else 1) in
    match ch with
    | PInvoke t' _ => if decide (t' = t) then 0 else k'
    | _ => k'
    end.

  (** What a client writes to a node is a word of the machine: its tag bits are
      less than [b]. *)
  Definition pfits (b : N) (ch : pchoice D) : Prop :=
    match ch with PWrite _ nd => ((nx nd).2 < b)%N | _ => True end.

  (** [pwexec b s0 hist s k]: an execution as in [pexec], in which during every
      call the tag is updated fewer than [b] times. *)
  Inductive pwexec (b : N) (s0 : pstate D) : list pevent -> pstate D -> (nat -> nat) -> Prop :=
    | pwexec_nil : pwexec b s0 [] s0 (fun _ => 0)
    | pwexec_step hist s k ch s' evs :
        pwexec b s0 hist s k -> pfits b ch -> pstep c d0 s ch = PNext s' evs ->
        (forall t, is_Some (p_pcs s' !! t) -> (N.of_nat (pcount k s ch s' t) < b)%N) ->
        pwexec b s0 (hist ++ evs) s' (pcount k s ch s').

  Definition pwreach (b : N) (ns : list N) (hist : list pevent) (s : pstate D) : Prop :=
    NoDup ns /\ c_null c ∉ ns /\ exists k, pwexec b (pinit c d0 ns) hist s k.
End obs.

(** A node is returned by two allocations, and not given back in between. *)
Definition handed_out_twice (hist : list pevent) (n : N) : Prop :=
  exists h1 t1 h2 t2 h3, hist = h1 ++ Res t1 (PGot n) :: h2 ++ Res t2 (PGot n) :: h3 /\
    forall t, Inv t (PFree n) ∉ h2 /\ Inv t (PUFree n) ∉ h2.
