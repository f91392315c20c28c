(** * Running concrete schedules of the stack on release/acquire memory *)
From stdpp Require Import gmap list numbers.
From Verif Require Import Lin PoolModel StackModel StackSpec StackObs StackDemo StackWitness RaMem RaStackModel RaStackObs.

(** A step that sees the value [back] stores before the newest one. *)
Inductive rdo :=
  | DCall (t : nat) (o : sop)
  | DStep (t : nat) (back : nat)
  | DAlloc (t : nat) (n : N)
  | DSync (t u : nat).

Section demo.
  Context (c : cfg) (acq : bool).

  Definition newest (s : rstate) (t : nat) : nat :=
    match r_pcs s !! t with
    | Some pc =>
        match saccess c acq pc with
        | XLoad i _ | XCas i _ => pred (length (hist i (r_x s) (r_w s)))
        | XRead n => length (w_next (r_w s) n)
        | _ => 0
        end
    | None => 0
    end.
  Definition rdo_choice (s : rstate) (d : rdo) : rchoice :=
    match d with
    | DCall t o => RInvoke t o
    | DStep t back => RRun t (newest s t - back) false None
    | DAlloc t n => RRun t (newest s t) false (Some n)
    | DSync t u => RSync t u
    end.

  Fixpoint rrun (s : rstate) (ds : list rdo) : option (list (sevent * view) * rstate) :=
    match ds with
    | [] => Some ([], s)
    | d :: ds =>
        match rstep c acq s (rdo_choice s d) with
        | RNext s' evs =>
            match rrun s' ds with
            | Some (h, s'') => Some (evs ++ h, s'')
            | None => None
            end
        | _ => None
        end
    end.

  Lemma rexec_trans s0 h s h' s' : rexec c acq s0 h s -> rexec c acq s h' s' -> rexec c acq s0 (h ++ h') s'.
  Proof.
    intros H. induction 1 as [|hist s1 ch s2 evs He IH Hs].
    - by rewrite app_nil_r.
    - rewrite app_assoc. by econstructor.
  Qed.

  Lemma rrun_exec ds : forall s h s', rrun s ds = Some (h, s') -> rexec c acq s h s'.
  Proof.
    induction ds as [|d ds IH]; intros s h s' H; simpl in H.
    - injection H as <- <-. constructor.
    - destruct (rstep c acq s (rdo_choice s d)) as [s1 evs| | |] eqn:Hs; [|done..].
      destruct (rrun s1 ds) as [[h1 s2]|] eqn:Hr; [|done]. injection H as <- <-.
      eapply rexec_trans; [|by apply IH].
      rewrite <- (app_nil_l evs). econstructor; [constructor|done].
  Qed.

  (** What a schedule does: the history, and a question about the last state. *)
  Definition rshow {A} (ns : list N) (ds : list rdo) (f : list (sevent * view) -> rstate -> A) : option (list sevent * bool * A) :=
    match rrun (rinit c ns) ds with
    | Some (h, s) => Some (h.*1, hist_okb h.*1, f h s)
    | None => None
    end.
  Lemma rshow_reach {A} ns ds (f : list (sevent * view) -> rstate -> A) h a :
    rshow ns ds f = Some (h, true, a) -> pool_ok c ns ->
    exists tr s, rreach c acq ns tr s /\ tr.*1 = h /\ f tr s = a.
  Proof.
    unfold rshow. destruct (rrun (rinit c ns) ds) as [[tr s]|] eqn:Hr; [|done].
    intros [= E1 E2 E3] [H1 H2]. exists tr, s. split; [|done]. do 2 (split; [done|]).
    split; [by apply hist_okb_ok|]. by eapply rrun_exec.
  Qed.
End demo.

Definition dsteps (t k : nat) : list rdo := replicate k (DStep t 0).
Definition dwhole (t : nat) (o : sop) (k : nat) : list rdo := DCall t o :: dsteps t k.

(** Thread 1 starts to pop with an old value of [tos], thread 2 pops, thread 0
    pushes with the same node, thread 1 fails and retries; thread 3 has never
    seen anything and finds the stack empty. *)
Definition rsched1 : list rdo :=
  dwhole 0 (SPush true 5%N) 8 ++ dwhole 0 (SPush true 6%N) 8 ++
  DCall 1 SPop :: DStep 1 1 :: dsteps 1 1 ++ dwhole 2 SPop 9 ++ dwhole 0 (SPush true 7%N) 8 ++ dsteps 1 9 ++
  DCall 3 SPop :: DStep 3 5 :: dsteps 3 1.
Definition rhist1 : list sevent :=
  [Inv 0 (SPush true 5%N); Res 0 (SBool true); Inv 0 (SPush true 6%N); Res 0 (SBool true);
   Inv 1 SPop; Inv 2 SPop; Res 2 (SGot (Some 6%N)); Inv 0 (SPush true 7%N); Res 0 (SBool true);
   Res 1 (SGot (Some 7%N)); Inv 3 SPop; Res 3 (SGot None)].
