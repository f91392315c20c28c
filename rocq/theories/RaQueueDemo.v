(** * Running concrete schedules of the queue on release/acquire memory *)
From stdpp Require Import gmap list numbers.
From Verif Require Import Lin PoolModel QueueModel RaMem RaQueueModel RaQueueObs.

(** A step that sees the value [back] stores before the newest one. *)
Inductive rdo :=
  | DCall (t : nat) (o : qop)
  | DStep (t : nat) (back : nat)
  | DAlloc (t : nat) (n : N)
  | DSync (t u : nat).

Section demo.
  Context (c : cfg) (rel : bool).

  Definition newest (s : rstate) (t : nat) : nat :=
    match r_pcs s !! t with
    | Some pc =>
        match qaccess c pc with
        | XLoad i | XCas i _ _ => pred (length (hist i (r_x s) (r_w s)))
        | XNLoad n _ | XNCas n _ => length (w_next (r_w s) n)
        | _ => 0
        end
    | None => 0
    end.
  Definition rdo_choice (s : rstate) (d : rdo) : rchoice :=
    match d with
    | DCall t o => RInvoke t o false
    | DStep t back => RRun t (newest s t - back) false None 77%N
    | DAlloc t n => RRun t (newest s t) false (Some n) 77%N
    | DSync t u => RSync t u
    end.

  Fixpoint rrun (s : rstate) (ds : list rdo) : option (list (qevent * view) * rstate) :=
    match ds with
    | [] => Some ([], s)
    | d :: ds =>
        match rstep c rel s (rdo_choice s d) with
        | RNext s' evs =>
            match rrun s' ds with
            | Some (h, s'') => Some (evs ++ h, s'')
            | None => None
            end
        | _ => None
        end
    end.

  Lemma rexec_trans s0 h s h' s' : rexec c rel s0 h s -> rexec c rel s h' s' -> rexec c rel s0 (h ++ h') s'.
  Proof.
    intros H. induction 1 as [|hist s1 ch s2 evs He IH Hs].
    - by rewrite app_nil_r.
    - rewrite app_assoc. by econstructor.
  Qed.

  Lemma rrun_exec ds : forall s h s', rrun s ds = Some (h, s') -> rexec c rel s h s'.
  Proof.
    induction ds as [|d ds IH]; intros s h s' H; simpl in H.
    - injection H as <- <-. constructor.
    - destruct (rstep c rel s (rdo_choice s d)) as [s1 evs| | |] eqn:Hs; [|done..].
      destruct (rrun s1 ds) as [[h1 s2]|] eqn:Hr; [|done]. injection H as <- <-.
      eapply rexec_trans; [|by apply IH].
      rewrite <- (app_nil_l evs). econstructor; [constructor|done].
  Qed.

  (** What a schedule does: the history, and a question about it. *)
  Definition rshow {A} (ns : list N) (ds : list rdo) (f : list (qevent * view) -> rstate -> A) : option (list qevent * A) :=
    match rinit c ns None with
    | Some s0 =>
        match rrun s0 ds with
        | Some (h, s) => Some (h.*1, f h s)
        | None => None
        end
    | None => None
    end.
  Definition rpool_ok (ns : list N) : bool :=
    bool_decide (NoDup ns) && bool_decide (c_null c ∉ ns) && bool_decide (ns <> []).
  Lemma rshow_reach {A} ns ds (f : list (qevent * view) -> rstate -> A) h a :
    rshow ns ds f = Some (h, a) -> rpool_ok ns = true ->
    exists tr s, rqreach c rel ns tr s /\ tr.*1 = h /\ f tr s = a.
  Proof.
    unfold rshow. destruct (rinit c ns None) as [s0|] eqn:Hi; [|done].
    destruct (rrun s0 ds) as [[tr s]|] eqn:Hr; [|done].
    intros [= E1 E2] H. unfold rpool_ok in H. apply andb_prop in H as [H H3]. apply andb_prop in H as [H1 H2].
    apply bool_decide_eq_true in H1, H2, H3.
    exists tr, s. split; [|done]. exists None, s0. do 2 (split; [done|]).
    split; [by left|]. split; [done|]. by eapply rrun_exec.
  Qed.
End demo.

Definition dsteps (t k : nat) : list rdo := replicate k (DStep t 0).
Definition dwhole (t : nat) (o : qop) (k : nat) : list rdo := DCall t o :: dsteps t k.
