(** * Old values and tags that wrap (vocabulary for the queue on release/acquire
      memory) *)
From stdpp Require Import gmap list numbers.
From Verif Require Import Lin PoolModel QueueModel QueueObs RaMem RaTags RaQueueModel RaQueueObs QueueWrapObs.

Global Instance qloc_eq_dec : EqDecision qloc.
Proof. solve_decision. Defined.

(** All values of a tagged word so far, oldest first. *)
Definition values (x : qshared) (w : wmem) (l : qloc) : list tagged :=
  match l with
  | LHead => (hist RHead x w).*1
  | LTail => (hist RTail x w).*1
  | LPool => (hist RPool x w).*1
  | LNext n => match q_heap x !! n with Some nd => (nhist nd w n).*1 | None => [] end
  end.

(** How often the tag of [l] has been updated since its value number [j] was
    stored. *)
Definition updates_since (s : rstate) (l : qloc) (j : nat) : nat :=
  tag_updates (drop j (values (r_x s) (r_w s) l)).

Definition root_loc (i : root) : qloc :=
  match i with RPool => LPool | RHead => LHead | RTail => LTail end.

(** The word that the next step of a thread reads by an atomic load or a
    compare-exchange. *)
Definition reads (c : cfg) (pc : qpc) : option qloc :=
  match qaccess c pc with
  | XLoad i | XCas i _ _ => Some (root_loc i)
  | XNLoad n _ | XNCas n _ => Some (LNext n)
  | _ => None
  end.

(** [k t l] is the number of the value of [l] that the current call of thread [t]
    has read last; this is how a step changes it. *)
Definition last_read (c : cfg) (k : nat -> qloc -> option nat) (s : rstate) (ch : rchoice)
    (t : nat) (l : qloc) : option nat :=
  match ch with
  | RInvoke t' _ _ => if decide (t' = t) then None else k t l
  | RRun t' ts _ _ _ =>
      if decide (t' = t) then
        match r_pcs s !! t with
        | Some pc => if decide (reads c pc = Some l) then Some ts else k t l
        | None => k t l
        end
      else k t l
  | RSync _ _ => k t l
  end.

(** [rqwexec c rel b s0 tr s k]: an execution as in [rexec], in which no tag is
    updated [b] times between the storing of a value and the end of its use by a
    call that has read it. *)
Inductive rqwexec (c : cfg) (rel : bool) (b : N) (s0 : rstate) :
    list (qevent * view) -> rstate -> (nat -> qloc -> option nat) -> Prop :=
  | rqwexec_nil : rqwexec c rel b s0 [] s0 (fun _ _ => None)
  | rqwexec_step tr s k ch s' evs :
      rqwexec c rel b s0 tr s k -> rstep c rel s ch = RNext s' evs ->
      (forall t l j, is_Some (r_pcs s' !! t) -> last_read c k s ch t l = Some j ->
        (N.of_nat (updates_since s' l j) < b)%N) ->
      rqwexec c rel b s0 (tr ++ evs) s' (last_read c k s ch).

(** ... from a queue constructed with the pool nodes [ns]. *)
Definition rqwreach (c : cfg) (rel : bool) (b : N) (ns : list N) (tr : list (qevent * view)) (s : rstate) : Prop :=
  exists addr s0 k,
    NoDup ns /\ c_null c ∉ ns /\ (ns <> [] \/ c_node_based c = true) /\
    rinit c ns addr = Some s0 /\ rqwexec c rel b s0 tr s k.
