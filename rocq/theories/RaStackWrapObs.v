(** * Old values and tags that wrap (vocabulary for the stack on release/acquire
      memory) *)
From stdpp Require Import gmap list numbers.
From Verif Require Import Lin PoolModel StackModel StackObs RaMem RaTags RaStackModel RaStackObs.

Global Instance root_eq_dec : EqDecision root.
Proof. solve_decision. Defined.

(** How often the tag of word [i] has been updated since its value number [j] was
    stored. *)
Definition updates_since (s : rstate) (i : root) (j : nat) : nat :=
  tag_updates (drop j (hist i (r_x s) (r_w s)).*1).

(** [k t i] is the number of the value of word [i] that the current call of
    thread [t] has read last; this is how a step changes it. *)
Definition last_read (c : cfg) (acq : bool) (k : nat -> root -> option nat) (s : rstate) (ch : rchoice)
    (t : nat) (i : root) : option nat :=
  match ch with
  | RInvoke t' _ => if decide (t' = t) then None else k t i
  | RRun t' ts _ _ =>
      if decide (t' = t) then
        match r_pcs s !! t with
        | Some pc =>
            match saccess c acq pc with
            | XLoad i' _ | XCas i' _ => if decide (i' = i) then Some ts else k t i
            | _ => k t i
            end
        | None => k t i
        end
      else k t i
  | RSync _ _ => k t i
  end.

(** [rwexec c acq b s0 tr s k]: an execution as in [rexec], in which no tag is
    updated [b] times between the storing of a value and the end of its use by a
    call that has read it. *)
Inductive rwexec (c : cfg) (acq : bool) (b : N) (s0 : rstate) :
    list (sevent * view) -> rstate -> (nat -> root -> option nat) -> Prop :=
  | rwexec_nil : rwexec c acq b s0 [] s0 (fun _ _ => None)
  | rwexec_step tr s k ch s' evs :
      rwexec c acq b s0 tr s k -> rstep c acq s ch = RNext s' evs ->
      (forall t i j, is_Some (r_pcs s' !! t) -> last_read c acq k s ch t i = Some j ->
        (N.of_nat (updates_since s' i j) < b)%N) ->
      rwexec c acq b s0 (tr ++ evs) s' (last_read c acq k s ch).

Definition rwreach (c : cfg) (acq : bool) (b : N) (ns : list N) (tr : list (sevent * view)) (s : rstate) : Prop :=
  NoDup ns /\ c_null c ∉ ns /\ hist_ok tr.*1 /\ exists k, rwexec c acq b (rinit c ns) tr s k.

(** Calls do not overlap: every call returns (if it is not the last one) before
    anything else happens. *)
Definition sequential (h : list sevent) : Prop :=
  forall i t o, h !! i = Some (Inv t o) -> S i = length h \/ exists r, h !! S i = Some (Res t r).
