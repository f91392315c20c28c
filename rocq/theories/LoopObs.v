(** * Vocabulary for the statements about consume_all *)
From stdpp Require Import gmap list numbers.
From Verif Require Import Lin PoolModel LoopModel.
From Verif Require QueueModel QueueObs StackModel StackObs StackFlow.

Section obs.
  Context {op ret V : Type}.
  Notation tev := (ltrace op ret V).

  Definition tev_thread (e : tev) : nat :=
    match e with
    | Own e | Sub e => ev_thread e
    | AllCall t | AllApply t _ | AllRet t _ | AllThrow t => t
    end.

  (** What thread [t] does in a trace. *)
  Definition of_thread (t : nat) (tr : list tev) : list tev := filter (fun e => tev_thread e = t) tr.

  (** What one round of the loop looks like that pops [v] with result [r]. *)
  Definition round (o : op) (one : V -> ret) (t : nat) (v : V) : list tev :=
    [Sub (Inv t o); Sub (Res t (one v)); AllApply t v].
  Definition rounds (o : op) (one : V -> ret) (t : nat) (vs : list V) : list tev :=
    concat (round o one t <$> vs).
  (** The last round. *)
  Definition last_round (o : op) (none : ret) (t : nat) : list tev :=
    [Sub (Inv t o); Sub (Res t none)].
End obs.

(** ** The queue *)
Section queue.
  Import QueueModel.
  Context (c : cfg).

  Definition qbelow (s : qstate) (x : qchoice) : bout qstate qevent :=
    match qstep c s x with QNext s' evs => BNext s' evs | QUB => BUB | QDisabled => BDisabled end.
  Definition qbusy (s : qstate) (t : nat) : bool := bool_decide (is_Some (q_pcs s !! t)).
  Definition qwho (x : qchoice) : nat :=
    match x with Invoke t _ _ | Run t _ _ _ | Unsync t _ _ _ => t end.
  Definition qunsync (x : qchoice) : bool := match x with Unsync _ _ _ _ => true | _ => false end.
  Definition qgot (r : qret) : popped val :=
    match r with RPop (Some v) => GotOne v | RPop None => GotNone | RExn => GotLeft | _ => GotOther end.

  Notation qltrace := (ltrace qop qret val).
  Notation qlstate := (@lstate qstate val).

  (** queue::consume_all on top of the machine of QueueModel.v. *)
  Definition qlstep : qlstate -> lchoice qchoice -> bout qlstate qltrace :=
    lstep qbelow qbusy qwho qunsync (fun t => Invoke t Pop false) qgot true.
  Definition qlexec : qlstate -> list qltrace -> qlstate -> Prop :=
    lexec qbelow qbusy qwho qunsync (fun t => Invoke t Pop false) qgot true.

  (** As [qreach], with consume_all among the operations. *)
  Definition qlreach (ns : list N) (tr : list qltrace) (s : qlstate) : Prop :=
    exists addr s0,
      NoDup ns /\ c_null c ∉ ns /\ (ns <> [] \/ c_node_based c = true) /\
      qinit c ns addr = Some s0 /\ qlexec (LSt s0 ∅) tr s.

  (** No call is in progress. *)
  Definition qlquiescent (s : qlstate) : Prop := q_pcs (l_st s) = ∅ /\ l_in s = ∅.

  (** The states of a call of consume_all by [t]. *)
  Inductive qlcall (ns : list N) (t : nat) : list qlstate -> qlstate -> Prop :=
    | qlcall_start tr s s' evs :
        qlreach ns tr s -> qlstep s (LCall t) = BNext s' evs -> qlcall ns t [s'] s'
    | qlcall_step w s x s' evs :
        qlcall ns t w s -> qlstep s x = BNext s' evs -> is_Some (l_in s' !! t) ->
        qlcall ns t (w ++ [s']) s'.

  (** A call of consume_all by [t] returns [n]; [w] are its states. *)
  Definition qlcallret (ns : list N) (t : nat) (w : list qlstate) (n : nat) : Prop :=
    exists s x thr s', qlcall ns t w s /\ qlstep s (LGo t x thr) = BNext s' [AllRet t n].

  (** The values that pops of the program have returned or functors were applied to. *)
  Definition received (e : qltrace) : option val :=
    match e with
    | Own (Res _ (RPop (Some v))) | AllApply _ v => Some v
    | _ => None
    end.
End queue.

(** ** The stack *)
Section stack.
  Import StackModel.
  Context (c : cfg).

  Definition sbelow (s : sstate) (x : schoice) : bout sstate sevent :=
    match sstep c s x with SNext s' evs => BNext s' evs | SUB => BUB | SDisabled => BDisabled end.
  Definition sbusy (s : sstate) (t : nat) : bool := bool_decide (is_Some (s_pcs s !! t)).
  Definition sunsync (x : schoice) : bool := match x with Unsync _ _ _ _ => true | _ => false end.
  Definition sgot (r : sret) : popped N :=
    match r with
    | SGot (Some v) => GotOne v
    | SGot None => GotNone
    | SExn [v] => GotThrow v
    | _ => GotOther
    end.

  Notation sltrace := (ltrace sop sret N).
  Notation slstate := (@lstate sstate N).

  (** stack::consume_all on top of the machine of StackModel.v. *)
  Definition slstep : slstate -> lchoice schoice -> bout slstate sltrace :=
    lstep sbelow sbusy StackObs.ch_thread sunsync (fun t => Invoke t SPop) sgot false.
  Definition slexec : slstate -> list sltrace -> slstate -> Prop :=
    lexec sbelow sbusy StackObs.ch_thread sunsync (fun t => Invoke t SPop) sgot false.

  (** As [sreach], with consume_all among the operations. *)
  Definition slreach (ns : list N) (tr : list sltrace) (s : slstate) : Prop :=
    NoDup ns /\ c_null c ∉ ns /\ StackObs.hist_ok (omap below tr) /\ slexec (LSt (sinit c ns) ∅) tr s.

  Definition slquiescent (s : slstate) : Prop := s_pcs (l_st s) = ∅ /\ l_in s = ∅.

  Definition slch_ok (x : lchoice schoice) : Prop :=
    match x with LOwn x => StackObs.ch_ok x | _ => True end.

  Inductive slcall (ns : list N) (t : nat) : list slstate -> slstate -> Prop :=
    | slcall_start tr s s' evs :
        slreach ns tr s -> slstep s (LCall t) = BNext s' evs -> slcall ns t [s'] s'
    | slcall_step w s x s' evs :
        slcall ns t w s -> slch_ok x -> slstep s x = BNext s' evs -> is_Some (l_in s' !! t) ->
        slcall ns t (w ++ [s']) s'.

  Definition slcallret (ns : list N) (t : nat) (w : list slstate) (n : nat) : Prop :=
    exists s x thr s', slcall ns t w s /\ slstep s (LGo t x thr) = BNext s' [AllRet t n].

  (** The values that calls of the program have handed to it, directly or through
      a functor. *)
  Definition sreceived (e : sltrace) : list N :=
    match e with
    | Own (Res _ r) => StackFlow.svals r
    | AllApply _ v => [v]
    | _ => []
    end.
End stack.
