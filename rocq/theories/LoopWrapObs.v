(** * Counting tag updates with consume_all among the operations (vocabulary for C44)

    As in QueueWrapObs.v and StackWrapObs.v: the calls during which tags are
    counted are the program's own and the pops that a consume_all consists of. *)
From stdpp Require Import gmap list numbers.
From Verif Require Import Lin PoolModel LoopModel LoopObs.
From Verif Require QueueModel QueueObs QueueWrapObs StackModel StackObs StackWrapObs.

(** The step of the machine below that is part of a step, if any. *)
Definition lbelow {st ch V} (call_pop : nat -> ch) (s : @lstate st V) (x : lchoice ch) : option ch :=
  match x with
  | LOwn y => Some y
  | LCall _ => None
  | LGo t y _ =>
      match l_in s !! t with
      | Some (LTest _) => Some (call_pop t)
      | Some (LPop _) => Some y
      | _ => None
      end
  end.

(** ** The queue *)
Section queue.
  Import QueueModel QueueObs QueueWrapObs.
  Notation qltrace := (ltrace qop qret val).
  Notation qlstate := (@lstate qstate val).
  Notation counts := (nat -> qloc -> nat).

  Definition qlcount (k : counts) (s : qlstate) (x : lchoice qchoice) (s' : qlstate) : counts :=
    match lbelow (fun t => Invoke t Pop false) s x with
    | Some y => qcount k (l_st s) y (l_st s')
    | None => k
    end.

  (** A step after which the tag of every location has been updated fewer than
      [b] times during each call in progress. *)
  Definition qlwstep (c : cfg) (b : N) (s : qlstate) (k : counts) (x : lchoice qchoice)
      (s' : qlstate) (evs : list qltrace) : Prop :=
    qlstep c s x = BNext s' evs /\
    forall t l, is_Some (q_pcs (l_st s') !! t) -> (N.of_nat (qlcount k s x s' t l) < b)%N.

  Inductive qlwexec (c : cfg) (b : N) (s0 : qlstate) : list qltrace -> qlstate -> counts -> Prop :=
    | qlwexec_nil : qlwexec c b s0 [] s0 (fun _ _ => 0)
    | qlwexec_step tr s k x s' evs :
        qlwexec c b s0 tr s k -> qlwstep c b s k x s' evs ->
        qlwexec c b s0 (tr ++ evs) s' (qlcount k s x s').

  Definition qlwat (c : cfg) (b : N) (ns : list N) (tr : list qltrace) (s : qlstate) (k : counts) : Prop :=
    exists addr s0,
      NoDup ns /\ c_null c ∉ ns /\ (ns <> [] \/ c_node_based c = true) /\
      qinit c ns addr = Some s0 /\ qlwexec c b (LSt s0 ∅) tr s k.
  Definition qlwreach (c : cfg) (b : N) (ns : list N) (tr : list qltrace) (s : qlstate) : Prop :=
    exists k, qlwat c b ns tr s k.

  (** The states of a call of consume_all by [t]. *)
  Inductive qlwcall (c : cfg) (b : N) (ns : list N) (t : nat) : list qlstate -> qlstate -> counts -> Prop :=
    | qlwcall_start tr s k s' evs :
        qlwat c b ns tr s k -> qlwstep c b s k (LCall t) s' evs ->
        qlwcall c b ns t [s'] s' (qlcount k s (LCall t) s')
    | qlwcall_step w s k x s' evs :
        qlwcall c b ns t w s k -> qlwstep c b s k x s' evs -> is_Some (l_in s' !! t) ->
        qlwcall c b ns t (w ++ [s']) s' (qlcount k s x s').

  Definition qlwcallret (c : cfg) (b : N) (ns : list N) (t : nat) (w : list qlstate) (n : nat) : Prop :=
    exists s k x thr s', qlwcall c b ns t w s k /\ qlstep c s (LGo t x thr) = BNext s' [AllRet t n].
End queue.

(** ** The stack *)
Section stack.
  Import StackModel StackObs StackWrapObs.
  Notation sltrace := (ltrace sop sret N).
  Notation slstate := (@lstate sstate N).
  Notation counts := (nat -> sloc -> nat).

  Definition slcount (k : counts) (s : slstate) (x : lchoice schoice) (s' : slstate) : counts :=
    match lbelow (fun t => Invoke t SPop) s x with
    | Some y => scount k (l_st s) y (l_st s')
    | None => k
    end.

  Definition slwstep (c : cfg) (b : N) (s : slstate) (k : counts) (x : lchoice schoice)
      (s' : slstate) (evs : list sltrace) : Prop :=
    slstep c s x = BNext s' evs /\
    forall t l, is_Some (s_pcs (l_st s') !! t) -> (N.of_nat (slcount k s x s' t l) < b)%N.

  Inductive slwexec (c : cfg) (b : N) (s0 : slstate) : list sltrace -> slstate -> counts -> Prop :=
    | slwexec_nil : slwexec c b s0 [] s0 (fun _ _ => 0)
    | slwexec_step tr s k x s' evs :
        slwexec c b s0 tr s k -> slwstep c b s k x s' evs ->
        slwexec c b s0 (tr ++ evs) s' (slcount k s x s').

  Definition slwat (c : cfg) (b : N) (ns : list N) (tr : list sltrace) (s : slstate) (k : counts) : Prop :=
    NoDup ns /\ c_null c ∉ ns /\ hist_ok (omap below tr) /\ slwexec c b (LSt (sinit c ns) ∅) tr s k.
  Definition slwreach (c : cfg) (b : N) (ns : list N) (tr : list sltrace) (s : slstate) : Prop :=
    exists k, slwat c b ns tr s k.

  Inductive slwcall (c : cfg) (b : N) (ns : list N) (t : nat) : list slstate -> slstate -> counts -> Prop :=
    | slwcall_start tr s k s' evs :
        slwat c b ns tr s k -> slwstep c b s k (LCall t) s' evs ->
        slwcall c b ns t [s'] s' (slcount k s (LCall t) s')
    | slwcall_step w s k x s' evs :
        slwcall c b ns t w s k -> slch_ok x -> slwstep c b s k x s' evs -> is_Some (l_in s' !! t) ->
        slwcall c b ns t (w ++ [s']) s' (slcount k s x s').

  Definition slwcallret (c : cfg) (b : N) (ns : list N) (t : nat) (w : list slstate) (n : nat) : Prop :=
    exists s k x thr s', slwcall c b ns t w s k /\ slstep c s (LGo t x thr) = BNext s' [AllRet t n].
End stack.
