(** * Linearizability with respect to happens-before

    In a history of a program on release/acquire memory every event carries the
    view of its thread at that moment.  The return of a call of thread [t]
    happens before another event if the latter's vector clock has reached the
    clock of the return. *)
From stdpp Require Import gmap list numbers.
From Verif Require Import Lin RaMem.

Section ralin.
  Context {op ret st : Type}.
  Context (init : st) (spec : st -> op -> ret -> st -> Prop).
  Notation vevent := (event op ret * view)%type.

  (** The event with view [V] of thread [t] happens before one with view [W]. *)
  Definition hb (t : nat) (V W : view) : Prop := V (LClk t) <= W (LClk t).

  (** A result that is impossible without changing the object. *)
  Definition effective (o : op) (r : ret) : Prop := forall a, ~ spec a o r a.

  (** [S] is a legal sequential order of calls of [h]. *)
  Record ra_order (h : list vevent) (S : list (nat * op * ret)) (b : st) : Prop := {
    (* each call at most once *)
    ro_nodup : NoDup (S.*1.*1);
    (* only calls of the history *)
    ro_calls : forall i o r, (i, o, r) ∈ S -> exists t, h.*1 !! i = Some (Inv t o);
    (* every completed call, with the result it returned *)
    ro_complete : forall i j t o r, call_returns h.*1 i j t o r -> (i, o, r) ∈ S;
    (* a call whose return happens before another call comes first *)
    ro_hb : forall S1 x S2 y S3 j t o r e e' V W,
        S = S1 ++ x :: S2 ++ y :: S3 -> call_returns h.*1 y.1.1 j t o r ->
        h !! j = Some (e, V) -> h !! x.1.1 = Some (e', W) -> ~ hb t V W;
    (* a call that returned before an effective one was invoked comes first *)
    ro_time : forall S1 x S2 y S3 j t o r,
        S = S1 ++ x :: S2 ++ y :: S3 -> effective x.1.2 x.2 ->
        call_returns h.*1 y.1.1 j t o r -> x.1.1 <= j;
    (* and the sequential order is legal *)
    ro_legal : legal spec init S b;
  }.

  (** A result that is always possible. *)
  Definition neutral (o : op) (r : ret) : Prop := forall a, spec a o r a.

  (** A call whose result depends on the contents has seen everything that the
      callers of the effective calls before it had done or seen when they called. *)
  Definition published (h : list vevent) (S : list (nat * op * ret)) : Prop :=
    forall S1 x S2 y S3 j t o r e e' (V W : view),
      S = S1 ++ x :: S2 ++ y :: S3 -> effective x.1.2 x.2 -> ~ neutral y.1.2 y.2 ->
      call_returns h.*1 y.1.1 j t o r -> h !! j = Some (e, W) -> h !! x.1.1 = Some (e', V) ->
      vle V W.

  Definition ra_linearizable (h : list vevent) : Prop := exists S b, ra_order h S b.
End ralin.
