(** * What pop does to the variable it is given: the specification side

    [pop(U& ret)] leaves its result in a variable of the caller.  The variable
    may be of another type than the elements (detail/copy_payload.hpp), for
    instance a smart pointer that takes ownership of the object an element
    points to (test/queue_test.cpp:139-181).  Then it matters how often and with
    what the variable is assigned.  This file does not mention the model. *)
From stdpp Require Import gmap list numbers.
From Verif Require Import Lin.

(** A history in which the assignments are visible. *)
Inductive dev (op ret V : Type) :=
  | DEv (e : event op ret)
  | DAsg (t : nat) (v : V).     (* [t] assigns an element of value [v] to [ret] *)
Arguments DEv {op ret V} e.
Arguments DAsg {op ret V} t v.

Section spec.
  Context {op ret V : Type}.
  Notation trace := (list (dev op ret V)).

  (** The history alone. *)
  Definition events (tr : trace) : list (event op ret) :=
    omap (fun e => match e with DEv e => Some e | DAsg _ _ => None end) tr.

  (** The values that [t] assigns. *)
  Definition asgs (t : nat) (tr : trace) : list V :=
    omap (fun e => match e with DAsg u v => if decide (u = t) then Some v else None | DEv _ => None end) tr.

  (** [t] neither makes a call nor returns from one. *)
  Definition inside (t : nat) (tr : trace) : Prop :=
    forall e, DEv e ∈ tr -> ev_thread e <> t.

  (** [one_call tr t o r l]: in [tr] there is a call of [o] by [t] that returns
      [r], and [l] is what it assigns, in order. *)
  Definition one_call (tr : trace) (t : nat) (o : op) (r : ret) (l : list V) : Prop :=
    exists a b d, tr = a ++ DEv (Inv t o) :: b ++ DEv (Res t r) :: d /\ inside t b /\ l = asgs t b.

  (** No call of a kind begins while another one of that kind is in progress. *)
  Definition serial (k : op -> Prop) (tr : trace) : Prop :=
    forall a t o b u p d,
      tr = a ++ DEv (Inv t o) :: b ++ DEv (Inv u p) :: d -> k o -> k p -> ~ inside t b.

  (** ** A destination that owns what is assigned to it

      [w_held]: the objects owned by the variables of the calls in progress
      (each call gets an empty variable); [w_given]: the objects owned by the
      variables of the calls that have returned; [w_gone]: the objects that were
      destroyed because a variable that owned them was assigned again. *)
  Record owned := Owned {
    w_held : gmap nat V;
    w_given : list V;
    w_gone : list V;
  }.

  Definition own_step (w : owned) (e : dev op ret V) : owned :=
    match e with
    | DEv (Inv t _) => Owned (delete t (w_held w)) (w_given w) (w_gone w)
    | DAsg t v => Owned (<[t := v]> (w_held w)) (w_given w) (w_gone w ++ option_list (w_held w !! t))
    | DEv (Res t _) =>
        Owned (delete t (w_held w)) (w_given w ++ option_list (w_held w !! t)) (w_gone w)
    end.

  Definition owners (tr : trace) : owned := foldl own_step (Owned ∅ [] []) tr.

  (** The values returned by the calls, in the order of their return. *)
  Definition returned (val : ret -> option V) (tr : trace) : list V :=
    omap (fun e => match e with Res _ r => val r | Inv _ _ => None end) (events tr).
End spec.
Arguments owned V : clear implicits.
