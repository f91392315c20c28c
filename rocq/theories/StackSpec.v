(** * Sequential specification of the stack

    The abstract state is the list of elements, top first. *)
From stdpp Require Import gmap list numbers.
From Verif Require Import Lin PoolModel StackModel.

(** The order in which a functor sees the elements [a]. *)
Definition visit_order (rev : bool) (a : list N) : list N := if rev then reverse a else a.

(** [nb]: node-based configuration; [ct]: element copies and functors may throw.
    - [push] puts the element on top.  It may report failure (without effect)
      only in a fixed-size configuration or as [bounded_push]; it may be left by
      an exception (without effect) only if copies may throw or it may allocate.
    - the range push puts the first [k] elements on the stack, one on top of the
      other, and returns [k].  It may stop early only as [bounded_push] (range
      pushes exist on node-based stacks only).
    - [pop] removes the top element and fails exactly on the empty stack.  If the
      functor throws, the element has been removed.
    - [consume_all_atomic] removes everything, returns the number of elements and
      has shown all of them to the functor in order (a prefix if it threw).
    - [empty] tells whether the stack is empty.
    - [reserve] has no effect on the elements.
    - the unsynchronized operations have the same effect. *)
Inductive sspec (nb ct : bool) : list N -> sop -> sret -> list N -> Prop :=
  | ss_push a b v : sspec nb ct a (SPush b v) (SBool true) (v :: a)
  | ss_push_fail a b v : nb = false \/ b = true -> sspec nb ct a (SPush b v) (SBool false) a
  | ss_push_exn a b v :
      ct = true \/ (nb = true /\ b = false) -> sspec nb ct a (SPush b v) (SExn []) a
  | ss_range a b vs k :
      k <= length vs -> k = length vs \/ b = true ->
      sspec nb ct a (SRange b vs) (SIter k) (reverse (take k vs) ++ a)
  | ss_range_exn a b vs :
      ct = true \/ b = false -> sspec nb ct a (SRange b vs) (SExn []) a
  | ss_pop a v : sspec nb ct (v :: a) SPop (SGot (Some v)) a
  | ss_pop_empty : sspec nb ct [] SPop (SGot None) []
  | ss_pop_exn a v : ct = true -> sspec nb ct (v :: a) SPop (SExn [v]) a
  | ss_all a rev : sspec nb ct a (SAll rev) (SCount (length a) (visit_order rev a)) []
  | ss_all_exn a rev p :
      ct = true -> p <> [] -> p `prefix_of` visit_order rev a ->
      sspec nb ct a (SAll rev) (SExn p) []
  | ss_empty a : sspec nb ct a SEmpty (SBool (bool_decide (a = []))) a
  | ss_reserve a n : sspec nb ct a (SReserve n) SUnit a
  | ss_reserve_exn a n : sspec nb ct a (SReserve n) (SExn []) a
  | ss_upush a v : sspec nb ct a (SUPush v) (SBool true) (v :: a)
  | ss_upush_fail a v : nb = false -> sspec nb ct a (SUPush v) (SBool false) a
  | ss_upush_exn a v : ct = true \/ nb = true -> sspec nb ct a (SUPush v) (SExn []) a
  | ss_urange a vs : sspec nb ct a (SURange vs) (SIter (length vs)) (reverse vs ++ a)
  | ss_urange_exn a vs : sspec nb ct a (SURange vs) (SExn []) a
  | ss_upop a v : sspec nb ct (v :: a) SUPop (SGot (Some v)) a
  | ss_upop_empty : sspec nb ct [] SUPop (SGot None) []
  | ss_upop_exn a v : ct = true -> sspec nb ct (v :: a) SUPop (SExn [v]) a
  | ss_ureserve a n : sspec nb ct a (SUReserve n) SUnit a
  | ss_ureserve_exn a n : sspec nb ct a (SUReserve n) (SExn []) a.

(** A history of the stack is linearizable. *)
Definition s_linearizable (nb ct : bool) (h : list sevent) : Prop :=
  linearizable [] (sspec nb ct) h.

Lemma sspec_det nb ct a o r a1 a2 : sspec nb ct a o r a1 -> sspec nb ct a o r a2 -> a1 = a2.
Proof. intros H1 H2. inversion H1; subst; inversion H2; subst; congruence. Qed.
