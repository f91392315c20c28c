(** * Vocabulary for the statements about the stack

    Nothing in this file is used by the model; the definitions only say what
    can be observed of a state or an execution of the machine of StackModel.v. *)
From stdpp Require Import gmap list numbers.
From Verif Require Import Lin LinObs PoolModel StackModel StackSpec.

(** ** Histories *)

(** The range is not empty (an empty range is undefined behaviour, stack.hpp:288,
    see C18). *)
Definition nonempty_op (o : sop) : Prop :=
  match o with SRange _ vs | SURange vs => vs <> [] | _ => True end.
Definition hist_ok (hist : list sevent) : Prop := forall t o, Inv t o ∈ hist -> nonempty_op o.

(** The thread of a choice, and the condition that a call started by it has a
    nonempty range. *)
Definition ch_thread (ch : schoice) : nat :=
  match ch with Invoke t _ | Run t _ _ _ | Unsync t _ _ _ => t end.
Definition ch_ok (ch : schoice) : Prop :=
  match ch with Invoke _ o | Unsync _ o _ _ => nonempty_op o | Run _ _ _ _ => True end.

Section obs.
  Context (c : cfg).

  (** ** Reachable states *)

  (** [sreach ns hist s]: a stack constructed with the pool nodes [ns] (distinct
      and not null) can reach [s] with history [hist]. *)
  Definition sreach (ns : list N) (hist : list sevent) (s : sstate) : Prop :=
    NoDup ns /\ c_null c ∉ ns /\ hist_ok hist /\ sexec c (sinit c ns) hist s.

  (** The calls that may obtain memory from the allocator. *)
  Definition allocates (o : sop) : bool :=
    match o with
    | SPush b _ | SRange b _ => c_node_based c && negb b
    | SReserve _ | SUReserve _ | SUPush _ | SURange _ => c_node_based c
    | SPop | SAll _ | SEmpty | SUPop => false
    end.

  (** No call is in progress. *)
  Definition quiescent (s : sstate) : Prop := s_pcs s = ∅.

  (** ** Contents of memory *)

  (** The elements found by following links from [p] to null. *)
  Inductive chain (h : gmap N snode) : N -> list N -> Prop :=
    | chain_end : chain h (c_null c) []
    | chain_node p lk v a :
        p <> c_null c -> h !! p = Some (Node lk (Some v)) -> chain h lk.1 a -> chain h p (v :: a).

  (** The elements of the stack, top first. *)
  Definition scontents (s : sstate) (a : list N) : Prop :=
    chain (s_heap (s_sh s)) (s_tos (s_sh s)).1 a.

  (** Node [n] is found by following links from [p]. *)
  Inductive found (h : gmap N snode) : N -> N -> Prop :=
    | found_here n nd : h !! n = Some nd -> found h n n
    | found_next p nd n : h !! p = Some nd -> found h (nx nd).1 n -> found h p n.

  (** The handles through which a call in progress holds the nodes that it has
      taken from the pool (or the allocator) or from the stack and not yet put
      anywhere. *)
  Definition kroots (k : skont) : list N :=
    match k with KUndo cur => [cur] | KVisit nxt _ _ => [nxt] | KRet _ | KReserve _ => [] end.
  Definition roots (pc : spc) : list N :=
    match pc with
    | PcCons _ n | PcCFun n | PcUndo n | PcVisit n _ _ | PcVNext n _ _ => [n]
    | PcLLoad top bot _ | PcLSet top bot _ _ | PcLCas top bot _ _ => [top; bot]
    | PcRAlloc _ _ _ (Some te) _ => [te.1]
    | PcRCons _ _ _ te n | PcRLink _ _ _ te n => n :: match te with Some te => [te.1] | None => [] end
    | PcRevNext n lst => [n; lst]
    | PcRevSet n lst nxt => [n; lst; nxt]
    | PcDestroy n k | PcDealloc n _ k => n :: kroots k
    | _ => []
    end.

  (** The pool is exhausted: its list is empty, and every node is on the stack
      or held by a call in progress. *)
  Definition exhausted (s : sstate) : Prop :=
    (s_pool (s_sh s)).1 = c_null c /\
    forall n, is_Some (s_heap (s_sh s) !! n) ->
      found (s_heap (s_sh s)) (s_tos (s_sh s)).1 n \/
      exists t pc p, s_pcs s !! t = Some pc /\ p ∈ roots pc /\ found (s_heap (s_sh s)) p n.

  (** ** Calls *)

  (** A step, with the states before and after it. *)
  Record srec := SRec { r_pre : sstate; r_ch : schoice; r_post : sstate }.

  (** [scall ns t o w s]: an execution of a stack constructed with [ns] has
      reached [s], in which thread [t] is inside a call of [o], and [w] are the
      steps since the invocation, which is the first of them. *)
  Inductive scall (ns : list N) (t : nat) (o : sop) : list srec -> sstate -> Prop :=
    | scall_start hist s s' evs :
        sreach ns hist s -> nonempty_op o -> sstep c s (Invoke t o) = SNext s' evs ->
        scall ns t o [SRec s (Invoke t o) s'] s'
    | scall_step w s ch s' evs :
        scall ns t o w s -> ch_ok ch -> sstep c s ch = SNext s' evs -> is_Some (s_pcs s' !! t) ->
        scall ns t o (w ++ [SRec s ch s']) s'.

  (** The next step of [t] in [s] returns [r]. *)
  Definition sreturns (s : sstate) (t : nat) (r : sret) : Prop :=
    exists sp addr thr s', sstep c s (Run t sp addr thr) = SNext s' [Res t r].

  (** [scallret ns t o w r]: some call of [o] by [t] returns [r], and [w] are the
      steps from its invocation to its return (exclusive). *)
  Definition scallret (ns : list N) (t : nat) (o : sop) (w : list srec) (r : sret) : Prop :=
    exists s, scall ns t o w s /\ sreturns s t r.

  (** A step that does not change the contents. *)
  Definition silent (st : srec) : Prop :=
    exists a, scontents (r_pre st) a /\ scontents (r_post st) a.

  (** The call takes effect in one step: one step of [t] in [w] turns the
      contents [a] into [a'], and no other step of [t] changes the contents. *)
  Definition effect (t : nat) (w : list srec) (a a' : list N) : Prop :=
    exists w1 st w2, w = w1 ++ st :: w2 /\ ch_thread (r_ch st) = t /\
      scontents (r_pre st) a /\ scontents (r_post st) a' /\
      forall st', st' ∈ w1 ++ w2 -> ch_thread (r_ch st') = t -> silent st'.
End obs.
