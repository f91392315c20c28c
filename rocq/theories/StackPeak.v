(** * How many nodes a stack ever needs: vocabulary

    Nothing in this file is used by the model. *)
From stdpp Require Import gmap list numbers.
From Verif Require Import Lin PoolModel StackModel StackSpec StackObs StackWrapObs.

(** The nodes that the calls in a history have asked for by reserve or
    reserve_unsafe. *)
Definition sasked (e : sevent) : nat :=
  match e with
  | Inv _ (SReserve n) | Inv _ (SUReserve n) => n
  | _ => 0
  end.
Definition sreserved (hist : list sevent) : nat := sum_list_with sasked hist.

Section peak.
  Context (c : cfg).

  (** [sexec] all of whose states satisfy [P] and all of whose choices satisfy
      [Q] in the state in which they are made. *)
  Inductive sexec_all (P : sstate -> Prop) (Q : sstate -> schoice -> Prop) (s0 : sstate) :
      list sevent -> sstate -> Prop :=
    | sall_nil : P s0 -> sexec_all P Q s0 [] s0
    | sall_step hist s ch s' evs :
        sexec_all P Q s0 hist s -> ch_ok ch -> Q s ch -> sstep c s ch = SNext s' evs -> P s' ->
        sexec_all P Q s0 (hist ++ evs) s'.

  (** [swexec] with the same conditions. *)
  Inductive swexec_all (b : N) (P : sstate -> Prop) (Q : sstate -> schoice -> Prop) (s0 : sstate) :
      list sevent -> sstate -> (nat -> sloc -> nat) -> Prop :=
    | swall_nil : P s0 -> swexec_all b P Q s0 [] s0 (fun _ _ => 0)
    | swall_step hist s k ch s' evs :
        swexec_all b P Q s0 hist s k -> ch_ok ch -> Q s ch -> sstep c s ch = SNext s' evs ->
        (forall t l, is_Some (s_pcs s' !! t) -> (N.of_nat (scount k s ch s' t l) < b)%N) -> P s' ->
        swexec_all b P Q s0 (hist ++ evs) s' (scount k s ch s').

  (** Node [n] is on the stack or held by a call in progress. *)
  Definition in_use (s : sstate) (n : N) : Prop :=
    found (s_heap (s_sh s)) (s_tos (s_sh s)).1 n \/
    exists t pc p, s_pcs s !! t = Some pc /\ p ∈ roots pc /\ found (s_heap (s_sh s)) p n.

  (** The nodes in use and the calls in progress are at most [B]. *)
  Definition sneeds (B : nat) (s : sstate) : Prop :=
    exists l, (forall n, in_use s n -> n ∈ l) /\ length l + size (s_pcs s) <= B.

  (** A range push without synchronization, which is a single step here, has at
      most [B] elements, those on the stack before it included. *)
  Definition srange_needs (B : nat) (s : sstate) (ch : schoice) : Prop :=
    match ch with
    | Unsync _ (SURange vs) _ _ => exists a, scontents c s a /\ length a + length vs <= B
    | _ => True
    end.
End peak.
