(** * The node pool on its own: a machine of threads that allocate and deallocate

    The functions are those of PoolModel.v (freelist.hpp:52-255, 405-614).  The
    clients are arbitrary: they may write anything to the nodes that they have
    been handed out, may pass them to each other, and may give back any of
    them, but nothing else. *)
From stdpp Require Import gmap list numbers.
From Verif Require Import Lin PoolModel.

(** Operations: allocate<true, bounded>() (freelist.hpp:162-168, 501-507),
    deallocate<true>(n) (220-227, 580-586), and the versions without
    synchronization allocate<false, bounded>, deallocate<false>. *)
Inductive pop :=
  | PAlloc (bounded : bool)
  | PFree (n : N)
  | PUAlloc (bounded : bool)
  | PUFree (n : N).
Inductive pret :=
  | PGot (n : N)     (* a node *)
  | PNone            (* null handle *)
  | PThrow           (* exception of the allocator *)
  | PUnit.
Notation pevent := (event pop pret).

Section machine.
  Context {D : Type} (c : cfg) (d0 : D).

  (** Where a thread is. *)
  Inductive ppc :=
    | PpAlloc (b : bool) (a : apc)
    | PpFree (n : N) (d : dpc)
    | PpRet (r : pret).

  (** [p_out] are the nodes in the hands of clients: returned by an allocation,
      not yet passed to a deallocation. *)
  Record pstate := PSt {
    p_heap : gmap N (node D);
    p_pool : tagged;
    p_out : gset N;
    p_pcs : gmap nat ppc;
  }.

  Inductive pchoice :=
    | PInvoke (t : nat) (o : pop)
    | PRun (t : nat) (sp : bool) (addr : option N)
    | PUnsync (t : nat) (o : pop) (addr : option N)
    | PWrite (n : N) (nd : node D).    (* a client writes to a node of its own *)

  Inductive poutcome :=
    | PNext (s : pstate) (evs : list pevent)
    | PUB
    | PDisabled.

  Definition give (r : pret) (out : gset N) : gset N :=
    match r with PGot n => {[n]} ∪ out | _ => out end.

  Definition pstep (s : pstate) (ch : pchoice) : poutcome :=
    match ch with
    | PInvoke t o =>
        match p_pcs s !! t, o with
        | None, PAlloc b =>
            PNext (PSt (p_heap s) (p_pool s) (p_out s) (<[t := PpAlloc b ALoad]> (p_pcs s))) [Inv t o]
        | None, PFree n =>
            if decide (n ∈ p_out s) then
              PNext (PSt (p_heap s) (p_pool s) (p_out s ∖ {[n]}) (<[t := PpFree n DLoad]> (p_pcs s))) [Inv t o]
            else PDisabled
        | _, _ => PDisabled
        end
    | PRun t sp addr =>
        match p_pcs s !! t with
        | None => PDisabled
        | Some (PpAlloc b a) =>
            match astep c d0 b (p_heap s) (p_pool s) a sp addr with
            | ACont h p a' => PNext (PSt h p (p_out s) (<[t := PpAlloc b a']> (p_pcs s))) []
            | AGot h p n => PNext (PSt h p (p_out s) (<[t := PpRet (PGot n)]> (p_pcs s))) []
            | AFail => PNext (PSt (p_heap s) (p_pool s) (p_out s) (<[t := PpRet PNone]> (p_pcs s))) []
            | AThrow => PNext (PSt (p_heap s) (p_pool s) (p_out s) (<[t := PpRet PThrow]> (p_pcs s))) []
            | AUB => PUB
            | ADisabled => PDisabled
            end
        | Some (PpFree n d) =>
            match dstep n (p_heap s) (p_pool s) d sp with
            | DCont h p d' => PNext (PSt h p (p_out s) (<[t := PpFree n d']> (p_pcs s))) []
            | DDone h p => PNext (PSt h p (p_out s) (<[t := PpRet PUnit]> (p_pcs s))) []
            | DUB => PUB
            end
        | Some (PpRet r) =>
            PNext (PSt (p_heap s) (p_pool s) (give r (p_out s)) (delete t (p_pcs s))) [Res t r]
        end
    | PUnsync t o addr =>
        if decide (p_pcs s = ∅) then
          match o with
          | PUAlloc b =>
              match alloc_unsafe c d0 b (p_heap s) (p_pool s) addr with
              | AGot h p n => PNext (PSt h p ({[n]} ∪ p_out s) ∅) [Inv t o; Res t (PGot n)]
              | AFail => PNext s [Inv t o; Res t PNone]
              | AThrow => PNext s [Inv t o; Res t PThrow]
              | AUB => PUB
              | ADisabled | ACont _ _ _ => PDisabled
              end
          | PUFree n =>
              if decide (n ∈ p_out s) then
                match dealloc_unsafe n (p_heap s) (p_pool s) with
                | DDone h p => PNext (PSt h p (p_out s ∖ {[n]}) ∅) [Inv t o; Res t PUnit]
                | DCont _ _ _ => PDisabled
                | DUB => PUB
                end
              else PDisabled
          | _ => PDisabled
          end
        else PDisabled
    | PWrite n nd =>
        if decide (n ∈ p_out s) then
          PNext (PSt (<[n := nd]> (p_heap s)) (p_pool s) (p_out s) (p_pcs s)) []
        else PDisabled
    end.

  (** Construction with the nodes [ns]. *)
  Definition pinit (ns : list N) : pstate :=
    PSt (pool_init c d0 ns).1 (pool_init c d0 ns).2 ∅ ∅.

  Inductive pexec (s0 : pstate) : list pevent -> pstate -> Prop :=
    | pexec_nil : pexec s0 [] s0
    | pexec_step hist s ch s' evs :
        pexec s0 hist s -> pstep s ch = PNext s' evs -> pexec s0 (hist ++ evs) s'.

  Definition preach (ns : list N) (hist : list pevent) (s : pstate) : Prop :=
    NoDup ns /\ c_null c ∉ ns /\ pexec (pinit ns) hist s.

  Fixpoint prun (s : pstate) (chs : list pchoice) : option (list pevent * pstate) :=
    match chs with
    | [] => Some ([], s)
    | ch :: chs =>
        match pstep s ch with
        | PNext s' evs =>
            match prun s' chs with
            | Some (h, s'') => Some (evs ++ h, s'')
            | None => None
            end
        | _ => None
        end
    end.
End machine.
Arguments pstate D : clear implicits.
Arguments pchoice D : clear implicits.
Arguments poutcome D : clear implicits.

(** ** Specification

    The abstract state says of each node whether it is available ([true]) or
    handed out ([false]).  [nb]: node-based. *)
Inductive pspec (nb : bool) : gmap N bool -> pop -> pret -> gmap N bool -> Prop :=
  | ps_alloc a b n : a !! n = Some true -> pspec nb a (PAlloc b) (PGot n) (<[n := false]> a)
  | ps_fresh a b n :
      nb = true -> b = false -> a !! n = None -> pspec nb a (PAlloc b) (PGot n) (<[n := false]> a)
  | ps_none a b :
      nb = false \/ b = true -> (forall n, a !! n <> Some true) -> pspec nb a (PAlloc b) PNone a
  | ps_throw a b : nb = true -> b = false -> pspec nb a (PAlloc b) PThrow a
  | ps_free a n : a !! n = Some false -> pspec nb a (PFree n) PUnit (<[n := true]> a)
  | ps_ualloc a b n : a !! n = Some true -> pspec nb a (PUAlloc b) (PGot n) (<[n := false]> a)
  | ps_ufresh a b n :
      nb = true -> b = false -> a !! n = None -> (forall m, a !! m <> Some true) ->
      pspec nb a (PUAlloc b) (PGot n) (<[n := false]> a)
  | ps_unone a b :
      nb = false \/ b = true -> (forall n, a !! n <> Some true) -> pspec nb a (PUAlloc b) PNone a
  | ps_uthrow a b :
      nb = true -> b = false -> (forall n, a !! n <> Some true) -> pspec nb a (PUAlloc b) PThrow a
  | ps_ufree a n : a !! n = Some false -> pspec nb a (PUFree n) PUnit (<[n := true]> a).

(** Initially all nodes are available. *)
Definition pstart (ns : list N) : gmap N bool := gset_to_gmap true (list_to_set ns).

(** ** Vocabulary *)

(** The nodes in the clients' hands after a history: returned by an allocation
    and not since passed to a deallocation. *)
Definition held_step (H : gset N) (e : pevent) : gset N :=
  match e with
  | Res _ (PGot n) => {[n]} ∪ H
  | Inv _ (PFree n) | Inv _ (PUFree n) => H ∖ {[n]}
  | _ => H
  end.
Definition held (hist : list pevent) : gset N := foldl held_step ∅ hist.

(** No call in progress. *)
Definition pquiet {D} (s : pstate D) : Prop := p_pcs s = ∅.

(** Allocations without falling back on the allocator, one after the other, by
    thread [t]: each reads the pool word, tests it, reads the node, swings the
    word and returns; the last one finds the pool empty. *)
Definition drain {D} (t k : nat) : list (pchoice D) :=
  concat (replicate k (PInvoke t (PAlloc true) :: replicate 4 (PRun t false None))) ++
  PInvoke t (PAlloc true) :: replicate 3 (PRun t false None).
Definition drained (t : nat) (L : list N) : list pevent :=
  concat (map (fun n => [Inv t (PAlloc true); Res t (PGot n)]) L) ++
  [Inv t (PAlloc true); Res t PNone].
