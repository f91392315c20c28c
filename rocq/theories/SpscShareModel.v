(** * Several threads on one side of an spsc_queue

    spsc_queue.hpp allows one thread to push and one to pop (notes at 821, 834,
    848, 863, 875, 888, ...: "only one thread is allowed to push data to the
    spsc_queue").  Here any number of threads make producer calls and any
    number of others consumer calls.  Every call is the code of SpscModel.v.

    [lk = true]: the producers share a lock, which each of them holds during its
    calls, and so do the consumers.  A thread that obtains the lock synchronizes
    with the one that held it last, and with nobody else.  [lk = false]: they
    share no lock.

    The vector clock of the producers in SpscModel.v has one component, so for
    [lk = false] races between two producers are not detected; the refutations use
    this machine for interleavings only. *)
From stdpp Require Import gmap list numbers.
From Verif Require Import Lin SpscModel.

Section machine.
  Context {V : Type}.

  Record mstate := MSt {
    m_w : list msg;                (* write_index_ *)
    m_r : list msg;                (* read_index_ *)
    m_slots : gmap N (slot V);
    m_prods : nat -> thread V;     (* the threads that push *)
    m_conss : nat -> thread V;     (* the threads that pop *)
    m_lastp : nat;                 (* the producer that made the last call *)
    m_lastc : nat;                 (* the consumer that made the last call *)
    m_known : N;
    m_excl : option bool;
    m_dead : bool;
  }.

  Definition upd {A} (f : nat -> A) (i : nat) (x : A) : nat -> A := fun j => if decide (j = i) then x else f j.

  (** The queue as producer [i] and consumer [j] see it, and back. *)
  Definition pair_of (s : mstate) (i j : nat) : xstate V :=
    XSt (m_w s) (m_r s) (m_slots s) (m_prods s i) (m_conss s j) (m_known s) (m_excl s) (m_dead s).
  Definition put_back (s : mstate) (i j : nat) (x : xstate V) : mstate :=
    MSt (x_w x) (x_r x) (x_slots x) (upd (m_prods s) i (x_prod x)) (upd (m_conss s) j (x_cons x)) i j
        (x_known x) (x_excl x) (x_dead x).

  (** Thread [i] obtains the lock of the producers, which [m_lastp] has released. *)
  Definition lockp (s : mstate) (i : nat) : mstate :=
    MSt (m_w s) (m_r s) (m_slots s)
        (upd (m_prods s) i (join_threads (m_prods s i) (m_prods s (m_lastp s)) (t_pc (m_prods s i))))
        (m_conss s) i (m_lastc s) (m_known s) (m_excl s) (m_dead s).
  Definition lockc (s : mstate) (j : nat) : mstate :=
    MSt (m_w s) (m_r s) (m_slots s) (m_prods s)
        (upd (m_conss s) j (join_threads (m_conss s j) (m_conss s (m_lastc s)) (t_pc (m_conss s j))))
        (m_lastp s) j (m_known s) (m_excl s) (m_dead s).

  (** Producers are the threads 0, 2, 4, ..., consumers 1, 3, 5, .... *)
  Definition ev_at (i j : nat) (e : event (xop V) (xret V)) : event (xop V) (xret V) :=
    match e with
    | Inv t o => Inv (t + 2 * (if decide (t = tid RP) then i else j)) o
    | Res t r => Res (t + 2 * (if decide (t = tid RP) then i else j)) r
    end.

  Inductive moutcome :=
    | MNext (s : mstate) (evs : list (event (xop V) (xret V)))
    | MErr (e : xerr)
    | MDisabled.

  Context (c : xcfg) (lk : bool).

  (** [i] is the thread that takes the step. *)
  Definition mstep (s : mstate) (i : nat) (ch : xchoice V) : moutcome :=
    let go (s : mstate) (i j : nat) :=
      match xstep c (pair_of s i j) ch with
      | XNext x evs => MNext (put_back s i j x) (ev_at i j <$> evs)
      | XErr e => MErr e
      | XDisabled => MDisabled
      end in
    match ch with
    | XInvoke RP _ =>
        if lk then
          match t_pc (m_prods s (m_lastp s)) with
          | Some _ => MDisabled                  (* the lock is taken *)
          | None => go (lockp s i) i (m_lastc s)
          end
        else go s i (m_lastc s)
    | XInvoke RC _ =>
        if lk then
          match t_pc (m_conss s (m_lastc s)) with
          | Some _ => MDisabled
          | None => go (lockc s i) (m_lastp s) i
          end
        else go s (m_lastp s) i
    | XRun RP _ _ => if lk && negb (bool_decide (i = m_lastp s)) then MDisabled else go s i (m_lastc s)
    | XRun RC _ _ => if lk && negb (bool_decide (i = m_lastc s)) then MDisabled else go s (m_lastp s) i
    | XSync => go s (m_lastp s) (m_lastc s)
    end.

  Definition minit : mstate :=
    let x := xinit (V := V) in
    MSt (x_w x) (x_r x) (x_slots x) (fun _ => x_prod x) (fun _ => x_cons x) 0 0 (x_known x) (x_excl x) (x_dead x).

  Inductive msteps : list (event (xop V) (xret V)) -> mstate -> Prop :=
    | msteps_nil : msteps [] minit
    | msteps_cons hist s i ch s' evs :
        msteps hist s -> mstep s i ch = MNext s' evs -> msteps (hist ++ evs) s'.

  Fixpoint mrun (s : mstate) (chs : list (nat * xchoice V)) : option (list (event (xop V) (xret V)) * mstate) :=
    match chs with
    | [] => Some ([], s)
    | (i, ch) :: chs =>
        match mstep s i ch with
        | MNext s' evs =>
            match mrun s' chs with
            | Some (h, s'') => Some (evs ++ h, s'')
            | None => None
            end
        | _ => None
        end
    end.

  (** The history with all producers called 0 and all consumers called 1. *)
  Definition side (e : event (xop V) (xret V)) : event (xop V) (xret V) :=
    match e with Inv t o => Inv (t mod 2) o | Res t r => Res (t mod 2) r end.
End machine.
Arguments mstate V : clear implicits.
Arguments moutcome V : clear implicits.
