(** * Concrete constructions *)
From stdpp Require Import gmap list numbers.
From Verif Require Import SpscModel.
From Verif Require Import Lin PoolModel QueueModel StackModel ConfigModel ConfigSpec.

(** ** capacity<SIZE_MAX> *)
Definition opt_max : opts := Opts (Some (2 ^ 64 - 1)%N) None false.

Lemma queue_max_main :
  class_compiles CQueue opt_max = true /\
  exists s s', queue_ctor true opt_max KDefault false 1 [] None = BDone s /\
    qrun (config true CQueue opt_max KDefault false 1) s
      (QueueModel.Invoke 0 Pop true :: replicate 2 (QueueModel.Run 0 false None false)) = Some ([Inv 0 Pop], s') /\
    qstep (config true CQueue opt_max KDefault false 1) s' (QueueModel.Run 0 false None false) = QUB.
Proof.
  split; [reflexivity|]. eexists. eexists.
  split; [vm_compute; reflexivity|]. split; vm_compute; reflexivity.
Qed.

(** ** queue<T, capacity<2>> q(0) with NDEBUG *)
Definition opt2 : opts := Opts (Some 2%N) None false.
Definition qbad : cfg := config true CQueue opt2 (KSize 0) false 1.
Definition qone (o : qop) (k : nat) : list qchoice :=
  QueueModel.Invoke 0 o true :: replicate k (QueueModel.Run 0 false None false).
Definition qbad_run : list qchoice :=
  qone (Push true [7%N]) 12 ++ qone (Push true [8%N]) 12 ++ qone (Push true [9%N]) 12 ++
  qone (Push true [10%N]) 12 ++ qone Pop 10 ++ qone Pop 10 ++ qone Pop 5.
Definition qbad_hist : list qevent :=
  [Inv 0 (Push true [7%N]); Res 0 (RBool true); Inv 0 (Push true [8%N]); Res 0 (RBool true);
   Inv 0 (Push true [9%N]); Res 0 (RBool true); Inv 0 (Push true [10%N]); Res 0 (RBool true);
   Inv 0 Pop; Res 0 (RPop (Some [9%N])); Inv 0 Pop; Res 0 (RPop (Some [10%N]));
   Inv 0 Pop; Res 0 (RPop None)].

Lemma queue_assert_main :
  class_compiles CQueue opt2 = true /\ ctor_compiles opt2 (KSize 0) = true /\
  ctor_assert opt2 (KSize 0) = false /\
  exists s s', queue_ctor true opt2 (KSize 0) false 1 [] None = BDone s /\
    qrun qbad s qbad_run = Some (qbad_hist, s').
Proof.
  do 3 (split; [reflexivity|]).
  assert (H : match queue_ctor true opt2 (KSize 0) false 1 [] None with
              | BDone s => fst <$> qrun qbad s qbad_run
              | _ => None
              end = Some qbad_hist) by (vm_compute; reflexivity).
  destruct (queue_ctor true opt2 (KSize 0) false 1 [] None) as [s| | |]; try discriminate H.
  destruct (qrun qbad s qbad_run) as [[h s']|] eqn:E; [|discriminate H]. injection H as ->.
  exists s, s'. split; [reflexivity|exact E].
Qed.

(** ** stack<T, capacity<2>> s(0) and s(3) with NDEBUG *)
Definition sbad (n : N) : cfg := config true CStack opt2 (KSize n) false 1.
Definition sone (v : N) (k : nat) : list schoice :=
  StackModel.Invoke 0 (SPush true v) :: replicate k (StackModel.Run 0 false None false).

Lemma stack_assert_main :
  class_compiles CStack opt2 = true /\
  (forall n, ctor_compiles opt2 (KSize n) = true /\ ctor_assert opt2 (KSize n) = false) /\
  (exists s h s', stack_ctor true opt2 (KSize 0) false [] = BDone s /\
     srun (sbad 0) s (sone 7 8 ++ sone 8 8 ++ sone 9 3) = Some (h, s') /\
     sstep (sbad 0) s' (StackModel.Run 0 false None false) = SUB) /\
  (exists s h s', stack_ctor true opt2 (KSize 3) false [] = BDone s /\
     srun (sbad 3) s (sone 7 8 ++ sone 8 8 ++ sone 9 1) = Some (h, s') /\
     sstep (sbad 3) s' (StackModel.Run 0 false None false) = SUB).
Proof.
  split; [reflexivity|]. split; [intros; split; reflexivity|]. split.
  - assert (H : match stack_ctor true opt2 (KSize 0) false [] with
                | BDone s =>
                    match srun (sbad 0) s (sone 7 8 ++ sone 8 8 ++ sone 9 3) with
                    | Some (h, s') =>
                        match sstep (sbad 0) s' (StackModel.Run 0 false None false) with SUB => true | _ => false end
                    | None => false
                    end
                | _ => false
                end = true) by (vm_compute; reflexivity).
    destruct (stack_ctor true opt2 (KSize 0) false []) as [s| | |]; try discriminate H.
    destruct (srun (sbad 0) s (sone 7 8 ++ sone 8 8 ++ sone 9 3)) as [[h s']|] eqn:E; [|discriminate H].
    exists s, h, s'. split; [reflexivity|]. split; [exact E|].
    by destruct (sstep (sbad 0) s' (StackModel.Run 0 false None false)).
  - assert (H : match stack_ctor true opt2 (KSize 3) false [] with
                | BDone s =>
                    match srun (sbad 3) s (sone 7 8 ++ sone 8 8 ++ sone 9 1) with
                    | Some (h, s') =>
                        match sstep (sbad 3) s' (StackModel.Run 0 false None false) with SUB => true | _ => false end
                    | None => false
                    end
                | _ => false
                end = true) by (vm_compute; reflexivity).
    destruct (stack_ctor true opt2 (KSize 3) false []) as [s| | |]; try discriminate H.
    destruct (srun (sbad 3) s (sone 7 8 ++ sone 8 8 ++ sone 9 1)) as [[h s']|] eqn:E; [|discriminate H].
    exists s, h, s'. split; [reflexivity|]. split; [exact E|].
    by destruct (sstep (sbad 3) s' (StackModel.Run 0 false None false)).
Qed.

(** ** The allocator throws in the constructor *)
Definition opt_plain : opts := Opts None None false.

Lemma ctor_leak_main :
  documented opt_plain (KSize 2) /\
  queue_ctor true opt_plain (KSize 2) false 1 [Some 8; Some 16; None]%N None = BThrow [8; 16]%N /\
  stack_ctor true opt_plain (KSize 2) false [Some 8; None]%N = BThrow [8]%N.
Proof. split; [reflexivity|]. split; vm_compute; reflexivity. Qed.

(** ** spsc_queue *)
Lemma ring_max_main :
  ring_compiles opt_max = true /\
  ring_ctor opt_max KDefault 8 None = BDone (Ring 0 0) /\
  ring_ctor opt_plain (KSize (2 ^ 64 - 1)) 8 (Some 64%N) = BDone (Ring 0 0).
Proof. split; [reflexivity|]. split; vm_compute; reflexivity. Qed.

Lemma ring_overflow_main :
  ring_ctor (Opts (Some (2 ^ 61 - 1)%N) None false) KDefault 8 None = BDone (Ring (2 ^ 61) 0).
Proof. vm_compute. reflexivity. Qed.

(** ** Examples of the theorems' hypotheses *)

Lemma demo_queue_fixed :
  class_compiles CQueue (Opts (Some 3%N) None false) = true /\
  documented (Opts (Some 3%N) None false) KDefault /\
  served CQueue (Opts (Some 3%N) None false) 3 [] /\
  exists s, queue_ctor true (Opts (Some 3%N) None false) KDefault false 1 [] None = BDone s /\
    q_pool (q_sh s) = (2, 1)%N /\ (q_head (q_sh s)).1 = 3%N.
Proof.
  split; [reflexivity|]. split; [done|]. split; [reflexivity|]. eexists.
  split; [vm_compute; reflexivity|]. split; vm_compute; reflexivity.
Qed.

Lemma demo_queue_list :
  documented opt_plain (KSize 1) /\ served CQueue opt_plain 1 [Some 8; Some 16]%N /\
  exists s, queue_ctor true opt_plain (KSize 1) false 1 [Some 8; Some 16]%N None = BDone s /\
    q_pool (q_sh s) = (8, 1)%N /\ (q_head (q_sh s)).1 = 16%N.
Proof.
  split; [reflexivity|]. split.
  - exists [8; 16]%N. split; [reflexivity|]. split; [|split; [|reflexivity]].
    + apply (bool_decide_unpack _). vm_compute. exact I.
    + apply (bool_decide_unpack _). vm_compute. exact I.
  - eexists. split; [vm_compute; reflexivity|]. split; vm_compute; reflexivity.
Qed.

Lemma demo_stack_run :
  documented (Opts None (Some true) false) (KSize 3) /\
  served CStack (Opts None (Some true) false) 3 [Some 4096%N] /\
  (exists s, stack_ctor true (Opts None (Some true) false) (KSize 3) false [Some 4096%N] = BDone s /\
    s_pool (s_sh s) = (2, 0)%N /\ (s_tos (s_sh s)).1 = 3%N) /\
  stack_ctor true (Opts None (Some true) false) (KSize 65536) false [] = BThrow [] /\
  stack_ctor true (Opts None (Some true) false) (KSize 3) false [None] = BThrow [].
Proof.
  split; [reflexivity|]. split; [by exists 4096%N|]. split; [|split; reflexivity].
  eexists. split; [vm_compute; reflexivity|]. split; vm_compute; reflexivity.
Qed.
