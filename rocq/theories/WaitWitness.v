(** * Concrete states for the theorems about calls that never return *)
From stdpp Require Import gmap list numbers.
From Verif Require Import Lin LinObs PoolModel StackModel StackSpec StackObs StackDemo StackWitness
  QueueModel QueueSpec QueueObs QueueDemo QueueWitness WaitObs.

Lemma demo_two :
  exists s, qreach demoN [1; 2]%N [] s /\ QueueObs.quiescent s /\ qcontents demoN s [] /\
    S (length (A := val) []) < size (q_heap (q_sh s)).
Proof.
  assert (Hc : match qinit demoN [1; 2]%N None with
               | Some s0 => (contentsb demoN s0, size (q_pcs s0), size (q_heap (q_sh s0)))
               | None => (None, 1, 0)
               end = (Some [], 0, 2)) by (vm_compute; reflexivity).
  destruct (qinit demoN [1; 2]%N None) as [s0|] eqn:Hi; [|discriminate Hc]. injection Hc as H1 H2 H3.
  exists s0. split; [|split; [|split]].
  - exists None, s0. split; [|split; [|split; [|split]]].
    + apply (bool_decide_unpack _). vm_compute. exact I.
    + apply (bool_decide_unpack _). vm_compute. exact I.
    + by left.
    + exact Hi.
    + constructor.
  - by apply map_size_empty_inv.
  - by apply contentsb_ok.
  - rewrite H3. cbn [length]. lia.
Qed.

Lemma sdemo_one :
  exists s, sreach sdemoN [1]%N [] s /\ StackObs.quiescent s /\ scontents sdemoN s [] /\
    length (A := N) [] < size (s_heap (s_sh s)).
Proof.
  exists (sinit sdemoN [1]%N). split; [|split; [|split]].
  - split; [apply (bool_decide_unpack _); vm_compute; exact I|].
    split; [apply (bool_decide_unpack _); vm_compute; exact I|]. split; [|constructor].
    intros t o Hin. by apply elem_of_nil in Hin.
  - reflexivity.
  - constructor.
  - vm_compute. lia.
Qed.

(** empty() while another thread pushes. *)
Definition sched_empty : list qchoice :=
  QueueModel.Invoke 0 Empty false :: QueueModel.Run 0 false None false ::
  QueueModel.Invoke 1 (Push true [4; 4]%N) false :: replicate 13 (QueueModel.Run 1 false None false) ++
  [QueueModel.Run 0 false None false; QueueModel.Run 0 false None false].
Lemma demo_empty_run :
  exists s h s', qreach demoN [1; 2]%N [] s /\ qrun demoN s sched_empty = Some (h, s') /\
    3 <= q_steps 0 (tail sched_empty) /\ Res 0 (RBool false) ∈ h.
Proof.
  assert (Hc : match qinit demoN [1; 2]%N None with
               | Some s0 => fst <$> qrun demoN s0 sched_empty
               | None => None
               end = Some [Inv 0 Empty; Inv 1 (Push true [4; 4]%N); Res 1 (RBool true); Res 0 (RBool false)])
    by (vm_compute; reflexivity).
  destruct (qinit demoN [1; 2]%N None) as [s0|] eqn:Hi; [|discriminate Hc].
  destruct (qrun demoN s0 sched_empty) as [[h s']|] eqn:Hr; [|discriminate Hc]. injection Hc as ->.
  eexists s0, _, s'. split; [|split; [exact Hr|split]].
  - exists None, s0. split; [|split; [|split; [|split]]].
    + apply (bool_decide_unpack _). vm_compute. exact I.
    + apply (bool_decide_unpack _). vm_compute. exact I.
    + by left.
    + exact Hi.
    + constructor.
  - vm_compute. lia.
  - right. right. right. left.
Qed.

Definition ssched_empty : list schoice :=
  StackModel.Invoke 0 SEmpty :: StackModel.Run 0 false None false ::
  StackModel.Invoke 1 (SPush true 4%N) :: replicate 8 (StackModel.Run 1 false None false) ++
  [StackModel.Run 0 false None false].
Lemma sdemo_empty_run :
  exists h s', srun sdemoN (sinit sdemoN [1]%N) ssched_empty = Some (h, s') /\
    2 <= s_steps 0 (tail ssched_empty) /\ Res 0 (SBool true) ∈ h.
Proof.
  assert (Hc : fst <$> srun sdemoN (sinit sdemoN [1]%N) ssched_empty =
               Some [Inv 0 SEmpty; Inv 1 (SPush true 4%N); Res 1 (SBool true); Res 0 (SBool true)])
    by (vm_compute; reflexivity).
  destruct (srun sdemoN (sinit sdemoN [1]%N) ssched_empty) as [[h s']|] eqn:Hr; [|discriminate Hc].
  injection Hc as ->. eexists _, s'. split; [reflexivity|]. split; [vm_compute; lia|].
  right. right. right. left.
Qed.
