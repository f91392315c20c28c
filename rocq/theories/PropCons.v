(** Property C45: the stack neither loses nor duplicates elements. *)
From stdpp Require Import gmap list numbers.
From Verif Require Import Lin LinObs PoolModel StackModel StackSpec StackObs StackFlow StackCons StackDemo StackWitness
  ConsWitness.

(** C45.  Let [P] be the values put on the stack by the calls that have taken
    effect: all those of completed calls and some of those of calls in progress.
    Each is either handed to a caller ([T]; all values returned by completed
    calls are), or is on the stack, or was lost by a functor that threw in
    consume_all_atomic ([D]). *)
Theorem C45_stack_conservation c ns hist s :
  c_tagmod c = None -> sreach c ns hist s ->
  exists P T D a, scontents c s a /\ P ≡ₚ T ++ D ++ a /\
    (completed hist ≫= sputs) ⊆+ P /\
    P ⊆+ (completed hist ≫= sputs) ++ (pending hist ≫= soffers) /\
    (completed hist ≫= stakes) ⊆+ T /\ (c_throws c = false -> D = []).
Proof. exact (fun Ht => sconserve_main c Ht ns hist s). Qed.
Print Assumptions C45_stack_conservation.

(** With no call in progress: what was pushed is what was handed out and what is
    stored, unless a consume_all_atomic was left by an exception. *)
Theorem C45_stack_conservation_quiescent c ns hist s :
  c_tagmod c = None -> sreach c ns hist s -> quiescent s ->
  exists D a, scontents c s a /\
    (completed hist ≫= sputs) ≡ₚ (completed hist ≫= stakes) ++ D ++ a /\
    (Forall (fun x => cut_short x = false) (completed hist) -> D = []).
Proof. exact (fun Ht => sconserve_quiet_main c Ht ns hist s). Qed.
Print Assumptions C45_stack_conservation_quiescent.

Example C45_nonvacuous :
  (completed shist1 ≫= sputs) = [5; 6; 7]%N /\ (completed shist1 ≫= stakes) = [6; 7]%N /\
  Forall (fun x => cut_short x = false) (completed shist1) /\
  exists s, sreach sdemoN [1; 2; 3]%N shist1 s /\ quiescent s /\ scontents sdemoN s [5%N].
Proof.
  split; [vm_compute; reflexivity|]. split; [vm_compute; reflexivity|].
  split; [vm_compute; repeat constructor|]. exact sdemo1.
Qed.

(** The exception loses elements: of three, the functor saw the first two and
    threw; the third is neither handed out nor on the stack. *)
Theorem C45_throwing_consume_all_atomic_refuted :
  exists hist s, sreach sdemoT [1; 2; 3]%N hist s /\ quiescent s /\ scontents sdemoT s [] /\
    (completed hist ≫= sputs) = [1; 2; 3]%N /\ (completed hist ≫= stakes) = [3; 2]%N.
Proof. exact sdemo_all_throw. Qed.
Print Assumptions C45_throwing_consume_all_atomic_refuted.
