(** * A concrete execution used as witness in PropCons.v *)
From stdpp Require Import gmap list numbers.
From Verif Require Import Lin LinObs PoolModel StackModel StackSpec StackObs StackFlow StackDemo StackWitness.

(** The functor of consume_all_atomic throws at the second of three elements. *)
Lemma sdemo_all_throw :
  exists hist s, sreach sdemoT [1; 2; 3]%N hist s /\ quiescent s /\ scontents sdemoT s [] /\
    (completed hist ≫= sputs) = [1; 2; 3]%N /\ (completed hist ≫= stakes) = [3; 2]%N.
Proof.
  destruct (sshow_reach sdemoT [1; 2; 3]%N
    (swhole 0 (SPush true 1%N) 8 ++ swhole 0 (SPush true 2%N) 8 ++ swhole 0 (SPush true 3%N) 8 ++
     Invoke 1 (SAll false) :: sruns 1 8 ++ [Run 1 false None true; Run 1 false None false])
    [Inv 0 (SPush true 1%N); Res 0 (SBool true); Inv 0 (SPush true 2%N); Res 0 (SBool true);
     Inv 0 (SPush true 3%N); Res 0 (SBool true); Inv 1 (SAll false); Res 1 (SExn [3; 2]%N)] [] 0)
    as (s & H1 & H2 & H3 & _); [vm_compute; reflexivity|pool_tac|].
  eexists _, s. split; [exact H1|]. split; [by apply H3|]. split; [done|].
  split; vm_compute; reflexivity.
Qed.
