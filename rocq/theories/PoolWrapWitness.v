(** * Concrete executions of the pool with wrapping tags, used in PropPoolWrap.v *)
From stdpp Require Import gmap list numbers.
From Verif Require Import Lin PoolModel PoolMachine PoolMain PoolWrapObs WrapWitness.

Set Default Proof Using "Type".

Section run.
  Context {D : Type} (c : cfg) (d0 : D) (b : N).

  Definition pfitsb (ch : pchoice D) : bool :=
    match ch with PWrite _ nd => ((nx nd).2 <? b)%N | _ => true end.

  (** Runs a schedule and checks the counts. *)
  Fixpoint pwrun (s : pstate D) (k : nat -> nat) (chs : list (pchoice D)) : option (list pevent * pstate D) :=
    match chs with
    | [] => Some ([], s)
    | ch :: chs =>
        match pstep c d0 s ch with
        | PNext s' evs =>
            let k' := pcount k s ch s' in
            if pfitsb ch && young b k' (p_pcs s') then
              match pwrun s' k' chs with Some (h, s'') => Some (evs ++ h, s'') | None => None end
            else None
        | _ => None
        end
    end.

  Lemma pwrun_exec s0 chs : forall s k hist h s',
    pwexec c d0 b s0 hist s k -> pwrun s k chs = Some (h, s') -> exists k', pwexec c d0 b s0 (hist ++ h) s' k'.
  Proof.
    induction chs as [|ch chs IH]; intros s k hist h s' He Hr; cbn [pwrun] in Hr.
    - injection Hr as <- <-. exists k. by rewrite app_nil_r.
    - destruct (pstep c d0 s ch) as [s1 evs| |] eqn:Hs; [|discriminate Hr..]. cbv zeta in Hr.
      destruct (pfitsb ch) eqn:Hf; [|discriminate Hr]. cbn [andb] in Hr.
      destruct (young b (pcount k s ch s1) (p_pcs s1)) eqn:Hy; [|discriminate Hr].
      destruct (pwrun s1 (pcount k s ch s1) chs) as [[h1 s2]|] eqn:Hq; [|discriminate Hr].
      injection Hr as <- <-. rewrite app_assoc. eapply IH; [|exact Hq].
      econstructor; [exact He| |exact Hs|].
      + destruct ch; try done. by apply N.ltb_lt in Hf.
      + intros t Ht. exact (young_lt _ _ _ _ Hy Ht).
  Qed.

  Lemma pwrun_reach ns chs h s :
    pwrun (pinit c d0 ns) (fun _ => 0) chs = Some (h, s) -> NoDup ns -> c_null c ∉ ns -> pwreach c d0 b ns h s.
  Proof.
    intros Hr H1 H2. do 2 (split; [done|]).
    by apply (pwrun_exec _ _ _ _ _ _ _ (pwexec_nil _ _ _ _) Hr).
  Qed.
End run.

(** Tags modulo 4.  In each of 10 rounds the node that thread 1 is about to take
    is taken by thread 2, and so is its successor, and given back, as in
    [aba]; the nodes are given back at the end of the round, one of them after it
    has been overwritten. *)
Definition pwcfg : cfg := Cfg 9%N false (Some 4%N) false 1.
Definition pwround : list (pchoice unit) :=
  aba ++ [PWrite 1 (Node (7, 3)%N tt)] ++ pcall 3 (PFree 1) 4 ++ pcall 1 (PFree 2) 4.
Definition pwround_hist : list pevent :=
  aba_hist ++ [Inv 3 (PFree 1); Res 3 PUnit; Inv 1 (PFree 2); Res 1 PUnit].
Definition pwsched : list (pchoice unit) := mjoin (replicate 10 pwround).
Definition pwhist : list pevent := mjoin (replicate 10 pwround_hist).

Definition pwshow (chs : list (pchoice unit)) : option (list pevent * list N * bool) :=
  match pwrun pwcfg tt 4 (pinit pwcfg tt [1; 2]%N) (fun _ => 0) chs with
  | Some (h, s) => Some (h, elements (p_out s), bool_decide (p_pcs s = ∅))
  | None => None
  end.

Lemma ppool2 : NoDup [1; 2]%N /\ c_null pwcfg ∉ [1; 2]%N.
Proof. split; by apply (bool_decide_unpack _). Qed.

Lemma pwdemo : exists s, pwreach pwcfg tt 4 [1; 2]%N pwhist s /\ pquiet s.
Proof.
  assert (H : pwshow pwsched = Some (pwhist, [], true)) by (vm_compute; reflexivity).
  unfold pwshow in H. destruct (pwrun pwcfg tt 4 (pinit pwcfg tt [1; 2]%N) (fun _ => 0) pwsched) as [[h s]|] eqn:Hr; [|discriminate H].
  injection H as -> _ Hq. exists s. split; [|by apply bool_decide_eq_true in Hq].
  eapply pwrun_reach; [exact Hr|apply ppool2..].
Qed.

(** One more allocation. *)
Lemma pwdemo_held : exists s, pwreach pwcfg tt 4 [1; 2]%N (pwhist ++ [Inv 5 (PAlloc true); Res 5 (PGot 2)]) s /\ pquiet s.
Proof.
  assert (H : pwshow (pwsched ++ pcall 5 (PAlloc true) 4) =
    Some (pwhist ++ [Inv 5 (PAlloc true); Res 5 (PGot 2)], [2%N], true)) by (vm_compute; reflexivity).
  unfold pwshow in H. destruct (pwrun pwcfg tt 4 (pinit pwcfg tt [1; 2]%N) (fun _ => 0) (pwsched ++ pcall 5 (PAlloc true) 4))
    as [[h s]|] eqn:Hr; [|discriminate H].
  injection H as -> _ Hq. exists s. split; [|by apply bool_decide_eq_true in Hq].
  eapply pwrun_reach; [exact Hr|apply ppool2..].
Qed.
