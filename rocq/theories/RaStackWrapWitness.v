(** * A run of the stack on release/acquire memory with tags that wrap *)
From stdpp Require Import gmap list numbers.
From Verif Require Import Lin LinObs PoolModel StackModel StackObs StackDemo StackWitness RaMem RaStackModel RaStackObs RaStackDemo
  RaStackWrapObs.

Section demo.
  Context (c : cfg) (acq : bool) (b : N).

  Definition in_window (k : nat -> root -> option nat) (s : rstate) : Prop :=
    map_Forall (fun t _ => Forall (fun i => match k t i with
                                          | Some j => (N.of_nat (updates_since s i j) < b)%N
                                          | None => True
                                          end) [RPool; RTos]) (r_pcs s).
  Global Instance in_window_dec k s : Decision (in_window k s).
  Proof.
    apply map_Forall_dec. intros t pc. apply Forall_dec. intros i. destruct (k t i) as [j|]; [exact (decide (N.of_nat (updates_since s i j) < b)%N)|exact (decide True)].
  Defined.

  Fixpoint rwrun (k : nat -> root -> option nat) (s : rstate) (ds : list rdo) :
      option (list (sevent * view) * rstate * (nat -> root -> option nat)) :=
    match ds with
    | [] => Some ([], s, k)
    | d :: ds =>
        let ch := rdo_choice c acq s d in
        match rstep c acq s ch with
        | RNext s' evs =>
            let k' := last_read c acq k s ch in
            if bool_decide (in_window k' s') then
              match rwrun k' s' ds with
              | Some (h, s'', k'') => Some (evs ++ h, s'', k'')
              | None => None
              end
            else None
        | _ => None
        end
    end.

  Lemma rwrun_exec s0 ds : forall h0 k s h s' k',
    rwexec c acq b s0 h0 s k -> rwrun k s ds = Some (h, s', k') -> rwexec c acq b s0 (h0 ++ h) s' k'.
  Proof.
    induction ds as [|d ds IH]; intros h0 k s h s' k' H0 H; simpl in H.
    - injection H as <- <- <-. by rewrite app_nil_r.
    - destruct (rstep c acq s (rdo_choice c acq s d)) as [s1 evs| | |] eqn:Hs; [|done..].
      destruct (bool_decide _) eqn:Hb; [|done]. apply bool_decide_eq_true in Hb.
      destruct (rwrun _ s1 ds) as [[[h1 s2] k2]|] eqn:Hr; [|done]. injection H as <- <- <-.
      rewrite app_assoc. eapply IH; [|exact Hr]. econstructor; [exact H0|exact Hs|].
      intros t i j [pc Hpc] Hj. specialize (Hb t pc Hpc). simpl in Hb. rewrite list.Forall_forall in Hb.
      specialize (Hb i). rewrite Hj in Hb. apply Hb. destruct i; set_solver.
  Qed.

  Definition rwshow {A} (ns : list N) (ds : list rdo) (f : list (sevent * view) -> rstate -> A) : option (list sevent * bool * A) :=
    match rwrun (fun _ _ => None) (rinit c ns) ds with
    | Some (h, s, _) => Some (h.*1, hist_okb h.*1, f h s)
    | None => None
    end.
  Lemma rwshow_reach {A} ns ds (f : list (sevent * view) -> rstate -> A) h a :
    rwshow ns ds f = Some (h, true, a) -> pool_ok c ns ->
    exists tr s, rwreach c acq b ns tr s /\ tr.*1 = h /\ f tr s = a.
  Proof.
    unfold rwshow. destruct (rwrun _ (rinit c ns) ds) as [[[tr s] k]|] eqn:Hr; [|done].
    intros [= E1 E2 E3] [H1 H2]. exists tr, s. split; [|done]. do 2 (split; [done|]).
    split; [by apply hist_okb_ok|]. exists k. change tr with ([] ++ tr). eapply rwrun_exec; [constructor|exact Hr].
  Qed.
End demo.

(** Tags of three values: [pool_] has been updated three times at the end. *)
Definition rsmall : cfg := Cfg 0%N true (Some 3%N) false 1.

Lemma rwdemo1 : exists tr s, rwreach rsmall true 3 [1; 2; 3]%N tr s /\ tr.*1 = rhist1 /\
  (s_pool (r_x s), s_tos (r_x s)) = ((2, 0), (3, 2))%N.
Proof.
  apply (rwshow_reach rsmall true 3 [1; 2; 3]%N rsched1 (fun _ s => (s_pool (r_x s), s_tos (r_x s))));
    [vm_compute; reflexivity|pool_tac].
Qed.

Lemma rwdemo_transfer : exists tr s e W, rwreach rsmall true 3 [1; 2; 3]%N tr s /\
  call_returns tr.*1 4 9 1 SPop (SGot (Some 7%N)) /\ tr !! 9 = Some (e, W).
Proof.
  destruct rwdemo1 as (tr & s & H & E & _). destruct (lookup_lt_is_Some_2 tr 9) as [[e W] HW].
  { rewrite <- (fmap_length fst), E. simpl. lia. }
  exists tr, s, e, W. split; [done|]. split; [|done]. rewrite E. split; [done|]. split; [lia|]. split; [done|].
  intros k e' Hk. do 10 (destruct k as [|k]; [try lia; simpl; intros [= <-]; simpl; lia|]). lia.
Qed.
