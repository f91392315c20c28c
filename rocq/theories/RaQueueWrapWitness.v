(** * A run of the queue on release/acquire memory with tags that wrap *)
From stdpp Require Import gmap list numbers.
From Verif Require Import Lin PoolModel QueueModel QueueDemo RaMem RaTags RaQueueModel RaQueueObs RaQueueDemo RaQueueWitness
  QueueWrapObs RaQueueWrapObs.

Section demo.
  Context (c : cfg) (rel : bool) (b : N).

  Definition all_locs (x : qshared) : list qloc := [LPool; LHead; LTail] ++ (LNext <$> (map_to_list (q_heap x)).*1).
  Definition in_window (k : nat -> qloc -> option nat) (s : rstate) : Prop :=
    map_Forall (fun t _ => Forall (fun l => match k t l with
                                          | Some j => (N.of_nat (updates_since s l j) < b)%N
                                          | None => True
                                          end) (all_locs (r_x s))) (r_pcs s).
  Global Instance in_window_dec k s : Decision (in_window k s).
  Proof.
    apply map_Forall_dec. intros t pc. apply Forall_dec. intros l. destruct (k t l) as [j|]; [exact (decide (N.of_nat (updates_since s l j) < b)%N)|exact (decide True)].
  Defined.

  Lemma in_window_all k s t l j :
    (0 < b)%N -> in_window k s -> is_Some (r_pcs s !! t) -> k t l = Some j -> (N.of_nat (updates_since s l j) < b)%N.
  Proof.
    intros Hb Hw [pc Hpc] Hj. specialize (Hw t pc Hpc). simpl in Hw. rewrite list.Forall_forall in Hw.
    destruct (decide (l ∈ all_locs (r_x s))) as [Hin|Hin].
    - specialize (Hw l Hin). by rewrite Hj in Hw.
    - unfold updates_since. destruct l as [| | |n]; try (exfalso; apply Hin; unfold all_locs; set_solver).
      simpl. destruct (q_heap (r_x s) !! n) as [nd|] eqn:Hn; [|rewrite drop_nil; simpl; lia].
      exfalso. apply Hin. unfold all_locs. apply elem_of_app. right. apply elem_of_list_fmap. exists n. split; [done|].
      apply elem_of_list_fmap. exists (n, nd). split; [done|]. by apply elem_of_map_to_list.
  Qed.

  Fixpoint rqwrun (k : nat -> qloc -> option nat) (s : rstate) (ds : list rdo) :
      option (list (qevent * view) * rstate * (nat -> qloc -> option nat)) :=
    match ds with
    | [] => Some ([], s, k)
    | d :: ds =>
        let ch := rdo_choice c s d in
        match rstep c rel s ch with
        | RNext s' evs =>
            let k' := last_read c k s ch in
            if bool_decide (in_window k' s') then
              match rqwrun k' s' ds with
              | Some (h, s'', k'') => Some (evs ++ h, s'', k'')
              | None => None
              end
            else None
        | _ => None
        end
    end.

  Lemma rqwrun_exec s0 ds : (0 < b)%N -> forall h0 k s h s' k',
    rqwexec c rel b s0 h0 s k -> rqwrun k s ds = Some (h, s', k') -> rqwexec c rel b s0 (h0 ++ h) s' k'.
  Proof.
    intros Hpos. induction ds as [|d ds IH]; intros h0 k s h s' k' H0 H; simpl in H.
    - injection H as <- <- <-. by rewrite app_nil_r.
    - destruct (rstep c rel s (rdo_choice c s d)) as [s1 evs| | |] eqn:Hs; [|done..].
      destruct (bool_decide _) eqn:Hb; [|done]. apply bool_decide_eq_true in Hb.
      destruct (rqwrun _ s1 ds) as [[[h1 s2] k2]|] eqn:Hr; [|done]. injection H as <- <- <-.
      rewrite app_assoc. eapply IH; [|exact Hr]. econstructor; [exact H0|exact Hs|].
      intros t l j Ht Hj. by apply (in_window_all (last_read c k s (rdo_choice c s d)) s1 t l j).
  Qed.

  Definition rqwshow {A} (ns : list N) (ds : list rdo) (f : list (qevent * view) -> rstate -> A) : option (list qevent * A) :=
    match rinit c ns None with
    | Some s0 =>
        match rqwrun (fun _ _ => None) s0 ds with
        | Some (h, s, _) => Some (h.*1, f h s)
        | None => None
        end
    | None => None
    end.
  Lemma rqwshow_reach {A} ns ds (f : list (qevent * view) -> rstate -> A) h a :
    (0 < b)%N -> rqwshow ns ds f = Some (h, a) -> rpool_ok c ns = true ->
    exists tr s, rqwreach c rel b ns tr s /\ tr.*1 = h /\ f tr s = a.
  Proof.
    intros Hpos. unfold rqwshow. destruct (rinit c ns None) as [s0|] eqn:Hi; [|done].
    destruct (rqwrun _ s0 ds) as [[[tr s] k]|] eqn:Hr; [|done].
    intros [= E1 E2] H. unfold rpool_ok in H. apply andb_prop in H as [H H3]. apply andb_prop in H as [H1 H2].
    apply bool_decide_eq_true in H1, H2, H3.
    exists tr, s. split; [|done]. exists None, s0, k. do 2 (split; [done|]). split; [by left|]. split; [done|].
    change tr with ([] ++ tr). eapply rqwrun_exec; [done|constructor|exact Hr].
  Qed.
End demo.

(** Tags of three values: [head_] and [tail_] have been updated three times at the end. *)
Definition qsmall : cfg := Cfg (c_null demoN) (c_node_based demoN) (Some 3%N) (c_throws demoN) (c_words demoN).

(** As [qsched1], but thread 3 first uses the value of [head_] before the last
    one and then pops the third element. *)
Definition qwsched : list rdo :=
  dwhole 0 (Push true [5; 6]%N) 13 ++ dwhole 0 (Push true [7; 8]%N) 13 ++
  DCall 1 Pop :: dsteps 1 3 ++ dwhole 2 Pop 11 ++ DStep 1 1 :: dsteps 1 3 ++
  dwhole 0 (Push true [1; 2]%N) 13 ++ dsteps 1 11 ++
  DCall 3 Pop :: DStep 3 1 :: DStep 3 0 :: DStep 3 1 :: DStep 3 1 :: dsteps 3 3 ++ dsteps 3 11.
Definition qwhist : list qevent :=
  [Inv 0 (Push true [5; 6]%N); Res 0 (RBool true); Inv 0 (Push true [7; 8]%N); Res 0 (RBool true);
   Inv 1 Pop; Inv 2 Pop; Res 2 (RPop (Some [5; 6]%N));
   Inv 0 (Push true [1; 2]%N); Res 0 (RBool true); Res 1 (RPop (Some [7; 8]%N)); Inv 3 Pop; Res 3 (RPop (Some [1; 2]%N))].
Lemma qwdemo : exists tr s, rqwreach qsmall true 3 [1; 2; 3; 4]%N tr s /\ tr.*1 = qwhist /\
  (q_pool (r_x s), q_head (r_x s), q_tail (r_x s)) = ((2, 1), (4, 0), (4, 0))%N.
Proof.
  apply (rqwshow_reach qsmall true 3 [1; 2; 3; 4]%N qwsched (fun _ s => (q_pool (r_x s), q_head (r_x s), q_tail (r_x s))));
    [done|vm_compute; reflexivity|vm_compute; reflexivity].
Qed.

Lemma qwdemo_matching :
  exists tr s e W, rqwreach qsmall true 3 [1; 2; 3; 4]%N tr s /\
    call_returns tr.*1 4 9 1 Pop (RPop (Some [7; 8]%N)) /\ tr !! 9 = Some (e, W) /\
    call_returns tr.*1 0 1 0 (Push true [5; 6]%N) (RBool true) /\
    tr.*1 !! 2 = Some (Inv 0 (Push true [7; 8]%N)).
Proof.
  destruct qwdemo as (tr & s & H & E & _). destruct (lookup_lt_is_Some_2 tr 9) as [[e W] HW].
  { rewrite <- (fmap_length fst), E. simpl. lia. }
  exists tr, s, e, W. rewrite E. split; [done|]. split; [returned|]. split; [done|]. split; [returned|done].
Qed.
