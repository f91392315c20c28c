From stdpp Require Import gmap list numbers.
From Verif Require Import Lin PoolModel QueueModel QueueSpec QueueObs QueueDemo QueueWitness QueueWrapObs WrapWitness QueuePeak.

Section peak.
  Context (c : cfg).

  (** Runs a schedule, leaving out impossible choices, and checks the bound in
      every state. *)
  Definition qneedsb (B : nat) (s : qstate) : bool :=
    match contentsb c s with
    | Some a => bool_decide (S (length a) + size (q_pcs s) <= B)
    | None => false
    end.
  Fixpoint qallb (B : nat) (s : qstate) (chs : list qchoice) : option (list qevent * qstate) :=
    if qneedsb B s then
      match chs with
      | [] => Some ([], s)
      | ch :: chs =>
          match qstep c s ch with
          | QNext s' evs =>
              match qallb B s' chs with Some (h, s'') => Some (evs ++ h, s'') | None => None end
          | QDisabled => qallb B s chs
          | QUB => None
          end
      end
    else None.

  Lemma qneedsb_ok B s : qneedsb B s = true -> qneeds c B s.
  Proof.
    unfold qneedsb. destruct (contentsb c s) as [a|] eqn:Ha; [|done]. intros H%bool_decide_eq_true.
    exists a. split; [by apply contentsb_ok|done].
  Qed.

  Lemma qall_cons (P : qstate -> Prop) s ch s' evs h s'' :
    P s -> qstep c s ch = QNext s' evs -> qexec_all c P s' h s'' -> qexec_all c P s (evs ++ h) s''.
  Proof.
    intros HP Hs He. induction He as [HP'|h s1 ch1 s2 evs1 He IH Hs1 HP1].
    - rewrite app_nil_r, <- (app_nil_l evs). econstructor; [by constructor|done|done].
    - rewrite app_assoc. by econstructor.
  Qed.

  Lemma qallb_ok B chs : forall s h s', qallb B s chs = Some (h, s') -> qexec_all c (qneeds c B) s h s'.
  Proof.
    induction chs as [|ch chs IH]; intros s h s' H; cbn [qallb] in H;
      (destruct (qneedsb B s) eqn:HB; [apply qneedsb_ok in HB|done]).
    - injection H as <- <-. by constructor.
    - destruct (qstep c s ch) as [s1 evs| |] eqn:Hs; [|done|by apply IH].
      destruct (qallb B s1 chs) as [[h1 s2]|] eqn:Hr; [|done]. injection H as <- <-.
      eapply qall_cons; [done|done|]. by apply IH.
  Qed.

  (** The same with the check that every call takes fewer than [b] steps. *)
  Fixpoint qwallb (b : N) (B : nat) (s : qstate) (age : nat -> nat) (chs : list qchoice) :
      option (list qevent * qstate) :=
    match chs with
    | [] => Some ([], s)
    | ch :: chs =>
        match qstep c s ch with
        | QNext s' evs =>
            let age' := older age (qinvoked ch) in
            if young b age' (q_pcs s') && qneedsb B s' then
              match qwallb b B s' age' chs with Some (h, s'') => Some (evs ++ h, s'') | None => None end
            else None
        | QDisabled => qwallb b B s age chs
        | QUB => None
        end
    end.

  Lemma qwallb_ok b B s0 chs : forall s age hist k h s',
    qwexec_all c b (qneeds c B) s0 hist s k -> (forall t l, is_Some (q_pcs s !! t) -> k t l <= age t) ->
    qwallb b B s age chs = Some (h, s') -> exists k', qwexec_all c b (qneeds c B) s0 (hist ++ h) s' k'.
  Proof.
    induction chs as [|ch chs IH]; intros s age hist k h s' He Hk Hr; cbn [qwallb] in Hr.
    - injection Hr as <- <-. exists k. by rewrite app_nil_r.
    - destruct (qstep c s ch) as [s1 evs| |] eqn:Hs; [|discriminate Hr|by eapply IH]. cbv zeta in Hr.
      destruct (young b (older age (qinvoked ch)) (q_pcs s1)) eqn:Hy; [|discriminate Hr].
      destruct (qneedsb B s1) eqn:HB; [|discriminate Hr]. cbn [andb] in Hr.
      destruct (qwallb b B s1 (older age (qinvoked ch)) chs) as [[h1 s2]|] eqn:Hq; [|discriminate Hr].
      injection Hr as <- <-.
      pose proof (qcount_older _ _ _ _ _ _ _ Hs Hk) as Hle.
      rewrite app_assoc. eapply IH; [|exact Hle|exact Hq].
      econstructor; [exact He|exact Hs| |by apply qneedsb_ok]. intros t l Ht. specialize (Hle t l Ht).
      pose proof (young_lt _ _ _ _ Hy Ht). lia.
  Qed.
End peak.

(** Two threads push at the same time, then pop at the same time, three times
    over, on a queue constructed with an empty pool (the dummy is node 1). *)
Definition arun (t k : nat) (n : N) : list qchoice := replicate k (Run t false (Some n) false).
Definition peak_round : list qchoice :=
  Invoke 0 (Push false [5; 5]%N) false :: Invoke 1 (Push false [6; 6]%N) false ::
  concat (replicate 4 (arun 0 1 2%N ++ arun 1 1 3%N)) ++ arun 0 20 2%N ++ arun 1 20 3%N ++
  Invoke 0 Pop false :: Invoke 1 Pop false ::
  concat (replicate 3 (arun 0 1 2%N ++ arun 1 1 3%N)) ++ arun 0 20 2%N ++ arun 1 20 3%N.
Definition peak_hist : list qevent :=
  [Inv 0 (Push false [5; 5]%N); Inv 1 (Push false [6; 6]%N); Res 0 (RBool true); Res 1 (RBool true);
   Inv 0 Pop; Inv 1 Pop; Res 0 (RPop (Some [5; 5]%N)); Res 1 (RPop (Some [6; 6]%N))].

Lemma peak_demo :
  exists s0 s, qinit demoN [] (Some 1%N) = Some s0 /\
    qexec_all demoN (qneeds demoN 5) s0 (peak_hist ++ peak_hist ++ peak_hist) s /\
    size (q_heap (q_sh s)) = 3.
Proof.
  assert (H : (r ← (s0 ← qinit demoN [] (Some 1%N); qallb demoN 5 s0 (peak_round ++ peak_round ++ peak_round));
               Some (r.1, size (q_heap (q_sh r.2)))) =
              Some (peak_hist ++ peak_hist ++ peak_hist, 3)) by (vm_compute; reflexivity).
  apply bind_Some in H as ([h s] & H & E). apply bind_Some in H as (s0 & Hi & H).
  injection E as -> E. exists s0, s. split; [done|]. split; [by eapply qallb_ok|done].
Qed.

(** Forty times over, with tags modulo 64. *)
Definition peakW : cfg := Cfg 0%N true (Some 64%N) false 2.
Lemma peak_wrap_demo :
  exists s0 s k, qinit peakW [] (Some 1%N) = Some s0 /\
    qwexec_all peakW 64 (qneeds peakW 5) s0 (mjoin (replicate 40 peak_hist)) s k /\
    size (q_heap (q_sh s)) = 3 /\ (q_head (q_sh s)).2 = 16%N.
Proof.
  assert (H : (s0 ← qinit peakW [] (Some 1%N);
               (if qneedsb peakW 5 s0 then Some tt else None) ≫= fun _ =>
               r ← qwallb peakW 64 5 s0 (fun _ => 0) (mjoin (replicate 40 peak_round));
               Some (r.1, size (q_heap (q_sh r.2)), (q_head (q_sh r.2)).2)) =
              Some (mjoin (replicate 40 peak_hist), 3, 16%N)) by (vm_compute; reflexivity).
  apply bind_Some in H as (s0 & Hi & H). apply bind_Some in H as ([] & HB & H).
  destruct (qneedsb peakW 5 s0) eqn:HB0; [|discriminate HB].
  apply bind_Some in H as ([h s] & H & E). injection E as -> E1 E2.
  eapply (qwallb_ok peakW 64 5 s0 _ s0 _ [] (fun _ _ => 0)) in H as (k & H);
    [|constructor; by apply qneedsb_ok|intros; lia].
  exists s0, s, k. split; [done|]. split; [exact H|done].
Qed.

(** With a throwing copy constructor every failing push costs a node: alone, on
    an empty queue, [n] pushes leave [n] nodes behind. *)
Definition leak_hist (n : nat) : list qevent :=
  mjoin (replicate n [Inv 0 (Push false [7%N]); Res 0 RExn]).

Lemma leak_more (n : nat) : forall s,
  q_pcs s = ∅ -> (q_pool (q_sh s)).1 = 0%N ->
  (exists nd, q_heap (q_sh s) !! (q_head (q_sh s)).1 = Some nd /\ (nx nd).1 = 0%N) ->
  exists s', qexec_all demoT (qneeds demoT 2) s (leak_hist n) s' /\
    size (q_heap (q_sh s')) = size (q_heap (q_sh s)) + n.
Proof.
  assert (Hneed : forall s : qstate, size (q_pcs s) <= 1 ->
            (exists nd, q_heap (q_sh s) !! (q_head (q_sh s)).1 = Some nd /\ (nx nd).1 = 0%N) ->
            qneeds demoT 2 s).
  { intros s Hp (nd & Hnd & Hx). exists []. split; [|simpl; lia]. exists nd. split; [done|]. rewrite Hx. constructor. }
  induction n as [|n IH]; intros s Hq Hp Hh.
  - exists s. split; [|lia]. constructor. apply Hneed; [|done]. rewrite Hq, map_size_empty. lia.
  - destruct s as [[h p hd tl] pcs]. simpl in Hq, Hp, Hh. subst pcs.
    set (a := fresh (dom h ∪ {[0%N]})).
    assert (Ha : h !! a = None /\ a <> 0%N).
    { pose proof (is_fresh (dom h ∪ {[0%N]})) as Hf. fold a in Hf.
      split; [apply not_elem_of_dom; set_solver|set_solver]. }
    set (x := QSh h p hd tl). set (h' := <[a := Node (0%N, 0%N) (qd0 demoT)]> h). set (x' := QSh h' p hd tl).
    destruct (IH (QSt x' ∅)) as (s' & He & Hsz).
    { done. }
    { done. }
    { destruct Hh as (nd & Hnd & Hx). exists nd. simpl. split; [|done]. unfold h'.
      rewrite lookup_insert_ne; [done|]. intros E. rewrite <- E in Hnd. by rewrite (proj1 Ha) in Hnd. }
    exists s'. split; [|rewrite Hsz; simpl; unfold h'; rewrite map_size_insert_None by apply Ha; simpl; lia].
    assert (Hh' : exists nd, h' !! hd.1 = Some nd /\ (nx nd).1 = 0%N).
    { destruct Hh as (nd & Hnd & Hx). exists nd. split; [|done]. unfold h'.
      rewrite lookup_insert_ne; [done|]. intros E. rewrite <- E in Hnd. by rewrite (proj1 Ha) in Hnd. }
    unfold leak_hist. cbn [replicate mjoin list_join app].
    eapply (qall_cons demoT _ _ (Invoke 0 (Push false [7%N]) false) (QSt x {[0 := PcAlloc false [7%N] ALoad]}) [_] (_ :: _)).
    { apply Hneed; [|done]. simpl. rewrite map_size_empty. lia. }
    { reflexivity. }
    eapply (qall_cons demoT _ _ (Run 0 false None false) (QSt x {[0 := PcAlloc false [7%N] (ATest p)]}) [] (_ :: _)).
    { apply Hneed; [|done]. simpl. by rewrite map_size_singleton. }
    { cbn [qstep q_pcs]. rewrite lookup_singleton. cbn [tstep astep q_sh]. by rewrite insert_singleton. }
    eapply (qall_cons demoT _ _ (Run 0 false (Some a) false) (QSt x' {[0 := PcWord [7%N] a 0]}) [] (_ :: _)).
    { apply Hneed; [|done]. simpl. by rewrite map_size_singleton. }
    { cbn [qstep q_pcs]. rewrite lookup_singleton. cbn [tstep astep q_sh x q_heap q_pool].
      rewrite decide_True by done. cbn [demoT c_node_based andb negb].
      rewrite decide_True by done. by rewrite insert_singleton. }
    eapply (qall_cons demoT _ _ (Run 0 false None true) (QSt x' {[0 := PcRet RExn]}) [] (_ :: _)).
    { apply Hneed; [|done]. simpl. by rewrite map_size_singleton. }
    { cbn [qstep q_pcs]. rewrite lookup_singleton.
      cbn [tstep q_sh x' q_heap]. unfold h' at 1. rewrite lookup_insert. cbn [demoT c_throws]. by rewrite insert_singleton. }
    eapply (qall_cons demoT _ _ (Run 0 false None false) (QSt x' ∅) [_] _).
    { apply Hneed; [|done]. simpl. by rewrite map_size_singleton. }
    { cbn [qstep q_pcs]. rewrite lookup_singleton. by rewrite delete_singleton. }
    exact He.
Qed.

Lemma queue_leak_unbounded (n : nat) :
  exists s0 s, qinit demoT [] (Some 1%N) = Some s0 /\
    qexec_all demoT (qneeds demoT 2) s0 (leak_hist n) s /\ size (q_heap (q_sh s)) = S n.
Proof.
  assert (H : (fun s => (bool_decide (q_pcs s = ∅), (q_pool (q_sh s)).1,
                         nx <$> q_heap (q_sh s) !! (q_head (q_sh s)).1, size (q_heap (q_sh s)))) <$>
              qinit demoT [] (Some 1%N) = Some (true, 0%N, Some (0%N, 0%N), 1)) by (vm_compute; reflexivity).
  apply fmap_Some in H as (s0 & Hi & E). injection E as E1 E2 E3 E4.
  symmetry in E1, E3. apply bool_decide_eq_true in E1. apply fmap_Some in E3 as (nd & Hnd & E3).
  destruct (leak_more n s0 E1 (eq_sym E2)) as (s & He & Hs); [exists nd; by rewrite <- E3|].
  exists s0, s. split; [done|]. split; [exact He|]. lia.
Qed.

Lemma queue_leak_bound (n : nat) :
  exists s0 s, qinit demoT [] (Some 1%N) = Some s0 /\
    qexec_all demoT (qneeds demoT 2) s0 (leak_hist n) s /\
    qreserved (leak_hist n) = 0 /\ size (q_heap (q_sh s)) = S n.
Proof.
  destruct (queue_leak_unbounded n) as (s0 & s & Hi & He & Hs). exists s0, s. split; [done|]. split; [done|].
  split; [|done]. clear. unfold leak_hist. induction n as [|n IH]; [done|]. exact IH.
Qed.
