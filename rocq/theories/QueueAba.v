(** * With wrapping tags and a window of a tag period an element is popped twice *)
From stdpp Require Import gmap list numbers.
From Verif Require Import Lin LinDup PoolModel QueueModel QueueSpec QueueObs QueueWrapObs QueueSolo QueueDemo.

Set Default Proof Using "Type".

(** A call that runs alone while others are in the middle of theirs. *)
Section among.
  Context (c : cfg).
  Lemma tsteps_run_among t x pc k x' r (pcs : gmap nat qpc) :
    pcs !! t = None -> tsteps c x pc k x' (PcRet r) ->
    qrun c (QSt x (<[t := pc]> pcs)) (replicate (S k) (Run t false None false)) =
      Some ([Res t r], QSt x' pcs).
  Proof.
    intros Hn. remember (PcRet r) as pr. induction 1 as [x pc|x pc x1 pc1 k x' pc' Hst H IH]; subst.
    - cbn [replicate qrun qstep q_pcs]. rewrite lookup_insert. cbn [q_sh]. by rewrite delete_insert.
    - specialize (IH eq_refl). change (replicate (S (S k)) ?a) with (a :: replicate (S k) a).
      cbn [qrun].
      assert (Hs : qstep c (QSt x (<[t := pc]> pcs)) (Run t false None false) = QNext (QSt x1 (<[t := pc1]> pcs)) []).
      { cbn [qstep q_pcs q_sh]. rewrite lookup_insert.
        destruct pc; try (rewrite Hst, insert_insert; reflexivity). done. }
      rewrite Hs, IH. done.
  Qed.

  Lemma qrun_call_among x t o pc k x' r (pcs : gmap nat qpc) :
    pcs !! t = None -> qstart c o false = Some pc -> tsteps c x pc k x' (PcRet r) ->
    qrun c (QSt x pcs) (Invoke t o false :: replicate (S k) (Run t false None false)) =
      Some ([Inv t o; Res t r], QSt x' pcs).
  Proof.
    intros Hn Hst Hts. cbn [qrun qstep q_pcs]. rewrite Hn, Hst. unfold set_pc. cbn [q_sh q_pcs].
    by rewrite (tsteps_run_among _ _ _ _ _ _ _ Hn Hts).
  Qed.

  Lemma qrun_app chs1 : forall chs2 s h1 s1 h2 s2,
    qrun c s chs1 = Some (h1, s1) -> qrun c s1 chs2 = Some (h2, s2) ->
    qrun c s (chs1 ++ chs2) = Some (h1 ++ h2, s2).
  Proof.
    induction chs1 as [|ch chs1 IH]; intros chs2 s h1 s1 h2 s2 H1 H2; simpl in H1.
    - by injection H1 as <- <-.
    - simpl. destruct (qstep c s ch) as [s' e| |]; [|done..].
      destruct (qrun c s' chs1) as [[h s'']|] eqn:Hr; [|done]. injection H1 as <- <-.
      rewrite (IH _ _ _ _ _ _ Hr H2). by rewrite app_assoc.
  Qed.
End among.

Definition aba_cfg (nb : bool) (M : N) : cfg := Cfg 0%N nb (Some M) false 1.

Section aba.
  Context (nb : bool) (M : N).
  Notation c := (aba_cfg nb M).
  Notation nt := (next_tag c).

  Ltac st := eapply ts_cons;
    [cbn [set_heap set_heap_pool insert list_insert tstep astep dstep q_heap q_pool q_head q_tail fst snd c_null aba_cfg c_words c_node_based length];
     simpl_map; cbn [fst snd nx dat lookup list_lookup length];
     repeat first [rewrite decide_True by auto | rewrite decide_False by (auto; simpl; lia)]; simpl_map; cbn [nx dat fst snd]; reflexivity|].

  Lemma pop_alone h p π d τ n β a w b v :
    h !! d = Some (Node (n, a) w) -> h !! n = Some (Node (0%N, b) [v]) -> d <> n -> n <> 0%N ->
    tsteps c (QSh h (p, π) (d, τ) (n, β)) PcOHead 9
      (QSh (<[d := Node (p, a) w]> h) (d, π) (n, nt τ) (n, β)) (PcRet (RPop (Some [v]))).
  Proof.
    intros Hd Hn Hne Hn0.
    do 9 st. apply ts_nil.
  Qed.

  Lemma push_alone h p π hd n β d a w b y v :
    h !! d = Some (Node (p, a) [w]) -> h !! n = Some (Node (0%N, b) y) -> d <> n -> d <> 0%N ->
    tsteps c (QSh h (d, π) hd (n, β)) (PcAlloc true [v] ALoad) 11
      (QSh (<[n := Node (d, nt b) y]> (<[d := Node (0%N, nt a) [v]]> h)) (p, nt π) hd (d, nt β)) (PcRet (RBool true)).
  Proof.
    intros Hd Hn Hne Hn0.
    assert (E : <[n := Node (d, nt b) y]> (<[d := Node (0%N, nt a) [v]]> h) =
      <[n := Node (d, nt b) y]> (<[d := Node (0%N, nt a) [v]]> (<[d := Node (p, a) [v]]> h))).
    { by rewrite insert_insert. }
    rewrite E. do 11 st. apply ts_nil.
  Qed.

  (** One element [v] in node [n] behind the dummy [d]; no other node. *)
  Definition shape (s : qstate) (pcs : gmap nat qpc) (d n τ v : N) : Prop :=
    exists h π β a w b, s = QSt (QSh h (0%N, π) (d, τ) (n, β)) pcs /\
      h !! d = Some (Node (n, a) [w]) /\ h !! n = Some (Node (0%N, b) [v]).

  Definition chpop : list qchoice := Invoke 0 Pop false :: replicate 10 (Run 0 false None false).
  Definition chpush (v : N) : list qchoice :=
    Invoke 0 (Push true [v]) false :: replicate 12 (Run 0 false None false).
  Definition cyc (v x : N) : list qevent :=
    [Inv 0 Pop; Res 0 (RPop (Some [v])); Inv 0 (Push true [x]); Res 0 (RBool true)].

  Lemma cycle s pcs d n τ v x :
    shape s pcs d n τ v -> d <> n -> d <> 0%N -> n <> 0%N -> pcs !! 0 = None ->
    exists s', qrun c s (chpop ++ chpush x) = Some (cyc v x, s') /\ shape s' pcs n d (nt τ) x.
  Proof.
    intros (h & π & β & a & w & b & -> & Hd & Hn) Hne Hd0 Hn0 Hp.
    eexists. split.
    - eapply (qrun_app c chpop (chpush x) _ [_; _] _ [_; _]).
      + eapply (qrun_call_among c _ 0 Pop PcOHead 9); [done|done|]. by eapply pop_alone.
      + eapply (qrun_call_among c _ 0 (Push true [x]) _ 11); [done|done|].
        eapply push_alone; [by rewrite lookup_insert|by rewrite lookup_insert_ne|done|done].
    - do 6 eexists. split; [reflexivity|]. simpl_map. done.
  Qed.

  Fixpoint iter_nt (k : nat) (τ : N) : N := match k with O => τ | S k => iter_nt k (nt τ) end.
  Lemma iter_nt_val k : forall τ, (τ < M)%N -> iter_nt k τ = ((τ + N.of_nat k) mod M)%N.
  Proof.
    induction k as [|k IH]; intros τ Hτ.
    - simpl. rewrite N.add_0_r. symmetry. by apply N.mod_small.
    - change (iter_nt (S k) τ) with (iter_nt k (nt τ)). rewrite IH.
      + unfold next_tag. simpl. rewrite N.add_mod_idemp_l by lia. f_equal. lia.
      + unfold next_tag. simpl. apply N.mod_lt. lia.
  Qed.

  (** [2 * k] times around. *)
  Fixpoint spin (k : nat) (x : N) : list qevent :=
    match k with O => [] | S k => cyc x x ++ cyc x x ++ spin k x end.
  Fixpoint chspin (k : nat) (x : N) : list qchoice :=
    match k with O => [] | S k => (chpop ++ chpush x) ++ (chpop ++ chpush x) ++ chspin k x end.

  Lemma spin_run k : forall s pcs d n τ x,
    shape s pcs d n τ x -> d <> n -> d <> 0%N -> n <> 0%N -> pcs !! 0 = None ->
    exists s', qrun c s (chspin k x) = Some (spin k x, s') /\ shape s' pcs d n (iter_nt (2 * k) τ) x.
  Proof.
    induction k as [|k IH]; intros s pcs d n τ x Hs Hne Hd Hn Hp; [by exists s|].
    destruct (cycle _ _ _ _ _ _ x Hs Hne Hd Hn Hp) as (s1 & Hr1 & Hs1).
    destruct (cycle _ _ _ _ _ _ x Hs1 (not_eq_sym Hne) Hn Hd Hp) as (s2 & Hr2 & Hs2).
    destruct (IH _ _ _ _ _ _ Hs2 Hne Hd Hn Hp) as (s3 & Hr3 & Hs3).
    exists s3. split.
    - cbn [chspin spin]. eapply qrun_app; [exact Hr1|]. eapply qrun_app; [exact Hr2|exact Hr3].
    - replace (2 * S k) with (S (S (2 * k))) by lia. exact Hs3.
  Qed.

  (** Thread 0 pushes [5].  Thread 1 begins to pop and stalls before its
      compare-exchange of head_.  Thread 0 pops [5], then pushes and pops [6]
      until head_ is what it was.  Thread 1 continues. *)
  Definition aba_hist : list qevent :=
    [Inv 0 (Push true [5%N]); Res 0 (RBool true)] ++ Inv 1 Pop ::
    (cyc 5 6 ++ cyc 6 6 ++ spin (pred (N.to_nat M)) 6) ++ [Res 1 (RPop (Some [5%N]))].


  Lemma aba_init : exists h π b,
    qinit c [1; 2]%N None = Some (QSt (QSh h (1%N, π) (2%N, 0%N) (2%N, 0%N)) ∅) /\
    h !! 2%N = Some (Node (0%N, 0%N) [0%N]) /\ h !! 1%N = Some (Node (0%N, b) [0%N]).
  Proof. do 3 eexists. split; [reflexivity|]. simpl_map. done. Qed.

  (** A thread in the middle of its call, up to a given point. *)
  Lemma tsteps_stall t x pc k x' pc' (pcs : gmap nat qpc) :
    tsteps c x pc k x' pc' -> (forall r, pc' <> PcRet r) ->
    qrun c (QSt x (<[t := pc]> pcs)) (replicate k (Run t false None false)) =
      Some ([], QSt x' (<[t := pc']> pcs)).
  Proof.
    induction 1 as [x pc|x pc x1 pc1 k x' pc' Hst H IH]; intros Hr; [done|].
    specialize (IH Hr). change (replicate (S k) ?a) with (a :: replicate k a). cbn [qrun].
    assert (Hs : qstep c (QSt x (<[t := pc]> pcs)) (Run t false None false) = QNext (QSt x1 (<[t := pc1]> pcs)) []).
    { cbn [qstep q_pcs q_sh]. rewrite lookup_insert.
      destruct pc; try (rewrite Hst, insert_insert; reflexivity). done. }
    rewrite Hs, IH. done.
  Qed.

  Lemma pop_begin h p π d τ n β a w b v :
    h !! d = Some (Node (n, a) w) -> h !! n = Some (Node (0%N, b) [v]) -> d <> n -> n <> 0%N ->
    tsteps c (QSh h (p, π) (d, τ) (n, β)) PcOHead 5
      (QSh h (p, π) (d, τ) (n, β)) (PcOCopy (d, τ) n [v]).
  Proof. intros Hd Hn Hne Hn0. do 5 st. apply ts_nil. Qed.

  Lemma pop_end h p π d τ n β a w b v x :
    h !! d = Some (Node (n, a) w) -> h !! n = Some (Node (0%N, b) [x]) -> d <> n -> n <> 0%N ->
    exists x', tsteps c (QSh h (p, π) (d, τ) (n, β)) (PcOCopy (d, τ) n [v]) 4
      x' (PcRet (RPop (Some [v]))).
  Proof. intros Hd Hn Hne Hn0. eexists. do 4 st. apply ts_nil. Qed.

  Lemma aba_reach : M <> 0%N -> exists s, qreach c [1; 2]%N aba_hist s.
  Proof.
    intros HM. destruct aba_init as (h & π & b & Hi & H2 & H1).
    set (pcs := {[1 := PcOCopy (2%N, 0%N) 1%N [5%N]]} : gmap nat qpc).
    set (h' := <[2%N := Node (1%N, nt 0%N) [0%N]]> (<[1%N := Node (0%N, nt b) [5%N]]> h)).
    set (x1 := QSh h' (0%N, nt π) (2%N, 0%N) (1%N, nt 0%N)).
    assert (Hh2 : h' !! 2%N = Some (Node (1%N, nt 0%N) [0%N])) by (unfold h'; by simpl_map).
    assert (Hh1 : h' !! 1%N = Some (Node (0%N, nt b) [5%N])) by (unfold h'; by simpl_map).
    assert (R1 : qrun c (QSt (QSh h (1%N, π) (2%N, 0%N) (2%N, 0%N)) ∅) (chpush 5) =
      Some ([Inv 0 (Push true [5%N]); Res 0 (RBool true)], QSt x1 ∅)).
    { eapply (qrun_call_among c _ 0 (Push true [5%N]) _ 11); [done|done|]. by eapply push_alone. }
    assert (R2 : qrun c (QSt x1 ∅) (Invoke 1 Pop false :: replicate 5 (Run 1 false None false)) =
      Some ([Inv 1 Pop], QSt x1 pcs)).
    { change (Invoke 1 Pop false :: ?l) with ([Invoke 1 Pop false] ++ l).
      eapply (qrun_app c _ _ _ [Inv 1 Pop] (QSt x1 (<[1 := PcOHead]> ∅)) []); [done|].
      apply tsteps_stall; [|done]. by eapply pop_begin. }
    assert (S0 : shape (QSt x1 pcs) pcs 2 1 0 5) by (do 6 eexists; split; [reflexivity|done]).
    destruct (cycle _ _ _ _ _ _ 6 S0) as (s1 & R3 & S1); [done..|].
    destruct (cycle _ _ _ _ _ _ 6 S1) as (s2 & R4 & S2); [done..|].
    destruct (spin_run (pred (N.to_nat M)) _ _ _ _ _ _ S2) as (s3 & R5 & S3); [done..|].
    change (iter_nt (2 * pred (N.to_nat M)) (nt (nt 0))) with
      (iter_nt (S (S (2 * pred (N.to_nat M)))) 0) in S3.
    replace (S (S (2 * pred (N.to_nat M)))) with (2 * N.to_nat M) in S3 by lia.
    rewrite iter_nt_val in S3 by lia.
    replace (0 + N.of_nat (2 * N.to_nat M))%N with (2 * M)%N in S3 by lia.
    rewrite N.mod_mul in S3 by done.
    destruct S3 as (h3 & π3 & β3 & a3 & w3 & b3 & -> & Hd3 & Hn3).
    destruct (pop_end h3 0 π3 2 0 1 β3 a3 [w3] b3 5 6 Hd3 Hn3) as (x' & Hend); [done..|].
    exists (QSt x' ∅), None, (QSt (QSh h (1%N, π) (2%N, 0%N) (2%N, 0%N)) ∅).
    split; [by apply (bool_decide_unpack _)|]. split; [by apply (bool_decide_unpack _)|].
    split; [by left|]. split; [exact Hi|].
    eapply qrun_exec. unfold aba_hist.
    eapply qrun_app; [exact R1|].
    change (Inv 1 Pop :: ?l) with ([Inv 1 Pop] ++ l).
    eapply qrun_app; [exact R2|]. eapply qrun_app.
    - eapply qrun_app; [exact R3|]. eapply qrun_app; [exact R4|exact R5].
    - change pcs with (<[1 := PcOCopy (2%N, 0%N) 1%N [5%N]]> ∅ : gmap nat qpc).
      eapply tsteps_run_among; [done|exact Hend].
  Qed.

  Lemma spin_other k : Forall (fun e => ev_thread e <> 1) (spin k 6).
  Proof. induction k as [|k IH]; simpl; [done|]. do 8 (constructor; [done|]). exact IH. Qed.

  Lemma spin_pushes k i t o : spin k 6 !! i = Some (Inv t o) -> pushes o <> Some [5%N].
  Proof.
    revert i. induction k as [|k IH]; intros i H; [done|].
    do 8 (destruct i as [|i]; [simpl in H; try discriminate H; injection H as <- <-; discriminate|]).
    by apply (IH i).
  Qed.

  Lemma aba_twice : popped_twice aba_hist [5%N].
  Proof.
    split.
    - exists 0. intros i t o Hi Hg. unfold aba_hist in Hi.
      destruct i as [|i]; [done|]. exfalso.
      do 10 (destruct i as [|i]; [simpl in Hi; try discriminate Hi; injection Hi as <- <-; discriminate Hg|]).
      change ((spin (pred (N.to_nat M)) 6 ++ [Res 1 (RPop (Some [5%N]))]) !! i = Some (Inv t o)) in Hi.
      destruct (decide (i < length (spin (pred (N.to_nat M)) 6))) as [Hlt|Hge].
      + rewrite lookup_app_l in Hi by done. by apply spin_pushes in Hi.
      + rewrite lookup_app_r in Hi by (by apply Nat.nlt_ge). destruct (i - _) as [|j]; done.
    - exists (length [Inv 0 (Push true [5%N]); Res 0 (RBool true)]). eexists _, 1.
      exists (length ([Inv 0 (Push true [5%N]); Res 0 (RBool true); Inv 1 Pop] : list qevent)). eexists _, 0.
      split; [done|]. split.
      + apply call_returns_span. repeat (apply Forall_app; split); try exact (spin_other _);
          repeat constructor; done.
      + apply (call_returns_ext ([Inv 0 (Push true [5%N]); Res 0 (RBool true); Inv 1 Pop] ++ Inv 0 Pop :: [] ++ [Res 0 (RPop (Some [5%N]))])
          ([Inv 0 (Push true [6%N]); Res 0 (RBool true)] ++ (cyc 6 6 ++ spin (pred (N.to_nat M)) 6) ++ [Res 1 (RPop (Some [5%N]))])).
        apply call_returns_span. constructor.
  Qed.
End aba.

(** A value that is pushed once is popped once. *)
Section twice.
  Context (w : val).
  Definition isw (v : val) : bool := bool_decide (v = w).
  Definition cntw (a : list val) : nat := sum_list_with (fun v => if isw v then 1 else 0) a.
  Definition gainw (o : qop) : nat :=
    match pushes o with Some v => if isw v then 1 else 0 | None => 0 end.
  Definition lossw (o : qop) (r : qret) : nat :=
    match r with RPop (Some v) => if isw v then 1 else 0 | _ => 0 end.

  Lemma cntw_spec nb ct a o r a' :
    qspec nb ct a o r a' -> lossw o r + cntw a' <= cntw a + gainw o.
  Proof. unfold cntw. destruct 1; simpl; unfold gainw; simpl; try rewrite sum_list_with_app; simpl; lia. Qed.

  Lemma twice_not_lin nb ct hist : popped_twice hist w -> ~ hw_linearizable [] (qspec nb ct) hist.
  Proof.
    intros ((i0 & Hg) & i & j & t & i' & j' & t' & Hne & H1 & H2) Hl. apply Hne.
    assert (Hw : isw w = true) by by apply bool_decide_eq_true_2.
    eapply (hw_once [] (qspec nb ct) cntw gainw lossw eq_refl (cntw_spec nb ct) hist i0);
      [exact Hl| |exact H1| |exact H2|]; [|simpl; rewrite Hw; lia..].
    intros k u o Hk Hp. unfold gainw in *. destruct (pushes o) as [v|] eqn:Ho; [|lia].
    destruct (isw v) eqn:Hv; [|lia]. apply bool_decide_eq_true_1 in Hv. subst v.
    split; [|done]. by eapply Hg.
  Qed.
End twice.

Lemma aba_main M nb : M <> 0%N ->
  exists c ns hist s v,
    c_tagmod c = Some M /\ c_node_based c = nb /\ c_throws c = false /\
    qreach c ns hist s /\ popped_twice hist v /\ ~ hw_linearizable [] (qspec nb false) hist.
Proof.
  intros HM. destruct (aba_reach nb M HM) as [s Hs].
  exists (aba_cfg nb M), [1; 2]%N, (aba_hist M), s, [5%N]. split; [done|]. split; [done|]. split; [done|].
  split; [exact Hs|]. split; [apply aba_twice|]. apply (twice_not_lin [5%N]), aba_twice.
Qed.
