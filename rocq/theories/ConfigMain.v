(** * Containers as they are constructed *)
From stdpp Require Import gmap list numbers.
From Verif Require Import SpscModel SpscObs.
From Verif Require Import Lin PoolModel QueueModel StackModel TaggedModel.
From Verif Require Import ConfigModel ConfigSpec ConfigProofs.
From Verif Require QueueMain QueueObs QueueWrapObs StackObs StackWrapObs QueueWrapMain StackWrapMain QueueQuiet.
Set Default Proof Using "Type".

Lemma config_tag comp k o kc th w : exists M, c_tagmod (config comp k o kc th w) = Some M /\ (2 ^ 16 <= M)%N.
Proof.
  unfold config. simpl. destruct (select_tagged_handle (node_based o)), comp; eexists; (split; [done|lia]).
Qed.

Lemma config_tag_period comp k o kc th w :
  c_tagmod (config comp k o kc th w) = Some (if node_based o && negb comp then 2 ^ 64 else 2 ^ 16)%N.
Proof. unfold config, select_tagged_handle. simpl. by destruct (node_based o), comp. Qed.

Lemma node_based_bounded o : node_based o = true <-> ~ bounded o.
Proof.
  unfold node_based, bounded, has_capacity, extract_fixed_sized.
  destruct o as [[n|] [[]|] al]; simpl; split; try done.
  - intros H. exfalso. apply H. by left.
  - intros H. exfalso. apply H. by left.
  - intros H. exfalso. apply H. by left.
  - intros H. exfalso. apply H. by right.
  - intros _ [?|?]; done.
  - intros _ [?|?]; done.
Qed.

(** ** Queue *)

Section queue.
  Context (comp : bool) (o : opts) (kc : ctor) (th : bool) (w : nat).
  Notation c := (config comp CQueue o kc th w).
  Context (Hd : documented o kc) (Hr : (requested o kc < 2 ^ 64 - 1)%N).
  Context (Hk : class_compiles CQueue o = true).

  Lemma queue_init answers addr s :
    queue_ctor comp o kc th w answers addr = BDone s ->
    exists ns, N.of_nat (length ns) = (requested o kc + 1)%N /\ NoDup ns /\ c_null c ∉ ns /\
      qinit c ns addr = Some s.
  Proof using Hd Hr Hk.
    intros He. unfold queue_ctor in He.
    destruct (pool_ctor (qd0 c) c (pool_t CQueue o) (pool_count CQueue o kc) answers) as [[h p]| | |] eqn:Hp; try done.
    destruct (pool_done _ _ _ _ _ _ _ Hd Hr Hk _ _ _ Hp) as (ns & Hl & Hnd & Hnn & Hpi).
    exists ns. split_and!; [done|done|done|]. unfold qinit. rewrite <- Hpi.
    destruct (alloc_unsafe c (qd0 c) false h p addr); try done; [|by injection He as <-].
    destruct (h0 !! n); [|done]. by injection He as <-.
  Qed.

  Lemma queue_reach answers addr s :
    queue_ctor comp o kc th w answers addr = BDone s ->
    exists ns, N.of_nat (length ns) = (requested o kc + 1)%N /\
      QueueObs.qreach c ns [] s /\ forall M, QueueWrapObs.qwreach c M ns [] s.
  Proof using Hd Hr Hk.
    intros He. destruct (queue_init _ _ _ He) as (ns & Hl & Hnd & Hnn & Hi).
    assert (Hne : ns <> []) by (intros ->; simpl in Hl; lia).
    exists ns. split; [done|]. split.
    - exists addr, s. split_and!; [done|done|by left|done|constructor].
    - intros M. exists addr, s, (fun _ _ => 0). split_and!; [done|done|by left|done|constructor].
  Qed.

  Lemma qinit_empty ns addr s :
    qinit c ns addr = Some s -> ns <> [] -> NoDup ns -> c_null c ∉ ns ->
    QueueObs.qcontents c s [] /\ QueueObs.quiescent s.
  Proof.
    intros Hi Hne Hnd Hnn. unfold qinit in Hi.
    destruct (pool_init c (qd0 c) ns) as [h p] eqn:Hpi.
    assert (Hp : p.1 ∈ ns).
    { replace p with (pool_add (qd0 c) ns ∅ (c_null c, 0%N)).2 by (unfold pool_init in Hpi; by rewrite Hpi).
      by apply QueueQuiet.pool_add_first. }
    unfold alloc_unsafe in Hi. rewrite decide_False in Hi by (intros Hx; rewrite Hx in Hp; done).
    destruct (h !! p.1) as [nd|] eqn:Hh; [|done]. simpl in Hi. rewrite Hh in Hi. injection Hi as <-.
    split; [|done]. eexists. simpl. rewrite lookup_insert. split; [done|]. simpl. constructor.
  Qed.

  (** Pushing into the new queue. *)
  Lemma queue_holds answers addr s t vs :
    th = false -> queue_ctor comp o kc th w answers addr = BDone s -> Forall (fun v => length v = w) vs ->
    exists chs s', qrun c s chs =
        Some (concat (imap (fun i v =>
          [Inv t (Push true v); Res t (RBool (bool_decide (N.of_nat i < requested o kc)%N))]) vs), s') /\
      QueueObs.quiescent s' /\ QueueObs.qcontents c s' (take (N.to_nat (requested o kc)) vs).
  Proof using Hd Hr Hk.
    intros Hth He Hvs. destruct (queue_init _ _ _ He) as (ns & Hl & Hnd & Hnn & Hi).
    assert (Hne : ns <> []) by (intros ->; simpl in Hl; lia).
    destruct (qinit_empty _ _ _ Hi Hne Hnd Hnn) as [Ha Hq].
    destruct (config_tag comp CQueue o kc th w) as (M & HM & HM2).
    assert (Hre : QueueWrapObs.qwreach c M ns [] s).
    { exists addr, s, (fun _ _ => 0). split_and!; [done|done|by left|done|constructor]. }
    assert (Hsz : size (q_heap (q_sh s)) = length ns).
    { apply (QueueWrapMain.w_bounds c M HM ltac:(lia) ns [] s [] Hne Hre). intros ? ? Hx. set_solver. }
    destruct (QueueWrapMain.w_push_many c M HM ltac:(lia) ns t vs [] s [] Hth Hre Hq Ha Hvs)
      as (chs & s' & Hrun & Hq' & Ha').
    exists chs, s'. rewrite Hrun, Hsz. rewrite Hsz in Ha'. simpl in Ha'. split_and!; [|done|].
    - f_equal. f_equal. unfold QueueMain.push_hist. f_equal. apply imap_ext. intros i v _. simpl.
      do 4 f_equal. apply bool_decide_ext. lia.
    - by replace (N.to_nat (requested o kc)) with (length ns - 1) by lia.
  Qed.

  Lemma queue_no_ub answers addr : queue_ctor comp o kc th w answers addr <> BUB.
  Proof using Hd Hr Hk.
    intros He. unfold queue_ctor in He.
    destruct (pool_ctor (qd0 c) c (pool_t CQueue o) (pool_count CQueue o kc) answers) as [[h p]| | |] eqn:Hp; try done.
    - destruct (pool_done _ _ _ _ _ _ _ Hd Hr Hk _ _ _ Hp) as (ns & Hl & Hnd & Hnn & Hpi).
      assert (Hne : ns <> []) by (intros ->; simpl in Hl; lia).
      assert (Hin : p.1 ∈ ns).
      { replace p with (pool_init c (qd0 c) ns).2 by (by rewrite <- Hpi). unfold pool_init.
        by apply QueueQuiet.pool_add_first. }
      unfold alloc_unsafe in He. rewrite decide_False in He by (intros Hx; rewrite Hx in Hin; done).
      assert (Hdm : p.1 ∈ dom h).
      { replace h with (pool_init c (qd0 c) ns).1 by (by rewrite <- Hpi). unfold pool_init.
        rewrite QueueQuiet.pool_add_dom. set_solver. }
      apply elem_of_dom in Hdm as [nd Hh]. rewrite Hh in He. simpl in He. rewrite Hh in He. done.
    - by apply (pool_no_ub _ _ _ _ _ _ _ Hd Hr Hk _ Hp).
  Qed.

  Lemma queue_throw answers addr l :
    queue_ctor comp o kc th w answers addr = BThrow l ->
    (None ∈ answers \/ (bounded o /\ (largest CQueue < requested o kc)%N)) /\ (bounded o -> l = []) /\
    (forall a, a ∈ l -> Some a ∈ answers).
  Proof using Hd Hr Hk.
    intros He. unfold queue_ctor in He.
    destruct (pool_ctor (qd0 c) c (pool_t CQueue o) (pool_count CQueue o kc) answers) as [[h p]| | |] eqn:Hp; try done.
    - destruct (pool_done _ _ _ _ _ _ _ Hd Hr Hk _ _ _ Hp) as (ns & Hl & Hnd & Hnn & Hpi).
      assert (Hne : ns <> []) by (intros ->; simpl in Hl; lia).
      assert (Hin : p.1 ∈ ns).
      { replace p with (pool_init c (qd0 c) ns).2 by (by rewrite <- Hpi). unfold pool_init.
        by apply QueueQuiet.pool_add_first. }
      unfold alloc_unsafe in He. rewrite decide_False in He by (intros Hx; rewrite Hx in Hin; done).
      destruct (h !! p.1) as [nd|] eqn:Hh; [|done]. simpl in He. rewrite Hh in He. done.
    - injection He as ->. exact (pool_throw _ _ _ _ _ _ _ Hd Hr Hk _ _ Hp).
  Qed.

  Lemma queue_served answers addr :
    (bounded o -> (requested o kc <= largest CQueue)%N) -> served CQueue o (requested o kc) answers ->
    exists s, queue_ctor comp o kc th w answers addr = BDone s.
  Proof using Hd Hr Hk.
    intros Hb Hs. destruct (pool_served (qd0 c) comp th w CQueue o kc Hd Hr Hk answers Hb Hs) as (h & p & Hp).
    unfold queue_ctor. rewrite Hp.
    destruct (pool_done _ _ _ _ _ _ _ Hd Hr Hk _ _ _ Hp) as (ns & Hl & Hnd & Hnn & Hpi).
    assert (Hne : ns <> []) by (intros ->; simpl in Hl; lia).
    assert (Hin : p.1 ∈ ns).
    { replace p with (pool_init c (qd0 c) ns).2 by (by rewrite <- Hpi). unfold pool_init.
      by apply QueueQuiet.pool_add_first. }
    unfold alloc_unsafe. rewrite decide_False by (intros Hx; rewrite Hx in Hin; done).
    assert (Hdm : p.1 ∈ dom h).
    { replace h with (pool_init c (qd0 c) ns).1 by (by rewrite <- Hpi). unfold pool_init.
      rewrite QueueQuiet.pool_add_dom. set_solver. }
    apply elem_of_dom in Hdm as [nd Hh]. rewrite Hh. simpl. rewrite Hh. eauto.
  Qed.
End queue.

(** ** Stack *)

Section stack.
  Context (comp : bool) (o : opts) (kc : ctor) (th : bool).
  Notation c := (config comp CStack o kc th 1).
  Context (Hd : documented o kc) (Hr : (requested o kc < 2 ^ 64 - 1)%N).
  Context (Hk : class_compiles CStack o = true).

  Lemma stack_init answers s :
    stack_ctor comp o kc th answers = BDone s ->
    exists ns, N.of_nat (length ns) = requested o kc /\ NoDup ns /\ c_null c ∉ ns /\ s = sinit c ns.
  Proof using Hd Hr Hk.
    intros He. unfold stack_ctor in He.
    destruct (pool_ctor None c (pool_t CStack o) (pool_count CStack o kc) answers) as [[h p]| | |] eqn:Hp; try done.
    destruct (pool_done _ _ _ _ _ _ _ Hd Hr Hk _ _ _ Hp) as (ns & Hl & Hnd & Hnn & Hpi).
    exists ns. split_and!; [done|done|done|]. unfold sinit. rewrite <- Hpi. by injection He as <-.
  Qed.

  Lemma stack_reach answers s :
    stack_ctor comp o kc th answers = BDone s ->
    exists ns, N.of_nat (length ns) = requested o kc /\
      StackObs.sreach c ns [] s /\ forall M, StackWrapObs.swreach c M ns [] s.
  Proof using Hd Hr Hk.
    intros He. destruct (stack_init _ _ He) as (ns & Hl & Hnd & Hnn & ->).
    assert (Hok : StackObs.hist_ok []) by (intros ? ? Hx; set_solver).
    exists ns. split; [done|]. split.
    - split_and!; [done|done|done|constructor].
    - intros M. split_and!; [done|done|done|]. exists (fun _ _ => 0). constructor.
  Qed.

  Lemma stack_holds answers s t vs :
    th = false -> stack_ctor comp o kc th answers = BDone s ->
    exists chs s', srun c s chs =
        Some (concat (imap (fun i v =>
          [Inv t (SPush true v); Res t (SBool (bool_decide (N.of_nat i < requested o kc)%N))]) vs), s') /\
      StackObs.quiescent s' /\ StackObs.scontents c s' (reverse (take (N.to_nat (requested o kc)) vs)).
  Proof using Hd Hr Hk.
    intros Hth He. destruct (stack_reach _ _ He) as (ns & Hl & _ & Hre).
    destruct (stack_init _ _ He) as (ns' & _ & _ & _ & Hs).
    assert (Ha : StackObs.scontents c s []).
    { rewrite Hs. unfold sinit. destruct (pool_init c None ns') as [h p]. constructor. }
    assert (Hq : StackObs.quiescent s).
    { rewrite Hs. unfold sinit. destruct (pool_init c None ns') as [h p]. done. }
    destruct (config_tag comp CStack o kc th 1) as (M & HM & HM2). specialize (Hre M).
    assert (Hsz : size (s_heap (s_sh s)) = length ns).
    { apply (StackWrapMain.w_bounds c M HM ltac:(lia) ns [] s [] Hre). intros ? ? Hx. set_solver. }
    destruct (StackWrapMain.w_push_many c M HM ltac:(lia) ns t vs [] s [] Hth Hre Hq Ha)
      as (chs & s' & Hrun & Hq' & Ha').
    exists chs, s'. rewrite Hrun, Hsz. rewrite Hsz in Ha'. rewrite app_nil_r in Ha'. simpl in Ha'. split_and!; [|done|].
    - f_equal. f_equal. f_equal. apply imap_ext. intros i v _. simpl.
      do 4 f_equal. apply bool_decide_ext. lia.
    - by replace (N.to_nat (requested o kc)) with (length ns - 0) by lia.
  Qed.

  Lemma stack_no_ub answers : stack_ctor comp o kc th answers <> BUB.
  Proof using Hd Hr Hk.
    intros He. unfold stack_ctor in He.
    destruct (pool_ctor None c (pool_t CStack o) (pool_count CStack o kc) answers) as [[h p]| | |] eqn:Hp; try done.
    by apply (pool_no_ub _ _ _ _ _ _ _ Hd Hr Hk _ Hp).
  Qed.

  Lemma stack_throw answers l :
    stack_ctor comp o kc th answers = BThrow l ->
    (None ∈ answers \/ (bounded o /\ (largest CStack < requested o kc)%N)) /\ (bounded o -> l = []) /\
    (forall a, a ∈ l -> Some a ∈ answers).
  Proof using Hd Hr Hk.
    intros He. unfold stack_ctor in He.
    destruct (pool_ctor None c (pool_t CStack o) (pool_count CStack o kc) answers) as [[h p]| | |] eqn:Hp; try done.
    injection He as ->. exact (pool_throw _ _ _ _ _ _ _ Hd Hr Hk _ _ Hp).
  Qed.

  Lemma stack_served answers :
    (bounded o -> (requested o kc <= largest CStack)%N) -> served CStack o (requested o kc) answers ->
    exists s, stack_ctor comp o kc th answers = BDone s.
  Proof using Hd Hr Hk.
    intros Hb Hs. destruct (pool_served (@None N) comp th 1 CStack o kc Hd Hr Hk answers Hb Hs) as (h & p & Hp).
    unfold stack_ctor. rewrite Hp. eauto.
  Qed.
End stack.

(** ** spsc_queue *)

Lemma ring_main o kc sz answer r :
  documented o kc -> (0 < sz)%N -> ((requested o kc + 1) * sz <= 2 ^ 63)%N ->
  ring_ctor o kc sz answer = BDone r ->
  g_max r = (requested o kc + 1)%N /\ g_slots r = g_max r /\ ring_dealloc r = g_slots r /\
  forall triv bthrow, triv = true \/ bthrow = false -> code_cfg (ring_cfg r triv bthrow).
Proof.
  intros Hd Hsz Hfit He.
  assert (Hr : (requested o kc < 2 ^ 64 - 1)%N) by nia.
  assert (Hx : g_max r = (requested o kc + 1)%N /\ g_slots r = g_max r).
  { destruct o as [[n|] f al], kc; simpl in *; try done.
    1-3: injection He as <-; unfold extract_capacity; simpl; rewrite add64_small by done; split; [done|];
         unfold mul64, w64; rewrite N.mod_small by lia; by rewrite N.div_mul by lia.
    all: destruct answer; [|done]; injection He as <-; simpl; by rewrite add64_small by done. }
  destruct Hx as [H1 H2]. split_and!; [done|done|by rewrite H2|].
  intros triv bthrow Ht. unfold code_cfg, ring_cfg. simpl. split_and!; try done; nia.
Qed.

Lemma ring_checked_main o kc :
  ring_compiles o = true -> ring_ctor_compiles o kc = true <-> documented o kc.
Proof.
  intros _. unfold ring_ctor_compiles, documented, has_capacity.
  destruct o as [[n|] f al], kc; simpl; naive_solver.
Qed.
