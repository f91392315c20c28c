(** * Concrete executions used as witnesses in PropWrap.v *)
From stdpp Require Import gmap list numbers.
From Verif Require Import Lin PoolModel.
From Verif Require QueueModel QueueObs QueueDemo QueueWrapObs.
From Verif Require StackModel StackObs StackDemo StackWrapObs.

Set Default Proof Using "Type".

(** [age t] is the number of steps since the current call of [t] began. *)
Section ages.
  Context {A : Type}.
  Definition older (age : nat -> nat) (inv : option nat) : nat -> nat :=
    fun t => if decide (inv = Some t) then 0 else S (age t).
  Definition young (b : N) (age : nat -> nat) (pcs : gmap nat A) : bool :=
    forallb (fun e => (N.of_nat (age e.1) <? b)%N) (map_to_list pcs).
  Lemma young_lt b age (pcs : gmap nat A) t :
    young b age pcs = true -> is_Some (pcs !! t) -> (N.of_nat (age t) < b)%N.
  Proof.
    intros H [pc Hpc]. unfold young in H. rewrite forallb_forall in H.
    apply N.ltb_lt, (H (t, pc)), elem_of_list_In, elem_of_map_to_list, Hpc.
  Qed.
End ages.

Section queue.
  Import QueueModel QueueObs QueueDemo QueueWrapObs.

  Definition qinvoked (ch : qchoice) : option nat := match ch with Invoke t _ _ => Some t | _ => None end.

  (** Runs a schedule and checks that every call takes fewer than [b] steps of
      all threads together. *)
  Fixpoint qwrun (c : cfg) (b : N) (s : qstate) (age : nat -> nat) (chs : list qchoice) : option (list qevent * qstate) :=
    match chs with
    | [] => Some ([], s)
    | ch :: chs =>
        match qstep c s ch with
        | QNext s' evs =>
            let age' := older age (qinvoked ch) in
            if young b age' (q_pcs s') then
              match qwrun c b s' age' chs with Some (h, s'') => Some (evs ++ h, s'') | None => None end
            else None
        | _ => None
        end
    end.

  Lemma qcount_older c s ch s1 evs age k :
    qstep c s ch = QNext s1 evs -> (forall t l, is_Some (q_pcs s !! t) -> k t l <= age t) ->
    forall t l, is_Some (q_pcs s1 !! t) -> qcount k s ch s1 t l <= older age (qinvoked ch) t.
  Proof.
    intros Hs Hk. intros t l Ht. unfold qcount, older.
    assert (Hold : qinvoked ch <> Some t -> is_Some (q_pcs s !! t)).
    { intros Hne. destruct ch as [t' o tf|t' sp ad thr|t' o ads]; cbn [qstep] in Hs; cbn [qinvoked] in Hne.
      - destruct (q_pcs s !! t'), (qstart c o tf); try discriminate Hs. injection Hs as <- <-.
        cbn [set_pc q_pcs] in Ht. rewrite lookup_insert_ne in Ht by congruence. done.
      - destruct (q_pcs s !! t') as [pc|] eqn:Hp; [|discriminate Hs].
        destruct (decide (t' = t)) as [<-|Hn]; [by rewrite Hp|].
        destruct pc; repeat match type of Hs with context [match tstep ?a ?b ?c ?d ?e ?f with _ => _ end] =>
          destruct (tstep a b c d e f); try discriminate Hs end; injection Hs as <- <-; cbn [q_pcs] in Ht;
          first [rewrite lookup_insert_ne in Ht by done | rewrite lookup_delete_ne in Ht by done]; exact Ht.
      - destruct (decide (q_pcs s = ∅)) as [E|]; [|discriminate Hs].
        destruct (ucall c (q_sh s) o ads); try discriminate Hs. injection Hs as <- <-.
        cbn [q_pcs] in Ht. rewrite lookup_empty in Ht. by destruct Ht. }
    destruct ch as [t' o tf|t' sp ad thr|t' o ads]; cbn [qinvoked] in *.
    - destruct (decide (t' = t)) as [->|Hn]; [lia|]. destruct (decide (Some t' = Some t)) as [E|_]; [congruence|].
      specialize (Hk t l (Hold ltac:(congruence))). destruct (decide _); lia.
    - destruct (decide (None = Some t)) as [E|_]; [discriminate E|]. specialize (Hk t l (Hold ltac:(done))). destruct (decide _); lia.
    - destruct (decide (None = Some t)) as [E|_]; [discriminate E|]. specialize (Hk t l (Hold ltac:(done))). destruct (decide _); lia.
  Qed.

  Lemma qwrun_exec c b s0 chs : forall s age hist k h s',
    qwexec c b s0 hist s k -> (forall t l, is_Some (q_pcs s !! t) -> k t l <= age t) ->
    qwrun c b s age chs = Some (h, s') -> exists k', qwexec c b s0 (hist ++ h) s' k'.
  Proof.
    induction chs as [|ch chs IH]; intros s age hist k h s' He Hk Hr; cbn [qwrun] in Hr.
    - injection Hr as <- <-. exists k. by rewrite app_nil_r.
    - destruct (qstep c s ch) as [s1 evs| |] eqn:Hs; [|discriminate Hr..]. cbv zeta in Hr.
      destruct (young b (older age (qinvoked ch)) (q_pcs s1)) eqn:Hy; [|discriminate Hr].
      destruct (qwrun c b s1 (older age (qinvoked ch)) chs) as [[h1 s2]|] eqn:Hq; [|discriminate Hr].
      injection Hr as <- <-.
      pose proof (qcount_older _ _ _ _ _ _ _ Hs Hk) as Hle.
      rewrite app_assoc. eapply IH; [|exact Hle|exact Hq].
      econstructor; [exact He|exact Hs|]. intros t l Ht. specialize (Hle t l Ht).
      pose proof (young_lt _ _ _ _ Hy Ht). lia.
  Qed.

  Definition qwfrom (c : cfg) (b : N) (ns : list N) (chs : list qchoice) : option (list qevent * qstate) :=
    match qinit c ns None with Some s0 => qwrun c b s0 (fun _ => 0) chs | None => None end.

  Lemma qwfrom_reach c b ns chs h s :
    qwfrom c b ns chs = Some (h, s) -> NoDup ns -> c_null c ∉ ns -> ns <> [] -> qwreach c b ns h s.
  Proof.
    unfold qwfrom. destruct (qinit c ns None) as [s0|] eqn:Hi; [|discriminate]. intros Hr H1 H2 H3.
    destruct (qwrun_exec c b s0 chs s0 (fun _ => 0) [] (fun _ _ => 0) h s) as [k Hk];
      [constructor|intros; lia|exact Hr|].
    exists None, s0, k. split; [done|]. split; [done|]. split; [by left|]. done.
  Qed.

  (** Tags modulo 64.  In each of 40 rounds thread 1 is interrupted in the middle
      of a pop by a whole pop and a whole push, which recycle a node; its
      compare-exchange fails and it tries again. *)
  Definition qwcfg : cfg := Cfg 0%N true (Some 64%N) false 1.
  Definition qround : list qchoice :=
    whole 0 (Push true [5%N]) 12 ++ whole 0 (Push true [6%N]) 12 ++ Invoke 1 Pop false :: runs 1 5 ++
    whole 2 Pop 10 ++ whole 0 (Push true [7%N]) 12 ++ runs 1 11 ++ whole 2 Pop 10.
  Definition qwsched : list qchoice := mjoin (replicate 40 qround).
  Definition qpops (h : list qevent) : nat :=
    sum_list_with (fun e => match e with Res _ (RPop (Some _)) => 1 | _ => 0 end) h.
  Definition qwhist : list qevent := mjoin (replicate 40
    [Inv 0 (Push true [5%N]); Res 0 (RBool true); Inv 0 (Push true [6%N]); Res 0 (RBool true); Inv 1 Pop;
     Inv 2 Pop; Res 2 (RPop (Some [5%N])); Inv 0 (Push true [7%N]); Res 0 (RBool true);
     Res 1 (RPop (Some [6%N])); Inv 2 Pop; Res 2 (RPop (Some [7%N]))]).
  Definition qwshow : option (list qevent * N) :=
    match qwfrom qwcfg 64 [1; 2; 3]%N qwsched with
    | Some (h, s) => Some (h, qtag s LHead)
    | None => None
    end.

  Lemma qpool3 : NoDup [1; 2; 3]%N /\ 0%N ∉ [1; 2; 3]%N.
  Proof. split; by apply (bool_decide_unpack _). Qed.

  Lemma qwrap_demo : exists s, qwreach qwcfg 64 [1; 2; 3]%N qwhist s /\
    qpops qwhist = 120 /\ qtag s LHead = 56%N.
  Proof.
    assert (H : qwshow = Some (qwhist, 56%N)) by (vm_compute; reflexivity).
    unfold qwshow in H. destruct (qwfrom qwcfg 64 [1; 2; 3]%N qwsched) as [[h s]|] eqn:Hq; [|discriminate H].
    injection H as -> H2. exists s. split; [|split; [vm_compute; reflexivity|exact H2]].
    eapply qwfrom_reach; [exact Hq|apply qpool3|apply qpool3|discriminate].
  Qed.
End queue.

Section stack.
  Import StackModel StackObs StackDemo StackWrapObs.

  Definition sinvoked (ch : schoice) : option nat := match ch with Invoke t _ => Some t | _ => None end.

  Fixpoint swrun (c : cfg) (b : N) (s : sstate) (age : nat -> nat) (chs : list schoice) : option (list sevent * sstate) :=
    match chs with
    | [] => Some ([], s)
    | ch :: chs =>
        match sstep c s ch with
        | SNext s' evs =>
            let age' := older age (sinvoked ch) in
            if young b age' (s_pcs s') then
              match swrun c b s' age' chs with Some (h, s'') => Some (evs ++ h, s'') | None => None end
            else None
        | _ => None
        end
    end.

  Lemma scount_older c s ch s1 evs age k :
    sstep c s ch = SNext s1 evs -> (forall t l, is_Some (s_pcs s !! t) -> k t l <= age t) ->
    forall t l, is_Some (s_pcs s1 !! t) -> scount k s ch s1 t l <= older age (sinvoked ch) t.
  Proof.
    intros Hs Hk. intros t l Ht. unfold scount, older.
    assert (Hold : sinvoked ch <> Some t -> is_Some (s_pcs s !! t)).
    { intros Hne. destruct ch as [t' o|t' sp ad thr|t' o ads thr]; cbn [sstep] in Hs; cbn [sinvoked] in Hne.
      - destruct (s_pcs s !! t'), (sstart c o); try discriminate Hs. injection Hs as <- <-.
        cbn [set_pc s_pcs] in Ht. rewrite lookup_insert_ne in Ht by congruence. done.
      - destruct (s_pcs s !! t') as [pc|] eqn:Hp; [|discriminate Hs].
        destruct (decide (t' = t)) as [<-|Hn]; [by rewrite Hp|].
        destruct pc; repeat match type of Hs with context [match tstep ?a ?b ?c ?d ?e ?f with _ => _ end] =>
          destruct (tstep a b c d e f); try discriminate Hs end; injection Hs as <- <-; cbn [s_pcs] in Ht;
          first [rewrite lookup_insert_ne in Ht by done | rewrite lookup_delete_ne in Ht by done]; exact Ht.
      - destruct (decide (s_pcs s = ∅)) as [E|]; [|discriminate Hs].
        destruct (ucall c (s_sh s) o ads thr); try discriminate Hs. injection Hs as <- <-.
        cbn [s_pcs] in Ht. rewrite lookup_empty in Ht. by destruct Ht. }
    destruct ch as [t' o|t' sp ad thr|t' o ads thr]; cbn [sinvoked] in *.
    - destruct (decide (t' = t)) as [->|Hn]; [lia|]. destruct (decide (Some t' = Some t)) as [E|_]; [congruence|].
      specialize (Hk t l (Hold ltac:(congruence))). destruct (decide _); lia.
    - destruct (decide (None = Some t)) as [E|_]; [discriminate E|]. specialize (Hk t l (Hold ltac:(done))). destruct (decide _); lia.
    - destruct (decide (None = Some t)) as [E|_]; [discriminate E|]. specialize (Hk t l (Hold ltac:(done))). destruct (decide _); lia.
  Qed.

  Lemma swrun_exec c b s0 chs : forall s age hist k h s',
    swexec c b s0 hist s k -> (forall t l, is_Some (s_pcs s !! t) -> k t l <= age t) ->
    swrun c b s age chs = Some (h, s') -> exists k', swexec c b s0 (hist ++ h) s' k'.
  Proof.
    induction chs as [|ch chs IH]; intros s age hist k h s' He Hk Hr; cbn [swrun] in Hr.
    - injection Hr as <- <-. exists k. by rewrite app_nil_r.
    - destruct (sstep c s ch) as [s1 evs| |] eqn:Hs; [|discriminate Hr..]. cbv zeta in Hr.
      destruct (young b (older age (sinvoked ch)) (s_pcs s1)) eqn:Hy; [|discriminate Hr].
      destruct (swrun c b s1 (older age (sinvoked ch)) chs) as [[h1 s2]|] eqn:Hq; [|discriminate Hr].
      injection Hr as <- <-.
      pose proof (scount_older _ _ _ _ _ _ _ Hs Hk) as Hle.
      rewrite app_assoc. eapply IH; [|exact Hle|exact Hq].
      econstructor; [exact He|exact Hs|]. intros t l Ht. specialize (Hle t l Ht).
      pose proof (young_lt _ _ _ _ Hy Ht). lia.
  Qed.

  (** Tags modulo 32.  In each of 40 rounds thread 1 is interrupted in the middle
      of a pop by a whole pop and a whole push, after which the same node is on
      top again; its compare-exchange fails and it tries again. *)
  Definition swcfg : cfg := Cfg 0%N true (Some 32%N) false 1.
  Definition sround : list schoice :=
    swhole 0 (SPush true 5%N) 8 ++ swhole 0 (SPush true 6%N) 8 ++ Invoke 1 SPop :: sruns 1 2 ++
    swhole 2 SPop 9 ++ swhole 0 (SPush true 7%N) 8 ++ sruns 1 9 ++ swhole 2 SPop 9.
  Definition swsched : list schoice := mjoin (replicate 40 sround).
  Definition spops (h : list sevent) : nat :=
    sum_list_with (fun e => match e with Res _ (SGot (Some _)) => 1 | _ => 0 end) h.
  Definition swhist : list sevent := mjoin (replicate 40
    [Inv 0 (SPush true 5%N); Res 0 (SBool true); Inv 0 (SPush true 6%N); Res 0 (SBool true); Inv 1 SPop;
     Inv 2 SPop; Res 2 (SGot (Some 6%N)); Inv 0 (SPush true 7%N); Res 0 (SBool true);
     Res 1 (SGot (Some 7%N)); Inv 2 SPop; Res 2 (SGot (Some 5%N))]).
  Definition swshow : option (list sevent * N) :=
    match swrun swcfg 32 (sinit swcfg [1; 2; 3]%N) (fun _ => 0) swsched with
    | Some (h, s) => Some (h, stag s LTos)
    | None => None
    end.

  Lemma swrap_demo : exists s, swreach swcfg 32 [1; 2; 3]%N swhist s /\
    spops swhist = 120 /\ stag s LTos = 24%N.
  Proof.
    assert (H : swshow = Some (swhist, 24%N)) by (vm_compute; reflexivity).
    unfold swshow in H.
    destruct (swrun swcfg 32 (sinit swcfg [1; 2; 3]%N) (fun _ => 0) swsched) as [[h s]|] eqn:Hq; [|discriminate H].
    injection H as -> H2. exists s. split; [|split; [vm_compute; reflexivity|exact H2]].
    split; [apply qpool3|]. split; [apply qpool3|]. split.
    - intros t o Hin. assert (Hn : forallb (fun e => match e with Inv _ (SRange _ []) | Inv _ (SURange []) => false | _ => true end) swhist = true)
        by (vm_compute; reflexivity).
      rewrite forallb_forall in Hn. apply elem_of_list_In, Hn in Hin.
      destruct o as [b v|b vs| | | |n|v|vs| |n]; try exact I; destruct vs; discriminate.
    - destruct (swrun_exec swcfg 32 (sinit swcfg [1; 2; 3]%N) swsched (sinit swcfg [1; 2; 3]%N) (fun _ => 0) [] (fun _ _ => 0) swhist s) as [k Hk];
        [constructor|intros; lia|exact Hq|]. by exists k.
  Qed.
End stack.
