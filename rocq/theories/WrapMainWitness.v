(** * Concrete executions used as witnesses in PropQueueWrap.v and PropStackWrap.v *)
From stdpp Require Import gmap list numbers.
From Verif Require Import Lin LiveSum PoolModel WrapWitness.
From Verif Require QueueModel QueueObs QueueDemo QueueWitness QueueLive QueueWrapObs.
From Verif Require StackModel StackObs StackDemo StackWitness StackLive StackWrapObs.

Set Default Proof Using "Type".

Section queue.
  Import QueueModel QueueObs QueueDemo QueueLive QueueWrapObs.

  Lemma qwrun_cont c b chs : forall s age k h s',
    (forall t l, is_Some (q_pcs s !! t) -> k t l <= age t) ->
    qwrun c b s age chs = Some (h, s') -> qwcont c b s k chs h s'.
  Proof.
    induction chs as [|ch chs IH]; intros s age k h s' Hk Hr; cbn [qwrun] in Hr.
    - injection Hr as <- <-. constructor.
    - destruct (qstep c s ch) as [s1 evs| |] eqn:Hs; [|discriminate Hr..]. cbv zeta in Hr.
      destruct (young b (older age (qinvoked ch)) (q_pcs s1)) eqn:Hy; [|discriminate Hr].
      destruct (qwrun c b s1 (older age (qinvoked ch)) chs) as [[h1 s2]|] eqn:Hq; [|discriminate Hr].
      injection Hr as <- <-. pose proof (qcount_older _ _ _ _ _ _ _ Hs Hk) as Hle.
      econstructor; [exact Hs| |].
      + intros t l Ht. specialize (Hle t l Ht). pose proof (young_lt _ _ _ _ Hy Ht). lia.
      + eapply IH; [exact Hle|exact Hq].
  Qed.

  Lemma qwrun_call c b s0 t o chs : forall w s age k h s' ws,
    qwcall c b s0 t o w s k -> (forall t l, is_Some (q_pcs s !! t) -> k t l <= age t) ->
    qwrun c b s age chs = Some (h, s') -> qstates c s chs = Some ws ->
    forallb (fun s => match q_pcs s !! t with Some _ => true | None => false end) ws = true ->
    exists k', qwcall c b s0 t o (w ++ ws) s' k'.
  Proof.
    induction chs as [|ch chs IH]; intros w s age k h s' ws Hc Hk Hr Hw HF; cbn [qwrun qstates] in Hr, Hw.
    - injection Hr as <- <-. injection Hw as <-. exists k. by rewrite app_nil_r.
    - destruct (qstep c s ch) as [s1 evs| |] eqn:Hs; [|discriminate Hr..]. cbv zeta in Hr.
      destruct (young b (older age (qinvoked ch)) (q_pcs s1)) eqn:Hy; [|discriminate Hr].
      destruct (qwrun c b s1 (older age (qinvoked ch)) chs) as [[h1 s2]|] eqn:Hq; [|discriminate Hr].
      injection Hr as <- <-. pose proof (qcount_older _ _ _ _ _ _ _ Hs Hk) as Hle.
      destruct (qstates c s1 chs) as [ws1|] eqn:Hw1; [|discriminate Hw]. injection Hw as <-.
      cbn [forallb] in HF. apply andb_prop in HF as [H1 HF]. destruct (q_pcs s1 !! t) eqn:Hp; [|discriminate H1].
      destruct (IH (w ++ [s1]) s1 (older age (qinvoked ch)) (qcount k s ch s1) h1 s2 ws1) as [k' Hk'];
        [|exact Hle|exact Hq|exact Hw1|exact HF|].
      + econstructor; [exact Hc|exact Hs|by rewrite Hp|]. intros t' l Ht. specialize (Hle t' l Ht).
        pose proof (young_lt _ _ _ _ Hy Ht). lia.
      + exists k'. by rewrite <- app_assoc in Hk'.
  Qed.

  (** The result of the call of [o] by [t] that begins after [pre], with no other
      call running, and goes on with [chs]; every call takes fewer than [b]
      steps of all threads together. *)
  Definition qwresult (c : cfg) (b : N) (ns : list N) (pre : list qchoice) (t : nat) (o : qop)
      (chs : list qchoice) : option qret :=
    match qwfrom c b ns pre with
    | Some (_, s) =>
        match size (q_pcs s), qstep c s (Invoke t o false) with
        | 0, QNext s1 _ =>
            match young b (fun _ => 0) (q_pcs s1), qwrun c b s1 (fun _ => 0) chs, qstates c s1 chs with
            | true, Some (_, s2), Some ws =>
                if forallb (fun s => match q_pcs s !! t with Some _ => true | None => false end) ws
                then qresult s2 t else None
            | _, _, _ => None
            end
        | _, _ => None
        end
    | None => None
    end.

  Lemma qwresult_ok c b ns pre t o chs r :
    qwresult c b ns pre t o chs = Some r -> NoDup ns -> c_null c ∉ ns -> ns <> [] ->
    exists w, qwcallret c b ns t o w r.
  Proof.
    unfold qwresult, qwfrom. destruct (qinit c ns None) as [s0|] eqn:Hi; [|discriminate].
    destruct (qwrun c b s0 (fun _ => 0) pre) as [[h s]|] eqn:Hpre; [|discriminate].
    destruct (size (q_pcs s)) eqn:Hsz; [|discriminate].
    destruct (qstep c s (Invoke t o false)) as [s1 evs| |] eqn:Hs; [|discriminate..].
    destruct (young b (fun _ => 0) (q_pcs s1)) eqn:Hy; [|discriminate].
    destruct (qwrun c b s1 (fun _ => 0) chs) as [[h2 s2]|] eqn:Hr; [|discriminate].
    destruct (qstates c s1 chs) as [ws|] eqn:Hw; [|discriminate].
    destruct (forallb _ ws) eqn:HF; [|discriminate]. intros Hres H1 H2 H3.
    apply map_size_empty_inv in Hsz.
    destruct (qwrun_exec c b s0 pre s0 (fun _ => 0) [] (fun _ _ => 0) h s) as [k Hk];
      [constructor|intros; lia|exact Hpre|].
    assert (Hin : forall t', is_Some (q_pcs s1 !! t') -> t' = t).
    { intros t' Ht. cbn [qstep] in Hs. rewrite Hsz, lookup_empty in Hs.
      destruct (qstart c o false); [|discriminate Hs]. injection Hs as <- _. cbn [set_pc q_pcs] in Ht.
      rewrite Hsz in Ht. destruct Ht as [pc Ht]. by apply lookup_insert_Some in Ht as [[-> _]|[_ Ht]]. }
    assert (Hk0 : forall t' l, is_Some (q_pcs s1 !! t') -> qcount k s (Invoke t o false) s1 t' l = 0).
    { intros t' l Ht. apply Hin in Ht as ->. unfold qcount. by rewrite decide_True. }
    destruct (qwrun_call c b s0 t o chs [s1] s1 (fun _ => 0) (qcount k s (Invoke t o false) s1) h2 s2 ws) as [k' Hk'];
      [|intros t' l Ht; by rewrite Hk0|exact Hr|exact Hw|exact HF|].
    - econstructor; [exact Hk|exact Hs|]. intros t' l Ht. rewrite Hk0 by done.
      exact (young_lt _ _ _ _ Hy Ht).
    - exists ([s1] ++ ws), None, s0, s2, k'. split; [done|]. split; [done|]. split; [by left|]. split; [done|].
      split; [done|]. unfold qresult in Hres. exists false, None, false. eexists. cbn [qstep].
      destruct (q_pcs s2 !! t) as [pc|]; [|discriminate Hres].
      destruct pc; try discriminate Hres. injection Hres as ->. reflexivity.
  Qed.

  Lemma qwfrom_at c b ns chs h s :
    qwfrom c b ns chs = Some (h, s) -> NoDup ns -> c_null c ∉ ns -> ns <> [] -> exists k, qwat c b ns h s k.
  Proof.
    intros Hr H1 H2 H3. destruct (qwfrom_reach _ _ _ _ _ _ Hr H1 H2 H3) as (addr & s0 & k & H).
    exists k, addr, s0. exact H.
  Qed.

  (** After the 40 rounds of [qwsched] the tags have wrapped around, and the queue
      is empty. *)

  (** A bounded_push while the pool is exhausted, which is interrupted by a pop
      that comes too late. *)
  Definition qwpush : list qchoice :=
    runs 1 2 ++ whole 2 Pop 10.
  Lemma qwdemo_push_fail : exists w, qwcallret qwcfg 64 [1; 2; 3]%N 1 (Push true [9%N]) w (RBool false).
  Proof.
    apply (qwresult_ok qwcfg 64 [1; 2; 3]%N
      (qwsched ++ whole 0 (Push true [5%N]) 12 ++ whole 0 (Push true [6%N]) 12) 1 _ qwpush);
      [vm_compute; reflexivity|apply qpool3|apply qpool3|discriminate].
  Qed.

  Lemma qwdemo_pop_empty : exists w, qwcallret qwcfg 64 [1; 2; 3]%N 1 Pop w (RPop None).
  Proof.
    apply (qwresult_ok qwcfg 64 [1; 2; 3]%N (qwsched ++ whole 0 (Push true [5%N]) 12) 1 _
             (runs 1 1 ++ whole 2 Pop 10 ++ runs 1 7));
      [vm_compute; reflexivity|apply qpool3|apply qpool3|discriminate].
  Qed.

  Lemma qwdemo_empty_false : exists w, qwcallret qwcfg 64 [1; 2; 3]%N 1 Empty w (RBool false).
  Proof.
    apply (qwresult_ok qwcfg 64 [1; 2; 3]%N (qwsched ++ whole 0 (Push true [5%N]) 12) 1 _
             (runs 1 1 ++ whole 0 (Push true [6%N]) 12 ++ runs 1 1));
      [vm_compute; reflexivity|apply qpool3|apply qpool3|discriminate].
  Qed.

  (** One element, no call in progress. *)
  Definition qwhist1 : list qevent := qwhist ++ [Inv 0 (Push true [9%N]); Res 0 (RBool true)].
  Definition qwshow1 : option (list qevent * nat * option (list val)) :=
    match qwfrom qwcfg 64 [1; 2; 3]%N (qwsched ++ whole 0 (Push true [9%N]) 12) with
    | Some (h, s) => Some (h, size (q_pcs s), contentsb qwcfg s)
    | None => None
    end.
  Lemma qwdemo_one : exists s, qwreach qwcfg 64 [1; 2; 3]%N qwhist1 s /\ quiescent s /\ qcontents qwcfg s [[9%N]].
  Proof.
    assert (H : qwshow1 = Some (qwhist1, 0, Some [[9%N]])) by (vm_compute; reflexivity).
    unfold qwshow1 in H. destruct (qwfrom _ _ _ _) as [[h s]|] eqn:Hq; [|discriminate H].
    injection H as -> H2 H3. exists s. split; [|split].
    - eapply qwfrom_reach; [exact Hq|apply qpool3|apply qpool3|discriminate].
    - by apply map_size_empty_inv.
    - by apply contentsb_ok.
  Qed.

  (** Two more elements are pushed and popped. *)
  Definition qwhist2 : list qevent := qwhist ++
    [Inv 0 (Push true [8%N]); Res 0 (RBool true); Inv 0 (Push true [9%N]); Res 0 (RBool true);
     Inv 1 Pop; Res 1 (RPop (Some [8%N])); Inv 2 Pop; Res 2 (RPop (Some [9%N]))].
  Lemma qwdemo_two : exists s, qwreach qwcfg 64 [1; 2; 3]%N qwhist2 s.
  Proof.
    assert (H : fst <$> qwfrom qwcfg 64 [1; 2; 3]%N
        (qwsched ++ whole 0 (Push true [8%N]) 12 ++ whole 0 (Push true [9%N]) 12 ++ whole 1 Pop 10 ++ whole 2 Pop 10)
      = Some qwhist2) by (vm_compute; reflexivity).
    destruct (qwfrom _ _ _ _) as [[h s]|] eqn:Hq; [|discriminate H].
    injection H as ->. exists s. eapply qwfrom_reach; [exact Hq|apply qpool3|apply qpool3|discriminate].
  Qed.
  Lemma qwdemo_unique (v : val) (i0 : nat) :
    forallb (fun e => match e with
       | (j, Inv _ o) => match pushes o with Some w => bool_decide (w = v -> j = i0) | None => true end
       | _ => true end) (imap pair qwhist2) = true ->
    forall i t o, qwhist2 !! i = Some (Inv t o) -> pushes o = Some v -> i = i0.
  Proof.
    rewrite forallb_forall. intros H i t o Hi Ho.
    specialize (H (i, Inv t o)). cbn beta iota in H. rewrite Ho in H.
    assert (Hin : In (i, Inv t o) (imap pair qwhist2)).
    { apply elem_of_list_In, elem_of_list_lookup. exists i.
      rewrite list_lookup_imap. exact (f_equal (fmap (pair i)) Hi). }
    exact (bool_decide_eq_true_1 _ (H Hin) eq_refl).
  Qed.

  (** Two pushes and two pops make 25 steps, and none of them completes. *)
  Definition qwfrag : list qchoice :=
    Invoke 1 (Push true [5%N]) false :: runs 1 10 ++ Invoke 2 Pop false :: runs 2 4 ++
    Invoke 3 (Push true [6%N]) false :: runs 3 5 ++ Invoke 4 Pop false :: runs 4 2.
  Lemma qwdemo_live : exists s k s', qwat qwcfg 64 [1; 2; 3]%N qwhist s k /\ Forall q_fair qwfrag /\
    qwcont qwcfg 64 s k qwfrag [Inv 1 (Push true [5%N]); Inv 2 Pop; Inv 3 (Push true [6%N]); Inv 4 Pop] s'.
  Proof.
    assert (H : match qwfrom qwcfg 64 [1; 2; 3]%N qwsched with
      | Some (h, s) => match qwrun qwcfg 64 s (fun _ => 0) qwfrag with
                       | Some (h', _) => Some (h, size (q_pcs s), h')
                       | None => None
                       end
      | None => None
      end = Some (qwhist, 0, [Inv 1 (Push true [5%N]); Inv 2 Pop; Inv 3 (Push true [6%N]); Inv 4 Pop]))
      by (vm_compute; reflexivity).
    destruct (qwfrom _ _ _ qwsched) as [[h s]|] eqn:Hq; [|discriminate H].
    destruct (qwrun qwcfg 64 s _ qwfrag) as [[h' s']|] eqn:Hr; [|discriminate H].
    injection H as -> H2 ->. apply map_size_empty_inv in H2.
    destruct (qwfrom_at _ _ _ _ _ _ Hq (proj1 qpool3) (proj2 qpool3) ltac:(discriminate)) as [k Hk].
    exists s, k, s'. split; [exact Hk|]. split.
    - cbv [qwfrag runs replicate app]. repeat (constructor; [reflexivity || exact I|]). constructor.
    - apply (qwrun_cont _ _ _ _ (fun _ => 0)); [|exact Hr].
      intros t l Ht. rewrite H2, lookup_empty in Ht. by destruct Ht.
  Qed.
End queue.

Section stack.
  Import StackModel StackObs StackDemo StackLive StackWrapObs.

  Lemma swrun_cont c b chs : forall s age k h s',
    (forall t l, is_Some (s_pcs s !! t) -> k t l <= age t) ->
    swrun c b s age chs = Some (h, s') -> swcont c b s k chs h s'.
  Proof.
    induction chs as [|ch chs IH]; intros s age k h s' Hk Hr; cbn [swrun] in Hr.
    - injection Hr as <- <-. constructor.
    - destruct (sstep c s ch) as [s1 evs| |] eqn:Hs; [|discriminate Hr..]. cbv zeta in Hr.
      destruct (young b (older age (sinvoked ch)) (s_pcs s1)) eqn:Hy; [|discriminate Hr].
      destruct (swrun c b s1 (older age (sinvoked ch)) chs) as [[h1 s2]|] eqn:Hq; [|discriminate Hr].
      injection Hr as <- <-. pose proof (scount_older _ _ _ _ _ _ _ Hs Hk) as Hle.
      econstructor; [exact Hs| |].
      + intros t l Ht. specialize (Hle t l Ht). pose proof (young_lt _ _ _ _ Hy Ht). lia.
      + eapply IH; [exact Hle|exact Hq].
  Qed.

  Lemma swrun_call c b ns t o chs : forall w s age k h s' ws,
    swcall c b ns t o w s k -> (forall t l, is_Some (s_pcs s !! t) -> k t l <= age t) ->
    swrun c b s age chs = Some (h, s') -> srecs c s chs = Some ws -> forallb (inside t) ws = true ->
    exists k', swcall c b ns t o (w ++ ws) s' k'.
  Proof.
    induction chs as [|ch chs IH]; intros w s age k h s' ws Hc Hk Hr Hw HF; cbn [swrun srecs] in Hr, Hw.
    - injection Hr as <- <-. injection Hw as <-. exists k. by rewrite app_nil_r.
    - destruct (sstep c s ch) as [s1 evs| |] eqn:Hs; [|discriminate Hr..]. cbv zeta in Hr.
      destruct (young b (older age (sinvoked ch)) (s_pcs s1)) eqn:Hy; [|discriminate Hr].
      destruct (swrun c b s1 (older age (sinvoked ch)) chs) as [[h1 s2]|] eqn:Hq; [|discriminate Hr].
      injection Hr as <- <-. pose proof (scount_older _ _ _ _ _ _ _ Hs Hk) as Hle.
      destruct (srecs c s1 chs) as [ws1|] eqn:Hw1; [|discriminate Hw]. injection Hw as <-.
      cbn [forallb] in HF. apply andb_prop in HF as [H1 HF]. unfold inside in H1. cbn [r_post r_ch] in H1.
      destruct (s_pcs s1 !! t) eqn:Hp; [|discriminate H1].
      destruct (IH (w ++ [SRec s ch s1]) s1 (older age (sinvoked ch)) (scount k s ch s1) h1 s2 ws1) as [k' Hk'];
        [|exact Hle|exact Hq|exact Hw1|exact HF|].
      + econstructor; [exact Hc|by apply ch_okb_ok|exact Hs|by rewrite Hp|]. intros t' l Ht. specialize (Hle t' l Ht).
        pose proof (young_lt _ _ _ _ Hy Ht). lia.
      + exists k'. by rewrite <- app_assoc in Hk'.
  Qed.

  Definition swresult (c : cfg) (b : N) (ns : list N) (pre : list schoice) (t : nat) (o : sop)
      (chs : list schoice) : option sret :=
    match swrun c b (sinit c ns) (fun _ => 0) pre with
    | Some (h, s) =>
        match hist_okb h && ch_okb (Invoke t o), size (s_pcs s), sstep c s (Invoke t o) with
        | true, 0, SNext s1 _ =>
            match young b (fun _ => 0) (s_pcs s1), swrun c b s1 (fun _ => 0) chs, srecs c s1 chs with
            | true, Some (_, s2), Some ws => if forallb (inside t) ws then sresult s2 t else None
            | _, _, _ => None
            end
        | _, _, _ => None
        end
    | None => None
    end.

  Lemma swrun_at c b ns chs h s :
    swrun c b (sinit c ns) (fun _ => 0) chs = Some (h, s) -> NoDup ns -> c_null c ∉ ns -> hist_okb h = true ->
    exists k, swat c b ns h s k.
  Proof.
    intros Hr H1 H2 H3.
    destruct (swrun_exec c b (sinit c ns) chs (sinit c ns) (fun _ => 0) [] (fun _ _ => 0) h s) as [k Hk];
      [constructor|intros; lia|exact Hr|].
    exists k. do 2 (split; [done|]). split; [by apply hist_okb_ok|exact Hk].
  Qed.

  Lemma swat_reach c b ns h s k : swat c b ns h s k -> swreach c b ns h s.
  Proof. intros (H1 & H2 & H3 & H4). do 3 (split; [done|]). by exists k. Qed.

  Lemma swresult_ok c b ns pre t o chs r :
    swresult c b ns pre t o chs = Some r -> NoDup ns -> c_null c ∉ ns -> exists w, swcallret c b ns t o w r.
  Proof.
    unfold swresult.
    destruct (swrun c b (sinit c ns) (fun _ => 0) pre) as [[h s]|] eqn:Hpre; [|discriminate].
    destruct (hist_okb h) eqn:Hh; cbn [andb]; [|discriminate].
    destruct (ch_okb (Invoke t o)) eqn:Ho; [|discriminate].
    destruct (size (s_pcs s)) eqn:Hsz; [|discriminate].
    destruct (sstep c s (Invoke t o)) as [s1 evs| |] eqn:Hs; [|discriminate..].
    destruct (young b (fun _ => 0) (s_pcs s1)) eqn:Hy; [|discriminate].
    destruct (swrun c b s1 (fun _ => 0) chs) as [[h2 s2]|] eqn:Hr; [|discriminate].
    destruct (srecs c s1 chs) as [ws|] eqn:Hw; [|discriminate].
    destruct (forallb _ ws) eqn:HF; [|discriminate]. intros Hres H1 H2.
    apply map_size_empty_inv in Hsz. destruct (swrun_at _ _ _ _ _ _ Hpre H1 H2 Hh) as [k Hk].
    assert (Hin : forall t', is_Some (s_pcs s1 !! t') -> t' = t).
    { intros t' Ht. cbn [sstep] in Hs. rewrite Hsz, lookup_empty in Hs.
      destruct (sstart c o); [|discriminate Hs]. injection Hs as <- _. cbn [set_pc s_pcs] in Ht.
      rewrite Hsz in Ht. destruct Ht as [pc Ht]. by apply lookup_insert_Some in Ht as [[-> _]|[_ Ht]]. }
    assert (Hk0 : forall t' l, is_Some (s_pcs s1 !! t') -> scount k s (Invoke t o) s1 t' l = 0).
    { intros t' l Ht. apply Hin in Ht as ->. unfold scount. by rewrite decide_True. }
    destruct (swrun_call c b ns t o chs [SRec s (Invoke t o) s1] s1 (fun _ => 0) (scount k s (Invoke t o) s1) h2 s2 ws) as [k' Hk'];
      [|intros t' l Ht; by rewrite Hk0|exact Hr|exact Hw|exact HF|].
    - econstructor; [exact Hk|exact (ch_okb_ok _ Ho)|exact Hs|]. intros t' l Ht. rewrite Hk0 by done.
      exact (young_lt _ _ _ _ Hy Ht).
    - exists ([SRec s (Invoke t o) s1] ++ ws), s2, k'.
      split; [done|]. unfold sresult in Hres. exists false, None, false. eexists. cbn [sstep].
      destruct (s_pcs s2 !! t) as [pc|]; [|discriminate Hres].
      destruct pc; try discriminate Hres. injection Hres as ->. reflexivity.
  Qed.

  (** After the 40 rounds of [swsched] the tags have wrapped around, and the stack
      is empty. *)
  Definition swtwo : list schoice := swsched ++ swhole 0 (SPush true 5%N) 8 ++ swhole 0 (SPush true 6%N) 8.
  Notation ns3 := [1; 2; 3]%N.

  (** Between the two accesses of thread 1 to [tos], thread 2 pops the node and
      thread 0 pushes it again. *)
  Lemma swdemo_pop : exists w, swcallret swcfg 32 ns3 1 SPop w (SGot (Some 7%N)).
  Proof.
    apply (swresult_ok swcfg 32 ns3 swtwo 1 _
             (sruns 1 2 ++ swhole 2 SPop 9 ++ swhole 0 (SPush true 7%N) 8 ++ sruns 1 8));
      [vm_compute; reflexivity|apply qpool3|apply qpool3].
  Qed.
  Lemma swdemo_range : exists w, swcallret swcfg 32 ns3 1 (SRange true [7; 8; 9]%N) w (SIter 1).
  Proof.
    apply (swresult_ok swcfg 32 ns3 swtwo 1 _ (sruns 1 8 ++ swhole 2 SPop 9 ++ sruns 1 3));
      [vm_compute; reflexivity|apply qpool3|apply qpool3].
  Qed.
  Lemma swdemo_all rev : exists w, swcallret swcfg 32 ns3 1 (SAll rev) w
    (SCount 2 (if rev then [5; 7]%N else [7; 5]%N)).
  Proof.
    destruct rev.
    - apply (swresult_ok swcfg 32 ns3 (swsched ++ swhole 0 (SPush true 5%N) 8) 1 _
               (sruns 1 1 ++ swhole 0 (SPush true 7%N) 8 ++ sruns 1 18));
        [vm_compute; reflexivity|apply qpool3|apply qpool3].
    - apply (swresult_ok swcfg 32 ns3 (swsched ++ swhole 0 (SPush true 5%N) 8) 1 _
               (sruns 1 1 ++ swhole 0 (SPush true 7%N) 8 ++ sruns 1 14));
        [vm_compute; reflexivity|apply qpool3|apply qpool3].
  Qed.
  Lemma swdemo_empty : exists w, swcallret swcfg 32 ns3 1 SEmpty w (SBool false).
  Proof.
    apply (swresult_ok swcfg 32 ns3 swtwo 1 _ (swhole 2 SPop 9 ++ sruns 1 1));
      [vm_compute; reflexivity|apply qpool3|apply qpool3].
  Qed.
  Lemma swdemo_push_fail : exists w, swcallret swcfg 32 ns3 1 (SPush true 9%N) w (SBool false).
  Proof.
    apply (swresult_ok swcfg 32 ns3 (swtwo ++ swhole 0 (SPush true 7%N) 8) 1 _ (sruns 1 2 ++ swhole 2 SPop 9));
      [vm_compute; reflexivity|apply qpool3|apply qpool3].
  Qed.
  (** With elements whose copies may throw: that of the second element does. *)
  Definition swcfgT : cfg := Cfg 0%N true (Some 32%N) true 1.
  Lemma swdemo_exn : exists w, swcallret swcfgT 32 ns3 1 (SRange true [7; 8]%N) w (SExn []).
  Proof.
    apply (swresult_ok swcfgT 32 ns3 (swsched ++ swhole 0 (SPush true 5%N) 8) 1 _
             (sruns 1 9 ++ Run 1 false None true :: sruns 1 5));
      [vm_compute; reflexivity|apply qpool3|apply qpool3].
  Qed.

  Definition swhist1 : list sevent := swhist ++ [Inv 0 (SPush true 9%N); Res 0 (SBool true)].
  Definition swshow1 : option (list sevent * nat * option (list N) * bool) :=
    match swrun swcfg 32 (sinit swcfg ns3) (fun _ => 0) (swsched ++ swhole 0 (SPush true 9%N) 8) with
    | Some (h, s) => Some (h, size (s_pcs s), contentsb swcfg s, hist_okb h)
    | None => None
    end.
  Lemma swdemo_one : exists s, swreach swcfg 32 ns3 swhist1 s /\ quiescent s /\ scontents swcfg s [9%N].
  Proof.
    assert (H : swshow1 = Some (swhist1, 0, Some [9%N], true)) by (vm_compute; reflexivity).
    unfold swshow1 in H. destruct (swrun _ _ _ _ _) as [[h s]|] eqn:Hq; [|discriminate H].
    injection H as H1 H2 H3 H4. subst h. exists s. split; [|split].
    - destruct (swrun_at _ _ _ _ _ _ Hq (proj1 qpool3) (proj2 qpool3) H4) as [k Hk]. by eapply swat_reach.
    - by apply map_size_empty_inv.
    - by apply contentsb_ok.
  Qed.

  Definition swfrag : list schoice :=
    Invoke 1 (SPush true 5%N) :: sruns 1 6 ++ Invoke 2 SPop :: sruns 2 1 ++
    Invoke 3 (SPush true 6%N) :: sruns 3 5 ++ Invoke 4 (SAll true) :: sruns 4 1.
  Lemma swdemo_live : exists s k s', swat swcfg 32 ns3 swhist s k /\ Forall s_fair swfrag /\
    swcont swcfg 32 s k swfrag [Inv 1 (SPush true 5%N); Inv 2 SPop; Inv 3 (SPush true 6%N); Inv 4 (SAll true)] s'.
  Proof.
    assert (H : match swrun swcfg 32 (sinit swcfg ns3) (fun _ => 0) swsched with
      | Some (h, s) => match swrun swcfg 32 s (fun _ => 0) swfrag with
                       | Some (h', _) => Some (h, size (s_pcs s), h', hist_okb h)
                       | None => None
                       end
      | None => None
      end = Some (swhist, 0, [Inv 1 (SPush true 5%N); Inv 2 SPop; Inv 3 (SPush true 6%N); Inv 4 (SAll true)], true))
      by (vm_compute; reflexivity).
    destruct (swrun swcfg 32 (sinit swcfg ns3) _ swsched) as [[h s]|] eqn:Hq; [|discriminate H].
    destruct (swrun swcfg 32 s _ swfrag) as [[h' s']|] eqn:Hr; [|discriminate H].
    injection H as H1 H2 H3 H4. subst h h'. apply map_size_empty_inv in H2.
    destruct (swrun_at _ _ _ _ _ _ Hq (proj1 qpool3) (proj2 qpool3) H4) as [k Hk].
    exists s, k, s'. split; [exact Hk|]. split.
    - cbv [swfrag sruns replicate app]. repeat (constructor; [reflexivity || exact I|]). constructor.
    - apply (swrun_cont _ _ _ _ (fun _ => 0)); [|exact Hr].
      intros t l Ht. rewrite H2, lookup_empty in Ht. by destruct Ht.
  Qed.
End stack.
