(** * Concrete executions with consume_all and wrapping tags, used in PropLoopWrap.v *)
From stdpp Require Import gmap list numbers.
From Verif Require Import Lin PoolModel LoopModel LoopObs LoopFacts LoopDemo LoopWrapObs LoopWrap WrapWitness.
From Verif Require QueueModel QueueSpec QueueObs QueueDemo QueueWitness QueueWrapObs LoopQueue.
From Verif Require StackModel StackSpec StackObs StackDemo StackWrapObs LoopStack.

Set Default Proof Using "Type".

Section queue.
  Import QueueModel QueueSpec QueueObs QueueDemo QueueWitness QueueWrapObs.
  Notation qltrace := (ltrace qop qret val).
  Notation qlstate := (@lstate qstate val).

  Definition qlage (age : nat -> nat) (s : qlstate) (x : lchoice qchoice) : nat -> nat :=
    match lbelow (fun t => Invoke t Pop false) s x with Some y => older age (qinvoked y) | None => age end.

  (** Runs a schedule and checks that every call takes fewer than [b] steps of
      all threads together. *)
  Fixpoint qlwrun (c : cfg) (b : N) (s : qlstate) (age : nat -> nat) (cs : list (lchoice qchoice)) :
      option (list qltrace * list qlstate * qlstate * (nat -> nat)) :=
    match cs with
    | [] => Some ([], [], s, age)
    | x :: cs =>
        match qlstep c s x with
        | BNext s' evs =>
            let age' := qlage age s x in
            if young b age' (q_pcs (l_st s')) then
              match qlwrun c b s' age' cs with
              | Some (tr, w, s'', age'') => Some (evs ++ tr, s' :: w, s'', age'')
              | None => None
              end
            else None
        | _ => None
        end
    end.

  Definition qbounded (s : qlstate) (k : nat -> qloc -> nat) (age : nat -> nat) : Prop :=
    forall t l, is_Some (q_pcs (l_st s) !! t) -> k t l <= age t.

  Lemma qlcount_age c s x s1 evs age k :
    qlstep c s x = BNext s1 evs -> qbounded s k age -> qbounded s1 (qlcount k s x s1) (qlage age s x).
  Proof.
    intros Hs Hk. apply lstep_lbelow in Hs. unfold qlcount, qlage. destruct (lbelow _ s x) as [y|].
    - destruct Hs as [bevs Hs]. apply LoopQueue.qbelow_next in Hs. exact (qcount_older _ _ _ _ _ _ _ Hs Hk).
    - unfold qbounded. by rewrite Hs.
  Qed.

  Lemma qlage_step c b s x s1 evs age k :
    qlstep c s x = BNext s1 evs -> qbounded s k age -> young b (qlage age s x) (q_pcs (l_st s1)) = true ->
    qlwstep c b s k x s1 evs.
  Proof.
    intros Hs Hk Hy. split; [exact Hs|]. intros t l Ht.
    pose proof (qlcount_age _ _ _ _ _ _ _ Hs Hk t l Ht). pose proof (young_lt _ _ _ _ Hy Ht). lia.
  Qed.

  Lemma qlwrun_exec c b s0 cs : forall s age tr k tr' w s' age',
    qlwexec c b s0 tr s k -> qbounded s k age -> qlwrun c b s age cs = Some (tr', w, s', age') ->
    exists k', qlwexec c b s0 (tr ++ tr') s' k' /\ qbounded s' k' age'.
  Proof.
    induction cs as [|x cs IH]; intros s age tr k tr' w s' age' He Hk Hr; cbn [qlwrun] in Hr.
    - injection Hr as <- <- <- <-. exists k. by rewrite app_nil_r.
    - destruct (qlstep c s x) as [s1 evs| |] eqn:Hs; [|discriminate Hr..]. cbv zeta in Hr.
      destruct (young b (qlage age s x) (q_pcs (l_st s1))) eqn:Hy; [|discriminate Hr].
      destruct (qlwrun c b s1 (qlage age s x) cs) as [[[[tr1 w1] s2] age2]|] eqn:Hq; [|discriminate Hr].
      injection Hr as <- <- <- <-. rewrite app_assoc.
      eapply IH; [|by eapply qlcount_age|exact Hq]. econstructor; [exact He|by eapply qlage_step].
  Qed.

  Lemma qlwrun_call c b ns t cs : forall w s age k tr' w' s' age',
    qlwcall c b ns t w s k -> qbounded s k age -> qlwrun c b s age cs = Some (tr', w', s', age') ->
    forallb (fun s => match l_in s !! t with Some _ => true | None => false end) w' = true ->
    exists k', qlwcall c b ns t (w ++ w') s' k'.
  Proof.
    induction cs as [|x cs IH]; intros w s age k tr' w' s' age' He Hk Hr HF; cbn [qlwrun] in Hr.
    - injection Hr as <- <- <- <-. exists k. by rewrite app_nil_r.
    - destruct (qlstep c s x) as [s1 evs| |] eqn:Hs; [|discriminate Hr..]. cbv zeta in Hr.
      destruct (young b (qlage age s x) (q_pcs (l_st s1))) eqn:Hy; [|discriminate Hr].
      destruct (qlwrun c b s1 (qlage age s x) cs) as [[[[tr1 w1] s2] age2]|] eqn:Hq; [|discriminate Hr].
      injection Hr as <- <- <- <-. cbn [forallb] in HF. apply andb_prop in HF as [H1 HF].
      replace (w ++ s1 :: w1) with ((w ++ [s1]) ++ w1) by (by rewrite <- app_assoc).
      eapply IH; [|by eapply qlcount_age|exact Hq|exact HF].
      econstructor; [exact He|by eapply qlage_step|]. by destruct (l_in s1 !! t).
  Qed.

  Definition qlwfrom (c : cfg) (b : N) (ns : list N) (cs : list (lchoice qchoice)) :=
    match qinit c ns None with Some s0 => qlwrun c b (LSt s0 ∅) (fun _ => 0) cs | None => None end.

  Lemma qlwfrom_at c b ns cs tr w s age :
    qlwfrom c b ns cs = Some (tr, w, s, age) -> NoDup ns -> c_null c ∉ ns -> ns <> [] ->
    exists k, qlwat c b ns tr s k /\ qbounded s k age.
  Proof.
    unfold qlwfrom. destruct (qinit c ns None) as [s0|] eqn:Hi; [|discriminate]. intros Hr H1 H2 H3.
    destruct (qlwrun_exec c b (LSt s0 ∅) cs (LSt s0 ∅) (fun _ => 0) [] (fun _ _ => 0) tr w s age) as (k & Hk & Ha);
      [constructor|intros ???; lia|exact Hr|].
    exists k. split; [|exact Ha]. exists None, s0. split; [done|]. split; [done|]. split; [by left|]. done.
  Qed.

  (** Tags modulo 64; 25 times: two pushes, and a consume_all during which a
      third element is pushed. *)
  Definition lwcfg : cfg := Cfg 9%N false (Some 64%N) false 1.
  Definition lwsched : list (lchoice qchoice) := mjoin (replicate 25 (lpre ++ LCall 1 :: lcs ++ goes 1 1)).
  Definition lwtr : list qltrace := mjoin (replicate 25 (lpretr ++ AllCall 1 :: lcstr ++ [AllRet 1 3])).

  Lemma lwpool : NoDup pool2 /\ c_null lwcfg ∉ pool2 /\ pool2 <> [].
  Proof. split; [by apply (bool_decide_unpack _)|]. split; [by apply (bool_decide_unpack _)|done]. Qed.

  Definition lwshow cs :=
    match qlwfrom lwcfg 64 pool2 cs with
    | Some (tr, _, s, _) =>
        match contentsb lwcfg (l_st s) with
        | Some a => Some (tr, a, size (q_pcs (l_st s)), size (l_in s), qtag (l_st s) LHead, size (q_heap (q_sh (l_st s))))
        | None => None
        end
    | None => None
    end.

  Lemma lwshow_reach cs tr a h n :
    lwshow cs = Some (tr, a, 0, 0, h, n) ->
    exists s, qlwreach lwcfg 64 pool2 tr s /\ qlquiescent s /\ qcontents lwcfg (l_st s) a /\ qtag (l_st s) LHead = h /\
      size (q_heap (q_sh (l_st s))) = n.
  Proof.
    unfold lwshow. destruct (qlwfrom lwcfg 64 pool2 cs) as [[[[tr' w] s] age]|] eqn:Hf; [|done].
    destruct (contentsb lwcfg (l_st s)) as [a'|] eqn:Hc; [|done]. intros H. injection H as -> -> Hp Hi Hh Hz.
    destruct lwpool as (H1 & H2 & H3). destruct (qlwfrom_at _ _ _ _ _ _ _ _ Hf H1 H2 H3) as (k & Hk & _).
    exists s. split; [by exists k|]. apply map_size_empty_inv in Hp, Hi. split; [done|].
    split; [by apply contentsb_ok|]. done.
  Qed.

  Lemma lwdemo :
    exists s, qlwreach lwcfg 64 pool2 lwtr s /\ qlquiescent s /\ qcontents lwcfg (l_st s) [] /\ qtag (l_st s) LHead = 11%N /\
      size (q_heap (q_sh (l_st s))) = 3.
  Proof. apply (lwshow_reach lwsched). vm_compute. reflexivity. Qed.

  Lemma lwdemo_pre :
    exists s, qlwreach lwcfg 64 pool2 (lwtr ++ lpretr) s /\ qlquiescent s /\ qcontents lwcfg (l_st s) [[7%N]; [8%N]].
  Proof.
    destruct (lwshow_reach (lwsched ++ lpre) (lwtr ++ lpretr) [[7%N]; [8%N]] 11%N 3) as (s & H1 & H2 & H3 & _);
      [vm_compute; reflexivity|]. by exists s.
  Qed.

  Definition lwcallshow :=
    match qlwfrom lwcfg 64 pool2 (lwsched ++ lpre) with
    | Some (_, _, s, age) =>
        match qlwrun lwcfg 64 s age [LCall 1] with
        | Some (_, _, s1, age1) =>
            match qlwrun lwcfg 64 s1 age1 lcs with
            | Some (_, w, s2, _) =>
                Some (forallb (fun s => match l_in s !! 1 with Some _ => true | None => false end) w, l_in s2 !! 1)
            | None => None
            end
        | None => None
        end
    | None => None
    end.

  Lemma lwdemo_call : exists w, qlwcallret lwcfg 64 pool2 1 w 3.
  Proof.
    assert (H : lwcallshow = Some (true, Some (LEnd 3))) by (vm_compute; reflexivity).
    unfold lwcallshow in H.
    destruct (qlwfrom lwcfg 64 pool2 (lwsched ++ lpre)) as [[[[tr w] s] age]|] eqn:Hf; [|done].
    destruct (qlwrun lwcfg 64 s age [LCall 1]) as [[[[tr1 w1] s1] age1]|] eqn:H1; [|done].
    destruct (qlwrun lwcfg 64 s1 age1 lcs) as [[[[tr2 w2] s2] age2]|] eqn:H2; [|done].
    injection H as HF Hl. destruct lwpool as (P1 & P2 & P3).
    destruct (qlwfrom_at _ _ _ _ _ _ _ _ Hf P1 P2 P3) as (k & Hk & Ha).
    cbn [qlwrun] in H1. destruct (qlstep lwcfg s (LCall 1)) as [s1' evs| |] eqn:Hs; [|done|done]. cbv zeta in H1.
    destruct (young 64 (qlage age s (LCall 1)) (q_pcs (l_st s1'))) eqn:Hy; [|done].
    injection H1 as <- <- -> <-.
    destruct (qlwrun_call lwcfg 64 pool2 1 lcs [s1] s1 (qlage age s (LCall 1)) (qlcount k s (LCall 1) s1) tr2 w2 s2 age2)
      as (k2 & Hc); [|by eapply qlcount_age|exact H2|exact HF|].
    { econstructor; [exact Hk|by eapply qlage_step]. }
    exists ([s1] ++ w2), s2, k2, (Run 1 false None false), false. eexists. split; [exact Hc|].
    unfold qlstep. cbn [lstep]. rewrite Hl. reflexivity.
  Qed.
End queue.

Section stack.
  Import StackModel StackSpec StackObs StackDemo StackWrapObs.
  Notation sltrace := (ltrace sop sret N).
  Notation slstate := (@lstate sstate N).

  Definition slage (age : nat -> nat) (s : slstate) (x : lchoice schoice) : nat -> nat :=
    match lbelow (fun t => Invoke t SPop) s x with Some y => older age (sinvoked y) | None => age end.

  (** Runs a schedule and checks that every call takes fewer than [b] steps of
      all threads together. *)
  Fixpoint slwrun (c : cfg) (b : N) (s : slstate) (age : nat -> nat) (cs : list (lchoice schoice)) :
      option (list sltrace * list slstate * slstate * (nat -> nat)) :=
    match cs with
    | [] => Some ([], [], s, age)
    | x :: cs =>
        match slstep c s x with
        | BNext s' evs =>
            let age' := slage age s x in
            if young b age' (s_pcs (l_st s')) then
              match slwrun c b s' age' cs with
              | Some (tr, w, s'', age'') => Some (evs ++ tr, s' :: w, s'', age'')
              | None => None
              end
            else None
        | _ => None
        end
    end.

  Definition sbounded (s : slstate) (k : nat -> sloc -> nat) (age : nat -> nat) : Prop :=
    forall t l, is_Some (s_pcs (l_st s) !! t) -> k t l <= age t.

  Lemma slcount_age c s x s1 evs age k :
    slstep c s x = BNext s1 evs -> sbounded s k age -> sbounded s1 (slcount k s x s1) (slage age s x).
  Proof.
    intros Hs Hk. apply lstep_lbelow in Hs. unfold slcount, slage. destruct (lbelow _ s x) as [y|].
    - destruct Hs as [bevs Hs]. apply LoopStack.sbelow_next in Hs. exact (scount_older _ _ _ _ _ _ _ Hs Hk).
    - unfold sbounded. by rewrite Hs.
  Qed.

  Lemma slage_step c b s x s1 evs age k :
    slstep c s x = BNext s1 evs -> sbounded s k age -> young b (slage age s x) (s_pcs (l_st s1)) = true ->
    slwstep c b s k x s1 evs.
  Proof.
    intros Hs Hk Hy. split; [exact Hs|]. intros t l Ht.
    pose proof (slcount_age _ _ _ _ _ _ _ Hs Hk t l Ht). pose proof (young_lt _ _ _ _ Hy Ht). lia.
  Qed.

  Lemma slwrun_exec c b s0 cs : forall s age tr k tr' w s' age',
    slwexec c b s0 tr s k -> sbounded s k age -> slwrun c b s age cs = Some (tr', w, s', age') ->
    exists k', slwexec c b s0 (tr ++ tr') s' k' /\ sbounded s' k' age'.
  Proof.
    induction cs as [|x cs IH]; intros s age tr k tr' w s' age' He Hk Hr; cbn [slwrun] in Hr.
    - injection Hr as <- <- <- <-. exists k. by rewrite app_nil_r.
    - destruct (slstep c s x) as [s1 evs| |] eqn:Hs; [|discriminate Hr..]. cbv zeta in Hr.
      destruct (young b (slage age s x) (s_pcs (l_st s1))) eqn:Hy; [|discriminate Hr].
      destruct (slwrun c b s1 (slage age s x) cs) as [[[[tr1 w1] s2] age2]|] eqn:Hq; [|discriminate Hr].
      injection Hr as <- <- <- <-. rewrite app_assoc.
      eapply IH; [|by eapply slcount_age|exact Hq]. econstructor; [exact He|by eapply slage_step].
  Qed.

  Lemma slwrun_call c b ns t cs : forall w s age k tr' w' s' age',
    slwcall c b ns t w s k -> sbounded s k age -> slwrun c b s age cs = Some (tr', w', s', age') ->
    forallb slch_okb cs = true ->
    forallb (fun s => match l_in s !! t with Some _ => true | None => false end) w' = true ->
    exists k', slwcall c b ns t (w ++ w') s' k'.
  Proof.
    induction cs as [|x cs IH]; intros w s age k tr' w' s' age' He Hk Hr Hok HF; cbn [slwrun] in Hr.
    - injection Hr as <- <- <- <-. exists k. by rewrite app_nil_r.
    - destruct (slstep c s x) as [s1 evs| |] eqn:Hs; [|discriminate Hr..]. cbv zeta in Hr.
      destruct (young b (slage age s x) (s_pcs (l_st s1))) eqn:Hy; [|discriminate Hr].
      destruct (slwrun c b s1 (slage age s x) cs) as [[[[tr1 w1] s2] age2]|] eqn:Hq; [|discriminate Hr].
      injection Hr as <- <- <- <-. cbn [forallb] in HF, Hok. apply andb_prop in HF as [H1 HF]. apply andb_prop in Hok as [H2 Hok].
      replace (w ++ s1 :: w1) with ((w ++ [s1]) ++ w1) by (by rewrite <- app_assoc).
      eapply IH; [|by eapply slcount_age|exact Hq|exact Hok|exact HF].
      econstructor; [exact He|by apply slch_okb_ok|by eapply slage_step|]. by destruct (l_in s1 !! t).
  Qed.

  Definition slwfrom (c : cfg) (b : N) (ns : list N) (cs : list (lchoice schoice)) :=
    slwrun c b (LSt (sinit c ns) ∅) (fun _ => 0) cs.

  Lemma slwfrom_at c b ns cs tr w s age :
    slwfrom c b ns cs = Some (tr, w, s, age) -> NoDup ns -> c_null c ∉ ns -> hist_okb (omap below tr) = true ->
    exists k, slwat c b ns tr s k /\ sbounded s k age.
  Proof.
    intros Hr H1 H2 H3.
    destruct (slwrun_exec c b (LSt (sinit c ns) ∅) cs (LSt (sinit c ns) ∅) (fun _ => 0) [] (fun _ _ => 0) tr w s age)
      as (k & Hk & Ha); [constructor|intros ???; lia|exact Hr|].
    exists k. split; [|exact Ha]. do 2 (split; [done|]). split; [by apply hist_okb_ok|done].
  Qed.

  (** Tags modulo 32; 25 times: two pushes, and a consume_all during which a
      third element is pushed. *)
  Definition slwcfg : cfg := Cfg 9%N false (Some 32%N) false 1.
  Definition slwsched : list (lchoice schoice) := mjoin (replicate 25 (spre ++ LCall 1 :: scs ++ sgoes 1 1)).
  Definition slwtr : list sltrace := mjoin (replicate 25 (spretr ++ AllCall 1 :: scstr ++ [AllRet 1 3])).

  Lemma slwpool : NoDup spool /\ c_null slwcfg ∉ spool.
  Proof. split; by apply (bool_decide_unpack _). Qed.

  Definition slwshow cs :=
    match slwfrom slwcfg 32 spool cs with
    | Some (tr, _, s, _) =>
        match contentsb slwcfg (l_st s) with
        | Some a => Some (tr, hist_okb (omap below tr), a, size (s_pcs (l_st s)), size (l_in s), stag (l_st s) LTos)
        | None => None
        end
    | None => None
    end.

  Lemma slwshow_reach cs tr a h :
    slwshow cs = Some (tr, true, a, 0, 0, h) ->
    exists s, slwreach slwcfg 32 spool tr s /\ slquiescent s /\ scontents slwcfg (l_st s) a /\ stag (l_st s) LTos = h.
  Proof.
    unfold slwshow. destruct (slwfrom slwcfg 32 spool cs) as [[[[tr' w] s] age]|] eqn:Hf; [|done].
    destruct (contentsb slwcfg (l_st s)) as [a'|] eqn:Hc; [|done]. intros H. injection H as -> Hok -> Hp Hi Hh.
    destruct slwpool as (H1 & H2). destruct (slwfrom_at _ _ _ _ _ _ _ _ Hf H1 H2 Hok) as (k & Hk & _).
    exists s. split; [by exists k|]. apply map_size_empty_inv in Hp, Hi. split; [done|].
    split; [by apply contentsb_ok|]. done.
  Qed.

  Lemma slwdemo :
    exists s, slwreach slwcfg 32 spool slwtr s /\ slquiescent s /\ scontents slwcfg (l_st s) [] /\
      stag (l_st s) LTos = 11%N.
  Proof. apply (slwshow_reach slwsched). vm_compute. reflexivity. Qed.

  Lemma slwdemo_pre :
    exists s, slwreach slwcfg 32 spool (slwtr ++ spretr) s /\ slquiescent s /\ scontents slwcfg (l_st s) [8; 7]%N.
  Proof.
    destruct (slwshow_reach (slwsched ++ spre) (slwtr ++ spretr) [8; 7]%N 11%N) as (s & H1 & H2 & H3 & _);
      [vm_compute; reflexivity|]. by exists s.
  Qed.

  Definition slwcallshow :=
    match slwfrom slwcfg 32 spool (slwsched ++ spre) with
    | Some (tr, _, s, age) =>
        match slwrun slwcfg 32 s age [LCall 1] with
        | Some (_, _, s1, age1) =>
            match slwrun slwcfg 32 s1 age1 scs with
            | Some (_, w, s2, _) =>
                Some (forallb (fun s => match l_in s !! 1 with Some _ => true | None => false end) w, l_in s2 !! 1,
                  hist_okb (omap (M:=list) below tr))
            | None => None
            end
        | None => None
        end
    | None => None
    end.

  Lemma slwdemo_call : exists w, slwcallret slwcfg 32 spool 1 w 3.
  Proof.
    assert (H : slwcallshow = Some (true, Some (LEnd 3), true)) by (vm_compute; reflexivity).
    unfold slwcallshow in H.
    destruct (slwfrom slwcfg 32 spool (slwsched ++ spre)) as [[[[tr w] s] age]|] eqn:Hf; [|done].
    destruct (slwrun slwcfg 32 s age [LCall 1]) as [[[[tr1 w1] s1] age1]|] eqn:H1; [|done].
    destruct (slwrun slwcfg 32 s1 age1 scs) as [[[[tr2 w2] s2] age2]|] eqn:H2; [|done].
    injection H as HF Hl Hok. destruct slwpool as (P1 & P2).
    destruct (slwfrom_at _ _ _ _ _ _ _ _ Hf P1 P2 Hok) as (k & Hk & Ha).
    cbn [slwrun] in H1. destruct (slstep slwcfg s (LCall 1)) as [s1' evs| |] eqn:Hs; [|done|done]. cbv zeta in H1.
    destruct (young 32 (slage age s (LCall 1)) (s_pcs (l_st s1'))) eqn:Hy; [|done].
    injection H1 as <- <- -> <-.
    destruct (slwrun_call slwcfg 32 spool 1 scs [s1] s1 (slage age s (LCall 1)) (slcount k s (LCall 1) s1) tr2 w2 s2 age2)
      as (k2 & Hc); [|by eapply slcount_age|exact H2|vm_compute; reflexivity|exact HF|].
    { econstructor; [exact Hk|by eapply slage_step]. }
    exists ([s1] ++ w2), s2, k2, (Run 1 false None false), false. eexists. split; [exact Hc|].
    unfold slstep. cbn [lstep]. rewrite Hl. reflexivity.
  Qed.
End stack.
