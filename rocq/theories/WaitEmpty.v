(** * empty() of the queue and the stack returns after a fixed number of steps *)
From stdpp Require Import gmap list numbers.
From Verif Require Import Lin PoolModel WaitObs.
Set Default Proof Using "Type".

Section queue.
  Import QueueModel.
  Context (c : cfg).

  (** Steps until a call of empty() has returned. *)
  Definition q_left (pc : qpc) : option nat :=
    match pc with
    | PcEHead | PcETail => Some 3
    | PcEHeadTail _ | PcETailHead _ => Some 2
    | PcRet (RBool _) => Some 1
    | _ => None
    end.

  Lemma q_empty_run t chs : forall s pc m h s',
    q_pcs s !! t = Some pc -> q_left pc = Some m -> m <= q_steps t chs ->
    qrun c s chs = Some (h, s') -> exists r, Res t (RBool r) ∈ h.
  Proof.
    induction chs as [|ch chs IH]; intros s pc m h s' Hpc Hm Hle Hr.
    { exfalso. unfold q_steps in Hle. cbn in Hle. destruct pc; cbn in Hm; try discriminate Hm;
        try (injection Hm as <-; lia). match goal with r : qret |- _ => destruct r; try discriminate Hm end.
      injection Hm as <-; lia. }
    cbn [qrun] in Hr. destruct (qstep c s ch) as [s1 evs| |] eqn:Hs; [|done|done].
    destruct (qrun c s1 chs) as [[h1 s2]|] eqn:Hr1; [|done]. injection Hr as <- <-.
    assert (Hgo : forall pc' m', q_pcs s1 !! t = Some pc' -> q_left pc' = Some m' -> m' <= q_steps t chs ->
                  exists r, Res t (RBool r) ∈ evs ++ h1).
    { intros pc' m' H1 H2 H3. destruct (IH _ _ _ _ _ H1 H2 H3 Hr1) as [r Hin]. exists r.
      apply elem_of_app. by right. }
    destruct ch as [t' o tf|t' sp addr thr|t' o addrs thr]; cbn [qstep] in Hs.
    - destruct (q_pcs s !! t') eqn:Ht'; [done|]. destruct (qstart c o tf); [|done]. injection Hs as <- <-.
      eapply Hgo; [|exact Hm|exact Hle]. cbn [set_pc q_pcs]. rewrite lookup_insert_ne by congruence. done.
    - destruct (decide (t' = t)) as [->|Hne].
      + assert (Hq : q_steps t (Run t sp addr thr :: chs) = S (q_steps t chs)).
        { unfold q_steps. cbn [List.filter q_own]. by rewrite bool_decide_true. }
        rewrite Hq in Hle. rewrite Hpc in Hs.
        destruct pc; cbn [q_left] in Hm; try discriminate Hm; try (injection Hm as <-);
          cbn [tstep] in Hs; try (injection Hs as <- <-; eapply Hgo;
            [cbn [q_pcs]; by rewrite lookup_insert|reflexivity|lia]).
        match goal with r : qret |- _ => destruct r; try discriminate Hm end.
        injection Hs as <- <-. eexists. left.
      + assert (Hq : q_steps t (Run t' sp addr thr :: chs) = q_steps t chs).
        { unfold q_steps. cbn [List.filter q_own]. by rewrite bool_decide_false. }
        rewrite Hq in Hle. destruct (q_pcs s !! t') as [pc'|]; [|done].
        assert (Hq1 : q_pcs s1 !! t = Some pc).
        { destruct pc'; try (destruct (tstep c (q_sh s) _ sp addr thr) as [x pc1| |]; [|done|done];
            injection Hs as <- <-; cbn [q_pcs]; by rewrite lookup_insert_ne).
          injection Hs as <- <-. cbn [q_pcs]. by rewrite lookup_delete_ne. }
        by eapply Hgo.
    - destruct (decide (q_pcs s = ∅)) as [He|]; [|done]. rewrite He, lookup_empty in Hpc. done.
  Qed.

  Lemma q_empty_bounded s t tf chs h s' :
    qrun c s (Invoke t Empty tf :: chs) = Some (h, s') -> 3 <= q_steps t chs ->
    exists r, Res t (RBool r) ∈ h.
  Proof.
    intros Hr Hle. cbn [qrun qstep] in Hr. destruct (q_pcs s !! t); [done|].
    cbn [qstart] in Hr. destruct (qrun c (set_pc s t (if tf then PcETail else PcEHead)) chs) as [[h1 s1]|] eqn:Hr1;
      [|done]. injection Hr as <- <-.
    eapply (q_empty_run t chs _ (if tf then PcETail else PcEHead) 3) in Hr1 as [r Hin];
      [|cbn [set_pc q_pcs]; by rewrite lookup_insert|by destruct tf|done].
    exists r. by right.
  Qed.
End queue.

Section stack.
  Import StackModel.
  Context (c : cfg).

  Definition s_left (pc : spc) : option nat :=
    match pc with
    | PcEmpty => Some 2
    | PcRet (SBool _) => Some 1
    | _ => None
    end.

  Lemma s_empty_run t chs : forall s pc m h s',
    s_pcs s !! t = Some pc -> s_left pc = Some m -> m <= s_steps t chs ->
    srun c s chs = Some (h, s') -> exists r, Res t (SBool r) ∈ h.
  Proof.
    induction chs as [|ch chs IH]; intros s pc m h s' Hpc Hm Hle Hr.
    { exfalso. unfold s_steps in Hle. cbn in Hle. destruct pc; cbn in Hm; try discriminate Hm;
        [injection Hm as <-; lia|]. match goal with r : sret |- _ => destruct r; try discriminate Hm end.
      injection Hm as <-; lia. }
    cbn [srun] in Hr. destruct (sstep c s ch) as [s1 evs| |] eqn:Hs; [|done|done].
    destruct (srun c s1 chs) as [[h1 s2]|] eqn:Hr1; [|done]. injection Hr as <- <-.
    assert (Hgo : forall pc' m', s_pcs s1 !! t = Some pc' -> s_left pc' = Some m' -> m' <= s_steps t chs ->
                  exists r, Res t (SBool r) ∈ evs ++ h1).
    { intros pc' m' H1 H2 H3. destruct (IH _ _ _ _ _ H1 H2 H3 Hr1) as [r Hin]. exists r.
      apply elem_of_app. by right. }
    destruct ch as [t' o|t' sp addr thr|t' o addrs thr]; cbn [sstep] in Hs.
    - destruct (s_pcs s !! t') eqn:Ht'; [done|]. destruct (sstart c o); [|done]. injection Hs as <- <-.
      eapply Hgo; [|exact Hm|exact Hle]. cbn [set_pc s_pcs]. rewrite lookup_insert_ne by congruence. done.
    - destruct (decide (t' = t)) as [->|Hne].
      + assert (Hq : s_steps t (Run t sp addr thr :: chs) = S (s_steps t chs)).
        { unfold s_steps. cbn [List.filter s_own]. by rewrite bool_decide_true. }
        rewrite Hq in Hle. rewrite Hpc in Hs.
        destruct pc; cbn [s_left] in Hm; try discriminate Hm; try (injection Hm as <-);
          cbn [tstep] in Hs; try (injection Hs as <- <-; eapply Hgo;
            [cbn [s_pcs]; by rewrite lookup_insert|reflexivity|lia]).
        match goal with r : sret |- _ => destruct r; try discriminate Hm end.
        injection Hs as <- <-. eexists. left.
      + assert (Hq : s_steps t (Run t' sp addr thr :: chs) = s_steps t chs).
        { unfold s_steps. cbn [List.filter s_own]. by rewrite bool_decide_false. }
        rewrite Hq in Hle. destruct (s_pcs s !! t') as [pc'|]; [|done].
        assert (Hq1 : s_pcs s1 !! t = Some pc).
        { destruct pc'; try (destruct (tstep c (s_sh s) _ sp addr thr) as [x pc1| |]; [|done|done];
            injection Hs as <- <-; cbn [s_pcs]; by rewrite lookup_insert_ne).
          injection Hs as <- <-. cbn [s_pcs]. by rewrite lookup_delete_ne. }
        by eapply Hgo.
    - destruct (decide (s_pcs s = ∅)) as [He|]; [|done]. rewrite He, lookup_empty in Hpc. done.
  Qed.

  Lemma s_empty_bounded s t chs h s' :
    srun c s (Invoke t SEmpty :: chs) = Some (h, s') -> 2 <= s_steps t chs ->
    exists r, Res t (SBool r) ∈ h.
  Proof.
    intros Hr Hle. cbn [srun sstep] in Hr. destruct (s_pcs s !! t); [done|].
    cbn [sstart] in Hr. destruct (srun c (set_pc s t PcEmpty) chs) as [[h1 s1]|] eqn:Hr1;
      [|done]. injection Hr as <- <-.
    eapply (s_empty_run t chs _ PcEmpty 2) in Hr1 as [r Hin];
      [|cbn [set_pc s_pcs]; by rewrite lookup_insert|done|done].
    exists r. by right.
  Qed.
End stack.
