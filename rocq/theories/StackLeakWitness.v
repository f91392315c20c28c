(** * Witnesses for PropStackLeak.v *)
From stdpp Require Import gmap list numbers.
From Verif Require Import Lin PoolModel StackModel StackSpec StackObs StackLeakSpec StackWrapObs StackDemo StackWitness
  WrapWitness WrapMainWitness.

Fixpoint sthrows (c : cfg) (s : sstate) (chs : list schoice) : option nat :=
  match chs with
  | [] => Some 0
  | ch :: chs =>
      match thrown s ch, sstep c s ch with
      | Some j, SNext s' _ => match sthrows c s' chs with Some k => Some (j + k) | None => None end
      | _, _ => None
      end
  end.

Lemma sthrows_exec c s0 k0 h0 s chs k h s' :
  sexec_thrown c s0 k0 h0 s -> sthrows c s chs = Some k -> srun c s chs = Some (h, s') ->
  sexec_thrown c s0 (k0 + k) (h0 ++ h) s'.
Proof.
  revert k0 h0 s k h. induction chs as [|ch chs IH]; intros k0 h0 s k h He; simpl.
  - intros [= <-] [= <- <-]. by rewrite Nat.add_0_r, app_nil_r.
  - destruct (thrown s ch) as [j|] eqn:Ht; [|done]. destruct (sstep c s ch) as [s1 evs| |] eqn:Hs; try done.
    destruct (sthrows c s1 chs) as [k1|] eqn:Hk; [|done]. intros [= <-].
    destruct (srun c s1 chs) as [[h1 s2]|] eqn:Hr; [|done]. intros [= <- <-].
    rewrite Nat.add_assoc, app_assoc. eapply IH; [by econstructor|done|done].
Qed.

Lemma sthrows_init c s0 chs k h s :
  sthrows c s0 chs = Some k -> srun c s0 chs = Some (h, s) -> sexec_thrown c s0 k h s.
Proof. intros Hk Hr. exact (sthrows_exec c s0 0 [] s0 chs k h s (st_nil c s0) Hk Hr). Qed.

Definition schedK : list schoice := schedL ++ Invoke 0 (SPush true 8%N) :: sruns 0 8.
Definition histK : list sevent :=
  [Inv 0 (SPush true 7%N); Res 0 (SExn []); Inv 0 (SPush true 8%N); Res 0 (SBool true)].

(** A throwing copy, then a push that succeeds, on three nodes. *)
Lemma leak_demo :
  exists s, sexec_thrown sdemoT (sinit sdemoT [1; 2; 3]%N) 1 histK s /\ hist_ok histK /\ quiescent s /\
    scontents sdemoT s [8%N] /\ length [8%N] + 1 < size (s_heap (s_sh s)).
Proof.
  pose (chk := match srun sdemoT (sinit sdemoT [1; 2; 3]%N) schedK with
               | Some (h, s) => (h, contentsb sdemoT s, size (s_pcs s), size (s_heap (s_sh s)))
               | None => ([], None, 1, 0)
               end).
  assert (Hc : chk = (histK, Some [8%N], 0, 3)) by (vm_compute; reflexivity).
  assert (Hk : sthrows sdemoT (sinit sdemoT [1; 2; 3]%N) schedK = Some 1) by (vm_compute; reflexivity).
  unfold chk in Hc. clear chk.
  destruct (srun sdemoT (sinit sdemoT [1; 2; 3]%N) schedK) as [[h s]|] eqn:Hf; [|discriminate Hc].
  injection Hc as -> H2 H3 H4. exists s.
  split; [exact (sthrows_init _ _ _ _ _ _ Hk Hf)|].
  split; [by apply hist_okb_ok|]. split; [by apply map_size_empty_inv|]. split; [by apply contentsb_ok|].
  rewrite H4. simpl. lia.
Qed.

(** On two nodes the bound is reached: the next push fails, and one node is not
    given back. *)
Lemma leak_sharp :
  exists s, sexec_thrown sdemoT (sinit sdemoT [1; 2]%N) 1 histK s /\ hist_ok histK /\ quiescent s /\
    scontents sdemoT s [8%N] /\ length [8%N] + 1 = size (s_heap (s_sh s)) /\
    sdtor sdemoT (s_sh s) = Some ([8%N], [1%N]) /\
    exists s', srun sdemoT s (Invoke 0 (SPush true 9%N) :: replicate 3 (Run 0 false None false)) =
                 Some ([Inv 0 (SPush true 9%N); Res 0 (SBool false)], s').
Proof.
  pose (push := fun s => srun sdemoT s (Invoke 0 (SPush true 9%N) :: replicate 3 (Run 0 false None false))).
  pose (chk := match srun sdemoT (sinit sdemoT [1; 2]%N) schedK with
               | Some (h, s) => (h, contentsb sdemoT s, size (s_pcs s), size (s_heap (s_sh s)),
                                 sdtor sdemoT (s_sh s), option_map fst (push s))
               | None => ([], None, 1, 0, None, None)
               end).
  assert (Hc : chk = (histK, Some [8%N], 0, 2, Some ([8%N], [1%N]),
                      Some [Inv 0 (SPush true 9%N); Res 0 (SBool false)])) by (vm_compute; reflexivity).
  assert (Hk : sthrows sdemoT (sinit sdemoT [1; 2]%N) schedK = Some 1) by (vm_compute; reflexivity).
  unfold chk in Hc. clear chk.
  destruct (srun sdemoT (sinit sdemoT [1; 2]%N) schedK) as [[h s]|] eqn:Hf; [|discriminate Hc].
  destruct (push s) as [[h' s']|] eqn:Hr; [|discriminate Hc].
  injection Hc as -> H2 H3 H4 H5 ->. exists s.
  split; [exact (sthrows_init _ _ _ _ _ _ Hk Hf)|].
  split; [by apply hist_okb_ok|]. split; [by apply map_size_empty_inv|]. split; [by apply contentsb_ok|].
  split; [done|]. split; [done|]. by exists s'.
Qed.

(** The same after the 40 rounds of [swsched], in which the tags (modulo 32) wrap
    around. *)
Lemma swrun_thrown c b s0 chs : forall s age k hist m j h s',
  swexec_thrown c b s0 k hist s m -> (forall t l, is_Some (s_pcs s !! t) -> m t l <= age t) ->
  sthrows c s chs = Some j -> swrun c b s age chs = Some (h, s') ->
  exists m', swexec_thrown c b s0 (k + j) (hist ++ h) s' m'.
Proof.
  induction chs as [|ch chs IH]; intros s age k hist m j h s' He Hk Hj Hr; cbn [swrun sthrows] in Hr, Hj.
  - injection Hr as <- <-. injection Hj as <-. exists m. by rewrite app_nil_r, Nat.add_0_r.
  - destruct (thrown s ch) as [i|] eqn:Ht; [|discriminate Hj].
    destruct (sstep c s ch) as [s1 evs| |] eqn:Hs; [|discriminate Hr..]. cbv zeta in Hr.
    destruct (young b (older age (sinvoked ch)) (s_pcs s1)) eqn:Hy; [|discriminate Hr].
    destruct (swrun c b s1 (older age (sinvoked ch)) chs) as [[h1 s2]|] eqn:Hq; [|discriminate Hr].
    destruct (sthrows c s1 chs) as [i1|] eqn:Hi; [|discriminate Hj].
    injection Hr as <- <-. injection Hj as <-.
    pose proof (scount_older _ _ _ _ _ _ _ Hs Hk) as Hle.
    rewrite app_assoc, Nat.add_assoc. eapply IH; [|exact Hle|exact Hi|exact Hq].
    econstructor; [exact He|exact Ht|exact Hs|]. intros t l Hl. specialize (Hle t l Hl).
    pose proof (young_lt _ _ _ _ Hy Hl). lia.
Qed.

Definition swshowK : option (list sevent * option (list N) * nat * nat * bool) :=
  match swrun swcfgT 32 (sinit swcfgT [1; 2; 3]%N) (fun _ => 0) (swsched ++ schedK) with
  | Some (h, s) => Some (h, contentsb swcfgT s, size (s_pcs s), size (s_heap (s_sh s)), hist_okb h)
  | None => None
  end.
Lemma wleak_demo :
  exists s m, swexec_thrown swcfgT 32 (sinit swcfgT [1; 2; 3]%N) 1 (swhist ++ histK) s m /\
    hist_ok (swhist ++ histK) /\ quiescent s /\
    scontents swcfgT s [8%N] /\ length [8%N] + 1 < size (s_heap (s_sh s)).
Proof.
  assert (Hc : swshowK = Some (swhist ++ histK, Some [8%N], 0, 3, true)) by (vm_compute; reflexivity).
  assert (Hk : sthrows swcfgT (sinit swcfgT [1; 2; 3]%N) (swsched ++ schedK) = Some 1)
    by (vm_compute; reflexivity).
  unfold swshowK in Hc.
  destruct (swrun swcfgT 32 (sinit swcfgT [1; 2; 3]%N) (fun _ => 0) (swsched ++ schedK)) as [[h s]|] eqn:Hf;
    [|discriminate Hc].
  injection Hc as H1 H2 H3 H4 H5. subst h.
  destruct (swrun_thrown swcfgT 32 (sinit swcfgT [1; 2; 3]%N) (swsched ++ schedK) (sinit swcfgT [1; 2; 3]%N)
              (fun _ => 0) 0 [] (fun _ _ => 0) 1 (swhist ++ histK) s) as [m Hm];
    [constructor|intros; lia|exact Hk|exact Hf|].
  exists s, m. split; [exact Hm|]. split; [by apply hist_okb_ok|].
  split; [by apply map_size_empty_inv|]. split; [by apply contentsb_ok|]. rewrite H4. simpl. lia.
Qed.
