(** * Witnesses for PropQueueLeak.v *)
From stdpp Require Import gmap list numbers.
From Verif Require Import Lin PoolModel QueueModel QueueSpec QueueObs QueueLeakSpec QueueWrapObs QueueDemo QueueWitness
  WrapWitness.

Fixpoint qthrows (c : cfg) (s : qstate) (chs : list qchoice) : option nat :=
  match chs with
  | [] => Some 0
  | ch :: chs =>
      match qstep c s ch with
      | QNext s' _ => match qthrows c s' chs with Some k => Some (thrown s ch + k) | None => None end
      | _ => None
      end
  end.

Lemma qthrows_exec c s0 k0 h0 s chs k h s' :
  qexec_thrown c s0 k0 h0 s -> qthrows c s chs = Some k -> qrun c s chs = Some (h, s') ->
  qexec_thrown c s0 (k0 + k) (h0 ++ h) s'.
Proof.
  revert k0 h0 s k h. induction chs as [|ch chs IH]; intros k0 h0 s k h He; simpl.
  - intros [= <-] [= <- <-]. by rewrite Nat.add_0_r, app_nil_r.
  - destruct (qstep c s ch) as [s1 evs| |] eqn:Hs; try done.
    destruct (qthrows c s1 chs) as [k1|] eqn:Hk; [|done]. intros [= <-].
    destruct (qrun c s1 chs) as [[h1 s2]|] eqn:Hr; [|done]. intros [= <- <-].
    rewrite Nat.add_assoc, app_assoc. eapply IH; [by econstructor|done|done].
Qed.

Lemma qthrows_reach c ns addr chs h s k :
  qfrom c ns addr chs = Some (h, s) -> NoDup ns -> c_null c ∉ ns -> (ns <> [] \/ c_node_based c = true) ->
  (s0 ← qinit c ns addr; qthrows c s0 chs) = Some k -> qreach_thrown c ns k h s.
Proof.
  unfold qfrom. destruct (qinit c ns addr) as [s0|] eqn:Hi; [|done]. simpl. intros Hr H1 H2 H3 Hk.
  exists addr, s0. do 4 (split; [done|]). exact (qthrows_exec _ _ 0 [] _ _ _ _ _ (qt_nil _ _) Hk Hr).
Qed.

(** A throwing copy; a push; a pop whose conversion throws. *)
Definition schedK : list qchoice :=
  sched4 ++ whole 0 (Push true [8%N]) 12 ++
  Invoke 1 Pop false :: runs 1 4 ++ [Run 1 false None true; Run 1 false None false].
Definition histK : list qevent :=
  [Inv 0 (Push true [7%N]); Res 0 RExn; Inv 0 (Push true [8%N]); Res 0 (RBool true); Inv 1 Pop; Res 1 RExn].

(** On four nodes. *)
Lemma leak_demo :
  exists s, qreach_thrown demoT [1; 2; 3; 4]%N 1 histK s /\ quiescent s /\ qcontents demoT s [[8%N]] /\
    S (length [[8%N]]) + 1 < size (q_heap (q_sh s)).
Proof.
  assert (Hnd : NoDup [1; 2; 3; 4]%N) by (repeat (constructor; [set_solver|]); constructor).
  assert (Hnn : c_null demoT ∉ [1; 2; 3; 4]%N) by (simpl; set_solver).
  assert (Hne : [1; 2; 3; 4]%N <> []) by done.
  pose (chk := match qfrom demoT [1; 2; 3; 4]%N None schedK with
               | Some (h, s) => (h, contentsb demoT s, size (q_pcs s), size (q_heap (q_sh s)))
               | None => ([], None, 1, 0)
               end).
  assert (Hc : chk = (histK, Some [[8%N]], 0, 4)) by (vm_compute; reflexivity).
  assert (Hk : (s0 ← qinit demoT [1; 2; 3; 4]%N None; qthrows demoT s0 schedK) = Some 1)
    by (vm_compute; reflexivity).
  unfold chk in Hc. clear chk.
  destruct (qfrom demoT [1; 2; 3; 4]%N None schedK) as [[h s]|] eqn:Hf; [|discriminate Hc].
  injection Hc as -> H2 H3 H4. exists s. split.
  { exact (qthrows_reach _ _ _ _ _ _ _ Hf Hnd Hnn (or_introl Hne) Hk). }
  split; [by apply map_size_empty_inv|]. split; [by apply contentsb_ok|]. rewrite H4. simpl. lia.
Qed.

(** On three nodes the bound is reached: the next push fails, and one node is not
    given back. *)
Lemma leak_sharp :
  exists s, qreach_thrown demoT [1; 2; 3]%N 1 histK s /\ quiescent s /\ qcontents demoT s [[8%N]] /\
    S (length [[8%N]]) + 1 = size (q_heap (q_sh s)) /\ qdtor demoT (q_sh s) = Some [1%N; 3%N] /\
    exists s', qrun demoT s (Invoke 0 (Push true [9%N]) false :: replicate 3 (Run 0 false None false)) =
                 Some ([Inv 0 (Push true [9%N]); Res 0 (RBool false)], s').
Proof.
  assert (Hnd : NoDup [1; 2; 3]%N) by (repeat (constructor; [set_solver|]); constructor).
  assert (Hnn : c_null demoT ∉ [1; 2; 3]%N) by (simpl; set_solver).
  assert (Hne : [1; 2; 3]%N <> []) by done.
  pose (push := fun s =>
    qrun demoT s (Invoke 0 (Push true [9%N]) false :: replicate 3 (Run 0 false None false))).
  pose (chk := match qfrom demoT [1; 2; 3]%N None schedK with
               | Some (h, s) => (h, contentsb demoT s, size (q_pcs s), size (q_heap (q_sh s)),
                                 qdtor demoT (q_sh s), option_map fst (push s))
               | None => ([], None, 1, 0, None, None)
               end).
  assert (Hc : chk = (histK, Some [[8%N]], 0, 3, Some [1%N; 3%N],
                      Some [Inv 0 (Push true [9%N]); Res 0 (RBool false)])) by (vm_compute; reflexivity).
  assert (Hk : (s0 ← qinit demoT [1; 2; 3]%N None; qthrows demoT s0 schedK) = Some 1)
    by (vm_compute; reflexivity).
  unfold chk in Hc. clear chk.
  destruct (qfrom demoT [1; 2; 3]%N None schedK) as [[h s]|] eqn:Hf; [|discriminate Hc].
  destruct (push s) as [[h' s']|] eqn:Hr; [|discriminate Hc].
  injection Hc as -> H2 H3 H4 H5 ->. exists s. split.
  { exact (qthrows_reach _ _ _ _ _ _ _ Hf Hnd Hnn (or_introl Hne) Hk). }
  split; [by apply map_size_empty_inv|]. split; [by apply contentsb_ok|].
  split; [done|]. split; [done|]. by exists s'.
Qed.

(** The same after the 40 rounds of [qwsched], in which the tags (modulo 64) wrap
    around. *)
Lemma qwrun_thrown c b s0 chs : forall s age k hist m j h s',
  qwexec_thrown c b s0 k hist s m -> (forall t l, is_Some (q_pcs s !! t) -> m t l <= age t) ->
  qthrows c s chs = Some j -> qwrun c b s age chs = Some (h, s') ->
  exists m', qwexec_thrown c b s0 (k + j) (hist ++ h) s' m'.
Proof.
  induction chs as [|ch chs IH]; intros s age k hist m j h s' He Hk Hj Hr; cbn [qwrun qthrows] in Hr, Hj.
  - injection Hr as <- <-. injection Hj as <-. exists m. by rewrite app_nil_r, Nat.add_0_r.
  - destruct (qstep c s ch) as [s1 evs| |] eqn:Hs; [|discriminate Hr..]. cbv zeta in Hr.
    destruct (young b (older age (qinvoked ch)) (q_pcs s1)) eqn:Hy; [|discriminate Hr].
    destruct (qwrun c b s1 (older age (qinvoked ch)) chs) as [[h1 s2]|] eqn:Hq; [|discriminate Hr].
    destruct (qthrows c s1 chs) as [i1|] eqn:Hi; [|discriminate Hj].
    injection Hr as <- <-. injection Hj as <-.
    pose proof (qcount_older _ _ _ _ _ _ _ Hs Hk) as Hle.
    rewrite app_assoc, Nat.add_assoc. eapply IH; [|exact Hle|exact Hi|exact Hq].
    econstructor; [exact He|exact Hs|]. intros t l Hl. specialize (Hle t l Hl).
    pose proof (young_lt _ _ _ _ Hy Hl). lia.
Qed.

Definition qwcfgT : cfg := Cfg 0%N true (Some 64%N) true 1.
Definition qwshowK : option (list qevent * option (list val) * nat * nat * option nat) :=
  match qinit qwcfgT [1; 2; 3; 4]%N None with
  | Some s0 =>
      match qwrun qwcfgT 64 s0 (fun _ => 0) (qwsched ++ schedK) with
      | Some (h, s) => Some (h, contentsb qwcfgT s, size (q_pcs s), size (q_heap (q_sh s)),
                             qthrows qwcfgT s0 (qwsched ++ schedK))
      | None => None
      end
  | None => None
  end.
Lemma wleak_demo :
  exists s, qwreach_thrown qwcfgT 64 [1; 2; 3; 4]%N 1 (qwhist ++ histK) s /\ quiescent s /\
    qcontents qwcfgT s [[8%N]] /\ S (length [[8%N]]) + 1 < size (q_heap (q_sh s)).
Proof.
  assert (Hnd : NoDup [1; 2; 3; 4]%N) by (repeat (constructor; [set_solver|]); constructor).
  assert (Hnn : c_null qwcfgT ∉ [1; 2; 3; 4]%N) by (simpl; set_solver).
  assert (Hne : [1; 2; 3; 4]%N <> []) by done.
  assert (Hc : qwshowK = Some (qwhist ++ histK, Some [[8%N]], 0, 4, Some 1)) by (vm_compute; reflexivity).
  unfold qwshowK in Hc.
  destruct (qinit qwcfgT [1; 2; 3; 4]%N None) as [s0|] eqn:Hi; [|discriminate Hc].
  destruct (qwrun qwcfgT 64 s0 (fun _ => 0) (qwsched ++ schedK)) as [[h s]|] eqn:Hf; [|discriminate Hc].
  injection Hc as H1 H2 H3 H4 H5. subst h.
  destruct (qwrun_thrown qwcfgT 64 s0 (qwsched ++ schedK) s0 (fun _ => 0) 0 [] (fun _ _ => 0) 1
              (qwhist ++ histK) s) as [m Hm]; [constructor|intros; lia|exact H5|exact Hf|].
  exists s. split.
  { exists None, s0, m. split; [exact Hnd|]. split; [exact Hnn|]. split; [by left|]. by split. }
  split; [by apply map_size_empty_inv|]. split; [by apply contentsb_ok|]. rewrite H4. simpl. lia.
Qed.
