From stdpp Require Import gmap list numbers.
From Verif Require Import Lin PoolModel StackModel StackSpec StackObs StackWrapObs WrapPool StackWrap
  StackWrapMain StackPeak StackPeakProofs.

Set Default Proof Using "Type".

Section wrap.
  Context (c : cfg) (M : N) (Hc : c_tagmod c = Some M) (HM : (2 <= M)%N).
  Notation c0 := (nowrap c).

  Lemma wall_exec P Q s0 hist s k : swexec_all c M P Q s0 hist s k -> P s /\ swexec c M s0 hist s k.
  Proof. induction 1 as [|hist s k ch s' evs He [_ IH]]; split; try done; [constructor|by econstructor]. Qed.

  Lemma sim_all P Q ns hist s1 k :
    swexec_all c M P Q (mstate M (sinit c0 ns)) hist s1 k ->
    exists s, s1 = mstate M s /\ near s k /\
      sexec_all c0 (fun s => P (mstate M s)) (fun s => Q (mstate M s)) (sinit c0 ns) hist s.
  Proof using Hc HM.
    intros Hw. induction Hw as [HP|hist s1 k ch s1' evs Hw IH Hok HQ Hs Hb HP].
    - exists (sinit c0 ns). split; [done|]. split; [|by constructor].
      intros t pc l y Hpc. exfalso. unfold sinit in Hpc. by destruct (pool_init c0 None ns).
    - destruct IH as (s & -> & Hn & He). destruct (wall_exec _ _ _ _ _ _ Hw) as [_ Hw'].
      destruct (sim c M Hc HM _ _ _ _ Hw') as (Hk & _).
      destruct (sim_step c M Hc HM _ _ _ _ _ Hn Hk Hs) as (s' & -> & Hs0 & Hn').
      exists s'. split; [done|]. split; [done|]. by econstructor.
  Qed.

  Lemma all_mono (P P' : sstate -> Prop) (Q Q' : sstate -> schoice -> Prop) s0 hist s :
    (forall s, P s -> P' s) -> (forall s ch, Q s ch -> Q' s ch) ->
    sexec_all c0 P Q s0 hist s -> sexec_all c0 P' Q' s0 hist s.
  Proof. intros HP HQ. induction 1; [constructor; auto|econstructor; eauto]. Qed.

  Lemma in_use_mod s n : in_use s n -> in_use (mstate M s) n.
  Proof.
    intros [Hf|(t & pc & p & Hpc & Hr & Hf)]; [left|right].
    - by apply found_mod.
    - exists t, (mpc M pc), p. simpl. rewrite lookup_fmap, Hpc, roots_mod. split; [done|]. split; [done|].
      by apply found_mod.
  Qed.

  Lemma stack_peak_wrap ns B hist s k :
    c_throws c = false -> NoDup ns -> c_null c ∉ ns ->
    swexec_all c M (sneeds B) (srange_needs c B) (sinit c ns) hist s k ->
    size (s_heap (s_sh s)) <= length ns `max` B + sreserved hist.
  Proof using Hc HM.
    intros Hth Hnd Hnn Hw. rewrite (sinit_mod c M ltac:(lia)) in Hw.
    destruct (sim_all _ _ _ _ _ _ Hw) as (s' & -> & _ & He). rewrite heap_size.
    eapply (stack_peak c0 eq_refl); [done..|].
    eapply all_mono; [| |exact He].
    - intros s1 (l & Hl & HB). exists l. split; [intros n Hn; by apply Hl, in_use_mod|].
      simpl in HB. by rewrite map_size_fmap in HB.
    - intros s1 ch HQ. destruct ch as [t o|t sp addr thr|t o addrs thr]; try done.
      destruct o; try done. destruct HQ as (a & Ha & HB). exists a. split; [|done]. by apply (contents_mod c M).
  Qed.
End wrap.
