(** * The stack is lock-free also if compare-exchanges fail spuriously *)
From stdpp Require Import gmap list numbers.
From Verif Require Import Lin LiveSum PoolModel Chain PoolProofs StackModel StackSpec StackObs
  StackInv StackStep StackSafe StackObsProofs StackQuiet StackLive.

Set Default Proof Using "Type".

(** ** Vocabulary of the statement *)

(** Steps of threads and invocations of thread-safe operations, none of which
    pushes an empty range. *)
Definition s_sync (ch : schoice) : Prop :=
  match ch with
  | Unsync _ _ _ _ => False
  | Invoke _ o => nonempty_op o
  | Run _ _ _ _ => True
  end.
Definition s_fails (ch : schoice) : bool :=
  match ch with Run _ sp _ _ => sp | _ => false end.
Definition s_spurious (chs : list schoice) : nat := length (List.filter s_fails chs).

Section live.
  Context (c : cfg) (M : nat).
  Notation GI := (GI c).
  Notation tinv := (tinv c).
  Notation Inv := (Inv c).

  (** A spurious failure changes nothing but the thread's own attempt. *)
  Lemma tstep_spurious x pc addr thr x' pc' :
    tstep c x pc true addr thr = TGo x' pc' ->
    tstep c x pc false addr thr = TGo x' pc' \/
    (x' = x /\ s_work pc' <= s_work pc /\ s_elems pc' <= s_elems pc).
  Proof.
    destruct pc as [b v []|v n|top bot r|top bot old r|top bot old r|b vs|b vs k te []|b vs k te n
      |b vs k te n|cur| |old|old nxt|n|rev|rev old|n lst|n lst nxt|n k acc|n k acc|n k|n [] k|k| |r];
      cbn [tstep astep dstep]; try (intros H; left; exact H).
    all: rewrite decide_False by (by intros [? _]); intros [= <- <-]; right; rewrite ?set_heap_pool_id;
      (split; [done|]); unfold c_test, a_test; repeat case_decide; cbn; (split; lia).
  Qed.

  Context (Htag : c_tagmod c = None).

  Lemma run_spurious s g t addr thr s' evs n :
    Inv s g -> sstep c s (Run t true addr thr) = SNext s' evs -> (forall r, Res t r ∉ evs) ->
    size (s_pcs s) <= n -> elems s <= M ->
    size (s_pcs s') = size (s_pcs s) /\ elems s' <= elems s /\ pot M n s' <= pot M n s + (2 * M + 9).
  Proof using Htag.
    intros HI Hs Hev Hn HM. pose proof (sstep_ok c Htag _ _ (Run t true addr thr) I HI) as Hok.
    rewrite Hs in Hok. destruct Hok as (g' & [HG' HT'] & _). cbn [sstep] in Hs.
    destruct (s_pcs s !! t) as [pc|] eqn:Hpc; [|done].
    assert (Hgo : (exists r, pc = PcRet r) \/ exists x' pc', tstep c (s_sh s) pc true addr thr = TGo x' pc' /\
                    s' = SSt x' (<[t := pc']> (s_pcs s)) /\ evs = []).
    { destruct pc; try (right; destruct (tstep _ _ _ _ _ _); simplify_eq/=; by eauto); left; eauto. }
    destruct Hgo as [[r ->]|(x' & pc' & Hst & -> & ->)].
    { simplify_eq/=. exfalso. apply (Hev r). left. }
    destruct (tstep_spurious _ _ _ _ _ _ Hst) as [Hst0|(-> & Hw & He)].
    - assert (Hs0 : sstep c s (Run t false addr thr) = SNext (SSt x' (<[t := pc']> (s_pcs s))) []).
      { cbn [sstep]. rewrite Hpc. destruct pc; try (by rewrite Hst0). done. }
      destruct (run_dec c M Htag _ _ _ _ _ _ _ n HI Hs0 Hev Hn HM) as (H1 & H2 & H3).
      split; [exact H1|]. split; [exact H2|]. lia.
    - split; [apply map_size_insert_Some; eauto|]. specialize (HT' t). cbn [s_pcs s_sh] in HT', HG'.
      rewrite lookup_insert in HT'. apply (rk_le c M _ _ g') in HT'; [|done|unfold elems in HM; lia].
      unfold pot, energy, elems. cbn [s_pcs s_sh].
      pose proof (msum_insert s_work _ _ _ pc' Hpc) as Hmw.
      pose proof (msum_insert s_elems _ _ _ pc' Hpc) as Hme.
      pose proof (msum_insert (rk M (s_sh s)) _ _ _ pc' Hpc) as Hmr.
      split; [lia|]. set (l := 2 * M + 9) in *.
      assert (Hle : msum s_work (<[t := pc']> (s_pcs s)) + 2 * nlive (s_sh s) <=
                    msum s_work (s_pcs s) + 2 * nlive (s_sh s)) by lia.
      apply (Nat.mul_le_mono_r _ _ (n * l + 1)) in Hle. lia.
  Qed.

  Lemma spurious_run chs : forall s g h s' n,
    Inv s g -> Forall s_sync chs -> srun c s chs = Some (h, s') -> (forall t r, Res t r ∉ h) ->
    size (s_pcs s) + length (s_invoked chs) <= n ->
    elems s + sum_list (s_opelems <$> s_invoked chs) <= M ->
    length chs <= pot M n s + sum_list (s_opwork <$> s_invoked chs) * (n * (2 * M + 9) + 1)
                  + length (s_invoked chs) * (2 * M + 10) + s_spurious chs * (2 * M + 10).
  Proof using Htag.
    induction chs as [|ch chs IH]; intros s g h s' n HI Hf Hr Hn Hsz HM; [simpl; lia|].
    apply list.Forall_cons in Hf as [Hf1 Hf2]. cbn [srun] in Hr.
    destruct (sstep c s ch) as [s1 e1| |] eqn:Hs; [|done..].
    destruct (srun c s1 chs) as [[h2 s2]|] eqn:Hr2; [|done]. injection Hr as <- <-.
    assert (Hok : ch_ok ch) by (by destruct ch).
    pose proof (sstep_ok c Htag _ _ ch Hok HI) as Hst. rewrite Hs in Hst. destruct Hst as (g1 & HI1 & _).
    assert (Hn2 : forall t r, Res t r ∉ h2) by (intros t r ?; apply (Hn t r), elem_of_app; by right).
    assert (Hn1 : forall t r, Res t r ∉ e1) by (intros t r ?; apply (Hn t r), elem_of_app; by left).
    destruct ch as [t o|t sp addr thr|t o addrs thr]; simpl in Hf1; [| |done].
    - assert (Hi : s_invoked (Invoke t o :: chs) = o :: s_invoked chs) by done.
      assert (Hsp : s_spurious (Invoke t o :: chs) = s_spurious chs) by done. rewrite Hsp.
      rewrite Hi in Hsz, HM |- *.
      change (sum_list (?f <$> o :: ?l)) with (f o + sum_list (f <$> l)) in *.
      change (length (?a :: ?l)) with (S (length l)) in *.
      destruct (pot_invoke c M Htag _ _ _ _ _ _ n Hok HI Hs ltac:(lia)) as (Hsz1 & He1 & Hp).
      specialize (IH s1 g1 h2 s2 n HI1 Hf2 Hr2 Hn2 ltac:(lia) ltac:(lia)).
      set (S0 := sum_list (s_opwork <$> _)) in *. set (l := 2 * M + 9) in *.
      assert (2 * M + 10 = l + 1) as Hl by (unfold l; lia). rewrite Hl in *.
      set (X := s_spurious chs * _) in *. rewrite Nat.mul_add_distr_r. lia.
    - assert (Hi : s_invoked (Run t sp addr thr :: chs) = s_invoked chs) by done.
      rewrite Hi in Hsz, HM |- *. destruct sp.
      + assert (Hsp : s_spurious (Run t true addr thr :: chs) = S (s_spurious chs)) by done. rewrite Hsp.
        destruct (run_spurious _ _ _ _ _ _ _ n HI Hs ltac:(auto) ltac:(lia) ltac:(lia)) as (Hsz1 & He1 & Hp).
        specialize (IH s1 g1 h2 s2 n HI1 Hf2 Hr2 Hn2 ltac:(lia) ltac:(lia)). cbn [length].
        rewrite Nat.mul_succ_l. lia.
      + assert (Hsp : s_spurious (Run t false addr thr :: chs) = s_spurious chs) by done. rewrite Hsp.
        destruct (run_dec c M Htag _ _ _ _ _ _ _ n HI Hs ltac:(auto) ltac:(lia) ltac:(lia)) as (Hsz1 & He1 & Hp).
        specialize (IH s1 g1 h2 s2 n HI1 Hf2 Hr2 Hn2 ltac:(lia) ltac:(lia)). cbn [length]. lia.
  Qed.
End live.

Section main.
  Context (c : cfg) (Htag : c_tagmod c = None).

  Lemma spurious_main ns hist s chs h s' :
    sreach c ns hist s -> Forall s_sync chs -> srun c s chs = Some (h, s') -> (forall t r, Res t r ∉ h) ->
    length chs <= length (s_invoked chs) +
      s_bound (size (s_pcs s) + length (s_invoked chs))
              (2 * s_alive s + msum s_work (s_pcs s) + sum_list (s_opwork <$> s_invoked chs))
              (s_alive s + msum s_elems (s_pcs s) + sum_list (s_opelems <$> s_invoked chs)) +
      s_spurious chs *
        (2 * (s_alive s + msum s_elems (s_pcs s) + sum_list (s_opelems <$> s_invoked chs)) + 10).
  Proof using Htag.
    intros Hre Hf Hr Hn. destruct (sreach_ok c Htag _ _ _ Hre) as (g & HI & _).
    set (M := s_alive s + msum s_elems (s_pcs s) + sum_list (s_opelems <$> s_invoked chs)).
    pose proof (spurious_run c M Htag chs s g h s' _ HI Hf Hr Hn (le_n _) (le_n _)) as H.
    assert (HM : nlive (s_sh s) <= M) by (unfold M, s_alive, nlive; lia).
    pose proof (msum_rk c M _ _ HI HM) as Hrk. unfold s_bound. unfold pot, energy in H. cbv zeta.
    change (nlive (s_sh s)) with (s_alive s) in H.
    set (i := length (s_invoked chs)) in *. set (l := 2 * M + 9) in *.
    assert (2 * M + 10 = l + 1) as Hll by (unfold l; lia). rewrite Hll in *.
    set (w := msum s_work _) in *. set (v := sum_list _) in *. set (n := size _) in *.
    set (X := s_spurious chs * _) in *. lia.
  Qed.
End main.
