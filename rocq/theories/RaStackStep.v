(** * Every step of the stack on release/acquire memory preserves the invariant *)
From stdpp Require Import gmap list numbers.
From Verif Require Import Lin PoolModel Chain PoolProofs StackModel StackSpec StackObs StackInv StackStep
  RaMem RaFacts RaStackModel RaStackInv RaStackKeep.

Set Default Proof Using "Type".

(** Calls that only look at [tos]; the flag says whether they found null. *)
Inductive looked : sop -> sret -> bool -> Prop :=
  | lk_pop : looked SPop (SGot None) true
  | lk_all rev : looked (SAll rev) (SCount 0 []) true
  | lk_empty b : looked SEmpty (SBool b) b.

Section step.
  Context (c : cfg).
  Notation null := (c_null c).
  Notation spec := (sspec (c_node_based c) (c_throws c)).
  Notation GI := (GI c).
  Notation tinv := (tinv c).
  Notation RI := (RI c).
  Notation tv := (tv c).
  Notation saccess := (saccess c true).

  (** How a step changes the state of its call, the contents and [tos]. *)
  Inductive kind (t : nat) (x : sshared) (w : wmem) (g : ghost) (x' : sshared) (w' : wmem) (g' : ghost)
      (V' : view) : Prop :=
    | k_none :
        g_ph g' !! t = g_ph g !! t -> g_a g' = g_a g -> tos_hist x' w' = tos_hist x w -> kind t x w g x' w' g' V'
    | k_neutral o r :
        pend g t o -> fin g' t o r -> (forall a, spec a o r a) -> g_a g' = g_a g ->
        tos_hist x' w' = tos_hist x w -> kind t x w g x' w' g' V'
    | k_eff o r :
        pend g t o -> fin g' t o r -> spec (g_a g) o r (g_a g') ->
        tos_hist x' w' = tos_hist x w ++ [(s_tos x', V')] -> V' (LRoot 1) = length (tos_hist x w) ->
        vle (w_tosv w) V' -> kind t x w g x' w' g' V'.

  Definition look (t : nat) (x : sshared) (w : wmem) (g : ghost) (V V' : view) (pc : spc) : Prop :=
    exists o r k v mv, pc = PcRet r /\ pend g t o /\ owns t g [] /\ tos_hist x w !! k = Some (v, mv) /\
      V (LRoot 1) <= k <= V' (LRoot 1) /\ vle mv V' /\ looked o r (bool_decide (v.1 = null)).

  Definition rok (t : nat) x w g vw (out : rout) : Prop :=
    match out with
    | RGRace | RGUB => False
    | RGDisabled => True
    | RGo x' w' V' pc' =>
        exists g', GI x' g' /\ RI x' w' g' (set_view vw t V') /\ vle (vw t) V' /\
          (forall u, u <> t -> rely u x g x' g') /\
          (forall u pc, u <> t -> tinv u pc x g -> tv x w (vw u) pc -> tv x' w' (vw u) pc) /\
          ((tinv t pc' x' g' /\ tv x' w' V' pc' /\ kind t x w g x' w' g' V') \/
           (x' = x /\ w' = w /\ g' = g /\ look t x w g (vw t) V' pc'))
    end.

  Arguments rok : simpl never.

  (** ** What a step of the program does to the memory *)

  Lemma tstep_roots x pc sp addr x' pc' :
    match saccess pc with XCas _ _ => False | _ => True end ->
    tstep c x pc sp addr false = TGo x' pc' -> s_tos x' = s_tos x /\ s_pool x' = s_pool x.
  Proof.
    intros Ha Hs.
    destruct pc as [b v a|v n|top bot r|top bot old r|top bot old r|b vs|b vs k te a|b vs k te n
      |b vs k te n|cur| |old|old nxt|n|rev|rev old|n lst|n lst nxt|n k acc|n k acc|n k|n d k|k| |r];
      simpl in Hs, Ha; try done; try (by repeat case_match; simplify_eq/=).
    - destruct a as [|old|old nxt]; simpl in Hs, Ha; [by simplify_eq/=| |done].
      repeat case_match; simplify_eq/=; done.
    - destruct a as [|old|old nxt]; simpl in Hs, Ha; [by simplify_eq/=| |done].
      repeat case_match; simplify_eq/=; done.
    - destruct d as [|old|old]; simpl in Hs, Ha; [by simplify_eq/=| |done].
      repeat case_match; simplify_eq/=; done.
  Qed.

  Lemma tstep_cas_tos x pc old addr x' pc' :
    saccess pc = XCas RTos old -> s_tos x = old ->
    tstep c x pc false addr false = TGo x' pc' -> s_heap x' = s_heap x /\ s_pool x' = s_pool x.
  Proof.
    intros Ha Ho Hs.
    destruct pc as [b v a|v n|top bot r|top bot old' r|top bot old' r|b vs|b vs k te a|b vs k te n
      |b vs k te n|cur| |old'|old' nxt|n|rev|rev old'|n lst|n lst nxt|n k acc|n k acc|n k|n d k|k| |r];
      simpl in Hs, Ha; try done; try (destruct a; simpl in Ha; repeat case_decide; done);
      try (destruct d; done); case_decide; simplify_eq/=; done.
  Qed.

  Lemma tstep_cas_pool x pc old addr x' pc' :
    saccess pc = XCas RPool old -> s_pool x = old ->
    tstep c x pc false addr false = TGo x' pc' -> s_heap x' = s_heap x /\ s_tos x' = s_tos x.
  Proof.
    intros Ha Ho Hs.
    destruct pc as [b v a|v n|top bot r|top bot old' r|top bot old' r|b vs|b vs k te a|b vs k te n
      |b vs k te n|cur| |old'|old' nxt|n|rev|rev old'|n lst|n lst nxt|n k acc|n k acc|n k|n d k|k| |r];
      simpl in Hs, Ha; try done.
    - destruct a as [|old'|old' nxt]; simpl in Ha, Hs; [done|by case_decide|].
      case_decide; simplify_eq/=; done.
    - destruct a as [|old'|old' nxt]; simpl in Ha, Hs; [done|by case_decide|].
      case_decide; simplify_eq/=; done.
    - destruct d as [|old'|old']; simpl in Ha, Hs; [done|done|].
      case_decide; simplify_eq/=; done.
  Qed.

  (** Nodes that are written to, and elements that are accessed, belong to the thread. *)
  Lemma access_own t pc x g n :
    tinv t pc x g -> saccess pc = XWrite n \/ saccess pc = XData n -> g_own g !! n = Some (OT t).
  Proof.
    intros HT Ha.
    destruct pc as [b v a|v n'|top bot r|top bot old r|top bot old r|b vs|b vs k te a|b vs k te n'
      |b vs k te n'|cur| |old|old nxt|n'|rev|rev old|n' lst|n' lst nxt|n' k acc|n' k acc|n' k|n' d k|k| |r];
      simpl in HT, Ha; try (by destruct Ha); try (destruct a; simpl in Ha; repeat case_decide; by destruct Ha).
    - assert (n' = n) as -> by (destruct Ha; congruence). destruct HT as (b & _ & Ho & _).
      eapply owns_in; [done|left].
    - assert (bot = n) as -> by (destruct Ha; congruence). destruct HT as (o & L & vs & _ & _ & Ho & _).
      eapply owns_in; [done|]. apply elem_of_app. right. left.
    - assert (n' = n) as -> by (destruct Ha; congruence). destruct HT as (_ & _ & _ & _ & L & Ho & _).
      eapply owns_in; [done|left].
    - assert (n' = n) as -> by (destruct Ha; congruence). destruct HT as (_ & _ & _ & L & Ho & _).
      eapply owns_in; [done|left].
    - assert (n' = n) as -> by (destruct Ha; congruence). destruct HT as (Ho & _).
      eapply owns_in; [done|left].
    - assert (n' = n) as -> by (destruct Ha; congruence). destruct HT as (L1 & L2 & vs1 & v & vs2 & Ho & _).
      eapply owns_in; [done|]. apply elem_of_app. right. left.
    - assert (n' = n) as -> by (destruct Ha; congruence). destruct HT as (L & rest & Ho & _).
      eapply owns_in; [done|left].
    - assert (n' = n) as -> by (destruct Ha; congruence). destruct HT as (L & v & Ho & _).
      eapply owns_in; [done|left].
    - assert (n' = n) as ->.
      { destruct d; simpl in Ha; destruct Ha; congruence. }
      destruct HT as (L & Ho & _). eapply owns_in; [done|left].
  Qed.

  (** ** Calls that finish without touching [tos] *)

  Lemma neutral_res a o r a' :
    spec a o r a' ->
    (exists b v, o = SPush b v /\ r = SBool false) \/ r = SExn [] \/ r = SUnit \/ r = SIter 0 ->
    (forall a, spec a o r a).
  Proof.
    intros Hs Hr a0.
    destruct Hr as [(b & v & -> & ->)|[ -> | [ -> | -> ]]]; inversion Hs; subst; try (by constructor);
      try done.
    - destruct vs; [|done]. by apply (ss_urange _ _ a0 []).
  Qed.

  Lemma step_neutral t x g x' g' pc pc' sp addr o r :
    match saccess pc with XCas RTos _ | XLoad _ _ => False | _ => True end -> (forall r, pc <> PcRet r) ->
    tinv t pc x g -> tstep c x pc sp addr false = TGo x' pc' -> tinv t pc' x' g' ->
    pend g t o -> fin g' t o r -> spec (g_a g) o r (g_a g') -> forall a, spec a o r a.
  Proof.
    intros Ha Hnr HT Hs HT' Hp Hf Hsp.
    assert (Cf : forall o' r', fin g t o' r' -> False) by (unfold fin, pend in *; congruence).
    assert (Cp : forall o', pend g' t o' -> False) by (unfold fin, pend in *; congruence).
    assert (Po : forall o', pend g t o' -> o = o') by (unfold fin, pend in *; congruence).
    assert (Fr : forall o' r', fin g' t o' r' -> r = r') by (unfold fin, pend in *; congruence).
    assert (Cl : forall top bot r x, linking c t top bot r x g' -> False).
    { intros top bot r0 x0 (o' & L & vs & Hp' & _). by eapply Cp. }
    assert (Cr : rolling c t g' -> False). { intros (b & vs & Hp' & _). by eapply Cp. }
    assert (Cv : forall k acc rest, visiting t g k acc rest -> False).
    { intros k acc rest (_ & rev & Hf'). by eapply Cf. }
    assert (Rt : forall r', pc' = PcRet r' -> r = r').
    { intros r' ->. destruct HT' as [_ [o' Hf']]. by eapply Fr. }
    assert (Ck : forall te, pc' = r_catch te -> forall a, spec a o r a).
    { intros [te|] ->; simpl in HT'; [by destruct (Cr (proj1 HT'))|].
      eapply neutral_res; [done|]. right. left. by apply Rt. }
    destruct pc as [b v a|v n|top bot r0|top bot old r0|top bot old r0|b vs|b vs k te a|b vs k te n
      |b vs k te n|cur| |old|old nxt|n|rev|rev old|n lst|n lst nxt|n k acc|n k acc|n k|n d k|k| |r0];
      simpl in Hs, Ha; try done.
    - (* PcAlloc *)
      destruct HT as (Hp' & _). apply Po in Hp'. subst o.
      destruct (astep c None b (s_heap x) (s_pool x) a sp addr); simplify_eq/=.
      + destruct HT' as (Hp' & _). by destruct (Cp _ Hp').
      + destruct HT' as (b' & Hp' & _). by destruct (Cp _ Hp').
      + eapply neutral_res; [done|]. left. rewrite (Rt _ eq_refl). eauto.
      + eapply neutral_res; [done|]. right. left. by apply Rt.
    - (* PcCons *)
      repeat case_match; simplify_eq/=. by destruct (Cl _ _ _ _ HT').
    - repeat case_match; simplify_eq/=. by destruct (Cl _ _ _ _ (proj1 HT')).
    - destruct vs; simplify_eq/=. by destruct (Cp _ (proj1 HT')).
    - (* PcRAlloc *)
      destruct (astep c None b (s_heap x) (s_pool x) a sp addr); simplify_eq/=.
      + by destruct (Cp _ (proj1 HT')).
      + by destruct (Cp _ (proj1 HT')).
      + destruct te as [te|]; simpl in HT'; [by destruct (Cl _ _ _ _ HT')|].
        eapply neutral_res; [done|]. right. right. right. by apply Rt.
      + by eapply Ck.
    - repeat case_match; simplify_eq/=. by destruct (Cp _ (proj1 HT')).
    - repeat case_match; simplify_eq/=; unfold r_next in HT'; case_decide; simpl in HT';
        solve [by destruct (Cp _ (proj1 HT'))|by destruct (Cl _ _ _ _ HT')].
    - repeat case_match; simplify_eq/=. destruct HT' as (L & v & _ & _ & (vs & _ & Hr)). by destruct (Cr Hr).
    - repeat case_match; simplify_eq/=. by destruct (Cp _ (proj1 HT')).
    - destruct HT as (_ & v & _ & Hf'). by destruct (Cf _ _ Hf').
    - destruct HT as (L1 & L2 & vs1 & vs2 & _ & _ & _ & Hv). by destruct (Cv _ _ _ Hv).
    - destruct HT as (L1 & L2 & vs1 & v & vs2 & _ & _ & _ & _ & Hv). by destruct (Cv _ _ _ Hv).
    - destruct HT as (L & rest & _ & _ & Hv). by destruct (Cv _ _ _ Hv).
    - destruct HT as (L & v & rest & _ & _ & Hv). by destruct (Cv _ _ _ Hv).
    - (* PcDestroy *)
      destruct HT as (L & v & _ & _ & Hk). repeat case_match; simplify_eq/=.
      destruct HT' as (L' & _ & _ & _ & Hk'). destruct k as [r0|j|cur|nxt k acc]; simpl in Hk, Hk'.
      + destruct Hk as (_ & o' & Hf'). by destruct (Cf _ _ Hf').
      + destruct Hk' as (_ & m & Hp'). by destruct (Cp _ Hp').
      + destruct Hk' as (vs & _ & Hr). by destruct (Cr Hr).
      + destruct Hk as (rest & _ & Hv). by destruct (Cv _ _ _ Hv).
    - (* PcDealloc *)
      destruct HT as (L & _ & _ & _ & Hk).
      assert (Hc : forall d', pc' = PcDealloc n d' k -> forall a, spec a o r a).
      { intros d' ->. destruct HT' as (L' & _ & _ & _ & Hk').
        destruct k as [r0|j|cur|nxt k acc]; simpl in Hk, Hk'.
        + destruct Hk as (_ & o' & Hf'). by destruct (Cf _ _ Hf').
        + destruct Hk' as (_ & m & Hp'). by destruct (Cp _ Hp').
        + destruct Hk' as (vs & _ & Hr). by destruct (Cr Hr).
        + destruct Hk as (rest & _ & Hv). by destruct (Cv _ _ _ Hv). }
      assert (Hkg : pc' = kgo c k -> forall a, spec a o r a).
      { intros ->. destruct k as [r0|j|cur|nxt k acc]; simpl in Hk, HT'.
        + destruct Hk as (_ & o' & Hf'). by destruct (Cf _ _ Hf').
        + destruct HT' as (_ & m & Hp'). by destruct (Cp _ Hp').
        + simpl in Rt. case_decide; simpl in HT'.
          * eapply neutral_res; [done|]. right. left. by apply Rt.
          * by destruct (Cr (proj1 HT')).
        + destruct Hk as (rest & _ & Hv). by destruct (Cv _ _ _ Hv). }
      destruct (dstep n (s_heap x) (s_pool x) d sp); simplify_eq/=.
      + by eapply Hc.
      + by apply Hkg.
    - (* PcReserve *)
      destruct k as [|k]; simplify_eq/=.
      + eapply neutral_res; [done|]. right. right. left. by apply Rt.
      + destruct addr as [n|]; simplify_eq/=.
        * case_decide; simplify_eq/=. destruct HT' as (L & _ & _ & _ & (_ & m & Hp')). by destruct (Cp _ Hp').
        * eapply neutral_res; [done|]. right. left. by apply Rt.
  Qed.

  Lemma tstep_read x pc n sp addr x' pc' :
    saccess pc = XRead n -> tstep c x pc sp addr false = TGo x' pc' -> x' = x.
  Proof.
    intros Ha Hs.
    destruct pc as [b v a|v n'|top bot r|top bot old r|top bot old r|b vs|b vs k te a|b vs k te n'
      |b vs k te n'|cur| |old|old nxt|n'|rev|rev old|n' lst|n' lst nxt|n' k acc|n' k acc|n' k|n' d k|k| |r];
      simpl in Hs, Ha; try done; try (by repeat case_match; simplify_eq/=).
    - destruct a as [|old|old nxt]; simpl in Hs, Ha; [done| |done].
      case_decide; [done|]. destruct (s_heap x !! old.1); simplify_eq/=; by destruct x.
    - destruct a as [|old|old nxt]; simpl in Hs, Ha; [done| |done].
      case_decide; [done|]. destruct (s_heap x !! old.1); simplify_eq/=; by destruct x.
    - by destruct d.
  Qed.

  (** Program counters that need to have seen something are reached by loads and
      by failed compare-exchange operations only. *)
  Lemma tstep_tv x pc sp addr x' pc' :
    match saccess pc with XLoad _ _ => False | XCas RTos old => s_tos x = old /\ sp = false
                        | XCas RPool old => s_pool x = old /\ sp = false | _ => True end ->
    tstep c x pc sp addr false = TGo x' pc' -> forall y w V, tv y w V pc'.
  Proof.
    intros Ha Hs y w V.
    assert (Hca : forall te, tv y w V (r_catch te)) by (by intros []).
    destruct pc as [b v a|v n'|top bot r|top bot old r|top bot old r|b vs|b vs k te a|b vs k te n'
      |b vs k te n'|cur| |old|old nxt|n'|rev|rev old|n' lst|n' lst nxt|n' k acc|n' k acc|n' k|n' d k|k| |r];
      simpl in Hs, Ha; try done; try (by repeat case_match; simplify_eq/=).
    - destruct a as [|old|old nxt]; simpl in Hs, Ha; [done| |].
      + repeat case_match; by simplify_eq/=.
      + destruct Ha as [<- ->]. rewrite decide_True in Hs by done. by simplify_eq/=.
    - destruct a as [|old|old nxt]; simpl in Hs, Ha; [done| |].
      + repeat case_match; simplify_eq/=; try done; by destruct te.
      + destruct Ha as [<- ->]. rewrite decide_True in Hs by done. by simplify_eq/=.
    - case_match; simplify_eq/=. unfold r_next. by case_decide.
    - destruct Ha as [<- ->]. rewrite decide_True in Hs by done. by simplify_eq/=.
    - destruct Ha as [<- ->]. rewrite decide_True in Hs by done. simplify_eq/=. by destruct rev.
    - assert (Hk : tv y w V (kgo c k)) by (destruct k; simpl; try done; by case_decide).
      destruct (dstep n' (s_heap x) (s_pool x) d sp); by simplify_eq/=.
  Qed.

  Context (Htag : c_tagmod c = None) (Hth : c_throws c = false).

  Lemma visiting_relabel rev vs r' :
    (forall a a', spec a (SAll rev) (SCount (length vs) vs) a' -> spec a (SAll rev) r' a') ->
    r' = SCount (length vs) vs.
  Proof using Hth.
    intros H. assert (E : visit_order rev (visit_order rev vs) = vs).
    { destruct rev; simpl; [apply reverse_involutive|done]. }
    assert (El : length (visit_order rev vs) = length vs).
    { destruct rev; simpl; [apply reverse_length|done]. }
    pose proof (ss_all (c_node_based c) (c_throws c) (visit_order rev vs) rev) as Hs. rewrite E, El in Hs.
    apply H in Hs. inversion Hs; subst; [by rewrite E, El|congruence].
  Qed.

  Lemma pop_relabel v r' :
    (forall a a', spec a SPop (SGot (Some v)) a' -> spec a SPop r' a') -> r' = SGot (Some v).
  Proof using Hth.
    intros H. pose proof (H [v] [] (ss_pop _ _ [] v)) as Hs. inversion Hs; subst; [done|congruence].
  Qed.

  (** Without exceptions no result is changed later. *)
  Lemma step_norelabel t x g x' g' pc pc' sp addr o r r' :
    (forall r, pc <> PcRet r) -> tinv t pc x g -> tstep c x pc sp addr false = TGo x' pc' -> tinv t pc' x' g' ->
    fin g t o r -> fin g' t o r' -> (forall a a', spec a o r a' -> spec a o r' a') -> r' = r.
  Proof using Hth.
    intros Hnr HT Hs HT' Hf Hf' Hre.
    assert (Cp : forall o', pend g t o' -> False) by (unfold fin, pend in *; congruence).
    assert (Ff : forall o1 r1, fin g t o1 r1 -> o = o1 /\ r = r1) by (unfold fin in *; intros; split; congruence).
    assert (Ff' : forall o1 r1, fin g' t o1 r1 -> r' = r1) by (unfold fin in *; congruence).
    assert (Cl : forall top bot r x, linking c t top bot r x g -> False).
    { intros top bot r0 x0 (o' & L & vs & Hp' & _). by eapply Cp. }
    assert (Cr : rolling c t g -> False). { intros (b & vs & Hp' & _). by eapply Cp. }
    assert (Cv : forall k acc rest, visiting t g k acc rest -> r' = r).
    { intros k acc rest (_ & rev & Hf0). apply Ff in Hf0 as [-> ->]. by eapply visiting_relabel. }
    destruct pc as [b v a|v n|top bot r0|top bot old r0|top bot old r0|b vs|b vs k te a|b vs k te n
      |b vs k te n|cur| |old|old nxt|n|rev|rev old|n lst|n lst nxt|n k acc|n k acc|n k|n d k|k| |r0];
      simpl in HT; try (exfalso; by eapply Cp, HT).
    - exfalso. destruct HT as (b & Hp & _). by eapply Cp.
    - exfalso. by eapply Cl, HT.
    - exfalso. by eapply Cl, HT.
    - exfalso. by eapply Cl, HT.
    - exfalso. by eapply Cr, HT.
    - destruct HT as (_ & v & _ & Hf0). apply Ff in Hf0 as [-> ->]. by apply pop_relabel.
    - destruct HT as (L1 & L2 & vs1 & vs2 & _ & _ & _ & Hv). by eapply Cv.
    - destruct HT as (L1 & L2 & vs1 & v & vs2 & _ & _ & _ & _ & Hv). by eapply Cv.
    - destruct HT as (L & rest & _ & _ & Hv). by eapply Cv.
    - destruct HT as (L & v & rest & _ & _ & Hv). by eapply Cv.
    - destruct HT as (L & v & _ & _ & Hk). simpl in Hs. repeat case_match; simplify_eq/=.
      destruct HT' as (L' & _ & _ & _ & Hk'). destruct k as [r0|j|cur|nxt k acc]; simpl in Hk, Hk'.
      + destruct Hk as (_ & o1 & Hf1). destruct Hk' as (_ & o2 & Hf2). apply Ff in Hf1 as [_ ->]. by eapply Ff'.
      + destruct Hk as (_ & m & Hp). by destruct (Cp _ Hp).
      + destruct Hk as (vs & _ & Hr). by destruct (Cr Hr).
      + destruct Hk as (rest & _ & Hv). by eapply Cv.
    - destruct HT as (L & _ & _ & _ & Hk). destruct k as [r0|j|cur|nxt k acc]; simpl in Hk.
      + destruct Hk as (_ & o1 & Hf1). apply Ff in Hf1 as [_ ->]. simpl in Hs.
        destruct (dstep n (s_heap x) (s_pool x) d sp); simplify_eq/=.
        * destruct HT' as (L' & _ & _ & _ & (_ & o2 & Hf2)). by eapply Ff'.
        * destruct HT' as (_ & o2 & Hf2). by eapply Ff'.
      + destruct Hk as (_ & m & Hp). by destruct (Cp _ Hp).
      + destruct Hk as (vs & _ & Hr). by destruct (Cr Hr).
      + destruct Hk as (rest & _ & Hv). by eapply Cv.
    - exfalso. destruct HT as (_ & m & Hp). by eapply Cp.
    - by destruct (Hnr r0).
  Qed.

  Lemma kind_from t x g x' g' w w' V' pc pc' sp addr :
    match saccess pc with XCas RTos _ | XLoad _ _ => False | _ => True end -> (forall r, pc <> PcRet r) ->
    tinv t pc x g -> tstep c x pc sp addr false = TGo x' pc' -> tinv t pc' x' g' -> trans c t g g' ->
    tos_hist x' w' = tos_hist x w -> kind t x w g x' w' g' V'.
  Proof using Hth.
    intros Ha Hnr HT Hs HT' Htr Hw.
    destruct Htr as [[H1 H2]|[(o & r & H1 & H2 & H3)|(o & r & r' & H1 & H2 & H3 & H4)]].
    - by apply k_none.
    - assert (Hn : forall a, spec a o r a) by (by eapply (step_neutral t x g x' g' pc pc')).
      eapply k_neutral; try done. by eapply sspec_det.
    - assert (r' = r) as -> by (by eapply (step_norelabel t x g x' g' pc pc')).
      apply k_none; [|done|done]. unfold fin in *. congruence.
  Qed.

  Lemma rok_write t x w w' g vw V' pc sp addr :
    GI x g -> tinv t pc x g -> vle (vw t) V' ->
    (forall n V, g_own g !! n = Some OQ \/ g_own g !! n = Some OF -> freshn w V n -> freshn w' V n) ->
    (forall x' pc' g', tstep c x pc sp addr false = TGo x' pc' -> GI x' g' ->
       (forall u, u <> t -> rely u x g x' g') -> tinv t pc' x' g' -> trans c t g g' ->
       RI x' w' g' (set_view vw t V') /\ tv x' w' V' pc' /\ kind t x w g x' w' g' V') ->
    rok t x w g vw (rwrite w' V' (tstep c x pc sp addr false)).
  Proof using Htag.
    intros HG HT Hle Hf Hk. pose proof (tstep_ok c Htag t x g pc sp addr false HG HT) as Hok.
    destruct (tstep c x pc sp addr false) as [x' pc'| |] eqn:Hs; simpl; [|done|done].
    destruct Hok as (g' & HG' & HT' & _ & R & Htr & _).
    destruct (Hk x' pc' g' eq_refl HG' R HT' Htr) as (HR' & Htv & Hkd).
    exists g'. split; [done|]. split; [done|]. split; [done|]. split; [done|].
    split; [|by left]. intros u pc0 Hne HTu Htu. eapply (tv_keep c t x g x' g' w vw R w' u pc0); done.
  Qed.

  Lemma rok_view t x w g vw V' pc' :
    GI x g -> RI x w g vw -> vle (vw t) V' -> wfv w V' ->
    (tinv t pc' x g /\ tv x w V' pc') \/ look t x w g (vw t) V' pc' ->
    rok t x w g vw (RGo x w V' pc').
  Proof using Hth.
    intros HG HR Hle Hwf Hor. assert (R : forall u, u <> t -> rely u x g x g) by (intros; apply rely_refl).
    exists g. split; [done|]. split.
    { by apply (keep_view c t x g x g w vw V' HG HG R Hth HR). }
    split; [done|]. split; [done|]. split; [done|].
    destruct Hor as [[H1 H2]|H1]; [left|right; done]. split; [done|]. split; [done|]. by apply k_none.
  Qed.

  (** ** Loads and failed compare-exchange operations *)

  Lemma rok_load t x w g vw pc i (a : bool) ts v mv V' sp addr :
    GI x g -> RI x w g vw -> tinv t pc x g ->
    hist i x w !! ts = Some (v, mv) -> vw t (rloc i) <= ts ->
    V' = vjoin (vset (vw t) (rloc i) ts) (if a then mv else v0) ->
    saccess pc = XLoad i a \/ ((exists old : tagged, saccess pc = XCas i old) /\ a = true /\ sp = true) ->
    rok t x w g vw (rread x w V' (tstep c (see i x v) pc sp addr false)).
  Proof using Hth.
    intros HG HR HT Hh Hts HV Ha.
    assert (Hin : (v, mv) ∈ hist i x w) by (by eapply elem_of_list_lookup_2).
    assert (Hwm : wfv w mv) by (by apply (ri_wfh _ _ _ _ _ HR i v)).
    assert (Hts' : ts < length (hist i x w)) by (by eapply lookup_lt_Some).
    assert (Hle : vle (vw t) V').
    { subst V'. intros l. unfold vjoin, vset. case_decide; subst; lia. }
    assert (Hwf : wfv w V').
    { subst V'. apply wfv_join; [|destruct a; [done|apply wfv_v0]].
      destruct (ri_wf _ _ _ _ _ HR t) as [W1 W2 W3 W4].
      split; intros; unfold vset; case_decide; simplify_eq; auto;
        destruct i; simpl in *; simplify_eq; unfold pool_hist, tos_hist in Hts';
        rewrite app_length in Hts'; simpl in Hts'; lia. }
    assert (Hmv : a = true -> vle mv V').
    { intros ->. subst V'. intros l. unfold vjoin. lia. }
    assert (HVi : ts <= V' (rloc i)).
    { subst V'. unfold vjoin, vset. rewrite decide_True by done. lia. }
    assert (Hkt : i = RTos -> known_tos c x w g v mv).
    { intros ->. by apply HR. }
    assert (Hkp : i = RPool -> known_pool c x w g v mv).
    { intros ->. by apply HR. }
    (* what the loads lead to *)
    assert (LA : forall a0, i = RPool -> a0 = ATest v ->
      ainv c (s_heap x) (s_pool x) (g_own g) a0 /\ (a = true -> tva c x w V' a0)).
    { intros a0 Hi ->. destruct (Hkp Hi) as (K1 & K2 & K3). split.
      - split; [done|]. split; [done|]. intros E1 E2. by apply K3.
      - intros Hat E1 E2. eapply freshn_le; [by apply Hmv|done|]. by apply K3. }
    assert (LC : i = RTos -> a = true -> pend g t SPop -> owns t g [] ->
      (tinv t (c_test c v) x g /\ tv x w V' (c_test c v)) \/ look t x w g (vw t) V' (c_test c v)).
    { intros -> Hat Hp Ho. destruct (Hkt eq_refl) as (K1 & K2 & K3). unfold c_test. case_decide as Hn.
      - right. exists SPop, (SGot None), ts, v, mv. rewrite bool_decide_true by done.
        split; [done|]. split; [done|]. split; [done|]. split; [done|]. split; [simpl in *; lia|].
        split; [by apply Hmv|]. constructor.
      - left. split.
        + simpl. split; [done|]. split; [done|]. split; [done|]. split; [done|]. split; [by apply K2|].
          intros E. by apply K3.
        + simpl. intros E. eapply freshn_le; [by apply Hmv|done|]. by apply K3. }
    assert (LAll : forall rev, i = RTos -> a = true -> pend g t (SAll rev) -> owns t g [] ->
      (tinv t (a_test c rev v) x g /\ tv x w V' (a_test c rev v)) \/ look t x w g (vw t) V' (a_test c rev v)).
    { intros rev -> Hat Hp Ho. unfold a_test. case_decide as Hn.
      - right. exists (SAll rev), (SCount 0 []), ts, v, mv. rewrite bool_decide_true by done.
        split; [done|]. split; [done|]. split; [done|]. split; [done|]. split; [simpl in *; lia|].
        split; [by apply Hmv|]. constructor.
      - left. done. }
    assert (HaC : forall i', saccess pc = XLoad i' true \/ (exists old : tagged, saccess pc = XCas i' old) ->
      i = i' /\ a = true /\ ((exists old : tagged, saccess pc = XCas i' old) -> sp = true)).
    { intros i' [E|[old E]]; rewrite E in Ha;
        destruct Ha as [Ha|[[old' Ha] [Ha1 Ha2]]]; simplify_eq/=; split; try done; split; try done.
      - intros [? ?]. congruence. }
    destruct pc as [b u ap|u n|top bot r|top bot old r|top bot old r|b vs|b vs k te ap|b vs k te n
      |b vs k te n|cur| |old|old nxt|n|rev|rev old|n lst|n lst nxt|n k acc|n k acc|n k|n d k|k| |r];
      try (exfalso; clear -Ha; simpl in Ha; destruct Ha as [?|[[? ?] _]]; done).
    - (* PcAlloc *)
      destruct HT as (Hp & Ho & Hai). simpl. destruct ap as [|old|old nxt]; simpl.
      + destruct (HaC RPool) as (-> & -> & _); [by left|]. simpl.
        apply rok_view; [done|done|done|done|]. left. destruct (LA (ATest v)) as [L1 L2]; [done|done|].
        split; [done|]. by apply L2.
      + exfalso. clear -Ha. simpl in Ha. case_decide; destruct Ha as [?|[[? ?] _]]; done.
      + destruct (HaC RPool) as (-> & -> & Hsp); [right; by eexists|]. rewrite Hsp by (by eexists). simpl.
        apply rok_view; [done|done|done|done|]. left. destruct (LA (ATest v)) as [L1 L2]; [done|done|].
        split; [done|]. by apply L2.
    - (* PcLLoad *)
      simpl. apply rok_view; [done|done|done|done|]. left. done.
    - (* PcLCas *)
      destruct (HaC RTos) as (-> & -> & Hsp); [right; by eexists|]. rewrite Hsp by (by eexists). simpl.
      apply rok_view; [done|done|done|done|]. left. split; [apply HT|done].
    - (* PcRAlloc *)
      destruct HT as (Hp & Hk & Hnb & HL & Hai). simpl. destruct ap as [|old|old nxt]; simpl.
      + destruct (HaC RPool) as (-> & -> & _); [by left|]. simpl.
        apply rok_view; [done|done|done|done|]. left. destruct (LA (ATest v)) as [L1 L2]; [done|done|].
        split; [done|]. by apply L2.
      + exfalso. clear -Ha. simpl in Ha. case_decide; destruct Ha as [?|[[? ?] _]]; done.
      + destruct (HaC RPool) as (-> & -> & Hsp); [right; by eexists|]. rewrite Hsp by (by eexists). simpl.
        apply rok_view; [done|done|done|done|]. left. destruct (LA (ATest v)) as [L1 L2]; [done|done|].
        split; [done|]. by apply L2.
    - (* PcCLoad *)
      destruct (HaC RTos) as (-> & -> & _); [by left|]. simpl.
      apply rok_view; [done|done|done|done|]. destruct HT. by apply LC.
    - (* PcCCas *)
      destruct (HaC RTos) as (-> & -> & Hsp); [right; by eexists|]. rewrite Hsp by (by eexists). simpl.
      apply rok_view; [done|done|done|done|]. destruct HT as (? & ? & _). by apply LC.
    - (* PcALoad *)
      destruct (HaC RTos) as (-> & -> & _); [by left|]. simpl.
      apply rok_view; [done|done|done|done|]. destruct HT. by apply LAll.
    - (* PcACas *)
      destruct (HaC RTos) as (-> & -> & Hsp); [right; by eexists|]. rewrite Hsp by (by eexists). simpl.
      apply rok_view; [done|done|done|done|]. destruct HT as (? & ? & _). by apply LAll.
    - (* PcDealloc *)
      destruct HT as (L & Ho & Hr & Hd & Hk). simpl. destruct d as [|old|old]; simpl.
      + destruct (HaC RPool) as (-> & -> & _); [by left|]. simpl.
        apply rok_view; [done|done|done|done|]. left. split; [|done]. exists L. done.
      + exfalso. clear -Ha. simpl in Ha. destruct Ha as [?|[[? ?] _]]; done.
      + destruct (HaC RPool) as (-> & -> & Hsp); [right; by eexists|]. rewrite Hsp by (by eexists). simpl.
        apply rok_view; [done|done|done|done|]. left. split; [|done]. exists L. done.
    - (* PcEmpty *)
      destruct (HaC RTos) as (-> & -> & _); [by left|]. simpl. destruct HT as [Hp Ho].
      apply rok_view; [done|done|done|done|]. right. exists SEmpty. eexists _, ts, v, mv.
      split; [done|]. split; [done|]. split; [done|]. split; [done|]. split; [simpl in *; lia|].
        split; [by apply Hmv|]. constructor.
  Qed.

  (** ** Reading a link *)

  Lemma see_next_id x n nd : s_heap x !! n = Some nd -> see_next x n (nx nd).1 nd = x.
  Proof.
    intros Hn. unfold see_next, set_next. destruct x as [h p ts]. simpl in *.
    rewrite insert_id; [done|]. rewrite Hn. by destruct nd as [[]].
  Qed.

  Lemma read_own t pc x g n :
    tinv t pc x g -> saccess pc = XRead n ->
    g_own g !! n = Some (OT t) \/
    (exists old, pc = PcCNext old /\ n = old.1) \/
    (exists old, n = old.1 /\ old.1 <> null /\ ((exists b v, pc = PcAlloc b v (ATest old)) \/
                  (exists b vs k te, pc = PcRAlloc b vs k te (ATest old)))).
  Proof.
    intros HT Ha.
    destruct pc as [b v a|v n'|top bot r|top bot old r|top bot old r|b vs|b vs k te a|b vs k te n'
      |b vs k te n'|cur| |old|old nxt|n'|rev|rev old|n' lst|n' lst nxt|n' k acc|n' k acc|n' k|n' d k|k| |r];
      simpl in HT, Ha; try done.
    - destruct a as [|old|old nxt]; simpl in Ha; [done| |done]. case_decide; [done|]. injection Ha as <-.
      right. right. exists old. split; [done|]. split; [done|]. left. eauto.
    - destruct a as [|old|old nxt]; simpl in Ha; [done| |done]. case_decide; [done|]. injection Ha as <-.
      right. right. exists old. split; [done|]. split; [done|]. right. eauto 10.
    - injection Ha as <-. destruct HT as (_ & L & vs & Ho & _). left. eapply owns_in; [done|left].
    - injection Ha as <-. right. left. eauto.
    - injection Ha as <-. destruct HT as (L1 & L2 & vs1 & vs2 & Ho & _). left.
      eapply owns_in; [done|]. apply elem_of_app. right. left.
    - injection Ha as <-. destruct HT as (L & v & rest & Ho & _). left. eapply owns_in; [done|left].
    - by destruct d.
  Qed.

  Lemma freshn_last w V n nd ts p :
    freshn w V n -> next_hist nd w n !! ts = Some p -> V (LNext n) <= ts ->
    ts = V (LNext n) /\ p = (nx nd).1.
  Proof.
    unfold freshn, next_hist. intros Hf Hl Hts. pose proof (lookup_lt_Some _ _ _ Hl) as Hlt.
    rewrite app_length in Hlt. simpl in Hlt. assert (ts = length (w_next w n)) as -> by lia.
    split; [done|]. rewrite lookup_app_r, Nat.sub_diag in Hl by lia. by injection Hl.
  Qed.

  Lemma rok_read t x w g vw pc n nd ts p sp addr :
    GI x g -> RI x w g vw -> tinv t pc x g -> tv x w (vw t) pc -> saccess pc = XRead n ->
    s_heap x !! n = Some nd -> next_hist nd w n !! ts = Some p -> vw t (LNext n) <= ts ->
    rok t x w g vw (rread x w (vset (vw t) (LNext n) ts) (tstep c (see_next x n p nd) pc sp addr false)).
  Proof using Htag Hth.
    intros HG HR HT Htv Ha Hn Hp Hts.
    pose proof (lookup_lt_Some _ _ _ Hp) as Hlt. unfold next_hist in Hlt. rewrite app_length in Hlt. simpl in Hlt.
    assert (Hle : vle (vw t) (vset (vw t) (LNext n) ts)).
    { intros l. unfold vset. case_decide; subst; lia. }
    assert (Hwf : wfv w (vset (vw t) (LNext n) ts)).
    { destruct (ri_wf _ _ _ _ _ HR t) as [W1 W2 W3 W4].
      split; intros; unfold vset; case_decide; simplify_eq; auto; lia. }
    destruct (read_own _ _ _ _ _ HT Ha) as [Ho|[(old & -> & ->)|(old & -> & Hnn & Hpc)]].
    - destruct (freshn_last w (vw t) n nd ts p) as [-> ->]; [by apply HR|done|done|].
      rewrite see_next_id by done.
      assert (HW : rok t x w g vw (rwrite w (vset (vw t) (LNext n) (vw t (LNext n))) (tstep c x pc sp addr false))).
      { apply rok_write; [done|done|done|done|]. intros x' pc' g' Hs HG' R HT' Htr.
        assert (x' = x) as -> by (by eapply tstep_read). split; [|split].
        - by apply (keep_view c t x g x g' w vw _ HG HG' R Hth HR).
        - eapply tstep_tv; [|exact Hs]. by rewrite Ha.
        - eapply (kind_from t x g x g'); try done; [by rewrite Ha|]. intros r ->. done. }
      destruct (tstep c x pc sp addr false) as [x' pc'| |] eqn:Hs; simpl in *; [|done|done].
      apply (tstep_read _ _ n) in Hs as ->; [|done]. exact HW.
    - simpl. rewrite lookup_insert. simpl. apply rok_view; [done|done|done|done|]. left.
      destruct HT as (H1 & H2 & H3). split; [|done]. split; [done|]. split; [done|]. split; [done|].
      intros E. destruct (freshn_last w (vw t) old.1 nd ts p) as [-> ->]; [by apply Htv|done|done|].
      unfold nxp. by rewrite Hn.
    - assert (HA : forall a, a = ATest old -> ainv c (s_heap x) (s_pool x) (g_own g) a -> tva c x w (vw t) a ->
        ainv c (s_heap x) (s_pool x) (g_own g) (ACas old p)).
      { intros a -> (A1 & A2 & A3) Ht. simpl. split; [done|]. split; [done|]. intros E. split; [by apply A3|].
        destruct (freshn_last w (vw t) old.1 nd ts p) as [-> ->]; [by apply Ht|done|done|].
        unfold nxp. by rewrite Hn. }
      destruct Hpc as [(b & v & ->)|(b & vs & k & te & ->)]; simpl; rewrite decide_False by done;
        rewrite lookup_insert; simpl; (apply rok_view; [done|done|done|done|]); left; (split; [|done]).
      + destruct HT as (H1 & H2 & H3). split; [done|]. split; [done|]. by eapply HA.
      + destruct HT as (H1 & H2 & H3 & H4 & H5). split; [done|]. split; [done|]. split; [done|].
        split; [done|]. by eapply HA.
  Qed.

  (** ** Every step *)

  Lemma rtstep_ok t x w g vw pc ts sp addr :
    (forall r, pc <> PcRet r) -> GI x g -> RI x w g vw -> tinv t pc x g -> tv x w (vw t) pc ->
    rok t x w g vw (rtstep c true x w (vw t) pc ts sp addr).
  Proof using Htag Hth.
    intros Hnr HG HR HT Htv. unfold rtstep. destruct (saccess pc) as [|i a|i old|n|n|n] eqn:Ha.
    - (* no access *)
      apply rok_write; [done|done|by intros l|done|]. intros x' pc' g' Hs HG' R HT' Htr.
      destruct (tstep_roots x pc sp addr x' pc') as [E1 E2]; [by rewrite Ha|done|].
      split; [|split].
      + apply (keep_view c t x g x' g' w vw _ HG HG' R Hth HR); [done|done|by intros l|apply HR].
      + eapply tstep_tv; [|exact Hs]. by rewrite Ha.
      + eapply (kind_from t x g x' g'); try done; [by rewrite Ha|]. unfold tos_hist. simpl. by rewrite ?E1, ?E2.
    - destruct (hist i x w !! ts) as [[v mv]|] eqn:Hh; [|done]. case_decide; [|done].
      eapply rok_load; try done. by left.
    - destruct (hist i x w !! ts) as [[v mv]|] eqn:Hh; [|done]. case_decide; [|done].
      case_decide as Hc; [|eapply (rok_load _ _ _ _ _ _ i true); try done; right; eauto].
      destruct Hc as (Hl & -> & ->).
      assert (Hcur : (old, mv) = match i with RPool => (s_pool x, w_poolv w) | RTos => (s_tos x, w_tosv w) end).
      { assert (list.last (hist i x w) = Some (old, mv)) as Hlast.
        { rewrite list.last_lookup, <- Hl. done. }
        destruct i; simpl in Hlast; unfold pool_hist, tos_hist in Hlast; rewrite last_snoc in Hlast; congruence. }
      assert (Hle : vle (vw t) (vset (vjoin (vw t) mv) (rloc i) (S ts))).
      { intros l. unfold vset, vjoin. case_decide; subst; lia. }
      rewrite Hl in *. destruct i; injection Hcur as -> ->; simpl in *.
      + (* pool_ *)
        apply rok_write; [done|done|done|done|]. intros x' pc' g' Hs HG' R HT' Htr.
        destruct (tstep_cas_pool x pc _ addr x' pc' Ha eq_refl Hs) as [E1 E2]. split; [|split].
        * apply (keep_cas_pool c t x g x' g' w vw _ HG HG' R Hth HR); [done|done| |done].
          apply (rl_pool _ _ _ _ _ (R (S t) ltac:(lia))).
        * eapply tstep_tv; [|exact Hs]. by rewrite Ha.
        * eapply (kind_from t x g x' g'); try done; [by rewrite Ha|]. unfold tos_hist. simpl. by rewrite ?E1, ?E2.
      + (* tos *)
        apply rok_write; [done|done|done|done|]. intros x' pc' g' Hs HG' R HT' Htr.
        destruct (tstep_cas_tos x pc _ addr x' pc' Ha eq_refl Hs) as [E1 E2]. split; [|split].
        * apply (keep_cas_tos c t x g x' g' w vw _ HG HG' R Hth HR); [done|done| |done].
          apply (rl_tos _ _ _ _ _ (R (S t) ltac:(lia))).
        * eapply tstep_tv; [|exact Hs]. by rewrite Ha.
        * assert (Hpf : (exists o, pend g t o) /\ (exists o r, fin g' t o r)).
          { clear -Ha Hs HT HT'.
            destruct pc as [b v a|v n|top bot r|top bot old r|top bot old r|b vs|b vs k te a|b vs k te n
              |b vs k te n|cur| |old|old nxt|n|rev|rev old|n lst|n lst nxt|n k acc|n k acc|n k|n d k|k| |r];
              simpl in Ha; try done; try (destruct a; simpl in Ha; repeat case_decide; done);
              try (by destruct d); injection Ha as ->; simpl in Hs; rewrite decide_True in Hs by done;
              injection Hs as <- <-; simpl in HT, HT'.
            - destruct HT as [(o & L & vs & Hp & _) _]. destruct HT' as [_ [o' Hf]]. eauto.
            - destruct HT as (Hp & _). destruct HT' as (_ & v & _ & Hf). eauto.
            - destruct HT as (Hp & _). split; [eauto|]. destruct rev; simpl in HT'.
              + destruct HT' as (L1 & L2 & vs1 & vs2 & _ & _ & _ & (_ & rev & Hf)). eauto.
              + destruct HT' as (L & rest & _ & _ & (_ & rev & Hf)). eauto. }
          destruct Hpf as [[o0 P0] (o1 & r1 & F1)]. unfold pend, fin in *.
          destruct Htr as [[H1 H2]|[(o & r & H1 & H2 & H3)|(o & r & r' & H1 & H2 & H3 & H4)]].
          -- congruence.
          -- apply (k_eff _ _ _ _ _ _ _ _ o r H1 H2 H3); [done|done|].
             intros l. unfold vset, vjoin. case_decide as El; [subst l|lia].
             rewrite <- Hl. pose proof (wf_tos _ _ (ri_wfh _ _ _ _ _ HR RTos (s_tos x) (w_tosv w)
               ltac:(apply elem_of_app; right; left))).
             unfold tos_hist in Hl. rewrite app_length in Hl. simpl in *. lia.
          -- unfold fin in *. congruence.
    - (* reading a link *)
      destruct (s_heap x !! n) as [nd|] eqn:Hn.
      + destruct (next_hist nd w n !! ts) as [p|] eqn:Hp; [|done]. case_decide; [|done]. by eapply rok_read.
      + exfalso. destruct (read_own _ _ _ _ _ HT Ha) as [Ho|[(old & -> & ->)|(old & -> & Hnn & Hpc)]].
        * apply (gi_own_dom _ _ _ _ _ HG) in Ho as [? ?]. congruence.
        * destruct HT as (_ & _ & (_ & _ & [? ?] & _)). congruence.
        * destruct Hpc as [(b & v & ->)|(b & vs & k & te & ->)].
          -- destruct HT as (_ & _ & _ & K & _). destruct (K Hnn). congruence.
          -- destruct HT as (_ & _ & _ & _ & _ & K & _). destruct (K Hnn). congruence.
    - (* writing a link *)
      assert (Ho : g_own g !! n = Some (OT t)) by (eapply access_own; eauto).
      destruct (gi_own_dom _ _ _ _ _ HG Ho) as [nd Hn]. rewrite Hn.
      destruct (ri_own _ _ _ _ _ HR t n Ho) as [Fn Fd]. unfold freshn, freshd in *.
      rewrite decide_True by done.
      apply rok_write; [done|done| | |].
      + intros l. unfold vset. case_decide; subst; lia.
      + intros m V Hm. unfold freshn. simpl. rewrite fupd_ne; [done|]. intros ->. destruct Hm; congruence.
      + intros x' pc' g' Hs HG' R HT' Htr.
        destruct (tstep_roots x pc sp addr x' pc') as [E1 E2]; [by rewrite Ha|done|].
        split; [|split].
        * eapply (keep_node c t x g x' g' w vw _ HG HG' R Hth HR n); try done.
          -- intros m Hm. simpl. by rewrite fupd_ne.
          -- simpl. rewrite fupd_eq, app_length. simpl. lia.
          -- simpl. rewrite fupd_eq, app_length. unfold vset. rewrite decide_True by done. simpl. lia.
          -- intros l H1 H2. unfold vset. by rewrite decide_False.
        * eapply tstep_tv; [|exact Hs]. by rewrite Ha.
        * eapply (kind_from t x g x' g'); try done; [by rewrite Ha|]. unfold tos_hist. simpl. by rewrite ?E1, ?E2.
    - (* accessing an element *)
      assert (Ho : g_own g !! n = Some (OT t)) by (eapply access_own; eauto).
      destruct (ri_own _ _ _ _ _ HR t n Ho) as [Fn Fd]. unfold freshn, freshd in *.
      rewrite decide_True by done.
      apply rok_write; [done|done| |done|].
      + intros l. unfold vset. case_decide; subst; lia.
      + intros x' pc' g' Hs HG' R HT' Htr.
        destruct (tstep_roots x pc sp addr x' pc') as [E1 E2]; [by rewrite Ha|done|].
        split; [|split].
        * eapply (keep_node c t x g x' g' w vw _ HG HG' R Hth HR n); try done.
          -- intros m Hm. simpl. by rewrite fupd_ne.
          -- simpl. rewrite fupd_eq. lia.
          -- simpl. rewrite fupd_eq. unfold vset. by rewrite decide_True.
          -- intros l H1 H2. unfold vset. by rewrite decide_False.
        * eapply tstep_tv; [|exact Hs]. by rewrite Ha.
        * eapply (kind_from t x g x' g'); try done; [by rewrite Ha|]. unfold tos_hist. simpl. by rewrite ?E1, ?E2.
  Qed.
End step.
