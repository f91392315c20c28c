(** * Sequential use *)
From stdpp Require Import gmap list numbers.
From Verif Require Import Lin SpscModel SpscSpec SpscArith SpscInv SpscStep SpscProd SpscCons SpscSafe SpscObs SpscHist SpscWin.

Set Default Proof Using "Type".

Section seq.
  Context {V : Type} (c : xcfg).
  Notation M := (x_max c).
  Implicit Types (g : xghost V) (s : xstate V).

  Ltac hsplit Hs := repeat match type of Hs with context [match ?x with _ => _ end] => destruct x eqn:? end.

  (** ** The contents *)
  Lemma quiet_ghost s g : Inv c s g -> xquiet s -> g_up g = [] /\ g_ac g = 0.
  Proof.
    intros [_ HI] [H1 H2]. destruct (x_dead s); [tauto|]. rewrite H1, H2 in HI.
    destruct HI as ((_ & ?) & (_ & _ & _ & ?) & _). done.
  Qed.

  Lemma contents_ghost s g q : Inv c s g -> xquiet s -> xcontents c s q <-> q = g_q g.
  Proof.
    intros HI Hq. destruct (quiet_ghost _ _ HI Hq) as [Hup Hac].
    destruct (inv_last _ _ _ HI) as (L1 & L2 & L3 & L4 & L5). unfold xcontents. rewrite L5, L2.
    assert (Hv : forall j x, g_q g !! j = Some x ->
      s_val (slot_at (x_slots s) ((g_nc g mod M + N.of_nat j) mod M)) = Some x).
    { intros j x Hx. rewrite N.add_mod_idemp_l by lia. destruct HI as [HG _].
      apply (si_vals _ _ _ _ _ _ _ (gi_si _ _ _ _ _ _ _ HG)); [lia|]. by rewrite Hup, app_nil_r. }
    split.
    - intros [Hl Hs]. apply list_eq. intros j. destruct (q !! j) as [x|] eqn:Hj.
      + destruct (lookup_lt_is_Some_2 (g_q g) j) as [y Hy]; [apply lookup_lt_Some in Hj; lia|].
        pose proof (Hs _ _ Hj) as Hx. rewrite (Hv _ _ Hy) in Hx. congruence.
      + symmetry. apply lookup_ge_None. apply lookup_ge_None in Hj. lia.
    - intros ->. done.
  Qed.

  Lemma xspec_det cap sc (a : aq V) o r a1 a2 : xspec cap sc a o r a1 -> xspec cap sc a o r a2 -> a1 = a2.
  Proof.
    intros H. destruct H; inversion 1; simplify_eq; try done; try (by destruct o); try (by firstorder congruence).
  Qed.

  Lemma spec_seq cap sc (a : aq V) o r a' :
    xspec cap sc a o r a' -> exact cap o r (len (a_q a)) ->
    (r = RThrow /\ a_q a' = a_q a) \/ seqf cap (a_q a) o = Some (r, a_q a').
  Proof.
    intros Hs Hx.
    destruct Hs as [q kc kp v H1|q kc v H1|q kc kp vs k H1 H2 H3 H4|q kc kp n H1 H2 H3|a u b x H1 H2 H3|q kc kp x
        |q kp H1|l q kc kp n H1 H2 H3|o l q kc kp H1 H2 H3|q kc kp x H1|q kc kp n H1 H2 H3|o q kc kp H1|a o H1];
      simpl in *; try (by left); right.
    - by rewrite decide_True.
    - rewrite decide_False; [done|]. symmetry in Hx. by apply bool_decide_eq_false in Hx.
    - by subst k.
    - by subst n.
    - rewrite Hx. do 3 f_equal. apply bool_decide_ext. destruct (a_q a); simpl; split; done || lia.
    - done.
    - by destruct q.
    - rewrite <- Hx, Nat2N.id. by rewrite take_app, drop_app.
    - assert (q = []) as ->. { destruct H1 as [->| ->]; rewrite app_length in Hx; destruct q; simpl in *; try done; lia. }
      rewrite app_nil_r. by destruct H1 as [->| ->].
    - done.
    - by subst n.
    - by destruct H1 as [->| ->].
  Qed.

  Lemma lruns_one {op ret st} (sp : st -> op -> ret -> st -> Prop) ph a e ph' a' :
    lruns sp ph a [e] ph' a' ->
    match e with
    | Ev (Lin.Inv t o) => ph !! t = None /\ ph' = <[t := Pending o]> ph /\ a' = a
    | Lin t o r => ph !! t = Some (Pending o) /\ ph' = <[t := Done o r]> ph /\ sp a o r a'
    | Ev (Res t r) => exists o, ph !! t = Some (Done o r) /\ ph' = delete t ph /\ a' = a
    end.
  Proof.
    intros H. inversion H as [|l ph1 a1 t o H1 H2 He|l ph1 a1 t o r a2 H1 H2 H3 He|l ph1 a1 t o r H1 H2 He];
      subst; apply (app_inj_tail _ []) in He as [-> <-]; inversion H1; subst; try done;
      try (by destruct l); eauto.
  Qed.
  Lemma lruns_cons {op ret st} (sp : st -> op -> ret -> st -> Prop) ph a e l ph' a' :
    lruns sp ph a (e :: l) ph' a' -> exists ph1 a1, lruns sp ph a [e] ph1 a1 /\ lruns sp ph1 a1 l ph' a'.
  Proof. apply (lruns_app_inv _ _ _ [e]). Qed.

  (** A call alone takes effect once. *)
  Lemma lruns_call l2 ph a (l1 : list (levent (xop V) (xret V))) ph' a' t o r :
    lruns (xspec (M - 1) (x_sc c)) ∅ xs_init l1 ph a -> (forall u, ph !! u = None) ->
    lruns (xspec (M - 1) (x_sc c)) ∅ xs_init (l1 ++ l2) ph' a' ->
    erase l2 = [Lin.Inv t o; Res t r] ->
    xspec (M - 1) (x_sc c) a o r a'.
  Proof.
    intros H1 Hn H2 He. apply lruns_app_inv in H2 as (ph1 & a1 & H1' & H2).
    destruct (lruns_det _ (xspec_det _ _) _ _ _ _ _ _ _ H1 H1') as [<- <-]. clear H1 H1'.
    destruct l2 as [|e l2]; [done|]. apply lruns_cons in H2 as (ph1 & a1 & H1 & H2).
    apply lruns_one in H1. destruct e as [e|]; [|destruct H1 as (H1 & _); by rewrite Hn in H1].
    injection He as -> He. destruct H1 as (_ & -> & ->).
    destruct l2 as [|e l2]; [done|]. apply lruns_cons in H2 as (ph1 & a1 & H1 & H2).
    apply lruns_one in H1. destruct e as [e|u o1 r1].
    { injection He as -> He. destruct H1 as (? & H1 & _). by rewrite lookup_insert in H1. }
    destruct H1 as (H1 & -> & Hs). simpl in He.
    destruct (decide (t = u)) as [<-|Hne]; [|by rewrite lookup_insert_ne, Hn in H1].
    rewrite lookup_insert in H1. injection H1 as <-.
    destruct l2 as [|e l2]; [done|]. apply lruns_cons in H2 as (ph1 & a2 & H1 & H2).
    apply lruns_one in H1. destruct e as [e|u o2 r2].
    2:{ destruct H1 as (H1 & _). destruct (decide (t = u)) as [<-|Hne].
        - by rewrite lookup_insert in H1.
        - by rewrite !lookup_insert_ne, Hn in H1. }
    injection He as -> He. destruct H1 as (o2 & H1 & -> & ->). rewrite lookup_insert in H1. injection H1 as <- ->.
    destruct l2 as [|e l2]; [inversion H2; subst; [done|by destruct l..]|].
    apply lruns_cons in H2 as (ph1 & a3 & H1 & H2). apply lruns_one in H1. destruct e as [e|u o2 r2]; [done|].
    destruct H1 as (H1 & _). destruct (decide (t = u)) as [<-|Hne].
    - by rewrite lookup_delete in H1.
    - by rewrite lookup_delete_ne, !lookup_insert_ne, Hn in H1.
  Qed.

  (** The other thread's index. *)
  Definition other (t : role) (s : xstate V) : list msg := match t with RP => x_r s | RC => x_w s end.
  Definition seenof (t : role) (s : xstate V) : nat := match t with RP => t_sr (x_prod s) | RC => t_sw (x_cons s) end.

  Lemma seen_lt t s g : Inv c s g -> seenof t s < length (other t s).
  Proof. intros [HG _]. pose proof (gi_seen _ _ _ _ _ _ _ HG) as H. destruct t; simpl; lia. Qed.

  Lemma run_other t s g k thr s' evs :
    Inv c s g -> xstep c s (XRun t k thr) = XNext s' evs ->
    (other t s' = other t s /\ seenof t s <= seenof t s') \/
    t_pc (th t s) = Some S1.
  Proof.
    intros HI Hs. unfold xstep in Hs. destruct (x_dead s); [done|]. destruct t; simpl in *.
    - destruct (t_pc (x_prod s)) as [pc|]; [|done]. left.
      destruct pc; try done; unfold pstep, estep, construct, acc_p in Hs; simpl in Hs; hsplit Hs; simplify_eq/=;
        (split; [done|]); try done;
        try match goal with H : load_w _ _ _ _ _ = Some _ |- _ => apply load_w_inv in H as (? & ?); simpl; lia end;
        try match goal with H : load_r _ _ _ _ _ = Some _ |- _ => apply load_r_inv in H as (? & ?); simpl; lia end;
        try match goal with H : (if ?d then _ else _) = Some _ |- _ => destruct d; simplify_eq/=; done end.
    - destruct (t_pc (x_cons s)) as [pc|]; [|done].
      destruct pc; try (by right); left; try done; unfold cstep, estep, consume, destroy, acc_c in Hs; simpl in Hs;
        hsplit Hs; simplify_eq/=; (split; [done|]); try done;
        try match goal with H : load_w _ _ _ _ _ = Some _ |- _ => apply load_w_inv in H as (? & ?); simpl; lia end;
        try match goal with H : load_r _ _ _ _ _ = Some _ |- _ => apply load_r_inv in H as (? & ?); simpl; lia end;
        try match goal with H : (if ?d then _ else _) = Some _ |- _ => destruct d; simplify_eq/=; done end.
  Qed.

  Lemma run_evs t s k thr s' evs :
    xstep c s (XRun t k thr) = XNext s' evs ->
    (exists r, t_pc (th t s) = Some (XRet r) /\ evs = [Res (tid t) r] /\ t_pc (th t s') = None) \/
    (evs = [] /\ t_pc (th t s) <> None /\ t_pc (th t s') <> None).
  Proof.
    intros Hs. unfold xstep in Hs. destruct (x_dead s); [done|]. destruct t; simpl in *.
    - destruct (t_pc (x_prod s)) as [pc|]; [|done].
      destruct pc; try (left; hsplit Hs; simplify_eq/=; by eexists); right;
      unfold pstep, estep, construct in Hs; simpl in Hs; hsplit Hs; simplify_eq/=; done.
    - destruct (t_pc (x_cons s)) as [pc|]; [|done].
      destruct pc; try (left; hsplit Hs; simplify_eq/=; by eexists); right;
      unfold cstep, estep, consume, destroy in Hs; simpl in Hs; hsplit Hs; simplify_eq/=; done.
  Qed.
  Lemma start_inv t o s s1 evs :
    xstep c s (XInvoke t o) = XNext s1 evs ->
    evs = [Lin.Inv (tid t) o] /\ t_pc (th t s1) <> None /\ other t s1 = other t s /\ seenof t s <= seenof t s1.
  Proof.
    unfold xstep. intros Hs. destruct (x_dead s); [done|]. destruct t; simpl; hsplit Hs; simplify_eq/=;
      (split; [done|]); (split; [done|]); (split; [done|]); lia.
  Qed.

  Lemma latest_next t s g s' :
    Inv c s' g -> latest c t s -> other t s' = other t s -> seenof t s <= seenof t s' -> latest c t s'.
  Proof.
    intros HI [Hl|Hl] Ho Hs; [by left|]. right. pose proof (seen_lt t _ _ HI).
    destruct t; simpl in *; rewrite ?Ho in *; lia.
  Qed.

  (** Who may call what. *)
  Lemma step_typed s ch s' evs : xstep c s ch = XNext s' evs -> Forall typed evs.
  Proof.
    intros Hs. destruct ch as [t o|t k thr|].
    - pose proof Hs as Hs'. apply start_inv in Hs' as (-> & _). apply Forall_singleton. simpl.
      unfold xstep in Hs. destruct (x_dead s); [done|]. destruct t.
      + left. split; [done|]. hsplit Hs; simplify_eq. destruct o as [| | |[]| | | | | | | |]; done.
      + right. split; [done|]. assert (xstart c RC o <> None) by (hsplit Hs; simplify_eq; done).
        destruct o as [| | |[]| | | | | | | |]; done.
    - apply run_evs in Hs as [(r & _ & -> & _)|(-> & _)]; [by apply Forall_singleton|done].
    - unfold xstep in Hs. hsplit Hs; simplify_eq; done.
  Qed.
  Lemma xsteps_typed s w h s' : xsteps c s w h s' -> Forall typed h.
  Proof. induction 1 as [|w h s1 ch s2 evs _ IH Hs]; [done|]. apply Forall_app. split; [done|]. by eapply step_typed. Qed.

  Definition flip (t : role) : role := match t with RP => RC | RC => RP end.
  Lemma run_flip t s g k thr s' evs :
    Inv c s g -> xstep c s (XRun t k thr) = XNext s' evs -> t_pc (th (flip t) s') = t_pc (th (flip t) s).
  Proof.
    intros HI Hs. edestruct (step_other (V := V) c (flip t)) as [H _]; [done|done|..|done]; intros; by destruct t.
  Qed.
  Lemma start_flip t o s g s' evs :
    Inv c s g -> xstep c s (XInvoke t o) = XNext s' evs -> t_pc (th (flip t) s') = t_pc (th (flip t) s).
  Proof.
    intros HI Hs. edestruct (step_other (V := V) c (flip t)) as [H _]; [done|done|..|done]; intros; by destruct t.
  Qed.

  Context (HM : (0 < M <= 2 ^ 63)%N)
          (Hord : x_acqR c = true /\ x_relW c = true /\ x_acqW c = true /\ x_relR c = true)
          (Hthr : x_triv c = true \/ x_bthrow c = false) (Hchk : x_unchecked c = false).

  Lemma xsteps_rel s g w h s' :
    Inv c s g -> xsteps c s w h s' ->
    exists g', Inv c s' g' /\ exists l2, g_l g' = g_l g ++ l2 /\ erase l2 = h.
  Proof using HM Hord Hthr Hchk.
    intros HI H. induction H as [|w h s1 ch s' evs _ (g1 & HI1 & l1 & E1 & E2) Hs].
    - exists g. split; [done|]. exists []. by rewrite app_nil_r.
    - pose proof (xstep_ok c HM Hord Hthr Hchk s1 g1 ch HI1) as Hok. rewrite Hs in Hok.
      destruct Hok as (g' & HI' & l2 & Hl & Hel). exists g'. split; [done|]. exists (l1 ++ l2).
      by rewrite Hl, E1, app_assoc, erase_app, E2, Hel.
  Qed.

  Lemma solo_win t o s g win : forall h s1 s2,
    Inv c s g -> latest c t s -> exclusive o = None ->
    xsteps c s (XRec s (XInvoke t o) s1 :: win) h s2 -> Forall (fun x => is_run t x = true) win ->
    (h = [Lin.Inv (tid t) o] /\ t_pc (th t s2) <> None /\ wpred c t o (own_index t s) win s2 /\
      latest c t s2 /\ other t s2 = other t s /\ Forall (fun x => other t (r_pre x) = other t s) win) \/
    (exists r, h = [Lin.Inv (tid t) o; Res (tid t) r] /\ t_pc (th t s2) = None /\
      exact (M - 1) o r (xsize c s)).
  Proof using HM Hord Hthr Hchk.
    induction win as [|x win IH] using rev_ind; intros h s1 s2 HI Hl He H Hr.
    - apply (xsteps_snoc_inv _ _ []) in H as (h1 & evs & H & Hs & E & ->). simpl in *. subst s2.
      inversion H; [subst|by destruct w]. pose proof Hs as Hs'. apply start_inv in Hs' as (-> & Hpc & Ho & Hsn).
      pose proof (xstep_ok c HM Hord Hthr Hchk _ _ (XInvoke t o) HI) as Hok. rewrite Hs in Hok.
      destruct Hok as (g' & HI' & _). left. split; [done|]. split; [done|]. split; [by eapply start_wpred|].
      split; [by eapply latest_next|]. done.
    - apply Forall_app in Hr as [Hr Hx]. apply Forall_inv in Hx. rewrite app_comm_cons in H.
      apply xsteps_snoc_inv in H as (h1 & evs & H & Hs & E & ->). destruct x as [s3 ch s3']. simpl in *. subst s3'.
      assert (exists k thr, ch = XRun t k thr) as (k & thr & ->).
      { destruct ch as [[]|[]|], t; try done; eauto. }
      destruct (IH _ _ _ HI Hl He H Hr) as [(-> & Hpc & Hw & Hl3 & Ho3 & Hf)|(r & _ & Hpc & _)].
      2:{ apply run_evs in Hs as [(? & ? & _)|(_ & ? & _)]; congruence. }
      destruct (xsteps_rel _ _ _ _ _ HI H) as (g3 & HI3 & _).
      assert (Ho : other t s2 = other t s3 /\ seenof t s3 <= seenof t s2).
      { destruct (run_other _ _ _ _ _ _ _ HI3 Hs) as [Ho|Hs1]; [done|]. exfalso.
        unfold wpred in Hw. destruct t; rewrite Hs1 in Hw; [done|]. destruct Hw as [-> _]. done. }
      destruct Ho as [Ho Hsn].
      destruct (run_evs _ _ _ _ _ _ Hs) as [(r & Hx3 & -> & Hn)|(-> & _ & Hn)].
      + right. exists r. split; [done|]. split; [done|]. unfold wpred in Hw.
        assert (sees c t (own_index t s) win (exact (M - 1) o r)) as (x & Hin & Hox & Hex).
        { destruct t; by rewrite Hx3 in Hw. }
        pose proof (proj1 (list.Forall_forall _ _) Hf _ Hin) as Hf'. simpl in Hf'.
        assert (xsize c (r_pre x) = xsize c s) as <-; [|done].
        unfold xsize. destruct t; simpl in *; by rewrite Hox, Hf'.
      + left. split; [done|]. split; [done|]. split.
        { destruct t; [by eapply wpred_prod|by eapply wpred_cons]. }
        pose proof (xstep_ok c HM Hord Hthr Hchk _ _ (XRun t k thr) HI3) as Hok. rewrite Hs in Hok.
        destruct Hok as (g' & HI' & _).
        split; [by eapply latest_next|]. split; [congruence|]. apply Forall_app. split; [done|]. by apply Forall_singleton.
  Qed.

  Lemma solo_fin t o s g win : forall h s1 s2,
    Inv c s g -> xquiet s -> xsteps c s (XRec s (XInvoke t o) s1 :: win) h s2 ->
    Forall (fun x => is_run t x = true) win ->
    t_pc (th (flip t) s2) = None /\
    ((h = [Lin.Inv (tid t) o] /\ t_pc (th t s2) <> None) \/
     (exists r, h = [Lin.Inv (tid t) o; Res (tid t) r] /\ t_pc (th t s2) = None)).
  Proof using HM Hord Hthr Hchk.
    induction win as [|x win IH] using rev_ind; intros h s1 s2 HI Hq H Hr.
    - apply (xsteps_snoc_inv _ _ []) in H as (h1 & evs & H & Hs & E & ->). simpl in *. subst s2.
      inversion H; [subst|by destruct w]. pose proof Hs as Hs'. apply start_inv in Hs' as (-> & Hpc & Ho & Hsn).
      split; [|by left]. erewrite start_flip by done. destruct t; apply Hq.
    - apply Forall_app in Hr as [Hr Hx]. apply Forall_inv in Hx. rewrite app_comm_cons in H.
      apply xsteps_snoc_inv in H as (h1 & evs & H & Hs & E & ->). destruct x as [s3 ch s3']. simpl in *. subst s3'.
      assert (exists k thr, ch = XRun t k thr) as (k & thr & ->).
      { destruct ch as [[]|[]|], t; try done; eauto. }
      destruct (xsteps_rel _ _ _ _ _ HI H) as (g3 & HI3 & _).
      destruct (IH _ _ _ HI Hq H Hr) as [Hfl [(-> & Hpc)|(r & _ & Hpc)]].
      2:{ apply run_evs in Hs as [(? & ? & _)|(_ & ? & _)]; congruence. }
      split; [by erewrite run_flip|].
      destruct (run_evs _ _ _ _ _ _ Hs) as [(r & Hx3 & -> & Hn)|(-> & _ & Hn)].
      + right. by exists r.
      + by left.
  Qed.

  Lemma quiet_ph s g u : Inv c s g -> xquiet s -> x_dead s = false -> Forall typed (erase (g_l g)) -> g_ph g !! u = None.
  Proof.
    intros HI [H1 H2] Hd Ht. destruct (g_ph g !! u) as [p|] eqn:Hp; [|done]. exfalso.
    pose proof (lruns_typed _ _ _ _ _ _ _ (gi_run _ _ _ _ _ _ _ (proj1 HI)) Ht Hp) as Hty.
    destruct HI as [_ HI]. rewrite Hd, H1, H2 in HI. destruct HI as ((HP & _) & (HC & _) & _).
    destruct Hty as [[-> _]|[-> _]]; congruence.
  Qed.

  Lemma solo_ok t o r s g s' :
    Inv c s g -> Forall typed (erase (g_l g)) -> xquiet s -> x_dead s = false -> latest c t s ->
    solo_call c t o r s s' ->
    exists g', Inv c s' g' /\ xquiet s' /\
      ((r = RThrow /\ g_q g' = g_q g) \/ seqf (M - 1) (g_q g) o = Some (r, g_q g')).
  Proof using HM Hord Hthr Hchk.
    intros HI Hty Hq Hd Hl (s1 & win & H & Hr).
    assert (Hq' : xquiet s').
    { destruct (solo_fin t o s g win _ _ _ HI Hq H Hr) as [H1 [[? _]|(r' & _ & H2)]]; [done|]. by destruct t. }
    destruct (xsteps_rel _ _ _ _ _ HI H) as (g' & HI' & l2 & El & Ee).
    exists g'. split; [done|]. split; [done|].
    assert (Hs : xspec (M - 1) (x_sc c) (AQ (g_q g) (g_kc g) (g_kp g)) o r (AQ (g_q g') (g_kc g') (g_kp g'))).
    { eapply lruns_call; [apply HI| |rewrite <- El; apply HI'|done]. intros u. by eapply quiet_ph. }
    destruct (inv_last _ _ _ HI) as (_ & _ & _ & _ & Hz).
    destruct (exclusive o) eqn:He.
    - destruct o; try done; inversion Hs; subst; try done; right; simpl; naive_solver.
    - assert (Hx : exact (M - 1) o r (len (g_q g))).
      { rewrite <- Hz. destruct (solo_win _ _ _ _ _ _ _ _ HI Hl He H Hr) as [(? & _)|(r' & ? & _ & ?)]; [done|]. by simplify_eq. }
      apply (spec_seq _ _ _ _ _ _ Hs Hx).
  Qed.
End seq.
