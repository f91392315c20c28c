(** * Wait-freedom *)
From stdpp Require Import gmap list numbers.
From Verif Require Import Lin SpscModel SpscSpec SpscArith SpscInv SpscStep SpscProd SpscCons SpscSafe SpscObs SpscWin SpscSeq.

Set Default Proof Using "Type".

Local Arguments N.mul : simpl never.
Local Arguments N.add : simpl never.
Local Arguments N.sub : simpl never.
Local Arguments N.of_nat : simpl never.

Section wait.
  Context {V : Type} (c : xcfg).
  Notation M := (x_max c).
  Implicit Types (g : xghost V) (s : xstate V).

  Ltac hsplit Hs := repeat match type of Hs with context [match ?x with _ => _ end] => destruct x eqn:? end.

  Definition bmax (kd : bkind) : N := match kd with KPop n => (n `min` (M - 1))%N | _ => (M - 1)%N end.

  (** The number of own steps left, at most. *)
  Definition rank (pc : option (xpc V)) : N :=
    match pc with
    | None => 0
    | Some (P1 _) => 5 | Some (P2 _ _) => 4 | Some (P3 _ _ _) => 3 | Some (P4 _) => 2
    | Some (N1 vs) => 2 * (len vs `min` (M - 1)) + 6
    | Some (N2 vs _) => 2 * (len vs `min` (M - 1)) + 5
    | Some (N3 _ vs rest base i _ _) =>
        2 * len vs + 2 * len rest + (i - base) + (match rest with [] => 0 | _ => 1 end) + 3
    | Some (NU base i) => (i - base) + 2
    | Some (N4 _ _) => 2
    | Some A1 => 3 | Some (A2 _) => 2
    | Some (E1 _) => 3 | Some (E2 _ _) => 2
    | Some C1 => 6 | Some (C2 _) => 5 | Some (C3 _) => 4 | Some (C4 _ _) => 3 | Some (C5 _ _) => 2
    | Some (B1 kd) => 2 * bmax kd + 6
    | Some (B2 kd _) => 2 * bmax kd + 5
    | Some (B3 _ i e e2 _ _) => 2 * (e - i) + (match e2 with Some e' => 2 * e' + 1 | None => 0 end) + 3
    | Some (B4 _ i e e2 _ _ _) => 2 * (e - i) + (match e2 with Some e' => 2 * e' + 1 | None => 0 end) + 2
    | Some (B5 _ _ _) => 2
    | Some F1 => 3 | Some (F2 _) => 2
    | Some V1 => 3 | Some (V2 _) => 2
    | Some S1 => 2
    | Some (XRet _) => 1
    end%N.

  Lemma start_rank t o s s1 evs :
    xstep c s (XInvoke t o) = XNext s1 evs -> (rank (t_pc (th t s1)) <= steps_bound (M - 1) o)%N.
  Proof.
    intros Hs. unfold xstep in Hs. destruct (x_dead s); [done|]. destruct t.
    - destruct (t_pc (x_prod s)), (x_excl s), (xstart c RP o) eqn:Hx; try done. injection Hs as <- <-. simpl.
      destruct o as [| | |[]| | | | | | | |]; simplify_eq/=; lia.
    - destruct (t_pc (x_cons s)), (xstart c RC o) eqn:Hx; try done. destruct (may_start c s o); [|done].
      assert (t_pc (th RC s1) = Some x) as ->. { hsplit Hs; simplify_eq; done. }
      clear Hs. destruct o as [| | |[]| | | | | | | |]; simplify_eq/=; try lia. destruct (x_triv c); simpl; lia.
  Qed.

  (** A step is always possible. *)
  Lemma load_w_en acq ws (h : thread V) : t_sw h < length ws -> load_w (x_sc c) acq (pred (length ws)) ws h <> None.
  Proof.
    intros H. unfold load_w. destruct (lookup_lt_is_Some_2 ws (pred (length ws))) as [m ->]; [lia|].
    rewrite decide_True; [done|]. split; [lia|]. intros; lia.
  Qed.
  Lemma load_r_en acq rs (h : thread V) : t_sr h < length rs -> load_r (x_sc c) acq (pred (length rs)) rs h <> None.
  Proof.
    intros H. unfold load_r. destruct (lookup_lt_is_Some_2 rs (pred (length rs))) as [m ->]; [lia|].
    rewrite decide_True; [done|]. split; [lia|]. intros; lia.
  Qed.

  Lemma dead_quiet w h s : xsteps c xinit w h s -> x_dead s = true -> xquiet s.
  Proof.
    induction 1 as [|w h s ch s' evs _ IH Hs]; [done|]. unfold xstep in Hs. destruct (x_dead s) eqn:Hd; [done|].
    intros Hd'. destruct ch as [[] o|[] k thr|].
    - hsplit Hs; simplify_eq/=; done.
    - hsplit Hs; simplify_eq/=; done.
    - destruct (t_pc (x_prod s)) as [pc|]; [|done].
      destruct pc; unfold pstep, estep, construct in Hs; simpl in Hs; hsplit Hs; simplify_eq/=; congruence.
    - destruct (t_pc (x_cons s)) as [pc|]; [|done].
      destruct pc; unfold cstep, estep, consume, destroy in Hs; simpl in Hs; hsplit Hs; simplify_eq/=; try congruence.
      done.
    - hsplit Hs; simplify_eq/=; done.
  Qed.
  Context (HM : (0 < M <= 2 ^ 63)%N)
          (Hord : x_acqR c = true /\ x_relW c = true /\ x_acqW c = true /\ x_relR c = true)
          (Hthr : x_triv c = true \/ x_bthrow c = false) (Hchk : x_unchecked c = false).

  Lemma run_rank_p s g k thr s' evs :
    Inv c s g -> xstep c s (XRun RP k thr) = XNext s' evs ->
    (rank (t_pc (x_prod s')) + 1 <= rank (t_pc (x_prod s)))%N.
  Proof using HM Hthr Hord Hchk.
    intros HI Hs. unfold xstep in Hs. destruct (inv_last _ _ _ HI) as (_ & _ & L3 & L4 & _).
    destruct HI as [HG HI]. destruct (x_dead s); [done|].
    destruct HI as (HP & _). destruct (t_pc (x_prod s)) as [pc|]; [|done].
    destruct pc; try done; simpl in HP.
    6: { (* N2 *) destruct HP as (_ & _ & ->). unfold pstep in Hs.
      destruct (load_r _ _ _ _ _) as [[r h']|] eqn:Hl; [|done].
      destruct (prod_load_r _ _ _ _ _ _ _ _ _ _ _ HG Hl) as (m & n & _ & _ & -> & Hn & Hn2 & _).
      rewrite (write_available_ok _ HM) in Hs by lia.
      destruct (N.eqb_spec (M - 1 - (g_np g - n)) 0); [injection Hs as <- <-; simpl; lia|].
      destruct (sections _ _ _) as [[? e2] nw]. injection Hs as <- <-. cbn [x_prod set_pc t_pc rank].
      rewrite N.sub_diag.
      match goal with |- context [len (take ?n0 (take ?n1 vs))] =>
        pose proof (f_equal length (take_drop n0 (take n1 vs))) as Hlen;
        pose proof (take_length vs n1) as Hlen1; rewrite app_length in Hlen;
        generalize dependent (take n0 (take n1 vs)); generalize dependent (drop n0 (take n1 vs)) end.
      intros l2 l1 Hlen. rewrite Hlen1 in Hlen. clear Hlen1 HM. destruct l2; cbn [length] in *; lia. }
    all: unfold pstep, estep, construct in Hs; simpl in Hs; hsplit Hs; simplify_eq/=; try lia; destruct rest; simpl; lia.
  Qed.

  Lemma run_rank_c s g k thr s' evs :
    Inv c s g -> xstep c s (XRun RC k thr) = XNext s' evs ->
    (rank (t_pc (x_cons s')) + 1 <= rank (t_pc (x_cons s)))%N.
  Proof using HM Hthr Hord Hchk.
    intros HI Hs. unfold xstep in Hs. destruct (inv_last _ _ _ HI) as (L1 & L2 & L3 & L4 & _).
    destruct (own_last _ _ _ HI) as [_ Hown].
    destruct HI as [HG HI]. destruct (x_dead s); [done|].
    destruct HI as (_ & HC & _). destruct (t_pc (x_cons s)) as [pc|]; [|done].
    destruct pc; try done; simpl in HC.
    9: { (* B2 *) destruct HC as (_ & n & Hn & -> & _). unfold cstep in Hs.
      destruct (load_r _ _ _ _ _) as [[r h']|] eqn:Hl; [|done]. apply load_r_last in Hl as ->; [|by auto].
      rewrite L2, (read_available_ok _ HM) in Hs by lia.
      replace (g_nc g + n - g_nc g)%N with n in Hs by lia.
      destruct (N.eqb_spec n 0); [injection Hs as <- <-; simpl; lia|].
      rewrite (sections_ok _ HM) in Hs by (destruct kd; lia).
      assert (Hb : (match kd with KPop n0 => n0 `min` n | _ => n end <= bmax kd)%N) by (destruct kd; simpl; lia).
      revert Hs Hb. generalize (match kd with KPop n0 => (n0 `min` n)%N | _ => n end). intros n1 Hs Hb.
      pose proof (N.le_0_l (g_nc g mod M)) as Hr0. pose proof (N.mod_lt (g_nc g) M ltac:(lia)) as Hr.
      destruct (decide _); injection Hs as <- <-; simpl; generalize dependent (g_nc g mod M)%N; intros; lia. }
    all: try (unfold cstep, estep, consume, destroy in Hs; simpl in Hs; hsplit Hs; simplify_eq/=; lia).
    - (* B4 *) destruct HC as (_ & (Hl & Ha & n & Hn & _ & _ & _ & Hb) & Hie & _).
      assert (i < e)%N as Hlt.
      { unfold bpos in Hb. pose proof (N.le_0_l (g_nc g mod M)) as Hr0. pose proof (N.mod_lt (g_nc g) M ltac:(lia)) as Hr.
        generalize dependent (g_nc g mod M)%N. intros. destruct e2; lia. }
      destruct e2; unfold cstep, destroy in Hs; hsplit Hs; simplify_eq/=; lia.
  Qed.

  Lemma wait_win w1 t o s0 s1 win h s :
    xsteps c xinit (w1 ++ XRec s0 (XInvoke t o) s1 :: win) h s ->
    Forall (fun x => is_invoke t x = false) win ->
    (own t win + rank (t_pc (th t s)) <= steps_bound (M - 1) o)%N.
  Proof using HM Hord Hthr Hchk.
    revert h s. induction win as [|x win IH] using rev_ind; intros h s H Hn.
    - apply xsteps_snoc_inv in H as (h1 & evs & H & Hs & <- & _). simpl in *. by eapply start_rank.
    - apply Forall_app in Hn as [Hn Hx]. apply Forall_inv in Hx.
      rewrite app_comm_cons, app_assoc in H. apply xsteps_snoc_inv in H as (h1 & evs & H & Hs & <- & _).
      specialize (IH _ _ H Hn). destruct (xsteps_ok c HM Hord Hthr Hchk _ _ _ H) as (g & HI & _).
      destruct x as [s ch s']. simpl in *. unfold own in *. rewrite List.filter_app, app_length.
      assert ((exists k thr, ch = XRun t k thr) \/ ~ exists k thr, ch = XRun t k thr) as [(k & thr & ->)|Hr].
      { destruct ch as [[]|[]|], t; try (by left; eauto); right; intros (? & ? & ?); done. }
      + assert (rank (t_pc (th t s')) + 1 <= rank (t_pc (th t s)))%N.
        { destruct t; [by eapply run_rank_p|by eapply run_rank_c]. }
        assert (Hf : is_run t (XRec s (XRun t k thr) s') = true) by (by destruct t). cbn [List.filter]. rewrite Hf. cbn [length]. lia.
      + edestruct (step_other (V := V) c t) as [Hpc Ho]; [done|done| | |].
        * intros o' ->. destruct t; done.
        * intros k thr ->. destruct Hr. eauto.
        * rewrite Hpc. assert (is_run t (XRec s ch s') = false) as Hf.
          { unfold is_run. simpl. destruct ch as [[]|[]|], t; try done; destruct Hr; eauto. }
          simpl. rewrite Hf. simpl. lia.
  Qed.

  Definition lk (t : role) (s : xstate V) : nat :=
    match t_pc (th t s) with
    | Some (P1 _) | Some (N1 _) | Some A1 | Some (E1 false) | Some (E2 true _) | Some C1 | Some (B1 _) | Some V1 =>
        pred (length (x_w s))
    | _ => pred (length (x_r s))
    end.

  Lemma run_enabled t s g :
    Inv c s g -> x_dead s = false -> t_pc (th t s) <> None ->
    exists s' evs, xstep c s (XRun t (lk t s) false) = XNext s' evs.
  Proof using HM Hord Hthr Hchk.
    intros HI Hd Hpc. pose proof (xstep_ok c HM Hord Hthr Hchk s g (XRun t (lk t s) false) HI) as Hok.
    destruct (xstep c s (XRun t (lk t s) false)) as [s' evs|e|] eqn:Hs; [by eauto|done|]. exfalso.
    clear Hok. unfold xstep in Hs. rewrite Hd in Hs. destruct HI as [HG HI]. rewrite Hd in HI.
    destruct HI as (HP & HC & _). destruct (gi_seen _ _ _ _ _ _ _ HG) as (S1 & S2 & S3 & S4).
    unfold lk in Hs. destruct t; simpl in *.
    - destruct (t_pc (x_prod s)) as [pc|]; [|done]. clear HC.
      destruct pc; try done; unfold pstep, estep, construct in Hs; simpl in Hs; hsplit Hs; try done;
        try match goal with H : load_w _ ?a _ ?ws ?h = None |- _ => apply (load_w_en a ws h); done end;
        try match goal with H : load_r _ ?a _ ?rs ?h = None |- _ => apply (load_r_en a rs h); done end.
    - destruct (t_pc (x_cons s)) as [pc|]; [|done]. clear HP.
      destruct pc; try done; unfold cstep, estep, consume, destroy in Hs; simpl in Hs; hsplit Hs; try done;
        try match goal with H : load_w _ ?a _ ?ws ?h = None |- _ => apply (load_w_en a ws h); done end;
        try match goal with H : load_r _ ?a _ ?rs ?h = None |- _ => apply (load_r_en a rs h); done end.
  Qed.

End wait.
