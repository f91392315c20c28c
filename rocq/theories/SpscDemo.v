(** * Running concrete schedules of spsc_queue (used by the Examples and the
      refutations) *)
From stdpp Require Import gmap list numbers.
From Verif Require Import Lin SpscModel SpscSpec SpscObs SpscWait.

(** Four slots, that is capacity 3.  Elements with a destructor under release/acquire
    and under interleaving semantics; elements without. *)
Definition xdemoR : xcfg := XCfg 4 false false false false true true true true.
Definition xdemoS : xcfg := XCfg 4 false false true false true true true true.
Definition xdemoT : xcfg := XCfg 4 true true false false true true true true.

Lemma code_demo m triv sc : (0 < m <= 2 ^ 63)%N -> code_cfg (XCfg m triv triv sc false true true true true).
Proof. intros H. split; [done|]. split; [done|]. split; [|done]. destruct triv; auto. Qed.

(** What to do next: a call; a step that loads the latest store; a step that
    loads the [k]-th store; a step that throws; synchronization. *)
Inductive dstep :=
  | DI (t : role) (o : xop N)
  | DR (t : role)
  | DK (t : role) (k : nat)
  | DT (t : role)
  | DS.
Definition dchoice (s : xstate N) (d : dstep) : xchoice N :=
  match d with
  | DI t o => XInvoke t o
  | DR t => XRun t (lk t s) false
  | DK t k => XRun t k false
  | DT t => XRun t (lk t s) true
  | DS => XSync
  end.
(** [k] steps; a whole call, [k] steps long. *)
Definition drs (t : role) (k : nat) : list dstep := replicate k (DR t).
Definition dcall (t : role) (o : xop N) (k : nat) : list dstep := DI t o :: drs t k.

Section demo.
  Context (c : xcfg).

  Fixpoint drun (s : xstate N) (ds : list dstep) : option (list (xrec N) * list (event (xop N) (xret N)) * xstate N) :=
    match ds with
    | [] => Some ([], [], s)
    | d :: ds =>
        match xstep c s (dchoice s d) with
        | XNext s' evs =>
            match drun s' ds with
            | Some (w, h, s'') => Some (XRec s (dchoice s d) s' :: w, evs ++ h, s'')
            | None => None
            end
        | _ => None
        end
    end.

  Lemma xsteps_trans s0 w h s w' h' s' :
    xsteps c s0 w h s -> xsteps c s w' h' s' -> xsteps c s0 (w ++ w') (h ++ h') (s' : xstate N).
  Proof.
    intros H. induction 1 as [|w2 h2 s2 ch s3 evs H2 IH Hs].
    - by rewrite !app_nil_r.
    - rewrite !app_assoc. by econstructor.
  Qed.

  Lemma drun_steps ds : forall s w h s', drun s ds = Some (w, h, s') -> xsteps c s w h s'.
  Proof.
    induction ds as [|d ds IH]; intros s w h s' H; simpl in H.
    - injection H as <- <- <-. constructor.
    - destruct (xstep c s (dchoice s d)) as [s1 evs| |] eqn:Hs; [|done..].
      destruct (drun s1 ds) as [[[w1 h1] s2]|] eqn:Hr; [|done]. injection H as <- <- <-.
      change (XRec s (dchoice s d) s1 :: w1) with ([XRec s (dchoice s d) s1] ++ w1).
      eapply xsteps_trans; [|by apply IH].
      pose proof (xsteps_cons c s [] [] s (dchoice s d) s1 evs (xsteps_nil c s) Hs) as H1. done.
  Qed.

  (** What the Examples show of a run: the history, the size, the objects in the
      slots, and whether calls are in progress. *)
  Definition busy (h : thread N) : bool := match t_pc h with Some _ => true | None => false end.
  Definition dshow (ds : list dstep) :=
    match drun xinit ds with
    | Some (w, h, s) =>
        Some (h, xsize c s,
              (fun i => s_val (slot_at (x_slots s) (N.of_nat i))) <$> seq 0 (N.to_nat (x_max c)),
              busy (x_prod s), busy (x_cons s), x_dead s)
    | None => None
    end.
  Lemma dshow_reach ds h z vs b1 b2 d :
    dshow ds = Some (h, z, vs, b1, b2, d) ->
    exists s, xreach c h s /\ xsize c s = z /\ busy (x_prod s) = b1 /\ busy (x_cons s) = b2 /\ x_dead s = d.
  Proof.
    unfold dshow. destruct (drun xinit ds) as [[[w h0] s]|] eqn:Hr; [|done]. intros H.
    injection H as <- <- <- <- <- <-. exists s. split; [|done]. exists w. by eapply drun_steps.
  Qed.

  (** The error that the last step leads to. *)
  Definition derr (ds : list dstep) (d : dstep) : option xerr :=
    match drun xinit ds with
    | Some (_, _, s) => match xstep c s (dchoice s d) with XErr e => Some e | _ => None end
    | None => None
    end.
  Lemma derr_reach ds d e :
    derr ds d = Some e -> exists h (s : xstate N) ch, xreach c h s /\ xstep c s ch = XErr e.
  Proof.
    unfold derr. destruct (drun xinit ds) as [[[w h0] s]|] eqn:Hr; [|done]. intros H.
    destruct (xstep c s (dchoice s d)) eqn:Hs; [done| |done]. injection H as <-.
    exists h0, s, (dchoice s d). split; [|done]. exists w. by eapply drun_steps.
  Qed.
End demo.

Section demo2.
  Context (c : xcfg).

  (** A call of [o] by [t] after [pre], in progress while [ds] is done. *)
  Definition wdemo (pre : list dstep) (t : role) (o : xop N) (ds : list dstep) : option (xret N) :=
    match drun c xinit pre with
    | Some (_, _, s0) =>
        match xstep c s0 (XInvoke t o) with
        | XNext s1 _ =>
            match drun c s1 ds with
            | Some (win, _, s) =>
                if forallb (fun x => negb (is_invoke t x)) win then
                  match t_pc (th t s) with Some (XRet r) => Some r | _ => None end
                else None
            | None => None
            end
        | _ => None
        end
    | None => None
    end.
  Lemma wdemo_window pre t o ds r :
    wdemo pre t o ds = Some r ->
    exists s0 win s, window c t o s0 win s /\ t_pc (th t s) = Some (XRet r).
  Proof.
    unfold wdemo. destruct (drun c xinit pre) as [[[w0 h0] s0]|] eqn:H0; [|done].
    destruct (xstep c s0 (XInvoke t o)) as [s1 evs| |] eqn:H1; [|done..].
    destruct (drun c s1 ds) as [[[win h] s]|] eqn:H2; [|done].
    destruct (forallb _ win) eqn:Hb; [|done]. destruct (t_pc (th t s)) as [pc|] eqn:Hpc; [|done].
    destruct pc; try done. intros [= ->]. exists s0, win, s. split; [|done].
    exists w0, (h0 ++ evs ++ h), s1. split.
    - eapply xsteps_trans; [by eapply drun_steps|].
      change (XRec s0 (XInvoke t o) s1 :: win) with ([XRec s0 (XInvoke t o) s1] ++ win).
      eapply xsteps_trans; [|by eapply drun_steps].
      exact (xsteps_cons c s0 [] [] s0 (XInvoke t o) s1 evs (xsteps_nil c s0) H1).
    - rewrite forallb_forall in Hb. apply list.Forall_forall. intros x Hx. apply elem_of_list_In in Hx.
      specialize (Hb x Hx). by destruct (is_invoke t x).
  Qed.

  Definition latestb (t : role) (s : xstate N) : bool :=
    x_sc c || match t with
              | RP => S (t_sr (x_prod s)) =? length (x_r s)
              | RC => S (t_sw (x_cons s)) =? length (x_w s)
              end.
  Definition contentsb (s : xstate N) (q : list N) : bool :=
    (N.of_nat (length q) =? xsize c s)%N &&
    forallb (fun jx =>
      match s_val (slot_at (x_slots s) ((lastv (x_r s) + N.of_nat jx.1) mod x_max c)) with
      | Some y => (y =? jx.2)%N
      | None => false
      end) (imap pair q).
  Lemma latestb_ok t s : latestb t s = true -> latest c t s.
  Proof.
    unfold latestb, latest. intros H. apply orb_true_iff in H as [H|H]; [by left|right].
    destruct t; by apply Nat.eqb_eq.
  Qed.
  Lemma contentsb_ok s q : contentsb s q = true -> xcontents c s q.
  Proof.
    unfold contentsb. intros H. apply andb_true_iff in H as [H1 H2]. split; [by apply N.eqb_eq|].
    intros j x Hj. rewrite forallb_forall in H2. specialize (H2 (j, x)). simpl in H2.
    destruct (s_val _) as [y|].
    - f_equal. apply N.eqb_eq, H2. apply elem_of_list_In, elem_of_list_lookup. exists j.
      by rewrite list_lookup_imap, Hj.
    - exfalso. enough (false = true) by done. apply H2. apply elem_of_list_In, elem_of_list_lookup. exists j.
      by rewrite list_lookup_imap, Hj.
  Qed.

  (** A call of [o] by [t] alone, [k] steps long. *)
  Definition solo_from (s0 : xstate N) (t : role) (o : xop N) (k : nat) : option (xret N) :=
    match xstep c s0 (XInvoke t o) with
    | XNext s1 [_] =>
        match drun c s1 (drs t k) with
        | Some (win, [Res u r], s) => if forallb (is_run t) win && (u =? tid t) then Some r else None
        | _ => None
        end
    | _ => None
    end.
  Lemma solo_from_ok s0 t o k r : solo_from s0 t o k = Some r -> exists s', solo_call c t o r s0 s'.
  Proof.
    unfold solo_from.
    destruct (xstep c s0 (XInvoke t o)) as [s1 [|e [|??]]| |] eqn:H1; try done.
    destruct (drun c s1 (drs t k)) as [[[win [|[|u r'] [|??]]] s]|] eqn:H2; try done.
    destruct (forallb (is_run t) win && (u =? tid t)) eqn:Hr; [|done].
    apply andb_true_iff in Hr as [Hr1 Hr2]. apply Nat.eqb_eq in Hr2. intros [= ->]. subst u.
    exists s, s1, win. split.
    + assert (e = Lin.Inv (tid t) o) as ->.
      { unfold xstep in H1. destruct (x_dead s0); [done|]. destruct t.
        - repeat match type of H1 with context [match ?x with _ => _ end] => destruct x end; by simplify_eq/=.
        - repeat match type of H1 with context [match ?x with _ => _ end] => destruct x end; by simplify_eq/=. }
      change (XRec s0 (XInvoke t o) s1 :: win) with ([XRec s0 (XInvoke t o) s1] ++ win).
      change [Lin.Inv (tid t) o; Res (tid t) r] with ([Lin.Inv (tid t) o] ++ [Res (tid t) r]).
      eapply xsteps_trans; [|by eapply drun_steps].
      exact (xsteps_cons c s0 [] [] s0 (XInvoke t o) s1 _ (xsteps_nil c s0) H1).
    + rewrite forallb_forall in Hr1. apply list.Forall_forall. intros x Hx. apply Hr1. by apply elem_of_list_In.
  Qed.

  (** [pre] leaves [q] in the queue and no call in progress; then two calls, each
      alone in this state. *)
  Definition sdemo (pre : list dstep) (q : list N) (t1 : role) (o1 : xop N) (k1 : nat)
      (t2 : role) (o2 : xop N) (k2 : nat) : option (xret N * xret N) :=
    match drun c xinit pre with
    | Some (_, _, s0) =>
        if negb (busy (x_prod s0)) && negb (busy (x_cons s0)) && negb (x_dead s0) &&
           (latestb RP s0 && latestb RC s0) && contentsb s0 q then
          match solo_from s0 t1 o1 k1, solo_from s0 t2 o2 k2 with
          | Some r1, Some r2 => Some (r1, r2)
          | _, _ => None
          end
        else None
    | None => None
    end.
  Definition solo_state (q : list N) (s : xstate N) : Prop :=
    exists h, xreach c h s /\ xquiet s /\ x_dead s = false /\ (forall t, latest c t s) /\ xcontents c s q.
  Lemma sdemo_solo pre q t1 o1 k1 r1 t2 o2 k2 r2 :
    sdemo pre q t1 o1 k1 t2 o2 k2 = Some (r1, r2) ->
    exists s s1 s2, solo_state q s /\ solo_call c t1 o1 r1 s s1 /\ solo_call c t2 o2 r2 s s2.
  Proof.
    unfold sdemo. destruct (drun c xinit pre) as [[[w0 h0] s0]|] eqn:H0; [|done].
    destruct (_ && _ && _ && _ && _) eqn:Hb; [|done].
    apply andb_true_iff in Hb as [Hb B5]. apply andb_true_iff in Hb as [Hb B4].
    apply andb_true_iff in Hb as [Hb B3]. apply andb_true_iff in Hb as [B1 B2].
    apply andb_true_iff in B4 as [B4 B6].
    destruct (solo_from s0 t1 o1 k1) as [r1'|] eqn:S1; [|done].
    destruct (solo_from s0 t2 o2 k2) as [r2'|] eqn:S2; [|done]. intros [= -> ->].
    destruct (solo_from_ok _ _ _ _ _ S1) as [s1 H1]. destruct (solo_from_ok _ _ _ _ _ S2) as [s2 H2].
    exists s0, s1, s2. split; [|done].
    exists h0. split; [exists w0; by eapply drun_steps|]. split.
    { unfold busy in *. split; [by destruct (t_pc (x_prod s0))|by destruct (t_pc (x_cons s0))]. }
    split; [by destruct (x_dead s0)|]. split; [|by apply contentsb_ok].
    intros []; by apply latestb_ok.
  Qed.

  (** The consumer's position, if the next step is possible. *)
  Definition pcshow (ds : list dstep) (d : dstep) : option (xpc N) :=
    match drun c xinit ds with
    | Some (_, _, s) => match xstep c s (dchoice s d) with XNext _ _ => t_pc (x_cons s) | _ => None end
    | None => None
    end.
  Lemma pcshow_reach ds d pc :
    pcshow ds d = Some pc ->
    exists h s s' evs, xreach c h s /\ t_pc (x_cons s) = Some pc /\ xstep c s (dchoice s d) = XNext s' evs.
  Proof.
    unfold pcshow. destruct (drun c xinit ds) as [[[w h0] s]|] eqn:Hr; [|done].
    destruct (xstep c s (dchoice s d)) as [s' evs| |] eqn:Hs; [|done..]. intros Hp.
    exists h0, s, s', evs. split; [|done]. exists w. by eapply drun_steps.
  Qed.
End demo2.
