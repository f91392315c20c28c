(** * Proofs of the spsc_queue properties, assembled *)
From stdpp Require Import gmap list numbers.
From Verif Require Import Lin LinFacts LinPerm SpscModel SpscSpec SpscArith SpscObs SpscInv SpscSafe SpscHist SpscWin
  SpscSeq SpscLife SpscWait.
Local Arguments N.mul : simpl never.
Local Arguments N.add : simpl never.
Local Arguments N.sub : simpl never.
Local Arguments N.of_nat : simpl never.

Lemma xspec_fifo {V} cap (a : aq V) o r a' : xspec cap true a o r a' -> fifo cap (a_q a) o r (a_q a').
Proof.
  destruct 1 as [q kc kp v Hl|q kc v Hf|q kc kp vs k H1 H2 H3 H4|q kc kp n H1 H2 H3|a t b x H1 H2 H3|q kc kp x
    |q kp H|l q kc kp n H1 H2 H3|o l q kc kp H1 H2 H3|q kc kp x H|q kc kp n H1 H2 H3|o q kc kp Ho|a o Ho]; simpl.
  - by constructor.
  - constructor. by apply Hf.
  - constructor; [done|done|]. intros ??. by apply H4.
  - specialize (H3 eq_refl). replace n with (cap - len q)%N by lia. constructor.
  - rewrite H1 by done. constructor.
  - constructor.
  - rewrite H by done. constructor.
  - constructor; [done|]. intros ??. by apply H3.
  - constructor; [done|]. intros ?. by apply H3.
  - constructor.
  - rewrite H3 by done. constructor.
  - by constructor.
  - by constructor.
Qed.

Section main.
  Context {V : Type} (c : xcfg) (Hcfg : code_cfg c).
  Notation M := (x_max c).

  Lemma reach_ok w h (s : xstate V) : xsteps c xinit w h s -> exists g, Inv c s g /\ erase (g_l g) = h.
  Proof using Hcfg. destruct Hcfg as (HM & Ho & Ht & Hk). by apply xsteps_ok. Qed.

  Lemma gi_lruns (s : xstate V) g :
    Inv c s g -> exists kc kp, lruns (xspec (M - 1) (x_sc c)) ∅ xs_init (g_l g) (g_ph g) (AQ (g_q g) kc kp).
  Proof using Type. intros HI. eexists _, _. apply HI. Qed.

  Lemma no_err h (s : xstate V) ch e : xreach c h s -> xstep c s ch <> XErr e.
  Proof using Hcfg.
    intros (w & H) He. destruct (reach_ok _ _ _ H) as (g & HI & _).
    destruct Hcfg as (HM & Ho & Ht & Hk). pose proof (xstep_ok c HM Ho Ht Hk s g ch HI) as Hok.
    by rewrite He in Hok.
  Qed.

  Lemma lin_main h (s : xstate V) :
    xreach c h s ->
    hw_linearizable xs_init (xspec (M - 1) (x_sc c)) h /\
    exists l ph a, lruns (xspec (M - 1) (x_sc c)) ∅ xs_init l ph a /\ erase l = h /\
      (xquiet s -> xcontents c s (a_q a)).
  Proof using Hcfg.
    intros (w & H). destruct (reach_ok _ _ _ H) as (g & HI & Hl).
    destruct (gi_lruns _ _ HI) as (kc & kp & Hr). split.
    - apply linearizable_hw. by exists (g_l g), (g_ph g), (AQ (g_q g) kc kp).
    - exists (g_l g), (g_ph g), (AQ (g_q g) kc kp). do 2 (split; [done|]). simpl. intros Hq.
      by apply (contents_ghost c s g).
  Qed.

  Lemma fifo_main h (s : xstate V) :
    x_sc c = true -> xreach c h s ->
    hw_linearizable [] (fifo (M - 1)) h /\
    exists l ph q, lruns (fifo (M - 1)) ∅ [] l ph q /\ erase l = h /\ (xquiet s -> xcontents c s q).
  Proof using Hcfg.
    intros Hsc H. destruct (lin_main _ _ H) as (_ & l & ph & a & Hr & Hl & Hq). rewrite Hsc in Hr.
    pose proof (lruns_map _ (fifo (M - 1)) a_q _ _ _ _ _ (xspec_fifo (M - 1)) Hr) as Hf. split.
    - apply linearizable_hw. by exists l, ph, (a_q a).
    - by exists l, ph, (a_q a).
  Qed.

  Lemma exact_main t o s0 win (s : xstate V) r :
    x_sc c = true -> window c t o s0 win s -> t_pc (th t s) = Some (XRet r) ->
    exists x, x ∈ win /\ own_index t (r_pre x) = own_index t s0 /\ exact (M - 1) o r (xsize c (r_pre x)).
  Proof using Hcfg. intros Hs Hw Hp. pose proof Hcfg as (HM & _). exact (window_exact c HM t o s0 win s r Hcfg Hs Hw Hp). Qed.

  (** The values of the call in progress. *)
  Lemma prefix_main h (s : xstate V) :
    xreach c h s -> Forall (fun e => match e with Lin.Inv _ o => drops o = false | _ => True end) h ->
    popped h `prefix_of` pushed h ++
      match tpending 0 h with Some (OPush v) => [v] | Some (OPushN vs) => vs | _ => [] end.
  Proof using Hcfg.
    intros (w & H) Hd. destruct (reach_ok _ _ _ H) as (g & HI & Hl).
    destruct (gi_lruns _ _ HI) as (kc & kp & Hr).
    assert (Hty : Forall typed (erase (g_l g))) by (rewrite Hl; exact (xsteps_typed c _ _ _ _ H)).
    destruct (lruns_conserve _ _ _ _ _ Hr Hty ltac:(by rewrite Hl)) as [He _].
    destruct (lruns_tcalls _ _ 0 _ _ _ Hr) as [Hp0 H0]. destruct (lruns_tcalls _ _ 1 _ _ _ Hr) as [Hp1 H1].
    rewrite Hl in *. rewrite H0, H1 in He. rewrite !fmap_app, !concat_app in He.
    fold (pushed h) in He. fold (popped h) in He. simpl in He.
    rewrite Hp0.
    assert (Hpre : popped h `prefix_of` pushed h ++
      concat ((fun x => pushvals x.1 x.2) <$> match g_ph g !! 0 with Some (Done o r) => [(o, r)] | _ => [] end)).
    { rewrite He. rewrite <- app_assoc. apply prefix_app_r. done. }
    etrans; [exact Hpre|]. apply prefix_app.
    destruct (g_ph g !! 0) as [[o|o r]|]; simpl; [apply prefix_nil| |apply prefix_nil].
    rewrite app_nil_r. destruct o; try apply prefix_nil; simpl.
    - destruct r as [[]| | | | | | |]; try apply prefix_nil. done.
    - destruct r; try apply prefix_nil. exists (drop (N.to_nat k) vs). by rewrite take_drop.
  Qed.

  Lemma prefix_main' h (s : xstate V) :
    xreach c h s -> Forall (fun e => match e with Lin.Inv _ OReset | Lin.Inv _ ODestroy => False | _ => True end) h ->
    popped h `prefix_of` pushed h ++
      match tpending 0 h with Some (OPush v) => [v] | Some (OPushN vs) => vs | _ => [] end.
  Proof using Hcfg.
    intros H Hd. apply (prefix_main h s H). refine (list.Forall_impl _ _ _ Hd _). by intros [t []|].
  Qed.

  Lemma seq_main h t o r (s s' : xstate V) q :
    xreach c h s -> xquiet s -> x_dead s = false -> latest c t s -> xcontents c s q ->
    solo_call c t o r s s' ->
    exists q', xcontents c s' q' /\ xquiet s' /\
      ((r = RThrow /\ q' = q) \/ seqf (M - 1) q o = Some (r, q')).
  Proof using Hcfg.
    intros (w & H) Hq Hd Hlat Hc Hs. destruct (reach_ok _ _ _ H) as (g & HI & Hl).
    assert (Hty : Forall typed (erase (g_l g))) by (rewrite Hl; exact (xsteps_typed c _ _ _ _ H)).
    destruct Hcfg as (HM & Ho & Ht & Hk).
    apply (contents_ghost c s g) in Hc; [|done|done]. subst q.
    destruct (solo_ok c HM Ho Ht Hk t o r s g s' HI Hty Hq Hd Hlat Hs) as (g' & HI' & Hq' & Hr).
    exists (g_q g'). split; [by apply (contents_ghost c s' g')|]. done.
  Qed.

  Lemma contents_main h (s : xstate V) : xreach c h s -> xquiet s -> exists q, xcontents c s q /\ forall q', xcontents c s q' -> q' = q.
  Proof using Hcfg.
    intros (w & H) Hq. destruct (reach_ok _ _ _ H) as (g & HI & Hl). exists (g_q g).
    split; [by apply (contents_ghost c s g)|]. intros q' Hq'. by apply (contents_ghost c s g) in Hq'.
  Qed.

  Lemma sync_latest h t (s s' : xstate V) evs : xreach c h s -> xstep c s XSync = XNext s' evs -> latest c t s'.
  Proof using Hcfg.
    intros (w & H) Hs. destruct (reach_ok _ _ _ H) as (g & HI & Hl).
    destruct (own_last c s g HI) as [H1 H2].
    assert (t_sw (x_cons s) < length (x_w s) /\ t_sr (x_prod s) < length (x_r s)) as [H3 H4].
    { split; [apply (seen_lt c RC s g HI)|apply (seen_lt c RP s g HI)]. }
    unfold xstep in Hs. destruct (x_dead s); [done|].
    destruct (t_pc (x_prod s)); [done|]. destruct (t_pc (x_cons s)); [done|]. injection Hs as <- <-.
    right. destruct t; simpl; lia.
  Qed.

  Lemma avail_main h (s s1 s2 : xstate V) n m q :
    xreach c h s -> xquiet s -> x_dead s = false -> xcontents c s q ->
    latest c RC s -> solo_call c RC ORAvail (RNum n) s s1 ->
    latest c RP s -> solo_call c RP OWAvail (RNum m) s s2 ->
    n = len q /\ (len q + m = M - 1)%N /\ (n + m = M - 1)%N.
  Proof using Hcfg.
    intros H Hq Hd Hc L1 C1 L2 C2.
    destruct (seq_main _ _ _ _ _ _ _ H Hq Hd L1 Hc C1) as (q1 & _ & _ & [[? _]|E1]); [done|].
    destruct (seq_main _ _ _ _ _ _ _ H Hq Hd L2 Hc C2) as (q2 & _ & _ & [[? _]|E2]); [done|].
    simpl in E1, E2. injection E1 as <- _. injection E2 as <- _.
    destruct H as (w & H). destruct (reach_ok _ _ _ H) as (g & HI & Hl).
    apply (contents_ghost c s g) in Hc; [|done|done]. subst q.
    destruct (inv_last c s g HI) as (_ & _ & _ & Hlt & _). split; [done|]. lia.
  Qed.

  Lemma promise_main h (s : xstate V) o r :
    (xreach c (h ++ [Res 1 r]) s -> tpending 1 h = Some o -> keeps (promised h) o r) /\
    (xreach c (h ++ [Res 0 r]) s -> tpending 0 h = Some o -> keeps_p (room h) o r).
  Proof using Hcfg.
    split; intros (w & H) Hp; destruct (reach_ok _ _ _ H) as (g & HI & Hl);
      destruct (gi_lruns _ _ HI) as (kc & kp & Hr);
      destruct (erase_snoc_inv _ _ _ Hl) as (la & lb & Hgl & Ha & Hb);
      rewrite Hgl in Hr.
    all: destruct (lruns_before_res _ _ _ _ _ _ _ _ _ Hr) as (ph1 & a1 & o' & Hr1 & Hph).
    all: assert (Hty : Forall typed (erase la)) by
      (rewrite Ha; pose proof (xsteps_typed c _ _ _ _ H) as Hty; by apply Forall_app in Hty as [? _]).
    all: destruct (lruns_promises _ _ _ _ _ Hr1 Hty) as (_ & _ & K1 & K2).
    - destruct (lruns_tcalls _ _ 1 _ _ _ Hr1) as [Hp1 _]. rewrite Ha, Hp, Hph in Hp1. simpl in Hp1.
      injection Hp1 as ->. rewrite <- Ha. by apply K1.
    - destruct (lruns_tcalls _ _ 0 _ _ _ Hr1) as [Hp1 _]. rewrite Ha, Hp, Hph in Hp1. simpl in Hp1.
      injection Hp1 as ->. rewrite <- Ha. by apply K2.
  Qed.

  Lemma wait_main t o s0 win (s : xstate V) :
    window c t o s0 win s ->
    (own t win <= steps_bound (M - 1) o)%N /\
    (t_pc (th t s) <> None -> exists k s' evs, xstep c s (XRun t k false) = XNext s' evs).
  Proof using Hcfg.
    intros (w1 & h & s1 & H & Hw). destruct (reach_ok _ _ _ H) as (g & HI & Hl).
    destruct Hcfg as (HM & Ho & Ht & Hk). split.
    - pose proof (wait_win c HM Ho Ht Hk _ _ _ _ _ _ _ _ H Hw). lia.
    - intros Hpc. destruct (run_enabled c HM Ho Ht Hk t s g HI) as (s' & evs & Hs); [|done|by exists (lk t s), s', evs].
      destruct (x_dead s) eqn:Hd; [|done]. destruct (dead_quiet c _ _ _ H Hd) as [H1 H2].
      exfalso. apply Hpc. by destruct t.
  Qed.

  Lemma life_main w h (s : xstate V) :
    x_triv c = false -> xsteps c xinit w h s ->
    (forall i, cnt (constructs i) w = cnt (destroys i) w + (if alive s i then 1 else 0)) /\
    (x_dead s = true \/ t_pc (x_cons s) = Some (XRet RUnit) -> forall i, alive s i = false) /\
    (forall q i, xquiet s -> xcontents c s q ->
       alive s i = true <-> exists j, j < length q /\ i = ((lastv (x_r s) + N.of_nat j) mod M)%N).
  Proof using Hcfg.
    intros Ht H. destruct (reach_ok _ _ _ H) as (g & HI & Hl). split; [|split].
    - intros i. by eapply life_balance.
    - intros He. by eapply end_none.
    - intros q i Hq Hc. destruct (quiet_ghost c s g HI Hq) as [Hu Hac].
      apply (contents_ghost c s g) in Hc; [|done|done]. subst q.
      rewrite (quiet_alive c s g i Ht HI (inb_all c _ _ _ H) Hu Hac).
      destruct (inv_last c s g HI) as (_ & -> & _ & Hlt & _).
      assert (M <> 0)%N by (destruct Hcfg as (? & _); lia).
      split; intros (j & Hj & ->); exists j; (split; [done|]); by rewrite N.add_mod_idemp_l.
  Qed.

  Lemma front_main h (s : xstate V) l1 v mid x l2 :
    xreach c h s -> tdone 1 h = l1 ++ (OFront, RFront v) :: mid ++ x :: l2 ->
    Forall (fun y => popvals y.2 = [] /\ y.2 <> RUnit) mid ->
    x.2 <> RPop None /\ (forall y, head (popvals x.2) = Some y -> y = v) /\ (forall y, x.2 = RFront y -> y = v).
  Proof using Hcfg.
    intros (w & H) Hd Hm. destruct (reach_ok _ _ _ H) as (g & HI & Hl).
    destruct (gi_lruns _ _ HI) as (kc & kp & Hr).
    assert (Hty : Forall typed (erase (g_l g))) by (rewrite Hl; exact (xsteps_typed c _ _ _ _ H)).
    destruct (lruns_front _ _ _ _ _ Hr Hty) as [Ha _].
    destruct (lruns_tcalls _ _ 1 _ _ _ Hr) as [_ H1]. rewrite Hl, Hd in H1. rewrite H1 in Ha.
    apply all_agree_app in Ha as [Ha _]. by apply (agree_next _ _ _ _ _ _ Ha Hm v).
  Qed.
End main.

(** ** Index arithmetic *)

Lemma arith_main M w r n :
  (0 < M <= 2 ^ 63)%N -> (w < M)%N -> (r < M)%N -> (n < M)%N ->
  (forall fuel, next_loop (S fuel) (add64 w 1) M = Some (if decide (w + 1 = M) then 0 else w + 1))%N /\
  (read_available w r M = if decide (r <= w) then w - r else w + M - r)%N /\
  (read_available w r M + write_available w r M = M - 1)%N /\
  (sections w n M =
     if decide (M < w + n) then (M, Some (w + n - M), w + n - M)
     else (w + n, None, if decide (w + n = M) then 0 else w + n))%N.
Proof.
  intros HM Hw Hr Hn.
  assert (HwM : ((w + M) mod M = w)%N).
  { replace (w + M)%N with (w + 1 * M)%N by lia. by rewrite N.mod_add, N.mod_small by lia. }
  assert (Hra : (read_available w r M = if decide (r <= w) then w - r else w + M - r)%N).
  { destruct (decide (r <= w)%N).
    - pose proof (read_available_ok M HM w r ltac:(lia)) as H. rewrite !N.mod_small in H by done. done.
    - pose proof (read_available_ok M HM (w + M) r ltac:(lia)) as H.
      rewrite HwM, (N.mod_small r) in H by done. exact H. }
  split; [|split; [done|split]].
  - intros fuel. rewrite next_loop_ok by done. clear Hra. destruct (decide (w + 1 = M)%N) as [->|].
    + by rewrite N.mod_same by lia.
    + by rewrite N.mod_small by lia.
  - rewrite Hra. destruct (decide (r <= w)%N).
    + pose proof (write_available_ok M HM w r ltac:(lia)) as H. rewrite !N.mod_small in H by done. lia.
    + pose proof (write_available_ok M HM (w + M) r ltac:(lia)) as H.
      rewrite HwM, (N.mod_small r) in H by done. lia.
  - pose proof (sections_ok M HM w n Hn) as H. rewrite (N.mod_small w M) in H by done. rewrite H.
    destruct (decide (M < w + n)%N).
    + replace (w + n)%N with (w + n - M + 1 * M)%N at 2 by lia. by rewrite N.mod_add, N.mod_small by lia.
    + destruct (decide (w + n = M)%N) as [->|]; [by rewrite N.mod_same by lia|by rewrite N.mod_small by lia].
Qed.

Lemma index_main {V} c h (s : xstate V) m :
  code_cfg c -> xreach c h s -> m ∈ x_w s \/ m ∈ x_r s -> (m_val m < x_max c)%N.
Proof.
  intros Hcfg (w & H) Hm. destruct (reach_ok c Hcfg _ _ _ H) as (g & HI & Hl).
  assert (x_max c <> 0)%N by (destruct Hcfg as (? & _); lia).
  assert (HW : WI c (x_w s) (x_r s) (x_prod s) (x_cons s) g) by apply HI.
  destruct Hm as [Hm|Hm]; apply elem_of_list_lookup in Hm as [k Hk].
  - destruct (lookup_lt_is_Some_2 (g_cw g) k) as [n Hn].
    { rewrite (wi_lenw _ _ _ _ _ _ HW). by eapply lookup_lt_Some. }
    rewrite (wi_valw _ _ _ _ _ _ HW k m n Hk Hn). by apply N.mod_lt.
  - destruct (lookup_lt_is_Some_2 (g_cr g) k) as [n Hn].
    { rewrite (wi_lenr _ _ _ _ _ _ HW). by eapply lookup_lt_Some. }
    rewrite (wi_valr _ _ _ _ _ _ HW k m n Hk Hn). by apply N.mod_lt.
Qed.

(** An empty buffer (capacity SIZE_MAX): the loop of next_index does not end. *)
Lemma next_loop_zero fuel ret : next_loop fuel ret 0 = None.
Proof. revert ret. induction fuel as [|fuel IH]; intros ret; cbn [next_loop]; (destruct (N.leb_spec 0 ret); [|lia]); [done|apply IH]. Qed.

(** ** Exceptions *)

(** The queue is as before: the indices, and the objects in the slots. *)
Definition same_queue {V} (s s' : xstate V) : Prop :=
  x_w s' = x_w s /\ x_r s' = x_r s /\
  forall i, s_val (slot_at (x_slots s') i) = s_val (slot_at (x_slots s) i).

Lemma acc_same {V} wr (sl : gmap N (slot V)) (h : thread V) i x y h' :
  s_val (slot_at sl i) = Some x -> acc_c wr (slot_at sl i) h (Some x) = Some (y, h') ->
  forall j, s_val (slot_at (<[i := y]> sl) j) = s_val (slot_at sl j).
Proof.
  intros Hx Ha j. unfold acc_c in Ha. destruct (decide _); [|done]. injection Ha as <- <-.
  unfold slot_at in *. destruct (decide (i = j)) as [->|].
  - by rewrite lookup_insert, Hx.
  - by rewrite lookup_insert_ne.
Qed.

Lemma throw_one_main {V} c (s s' : xstate V) k r evs :
  t_pc (x_cons s) = Some (C3 r) -> xstep c s (XRun RC k true) = XNext s' evs ->
  same_queue s s' /\ t_pc (x_cons s') = Some (XRet RThrow).
Proof.
  intros Hpc Hs. unfold xstep in Hs. rewrite Hpc in Hs. destruct (x_dead s); [done|]. simpl in Hs.
  unfold consume in Hs. destruct (decide _); [done|].
  destruct (s_val (slot_at (x_slots s) r)) as [x|] eqn:Hx; [|done].
  destruct (acc_c _ _ _ _) as [[y h']|] eqn:Ha; [|done]. injection Hs as <- <-.
  split; [|done]. split; [done|]. split; [done|]. simpl. by eapply acc_same.
Qed.

(** In every step of a consume_all on elements without destructor that does
    not store the index. *)
Lemma throw_all_main {V} c (s s' : xstate V) k thr evs :
  x_triv c = true ->
  match t_pc (x_cons s) with Some (B3 _ _ _ _ _ _) | Some (B4 _ _ _ _ _ _ _) => True | _ => False end ->
  xstep c s (XRun RC k thr) = XNext s' evs -> same_queue s s'.
Proof.
  intros Ht Hpc Hs. unfold xstep in Hs. destruct (x_dead s); [done|].
  destruct (t_pc (x_cons s)) as [pc|] eqn:Hp; [|done]. destruct pc as
    [| | | | | | | | | | | | | | | | | | | |kd i e e2 nr acc|kd i e e2 nr acc x| | | | | | |]; try done; simpl in Hs.
  - destruct (decide (i = e)).
    + destruct e2; injection Hs as <- <-; done.
    + unfold consume in Hs. destruct (decide _); [done|].
      destruct (s_val (slot_at (x_slots s) i)) as [x|] eqn:Hx; [|done].
      destruct (acc_c _ _ _ _) as [[y h']|] eqn:Ha; [|done].
      destruct thr; [destruct (b_user kd && _)|]; simplify_eq/=;
        (split; [done|]; split; [done|]; simpl; by eapply acc_same).
  - unfold destroy in Hs. rewrite Ht in Hs. injection Hs as <- <-. done.
Qed.
