(** * consume_all with tags that wrap around, within one tag period *)
From stdpp Require Import gmap list numbers.
From Verif Require Import Lin LinObs PoolModel LoopModel LoopObs LoopFacts LoopWrapObs WrapPool.
From Verif Require QueueModel QueueSpec QueueObs QueueDemo QueueMain QueueQuiet QueueWrapObs QueueWrap QueueWrapMain LoopQueue.
From Verif Require StackModel StackSpec StackObs StackDemo StackMain StackFlow StackWrapObs StackWrap StackWrapMain LoopStack.

Set Default Proof Using "Type".

(** ** The loop on top of two machines, one the image of the other *)
Section loop.
  Context {st ch op ret V : Type}.
  Context (step step0 : st -> ch -> bout st (event op ret)) (busy : st -> nat -> bool)
    (who : ch -> nat) (unsync : ch -> bool) (call_pop : nat -> ch) (got : ret -> popped V) (after : bool).
  Context (m : st -> st) (ok : st -> Prop).

  Definition mbout (o : bout st (event op ret)) : bout st (event op ret) :=
    match o with BNext b evs => BNext (m b) evs | BUB => BUB | BDisabled => BDisabled end.
  Definition mlst (s : @lstate st V) : @lstate st V := LSt (m (l_st s)) (l_in s).
  Definition mlout (o : bout (@lstate st V) (ltrace op ret V)) : bout (@lstate st V) (ltrace op ret V) :=
    match o with BNext b evs => BNext (mlst b) evs | BUB => BUB | BDisabled => BDisabled end.

  Context (Hstep : forall b x, ok b -> step (m b) x = mbout (step0 b x)).
  Context (Hbusy : forall b t, busy (m b) t = busy b t).

  Lemma lstep_mod s x : ok (l_st s) ->
    lstep step busy who unsync call_pop got after (mlst s) x =
    mlout (lstep step0 busy who unsync call_pop got after s x).
  Proof using Hstep Hbusy.
    intros Hok. destruct x as [y|t|t y thr]; cbn [lstep mlst l_in l_st].
    - case_decide; [|done]. rewrite Hstep by done. by destruct (step0 (l_st s) y).
    - rewrite Hbusy. by case_decide.
    - destruct (l_in s !! t) as [[n|n|n v|n]|]; [..|done].
      + rewrite Hstep by done. by destruct (step0 (l_st s) (call_pop t)).
      + case_decide; [|done]. rewrite Hstep by done.
        destruct (step0 (l_st s) y) as [b [|[t' o|t' r] [|]]| |]; try done. cbn [mbout]. by destruct (got r).
      + by destruct thr, after.
      + done.
  Qed.

  (** A step is the step below that [lbelow] names, or none. *)
  Lemma lstep_lbelow s x s' evs :
    lstep step busy who unsync call_pop got after s x = BNext s' evs ->
    match lbelow call_pop s x with
    | Some y => exists bevs, step (l_st s) y = BNext (l_st s') bevs
    | None => l_st s' = l_st s
    end.
  Proof.
    destruct x as [y|t|t y thr]; cbn [lstep lbelow].
    - case_decide; [|done]. destruct (step (l_st s) y) as [b bevs| |]; [|done|done].
      intros H'. injection H' as <- <-. by exists bevs.
    - case_decide; [|done]. intros H'. by injection H' as <- <-.
    - destruct (l_in s !! t) as [[n|n|n v|n]|]; [..|done].
      + destruct (step (l_st s) (call_pop t)) as [b bevs| |]; [|done|done].
        intros H'. injection H' as <- <-. by exists bevs.
      + case_decide; [|done]. destruct (step (l_st s) y) as [b [|[t' o|t' r] [|]]| |]; try done.
        * intros H'. injection H' as <- <-. by eexists.
        * destruct (got r); intros H'; try done; injection H' as <- <-; by eexists.
      + destruct thr; [destruct after; [|done]|]; intros H'; by injection H' as <- <-.
      + intros H'; by injection H' as <- <-.
  Qed.
End loop.

(** ** The queue *)
Section queue.
  Import QueueModel QueueSpec QueueObs QueueDemo QueueMain QueueWrapObs QueueWrap QueueWrapMain LoopQueue.
  Context (c : cfg) (M : N) (Hc : c_tagmod c = Some M) (HM : (2 <= M)%N).
  Notation c0 := (nowrap c).
  Notation qltrace := (ltrace qop qret val).
  Notation qlstate := (@lstate qstate val).
  Notation ml := (mlst (V := val) (mstate M)).

  Lemma qbelow_mod b x : sclear M b -> qbelow c (mstate M b) x = mbout (mstate M) (qbelow c0 b x).
  Proof using Hc HM.
    intros H. unfold qbelow. rewrite (qstep_mod c M Hc ltac:(lia)) by done. by destruct (qstep c0 b x).
  Qed.
  Lemma qbusy_mod b t : qbusy (mstate M b) t = qbusy b t.
  Proof.
    unfold qbusy. apply bool_decide_ext. cbn [mstate q_pcs]. by rewrite lookup_fmap, fmap_is_Some.
  Qed.
  Lemma qlstep_mod (s : qlstate) x : sclear M (l_st s) -> qlstep c (ml s) x = mlout (mstate M) (qlstep c0 s x).
  Proof using Hc HM.
    intros H. unfold qlstep. apply (lstep_mod _ _ _ _ _ _ _ _ _ (sclear M)); [|apply qbusy_mod|done].
    intros b y. apply qbelow_mod.
  Qed.

  Definition small (s : qlstate) (k : nat -> qloc -> nat) : Prop :=
    forall t l, is_Some (q_pcs (l_st s) !! t) -> (N.of_nat (k t l) < M)%N.

  Lemma ql_clear (s : qlstate) k : near (l_st s) k -> small (ml s) k -> sclear M (l_st s).
  Proof using HM.
    intros Hn Hk. apply (near_clear M HM _ k Hn). intros t l Hx. apply Hk.
    cbn [mlst l_st mstate q_pcs]. by rewrite lookup_fmap, fmap_is_Some.
  Qed.

  (** One step. *)
  Lemma ql_sim_step ns tr (s : qlstate) k x s1 evs :
    qlreach c0 ns tr s -> near (l_st s) k -> small (ml s) k -> qlwstep c M (ml s) k x s1 evs ->
    exists s', s1 = ml s' /\ qlstep c0 s x = BNext s' evs /\ qlreach c0 ns (tr ++ evs) s' /\
      near (l_st s') (qlcount k (ml s) x s1) /\ small s1 (qlcount k (ml s) x s1).
  Proof using Hc HM.
    intros Hr Hn Hk [Hs Hb]. rewrite qlstep_mod in Hs by (by eapply ql_clear).
    destruct (qlstep c0 s x) as [s' evs'| |] eqn:E; [|done|done]. injection Hs as <- <-.
    exists s'. split; [done|]. split; [done|]. split.
    { destruct Hr as (addr & s0 & H1 & H2 & H3 & H4 & H). exists addr, s0. do 4 (split; [done|]). by econstructor. }
    split; [|exact Hb].
    apply lstep_lbelow in E. unfold qlcount.
    change (lbelow (fun t => Invoke t Pop false) (ml s) x) with (lbelow (fun t => Invoke t Pop false) s x).
    destruct (lbelow _ s x) as [y|].
    - destruct E as [bevs E]. apply qbelow_next in E.
      destruct (QueueQuiet.qreach_ok c0 eq_refl _ _ _ (qlreach_below _ _ _ _ Hr)) as (g & HI & _).
      eapply near_step; [done|exact HI|exact Hn|exact E].
    - by rewrite E.
  Qed.

  Lemma qinit_pcs c' ns addr s : qinit c' ns addr = Some s -> q_pcs s = ∅.
  Proof.
    unfold qinit. destruct (pool_init _ _ _) as [h0 p0]. destruct (alloc_unsafe _ _ _ _ _ _) as [|h1 p1 n1| | | |]; try done.
    - destruct (_ !! _) as [nd1|]; [|done]. intros H. by injection H as <-.
    - intros H. by injection H as <-.
  Qed.

  Lemma ql_sim_at ns tr s1 k :
    qlwat c M ns tr s1 k ->
    small s1 k /\ exists s, s1 = ml s /\ qlreach c0 ns tr s /\ near (l_st s) k.
  Proof using Hc HM.
    intros (addr & s0 & H1 & H2 & H3 & H4 & H5).
    rewrite (qinit_mod c M Hc ltac:(lia)) in H4. apply fmap_Some in H4 as (s00 & H4 & ->).
    pose proof (qinit_pcs _ _ _ _ H4) as Hp.
    induction H5 as [|tr s1 k x s1' evs Hw IH Hs].
    - split.
      { intros t l. cbn [l_st mstate q_pcs]. rewrite Hp, fmap_empty, lookup_empty. by intros [? ?]. }
      exists (LSt s00 ∅). split; [done|]. split.
      + exists addr, s00. do 4 (split; [done|]). constructor.
      + intros t pc l y Hpc. cbn [l_st] in Hpc. by rewrite Hp, lookup_empty in Hpc.
    - destruct IH as (Hk & s & -> & Hr & Hn).
      destruct (ql_sim_step _ _ _ _ _ _ _ Hr Hn Hk Hs) as (s' & -> & _ & Hr' & Hn' & Hk').
      split; [done|]. exists s'. done.
  Qed.

  Lemma ql_sim ns tr s1 :
    qlwreach c M ns tr s1 -> exists s, s1 = ml s /\ qlreach c0 ns tr s /\ sclear M (l_st s).
  Proof using Hc HM.
    intros [k H]. destruct (ql_sim_at _ _ _ _ H) as (Hk & s & -> & Hr & Hn). exists s.
    do 2 (split; [done|]). by eapply ql_clear.
  Qed.

  Lemma ql_sim_call ns t w1 s1 k :
    qlwcall c M ns t w1 s1 k ->
    small s1 k /\ exists w s tr, w1 = ml <$> w /\ s1 = ml s /\ qlcall c0 ns t w s /\ qlreach c0 ns tr s /\ near (l_st s) k.
  Proof using Hc HM.
    induction 1 as [tr s1 k s1' evs Ha Hs|w1 s1 k x s1' evs Hw IH Hs Hin].
    - destruct (ql_sim_at _ _ _ _ Ha) as (Hk & s & -> & Hr & Hn).
      destruct (ql_sim_step _ _ _ _ _ _ _ Hr Hn Hk Hs) as (s' & -> & Hs0 & Hr' & Hn' & Hk').
      split; [done|]. exists [s'], s', (tr ++ evs). do 2 (split; [done|]). split; [|done]. exact (qlcall_start _ _ _ _ _ _ _ Hr Hs0).
    - destruct IH as (Hk & w & s & tr & -> & -> & Hcl & Hr & Hn).
      destruct (ql_sim_step _ _ _ _ _ _ _ Hr Hn Hk Hs) as (s' & -> & Hs0 & Hr' & Hn' & Hk').
      split; [done|]. exists (w ++ [s']), s', (tr ++ evs). split; [by rewrite fmap_app|]. split; [done|].
      split; [|done]. by eapply qlcall_step.
  Qed.

  Lemma wql_safe ns tr s x : qlwreach c M ns tr s -> qlstep c s x <> BUB.
  Proof using Hc HM.
    intros H. destruct (ql_sim _ _ _ H) as (s0 & -> & Hr & Hcl). rewrite qlstep_mod by done.
    pose proof (ql_safe c0 eq_refl _ _ _ x Hr). by destruct (qlstep c0 s0 x).
  Qed.

  Lemma wql_linearizable ns tr s :
    qlwreach c M ns tr s -> hw_linearizable [] (qspec (c_node_based c) (c_throws c)) (omap below tr).
  Proof using Hc HM.
    intros H. destruct (ql_sim _ _ _ H) as (s0 & -> & Hr & _).
    exact (proj1 (linearizable_main c0 eq_refl _ _ _ (qlreach_below _ _ _ _ Hr))).
  Qed.

  Lemma wql_call ns tr s t p m n q :
    qlwreach c M ns tr s -> tr = p ++ AllCall t :: m ++ AllRet t n :: q -> AllCall t ∉ m ->
    exists vs, n = length vs /\
      of_thread t m = rounds Pop (fun v => RPop (Some v)) t vs ++ last_round Pop (RPop None) t.
  Proof using Hc HM.
    intros H. destruct (ql_sim _ _ _ H) as (s0 & -> & Hr & _). exact (ql_call c0 _ _ _ _ _ _ _ _ Hr).
  Qed.

  Lemma wql_empty ns t w n : qlwcallret c M ns t w n -> exists s, s ∈ w /\ qcontents c (l_st s) [].
  Proof using Hc HM.
    intros (s1 & k & x & thr & s1' & Hw & Hs).
    destruct (ql_sim_call _ _ _ _ _ Hw) as (Hk & w0 & s & tr & -> & -> & Hcl & Hr & Hn).
    rewrite qlstep_mod in Hs by (by eapply ql_clear).
    destruct (qlstep c0 s (LGo t x thr)) as [s' evs'| |] eqn:E; [|done|done]. injection Hs as <- ->.
    destruct (ql_empty c0 eq_refl ns t w0 n) as (z & Hz & Ha); [by exists s, x, thr, s'|].
    exists (ml z). split; [by apply elem_of_list_fmap_1|]. by apply contents_mod.
  Qed.

  Lemma wql_quiet (s : qlstate) : qlquiescent (ml s) <-> qlquiescent s.
  Proof. unfold qlquiescent. cbn [mlst l_st l_in mstate q_pcs]. by rewrite fmap_empty_iff. Qed.

  Lemma wql_conserve ns tr s :
    qlwreach c M ns tr s -> qlquiescent s ->
    exists a, qcontents c (l_st s) a /\
      omap puts (completed (omap below tr)) ≡ₚ omap received tr ++ a.
  Proof using Hc HM.
    intros H Hq. destruct (ql_sim _ _ _ H) as (s0 & -> & Hr & _). apply (proj1 (wql_quiet _)) in Hq.
    destruct (ql_conserve c0 eq_refl _ _ _ Hr Hq) as (a & Ha & Hp). exists a. split; [by apply contents_mod|done].
  Qed.

  (** Images of reachable states. *)
  Definition image (b : qstate) : Prop := exists ns hist b0, b = mstate M b0 /\ qreach c0 ns hist b0.

  Lemma image_pops : pops_alone c image.
  Proof using Hc HM.
    intros b a t (ns & hist & b0 & -> & Hr) Hq Ha. apply quiescent_mod in Hq. apply contents_mod in Ha.
    destruct (pop_quiet_main c0 eq_refl ns hist b0 a t false Hr Hq Ha) as (k & b' & Hrun & Hq' & Ha').
    exists k, (mstate M b'). split; [|split; [by apply quiescent_mod|split; [by apply contents_mod|]]].
    - apply (mod_run c M Hc HM b0 b' _ _ t); [apply solo_call|done|exact Hrun].
    - exists ns. eexists _, b'. split; [done|]. eapply qreach_ext; [exact Hr|]. by eapply qrun_exec.
  Qed.

  Lemma image_pushes v : c_throws c = false -> length v = c_words c -> pushes_alone c image v.
  Proof using Hc HM.
    intros Hth Hv b t (ns & hist & b0 & -> & Hr) Hq Ha Hm. apply quiescent_mod in Hq. apply contents_mod in Ha.
    rewrite heap_size in Hm.
    destruct (pushes_reached c0 eq_refl v Hth Hv b0 t) as (k & b' & Hrun & Hq' & Ha' & Hr'); [by exists ns, hist|done..|].
    exists k, (mstate M b'). split; [|split; [by apply quiescent_mod|split; [by apply contents_mod|]]].
    - apply (mod_run c M Hc HM b0 b' _ _ t); [apply solo_call|done|exact Hrun].
    - destruct Hr' as (ns' & hist' & Hr'). by exists ns', hist', b'.
  Qed.

  Lemma qlw_image ns tr s : qlwreach c M ns tr s -> image (l_st s).
  Proof using Hc HM.
    intros H. destruct (ql_sim _ _ _ H) as (s0 & -> & Hr & _). exists ns. eexists _, (l_st s0).
    split; [done|]. by eapply qlreach_below.
  Qed.

  Lemma wql_alone ns tr s a t :
    qlwreach c M ns tr s -> qlquiescent s -> qcontents c (l_st s) a ->
    exists s', qlquiescent s' /\ qcontents c (l_st s') [] /\
      qlexec c s ([AllCall t] ++ rounds Pop (fun v => RPop (Some v)) t a ++ last_round Pop (RPop None) t ++
        [AllRet t (length a)]) s'.
  Proof using Hc HM. intros H. apply (ql_alone_from c image); [apply image_pops|by eapply qlw_image]. Qed.

  Lemma wql_unbounded ns tr s t u v k :
    t <> u -> c_throws c = false -> length v = c_words c ->
    qlwreach c M ns tr s -> qlquiescent s -> qcontents c (l_st s) [] -> 2 <= size (q_heap (q_sh (l_st s))) ->
    exists tr' s', qlexec c s (AllCall t :: tr') s' /\ is_Some (l_in s' !! t) /\
      of_thread t tr' = rounds Pop (fun v => RPop (Some v)) t (replicate k v) /\
      of_thread u tr' = concat (replicate k [Own (Inv u (Push true v)); Own (Res u (RBool true))]).
  Proof using Hc HM.
    intros Hne Hth Hv H. apply (ql_unbounded_from c image); [done|apply image_pops|by apply image_pushes|by eapply qlw_image].
  Qed.
End queue.

(** ** The stack *)
Section stack.
  Import StackModel StackSpec StackObs StackDemo StackMain StackFlow StackWrapObs StackWrap StackWrapMain LoopStack.
  Context (c : cfg) (M : N) (Hc : c_tagmod c = Some M) (HM : (2 <= M)%N).
  Notation c0 := (nowrap c).
  Notation sltrace := (ltrace sop sret N).
  Notation slstate := (@lstate sstate N).
  Notation ml := (mlst (V := N) (mstate M)).

  Lemma sbelow_mod b x : sclear M b -> sbelow c (mstate M b) x = mbout (mstate M) (sbelow c0 b x).
  Proof using Hc HM.
    intros H. unfold sbelow. rewrite (sstep_mod c M Hc ltac:(lia)) by done. by destruct (sstep c0 b x).
  Qed.
  Lemma sbusy_mod b t : sbusy (mstate M b) t = sbusy b t.
  Proof.
    unfold sbusy. apply bool_decide_ext. cbn [mstate s_pcs]. by rewrite lookup_fmap, fmap_is_Some.
  Qed.
  Lemma slstep_mod (s : slstate) x : sclear M (l_st s) -> slstep c (ml s) x = mlout (mstate M) (slstep c0 s x).
  Proof using Hc HM.
    intros H. unfold slstep. apply (lstep_mod _ _ _ _ _ _ _ _ _ (sclear M)); [|apply sbusy_mod|done].
    intros b y. apply sbelow_mod.
  Qed.

  Definition ssmall (s : slstate) (k : nat -> sloc -> nat) : Prop :=
    forall t l, is_Some (s_pcs (l_st s) !! t) -> (N.of_nat (k t l) < M)%N.

  Lemma sl_clear (s : slstate) k : near (l_st s) k -> ssmall (ml s) k -> sclear M (l_st s).
  Proof using HM.
    intros Hn Hk. apply (near_clear M HM _ k Hn). intros t l Hx. apply Hk.
    cbn [mlst l_st mstate s_pcs]. by rewrite lookup_fmap, fmap_is_Some.
  Qed.

  Lemma sl_sim_step (s : slstate) k x s1 evs :
    near (l_st s) k -> ssmall (ml s) k -> slwstep c M (ml s) k x s1 evs ->
    exists s', s1 = ml s' /\ slstep c0 s x = BNext s' evs /\
      near (l_st s') (slcount k (ml s) x s1) /\ ssmall s1 (slcount k (ml s) x s1).
  Proof using Hc HM.
    intros Hn Hk [Hs Hb]. rewrite slstep_mod in Hs by (by eapply sl_clear).
    destruct (slstep c0 s x) as [s' evs'| |] eqn:E; [|done|done]. injection Hs as <- <-.
    exists s'. split; [done|]. split; [done|]. split; [|exact Hb].
    apply lstep_lbelow in E. unfold slcount.
    change (lbelow (fun t => Invoke t SPop) (ml s) x) with (lbelow (fun t => Invoke t SPop) s x).
    destruct (lbelow _ s x) as [y|].
    - destruct E as [bevs E]. apply sbelow_next in E. eapply near_step; [done|exact Hn|exact E].
    - by rewrite E.
  Qed.

  Lemma sl_sim_at ns tr s1 k :
    slwat c M ns tr s1 k ->
    ssmall s1 k /\ exists s, s1 = ml s /\ slreach c0 ns tr s /\ near (l_st s) k.
  Proof using Hc HM.
    intros (H1 & H2 & H3 & H5). rewrite (sinit_mod c M ltac:(lia)) in H5.
    assert (Hp : s_pcs (sinit c0 ns) = ∅) by (unfold sinit; by destruct (pool_init c0 None ns)).
    cut (ssmall s1 k /\ exists s, s1 = ml s /\ slexec c0 (LSt (sinit c0 ns) ∅) tr s /\ near (l_st s) k).
    { intros (Hk & s & -> & He & Hn). split; [done|]. exists s. done. }
    clear H3. induction H5 as [|tr s1 k x s1' evs Hw IH Hs].
    - split.
      { intros t l. cbn [l_st mstate s_pcs]. rewrite Hp, fmap_empty, lookup_empty. by intros [? ?]. }
      exists (LSt (sinit c0 ns) ∅). split; [done|]. split; [constructor|].
      intros t pc l y Hpc. cbn [l_st] in Hpc. by rewrite Hp, lookup_empty in Hpc.
    - destruct IH as (Hk & s & -> & Hr & Hn).
      destruct (sl_sim_step _ _ _ _ _ Hn Hk Hs) as (s' & -> & Hs0 & Hn' & Hk').
      split; [done|]. exists s'. split; [done|]. split; [by econstructor|done].
  Qed.

  Lemma sl_sim ns tr s1 :
    slwreach c M ns tr s1 -> exists s, s1 = ml s /\ slreach c0 ns tr s /\ sclear M (l_st s).
  Proof using Hc HM.
    intros [k H]. destruct (sl_sim_at _ _ _ _ H) as (Hk & s & -> & Hr & Hn). exists s.
    do 2 (split; [done|]). by eapply sl_clear.
  Qed.

  Lemma sl_sim_call ns t w1 s1 k :
    slwcall c M ns t w1 s1 k ->
    ssmall s1 k /\ exists w s, w1 = ml <$> w /\ s1 = ml s /\ slcall c0 ns t w s /\ near (l_st s) k.
  Proof using Hc HM.
    induction 1 as [tr s1 k s1' evs Ha Hs|w1 s1 k x s1' evs Hw IH Hx Hs Hin].
    - destruct (sl_sim_at _ _ _ _ Ha) as (Hk & s & -> & Hr & Hn).
      destruct (sl_sim_step _ _ _ _ _ Hn Hk Hs) as (s' & -> & Hs0 & Hn' & Hk').
      split; [done|]. exists [s'], s'. do 2 (split; [done|]). split; [|done]. exact (slcall_start _ _ _ _ _ _ _ Hr Hs0).
    - destruct IH as (Hk & w & s & -> & -> & Hcl & Hn).
      destruct (sl_sim_step _ _ _ _ _ Hn Hk Hs) as (s' & -> & Hs0 & Hn' & Hk').
      split; [done|]. exists (w ++ [s']), s'. split; [by rewrite fmap_app|]. split; [done|].
      split; [|done]. by eapply slcall_step.
  Qed.

  Lemma wsl_safe ns tr s x : slwreach c M ns tr s -> slch_ok x -> slstep c s x <> BUB.
  Proof using Hc HM.
    intros H Hx. destruct (sl_sim _ _ _ H) as (s0 & -> & Hr & Hcl). rewrite slstep_mod by done.
    pose proof (sl_safe c0 eq_refl _ _ _ x Hr Hx). by destruct (slstep c0 s0 x).
  Qed.

  Lemma wsl_linearizable ns tr s :
    slwreach c M ns tr s -> hw_linearizable [] (sspec (c_node_based c) (c_throws c)) (omap below tr).
  Proof using Hc HM.
    intros H. destruct (sl_sim _ _ _ H) as (s0 & -> & Hr & _).
    exact (proj1 (linearizable_main c0 eq_refl _ _ _ (slreach_below _ _ _ _ Hr))).
  Qed.

  Lemma wsl_call ns tr s t p m n q :
    slwreach c M ns tr s -> tr = p ++ AllCall t :: m ++ AllRet t n :: q -> AllCall t ∉ m ->
    exists vs, n = length vs /\
      of_thread t m = rounds SPop (fun v => SGot (Some v)) t vs ++ last_round SPop (SGot None) t.
  Proof using Hc HM.
    intros H. destruct (sl_sim _ _ _ H) as (s0 & -> & Hr & _). exact (sl_call c0 _ _ _ _ _ _ _ _ Hr).
  Qed.

  Lemma wsl_empty ns t w n : slwcallret c M ns t w n -> exists s, s ∈ w /\ scontents c (l_st s) [].
  Proof using Hc HM.
    intros (s1 & k & x & thr & s1' & Hw & Hs).
    destruct (sl_sim_call _ _ _ _ _ Hw) as (Hk & w0 & s & -> & -> & Hcl & Hn).
    rewrite slstep_mod in Hs by (by eapply sl_clear).
    destruct (slstep c0 s (LGo t x thr)) as [s' evs'| |] eqn:E; [|done|done]. injection Hs as <- ->.
    destruct (sl_empty c0 eq_refl ns t w0 n) as (z & Hz & Ha); [by exists s, x, thr, s'|].
    exists (ml z). split; [by apply elem_of_list_fmap_1|]. by apply contents_mod.
  Qed.

  Lemma wsl_quiet (s : slstate) : slquiescent (ml s) <-> slquiescent s.
  Proof. unfold slquiescent. cbn [mlst l_st l_in mstate s_pcs]. by rewrite fmap_empty_iff. Qed.

  Lemma wsl_conserve ns tr s :
    slwreach c M ns tr s -> slquiescent s ->
    exists D a, scontents c (l_st s) a /\
      (completed (omap below tr) ≫= sputs) ≡ₚ (tr ≫= sreceived) ++ D ++ a /\
      (Forall (fun x => cut_short x = false) (completed (omap below tr)) -> D = []).
  Proof using Hc HM.
    intros H Hq. destruct (sl_sim _ _ _ H) as (s0 & -> & Hr & _). apply (proj1 (wsl_quiet _)) in Hq.
    destruct (sl_conserve c0 eq_refl _ _ _ Hr Hq) as (D & a & Ha & Hp). exists D, a. split; [by apply contents_mod|done].
  Qed.

  Definition simage (b : sstate) : Prop := exists b0, b = mstate M b0 /\ reached c0 b0.

  Lemma simage_pops : pops_alone c simage.
  Proof using Hc HM.
    intros b a t (b0 & -> & Hr) Hq Ha. apply quiescent_mod in Hq. apply contents_mod in Ha.
    destruct (pops_reached c0 eq_refl b0 a t Hr Hq Ha) as (k & b' & Hrun & Hq' & Ha' & Hr').
    exists k, (mstate M b'). split; [|split; [by apply quiescent_mod|split; [by apply contents_mod|by exists b']]].
    apply (mod_run c M Hc HM b0 b' _ _ t); [apply solo_call|done|exact Hrun].
  Qed.

  Lemma wsl_alone ns tr s a t :
    slwreach c M ns tr s -> slquiescent s -> scontents c (l_st s) a ->
    exists s', slquiescent s' /\ scontents c (l_st s') [] /\
      slexec c s ([AllCall t] ++ rounds SPop (fun v => SGot (Some v)) t a ++ last_round SPop (SGot None) t ++
        [AllRet t (length a)]) s'.
  Proof using Hc HM.
    intros H. apply (sl_alone_from c simage); [apply simage_pops|].
    destruct (sl_sim _ _ _ H) as (s0 & -> & Hr & _). exists (l_st s0). split; [done|].
    exists ns. eexists. by eapply slreach_below.
  Qed.
End stack.
