(** * The queue is lock-free

    A potential argument.  [q_work] counts the changes of a shared word that a
    call may still make; every such change uses up a unit.  Between two of them
    a thread can take only a bounded number of steps before it returns. *)
From stdpp Require Import gmap list numbers.
From Verif Require Import Lin LiveSum PoolModel Chain PoolProofs QueueModel QueueSpec QueueObs
  QueueInv QueueStep QueueSafe QueueObsProofs QueueQuiet.

Set Default Proof Using "Type".

(** ** Vocabulary of the statement *)

(** How many times a call at this point may still change head_, tail_, pool_ or
    a link of the list: a push takes a node from the pool, links it and swings
    the tail; a pop moves the head and gives a node back. *)
Definition q_work (pc : qpc) : nat :=
  match pc with
  | PcAlloc _ _ _ => 3
  | PcWord _ _ _ | PcNStore _ _ | PcPTail _ | PcPNext _ _ | PcPCheck _ _ _ | PcPLink _ _ _
  | PcPSwing _ _ _ => 2
  | PcOHead | PcOTail _ | PcONext _ _ | PcOCheck _ _ _ | PcOSwing _ _ | PcOCopy _ _ _ => 2
  | PcDealloc _ _ (KRet _) => 1
  | PcDealloc _ _ (KReserve k) => S k
  | PcReserve k => k
  | PcPDone _ _ | PcEHead | PcEHeadTail _ | PcETail | PcETailHead _ | PcRet _ => 0
  end.

(** The same for a call that has not begun. *)
Definition q_opwork (o : qop) : nat :=
  match o with
  | Push _ _ => 3
  | Pop => 2
  | Reserve n => n
  | _ => 0
  end.

(** Steps of threads without spurious failures, and invocations of thread-safe
    operations. *)
Definition q_fair (ch : qchoice) : Prop :=
  match ch with
  | Run _ sp _ _ => sp = false
  | Invoke _ _ _ => True
  | Unsync _ _ _ _ => False
  end.

(** The calls begun by a list of choices. *)
Definition q_invoked (chs : list qchoice) : list qop :=
  omap (fun ch => match ch with Invoke _ o _ => Some o | _ => None end) chs.

(** With [n] threads and [w] changes to come, so many steps are possible before
    a call completes. *)
Definition q_bound (c : cfg) (n w : nat) : nat :=
  let l := 2 * c_words c + 21 in (w + 1) * (n * l + 1) + n * l.

Section live.
  Context (c : cfg).
  Notation null := (c_null c).
  Notation GI := (GI c).
  Notation tinv := (tinv c).
  Notation Inv := (Inv c).

  (** The link stored in a node. *)
  Definition lk (x : qshared) (n : N) : option tagged := nx <$> q_heap x !! n.

  (** The tail is one node behind. *)
  Definition lag (x : qshared) : nat :=
    match lk x (q_tail x).1 with
    | Some y => if decide (y.1 = null) then 0 else 1
    | None => 0
    end.

  (** The words read so far by the current attempt still are what they were. *)
  Definition fresh (x : qshared) (pc : qpc) : bool :=
    match pc with
    | PcAlloc _ _ (ATest old) | PcAlloc _ _ (ACas old _) => bool_decide (q_pool x = old)
    | PcPNext _ tl | PcPSwing _ tl _ => bool_decide (q_tail x = tl)
    | PcPCheck _ tl nx' | PcPLink _ tl nx' =>
        bool_decide (q_tail x = tl) && bool_decide (lk x (q_tail x).1 = Some nx')
    | PcOTail hd | PcOCopy hd _ _ => bool_decide (q_head x = hd)
    | PcONext hd tl => bool_decide (q_head x = hd) && bool_decide (q_tail x = tl)
    | PcOCheck hd tl nx' =>
        bool_decide (q_head x = hd) && bool_decide (q_tail x = tl) &&
        bool_decide (lk x (q_head x).1 = Some nx')
    | PcOSwing tl _ => bool_decide (q_tail x = tl)
    | PcDealloc _ (DSet old) _ | PcDealloc _ (DCas old) _ => bool_decide (q_pool x = old)
    | _ => true
    end.

  (** Steps to the end of the current attempt. *)
  Definition dist (pc : qpc) : nat :=
    match pc with
    | PcAlloc _ v ALoad => 11 + length v
    | PcAlloc _ v (ATest _) => 10 + length v
    | PcAlloc _ v (ACas _ _) => 9 + length v
    | PcWord v _ k => 7 + (length v - k)
    | PcNStore _ _ => 6
    | PcPTail _ => 5
    | PcPNext _ _ => 4
    | PcPCheck _ _ _ => 3
    | PcPLink _ _ _ | PcPSwing _ _ _ => 2
    | PcPDone _ _ => 1
    | PcOHead => c_words c + 6
    | PcOTail _ => c_words c + 5
    | PcONext _ _ => c_words c + 4
    | PcOCheck _ _ _ => c_words c + 3
    | PcOCopy _ _ acc => (c_words c - length acc) + 1
    | PcOSwing _ _ => 1
    | PcDealloc _ DLoad _ => 4
    | PcDealloc _ (DSet _) _ => 3
    | PcDealloc _ (DCas _) _ => 2
    | PcReserve _ => 5
    | PcEHead | PcETail => 2
    | PcEHeadTail _ | PcETailHead _ => 1
    | PcRet _ => 0
    end.

  Definition rk (x : qshared) (pc : qpc) : nat :=
    dist pc + if fresh x pc then 0 else c_words c + 10.

  (** No word that matters has changed. *)
  Record same (x x' : qshared) : Prop := {
    sm_pool : q_pool x' = q_pool x;
    sm_head : q_head x' = q_head x;
    sm_tail : q_tail x' = q_tail x;
    sm_hlk : lk x' (q_head x).1 = lk x (q_head x).1;
    sm_tlk : lk x' (q_tail x).1 = lk x (q_tail x).1;
  }.

  Lemma same_refl x : same x x.
  Proof. done. Qed.

  Lemma fresh_same x x' pc : same x x' -> fresh x' pc = fresh x pc.
  Proof.
    intros [Hp Hh Ht Hhl Htl].
    destruct pc as [b v []|v n k|n tag|n|n tl|n tl nx'|n tl nx'|n tl|n tl np| |hd|hd tl|hd tl nx'|tl np
                   |hd np acc|n [] k|k| |h| |tl|r]; simpl;
      rewrite ?Hp, ?Hh, ?Ht, ?Hhl, ?Htl; done.
  Qed.

  Lemma lag_same x x' : same x x' -> lag x' = lag x.
  Proof. intros [Hp Hh Ht Hhl Htl]. unfold lag. by rewrite Ht, Htl. Qed.

  (** Writing to a node that is not in the list. *)
  Lemma same_write x g n nd : GI x g -> g_own g !! n <> Some OQ ->
    same x (set_heap x (<[n := nd]> (q_heap x))).
  Proof.
    intros HG Hn. split; try done; unfold lk; simpl; rewrite lookup_insert_ne; try done; intros ->.
    - apply Hn. by apply (gi_head_Q c).
    - apply Hn. by apply (gi_tail_Q c).
  Qed.

  Lemma lag_tail x g np tg :
    GI x g -> nxp (q_heap x) (q_tail x).1 = Some np -> np <> null ->
    lag x = 1 /\ lag (set_tail x (np, tg)) = 0.
  Proof.
    intros HG Hx Hn. apply nxp_inv in Hx as (nd & Hnd & Hx). subst np.
    destruct (tail_cases c x g nd HG Hnd) as [?|(_ & _ & nd2 & Hnd2 & Hx2)]; [done|].
    unfold lag, lk. simpl. rewrite Hnd, Hnd2. simpl. by rewrite decide_False, decide_True.
  Qed.

  (** If the head's link is null the head is the tail. *)
  Lemma head_last x g nd :
    GI x g -> q_heap x !! (q_head x).1 = Some nd -> (nx nd).1 = null -> (q_tail x).1 = (q_head x).1.
  Proof.
    intros HG Hnd Hn. destruct (gi_head_cons c _ _ HG) as [q Hq]. pose proof (gi_qseg _ _ _ HG) as Hs.
    pose proof (gi_tail_in c _ _ HG) as Ht. rewrite Hq in Hs, Ht.
    destruct Hs as (_ & y & Hy & Hs). rewrite (nxp_Some _ _ _ Hnd) in Hy. injection Hy as <-.
    rewrite Hn in Hs. destruct q as [|z q].
    - by apply elem_of_list_singleton in Ht.
    - exfalso. destruct Hs as [<- _]. apply (gi_null_nin c _ _ HG). rewrite Hq. right. left.
  Qed.

  (** What one step does to the potential. *)
  Definition dec (x : qshared) (pc : qpc) (x' : qshared) (pc' : qpc) : Prop :=
    lag x' + q_work pc' < lag x + q_work pc \/
    (same x x' /\ q_work pc' <= q_work pc /\ rk x' pc' < rk x pc).

  Lemma dec_stay x pc pc' :
    q_work pc' <= q_work pc -> rk x pc' < rk x pc -> dec x pc x pc'.
  Proof. intros. right. done. Qed.

  Lemma dec_tail x g tl np pc pc' :
    GI x g -> np <> null -> (q_tail x = tl -> nxp (q_heap x) tl.1 = Some np) ->
    q_work pc' <= q_work pc ->
    (q_tail x <> tl -> rk x pc' < rk x pc) ->
    dec x pc (if decide (q_tail x = tl) then set_tail x (np, next_tag c tl.2) else x) pc'.
  Proof.
    intros HG Hnp Hx Hw Hr. destruct (decide (q_tail x = tl)) as [Heq|Hne].
    - left. subst tl. destruct (lag_tail x g np (next_tag c (q_tail x).2) HG (Hx eq_refl) Hnp) as [H1 H2].
      rewrite H1, H2. lia.
    - apply dec_stay; auto.
  Qed.

  Lemma bd_refl {A} `{EqDecision A} (a : A) : bool_decide (a = a) = true.
  Proof. by apply bool_decide_eq_true. Qed.

  Context (Htag : c_tagmod c = None).

  Lemma tstep_dec t x g pc addr thr x' pc' :
    GI x g -> tinv t pc x g -> tstep c x pc false addr thr = TGo x' pc' -> dec x pc x' pc'.
  Proof using Htag.
    intros HG HT.
    assert (Hno : forall n, g_own g !! n = Some (OT t) -> g_own g !! n <> Some OQ) by congruence.
    assert (Hnf : forall n, q_heap x !! n = None -> g_own g !! n <> Some OQ).
    { intros n Hn Ho. apply (gi_own_dom c x g n OQ HG) in Ho as [? ?]. congruence. }
    destruct pc as [b v a|v n k|n tag|n|n tl|n tl nx'|n tl nx'|n tl|n tl np| |hd|hd tl|hd tl nx'|tl np
                   |hd np acc|n d k|k| |h| |tl|r]; cbn [tstep].
    - destruct HT as (Hp & Hl & Ha). destruct a as [|old|old nxt]; cbn [astep].
      + intros [= <- <-]. rewrite set_heap_pool_id. apply dec_stay; [done|].
        unfold rk; simpl. rewrite bd_refl. lia.
      + destruct (decide (old.1 = null)) as [Hn|Hn].
        * destruct (c_node_based c && negb b).
          -- destruct addr as [n|].
             ++ destruct (decide _) as [[Hf Hne]|]; [|done]. intros [= <- <-]. left.
                rewrite set_heap_pool_heap.
                rewrite (lag_same x) by (eapply same_write; eauto). simpl. lia.
             ++ intros [= <- <-]. left. simpl. lia.
          -- intros [= <- <-]. left. simpl. lia.
        * destruct (q_heap x !! old.1) as [nd|] eqn:Hnd; [|done]. intros [= <- <-].
          rewrite set_heap_pool_id. apply dec_stay; [done|]. unfold rk; simpl.
          destruct (bool_decide _); lia.
      + destruct (decide _) as [[_ Heq]|Hne].
        * intros [= <- <-]. left. unfold lag, lk; simpl. lia.
        * intros [= <- <-]. rewrite set_heap_pool_id. apply dec_stay; [done|].
          unfold rk; simpl. rewrite bd_refl. rewrite bool_decide_false by (intros ?; by apply Hne). lia.
    - destruct HT as (b & Hp & Hl & Ho & Hk & nd & Hnd & Htk). rewrite Hnd. destruct thr.
      + destruct (c_throws c); [|done]. intros [= <- <-]. left. simpl. lia.
      + destruct (v !! k) as [w|] eqn:Hw.
        * intros [= <- <-]. right. split; [eapply same_write; eauto|]. split; [done|].
          unfold rk; simpl. apply lookup_lt_Some in Hw. lia.
        * intros [= <- <-]. apply dec_stay; [done|]. unfold rk; simpl. lia.
    - destruct HT as (b & nd & Hp & Ho & Hnd & Htg). rewrite Hnd. intros [= <- <-].
      right. split; [eapply same_write; eauto|]. split; [done|]. unfold rk; simpl. lia.
    - intros [= <- <-]. apply dec_stay; [done|]. unfold rk; simpl. rewrite bd_refl. lia.
    - destruct HT as (Hpu & Hs & [nd Hnd]). rewrite Hnd. intros [= <- <-]. apply dec_stay; [done|].
      unfold rk; simpl. destruct (bool_decide_reflect (q_tail x = tl)) as [Ht|]; simpl; [|lia].
      subst tl. unfold lk. rewrite Hnd. simpl. rewrite bd_refl. lia.
    - destruct HT as (Hpu & Hs & nd & Hnd & Hle & Hx).
      destruct (decide (tl = q_tail x)) as [Ht|Ht].
      + subst tl. destruct (decide (nx'.1 = null)) as [Hn|Hn].
        * intros [= <- <-]. apply dec_stay; [done|]. unfold rk; simpl. destruct (_ && _); lia.
        * intros [= <- <-]. apply dec_stay; [done|]. unfold rk; simpl. rewrite bd_refl. simpl.
          destruct (bool_decide _); lia.
      + intros [= <- <-]. apply dec_stay; [done|]. unfold rk; simpl.
        rewrite bool_decide_false by congruence. simpl. lia.
    - destruct HT as ((b & ndn & Hp & Ho & Hndn & Hxn) & Hn & nd & Hnd & Hle & Hx). rewrite Hnd.
      destruct (decide _) as [[_ Heq]|Hne].
      + intros [= <- <-]. left. destruct Hx as (_ & HQ & Ht); [by rewrite Heq|]. subst tl.
        assert (lag x = 0) as ->. { unfold lag, lk. rewrite Hnd. simpl. rewrite Heq. by rewrite decide_True. }
        unfold lag; simpl. destruct (lk _ _); [destruct (decide _)|]; lia.
      + intros [= <- <-]. apply dec_stay; [done|]. unfold rk; simpl.
        destruct (bool_decide_reflect (q_tail x = tl)) as [<-|]; simpl; [|lia].
        unfold lk. rewrite Hnd. simpl. rewrite bool_decide_false; [lia|]. intros [= ?]. by apply Hne.
    - destruct HT as (Hd & Hs & Hn & Hx). intros [= <- <-]. eapply dec_tail; eauto.
    - destruct HT as (Hpu & Hs & Hn & Hx). intros [= <- <-]. eapply dec_tail; eauto.
      intros Hne. unfold rk; simpl. rewrite bool_decide_false by done. lia.
    - intros [= <- <-]. apply dec_stay; [done|]. unfold rk; simpl. rewrite bd_refl. lia.
    - intros [= <- <-]. apply dec_stay; [done|]. unfold rk; simpl. rewrite bd_refl, andb_true_r.
      destruct (bool_decide _); lia.
    - destruct HT as (Hp & Hs & [nd Hnd] & Hst & Hne). rewrite Hnd. intros [= <- <-].
      apply dec_stay; [done|]. unfold rk; simpl.
      destruct (bool_decide_reflect (q_head x = hd)) as [<-|]; simpl; [|lia].
      unfold lk. rewrite Hnd. simpl. rewrite bd_refl, andb_true_r. destruct (bool_decide _); lia.
    - destruct HT as (Hp & Hs & Hst & Hne & nd & Hnd & Hc & Hxh & Hxt).
      destruct (decide (hd = q_head x)) as [Hh|Hh].
      + subst hd. destruct (decide ((q_head x).1 = tl.1)) as [Hht|Hht].
        * destruct (decide (nx'.1 = null)) as [Hn|Hn].
          -- intros [= <- <-]. left. simpl. lia.
          -- intros [= <- <-]. apply dec_stay; [done|]. unfold rk; simpl. rewrite bd_refl. simpl.
             destruct (bool_decide (q_tail x = tl)); simpl; [destruct (bool_decide _)|]; lia.
        * destruct (decide (nx'.1 = null)) as [Hn|Hn].
          -- intros [= <- <-]. apply dec_stay; [done|]. unfold rk; simpl. rewrite bd_refl. simpl.
             destruct (bool_decide_reflect (q_tail x = tl)) as [Ht|]; simpl; [|lia].
             rewrite bool_decide_false; [lia|]. unfold lk. rewrite Hnd. intros [= Hx].
             apply Hht. rewrite <- Ht. symmetry. eapply head_last; eauto. by rewrite Hx.
          -- intros [= <- <-]. apply dec_stay; [done|]. unfold rk; simpl. rewrite bd_refl. simpl.
             destruct (_ && _); lia.
      + intros [= <- <-]. apply dec_stay; [done|]. unfold rk; simpl.
        rewrite bool_decide_false by congruence. simpl. lia.
    - destruct HT as (Hp & Hs & Hn & Hx). intros [= <- <-]. eapply dec_tail; eauto.
      intros Hne. unfold rk; simpl. rewrite bool_decide_false by done. lia.
    - destruct HT as (Hp & Hs & Hn & Hl & nd & Hnd & Hx).
      destruct thr; [destruct (c_throws c); [|done]; intros [= <- <-]; left; simpl; lia|].
      destruct (decide (length acc < c_words c)) as [Hlt|Hge].
      + rewrite Hnd. destruct (dat nd !! length acc) as [w|]; [|done]. intros [= <- <-].
        apply dec_stay; [done|]. unfold rk; simpl. rewrite app_length; simpl.
        destruct (bool_decide _); lia.
      + destruct (decide _) as [[_ Hh]|Hne].
        * intros [= <- <-]. left. unfold lag, lk; simpl. lia.
        * intros [= <- <-]. apply dec_stay; [done|]. unfold rk; simpl.
          rewrite bool_decide_false by (intros ?; by apply Hne). lia.
    - destruct HT as (Ho & Hk & Hd). destruct d as [|old|old]; cbn [dstep].
      + intros [= <- <-]. rewrite set_heap_pool_id. apply dec_stay; [done|]. unfold rk; simpl.
        rewrite bd_refl. lia.
      + destruct (q_heap x !! n) as [nd|] eqn:Hnd; [|done]. intros [= <- <-].
        rewrite set_heap_pool_heap. right.
        assert (Hsm : same x (set_heap x (<[n:=Node (old.1, (nx nd).2) (dat nd)]> (q_heap x))))
          by (eapply same_write; eauto).
        split; [done|]. split; [done|]. unfold rk; simpl. destruct (bool_decide _); lia.
      + destruct (decide _) as [[_ Heq]|Hne].
        * intros [= <- <-]. left. unfold lag, lk; simpl. destruct k; simpl; lia.
        * intros [= <- <-]. rewrite set_heap_pool_id. apply dec_stay; [done|]. unfold rk; simpl.
          rewrite bd_refl. rewrite bool_decide_false by (intros ?; by apply Hne). lia.
    - destruct k as [|k].
      + intros [= <- <-]. apply dec_stay; [done|]. unfold rk; simpl. lia.
      + destruct addr as [n|].
        * destruct (decide _) as [[Hf Hn]|]; [|done]. intros [= <- <-]. right.
          split; [eapply same_write; eauto|]. split; [done|]. unfold rk; simpl. lia.
        * intros [= <- <-]. left. simpl. lia.
    - intros [= <- <-]. apply dec_stay; [done|]. unfold rk; simpl. lia.
    - intros [= <- <-]. apply dec_stay; [done|]. unfold rk; simpl. lia.
    - intros [= <- <-]. apply dec_stay; [done|]. unfold rk; simpl. lia.
    - intros [= <- <-]. apply dec_stay; [done|]. unfold rk; simpl. lia.
    - done.
  Qed.

  Lemma rk_le t x g pc : tinv t pc x g -> rk x pc <= 2 * c_words c + 21.
  Proof.
    intros HT. unfold rk. assert (dist pc <= c_words c + 11); [|destruct (fresh x pc); lia].
    destruct pc as [b v []|v n k|n tag|n|n tl|n tl nx'|n tl nx'|n tl|n tl np| |hd|hd tl|hd tl nx'|tl np
                   |hd np acc|n [] k|k| |h| |tl|r]; simpl; try lia.
    - destruct HT as (_ & Hl & _). lia.
    - destruct HT as (_ & Hl & _). lia.
    - destruct HT as (_ & Hl & _). lia.
    - destruct HT as (b & _ & Hl & _). lia.
  Qed.

  (** The potential: [n] bounds the number of threads. *)
  Definition energy (s : qstate) : nat := lag (q_sh s) + msum q_work (q_pcs s).
  Definition pot (n : nat) (s : qstate) : nat :=
    energy s * (n * (2 * c_words c + 21) + 1) + msum (rk (q_sh s)) (q_pcs s).

  Lemma msum_rk s g : Inv s g -> msum (rk (q_sh s)) (q_pcs s) <= size (q_pcs s) * (2 * c_words c + 21).
  Proof.
    intros [_ HT]. apply msum_le. intros t pc Hpc. specialize (HT t). rewrite Hpc in HT.
    by eapply rk_le, HT.
  Qed.

  Lemma run_dec s g t addr thr s' evs n :
    Inv s g -> qstep c s (Run t false addr thr) = QNext s' evs -> (forall r, Res t r ∉ evs) ->
    size (q_pcs s) <= n ->
    size (q_pcs s') = size (q_pcs s) /\ pot n s' < pot n s.
  Proof using Htag.
    intros HI Hs Hev Hn. pose proof (qstep_ok c Htag _ _ (Run t false addr thr) HI) as Hok.
    rewrite Hs in Hok. destruct Hok as (g' & HI' & _).
    pose proof (msum_rk _ _ HI') as Hrk'. pose proof (msum_rk _ _ HI) as Hrk.
    destruct HI as [HG HT]. specialize (HT t). simpl in Hs.
    destruct (q_pcs s !! t) as [pc|] eqn:Hpc; [|done].
    assert (Hgo : (exists r, pc = PcRet r) \/ exists x' pc', tstep c (q_sh s) pc false addr thr = TGo x' pc' /\
                    s' = QSt x' (<[t := pc']> (q_pcs s))).
    { destruct pc; try (right; destruct (tstep _ _ _ _ _ _); simplify_eq/=; by eauto). left. eauto. }
    destruct Hgo as [[r ->]|(x' & pc' & Hst & ->)].
    { simplify_eq/=. exfalso. apply (Hev r). left. }
    destruct HT as [HT _]. pose proof (tstep_dec t _ _ _ _ _ _ _ HG HT Hst) as Hd.
    assert (Hsz : size (<[t := pc']> (q_pcs s)) = size (q_pcs s)) by (apply map_size_insert_Some; eauto).
    split; [exact Hsz|]. unfold pot, energy in *. cbn [q_sh q_pcs] in *.
    pose proof (msum_insert q_work _ _ _ pc' Hpc) as Hw. rewrite Hsz in Hrk'.
    set (l := 2 * c_words c + 21) in *.
    destruct Hd as [Hlt|(Hsm & Hle & Hr)].
    - set (e' := lag x' + msum q_work (<[t := pc']> (q_pcs s))) in *.
      assert (S e' <= lag (q_sh s) + msum q_work (q_pcs s)) as He by (unfold e'; lia).
      apply (Nat.mul_le_mono_r _ _ (n * l + 1)) in He. simpl in He.
      assert (size (q_pcs s) * l <= n * l) by (by apply Nat.mul_le_mono_r). lia.
    - rewrite (lag_same _ _ Hsm).
      assert (Hx : msum (rk x') (<[t := pc']> (q_pcs s)) = msum (rk (q_sh s)) (<[t := pc']> (q_pcs s))).
      { apply msum_ext. intros t' a _. unfold rk. by rewrite (fresh_same _ _ _ Hsm). }
      rewrite Hx. pose proof (msum_insert (rk (q_sh s)) _ _ _ pc' Hpc) as Hm.
      assert (rk x' pc' = rk (q_sh s) pc') as Hr' by (unfold rk; by rewrite (fresh_same _ _ _ Hsm)).
      rewrite Hr' in Hr.
      assert (He : lag (q_sh s) + msum q_work (<[t := pc']> (q_pcs s)) <= lag (q_sh s) + msum q_work (q_pcs s)) by lia.
      apply (Nat.mul_le_mono_r _ _ (n * l + 1)) in He. lia.
  Qed.

  Lemma start_work o tf pc : qstart c o tf = Some pc -> q_work pc = q_opwork o.
  Proof.
    destruct o; simpl; try done.
    - destruct (decide _); [|done]. by intros [= <-].
    - by intros [= <-].
    - destruct tf; by intros [= <-].
    - destruct (c_node_based c); [|done]. by intros [= <-].
  Qed.

  Lemma pot_invoke s g t o tf s' evs n :
    Inv s g -> qstep c s (Invoke t o tf) = QNext s' evs ->
    size (q_pcs s') = S (size (q_pcs s)) /\
    pot n s' <= pot n s + q_opwork o * (n * (2 * c_words c + 21) + 1) + (2 * c_words c + 21).
  Proof using Htag.
    intros HI Hs. pose proof (qstep_ok c Htag _ _ (Invoke t o tf) HI) as Hok.
    rewrite Hs in Hok. destruct Hok as (g' & [_ HT] & _). specialize (HT t). simpl in Hs.
    destruct (q_pcs s !! t) as [pc|] eqn:Hpc; [done|].
    destruct (qstart c o tf) as [pc|] eqn:Hst; [|done]. simplify_eq/=.
    split; [by apply map_size_insert_None|]. unfold pot, energy. simpl.
    rewrite !msum_insert_new by done. rewrite (start_work _ _ _ Hst).
    rewrite lookup_insert in HT. destruct HT as [HT _]. simpl in HT. apply rk_le in HT. lia.
  Qed.

  Lemma live_run chs : forall s g h s' n,
    Inv s g -> Forall q_fair chs -> qrun c s chs = Some (h, s') -> (forall t r, Res t r ∉ h) ->
    size (q_pcs s) + length (q_invoked chs) <= n ->
    length chs <= pot n s + sum_list (q_opwork <$> q_invoked chs) * (n * (2 * c_words c + 21) + 1)
                  + length (q_invoked chs) * (2 * c_words c + 22).
  Proof using Htag.
    induction chs as [|ch chs IH]; intros s g h s' n HI Hf Hr Hn Hsz; [simpl; lia|].
    apply list.Forall_cons in Hf as [Hf1 Hf2]. cbn [qrun] in Hr.
    destruct (qstep c s ch) as [s1 e1| |] eqn:Hs; [|done..].
    destruct (qrun c s1 chs) as [[h2 s2]|] eqn:Hr2; [|done]. injection Hr as <- <-.
    pose proof (qstep_ok c Htag _ _ ch HI) as Hok. rewrite Hs in Hok. destruct Hok as (g1 & HI1 & _).
    assert (Hn2 : forall t r, Res t r ∉ h2) by (intros t r ?; apply (Hn t r), elem_of_app; by right).
    assert (Hn1 : forall t r, Res t r ∉ e1) by (intros t r ?; apply (Hn t r), elem_of_app; by left).
    destruct ch as [t o tf|t sp addr thr|t o addrs thr]; simpl in Hf1; [| |done].
    - assert (Hi : q_invoked (Invoke t o tf :: chs) = o :: q_invoked chs) by done.
      rewrite Hi in Hsz |- *. cbn [length fmap list_fmap sum_list] in *.
      destruct (pot_invoke _ _ _ _ _ _ _ n HI Hs) as [Hsz1 Hp].
      specialize (IH s1 g1 h2 s2 n HI1 Hf2 Hr2 Hn2 ltac:(lia)).
      cbn [list_fmap] in *. simpl. 
      set (S0 := sum_list _) in *. set (l := 2 * c_words c + 21) in *. lia.
    - subst sp. assert (Hi : q_invoked (Run t false addr thr :: chs) = q_invoked chs) by done.
      rewrite Hi in Hsz |- *.
      destruct (run_dec _ _ _ _ _ _ _ n HI Hs ltac:(auto) ltac:(lia)) as [Hsz1 Hp].
      specialize (IH s1 g1 h2 s2 n HI1 Hf2 Hr2 Hn2 ltac:(lia)). simpl. lia.
  Qed.

  Lemma live_main ns hist s chs h s' :
    qreach c ns hist s -> Forall q_fair chs -> qrun c s chs = Some (h, s') -> (forall t r, Res t r ∉ h) ->
    length chs <= length (q_invoked chs) +
      q_bound c (size (q_pcs s) + length (q_invoked chs))
                (msum q_work (q_pcs s) + sum_list (q_opwork <$> q_invoked chs)).
  Proof using Htag.
    intros Hre Hf Hr Hn. destruct (qreach_ok c Htag _ _ _ Hre) as (g & HI & _).
    pose proof (live_run chs s g h s' _ HI Hf Hr Hn (le_n _)) as H.
    pose proof (msum_rk _ _ HI) as Hrk. unfold q_bound. unfold pot, energy in H.
    assert (lag (q_sh s) <= 1) as Hl.
    { unfold lag. destruct (lk _ _); [destruct (decide _)|]; lia. }
    set (i := length (q_invoked chs)) in *. set (l := 2 * c_words c + 21) in *.
    assert (2 * c_words c + 22 = l + 1) as Hll by (unfold l; lia). rewrite Hll in H.
    set (w := msum q_work _) in *. set (v := sum_list _) in *. set (n := size _) in *.
    cbv zeta. apply (Nat.mul_le_mono_r _ _ ((n + i) * l + 1)) in Hl. lia.
  Qed.

  (** A thread inside a call can always take a step. *)
  Lemma enabled_main ns hist s t :
    qreach c ns hist s -> is_Some (q_pcs s !! t) ->
    exists s' evs, qstep c s (Run t false None false) = QNext s' evs.
  Proof using Htag.
    intros Hre [pc Hpc]. destruct (qreach_ok c Htag _ _ _ Hre) as (g & HI & _).
    pose proof (qstep_ok c Htag _ _ (Run t false None false) HI) as Hok.
    destruct (qstep c s (Run t false None false)) as [s' evs| |] eqn:Hs; [eauto|done|]. exfalso.
    clear Hok. simpl in Hs. rewrite Hpc in Hs.
    assert (Hd : (exists r, pc = PcRet r) \/ tstep c (q_sh s) pc false None false = TDisabled).
    { destruct pc; try (right; destruct (tstep _ _ _ _ _ _); by simplify_eq/=); left; eauto. }
    destruct Hd as [[r ->]|Hd]; [done|].
    destruct HI as [HG HT]. specialize (HT t). rewrite Hpc in HT. destruct HT as [HT _].
    destruct pc as [b v []|v n k|n tag|n|n tl|n tl nx'|n tl nx'|n tl|n tl np| |hd|hd tl|hd tl nx'|tl np
                   |hd np acc|n [] k|[]| |hh| |tl|r]; simpl in Hd;
      repeat match type of Hd with
             | context [match ?x with _ => _ end] =>
                 lazymatch x with context [match _ with _ => _ end] => fail | _ => destruct x end
             end; done.
  Qed.
End live.

Section progress.
  Context (c : cfg) (Htag : c_tagmod c = None).

  Lemma run_inside s t addr thr s' evs :
    qstep c s (Run t false addr thr) = QNext s' evs ->
    (exists r, evs = [Res t r]) \/ (evs = [] /\ forall t', is_Some (q_pcs s !! t') -> is_Some (q_pcs s' !! t')).
  Proof using Type.
    intros Hs. simpl in Hs. destruct (q_pcs s !! t) as [pc|] eqn:Hpc; [|discriminate Hs].
    assert (Hd : (exists r, pc = PcRet r) \/
      exists x pc', QNext (QSt x (<[t := pc']> (q_pcs s))) [] = QNext s' evs).
    { destruct pc; try (right; destruct (tstep c (q_sh s) _ _ _ _); [by eauto|discriminate Hs..]). left; eauto. }
    destruct Hd as [[r ->]|(x & pc' & Hd)].
    - injection Hs as _ <-. left. eauto.
    - injection Hd as <- <-. right. split; [done|]. intros t' Hi. simpl.
      destruct (decide (t = t')) as [->|]; [rewrite lookup_insert|rewrite lookup_insert_ne by done]; eauto.
  Qed.

  Lemma schedule ts : forall ns hist s,
    qreach c ns hist s -> (forall t, t ∈ ts -> is_Some (q_pcs s !! t)) ->
    (exists k h s' t r, k <= length ts /\
       qrun c s ((fun t => Run t false None false) <$> take k ts) = Some (h, s') /\ Res t r ∈ h) \/
    exists s', qrun c s ((fun t => Run t false None false) <$> ts) = Some ([], s').
  Proof using Htag.
    induction ts as [|t ts IH]; intros ns hist s Hre Hin; [right; by eexists|].
    destruct (enabled_main c Htag ns hist s t Hre (Hin t ltac:(left))) as (s1 & e1 & Hs).
    destruct (run_inside _ _ _ _ _ _ Hs) as [[r ->]|[-> Hk]].
    - left. exists 1, [Res t r], s1, t, r. split; [simpl; lia|]. split; [|left].
      cbn [take fmap list_fmap qrun]. by rewrite Hs.
    - assert (Hre1 : qreach c ns hist s1).
      { destruct Hre as (a & s0 & H1 & H2 & H3 & H4 & H5). exists a, s0. do 4 (split; [done|]).
        rewrite <- (app_nil_r hist). by econstructor. }
      destruct (IH ns hist s1 Hre1) as [(k & h & s' & t' & r & Hl & Hr & Hres)|[s' Hr]].
      { intros t' Ht'. apply Hk, Hin. by right. }
      + left. exists (S k), h, s', t', r. split; [simpl; lia|]. split; [|done].
        rewrite firstn_cons, fmap_cons. cbn [qrun]. by rewrite Hs, Hr.
      + right. exists s'. rewrite fmap_cons. cbn [qrun]. by rewrite Hs, Hr.
  Qed.

  Lemma progress_main ns hist s ts :
    qreach c ns hist s -> (forall t, t ∈ ts -> is_Some (q_pcs s !! t)) ->
    q_bound c (size (q_pcs s)) (msum q_work (q_pcs s)) < length ts ->
    exists k h s' t r, k <= length ts /\
      qrun c s ((fun t => Run t false None false) <$> take k ts) = Some (h, s') /\ Res t r ∈ h.
  Proof using Htag.
    intros Hre Hin Hlt. destruct (schedule ts ns hist s Hre Hin) as [?|[s' Hr]]; [done|].
    assert (Hi : q_invoked ((fun t => Run t false None false) <$> ts) = []).
    { clear. by induction ts. }
    pose proof (live_main c Htag ns hist s ((fun t => Run t false None false) <$> ts) [] s' Hre) as H.
    rewrite Hi in H. cbn [length fmap list_fmap sum_list foldr plus] in H.
    rewrite fmap_length, ?Nat.add_0_r in H. exfalso. apply (Nat.lt_irrefl (length ts)).
    eapply Nat.le_lt_trans; [|exact Hlt]. apply H; [|done|].
    - apply list.Forall_forall. intros ch Hc. apply elem_of_list_fmap in Hc as (t & -> & _). done.
    - intros t r. apply not_elem_of_nil.
  Qed.
End progress.
