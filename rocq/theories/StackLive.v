(** * The stack is lock-free

    A potential argument as in QueueLive.v.  Here a call may have many nodes to
    deal with, so elements that are alive count as well: each of them has to be
    destroyed and its node given back. *)
From stdpp Require Import gmap list numbers.
From Verif Require Import Lin LiveSum PoolModel Chain PoolProofs StackModel StackSpec StackObs
  StackInv StackStep StackSafe StackQuiet.

Set Default Proof Using "Type".

(** ** Vocabulary of the statement *)

(** How many times a call at this point may still take a node from the pool,
    change tos, construct an element (which counts for three, as it will also be
    destroyed and its node given back), or (reserve) allocate a node and give it
    to the pool. *)
Definition k_work (k : skont) : nat :=
  match k with KReserve j => 2 * j | _ => 0 end.
Definition s_work (pc : spc) : nat :=
  match pc with
  | PcAlloc _ _ _ => 5
  | PcCons _ _ => 4
  | PcLLoad _ _ _ | PcLSet _ _ _ _ | PcLCas _ _ _ _ => 1
  | PcRFirst _ vs => 5 * length vs + 2
  | PcRAlloc _ vs k _ _ => 5 * (length vs - k) + 1
  | PcRCons _ vs k _ _ => 5 * (length vs - k)
  | PcRLink _ vs k _ _ => 5 * (length vs - k) - 3
  | PcCLoad | PcCNext _ | PcCCas _ _ | PcALoad _ | PcACas _ _ => 1
  | PcDestroy _ k => k_work k
  | PcDealloc _ _ k => 1 + k_work k
  | PcReserve k => 2 * k
  | _ => 0
  end.
Definition s_opwork (o : sop) : nat :=
  match o with
  | SPush _ _ => 5
  | SRange _ vs => 5 * length vs + 2
  | SPop | SAll _ => 1
  | SReserve n => 2 * n
  | _ => 0
  end.

(** How many elements a call at this point may still construct. *)
Definition s_elems (pc : spc) : nat :=
  match pc with
  | PcAlloc _ _ _ | PcCons _ _ => 1
  | PcRFirst _ vs => length vs
  | PcRAlloc _ vs k _ _ | PcRCons _ vs k _ _ => length vs - k
  | PcRLink _ vs k _ _ => length vs - S k
  | _ => 0
  end.
Definition s_opelems (o : sop) : nat :=
  match o with
  | SPush _ _ => 1
  | SRange _ vs => length vs
  | _ => 0
  end.

(** The number of elements that are alive, on the stack or in the hands of a
    call. *)
Definition livec (nd : snode) : nat := match dat nd with Some _ => 1 | None => 0 end.
Definition s_alive (s : sstate) : nat := msum livec (s_heap (s_sh s)).

(** Steps of threads without spurious failures, and invocations of thread-safe
    operations. *)
Definition s_fair (ch : schoice) : Prop :=
  match ch with
  | Run _ sp _ _ => sp = false
  | Invoke _ o => nonempty_op o
  | Unsync _ _ _ _ => False
  end.

(** The calls begun by a list of choices. *)
Definition s_invoked (chs : list schoice) : list sop :=
  omap (fun ch => match ch with Invoke _ o => Some o | _ => None end) chs.

(** With [n] threads, [w] changes to come and never more than [m] elements
    alive, so many steps are possible before a call completes. *)
Definition s_bound (n w m : nat) : nat :=
  let l := 2 * m + 9 in w * (n * l + 1) + n * l.

(** ** The potential *)

Section live.
  Context (c : cfg).
  Notation null := (c_null c).
  Notation GI := (GI c).
  Notation tinv := (tinv c).
  Notation Inv := (Inv c).

  (** [M] bounds the number of elements alive. *)
  Context (M : nat).

  (** The length of the list that starts at [p]. *)
  Fixpoint clen (fuel : nat) (h : gmap N snode) (p : N) : nat :=
    match fuel with
    | O => O
    | S fuel => match h !! p with
                | None => O
                | Some nd => S (clen fuel h (nx nd).1)
                end
    end.

  Definition nlive (x : sshared) : nat := msum livec (s_heap x).

  Definition fresh (x : sshared) (pc : spc) : bool :=
    match pc with
    | PcAlloc _ _ (ATest old) | PcAlloc _ _ (ACas old _)
    | PcRAlloc _ _ _ _ (ATest old) | PcRAlloc _ _ _ _ (ACas old _)
    | PcDealloc _ (DSet old) _ | PcDealloc _ (DCas old) _ => bool_decide (s_pool x = old)
    | PcLSet _ _ old _ | PcLCas _ _ old _ | PcCNext old | PcCCas old _ | PcACas _ old =>
        bool_decide (s_tos x = old)
    | _ => true
    end.

  Definition dist (x : sshared) (pc : spc) : nat :=
    match pc with
    | PcAlloc _ _ ALoad | PcRAlloc _ _ _ _ ALoad | PcLLoad _ _ _ | PcCLoad | PcDealloc _ DLoad _ => 3
    | PcAlloc _ _ (ATest _) | PcRAlloc _ _ _ _ (ATest _) | PcLSet _ _ _ _ | PcCNext _
    | PcDealloc _ (DSet _) _ => 2
    | PcAlloc _ _ (ACas _ _) | PcRAlloc _ _ _ _ (ACas _ _) | PcLCas _ _ _ _ | PcCCas _ _
    | PcDealloc _ (DCas _) _ => 1
    | PcALoad _ => 2
    | PcACas _ _ => 1
    | PcRevNext n _ => 2 * clen M (s_heap x) n + 3
    | PcRevSet _ _ nxt => 2 * clen M (s_heap x) nxt + 4
    | PcVisit _ _ _ => 2
    | PcVNext _ _ _ | PcUndo _ | PcCFun _ | PcReserve _ | PcEmpty => 1
    | PcCons _ _ | PcRFirst _ _ | PcRCons _ _ _ _ _ | PcRLink _ _ _ _ _ | PcDestroy _ _ | PcRet _ => 0
    end.

  Definition rk (x : sshared) (pc : spc) : nat := dist x pc + if fresh x pc then 0 else 3.

  (** ** Lists and elements *)

  Lemma clen_seg h : h !! null = None -> forall L fuel p,
    seg h p L null -> length L <= fuel -> clen fuel h p = length L.
  Proof.
    intros Hnull. induction L as [|n L IH]; intros fuel p Hs Hl; simpl in *.
    - subst p. destruct fuel; simpl; [done|]. by rewrite Hnull.
    - destruct fuel as [|fuel]; [lia|]. destruct Hs as (-> & y & Hy & Hs). simpl.
      apply nxp_inv in Hy as (nd & -> & <-). f_equal. apply IH; [done|lia].
  Qed.

  Lemma nlive_write (h : gmap N snode) n nd nd' :
    h !! n = Some nd -> livec nd' = livec nd -> msum livec (<[n := nd']> h) = msum livec h.
  Proof. intros Hn Hl. pose proof (msum_insert livec _ _ _ nd' Hn). lia. Qed.

  Lemma vals_alive L : forall h vs, vals h L vs -> NoDup L -> length L <= msum livec h.
  Proof.
    induction L as [|n L IH]; intros h vs Hv Hnd; simpl; [lia|].
    apply Forall2_cons_inv_l in Hv as (v & vs' & (lk & Hn) & Hv & ->).
    apply list.NoDup_cons in Hnd as [Hni Hnd].
    rewrite <- (insert_delete h n _ Hn), msum_insert_new by apply lookup_delete. simpl.
    enough (length L <= msum livec (delete n h)) by lia.
    apply (IH _ vs'); [|done]. eapply vals_ext; [|exact Hv]. intros m Hm.
    rewrite lookup_delete_ne; [done|]. by intros ->.
  Qed.

  Lemma bd_refl {A} `{EqDecision A} (a : A) : bool_decide (a = a) = true.
  Proof. by apply bool_decide_eq_true. Qed.

  Lemma nlive_fresh (h : gmap N snode) n lk :
    h !! n = None -> msum livec (<[n := Node lk None]> h) = msum livec h.
  Proof. intros Hn. by rewrite msum_insert_new. Qed.

  (** ** One step *)

  (** A step that changes neither tos nor pool_ writes at most one node, which
      belongs to the thread. *)
  Definition quiet (t : nat) (g : ghost) (x x' : sshared) : Prop :=
    s_pool x' = s_pool x /\ s_tos x' = s_tos x /\
    (s_heap x' = s_heap x \/
     exists n nd, g_own g !! n = Some (OT t) /\ s_heap x' = <[n := nd]> (s_heap x)).

  Definition dec (t : nat) (g : ghost) (x : sshared) (pc : spc) (x' : sshared) (pc' : spc) : Prop :=
    nlive x' + s_elems pc' <= nlive x + s_elems pc /\
    (s_work pc' + 2 * nlive x' < s_work pc + 2 * nlive x \/
     (quiet t g x x' /\ s_work pc' + 2 * nlive x' <= s_work pc + 2 * nlive x /\ rk x' pc' < rk x pc)).

  Lemma quiet_refl t g x : quiet t g x x.
  Proof. split; [done|]. split; [done|]. by left. Qed.

  Lemma dec_stay t g x pc pc' :
    s_elems pc' <= s_elems pc -> s_work pc' <= s_work pc -> rk x pc' < rk x pc -> dec t g x pc x pc'.
  Proof. intros. split; [lia|]. right. split; [apply quiet_refl|]. lia. Qed.

  Lemma dec_less t g x pc pc' :
    s_elems pc' <= s_elems pc -> s_work pc' < s_work pc -> dec t g x pc x pc'.
  Proof. intros. split; [lia|]. left. lia. Qed.

  (** A write that keeps the elements alive. *)
  Lemma dec_write t g x n nd nd' pc pc' :
    s_heap x !! n = Some nd -> livec nd' = livec nd -> g_own g !! n = Some (OT t) ->
    s_elems pc' <= s_elems pc -> s_work pc' <= s_work pc ->
    rk (set_heap x (<[n := nd']> (s_heap x))) pc' < rk x pc ->
    dec t g x pc (set_heap x (<[n := nd']> (s_heap x))) pc'.
  Proof.
    intros Hn Hl Ho He Hw Hr. unfold dec, nlive. simpl. rewrite (nlive_write _ _ _ _ Hn Hl).
    split; [lia|]. right. split; [|lia]. split; [done|]. split; [done|]. right. eauto.
  Qed.

  Lemma kgo_elems k : s_elems (kgo c k) = 0.
  Proof. destruct k; simpl; try done; by destruct (decide _). Qed.
  Lemma kgo_work k : s_work (kgo c k) <= k_work k.
  Proof. destruct k; simpl; try done; destruct (decide _); done. Qed.

  (** The pool's step while allocating. *)
  Lemma alloc_dec t g x b a addr h p (mk : apc -> spc) pc' a' :
    astep c None b (s_heap x) (s_pool x) a false addr = ACont h p a' ->
    (forall a, s_work (mk a) = s_work (mk ALoad)) -> (forall a, s_elems (mk a) = s_elems (mk ALoad)) ->
    (forall x a, rk x (mk a) = rk x (PcAlloc b 0%N a)) ->
    pc' = mk a' -> dec t g x (mk a) (set_heap_pool x h p) pc'.
  Proof.
    intros Hst Hw He Hr ->. 
    assert (Hx : set_heap_pool x (s_heap x) (s_pool x) = x) by (by destruct x).
    destruct a as [|old|old nxt]; simpl in Hst.
    - simplify_eq/=. rewrite Hx. apply dec_stay; [by rewrite He| |].
      + by rewrite Hw.
      + rewrite !Hr. unfold rk; simpl. rewrite bd_refl. lia.
    - destruct (decide _).
      + destruct (_ && _); [|done]. destruct addr; [|done]. by destruct (decide _).
      + destruct (s_heap x !! old.1) as [nd|]; [|done]. simplify_eq/=. rewrite Hx. apply dec_stay.
        * pose proof (He (ACas old (nx nd).1)); pose proof (He (ATest old)); lia.
        * pose proof (Hw (ACas old (nx nd).1)); pose proof (Hw (ATest old)); lia.
        * rewrite !Hr. unfold rk; simpl. destruct (bool_decide _); lia.
    - destruct (decide _) as [[_ Heq]|Hne]; [done|]. simplify_eq/=. rewrite Hx. apply dec_stay.
      + pose proof (He (ATest (s_pool x))); pose proof (He (ACas old nxt)); lia.
      + pose proof (Hw (ATest (s_pool x))); pose proof (Hw (ACas old nxt)); lia.
      + rewrite !Hr. unfold rk; simpl. rewrite bd_refl.
        rewrite bool_decide_false by (intros ?; by apply Hne). lia.
  Qed.

  Lemma alloc_nlive x b a addr h p n :
    astep c None b (s_heap x) (s_pool x) a false addr = AGot h p n ->
    msum livec h = msum livec (s_heap x).
  Proof.
    destruct a as [|old|old nxt]; simpl; [done| |].
    - destruct (decide _).
      + destruct (_ && _); [|done]. destruct addr; [|done]. destruct (decide _) as [[Hf _]|]; [|done].
        intros [= <- <- <-]. by apply nlive_fresh.
      + by destruct (s_heap x !! old.1).
    - destruct (decide _); [|done]. by intros [= <- <- <-].
  Qed.

  Context (Htag : c_tagmod c = None).

  Lemma tstep_dec t x g pc addr thr x' pc' :
    GI x g -> tinv t pc x g -> nlive x <= M ->
    tstep c x pc false addr thr = TGo x' pc' -> dec t g x pc x' pc'.
  Proof using Htag.
    intros HG HT HM.
    assert (Hnull : s_heap x !! null = None) by apply (pi_null _ _ _ _ _ (gi_pi _ _ _ HG)).
    assert (Hxx : set_heap_pool x (s_heap x) (s_pool x) = x) by (by destruct x).
    destruct pc as [b v a|v n|top bot r|top bot old r|top bot old r|b vs|b vs k te a|b vs k te n
      |b vs k te n|cur| |old|old nxt|n|rev|rev old|n lst|n lst nxt|n k acc|n k acc|n k|n d k|k| |r]; cbn [tstep].
    - destruct (astep _ _ _ _ _ _ _ _) as [h p a'|h p n| | | |] eqn:Ha; try done.
      + intros [= <- <-]. by eapply (alloc_dec t g x b a addr h p (PcAlloc b v)).
      + intros [= <- <-]. unfold dec, nlive. cbn [s_heap set_heap_pool s_work s_elems]. rewrite (alloc_nlive _ _ _ _ _ _ _ Ha). lia.
      + intros [= <- <-]. by apply dec_less; simpl; lia.
      + intros [= <- <-]. by apply dec_less; simpl; lia.
    - destruct (s_heap x !! n) as [[lk [|]]|] eqn:Hn; [done| |done]. destruct thr.
      + destruct (c_throws c); [|done]. intros [= <- <-]. apply dec_less; simpl; lia.
      + intros [= <- <-]. pose proof (msum_insert livec _ _ _ (Node lk (Some v)) Hn) as Hl. cbn [livec dat] in Hl.
        unfold dec, nlive. cbn [s_heap set_heap s_work s_elems]. lia.
    - intros [= <- <-]. apply dec_stay; [done..|]. unfold rk; simpl. rewrite bd_refl. lia.
    - destruct HT as (o & L & vs & Hp & Hs & Ho & Hseg & Hv).
      destruct (s_heap x !! bot) as [nd|] eqn:Hn; [|done]. intros [= <- <-].
      eapply dec_write; [done|done| |done|done|].
      + apply Ho. apply elem_of_app. right. left.
      + unfold rk; simpl. destruct (bool_decide _); lia.
    - destruct (decide _) as [[_ Heq]|Hne].
      + intros [= <- <-]. unfold dec, nlive; cbn [s_heap set_heap set_tos s_work s_elems]. lia.
      + intros [= <- <-]. apply dec_stay; [done..|]. unfold rk; simpl. rewrite bd_refl.
        rewrite bool_decide_false by (intros ?; by apply Hne). lia.
    - destruct vs as [|v vs]; [done|]. intros [= <- <-]. apply dec_less; simpl; lia.
    - destruct HT as (Hp & Hk & _).
      destruct (astep _ _ _ _ _ _ _ _) as [h p a'|h p n| | | |] eqn:Ha; try done.
      + intros [= <- <-]. by eapply (alloc_dec t g x b a addr h p (PcRAlloc b vs k te)).
      + intros [= <- <-]. unfold dec, nlive. cbn [s_heap set_heap_pool s_work s_elems]. rewrite (alloc_nlive _ _ _ _ _ _ _ Ha). lia.
      + intros [= <- <-]. apply dec_less; destruct te; cbn; lia.
      + intros [= <- <-]. apply dec_less; destruct te; cbn; lia.
    - destruct HT as (Hp & Hk & _).
      destruct (s_heap x !! n) as [[lk [|]]|] eqn:Hn; [done| |done].
      destruct (vs !! k) as [v|] eqn:Hv; [|done]. destruct thr.
      + destruct (c_throws c); [|done]. intros [= <- <-]. apply dec_less; destruct te; cbn; lia.
      + intros [= <- <-]. pose proof (msum_insert livec _ _ _ (Node lk (Some v)) Hn) as Hl. cbn [livec dat] in Hl.
        unfold dec, nlive. cbn [s_heap set_heap s_work s_elems]. lia.
    - destruct HT as (Hp & _ & (v & Hv & _) & _). apply lookup_lt_Some in Hv.
      destruct (s_heap x !! n) as [nd|] eqn:Hn; [|done]. intros [= <- <-].
      unfold dec, nlive. cbn [s_heap set_heap]. rewrite (nlive_write _ _ _ _ Hn) by done.
      unfold r_next. destruct (decide _); destruct te; cbn; lia.
    - destruct (s_heap x !! cur) as [nd|]; [|done]. intros [= <- <-]. apply dec_stay; [done..|].
      unfold rk; simpl. lia.
    - intros [= <- <-]. unfold c_test. destruct (decide _).
      + apply dec_less; simpl; lia.
      + apply dec_stay; [done..|]. unfold rk; simpl. rewrite bd_refl. lia.
    - destruct (s_heap x !! old.1) as [nd|]; [|done]. intros [= <- <-]. apply dec_stay; [done..|].
      unfold rk; simpl. destruct (bool_decide _); lia.
    - destruct (decide _) as [[_ Heq]|Hne].
      + intros [= <- <-]. unfold dec, nlive; cbn [s_heap set_heap set_tos s_work s_elems]. lia.
      + intros [= <- <-]. unfold c_test. destruct (decide _).
        * apply dec_less; simpl; lia.
        * apply dec_stay; [done..|]. unfold rk; simpl. rewrite bd_refl.
          rewrite bool_decide_false by (intros ?; by apply Hne). lia.
    - destruct (s_heap x !! n) as [[lk [v|]]|] eqn:Hn; [|done..]. destruct thr.
      + destruct (c_throws c); [|done]. intros [= <- <-]. apply dec_stay; [done..|]. unfold rk; simpl. lia.
      + intros [= <- <-]. apply dec_stay; [done..|]. unfold rk; simpl. lia.
    - intros [= <- <-]. unfold a_test. destruct (decide _).
      + apply dec_less; simpl; lia.
      + apply dec_stay; [done..|]. unfold rk; simpl. rewrite bd_refl. lia.
    - destruct (decide _) as [[_ Heq]|Hne].
      + intros [= <- <-]. unfold dec, nlive; destruct rev; cbn [s_heap set_heap set_tos s_work s_elems]; lia.
      + intros [= <- <-]. unfold a_test. destruct (decide _).
        * apply dec_less; simpl; lia.
        * apply dec_stay; [done..|]. unfold rk; simpl. rewrite bd_refl.
          rewrite bool_decide_false by (intros ?; by apply Hne). lia.
    - destruct HT as (L1 & L2 & vs1 & vs2 & Ho & H1 & [Hs Hv] & H4).
      assert (Hlen : length (n :: L2) <= M).
      { etrans; [|exact HM]. eapply vals_alive; [exact Hv|]. destruct Ho as [Hnd _].
        apply list.NoDup_app in Hnd. apply Hnd. }
      pose proof (clen_seg _ Hnull _ _ _ Hs Hlen) as Hc.
      destruct Hs as (_ & y & Hy & Hs). apply nxp_inv in Hy as (nd & Hnd & <-). rewrite Hnd.
      intros [= <- <-]. apply dec_stay; [done..|]. unfold rk; cbn [dist fresh]. rewrite Hc.
      rewrite (clen_seg _ Hnull _ _ _ Hs) by (simpl in Hlen; lia). simpl. lia.
    - destruct HT as (L1 & L2 & vs1 & v & vs2 & Ho & H1 & H2 & [Hs Hv] & H4).
      assert (Hnd2 : NoDup (n :: L2)). { destruct Ho as [Hnd _]. apply list.NoDup_app in Hnd. apply Hnd. }
      apply list.NoDup_cons in Hnd2 as [Hni Hnd2].
      assert (Hlen : length L2 <= M).
      { etrans; [|exact HM]. by eapply vals_alive. }
      pose proof (clen_seg _ Hnull _ _ _ Hs Hlen) as Hc.
      assert (Hnn : n <> null) by (intros ->; destruct H2 as [? H2]; congruence).
      destruct (s_heap x !! n) as [nd|] eqn:Hn; [|done]. intros [= <- <-].
      eapply dec_write; [done|done| | | |].
      + apply Ho. apply elem_of_app. right. left.
      + by destruct (decide _).
      + by destruct (decide _).
      + unfold rk. destruct (decide _); cbn [dist fresh]; rewrite Hc; [lia|]. cbn [s_heap set_heap].
        rewrite (clen_seg _) with (L := L2); [lia|by rewrite lookup_insert_ne| |done].
        by apply seg_insert_ne.
    - destruct (s_heap x !! n) as [[lk [v|]]|] eqn:Hn; [|done..]. destruct thr.
      + destruct (c_throws c); [|done]. intros [= <- <-]. apply dec_stay; [done..|]. unfold rk; simpl. lia.
      + intros [= <- <-]. apply dec_stay; [done..|]. unfold rk; simpl. lia.
    - destruct (s_heap x !! n) as [nd|] eqn:Hn; [|done]. intros [= <- <-].
      apply dec_stay; [done..|]. unfold rk; simpl. lia.
    - destruct (s_heap x !! n) as [[lk [v|]]|] eqn:Hn; [|done..]. intros [= <- <-].
      pose proof (msum_insert livec _ _ _ (Node lk None) Hn) as Hl. cbn [livec dat] in Hl.
      unfold dec, nlive. cbn [s_heap set_heap s_work s_elems]. lia.
    - destruct HT as (L & Ho & Hr & Hd & Hk). destruct d as [|old|old]; cbn [dstep].
      + intros [= <- <-]. rewrite Hxx. apply dec_stay; [done..|]. unfold rk; simpl. rewrite bd_refl. lia.
      + destruct (s_heap x !! n) as [nd|] eqn:Hn; [|done]. intros [= <- <-].
        change (set_heap_pool x ?h (s_pool x)) with (set_heap x h).
        eapply dec_write; [done|done| |done|done|].
        * apply Ho. left.
        * unfold rk; simpl. destruct (bool_decide _); lia.
      + destruct (decide _) as [[_ Heq]|Hne].
        * intros [= <- <-]. unfold dec, nlive. rewrite kgo_elems. pose proof (kgo_work k). cbn [s_heap set_heap_pool s_work s_elems]. lia.
        * intros [= <- <-]. rewrite Hxx. apply dec_stay; [done..|]. unfold rk; simpl.
          rewrite bd_refl. rewrite bool_decide_false by (intros ?; by apply Hne). lia.
    - destruct k as [|k].
      + intros [= <- <-]. apply dec_stay; [done..|]. unfold rk; simpl. lia.
      + destruct addr as [n|].
        * destruct (decide _) as [[Hf Hn]|]; [|done]. intros [= <- <-].
          unfold dec, nlive. cbn [s_heap set_heap]. rewrite nlive_fresh by done. cbn [s_work s_elems k_work]. lia.
        * intros [= <- <-]. apply dec_less; cbn; lia.
    - intros [= <- <-]. apply dec_stay; [done..|]. unfold rk; simpl. lia.
    - done.
  Qed.

  Lemma rk_le t x g pc : GI x g -> tinv t pc x g -> nlive x <= M -> rk x pc <= 2 * M + 9.
  Proof.
    intros HG HT HM. assert (Hnull : s_heap x !! null = None) by apply (pi_null _ _ _ _ _ (gi_pi _ _ _ HG)).
    unfold rk. assert (dist x pc <= 2 * M + 6); [|destruct (fresh x pc); lia].
    destruct pc as [b v []|v n|top bot r|top bot old r|top bot old r|b vs|b vs k te []|b vs k te n
      |b vs k te n|cur| |old|old nxt|n|rev|rev old|n lst|n lst nxt|n k acc|n k acc|n k|n [] k|k| |r]; simpl; try lia.
    - destruct HT as (L1 & L2 & vs1 & vs2 & Ho & H1 & [Hs Hv] & H4).
      assert (Hlen : length (n :: L2) <= M).
      { etrans; [|exact HM]. eapply vals_alive; [exact Hv|]. destruct Ho as [Hnd _].
        apply list.NoDup_app in Hnd. apply Hnd. }
      rewrite (clen_seg _ Hnull _ _ _ Hs Hlen). lia.
    - destruct HT as (L1 & L2 & vs1 & v & vs2 & Ho & H1 & H2 & [Hs Hv] & H4).
      assert (Hnd2 : NoDup (n :: L2)). { destruct Ho as [Hnd _]. apply list.NoDup_app in Hnd. apply Hnd. }
      apply list.NoDup_cons in Hnd2 as [Hni Hnd2].
      assert (Hlen : length L2 <= M).
      { etrans; [|exact HM]. by eapply vals_alive. }
      rewrite (clen_seg _ Hnull _ _ _ Hs Hlen). lia.
  Qed.

  (** Quiet steps do not concern the others. *)
  Lemma rk_quiet t t' x g x' pc :
    GI x g -> tinv t' pc x g -> t' <> t -> nlive x <= M -> quiet t g x x' -> rk x' pc = rk x pc.
  Proof.
    intros HG HT Hne HM (Hp & Ht & Hh).
    assert (Hnull : s_heap x !! null = None) by apply (pi_null _ _ _ _ _ (gi_pi _ _ _ HG)).
    assert (Hf : fresh x' pc = fresh x pc).
    { unfold fresh. by rewrite Hp, Ht. }
    unfold rk. rewrite Hf. f_equal. clear Hf.
    destruct Hh as [Hh|(m & nd & Hm & Hh)]; [by destruct pc; simpl; rewrite ?Hh|].
    assert (Hnm : m <> null) by (by eapply gi_own_not_null).
    destruct pc as [b v a|v n|top bot r|top bot old r|top bot old r|b vs|b vs k te a|b vs k te n
      |b vs k te n|cur| |old|old nxt|n|rev|rev old|n lst|n lst nxt|n k acc|n k acc|n k|n d k|k| |r]; simpl; try done.
    - destruct HT as (L1 & L2 & vs1 & vs2 & Ho & H1 & [Hs Hv] & H4).
      assert (Hlen : length (n :: L2) <= M).
      { etrans; [|exact HM]. eapply vals_alive; [exact Hv|]. destruct Ho as [Hnd _].
        apply list.NoDup_app in Hnd. apply Hnd. }
      assert (Hmn : m ∉ n :: L2).
      { intros Hi. assert (Hi' : m ∈ L1 ++ n :: L2) by (apply elem_of_app; by right).
        apply Ho in Hi'. congruence. }
      rewrite (clen_seg _ Hnull _ _ _ Hs Hlen).
      rewrite (clen_seg (s_heap x')) with (L := n :: L2); [done| | |done].
      + rewrite Hh. by rewrite lookup_insert_ne.
      + rewrite Hh. by apply seg_insert_ne.
    - destruct HT as (L1 & L2 & vs1 & v & vs2 & Ho & H1 & H2 & [Hs Hv] & H4).
      assert (Hnd2 : NoDup (n :: L2)). { destruct Ho as [Hnd _]. apply list.NoDup_app in Hnd. apply Hnd. }
      apply list.NoDup_cons in Hnd2 as [Hni Hnd2].
      assert (Hlen : length L2 <= M).
      { etrans; [|exact HM]. by eapply vals_alive. }
      assert (Hmn : m ∉ L2).
      { intros Hi. assert (Hi' : m ∈ L1 ++ n :: L2) by (apply elem_of_app; right; by right).
        apply Ho in Hi'. congruence. }
      rewrite (clen_seg _ Hnull _ _ _ Hs Hlen).
      rewrite (clen_seg (s_heap x')) with (L := L2); [done| | |done].
      + rewrite Hh. by rewrite lookup_insert_ne.
      + rewrite Hh. by apply seg_insert_ne.
  Qed.

  (** ** Executions *)

  Definition energy (s : sstate) : nat := msum s_work (s_pcs s) + 2 * nlive (s_sh s).
  Definition elems (s : sstate) : nat := nlive (s_sh s) + msum s_elems (s_pcs s).
  Definition pot (n : nat) (s : sstate) : nat :=
    energy s * (n * (2 * M + 9) + 1) + msum (rk (s_sh s)) (s_pcs s).

  Lemma msum_rk s g : Inv s g -> nlive (s_sh s) <= M ->
    msum (rk (s_sh s)) (s_pcs s) <= size (s_pcs s) * (2 * M + 9).
  Proof.
    intros [HG HT] HM. apply msum_le. intros t pc Hpc. specialize (HT t). rewrite Hpc in HT.
    by eapply rk_le.
  Qed.

  Lemma run_dec s g t addr thr s' evs n :
    Inv s g -> sstep c s (Run t false addr thr) = SNext s' evs -> (forall r, Res t r ∉ evs) ->
    size (s_pcs s) <= n -> elems s <= M ->
    size (s_pcs s') = size (s_pcs s) /\ elems s' <= elems s /\ pot n s' < pot n s.
  Proof using Htag.
    intros HI Hs Hev Hn HM.
    pose proof (sstep_ok c Htag _ _ (Run t false addr thr) I HI) as Hok.
    rewrite Hs in Hok. destruct Hok as (g' & HI' & _).
    assert (HM1 : nlive (s_sh s) <= M) by (unfold elems in HM; lia).
    pose proof HI as [HG HTT]. pose proof (HTT t) as HT. simpl in Hs.
    destruct (s_pcs s !! t) as [pc|] eqn:Hpc; [|done].
    assert (Hgo : (exists r, pc = PcRet r) \/ exists x' pc', tstep c (s_sh s) pc false addr thr = TGo x' pc' /\
                    s' = SSt x' (<[t := pc']> (s_pcs s))).
    { destruct pc; try (right; destruct (tstep _ _ _ _ _ _); simplify_eq/=; by eauto); left; eauto. }
    destruct Hgo as [[r ->]|(x' & pc' & Hst & ->)].
    { simplify_eq/=. exfalso. apply (Hev r). left. }
    destruct (tstep_dec t _ _ _ _ _ _ _ HG HT HM1 Hst) as [Hel Hd].
    assert (Hsz : size (<[t := pc']> (s_pcs s)) = size (s_pcs s)) by (apply map_size_insert_Some; eauto).
    split; [exact Hsz|].
    pose proof (msum_insert s_elems _ _ _ pc' Hpc) as Hwe.
    pose proof (msum_insert s_work _ _ _ pc' Hpc) as Hw.
    assert (Hel2 : elems (SSt x' (<[t:=pc']> (s_pcs s))) <= elems s).
    { unfold elems. cbn [s_sh s_pcs]. lia. }
    split; [exact Hel2|].
    assert (HM2 : nlive x' <= M) by (unfold elems in Hel2, HM; cbn [s_sh s_pcs] in *; lia).
    pose proof (msum_rk _ _ HI' HM2) as Hrk'. cbn [s_sh s_pcs] in Hrk'. rewrite Hsz in Hrk'.
    unfold pot, energy in *. cbn [s_sh s_pcs] in *.
    set (l := 2 * M + 9) in *.
    destruct Hd as [Hlt|(Hq & Hle & Hr)].
    - set (e' := msum s_work (<[t := pc']> (s_pcs s)) + 2 * nlive x') in *.
      assert (S e' <= msum s_work (s_pcs s) + 2 * nlive (s_sh s)) as He by (unfold e'; lia).
      apply (Nat.mul_le_mono_r _ _ (n * l + 1)) in He. simpl in He.
      assert (size (s_pcs s) * l <= n * l) by (by apply Nat.mul_le_mono_r). lia.
    - assert (Hx : msum (rk x') (<[t := pc']> (s_pcs s)) < msum (rk (s_sh s)) (s_pcs s)).
      { rewrite <- (insert_delete (s_pcs s) t pc Hpc) at 2. rewrite <- insert_delete_insert.
        rewrite !msum_insert_new by apply lookup_delete.
        rewrite (msum_ext (rk x') (rk (s_sh s)) (delete t (s_pcs s))); [lia|].
        intros t' pc2 Hpc2. apply lookup_delete_Some in Hpc2 as [Hne Hpc2].
        pose proof (HTT t') as HT'. rewrite Hpc2 in HT'. by eapply (rk_quiet t t'). }
      assert (He : msum s_work (<[t := pc']> (s_pcs s)) + 2 * nlive x' <=
                   msum s_work (s_pcs s) + 2 * nlive (s_sh s)) by lia.
      apply (Nat.mul_le_mono_r _ _ (n * l + 1)) in He. lia.
  Qed.

  Lemma start_work o pc : sstart c o = Some pc -> s_work pc = s_opwork o /\ s_elems pc = s_opelems o.
  Proof.
    destruct o; simpl; try done; try destruct (c_node_based c); try done; by intros [= <-].
  Qed.

  Lemma pot_invoke s g t o s' evs n :
    nonempty_op o -> Inv s g -> sstep c s (Invoke t o) = SNext s' evs -> elems s + s_opelems o <= M ->
    size (s_pcs s') = S (size (s_pcs s)) /\ elems s' = elems s + s_opelems o /\
    pot n s' <= pot n s + s_opwork o * (n * (2 * M + 9) + 1) + (2 * M + 9).
  Proof using Htag.
    intros Hne HI Hs HM. pose proof (sstep_ok c Htag _ _ (Invoke t o) Hne HI) as Hok.
    rewrite Hs in Hok. destruct Hok as (g' & [HG HT] & _). specialize (HT t). simpl in Hs.
    destruct (s_pcs s !! t) as [pc|] eqn:Hpc; [done|].
    destruct (sstart c o) as [pc|] eqn:Hst; [|done]. simplify_eq/=.
    destruct (start_work _ _ Hst) as [Hw He].
    split; [by apply map_size_insert_None|]. unfold pot, energy, elems in *. simpl.
    rewrite !msum_insert_new by done. rewrite Hw, He.
    split; [lia|]. rewrite lookup_insert in HT. simpl in HT. apply (rk_le _ _ g') in HT; [|done|lia]. lia.
  Qed.

  Lemma live_run chs : forall s g h s' n,
    Inv s g -> Forall s_fair chs -> srun c s chs = Some (h, s') -> (forall t r, Res t r ∉ h) ->
    size (s_pcs s) + length (s_invoked chs) <= n ->
    elems s + sum_list (s_opelems <$> s_invoked chs) <= M ->
    length chs <= pot n s + sum_list (s_opwork <$> s_invoked chs) * (n * (2 * M + 9) + 1)
                  + length (s_invoked chs) * (2 * M + 10).
  Proof using Htag.
    induction chs as [|ch chs IH]; intros s g h s' n HI Hf Hr Hn Hsz HM; [simpl; lia|].
    apply list.Forall_cons in Hf as [Hf1 Hf2]. cbn [srun] in Hr.
    destruct (sstep c s ch) as [s1 e1| |] eqn:Hs; [|done..].
    destruct (srun c s1 chs) as [[h2 s2]|] eqn:Hr2; [|done]. injection Hr as <- <-.
    assert (Hok : ch_ok ch) by (by destruct ch).
    pose proof (sstep_ok c Htag _ _ ch Hok HI) as Hst. rewrite Hs in Hst. destruct Hst as (g1 & HI1 & _).
    assert (Hn2 : forall t r, Res t r ∉ h2) by (intros t r ?; apply (Hn t r), elem_of_app; by right).
    assert (Hn1 : forall t r, Res t r ∉ e1) by (intros t r ?; apply (Hn t r), elem_of_app; by left).
    destruct ch as [t o|t sp addr thr|t o addrs thr]; simpl in Hf1; [| |done].
    - assert (Hi : s_invoked (Invoke t o :: chs) = o :: s_invoked chs) by done.
      rewrite Hi in Hsz, HM |- *.
      change (sum_list (?f <$> o :: ?l)) with (f o + sum_list (f <$> l)) in *.
      change (length (?a :: ?l)) with (S (length l)) in *.
      destruct (pot_invoke _ _ _ _ _ _ n Hok HI Hs ltac:(lia)) as (Hsz1 & He1 & Hp).
      specialize (IH s1 g1 h2 s2 n HI1 Hf2 Hr2 Hn2 ltac:(lia) ltac:(lia)).
      set (S0 := sum_list (s_opwork <$> _)) in *. set (l := 2 * M + 9) in *.
      assert (2 * M + 10 = l + 1) as Hl by (unfold l; lia). rewrite Hl in *.
      rewrite Nat.mul_add_distr_r. lia.
    - subst sp. assert (Hi : s_invoked (Run t false addr thr :: chs) = s_invoked chs) by done.
      rewrite Hi in Hsz, HM |- *.
      destruct (run_dec _ _ _ _ _ _ _ n HI Hs ltac:(auto) ltac:(lia) ltac:(lia)) as (Hsz1 & He1 & Hp).
      specialize (IH s1 g1 h2 s2 n HI1 Hf2 Hr2 Hn2 ltac:(lia) ltac:(lia)). cbn [length]. lia.
  Qed.
End live.

Section main.
  Context (c : cfg) (Htag : c_tagmod c = None).

  Lemma live_main ns hist s chs h s' :
    sreach c ns hist s -> Forall s_fair chs -> srun c s chs = Some (h, s') -> (forall t r, Res t r ∉ h) ->
    length chs <= length (s_invoked chs) +
      s_bound (size (s_pcs s) + length (s_invoked chs))
              (2 * s_alive s + msum s_work (s_pcs s) + sum_list (s_opwork <$> s_invoked chs))
              (s_alive s + msum s_elems (s_pcs s) + sum_list (s_opelems <$> s_invoked chs)).
  Proof using Htag.
    intros Hre Hf Hr Hn. destruct (sreach_ok c Htag _ _ _ Hre) as (g & HI & _).
    set (M := s_alive s + msum s_elems (s_pcs s) + sum_list (s_opelems <$> s_invoked chs)).
    pose proof (live_run c M Htag chs s g h s' _ HI Hf Hr Hn (le_n _) (le_n _)) as H.
    assert (HM : nlive (s_sh s) <= M) by (unfold M, s_alive, nlive; lia).
    pose proof (msum_rk c M _ _ HI HM) as Hrk. unfold s_bound. unfold pot, energy in H. cbv zeta.
    change (nlive (s_sh s)) with (s_alive s) in H.
    set (i := length (s_invoked chs)) in *. set (l := 2 * M + 9) in *.
    assert (2 * M + 10 = l + 1) as Hll by (unfold l; lia). rewrite Hll in H.
    set (w := msum s_work _) in *. set (v := sum_list _) in *. set (n := size _) in *.
    lia.
  Qed.

  (** A thread inside a call can always take a step. *)
  Lemma enabled_main ns hist s t :
    sreach c ns hist s -> is_Some (s_pcs s !! t) ->
    exists s' evs, sstep c s (Run t false None false) = SNext s' evs.
  Proof using Htag.
    intros Hre [pc Hpc]. destruct (sreach_ok c Htag _ _ _ Hre) as (g & HI & _).
    pose proof (sstep_ok c Htag _ _ (Run t false None false) I HI) as Hok.
    destruct (sstep c s (Run t false None false)) as [s' evs| |] eqn:Hs; [eauto|done|]. exfalso.
    clear Hok. simpl in Hs. rewrite Hpc in Hs.
    assert (Hd : (exists r, pc = PcRet r) \/ tstep c (s_sh s) pc false None false = TDisabled).
    { destruct pc; try (right; destruct (tstep _ _ _ _ _ _); by simplify_eq/=); left; eauto. }
    destruct Hd as [[r ->]|Hd]; [done|].
    destruct pc as [b v []|v n|top bot r|top bot old r|top bot old r|b vs|b vs k te []|b vs k te n
      |b vs k te n|cur| |old|old nxt|n|rev|rev old|n lst|n lst nxt|n k acc|n k acc|n k|n [] k|[]| |r];
      simpl in Hd;
      repeat match type of Hd with
             | context [match ?x with _ => _ end] =>
                 lazymatch x with context [match _ with _ => _ end] => fail | _ => destruct x end
             end; done.
  Qed.
End main.

Section progress.
  Context (c : cfg) (Htag : c_tagmod c = None).

  Lemma run_inside s t addr thr s' evs :
    sstep c s (Run t false addr thr) = SNext s' evs ->
    (exists r, evs = [Res t r]) \/ (evs = [] /\ forall t', is_Some (s_pcs s !! t') -> is_Some (s_pcs s' !! t')).
  Proof using Type.
    intros Hs. simpl in Hs. destruct (s_pcs s !! t) as [pc|] eqn:Hpc; [|discriminate Hs].
    assert (Hd : (exists r, pc = PcRet r) \/
      exists x pc', SNext (SSt x (<[t := pc']> (s_pcs s))) [] = SNext s' evs).
    { destruct pc; try (right; destruct (tstep c (s_sh s) _ _ _ _); [by eauto|discriminate Hs..]). left; eauto. }
    destruct Hd as [[r ->]|(x & pc' & Hd)].
    - injection Hs as _ <-. left. eauto.
    - injection Hd as <- <-. right. split; [done|]. intros t' Hi. simpl.
      destruct (decide (t = t')) as [->|]; [rewrite lookup_insert|rewrite lookup_insert_ne by done]; eauto.
  Qed.

  Lemma schedule ts : forall ns hist s,
    sreach c ns hist s -> (forall t, t ∈ ts -> is_Some (s_pcs s !! t)) ->
    (exists k h s' t r, k <= length ts /\
       srun c s ((fun t => Run t false None false) <$> take k ts) = Some (h, s') /\ Res t r ∈ h) \/
    exists s', srun c s ((fun t => Run t false None false) <$> ts) = Some ([], s').
  Proof using Htag.
    induction ts as [|t ts IH]; intros ns hist s Hre Hin; [right; by eexists|].
    destruct (enabled_main c Htag ns hist s t Hre (Hin t ltac:(left))) as (s1 & e1 & Hs).
    destruct (run_inside _ _ _ _ _ _ Hs) as [[r ->]|[-> Hk]].
    - left. exists 1, [Res t r], s1, t, r. split; [simpl; lia|]. split; [|left].
      cbn [take fmap list_fmap srun]. by rewrite Hs.
    - assert (Hre1 : sreach c ns hist s1).
      { destruct Hre as (H1 & H2 & H3 & H5). do 3 (split; [done|]).
        rewrite <- (app_nil_r hist). by econstructor. }
      destruct (IH ns hist s1 Hre1) as [(k & h & s' & t' & r & Hl & Hr & Hres)|[s' Hr]].
      { intros t' Ht'. apply Hk, Hin. by right. }
      + left. exists (S k), h, s', t', r. split; [simpl; lia|]. split; [|done].
        rewrite firstn_cons, fmap_cons. cbn [srun]. by rewrite Hs, Hr.
      + right. exists s'. rewrite fmap_cons. cbn [srun]. by rewrite Hs, Hr.
  Qed.

  Lemma progress_main ns hist s ts :
    sreach c ns hist s -> (forall t, t ∈ ts -> is_Some (s_pcs s !! t)) ->
    s_bound (size (s_pcs s)) (2 * s_alive s + msum s_work (s_pcs s)) (s_alive s + msum s_elems (s_pcs s)) < length ts ->
    exists k h s' t r, k <= length ts /\
      srun c s ((fun t => Run t false None false) <$> take k ts) = Some (h, s') /\ Res t r ∈ h.
  Proof using Htag.
    intros Hre Hin Hlt. destruct (schedule ts ns hist s Hre Hin) as [?|[s' Hr]]; [done|].
    assert (Hi : s_invoked ((fun t => Run t false None false) <$> ts) = []).
    { clear. by induction ts. }
    pose proof (live_main c Htag ns hist s ((fun t => Run t false None false) <$> ts) [] s' Hre) as H.
    rewrite Hi in H. cbn [length fmap list_fmap sum_list foldr plus] in H.
    rewrite fmap_length, ?Nat.add_0_r in H. exfalso. apply (Nat.lt_irrefl (length ts)).
    eapply Nat.le_lt_trans; [|exact Hlt]. apply H; [|done|].
    - apply list.Forall_forall. intros ch Hc. apply elem_of_list_fmap in Hc as (t & -> & _). done.
    - intros t r. apply not_elem_of_nil.
  Qed.
End progress.
