(** * The queue machine: every execution satisfies the invariant *)
From stdpp Require Import gmap list numbers.
From Verif Require Import Lin PoolModel Chain PoolProofs QueueModel QueueSpec QueueObs QueueInv QueueStep.

Set Default Proof Using "Type".

Section safe.
  Context (c : cfg).
  Notation null := (c_null c).
  Notation spec := (qspec (c_node_based c) (c_throws c)).
  Notation GI := (GI c).
  Notation rely := (rely c).
  Notation tinv := (tinv c).
  Notation canl := (canl c).
  Notation Inv := (Inv c).

  (** ** Calls and returns *)

  Lemma rely_trace t x g l ph a :
    g_ph (g_tr g l ph a) !! t = g_ph g !! t ->
    (forall o r, canl g t o r -> canl (g_tr g l ph a) t o r) ->
    rely t x g x (g_tr g l ph a).
  Proof.
    intros Hph Hc. split; try done.
    - by left.
    - by left.
    - intros n nd Hnd. exists nd. split; [done|lia].
    - intros n nd Ho Hnd. exists nd. split; [done|]. split; [done|]. split; by left.
  Qed.

  Lemma act_inv x g t o :
    GI x g -> g_ph g !! t = None ->
    let g' := g_tr g (g_l g ++ [Ev (Lin.Inv t o)]) (<[t := Pending o]> (g_ph g)) (g_a g) in
    GI x g' /\ (forall t', t' <> t -> rely t' x g x g').
  Proof.
    intros HG Hn g'. split.
    - destruct HG. split; try done. simpl. by constructor.
    - intros t' Hne. apply rely_trace; [simpl; by rewrite lookup_insert_ne|].
      intros o' r' Hc. unfold canl in *. simpl. eapply canlin_ext; [exact Hc| |].
      + rewrite <- (app_nil_l [_]). constructor; [constructor|done].
      + apply Forall_singleton. simpl. done.
  Qed.

  Lemma act_res x g t o r :
    GI x g -> g_ph g !! t = Some (Done o r) ->
    let g' := g_tr g (g_l g ++ [Ev (Res t r)]) (delete t (g_ph g)) (g_a g) in
    GI x g' /\ (forall t', t' <> t -> rely t' x g x g').
  Proof.
    intros HG Hn g'. split.
    - destruct HG. split; try done. simpl. by econstructor.
    - intros t' Hne. apply rely_trace; [simpl; by rewrite lookup_delete_ne|].
      intros o' r' Hc. unfold canl in *. simpl. eapply canlin_ext; [exact Hc| |].
      + rewrite <- (app_nil_l [_]). econstructor; [constructor|done].
      + apply Forall_singleton. simpl. done.
  Qed.

  Lemma qstart_ok x g t o tf pc :
    qstart c o tf = Some pc -> pend g t o -> tinv t pc x g.
  Proof.
    destruct o as [b v| | |n|v| |n]; simpl; try done.
    - destruct (decide _) as [Hl|]; [|done]. intros [= <-] Hp. done.
    - by intros [= <-].
    - destruct tf; by intros [= <-].
    - destruct (c_node_based c); [|done]. intros [= <-] Hp. by exists n.
  Qed.

  Context (Htag : c_tagmod c = None).

  (** ** Operations without synchronization *)

  (** No thread holds a node. *)
  Definition nohold (g : ghost) : Prop := forall n t, g_own g !! n <> Some (OT t).

  (** What such an operation guarantees. *)
  Definition uok (m0 : nat) (t : nat) (o : qop) (g : ghost) (u : uout) : Prop :=
    match u with
    | UDone x' r => exists g', GI x' g' /\ g_ph g' !! t = Some (Done o r) /\
        erase (g_l g') = erase (g_l g) /\ (forall t', t' <> t -> g_ph g' !! t' = g_ph g !! t') /\
        nohold g' /\ spec (g_a g) o r (g_a g') /\ lossy m0 g g'
    | UUB => False
    | UDisabled => True
    end.

  Lemma uok_now {m0} x g t o r :
    GI x g -> nohold g -> pend g t o -> spec (g_a g) o r (g_a g) -> uok m0 t o g (UDone x r).
  Proof.
    intros HG HN Hp Hs.
    destruct (act_commit c x g t o r HG) as (g' & HG' & Hph & Ho & _ & _ & Ha & He & R).
    { by eapply canl_now. }
    exists g'. split; [done|]. split; [done|]. split; [done|].
    split; [|split; [intros n t'; rewrite Ho; apply HN|split; [by rewrite Ha|by apply lossy_own]]].
    intros t' Hne. apply (rl_ph _ _ _ _ _ _ (R t' Hne)).
  Qed.

  Lemma uok_ext {m0} t o g g1 u :
    erase (g_l g1) = erase (g_l g) -> (forall t', t' <> t -> g_ph g1 !! t' = g_ph g !! t') ->
    g_a g1 = g_a g -> lossless g g1 -> uok m0 t o g1 u -> uok m0 t o g u.
  Proof.
    intros Hl Hph Ha Hlo. destruct u as [x r| |]; [|done..].
    intros (g' & HG & Hd & Hl' & Hph' & HN & Hsp & HK). exists g'. split; [done|]. split; [done|].
    split; [congruence|].
    split; [|split; [done|split; [by rewrite <- Ha|
      by apply (lossy_trans 0 m0 g g1 g'); [apply lossless_lossy|]]]].
    intros t' Hne. rewrite Hph', Hph by done. done.
  Qed.

  Lemma uok_leak t o g n u :
    uok 0 t o (g_mem g (<[n := OL]> (g_own g)) (g_qn g) (g_fn g)) u -> uok 1 t o g u.
  Proof.
    destruct u as [x r| |]; [|done..]. intros (g' & H1 & H2 & H3 & H4 & H5 & H6 & H7). exists g'.
    repeat (split; [done|]). by eapply (lossy_trans 1 0); [apply lossy_leak|].
  Qed.

  (** The tail is the last node or the one before. *)
  Lemma tail_cases x g nd :
    GI x g -> q_heap x !! (q_tail x).1 = Some nd ->
    (nx nd).1 = null \/
    ((nx nd).1 <> null /\ nxp (q_heap x) (q_tail x).1 = Some (nx nd).1 /\
     exists nd2, q_heap x !! (nx nd).1 = Some nd2 /\ (nx nd2).1 = null).
  Proof.
    intros HG Hnd. destruct (decide ((nx nd).1 = null)) as [|Hn]; [by left|right].
    split; [done|]. assert (Hx : nxp (q_heap x) (q_tail x).1 = Some (nx nd).1) by (by apply nxp_Some).
    split; [done|]. destruct (tail_next _ _ _ _ HG Hx Hn) as (pre & Hq).
    pose proof (gi_qseg _ _ _ HG) as Hs. rewrite Hq in Hs.
    change [(q_tail x).1; (nx nd).1] with ([(q_tail x).1] ++ [(nx nd).1]) in Hs.
    rewrite app_assoc in Hs. apply seg_snoc in Hs as [_ Hs].
    by apply nxp_inv in Hs.
  Qed.

  Lemma upush_loop_ok {m0} fuel x g t o n nd nd0 :
    GI x g -> pend g t o -> spec (g_a g) o (RBool true) (g_a g ++ [dat nd]) ->
    g_own g !! n = Some (OT t) -> (forall m t', g_own g !! m = Some (OT t') -> m = n) ->
    q_heap x !! n = Some nd -> (nx nd).1 = null ->
    q_heap x !! (q_tail x).1 = Some nd0 ->
    (if decide ((nx nd0).1 = null) then 1 else 2) <= fuel ->
    uok m0 t o g (upush_loop c fuel x n).
  Proof using Htag.
    assert (Hlast : forall fuel x nd0, GI x g -> pend g t o ->
      spec (g_a g) o (RBool true) (g_a g ++ [dat nd]) ->
      g_own g !! n = Some (OT t) -> (forall m t', g_own g !! m = Some (OT t') -> m = n) ->
      q_heap x !! n = Some nd -> (nx nd).1 = null ->
      q_heap x !! (q_tail x).1 = Some nd0 -> (nx nd0).1 = null ->
      uok m0 t o g (upush_loop c (S fuel) x n)).
    { clear fuel x nd0. intros fuel x nd0 HG Hp Hs Ho HN Hnd Hxn Hnd0 Hx0. simpl. rewrite Hnd0.
      rewrite decide_True by done.
      destruct (act_link c x g t o (RBool true) n nd nd0 (next_tag c (nx nd0).2)
                  HG Hp Hs Ho Hnd Hxn Hnd0 Hx0) as [HG1 _].
      { rewrite next_tag_succ by done. lia. }
      match type of HG1 with GI ?x1 ?g1 => set (x1' := x1) in *; set (g1' := g1) in * end.
      destruct (act_tail c x1' g1' t n (next_tag c (q_tail x).2) HG1) as [HG2 _].
      { simpl. by rewrite nxp_insert. }
      { eapply (gi_own_not_null c x g n (OT t)); done. }
      { simpl. rewrite next_tag_succ by done. lia. }
      exists g1'. split; [exact HG2|]. split; [simpl; by rewrite lookup_insert|].
      split; [simpl; by rewrite erase_app, app_nil_r|].
      split; [|split; [|split; [done|by apply (lossy_insert _ g _ n OQ)]]].
      - intros t' Hne. simpl. by rewrite lookup_insert_ne.
      - intros m t'. simpl. rewrite lookup_insert_Some. intros [[_ ?]|[Hne Hm]]; [done|].
        apply HN in Hm. congruence. }
    intros HG Hp Hs Ho HN Hnd Hxn Hnd0 Hf.
    destruct (decide ((nx nd0).1 = null)) as [Hx0|Hx0].
    - destruct fuel as [|fuel]; [lia|]. by eapply Hlast.
    - destruct fuel as [|[|fuel]]; [lia..|]. cbn [upush_loop]. rewrite Hnd0.
      rewrite decide_False by done.
      destruct (tail_cases _ _ _ HG Hnd0) as [?|(_ & Hx & nd2 & Hnd2 & Hx2)]; [done|].
      destruct (act_tail c x g t (nx nd0).1 (next_tag c (q_tail x).2) HG Hx Hx0) as [HG1 _].
      { rewrite next_tag_succ by done. lia. }
      by apply (Hlast fuel _ nd2).
  Qed.

  Lemma size_in (h : gmap N qnode) n nd : h !! n = Some nd -> 1 <= size h.
  Proof.
    intros Hn. destruct (decide (size h = 0)) as [He|]; [|lia].
    apply map_size_empty_iff in He. subst h. by rewrite lookup_empty in Hn.
  Qed.

  Lemma upush_ok x g t v addr (thr : bool) :
    GI x g -> nohold g -> c_node_based c = true -> length v = c_words c -> pend g t (UPush v) ->
    uok (if thr then 1 else 0) t (UPush v) g (upush c x v addr thr).
  Proof using Htag.
    intros HG HN Hnb Hv Hp. unfold upush.
    pose proof (alloc_unsafe_ok c Htag (qd0 c) false _ _ _ _ addr (gi_pi _ _ _ HG)) as Hok.
    destruct (alloc_unsafe c (qd0 c) false (q_heap x) (q_pool x) addr) as [h p a|h p n| | | |]; try done.
    - assert (Hrest : forall g1, GI (set_heap_pool x h p) g1 -> g_own g1 !! n = Some (OT t) ->
                 (forall m t', g_own g1 !! m = Some (OT t') -> m = n) ->
                 g_ph g1 = g_ph g -> g_l g1 = g_l g -> g_a g1 = g_a g -> lossless g g1 ->
                 uok (if thr then 1 else 0) t (UPush v) g match h !! n with
                   | Some nd => if thr then if c_throws c then UDone (set_heap_pool x h p) RExn else UDisabled
                     else upush_loop c (S (size (<[n:=Node (null, next_tag c (nx nd).2) v]> h)))
                       (set_heap_pool x (<[n:=Node (null, next_tag c (nx nd).2) v]> h) p) n
                   | None => UUB end).
      { intros g1 HG1 Ho1 HN1 Hph1 Hl1 Ha1 Hlo1.
        eapply (uok_ext _ _ g g1); [congruence|intros; by rewrite Hph1|done|exact Hlo1|].
        destruct (gi_own_dom c _ _ _ _ HG1 Ho1) as [nd Hnd]. simpl in Hnd. rewrite Hnd.
        destruct thr.
        { destruct (c_throws c) eqn:Hthr; [|done].
          destruct (act_leak c _ g1 t n Hthr HG1 Ho1) as [HG2 _].
          apply uok_leak with n.
          apply uok_now; [exact HG2| |unfold pend; simpl; by rewrite Hph1|constructor].
          intros m t'. simpl. rewrite lookup_insert_Some. intros [[_ ?]|[Hne Hm]]; [done|].
          apply HN1 in Hm. congruence. }
        destruct (act_write c _ g1 t n nd (Node (null, next_tag c (nx nd).2) v) HG1 Ho1 Hnd) as [HG2 _].
        { simpl. rewrite next_tag_succ by done. lia. }
        { done. }
        destruct (gi_tail_dom c _ _ HG2) as [nd0 Hnd0].
        eapply (upush_loop_ok _ _ g1 t (UPush v) n (Node (null, next_tag c (nx nd).2) v) nd0).
        - exact HG2.
        - unfold pend. by rewrite Hph1.
        - rewrite Ha1. constructor.
        - done.
        - done.
        - simpl. by rewrite lookup_insert.
        - done.
        - exact Hnd0.
        - pose proof (size_in _ n _ (lookup_insert h n (Node (null, next_tag c (nx nd).2) v))).
          destruct (decide _); lia. }
      destruct Hok as [(-> & Hn & Hpn & Hp2 & Hx & fn' & Hfn)|(Hf & Hn & -> & -> & _)].
      + destruct (act_pool_pop c x g t n fn' p HG Hfn Hx Hp2) as [HG' _].
        eapply Hrest; [exact HG'|simpl; by rewrite lookup_insert| |done|done|done|
          by apply lossy_none, (lossy_insert 0 g _ n (OT t))].
        intros m t'. simpl. rewrite lookup_insert_Some. intros [[<- _]|[_ Hm]]; [done|].
        by apply HN in Hm.
      + destruct (act_fresh c x g t n (Node (null, 0%N) (qd0 c)) HG Hf Hn) as [HG' _].
        { apply replicate_length. }
        eapply Hrest; [exact HG'|simpl; by rewrite lookup_insert| |done|done|done|
          by apply lossy_none, (lossy_insert 0 g _ n (OT t))].
        intros m t'. simpl. rewrite lookup_insert_Some. intros [[<- _]|[_ Hm]]; [done|].
        by apply HN in Hm.
    - destruct Hok as [_ [?|?]]; congruence.
    - apply uok_now; [done|done|done|]. constructor.
  Qed.

  (** A nonempty queue: the second node exists. *)
  Lemma upop_loop_ok {m0} fuel x g t nd thr :
    GI x g -> nohold g -> pend g t UPop -> q_heap x !! (q_head x).1 = Some nd ->
    (if decide ((q_head x).1 = (q_tail x).1 /\ (nx nd).1 <> null) then 2 else 1) <= fuel ->
    uok m0 t UPop g (upop_loop c fuel x thr).
  Proof using Htag.
    assert (Hmain : forall fuel x nd, GI x g -> nohold g -> pend g t UPop -> q_heap x !! (q_head x).1 = Some nd ->
      ~ ((q_head x).1 = (q_tail x).1 /\ (nx nd).1 <> null) ->
      uok m0 t UPop g (upop_loop c (S fuel) x thr)).
    { clear fuel x nd. intros fuel x nd HG HN Hp Hnd Hc. cbn [upop_loop]. rewrite Hnd.
      destruct (gi_head_cons _ _ _ HG) as [q Hq]. pose proof (gi_qseg _ _ _ HG) as Hsg.
      rewrite Hq in Hsg. destruct Hsg as (_ & y & Hy & Hsg).
      rewrite (nxp_Some _ _ _ Hnd) in Hy. injection Hy as <-.
      destruct (decide ((q_head x).1 = (q_tail x).1)) as [Hht|Hht].
      - destruct (decide ((nx nd).1 = null)) as [Hn|Hn]; [|exfalso; by apply Hc].
        apply uok_now; [done|done|done|]. destruct q as [|z q].
        + pose proof (gi_a _ _ _ HG) as HF. rewrite Hq in HF. simpl in HF.
          apply Forall2_nil_inv_l in HF as ->. constructor.
        + exfalso. destruct Hsg as [<- _]. apply (gi_null_nin _ _ _ HG). rewrite Hq, Hn. right. left.
      - destruct q as [|z q].
        { exfalso. pose proof (gi_tail_in _ _ _ HG) as Hti. rewrite Hq in Hti.
          apply elem_of_list_singleton in Hti. congruence. }
        destruct Hsg as [Hz _].
        assert (Hzin : z ∈ g_qn g) by (rewrite Hq; right; left).
        assert (Hn : (nx nd).1 <> null).
        { intros Hn. apply (gi_null_nin _ _ _ HG). congruence. }
        rewrite decide_False by done. rewrite Hz in Hn |- *.
        destruct (gi_qdom _ _ _ _ HG Hzin) as [nd2 Hnd2]. rewrite Hnd2.
        destruct thr.
        { destruct (c_throws c) eqn:Hthr; [|done]. apply uok_now; [done|done|done|]. by constructor. }
        rewrite (dealloc_unsafe_ok _ _ _ _ Hnd).
        destruct (act_head c x g t UPop (RPop (Some (dat nd2))) z nd2 (next_tag c (q_head x).2)
                    HG Hp (fun a' => sp_upop _ _ a' _)) as (a' & Ha & HG1 & _); try done.
        { rewrite (nxp_Some _ _ _ Hnd). congruence. }
        { rewrite next_tag_succ by done. lia. }
        match type of HG1 with GI ?x1 ?g1 => set (x1' := x1) in *; set (g1' := g1) in * end.
        destruct (act_write c x1' g1' t (q_head x).1 nd (Node ((q_pool x).1, (nx nd).2) (dat nd)) HG1)
          as [HG2 _].
        { simpl. by rewrite lookup_insert. }
        { done. }
        { simpl. lia. }
        { simpl. by eapply gi_len. }
        match type of HG2 with GI ?x2 _ => set (x2' := x2) in * end.
        destruct (act_pool_push c x2' g1' t (q_head x).1 HG2) as [HG3 _].
        { simpl. by rewrite lookup_insert. }
        { simpl. by rewrite nxp_insert. }
        eexists. split; [exact HG3|]. split; [simpl; by rewrite lookup_insert|].
        split; [simpl; by rewrite erase_app, app_nil_r|]. split.
        { intros t' Hne. simpl. by rewrite lookup_insert_ne. }
        split; [|split; [simpl; rewrite Ha; constructor|]].
        2: { apply lossless_lossy. intros m. simpl. rewrite !lookup_insert_Some.
             intros [[_ ?]|[_ [[_ ?]|[_ ?]]]]; done. }
        intros m t'. simpl. rewrite !lookup_insert_Some. intros [[_ ?]|[? [[? ?]|[_ Hm]]]]; [done|done|].
        by apply HN in Hm. }
    intros HG HN Hp Hnd Hf. destruct (decide _) as [[Hht Hn]|Hc].
    - destruct fuel as [|[|fuel]]; [lia..|].
      assert (Hnt : q_heap x !! (q_tail x).1 = Some nd) by congruence.
      destruct (tail_cases _ _ _ HG Hnt) as [?|(_ & Hx & nd2 & Hnd2 & Hx2)]; [done|].
      destruct (act_tail c x g t (nx nd).1 (next_tag c (q_tail x).2) HG Hx Hn) as [HG1 _].
      { rewrite next_tag_succ by done. lia. }
      assert (Hunf : upop_loop c (S (S fuel)) x thr =
                     upop_loop c (S fuel) (set_tail x ((nx nd).1, next_tag c (q_tail x).2)) thr).
      { cbn [upop_loop]. rewrite Hnd. rewrite (decide_True _ _ Hht), (decide_False _ _ Hn). done. }
      rewrite Hunf. apply (Hmain fuel _ nd); [done|done|done|done|].
      simpl. intros [Heq _].
      destruct (tail_next _ _ _ _ HG Hx Hn) as (pre & Hq).
      pose proof (gi_qnodup _ _ _ HG) as Hdup. rewrite Hq in Hdup.
      apply NoDup_app in Hdup as (_ & _ & Hdup). apply list.NoDup_cons in Hdup as [Hdup _].
      apply Hdup. apply elem_of_list_singleton. congruence.
    - destruct fuel as [|fuel]; [lia|]. by eapply Hmain.
  Qed.

  Lemma upop_ok {m0} x g t thr :
    GI x g -> nohold g -> pend g t UPop -> uok m0 t UPop g (upop c x thr).
  Proof using Htag.
    intros HG HN Hp. destruct (gi_head_dom _ _ _ HG) as [nd Hnd]. unfold upop.
    apply (upop_loop_ok _ _ _ _ nd); [done|done|done|done|].
    pose proof (size_in _ _ _ Hnd). destruct (decide _); lia.
  Qed.

  Lemma ureserve_ok {m0} m n x g t addrs :
    GI x g -> nohold g -> pend g t (UReserve m) -> uok m0 t (UReserve m) g (ureserve c n x addrs).
  Proof using Htag.
    revert x g addrs. induction n as [|n IH]; intros x g addrs HG HN Hp; simpl.
    - apply uok_now; [done|done|done|]. constructor.
    - destruct addrs as [|[a|] addrs]; [done| |].
      + destruct (decide _) as [[Hf Hn]|]; [|done].
        rewrite (dealloc_unsafe_ok _ _ _ _ (lookup_insert _ _ _)). simpl.
        destruct (act_fresh c x g t a (Node (null, 0%N) (qd0 c)) HG Hf Hn) as [HG1 _].
        { apply replicate_length. }
        match type of HG1 with GI ?x1 ?g1 => set (x1' := x1) in *; set (g1' := g1) in * end.
        destruct (act_write c x1' g1' t a (Node (null, 0%N) (qd0 c)) (Node ((q_pool x).1, 0%N) (qd0 c)) HG1)
          as [HG2 _].
        { simpl. by rewrite lookup_insert. }
        { simpl. by rewrite lookup_insert. }
        { simpl. lia. }
        { apply replicate_length. }
        match type of HG2 with GI ?x2 _ => set (x2' := x2) in * end.
        destruct (act_pool_push c x2' g1' t a HG2) as [HG3 _].
        { simpl. by rewrite lookup_insert. }
        { simpl. by rewrite nxp_insert. }
        eapply (uok_ext _ _ g); [| | | |eapply IH; [exact HG3| |done]]; [done|done|done| |].
        { intros b. simpl. rewrite !lookup_insert_Some. intros [[_ ?]|[_ [[_ ?]|[_ ?]]]]; done. }
        intros b t'. simpl. rewrite !lookup_insert_Some. intros [[_ ?]|[? [[? ?]|[_ Hm]]]]; [done|done|].
        by apply HN in Hm.
      + apply uok_now; [done|done|done|]. constructor.
  Qed.

  (** What an unsynchronized call may lose. *)
  Definition ucost (o : qop) (thr : bool) : nat :=
    match o with UPush _ => if thr then 1 else 0 | _ => 0 end.

  Lemma ucall_ok x g t o addrs (thr : bool) :
    GI x g -> nohold g -> pend g t o -> uok (ucost o thr) t o g (ucall c x o addrs thr).
  Proof using Htag.
    intros HG HN Hp. destruct o as [b v| | |n|v| |n]; simpl; try done.
    - destruct (decide _) as [[Hnb Hl]|]; [|done]. by apply upush_ok.
    - by apply upop_ok.
    - destruct (c_node_based c); [|done]. by apply ureserve_ok.
  Qed.

  (** The thread of a choice. *)
  Definition ch_thread (ch : qchoice) : nat :=
    match ch with Invoke t _ _ | Run t _ _ _ | Unsync t _ _ _ => t end.

  Lemma ustep_ok s g t o addrs (thr : bool) :
    Inv s g -> q_pcs s = ∅ ->
    match ucall c (q_sh s) o addrs thr with
    | UDone x' r => exists g', Inv (QSt x' ∅) g' /\
        erase (g_l g') = erase (g_l g) ++ [Lin.Inv t o; Res t r] /\ spec (g_a g) o r (g_a g') /\
        lossy (ucost o thr) g g'
    | UUB => False
    | UDisabled => True
    end.
  Proof using Htag.
    intros [HG HT] Hemp.
    assert (Hn : forall t', g_ph g !! t' = None).
    { intros t'. pose proof (HT t') as Ht'. rewrite Hemp, lookup_empty in Ht'. apply Ht'. }
    assert (HN : nohold g).
    { intros n t' Hn'. pose proof (HT t') as Ht'. rewrite Hemp, lookup_empty in Ht'.
      by apply Ht' in Hn'. }
    destruct (act_inv _ _ _ o HG (Hn t)) as [HG1 _].
    match type of HG1 with GI _ ?g1 => set (g1' := g1) in * end.
    pose proof (ucall_ok _ _ t o addrs thr HG1 HN) as Hok.
    destruct (ucall c (q_sh s) o addrs thr) as [x' r| |].
    - destruct Hok as (g2 & HG2 & Hd & Hl & Hph & HN2 & Hsp & HK); [unfold pend; simpl; by rewrite lookup_insert|].
      destruct (act_res _ _ _ _ _ HG2 Hd) as [HG3 _].
      eexists. split; [split; [exact HG3|]|split].
      + intros t'. simpl. rewrite lookup_empty. split; [|intros n; by apply HN2].
        destruct (decide (t = t')) as [<-|Hne].
        * by rewrite lookup_delete.
        * rewrite lookup_delete_ne by done. rewrite Hph by done. simpl.
          by rewrite lookup_insert_ne.
      + simpl. rewrite erase_app, Hl. simpl. rewrite erase_app. by rewrite <- app_assoc.
      + done.
    - apply Hok. unfold pend. simpl. by rewrite lookup_insert.
    - done.
  Qed.

  (** ** Every step preserves the invariant and is free of undefined behaviour *)

  (** How many nodes a step may lose. *)
  Definition loss (ch : qchoice) (s : qstate) (g g' : ghost) : Prop :=
    match ch with
    | Invoke _ _ _ => lossless g g'
    | Run t _ _ thr => match q_pcs s !! t with Some pc => lossy (cost pc thr) g g' | None => True end
    | Unsync _ o _ thr => lossy (ucost o thr) g g'
    end.

  Lemma qstep_ok s g ch :
    Inv s g ->
    match qstep c s ch with
    | QUB => False
    | QDisabled => True
    | QNext s' evs => exists g', Inv s' g' /\ erase (g_l g') = erase (g_l g) ++ evs /\
        (forall t pc, q_pcs s !! t = Some pc -> ch_thread ch <> t ->
           q_pcs s' !! t = Some pc /\ rely t (q_sh s) g (q_sh s') g') /\
        loss ch s g g'
    end.
  Proof using Htag.
    intros [HG HT]. destruct ch as [t o tf|t sp addr thr|t o addrs thr]; simpl.
    - pose proof (HT t) as Ht. destruct (q_pcs s !! t) as [pc|] eqn:Hpc; [done|].
      destruct (qstart c o tf) as [pc|] eqn:Hs; [|done].
      destruct Ht as [Ht HN]. destruct (act_inv _ _ _ o HG Ht) as [HG' R].
      eexists. split; [split; [exact HG'|]|split; [simpl; by rewrite erase_app|]];
        [|split; [|exact (lossy_none g g (lossy_refl 0 g))];
          intros t' pc' Hpc' Hne; simpl; rewrite lookup_insert_ne by done; split; [done|by apply R]].
      intros t'. simpl. destruct (decide (t = t')) as [<-|Hne].
      + rewrite lookup_insert. split.
        * eapply qstart_ok; [done|]. unfold pend. simpl. by rewrite lookup_insert.
        * intros n Hn. by apply HN in Hn.
      + rewrite lookup_insert_ne by done. pose proof (HT t') as Ht'.
        destruct (q_pcs s !! t') as [pc'|]; [|by rewrite lookup_insert_ne].
        destruct Ht' as [Ht' HH']. specialize (R t' ltac:(done)).
        split; [eapply tinv_stable; [exact HG|exact R|done]|by eapply hinv_stable].
    - pose proof (HT t) as Ht. destruct (q_pcs s !! t) as [pc|] eqn:Hpc; [|done].
      assert (Hret : forall r, pc = PcRet r ->
        exists g', Inv (QSt (q_sh s) (delete t (q_pcs s))) g' /\
          erase (g_l g') = erase (g_l g) ++ [Res t r] /\
          (forall t' pc', q_pcs s !! t' = Some pc' -> t <> t' ->
             delete t (q_pcs s) !! t' = Some pc' /\ rely t' (q_sh s) g (q_sh s) g') /\
          lossy (cost pc thr) g g').
      { intros r ->. destruct Ht as [[o Ho] HH]. destruct (act_res _ _ _ _ _ HG Ho) as [HG' R].
        eexists. split; [split; [exact HG'|]|split; [simpl; by rewrite erase_app|]];
          [|split; [|exact (lossy_refl _ g)];
            intros t' pc' Hpc' Hne; rewrite lookup_delete_ne by done; split; [done|by apply R]].
        intros t'. simpl. destruct (decide (t = t')) as [<-|Hne].
        - rewrite lookup_delete. simpl. rewrite lookup_delete. split; [done|].
          intros n Hn. by apply HH in Hn.
        - rewrite lookup_delete_ne by done. pose proof (HT t') as Ht'.
          destruct (q_pcs s !! t') as [pc'|]; [|by simpl; rewrite lookup_delete_ne].
          destruct Ht' as [Ht' HH']. specialize (R t' ltac:(done)).
          split; [eapply tinv_stable; [exact HG|exact R|done]|by eapply hinv_stable]. }
      assert (Hgo : (forall r, pc <> PcRet r) ->
        match (match tstep c (q_sh s) pc sp addr thr with
               | TGo x pc' => QNext (QSt x (<[t := pc']> (q_pcs s))) []
               | TUB => QUB
               | TDisabled => QDisabled
               end) with
        | QUB => False
        | QDisabled => True
        | QNext s' evs => exists g', Inv s' g' /\ erase (g_l g') = erase (g_l g) ++ evs /\
            (forall t' pc', q_pcs s !! t' = Some pc' -> t <> t' ->
               q_pcs s' !! t' = Some pc' /\ rely t' (q_sh s) g (q_sh s') g') /\
            lossy (cost pc thr) g g'
        end).
      { intros _. destruct Ht as [Ht HH]. pose proof (tstep_ok c Htag t _ _ _ sp addr thr HG HH Ht) as Hok.
        destruct (tstep c (q_sh s) pc sp addr thr) as [x' pc'| |]; [|done..].
        destruct Hok as (g' & HG' & HT' & HH' & He & R & HK). exists g'.
        split; [split; [done|]|split; [by rewrite app_nil_r|]];
          [|split; [|exact HK]; intros t' pc'' Hpc' Hne; simpl; rewrite lookup_insert_ne by done; split; [done|by apply R]].
        intros t'. simpl. destruct (decide (t = t')) as [<-|Hne].
        - by rewrite lookup_insert.
        - rewrite lookup_insert_ne by done. pose proof (HT t') as Ht'.
          destruct (q_pcs s !! t') as [pc''|].
          + destruct Ht' as [Ht' HH'']. specialize (R t' ltac:(done)).
            split; [eapply tinv_stable; [exact HG|exact R|done]|by eapply hinv_stable].
          + rewrite (rl_ph _ _ _ _ _ _ (R t' ltac:(done))). destruct Ht' as [Ht' HN].
            split; [done|]. intros n Hn. apply (rl_back _ _ _ _ _ _ (R t' ltac:(done))) in Hn.
            by apply HN in Hn. }
      destruct pc; try (apply Hgo; by intros ?). by apply Hret.
    - destruct (decide (q_pcs s = ∅)) as [Hemp|]; [|done].
      pose proof (ustep_ok s g t o addrs thr (conj HG HT) Hemp) as Hok.
      destruct (ucall c (q_sh s) o addrs thr) as [x' r| |]; [|done..].
      destruct Hok as (g' & HI' & He & _ & HK). exists g'. split; [done|]. split; [done|].
      split; [|exact HK]. intros t' pc' Hpc'. by rewrite Hemp, lookup_empty in Hpc'.
  Qed.

  Lemma qexec_ok s0 g0 hist s :
    Inv s0 g0 -> erase (g_l g0) = [] -> qexec c s0 hist s ->
    exists g, Inv s g /\ erase (g_l g) = hist.
  Proof using Htag.
    intros HI Hl. induction 1 as [|hist s ch s' evs He (g & HI' & Hl') Hs].
    - by exists g0.
    - pose proof (qstep_ok _ _ ch HI') as Hok. rewrite Hs in Hok.
      destruct Hok as (g' & HI'' & Hl'' & _). exists g'. split; [done|]. by rewrite Hl'', Hl'.
  Qed.

  (** ** The constructors establish the invariant *)

  Lemma qinit_ok ns addr s :
    NoDup ns -> null ∉ ns -> (ns <> [] \/ c_node_based c = true) ->
    qinit c ns addr = Some s ->
    exists g, Inv s g /\ g_l g = [] /\ g_a g = [] /\ forall n, g_own g !! n <> Some OL.
  Proof using Htag.
    intros Hnd Hnn Hne. unfold qinit.
    destruct (pool_add_ok c (qd0 c) ns ∅ (null, 0%N) ∅ [] (PI_empty c 0%N) Hnd)
      as (own & HP & Ht & Ho & Hd & Hr).
    { intros n Hn. split; [by rewrite lookup_empty|]. by intros ->. }
    unfold pool_init. destruct (pool_add (qd0 c) ns ∅ (null, 0%N)) as [h p]. simpl in *.
    rewrite app_nil_r in HP.
    pose proof (alloc_unsafe_ok c Htag (qd0 c) false _ _ _ _ addr HP) as Hok.
    assert (Hlen : forall n nd, h !! n = Some nd -> length (dat nd) = c_words c).
    { intros n nd Hn. destruct (decide (n ∈ ns)) as [Hi|Hi].
      - destruct (Hd n Hi) as [y Hy]. rewrite Hn in Hy. injection Hy as ->. apply replicate_length.
      - rewrite Hr, lookup_empty in Hn by done. done. }
    assert (HnQ : forall n, own !! n = Some OF \/ own !! n = None).
    { intros n. rewrite Ho. destruct (decide _); [by left|]. rewrite lookup_empty. by right. }
    assert (Hmk : forall h' p' own' fn' n nd, PI c h' p' own' fn' -> own' !! n = Some (OT 0) ->
      (forall m, own' !! m = Some OF \/ own' !! m = None \/ m = n) -> h' !! n = Some nd ->
      (forall n nd, h' !! n = Some nd -> length (dat nd) = c_words c) ->
      exists g, Inv (QSt (QSh (<[n := Node (null, 0%N) (dat nd)]> h') p' (n, 0%N) (n, 0%N)) ∅) g /\
                g_l g = [] /\ g_a g = [] /\ forall n, g_own g !! n <> Some OL).
    { intros h' p' own' fn' n nd HP' Hon Hq Hn Hl.
      exists (Gh (<[n := OQ]> own') [n] fn' [] ∅ []). split; [|split; [done|split; [done|]]].
      2: { intros m. simpl. rewrite lookup_insert_Some. intros [[_ ?]|[? ?]]; [done|].
           destruct (Hq m) as [?|[?|?]]; congruence. }
      split.
      - split; simpl.
        + eapply (PI_own _ _ _ _ _ _ (OT 0)); [done|done| |done].
          eapply (PI_write _ _ _ _ _ _ (OT 0)); done.
        + apply NoDup_singleton.
        + intros m. rewrite elem_of_list_singleton. destruct (decide (n = m)) as [->|Hm].
          * rewrite lookup_insert. done.
          * rewrite lookup_insert_ne by done. split; [by intros ->|]. intros Hm'.
            destruct (Hq m) as [?|[?|?]]; congruence.
        + split; [done|]. eexists. by rewrite nxp_insert.
        + exists []. by left.
        + constructor.
        + intros m ndm. destruct (decide (n = m)) as [->|Hm].
          * rewrite lookup_insert. intros [= <-]. simpl. by eapply Hl.
          * rewrite lookup_insert_ne by done. apply Hl.
        + intros _ m. rewrite lookup_insert_Some. intros [[_ ?]|[? ?]]; [done|].
          destruct (Hq m) as [?|[?|?]]; congruence.
        + constructor.
      - intros t. simpl. rewrite !lookup_empty. split; [done|]. intros m.
        rewrite lookup_insert_Some. intros [[_ ?]|[? ?]]; [done|].
        destruct (Hq m) as [?|[?|?]]; congruence. }
    destruct (alloc_unsafe c (qd0 c) false h p addr) as [?|h' p' n| | | |]; try done.
    - destruct Hok as [(-> & Hn & Hpn & Hp2 & Hx & fn' & Hfn)|(Hf & Hn & -> & -> & _ & _ & Hfn)].
      + destruct (h !! n) as [nd|] eqn:Hhn; [|done]. intros [= <-].
        eapply (Hmk h p' (<[n := OT 0]> own) fn').
        * rewrite Hfn in HP. by eapply PI_pop.
        * by rewrite lookup_insert.
        * intros m. destruct (decide (n = m)) as [->|Hm]; [by right; right|].
          rewrite lookup_insert_ne by done. destruct (HnQ m); auto.
        * done.
        * done.
      + rewrite lookup_insert. intros [= <-]. simpl.
        eapply (Hmk _ p (<[n := OT 0]> own) (reverse ns) n (Node (null, 0%N) (qd0 c))).
        * by apply PI_fresh.
        * by rewrite lookup_insert.
        * intros m. destruct (decide (n = m)) as [->|Hm]; [by right; right|].
          rewrite lookup_insert_ne by done. destruct (HnQ m); auto.
        * by rewrite lookup_insert.
        * intros m ndm. destruct (decide (n = m)) as [->|Hm].
          -- rewrite lookup_insert. intros [= <-]. apply replicate_length.
          -- rewrite lookup_insert_ne by done. apply Hlen.
    - destruct Hok as [Hnil [Hnb|?]]; [|done]. intros _. exfalso.
      apply (f_equal reverse) in Hnil. rewrite reverse_involutive in Hnil.
      destruct Hne as [Hne|Hne]; [by rewrite Hnil in Hne|congruence].
  Qed.
End safe.
