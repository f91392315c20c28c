(** * With wrapping tags and a window of a tag period an element is popped twice *)
From stdpp Require Import gmap list numbers.
From Verif Require Import Lin LinDup PoolModel StackModel StackSpec StackObs StackWrapObs StackQuiet StackDemo StackMain.

Set Default Proof Using "Type".

Definition aba_cfg (nb : bool) (M : N) : cfg := Cfg 0%N nb (Some M) false 1.

Section aba.
  Context (nb : bool) (M : N).
  Notation c := (aba_cfg nb M).
  Notation nt := (next_tag c).

  (** ** Pieces of an execution *)

  Definition rn (s : sstate) (h : list sevent) (s' : sstate) : Prop :=
    exists chs, srun c s chs = Some (h, s').

  Lemma rn_nil s : rn s [] s.
  Proof. by exists []. Qed.

  Lemma rn_app s h1 s1 h2 s2 : rn s h1 s1 -> rn s1 h2 s2 -> rn s (h1 ++ h2) s2.
  Proof. intros [ch1 H1] [ch2 H2]. exists (ch1 ++ ch2). by eapply srun_app. Qed.

  Lemma rn_go x (pcs : gmap nat spc) t pc k x' pc' :
    pcs !! t = Some pc -> tsteps c x pc k x' pc' ->
    rn (SSt x pcs) [] (SSt x' (<[t := pc']> pcs)).
  Proof.
    intros Hp Hts. revert pcs Hp. induction Hts as [x pc|x pc x1 pc1 k x' pc' Hst H IH]; intros pcs Hp.
    - rewrite insert_id by done. apply rn_nil.
    - destruct (IH (<[t := pc1]> pcs)) as [chs Hc]; [by rewrite lookup_insert|].
      rewrite insert_insert in Hc. exists (Run t false None false :: chs). cbn [srun].
      assert (Hs : sstep c (SSt x pcs) (Run t false None false) = SNext (SSt x1 (<[t := pc1]> pcs)) []).
      { cbn [sstep s_pcs s_sh]. rewrite Hp. destruct pc; try (rewrite Hst; reflexivity). discriminate Hst. }
      rewrite Hs, Hc. done.
  Qed.

  Lemma rn_inv x (pcs : gmap nat spc) t o pc :
    pcs !! t = None -> sstart c o = Some pc -> rn (SSt x pcs) [Inv t o] (SSt x (<[t := pc]> pcs)).
  Proof. intros Hn Hs. exists [Invoke t o]. cbn. by rewrite Hn, Hs. Qed.

  Lemma rn_ret x (pcs : gmap nat spc) t r :
    pcs !! t = Some (PcRet r) -> rn (SSt x pcs) [Res t r] (SSt x (delete t pcs)).
  Proof. intros Hn. exists [Run t false None false]. cbn. by rewrite Hn. Qed.

  Lemma rn_stall x (pcs : gmap nat spc) t o pc k x' pc' :
    pcs !! t = None -> sstart c o = Some pc -> tsteps c x pc k x' pc' ->
    rn (SSt x pcs) [Inv t o] (SSt x' (<[t := pc']> pcs)).
  Proof.
    intros Hn Hs Ht. change [Inv t o] with ([Inv t o] ++ [] : list sevent).
    eapply rn_app; [by apply rn_inv|].
    replace (<[t := pc']> pcs) with (<[t := pc']> (<[t := pc]> pcs)) by apply insert_insert.
    eapply rn_go; [by rewrite lookup_insert|exact Ht].
  Qed.

  Lemma rn_finish x (pcs : gmap nat spc) t pc k x' r :
    pcs !! t = Some pc -> tsteps c x pc k x' (PcRet r) ->
    rn (SSt x pcs) [Res t r] (SSt x' (delete t pcs)).
  Proof.
    intros Hn Ht. change [Res t r] with ([] ++ [Res t r] : list sevent).
    eapply rn_app; [by eapply rn_go|].
    replace (delete t pcs) with (delete t (<[t := PcRet r]> pcs)) by apply delete_insert_delete.
    apply rn_ret. by rewrite lookup_insert.
  Qed.

  Lemma rn_call x (pcs : gmap nat spc) t o pc k x' r :
    pcs !! t = None -> sstart c o = Some pc -> tsteps c x pc k x' (PcRet r) ->
    rn (SSt x pcs) [Inv t o; Res t r] (SSt x' pcs).
  Proof.
    intros Hn Hs Ht. change [Inv t o; Res t r] with ([Inv t o] ++ [Res t r] : list sevent).
    eapply rn_app; [by apply rn_inv|].
    replace pcs with (delete t (<[t := pc]> pcs)) at 2 by by apply delete_insert.
    eapply rn_finish; [by rewrite lookup_insert|exact Ht].
  Qed.

  Lemma tsteps_app x pc k x1 pc1 k' x' pc' :
    tsteps c x pc k x1 pc1 -> tsteps c x1 pc1 k' x' pc' -> tsteps c x pc (k + k') x' pc'.
  Proof. induction 1; [done|]. intros. simpl. econstructor; eauto. Qed.

  (** ** Pieces of a call *)

  Ltac st := eapply ts_cons;
    [cbn [set_heap set_heap_pool set_tos tstep astep dstep c_test s_heap s_pool s_tos fst snd c_null aba_cfg
          c_node_based kgo set_next];
     simpl_map; unfold c_test, kgo; cbn [fst snd nx dat c_null aba_cfg];
     repeat first [rewrite decide_True by auto | rewrite decide_False by auto]; simpl_map;
     cbn [nx dat fst snd]; reflexivity|].

  Lemma pop_load h q n τ m a v :
    h !! n = Some (Node (m, a) v) -> n <> 0%N ->
    tsteps c (SSh h q (n, τ)) PcCLoad 2 (SSh h q (n, τ)) (PcCCas (n, τ) m).
  Proof. intros Hn Hn0. do 2 st. apply ts_nil. Qed.

  Lemma pop_cas h q n τ m lk v :
    h !! n = Some (Node lk (Some v)) ->
    tsteps c (SSh h q (n, τ)) (PcCCas (n, τ) m) 2 (SSh h q (m, nt τ)) (PcDestroy n (KRet (SGot (Some v)))).
  Proof. intros Hn. destruct lk. do 2 st. apply ts_nil. Qed.

  Lemma pop_free h p π ts n m a v r :
    h !! n = Some (Node (m, a) (Some v)) ->
    exists h', tsteps c (SSh h (p, π) ts) (PcDestroy n (KRet r)) 4 (SSh h' (n, π) ts) (PcRet r) /\
      h' !! n = Some (Node (p, a) None) /\ forall k, k <> n -> h' !! k = h !! k.
  Proof.
    intros Hn. eexists. split; [do 4 st; apply ts_nil|]. split; [cbn [set_heap set_tos s_heap]; by rewrite lookup_insert|].
    intros k Hk. cbn [set_heap set_tos s_heap]. by rewrite !lookup_insert_ne by done.
  Qed.

  Lemma pop_alone h p π n τ m a v :
    h !! n = Some (Node (m, a) (Some v)) -> n <> 0%N ->
    exists h', tsteps c (SSh h (p, π) (n, τ)) PcCLoad 8 (SSh h' (n, π) (m, nt τ)) (PcRet (SGot (Some v))) /\
      h' !! n = Some (Node (p, a) None) /\ forall k, k <> n -> h' !! k = h !! k.
  Proof.
    intros Hn Hn0. destruct (pop_free h p π (m, nt τ) n m a v (SGot (Some v)) Hn) as (h' & Ht & Hl & Hk).
    exists h'. split; [|done]. eapply (tsteps_app _ _ 2); [by eapply pop_load|].
    eapply (tsteps_app _ _ 2); [by eapply pop_cas|exact Ht].
  Qed.

  Lemma push_begin h n π ts m a b v :
    h !! n = Some (Node (m, a) None) -> n <> 0%N ->
    tsteps c (SSh h (n, π) ts) (PcAlloc b v ALoad) 4
      (SSh (<[n := Node (m, a) (Some v)]> h) (m, nt π) ts) (PcLLoad n n (SBool true)).
  Proof. intros Hn Hn0. do 4 st. apply ts_nil. Qed.

  Lemma push_alone h n π ts m a b v :
    h !! n = Some (Node (m, a) None) -> n <> 0%N ->
    exists h', tsteps c (SSh h (n, π) ts) (PcAlloc b v ALoad) 7 (SSh h' (m, nt π) (n, ts.2)) (PcRet (SBool true)) /\
      h' !! n = Some (Node (ts.1, a) (Some v)) /\ forall k, k <> n -> h' !! k = h !! k.
  Proof.
    intros Hn Hn0. eexists. split; [eapply (tsteps_app _ _ 4); [by eapply push_begin|do 3 st; apply ts_nil]|].
    split; [cbn [set_heap set_tos s_heap]; by rewrite lookup_insert|].
    intros k Hk. cbn [set_heap set_tos s_heap]. by rewrite !lookup_insert_ne by done.
  Qed.

  (** ** The execution *)

  Notation A := 1%N.
  Notation B := 2%N.

  (** The stack is [v] in node [A]; node [B] is alive, contains [5] and is not on
      the stack; the pool is empty. *)
  Definition shape (s : sstate) (pcs : gmap nat spc) (τ v : N) : Prop :=
    exists h π a b, s = SSt (SSh h (0%N, π) (A, τ)) pcs /\
      h !! A = Some (Node (0%N, a) (Some v)) /\ h !! B = Some (Node (0%N, b) (Some 5%N)).

  Definition cyc (v : N) : list sevent :=
    [Inv 0 SPop; Res 0 (SGot (Some v)); Inv 0 (SPush true v); Res 0 (SBool true)].

  Lemma cycle s pcs τ v :
    shape s pcs τ v -> pcs !! 0 = None -> exists s', rn s (cyc v) s' /\ shape s' pcs (nt τ) v.
  Proof.
    intros (h & π & a & b & -> & HA & HB) Hp.
    destruct (pop_alone h 0 π A τ 0 a v HA) as (h1 & Ht1 & HA1 & Hk1); [done|].
    destruct (push_alone h1 A π (0%N, nt τ) 0 a true v HA1) as (h2 & Ht2 & HA2 & Hk2); [done|].
    eexists. split.
    - change (cyc v) with ([Inv 0 SPop; Res 0 (SGot (Some v))] ++ [Inv 0 (SPush true v); Res 0 (SBool true)] : list sevent).
      eapply rn_app; (eapply rn_call; [exact Hp|reflexivity|eassumption]).
    - exists h2, (nt π), a, b. split; [done|]. split; [done|]. by rewrite Hk2, Hk1.
  Qed.

  Fixpoint iter_nt (k : nat) (τ : N) : N := match k with O => τ | S k => iter_nt k (nt τ) end.
  Lemma iter_nt_val k : forall τ, (τ < M)%N -> iter_nt k τ = ((τ + N.of_nat k) mod M)%N.
  Proof.
    induction k as [|k IH]; intros τ Hτ.
    - simpl. rewrite N.add_0_r. symmetry. by apply N.mod_small.
    - change (iter_nt (S k) τ) with (iter_nt k (nt τ)). rewrite IH.
      + unfold next_tag. simpl. rewrite N.add_mod_idemp_l by lia. f_equal. lia.
      + unfold next_tag. simpl. apply N.mod_lt. lia.
  Qed.

  Fixpoint spin (k : nat) (v : N) : list sevent :=
    match k with O => [] | S k => cyc v ++ spin k v end.

  Lemma spin_run k : forall s pcs τ v,
    shape s pcs τ v -> pcs !! 0 = None ->
    exists s', rn s (spin k v) s' /\ shape s' pcs (iter_nt k τ) v.
  Proof.
    induction k as [|k IH]; intros s pcs τ v Hs Hp; [exists s; split; [apply rn_nil|done]|].
    destruct (cycle _ _ _ _ Hs Hp) as (s1 & Hr1 & Hs1).
    destruct (IH _ _ _ _ Hs1 Hp) as (s2 & Hr2 & Hs2).
    exists s2. split; [|exact Hs2]. by eapply rn_app.
  Qed.

  (** Thread 0 pushes [5] (node [B]) and [7] (node [A]).  Thread 1 begins to pop,
      has read [tos == A] and [A->next == B], and stalls before its
      compare-exchange.  Thread 0 pops [7].  Thread 4 pops [5] and stalls before
      it destroys node [B].  Thread 0 pushes [6] and then pops and pushes [6] until
      [tos] is what it was.  Thread 1 continues and makes [B] the top of the
      stack.  Thread 5 pops [5].  Thread 6 begins to push [8] into node [B].
      Thread 4 continues. *)
  Definition aba_hist : list sevent :=
    [Inv 0 (SPush true 5%N); Res 0 (SBool true)] ++
    [Inv 0 (SPush true 7%N); Res 0 (SBool true)] ++
    [Inv 1 SPop] ++
    [Inv 0 SPop; Res 0 (SGot (Some 7%N))] ++
    [Inv 4 SPop] ++
    [Inv 0 (SPush true 6%N); Res 0 (SBool true)] ++
    spin (N.to_nat M - 2) 6 ++
    [Res 1 (SGot (Some 6%N))] ++
    [Inv 5 SPop; Res 5 (SGot (Some 5%N))] ++
    [Inv 6 (SPush true 8%N)] ++
    [Res 4 (SGot (Some 5%N))].

  Lemma aba_init : exists h π a b,
    sinit c [1; 2]%N = SSt (SSh h (B, π) (0%N, 0%N)) ∅ /\
    h !! A = Some (Node (0%N, a) None) /\ h !! B = Some (Node (A, b) None).
  Proof. do 4 eexists. split; [reflexivity|]. simpl_map. done. Qed.

  Lemma aba_run : M <> 0%N -> exists s, rn (sinit c [1; 2]%N) aba_hist s.
  Proof.
    intros HM. destruct aba_init as (h0 & π0 & a & b & -> & HA0 & HB0).
    destruct (push_alone h0 B π0 (0, 0)%N A b true 5 HB0) as (h1 & Ht1 & HB1 & Hk1); [done|].
    pose proof (Hk1 A ltac:(done)) as HA1. rewrite HA0 in HA1.
    destruct (push_alone h1 A (nt π0) (B, 0)%N 0 a true 7 HA1) as (h2 & Ht2 & HA2 & Hk2); [done|].
    pose proof (Hk2 B ltac:(done)) as HB2. rewrite HB1 in HB2. cbn [fst snd] in *.
    pose proof (pop_load h2 (0%N, nt (nt π0)) A 0 B a (Some 7%N) HA2 ltac:(done)) as Ht3.
    destruct (pop_alone h2 0 (nt (nt π0)) A 0 B a 7 HA2) as (h4 & Ht4 & HA4 & Hk4); [done|].
    pose proof (Hk4 B ltac:(done)) as HB4. rewrite HB2 in HB4.
    pose proof (pop_load h4 (A, nt (nt π0)) B (nt 0) 0 b (Some 5%N) HB4 ltac:(done)) as Ht5.
    pose proof (pop_cas h4 (A, nt (nt π0)) B (nt 0) 0 (0%N, b) 5 HB4) as Ht6.
    pose proof (tsteps_app _ _ _ _ _ _ _ _ Ht5 Ht6) as Ht56.
    destruct (push_alone h4 A (nt (nt π0)) (0%N, nt (nt 0)) 0 a true 6 HA4) as (h7 & Ht7 & HA7 & Hk7); [done|].
    pose proof (Hk7 B ltac:(done)) as HB7. rewrite HB4 in HB7. cbn [fst snd] in *.
    set (pcs := <[4 := PcDestroy B (KRet (SGot (Some 5%N)))]>
                  (<[1 := PcCCas (A, 0%N) B]> ∅) : gmap nat spc).
    assert (S7 : shape (SSt (SSh h7 (0%N, nt (nt (nt π0))) (A, nt (nt 0))) pcs) pcs (nt (nt 0)) 6).
    { by exists h7, (nt (nt (nt π0))), a, b. }
    destruct (spin_run (N.to_nat M - 2) _ _ _ _ S7) as (s8 & R8 & S8); [done|].
    change (iter_nt (N.to_nat M - 2) (nt (nt 0))) with (iter_nt (S (S (N.to_nat M - 2))) 0) in S8.
    rewrite iter_nt_val in S8 by lia.
    assert (E : ((0 + N.of_nat (S (S (N.to_nat M - 2)))) mod M = 0)%N).
    { destruct (decide (M = 1%N)) as [->|HM1]; [done|].
      replace (0 + N.of_nat (S (S (N.to_nat M - 2))))%N with M by lia. by apply N.mod_same. }
    rewrite E in S8. destruct S8 as (h8 & π8 & a8 & b8 & -> & HA8 & HB8).
    (* thread 1 *)
    pose proof (pop_cas h8 (0%N, π8) A 0 B (0%N, a8) 6 HA8) as Ht9.
    destruct (pop_free h8 0 π8 (B, nt 0) A 0 a8 6 (SGot (Some 6%N)) HA8) as (h9 & Ht9' & HA9 & Hk9).
    pose proof (tsteps_app _ _ _ _ _ _ _ _ Ht9 Ht9') as Ht99.
    pose proof (Hk9 B ltac:(done)) as HB9. rewrite HB8 in HB9.
    (* thread 5 *)
    destruct (pop_alone h9 A π8 B (nt 0) 0 b8 5 HB9) as (h10 & Ht10 & HB10 & Hk10); [done|].
    (* thread 6 *)
    pose proof (push_begin h10 B π8 (0%N, nt (nt 0)) A b8 true 8 HB10 ltac:(done)) as Ht11.
    (* thread 4 *)
    assert (HB11 : <[B := Node (A, b8) (Some 8%N)]> h10 !! B = Some (Node (A, b8) (Some 8%N))) by by rewrite lookup_insert.
    destruct (pop_free _ A (nt π8) (0%N, nt (nt 0)) B A b8 8 (SGot (Some 5%N)) HB11) as (h12 & Ht12 & HB12 & Hk12).
    eexists. unfold aba_hist.
    eapply rn_app; [eapply rn_call; [done|reflexivity|exact Ht1]|].
    eapply rn_app; [eapply rn_call; [done|reflexivity|exact Ht2]|].
    eapply rn_app; [eapply rn_stall; [done|reflexivity|exact Ht3]|].
    eapply rn_app; [eapply rn_call; [done|reflexivity|exact Ht4]|].
    eapply rn_app; [eapply rn_stall; [done|reflexivity|exact Ht56]|].
    eapply rn_app; [eapply rn_call; [done|reflexivity|exact Ht7]|].
    eapply rn_app; [exact R8|].
    eapply rn_app; [eapply rn_finish; [reflexivity|exact Ht99]|].
    eapply rn_app; [eapply rn_call; [done|reflexivity|exact Ht10]|].
    eapply rn_app; [eapply rn_stall; [done|reflexivity|exact Ht11]|].
    eapply rn_finish; [reflexivity|exact Ht12].
  Qed.

  (** ** The history *)

  Lemma spin_other k t : t <> 0 -> Forall (fun e => ev_thread e <> t) (spin k 6).
  Proof. intros Ht. induction k as [|k IH]; simpl; [done|]. do 4 (constructor; [by apply not_eq_sym|]). exact IH. Qed.

  Lemma spin_pushes k i t o : spin k 6 !! i = Some (Inv t o) -> 5%N ∉ spushes o.
  Proof.
    revert i. induction k as [|k IH]; intros i H; [done|].
    do 4 (destruct i as [|i]; [simpl in H; try discriminate H; injection H as <- <-; by apply (bool_decide_unpack _)|]).
    by apply (IH i).
  Qed.

  Lemma aba_twice : popped_twice aba_hist 5.
  Proof.
    set (h1 := [Inv 0 (SPush true 5%N); Res 0 (SBool true); Inv 0 (SPush true 7%N); Res 0 (SBool true);
      Inv 1 SPop; Inv 0 SPop; Res 0 (SGot (Some 7%N))] : list sevent).
    set (h2 := [Inv 0 (SPush true 6%N); Res 0 (SBool true)] ++ spin (N.to_nat M - 2) 6 ++ [Res 1 (SGot (Some 6%N))] : list sevent).
    set (h3 := [Inv 5 SPop; Res 5 (SGot (Some 5%N)); Inv 6 (SPush true 8%N)] : list sevent).
    assert (E1 : aba_hist = h1 ++ Inv 4 SPop :: (h2 ++ h3) ++ [Res 4 (SGot (Some 5%N))]).
    { unfold aba_hist, h1, h2, h3. simpl. by rewrite <- !app_assoc. }
    assert (E2 : aba_hist = ((h1 ++ Inv 4 SPop :: h2) ++ Inv 5 SPop :: [] ++ [Res 5 (SGot (Some 5%N))]) ++
      [Inv 6 (SPush true 8%N); Res 4 (SGot (Some 5%N))]).
    { unfold aba_hist, h1, h2. simpl. by rewrite <- !app_assoc. }
    split.
    - exists 0. intros i t o Hi Hg. unfold aba_hist in Hi.
      destruct i as [|i]; [injection Hi as <- <-; done|]. exfalso.
      do 9 (destruct i as [|i]; [simpl in Hi; try discriminate Hi; injection Hi as <- <-; revert Hg; by apply (bool_decide_unpack _)|]).
      change ((spin (N.to_nat M - 2) 6 ++ [Res 1 (SGot (Some 6%N)); Inv 5 SPop; Res 5 (SGot (Some 5%N));
        Inv 6 (SPush true 8%N); Res 4 (SGot (Some 5%N))]) !! i = Some (Inv t o)) in Hi.
      destruct (decide (i < length (spin (N.to_nat M - 2) 6))) as [Hlt|Hge].
      + rewrite lookup_app_l in Hi by done. by apply spin_pushes in Hi.
      + rewrite lookup_app_r in Hi by (by apply Nat.nlt_ge).
        revert Hi. match goal with |- _ !! ?e = _ -> _ => generalize e end. intros j Hi.
        do 5 (destruct j as [|j]; [simpl in Hi; try discriminate Hi; injection Hi as <- <-; revert Hg; by apply (bool_decide_unpack _)|]).
        done.
    - exists (length h1). eexists _, 4. exists (length (h1 ++ Inv 4 SPop :: h2)). eexists _, 5. split.
      + rewrite app_length. simpl. lia.
      + split.
        * rewrite E1. apply call_returns_span. unfold h2, h3. repeat (apply Forall_app; split);
            try (apply spin_other; done); repeat constructor; done.
        * rewrite E2. apply call_returns_ext. apply call_returns_span. constructor.
  Qed.

  Lemma aba_reach : M <> 0%N -> exists s, sreach c [1; 2]%N aba_hist s.
  Proof.
    intros HM. destruct (aba_run HM) as [s [chs Hs]]. exists s.
    split; [by apply (bool_decide_unpack _)|]. split; [by apply (bool_decide_unpack _)|].
    split; [|by eapply srun_exec].
    intros t o Hin. unfold aba_hist in Hin. rewrite !elem_of_app in Hin.
    assert (Hsp : forall k, Inv t o ∈ spin k 6 -> nonempty_op o).
    { clear. induction k as [|k IH]; intros H; [by apply elem_of_nil in H|]. simpl in H.
      repeat (apply elem_of_cons in H as [H|H]; [first [discriminate H | injection H as -> ->; exact I]|]).
      by apply IH. }
    destruct_or! Hin; try by apply Hsp in Hin.
    all: repeat (apply elem_of_cons in Hin as [Hin|Hin]; [first [discriminate Hin | injection Hin as -> ->; exact I]|]).
    all: by apply elem_of_nil in Hin.
  Qed.
End aba.

(** An element that is pushed once is popped once. *)
Section twice.
  Context (w : N).
  Definition isw (v : N) : bool := bool_decide (v = w).
  Definition cntw (a : list N) : nat := sum_list_with (fun v => if isw v then 1 else 0) a.
  Definition gainw (o : sop) : nat := cntw (spushes o).
  Definition lossw (o : sop) (r : sret) : nat :=
    match r with SGot (Some v) => if isw v then 1 else 0 | _ => 0 end.

  Lemma cntw_app a b : cntw (a ++ b) = cntw a + cntw b.
  Proof. apply sum_list_with_app. Qed.
  Lemma cntw_reverse a : cntw (reverse a) = cntw a.
  Proof. apply sum_list_with_reverse. Qed.
  Lemma cntw_take k a : cntw (take k a) <= cntw a.
  Proof. rewrite <- (take_drop k a) at 2. rewrite cntw_app. lia. Qed.
  Lemma cntw_cons v a : cntw (v :: a) = (if isw v then 1 else 0) + cntw a.
  Proof. done. Qed.
  Lemma cntw_nil : cntw [] = 0.
  Proof. done. Qed.
  Lemma cntw_elem a : 0 < cntw a -> w ∈ a.
  Proof.
    induction a as [|v a IH]; [rewrite cntw_nil; lia|]. rewrite cntw_cons. intros H.
    destruct (isw v) eqn:Hv; [apply bool_decide_eq_true_1 in Hv; subst v; by left|].
    right. apply IH. lia.
  Qed.

  Lemma cntw_spec nb ct a o r a' :
    sspec nb ct a o r a' -> lossw o r + cntw a' <= cntw a + gainw o.
  Proof.
    destruct 1; unfold gainw; cbn [lossw spushes];
      rewrite ?cntw_app, ?cntw_reverse, ?cntw_cons, ?cntw_nil; try lia.
    pose proof (cntw_take k vs). lia.
  Qed.

  Lemma twice_not_lin nb ct hist : popped_twice hist w -> ~ hw_linearizable [] (sspec nb ct) hist.
  Proof.
    intros ((i0 & Hg) & i & j & t & i' & j' & t' & Hne & H1 & H2) Hl. apply Hne.
    assert (Hw : isw w = true) by by apply bool_decide_eq_true_2.
    eapply (hw_once [] (sspec nb ct) cntw gainw lossw eq_refl (cntw_spec nb ct) hist i0);
      [exact Hl| |exact H1| |exact H2|]; [|simpl; rewrite Hw; lia..].
    intros k u o Hk Hp. unfold gainw in *. apply cntw_elem in Hp.
    destruct (Hg k u o Hk Hp) as [-> ->]. split; [done|]. rewrite cntw_cons, cntw_nil, Hw. done.
  Qed.
End twice.

Lemma aba_main M nb : M <> 0%N ->
  exists c ns hist s v,
    c_tagmod c = Some M /\ c_node_based c = nb /\ c_throws c = false /\
    sreach c ns hist s /\ popped_twice hist v /\ ~ hw_linearizable [] (sspec nb false) hist.
Proof.
  intros HM. destruct (aba_reach nb M HM) as [s Hs].
  exists (aba_cfg nb M), [1; 2]%N, (aba_hist M), s, 5%N. split; [done|]. split; [done|]. split; [done|].
  split; [exact Hs|]. split; [apply aba_twice|]. apply (twice_not_lin 5), aba_twice.
Qed.
