(** * Proofs about options and constructors *)
From stdpp Require Import gmap list numbers.
From Verif Require Import Lin PoolModel QueueModel StackModel TaggedModel SpscModel.
From Verif Require Import ConfigModel ConfigSpec.
From Verif Require QueueObs QueueWrapObs StackObs StackWrapObs QueueWrapMain StackWrapMain QueueQuiet StackQuiet.
Set Default Proof Using "Type".

(** ** Options *)

Lemma handles_main k o : pool_handle (pool_t k o) = select_tagged_handle (node_based o).
Proof.
  unfold pool_t, select_freelist, node_based, compile_time_sized.
  destruct (has_capacity o), (extract_fixed_sized o); reflexivity.
Qed.

Lemma bounded_main k o : bounded o <-> exists st, pool_t k o = PFixed st.
Proof.
  unfold bounded, pool_t, select_freelist, compile_time_sized, has_capacity, extract_fixed_sized.
  destruct o as [[n|] [[]|] al]; simpl; split; try (by eauto); intros [? ?] || intros [?|?]; try done.
Qed.

Lemma checked_main o kc : documented o kc <-> ctor_compiles o kc = true /\ ctor_assert o kc = true.
Proof.
  unfold documented, ctor_compiles, ctor_assert, has_capacity.
  destruct o as [[n|] f al], kc; simpl; naive_solver.
Qed.

Lemma add64_small n : (n < 2 ^ 64 - 1)%N -> add64 n 1 = (n + 1)%N.
Proof. intros H. unfold add64, w64. rewrite N.mod_small; lia. Qed.

Lemma queue_accepts_main n f al :
  (n < 2 ^ 64 - 1)%N -> class_compiles CQueue (Opts (Some n) f al) = true <-> (n <= largest CQueue)%N.
Proof.
  intros Hn. unfold class_compiles, pool_t, select_freelist, compile_time_sized, has_capacity; simpl.
  unfold extract_capacity; simpl. rewrite (add64_small n Hn), andb_true_r, N.ltb_lt. lia.
Qed.

Lemma stack_accepts_main n f al :
  (n < 2 ^ 64)%N -> class_compiles CStack (Opts (Some n) f al) = true <-> (1 <= n <= largest CStack)%N.
Proof.
  intros Hn. unfold class_compiles, pool_t, select_freelist, compile_time_sized, has_capacity; simpl.
  unfold extract_capacity; simpl. rewrite andb_true_iff, !N.ltb_lt. unfold sub64, w64.
  destruct (decide (n = 0)%N) as [->|Hz].
  - split; [|lia]. intros [_ H]. rewrite N.mod_small in H; lia.
  - replace (n + 2 ^ 64 - 1)%N with (n - 1 + 1 * 2 ^ 64)%N by lia.
    rewrite N.mod_add, N.mod_small by lia. lia.
Qed.

(** ** The pool *)

Section pool.
  Context {D : Type} (d0 : D).

  Lemma pool_add_union ns : forall (h1 h2 : gmap N (node D)) p,
    pool_add d0 ns (h1 ∪ h2) p = ((pool_add d0 ns h1 p).1 ∪ h2, (pool_add d0 ns h1 p).2).
  Proof.
    induction ns as [|n ns IH]; intros h1 h2 p; simpl; [done|]. by rewrite insert_union_l, IH.
  Qed.

  Lemma pool_add_dom ns : forall (h : gmap N (node D)) p,
    dom (pool_add d0 ns h p).1 = dom h ∪ list_to_set ns.
  Proof.
    induction ns as [|n ns IH]; intros h p; simpl; [set_solver|]. rewrite IH. set_solver.
  Qed.

  Lemma list_ctor_done c answers : forall i n l (h : gmap N (node D)) p h' p',
    list_ctor d0 c answers i n l h p = BDone (h', p') ->
    exists ns, answers = Some <$> ns /\ (i + N.of_nat (length ns) = n)%N /\ NoDup ns /\
      (forall a, a ∈ ns -> h !! a = None /\ a <> c_null c) /\ (h', p') = pool_add d0 ns h p.
  Proof.
    induction answers as [|a answers IH]; intros i n l h p h' p' He; simpl in He.
    - destruct (decide (i = n)) as [->|]; [|done]. injection He as <- <-. exists [].
      repeat split; try set_solver; [simpl; lia|constructor].
    - destruct (decide (i = n)) as [|Hi]; [done|]. destruct a as [a|]; [|done].
      destruct (decide (h !! a = None /\ a <> c_null c)) as [[Ha Hc]|]; [|done].
      unfold dealloc_unsafe in He. rewrite lookup_insert in He. simpl in He. rewrite insert_insert in He.
      destruct (IH _ _ _ _ _ _ _ He) as (ns & -> & Hl & Hnd & Hf & Hp).
      exists (a :: ns). split_and!; [done|simpl; lia| | |done].
      + constructor; [|done]. intros Hin. destruct (Hf a Hin) as [Hx _]. by rewrite lookup_insert in Hx.
      + intros b [->|Hb]%elem_of_cons; [done|]. destruct (Hf b Hb) as [Hx Hy]. split; [|done].
        by apply lookup_insert_None in Hx as [Hx _].
  Qed.

  Lemma list_ctor_ok c ns : forall i n l (h : gmap N (node D)) p,
    NoDup ns -> (forall a, a ∈ ns -> h !! a = None /\ a <> c_null c) -> (i + N.of_nat (length ns) = n)%N ->
    list_ctor d0 c (Some <$> ns) i n l h p = BDone (pool_add d0 ns h p).
  Proof.
    induction ns as [|a ns IH]; intros i n l h p Hnd Hf Hl; simpl in *.
    - rewrite decide_True by lia. done.
    - rewrite decide_False by lia. rewrite decide_True by (apply Hf; left).
      unfold dealloc_unsafe. rewrite lookup_insert. simpl. rewrite insert_insert.
      apply list.NoDup_cons in Hnd as [Hn Hnd]. apply IH; [done| |lia].
      intros b Hb. rewrite lookup_insert_ne by (intros ->; done). apply Hf. by right.
  Qed.

  Lemma list_ctor_throw c answers : forall i n l (h : gmap N (node D)) p l',
    list_ctor d0 c answers i n l h p = BThrow l' ->
    exists ns rest, answers = (Some <$> ns) ++ None :: rest /\ l' = l ++ ns.
  Proof.
    induction answers as [|a answers IH]; intros i n l h p l' He; simpl in He.
    - destruct (decide (i = n)); done.
    - destruct (decide (i = n)) as [|Hi]; [done|]. destruct a as [a|].
      + destruct (decide (h !! a = None /\ a <> c_null c)) as [[Ha Hc]|]; [|done].
        unfold dealloc_unsafe in He. rewrite lookup_insert in He. simpl in He.
        destruct (IH _ _ _ _ _ _ He) as (ns & rest & -> & ->). exists (a :: ns), rest.
        split; [done|]. by rewrite <- app_assoc.
      + injection He as <-. exists [], answers. split; [done|]. by rewrite app_nil_r.
  Qed.

  Lemma list_ctor_no_ub c answers : forall i n l (h : gmap N (node D)) p,
    list_ctor d0 c answers i n l h p <> BUB.
  Proof.
    induction answers as [|a answers IH]; intros i n l h p; simpl.
    - by destruct (decide (i = n)).
    - destruct (decide (i = n)) as [|Hi]; [done|]. destruct a as [a|]; [|done].
      destruct (decide (h !! a = None /\ a <> c_null c)); [|done].
      unfold dealloc_unsafe. rewrite lookup_insert. apply IH.
  Qed.

  Lemma array_in count i : i ∈ array count <-> (i < count)%N.
  Proof.
    unfold array. rewrite elem_of_list_fmap. split.
    - intros (j & -> & Hj). apply elem_of_seq in Hj. lia.
    - intros Hi. exists (N.to_nat i). rewrite N2Nat.id. split; [done|]. apply elem_of_seq. lia.
  Qed.
  Lemma array_NoDup count : NoDup (array count).
  Proof. unfold array. apply NoDup_fmap; [intros ? ?; apply Nat2N.inj|]. apply NoDup_seq. Qed.
  Lemma array_length count : length (array count) = N.to_nat count.
  Proof. unfold array. by rewrite fmap_length, seq_length. Qed.

  Lemma zeroed_lookup count i : i ∈ array count -> zeroed d0 count !! i = Some (Node (0%N, 0%N) d0).
  Proof.
    intros Hi. unfold zeroed. apply elem_of_list_to_map_1.
    - rewrite <- list_fmap_compose. simpl. rewrite list_fmap_id. apply array_NoDup.
    - apply elem_of_list_fmap. by exists i.
  Qed.
  Lemma zeroed_dom count : dom (zeroed d0 count) = list_to_set (array count).
  Proof.
    unfold zeroed. rewrite dom_list_to_map_L. f_equal. rewrite <- list_fmap_compose. simpl. by rewrite list_fmap_id.
  Qed.

  Lemma initialize_add c is : forall (h : gmap N (node D)) p,
    NoDup is -> (forall i, i ∈ is -> (i < 2 ^ 16)%N /\ h !! i = Some (Node (0%N, 0%N) d0)) ->
    initialize c is h p = BDone (pool_add d0 is h p).
  Proof.
    induction is as [|i is IH]; intros h p Hnd Hf; cbn [initialize pool_add]; [done|].
    apply list.NoDup_cons in Hnd as [Hn Hnd].
    destruct (Hf i ltac:(left)) as [Hi Hh]. rewrite Hh. cbn [nx dat snd].
    rewrite (N.mod_small i (2 ^ 16)) by done. unfold dealloc_unsafe. rewrite lookup_insert. simpl.
    rewrite insert_insert. apply IH; [done|]. intros j Hj. destruct (Hf j ltac:(by right)) as [Hj1 Hj2].
    split; [done|]. rewrite lookup_insert_ne by (intros ->; done). done.
  Qed.

  (** What the array pool is, whatever [count] was passed. *)
  Lemma fixed_ctor_eq c size count :
    (size < 65536)%N ->
    fixed_ctor d0 c size count = BDone (pool_add d0 (array size) ∅ (count mod 2 ^ 16, 0)%N).
  Proof.
    intros Hs. unfold fixed_ctor. rewrite initialize_add.
    - f_equal. rewrite <- (left_id_L ∅ (∪) (zeroed d0 size)), pool_add_union.
      destruct (pool_add d0 (array size) ∅ (count mod 2 ^ 16, 0)%N) as [m p] eqn:E. simpl. f_equal.
      assert (Hd : dom (zeroed d0 size) ⊆ dom m).
      { replace m with (pool_add d0 (array size) ∅ (count mod 2 ^ 16, 0)%N).1 by (by rewrite E).
        rewrite pool_add_dom, zeroed_dom. set_solver. }
      apply map_eq. intros n. rewrite lookup_union. destruct (m !! n) as [x|] eqn:Hm.
      + by destruct (zeroed d0 size !! n).
      + destruct (zeroed d0 size !! n) as [y|] eqn:Hz; [|done]. exfalso.
        apply not_elem_of_dom in Hm. apply Hm, Hd. apply elem_of_dom. by exists y.
    - apply array_NoDup.
    - intros i Hi. split; [apply array_in in Hi; lia|by apply zeroed_lookup].
  Qed.

  Lemma fixed_ctor_init c size count :
    (size < 65536)%N -> (count mod 2 ^ 16 = size mod 2 ^ 16)%N -> c_null c = null_handle size ->
    fixed_ctor d0 c size count = BDone (pool_init c d0 (array size)).
  Proof.
    intros Hs Hc Hn. rewrite fixed_ctor_eq by done. unfold pool_init. by rewrite Hn, Hc.
  Qed.

  Lemma null_fresh size : (size < 65536)%N -> null_handle size ∉ array size.
  Proof. intros Hs. rewrite array_in. unfold null_handle. rewrite N.mod_small by lia. lia. Qed.
End pool.

Lemma pool_count_documented k o kc :
  documented o kc -> (requested o kc < 2 ^ 64 - 1)%N -> pool_count k o kc = nodes_for k (requested o kc).
Proof.
  intros Hd Hr. destruct o as [[n|] f al], kc, k; simpl in *; try done; unfold extract_capacity; simpl;
    by rewrite ?add64_small.
Qed.

(** ** A constructor that returns *)

Section ctors.
  Context {D : Type} (d0 : D) (comp throws : bool) (words : nat) (k : container) (o : opts) (kc : ctor).
  Let c := config comp k o kc throws words.
  Context (Hd : documented o kc) (Hr : (requested o kc < 2 ^ 64 - 1)%N).
  Context (Hk : class_compiles k o = true).


  Lemma compile_size size : pool_t k o = PFixed (SCompile size) ->
    pool_count k o kc = size /\ (size < 65536)%N.
  Proof using Hd Hk.
    clear c Hr. intros Hp. unfold class_compiles in Hk. rewrite Hp in Hk.
    apply andb_true_iff in Hk as [Hs _]. apply N.ltb_lt in Hs. split; [|done].
    unfold pool_t, select_freelist, compile_time_sized, has_capacity in Hp.
    destruct o as [[n|] f al]; simpl in Hp.
    - injection Hp as <-. by destruct kc.
    - unfold extract_fixed_sized in Hp. simpl in Hp. destruct f as [[]|]; done.
  Qed.

  Lemma pool_done answers h p :
    pool_ctor d0 c (pool_t k o) (pool_count k o kc) answers = BDone (h, p) ->
    exists ns, N.of_nat (length ns) = nodes_for k (requested o kc) /\ NoDup ns /\ c_null c ∉ ns /\
      (h, p) = pool_init c d0 ns.
  Proof using Hd Hr Hk.
    intros He. rewrite <- (pool_count_documented k o kc) by done.
    unfold pool_ctor in He. destruct (pool_t k o) as [|[size|]] eqn:Hp.
    - destruct (list_ctor_done _ _ _ _ _ _ _ _ _ _ He) as (ns & -> & Hl & Hnd & Hf & Heq).
      exists ns. split_and!; [lia|done| |done]. intros Hin. by destruct (Hf _ Hin).
    - destruct answers; [|done]. destruct (compile_size size Hp) as [Hc Hs].
      assert (Hn : c_null c = null_handle size) by (subst c; simpl; by rewrite Hp).
      rewrite (fixed_ctor_init d0 c size _ Hs) in He; [|by rewrite Hc|done]. injection He as He.
      exists (array size). split_and!; [rewrite array_length, Hc; lia|apply array_NoDup| |done].
      rewrite Hn. by apply null_fresh.
    - unfold runtime_storage in He. destruct (N.ltb 65535 (pool_count k o kc)) eqn:Hlt; [by destruct answers|].
      apply N.ltb_ge in Hlt. destruct answers as [|[a|] [|]]; try done.
      assert (Hn : c_null c = null_handle (pool_count k o kc)) by (subst c; simpl; by rewrite Hp).
      rewrite (fixed_ctor_init d0 c _ _) in He; [|lia|done|done]. injection He as He.
      exists (array (pool_count k o kc)). split_and!; [rewrite array_length; lia|apply array_NoDup| |done].
      rewrite Hn. apply null_fresh. lia.
  Qed.

  Lemma pool_no_ub answers : pool_ctor d0 c (pool_t k o) (pool_count k o kc) answers <> BUB.
  Proof using Hd Hk Hr.
    unfold pool_ctor. destruct (pool_t k o) as [|[size|]] eqn:Hp.
    - apply list_ctor_no_ub.
    - destruct answers; [|done]. destruct (compile_size size Hp) as [Hc Hs]. by rewrite fixed_ctor_eq.
    - unfold runtime_storage. destruct (N.ltb 65535 (pool_count k o kc)) eqn:Hlt; [by destruct answers|].
      apply N.ltb_ge in Hlt. destruct answers as [|[a|] [|]]; try done. rewrite fixed_ctor_eq; [done|lia].
  Qed.

  Lemma pool_throw answers l :
    pool_ctor d0 c (pool_t k o) (pool_count k o kc) answers = BThrow l ->
    (None ∈ answers \/ (bounded o /\ (largest k < requested o kc)%N)) /\ (bounded o -> l = []) /\
    (forall a, a ∈ l -> Some a ∈ answers).
  Proof using Hd Hr Hk.
    intros He. unfold pool_ctor in He. destruct (pool_t k o) as [|[size|]] eqn:Hp.
    - destruct (list_ctor_throw _ _ _ _ _ _ _ _ _ He) as (ns & rest & -> & ->). split_and!.
      + left. set_solver.
      + intros [st Hst]%(bounded_main k). congruence.
      + intros a Ha. simpl in Ha. apply elem_of_app. left. apply elem_of_list_fmap. eauto.
    - destruct answers; [|done]. destruct (compile_size size Hp) as [Hc Hs]. by rewrite fixed_ctor_eq in He.
    - unfold runtime_storage in He. destruct (N.ltb 65535 (pool_count k o kc)) eqn:Hlt.
      + apply N.ltb_lt in Hlt. rewrite pool_count_documented in Hlt by done.
        destruct answers; [|done]. injection He as <-. split_and!; [|done|set_solver].
        right. split; [|destruct k; simpl in *; lia]. apply (bounded_main k). eauto.
      + apply N.ltb_ge in Hlt. destruct answers as [|[a|] [|]]; try done.
        * rewrite fixed_ctor_eq in He; [done|lia].
        * injection He as <-. split_and!; [left; set_solver|done|set_solver].
  Qed.

  Lemma pool_served answers :
    (bounded o -> (requested o kc <= largest k)%N) -> served k o (requested o kc) answers ->
    exists h p, pool_ctor d0 c (pool_t k o) (pool_count k o kc) answers = BDone (h, p).
  Proof using Hd Hr Hk.
    intros Hb Hs. unfold pool_ctor.
    assert (Hcnt := pool_count_documented k o kc Hd Hr).
    destruct (pool_t k o) as [|[size|]] eqn:Hp.
    - rewrite Hcnt. unfold served in Hs.
      assert (Ho : o_capacity o = None /\ o_fixed o <> Some true).
      { unfold pool_t, select_freelist, compile_time_sized, has_capacity, extract_fixed_sized in Hp.
        by destruct o as [[n|] [[]|] al]. }
      destruct Ho as [Ho1 Ho2]. rewrite Ho1 in Hs.
      assert (Hs' : exists ns, answers = Some <$> ns /\ NoDup ns /\ 0%N ∉ ns /\
        N.of_nat (length ns) = nodes_for k (requested o kc)) by (by destruct (o_fixed o) as [[]|]).
      destruct Hs' as (ns & -> & Hnd & H0 & Hl).
      rewrite list_ctor_ok; [by destruct (pool_add d0 ns ∅ (c_null c, 0%N)) as [h p]; eauto|done| |lia].
      intros a Ha. split; [done|]. intros ->. apply H0. replace 0%N with (c_null c); [done|].
      subst c. simpl. by rewrite Hp.
    - destruct (compile_size size Hp) as [Hc Hsz].
      assert (Ho : answers = []).
      { unfold served in Hs. unfold pool_t, select_freelist, compile_time_sized, has_capacity, extract_fixed_sized in Hp.
        by destruct o as [[n|] [[]|] al]. }
      subst answers. rewrite fixed_ctor_eq by done.
      destruct (pool_add d0 (array size) ∅ _) as [h p]. eauto.
    - assert (Ho : exists a, answers = [Some a]).
      { unfold served in Hs. unfold pool_t, select_freelist, compile_time_sized, has_capacity, extract_fixed_sized in Hp.
        by destruct o as [[n|] [[]|] al]. }
      destruct Ho as [a ->].
      assert (Hbd : bounded o) by (apply (bounded_main k); eauto). specialize (Hb Hbd).
      unfold runtime_storage. rewrite Hcnt.
      assert (nodes_for k (requested o kc) < 65536)%N by (destruct k; simpl in *; lia).
      destruct (N.ltb 65535 (nodes_for k (requested o kc))) eqn:Hlt; [apply N.ltb_lt in Hlt; lia|].
      rewrite fixed_ctor_eq by done. destruct (pool_add d0 _ ∅ _) as [h p]. eauto.
  Qed.
End ctors.
