From stdpp Require Import gmap list numbers.
From Verif Require Import Lin PoolModel StackModel StackSpec StackObs StackDemo StackWrapObs WrapWitness StackPeak.

(** The nodes found from [p], if following links ends within [fuel] steps. *)
Fixpoint follow (fuel : nat) (h : gmap N snode) (p : N) : option (list N) :=
  match h !! p with
  | None => Some []
  | Some nd => match fuel with O => None | S fuel => cons p <$> follow fuel h (nx nd).1 end
  end.

Lemma follow_ok h p n : found h p n -> forall fuel l, follow fuel h p = Some l -> n ∈ l.
Proof.
  induction 1 as [n nd Hl|p nd n Hl _ IH]; intros fuel l Hf.
  - destruct fuel as [|fuel]; cbn [follow] in Hf; rewrite Hl in Hf; [discriminate Hf|].
    apply fmap_Some in Hf as (l' & _ & ->). left.
  - destruct fuel as [|fuel]; cbn [follow] in Hf; rewrite Hl in Hf; [discriminate Hf|].
    apply fmap_Some in Hf as (l' & Hf & ->). right. by eapply IH.
Qed.

Definition all_roots (s : sstate) : list N :=
  (s_tos (s_sh s)).1 :: mjoin ((fun e => roots e.2) <$> map_to_list (s_pcs s)).
Definition used (s : sstate) : option (list N) :=
  mjoin <$> mapM (follow (size (s_heap (s_sh s))) (s_heap (s_sh s))) (all_roots s).

Lemma used_ok s l n : used s = Some l -> in_use s n -> n ∈ l.
Proof.
  intros Hu Hn. apply fmap_Some in Hu as (ls & Hm & ->).
  assert (exists p, p ∈ all_roots s /\ found (s_heap (s_sh s)) p n) as (p & Hp & Hf).
  { destruct Hn as [Hf|(t & pc & p & Hpc & Hr & Hf)].
    - eexists. split; [left|done].
    - exists p. split; [|done]. right. apply elem_of_list_join. exists (roots pc). split; [done|].
      apply elem_of_list_fmap. exists (t, pc). split; [done|]. by apply elem_of_map_to_list. }
  apply elem_of_list_lookup in Hp as [i Hi].
  apply mapM_Some_1 in Hm. eapply Forall2_lookup_l in Hm as (l & Hl & Hfo); [|exact Hi].
  apply elem_of_list_join. exists l. split; [by eapply follow_ok|]. by eapply elem_of_list_lookup_2.
Qed.

Section peak.
  Context (c : cfg).

  Definition sneedsb (B : nat) (s : sstate) : bool :=
    match used s with
    | Some l => bool_decide (length (remove_dups l) + size (s_pcs s) <= B)
    | None => false
    end.
  Definition srangeb (B : nat) (s : sstate) (ch : schoice) : bool :=
    match ch with
    | Unsync _ (SURange vs) _ _ =>
        match contentsb c s with Some a => bool_decide (length a + length vs <= B) | None => false end
    | _ => true
    end.
  Definition okb (ch : schoice) : bool :=
    match ch with
    | Invoke _ (SRange _ []) | Unsync _ (SURange []) _ _ | Invoke _ (SURange []) | Unsync _ (SRange _ []) _ _ => false
    | _ => true
    end.

  Lemma sneedsb_ok B s : sneedsb B s = true -> sneeds B s.
  Proof.
    unfold sneedsb. destruct (used s) as [l|] eqn:Hl; [|done]. intros H%bool_decide_eq_true.
    exists (remove_dups l). split; [|done]. intros n Hn. apply elem_of_remove_dups. by eapply used_ok.
  Qed.
  Lemma srangeb_ok B s ch : srangeb B s ch = true -> srange_needs c B s ch.
  Proof.
    destruct ch as [t o|t sp addr thr|t o addrs thr]; try done. destruct o; try done. simpl.
    destruct (contentsb c s) as [a|] eqn:Ha; [|done]. intros H%bool_decide_eq_true. exists a.
    split; [by apply contentsb_ok|done].
  Qed.
  Lemma okb_ok ch : okb ch = true -> ch_ok ch.
  Proof. destruct ch as [t o|t sp addr thr|t o addrs thr]; try done; destruct o as [|b [|]| | | | | |[|]| |]; done. Qed.

  (** Runs a schedule, leaving out impossible choices, and checks the bound in
      every state and that every call takes fewer than [b] steps. *)
  Fixpoint swallb (b : N) (B : nat) (s : sstate) (age : nat -> nat) (chs : list schoice) :
      option (list sevent * sstate) :=
    match chs with
    | [] => Some ([], s)
    | ch :: chs =>
        match sstep c s ch with
        | SNext s' evs =>
            let age' := older age (sinvoked ch) in
            if young b age' (s_pcs s') && sneedsb B s' && srangeb B s ch && okb ch then
              match swallb b B s' age' chs with Some (h, s'') => Some (evs ++ h, s'') | None => None end
            else None
        | SDisabled => swallb b B s age chs
        | SUB => None
        end
    end.

  Lemma swallb_ok b B s0 chs : forall s age hist k h s',
    swexec_all c b (sneeds B) (srange_needs c B) s0 hist s k ->
    (forall t l, is_Some (s_pcs s !! t) -> k t l <= age t) ->
    swallb b B s age chs = Some (h, s') ->
    exists k', swexec_all c b (sneeds B) (srange_needs c B) s0 (hist ++ h) s' k'.
  Proof.
    induction chs as [|ch chs IH]; intros s age hist k h s' He Hk Hr; cbn [swallb] in Hr.
    - injection Hr as <- <-. exists k. by rewrite app_nil_r.
    - destruct (sstep c s ch) as [s1 evs| |] eqn:Hs; [|discriminate Hr|by eapply IH]. cbv zeta in Hr.
      destruct (young b (older age (sinvoked ch)) (s_pcs s1)) eqn:Hy; [|discriminate Hr].
      destruct (sneedsb B s1) eqn:HB; [|discriminate Hr].
      destruct (srangeb B s ch) eqn:HR; [|discriminate Hr].
      destruct (okb ch) eqn:Ho; [|discriminate Hr]. cbn [andb] in Hr.
      destruct (swallb b B s1 (older age (sinvoked ch)) chs) as [[h1 s2]|] eqn:Hq; [|discriminate Hr].
      injection Hr as <- <-.
      pose proof (scount_older _ _ _ _ _ _ _ Hs Hk) as Hle.
      rewrite app_assoc. eapply IH; [|exact Hle|exact Hq].
      econstructor; [exact He|by apply okb_ok|by apply srangeb_ok|exact Hs| |by apply sneedsb_ok].
      intros t l Ht. specialize (Hle t l Ht). pose proof (young_lt _ _ _ _ Hy Ht). lia.
  Qed.

  Lemma swall_sall b P Q s0 hist s k : swexec_all c b P Q s0 hist s k -> sexec_all c P Q s0 hist s.
  Proof. induction 1; [by constructor|by econstructor]. Qed.
End peak.

(** Two threads push ranges at the same time, one of them pops, and the other
    consumes the rest; on a stack constructed with an empty pool. *)
Definition salt (t : nat) (a : N) (k : nat) : list schoice := replicate k (Run t false (Some a) false).
Definition speak_round : list schoice :=
  Invoke 0 (SRange false [5; 6]%N) :: Invoke 1 (SRange false [7; 8]%N) ::
  concat (replicate 4 (salt 0 2%N 1 ++ salt 1 3%N 1)) ++ salt 0 4%N 40 ++ salt 1 5%N 40 ++
  Invoke 0 SPop :: Invoke 1 (SAll false) ::
  concat (replicate 2 (salt 0 2%N 1 ++ salt 1 3%N 1)) ++ salt 0 4%N 40 ++ salt 1 5%N 60.
Definition speak_hist : list sevent :=
  [Inv 0 (SRange false [5; 6]%N); Inv 1 (SRange false [7; 8]%N); Res 0 (SIter 2); Res 1 (SIter 2);
   Inv 0 SPop; Inv 1 (SAll false); Res 0 (SGot None); Res 1 (SCount 4 [8; 7; 6; 5]%N)].

Lemma speak_demo :
  exists s, sexec_all sdemoN (sneeds 6) (srange_needs sdemoN 6) (sinit sdemoN [])
      (speak_hist ++ speak_hist ++ speak_hist) s /\ size (s_heap (s_sh s)) = 4.
Proof.
  assert (H : (r ← swallb sdemoN 200 6 (sinit sdemoN []) (fun _ => 0) (speak_round ++ speak_round ++ speak_round);
               Some (r.1, size (s_heap (s_sh r.2)))) =
              Some (speak_hist ++ speak_hist ++ speak_hist, 4)) by (vm_compute; reflexivity).
  apply bind_Some in H as ([h s] & H & E). injection E as -> E.
  eapply (swallb_ok sdemoN 200 6 _ _ _ _ [] (fun _ _ => 0)) in H as (k & H);
    [|constructor; apply sneedsb_ok; vm_compute; reflexivity|intros; lia].
  exists s. split; [by eapply swall_sall|done].
Qed.

(** Seventy times over, with tags modulo 64. *)
Definition speakW : cfg := Cfg 0%N true (Some 64%N) false 1.
Lemma speak_wrap_demo :
  exists s k, swexec_all speakW 64 (sneeds 6) (srange_needs speakW 6) (sinit speakW [])
      (mjoin (replicate 70 speak_hist)) s k /\
    size (s_heap (s_sh s)) = 4 /\ (s_tos (s_sh s)).2 = 6%N.
Proof.
  assert (H : (r ← swallb speakW 64 6 (sinit speakW []) (fun _ => 0) (mjoin (replicate 70 speak_round));
               Some (r.1, size (s_heap (s_sh r.2)), (s_tos (s_sh r.2)).2)) =
              Some (mjoin (replicate 70 speak_hist), 4, 6%N)) by (vm_compute; reflexivity).
  apply bind_Some in H as ([h s] & H & E). injection E as -> E1 E2.
  eapply (swallb_ok speakW 64 6 _ _ _ _ [] (fun _ _ => 0)) in H as (k & H);
    [|constructor; apply sneedsb_ok; vm_compute; reflexivity|intros; lia].
  exists s, k. split; [exact H|done].
Qed.

(** With a throwing copy constructor every failing push costs a node. *)
Definition sleak_hist (n : nat) : list sevent :=
  mjoin (replicate n [Inv 0 (SPush false 7%N); Res 0 (SExn [])]).

Lemma sall_cons c (P : sstate -> Prop) (Q : sstate -> schoice -> Prop) s ch s' evs h s'' :
  P s -> ch_ok ch -> Q s ch -> sstep c s ch = SNext s' evs -> sexec_all c P Q s' h s'' ->
  sexec_all c P Q s (evs ++ h) s''.
Proof.
  intros HP Hok HQ Hs He. induction He as [HP'|h s1 ch1 s2 evs1 He IH Hok1 HQ1 Hs1 HP1].
  - rewrite app_nil_r, <- (app_nil_l evs). econstructor; [by constructor|done..].
  - rewrite app_assoc. by econstructor.
Qed.

Lemma sleak_more (n : nat) : forall s,
  s_pcs s = ∅ -> (s_pool (s_sh s)).1 = 0%N -> (s_tos (s_sh s)).1 = 0%N -> s_heap (s_sh s) !! 0%N = None ->
  exists s', sexec_all sdemoT (sneeds 2) (srange_needs sdemoT 2) s (sleak_hist n) s' /\
    size (s_heap (s_sh s')) = size (s_heap (s_sh s)) + n.
Proof.
  assert (Hnull : forall (h : gmap N snode) n, h !! 0%N = None -> found h 0%N n -> False).
  { intros h m Hh Hf. inversion Hf; congruence. }
  induction n as [|n IH]; intros s Hq Hp Ht Hh; destruct s as [[h p hd] pcs]; simpl in *; subst pcs.
  - exists (SSt (SSh h p hd) ∅). split; [|simpl; lia]. constructor. exists []. split; [|simpl; rewrite map_size_empty; lia].
    intros m [Hf|(t & pc & q & Hpc & _)]; simpl in *; [rewrite Ht in Hf; exfalso; by eapply (Hnull h)|].
    by rewrite lookup_empty in Hpc.
  - set (a := fresh (dom h ∪ {[0%N]})).
    assert (Ha : h !! a = None /\ a <> 0%N).
    { pose proof (is_fresh (dom h ∪ {[0%N]})) as Hf. fold a in Hf.
      split; [apply not_elem_of_dom; set_solver|set_solver]. }
    set (x := SSh h p hd). set (h' := <[a := Node (0%N, 0%N) None]> h). set (x' := SSh h' p hd).
    assert (Hh' : h' !! 0%N = None).
    { unfold h'. rewrite lookup_insert_ne; [done|]. apply Ha. }
    destruct (IH (SSt x' ∅)) as (s' & He & Hsz); [done..|].
    exists s'. split; [|rewrite Hsz; simpl; unfold h'; rewrite map_size_insert_None by apply Ha; simpl; lia].
    assert (Hneed : forall (g : gmap N snode) (pc : spc), g !! 0%N = None -> roots pc = [] ->
              sneeds 2 (SSt (SSh g p hd) {[0 := pc]})).
    { intros g pc Hg Hr. exists []. split; [|simpl; rewrite map_size_singleton; lia].
      intros m [Hf|(t & pc' & q & Hpc & Hin & _)]; simpl in *.
      - rewrite Ht in Hf. exfalso. eapply Hnull; [|exact Hf]. done.
      - apply lookup_singleton_Some in Hpc as [_ <-]. rewrite Hr in Hin. by apply elem_of_nil in Hin. }
    unfold sleak_hist. cbn [replicate mjoin list_join app].
    eapply (sall_cons sdemoT _ _ _ (Invoke 0 (SPush false 7%N)) (SSt x {[0 := PcAlloc false 7%N ALoad]}) [_] (_ :: _)).
    { exists []. split; [|simpl; rewrite map_size_empty; lia].
      intros m [Hf|(t & pc & q & Hpc & _)]; simpl in *; [rewrite Ht in Hf; exfalso; by eapply (Hnull h)|].
      by rewrite lookup_empty in Hpc. }
    { done. }
    { done. }
    { reflexivity. }
    eapply (sall_cons sdemoT _ _ _ (Run 0 false None false) (SSt x {[0 := PcAlloc false 7%N (ATest p)]}) [] (_ :: _)).
    { by apply Hneed. }
    { done. }
    { done. }
    { cbn [sstep s_pcs]. rewrite lookup_singleton. cbn [tstep astep s_sh]. by rewrite insert_singleton. }
    eapply (sall_cons sdemoT _ _ _ (Run 0 false (Some a) false) (SSt x' {[0 := PcCons 7%N a]}) [] (_ :: _)).
    { by apply Hneed. }
    { done. }
    { done. }
    { cbn [sstep s_pcs]. rewrite lookup_singleton. cbn [tstep astep s_sh x s_heap s_pool].
      rewrite decide_True by done. cbn [sdemoT c_node_based andb negb].
      rewrite decide_True by done. by rewrite insert_singleton. }
    eapply (sall_cons sdemoT _ _ _ (Run 0 false None true) (SSt x' {[0 := PcRet (SExn [])]}) [] (_ :: _)).
    { exists [a]. split; [|simpl; rewrite map_size_singleton; lia].
      intros m [Hf|(t & pc' & q & Hpc & Hin & Hf)]; simpl in *.
      - rewrite Ht in Hf. exfalso. eapply Hnull; [|exact Hf]. done.
      - apply lookup_singleton_Some in Hpc as [_ <-]. simpl in Hin. apply elem_of_list_singleton in Hin as ->.
        inversion Hf as [? ? Hl|? nd ? Hl Hf']; subst; [by left|]. unfold h' in Hl. rewrite lookup_insert in Hl.
        injection Hl as <-. simpl in Hf'. exfalso. eapply Hnull; [|exact Hf']. done. }
    { done. }
    { done. }
    { cbn [sstep s_pcs]. rewrite lookup_singleton.
      cbn [tstep s_sh x' s_heap]. unfold h' at 1. rewrite lookup_insert. cbn [sdemoT c_throws]. by rewrite insert_singleton. }
    eapply (sall_cons sdemoT _ _ _ (Run 0 false None false) (SSt x' ∅) [_] _).
    { by apply Hneed. }
    { done. }
    { done. }
    { cbn [sstep s_pcs]. rewrite lookup_singleton. by rewrite delete_singleton. }
    exact He.
Qed.

Lemma stack_leak_unbounded (n : nat) :
  exists s, sexec_all sdemoT (sneeds 2) (srange_needs sdemoT 2) (sinit sdemoT []) (sleak_hist n) s /\
    size (s_heap (s_sh s)) = n.
Proof.
  destruct (sleak_more n (sinit sdemoT [])) as (s & He & Hs); [done..|]. by exists s.
Qed.

Lemma stack_leak_bound (n : nat) :
  exists s, sexec_all sdemoT (sneeds 2) (srange_needs sdemoT 2) (sinit sdemoT []) (sleak_hist n) s /\
    sreserved (sleak_hist n) = 0 /\ size (s_heap (s_sh s)) = n.
Proof.
  destruct (stack_leak_unbounded n) as (s & He & Hs). exists s. split; [done|]. split; [|done].
  clear. unfold sleak_hist. induction n as [|n IH]; [done|]. exact IH.
Qed.
