(** * Running concrete schedules of the stack (used by the Examples and the
      refutations) *)
From stdpp Require Import gmap list numbers.
From Verif Require Import Lin PoolModel StackModel StackSpec StackObs.

(** A node-based stack, a fixed-size stack whose null handle is 9, and a
    node-based stack of elements whose copies may throw. *)
Definition sdemoN : cfg := Cfg 0%N true None false 1.
Definition sdemoF : cfg := Cfg 9%N false None false 1.
Definition sdemoT : cfg := Cfg 0%N true None true 1.

(** [k] steps of thread [t]. *)
Definition sruns (t k : nat) : list schoice := replicate k (Run t false None false).
(** A whole call that runs alone, [k] steps long. *)
Definition swhole (t : nat) (o : sop) (k : nat) : list schoice := Invoke t o :: sruns t k.

Section demo.
  Context (c : cfg).

  Lemma sexec_trans s0 h s h' s' : sexec c s0 h s -> sexec c s h' s' -> sexec c s0 (h ++ h') s'.
  Proof.
    intros H. induction 1 as [|hist s1 ch s2 evs He IH Hs].
    - by rewrite app_nil_r.
    - rewrite app_assoc. by econstructor.
  Qed.

  Lemma srun_exec chs : forall s h s', srun c s chs = Some (h, s') -> sexec c s h s'.
  Proof.
    induction chs as [|ch chs IH]; intros s h s' H; simpl in H.
    - injection H as <- <-. constructor.
    - destruct (sstep c s ch) as [s1 evs| |] eqn:Hs; [|done..].
      destruct (srun c s1 chs) as [[h1 s2]|] eqn:Hr; [|done]. injection H as <- <-.
      eapply sexec_trans; [|by apply IH].
      rewrite <- (app_nil_l evs). econstructor; [constructor|done].
  Qed.

  (** The condition on ranges, computably. *)
  Definition hist_okb (h : list sevent) : bool :=
    forallb (fun e => match e with Inv _ (SRange _ []) | Inv _ (SURange []) => false | _ => true end) h.
  Lemma hist_okb_ok h : hist_okb h = true -> hist_ok h.
  Proof.
    intros H t o Hin. apply elem_of_list_In in Hin. unfold hist_okb in H. rewrite forallb_forall in H.
    specialize (H _ Hin). destruct o as [b v|b []| |rev| |n|v|[]| |n]; done.
  Qed.

  Definition pool_ok (ns : list N) : Prop := NoDup ns /\ c_null c ∉ ns.

  Lemma srun_reach ns chs h s :
    srun c (sinit c ns) chs = Some (h, s) -> pool_ok ns -> hist_okb h = true -> sreach c ns h s.
  Proof.
    intros Hr [H1 H2] H3. do 2 (split; [done|]). split; [by apply hist_okb_ok|]. by eapply srun_exec.
  Qed.

  (** The steps made. *)
  Fixpoint srecs (s : sstate) (chs : list schoice) : option (list srec) :=
    match chs with
    | [] => Some []
    | ch :: chs =>
        match sstep c s ch with
        | SNext s' _ => cons (SRec s ch s') <$> srecs s' chs
        | _ => None
        end
    end.

  Definition ch_okb (ch : schoice) : bool :=
    match ch with
    | Invoke _ (SRange _ []) | Unsync _ (SURange []) _ _ | Unsync _ (SRange _ []) _ _ | Invoke _ (SURange []) => false
    | _ => true
    end.
  Lemma ch_okb_ok ch : ch_okb ch = true -> ch_ok ch.
  Proof. destruct ch as [t []|t sp addr thr|t [] addrs thr]; simpl; try done; by destruct vs. Qed.

  Definition inside (t : nat) (st : srec) : bool :=
    match s_pcs (r_post st) !! t with Some _ => ch_okb (r_ch st) | None => false end.

  Lemma scall_recs ns t o w s chs : forall ws,
    scall c ns t o w s -> srecs s chs = Some ws -> forallb (inside t) ws = true ->
    scall c ns t o (w ++ ws) (match list.last ws with Some st => r_post st | None => s end).
  Proof.
    revert w s. induction chs as [|ch chs IH]; intros w s ws Hc Hs HF; simpl in Hs.
    - injection Hs as <-. by rewrite app_nil_r.
    - destruct (sstep c s ch) as [s1 evs| |] eqn:Hst; [|done..].
      destruct (srecs s1 chs) as [ws1|] eqn:Hw; [|done]. injection Hs as <-.
      simpl in HF. apply andb_prop in HF as [H1 HF]. unfold inside in H1. simpl in H1.
      destruct (s_pcs s1 !! t) eqn:Hp; [|done].
      assert (Hc1 : scall c ns t o (w ++ [SRec s ch s1]) s1).
      { eapply scall_step; [done|by apply ch_okb_ok|done|by eexists]. }
      specialize (IH _ _ _ Hc1 Hw HF). rewrite <- app_assoc in IH. simpl in IH.
      rewrite last_cons. destruct (list.last ws1); done.
  Qed.

  (** The steps of a call that starts after [pre] and is followed by [chs]. *)
  Definition swindow (ns : list N) (pre : list schoice) (t : nat) (o : sop) (chs : list schoice) :
      option (list sevent * list srec) :=
    match srun c (sinit c ns) pre with
    | Some (h, s) =>
        match sstep c s (Invoke t o) with
        | SNext s1 _ => (fun ws => (h, SRec s (Invoke t o) s1 :: ws)) <$> srecs s1 chs
        | _ => None
        end
    | None => None
    end.

  Definition sresult (s : sstate) (t : nat) : option sret :=
    match s_pcs s !! t with Some (PcRet r) => Some r | _ => None end.

  (** The values found by following links, computably. *)
  Fixpoint chainb (fuel : nat) (h : gmap N snode) (p : N) : option (list N) :=
    if decide (p = c_null c) then Some []
    else match fuel with
         | O => None
         | S fuel => match h !! p with
                     | Some (Node lk (Some v)) => cons v <$> chainb fuel h lk.1
                     | _ => None
                     end
         end.
  Definition contentsb (s : sstate) : option (list N) :=
    chainb (size (s_heap (s_sh s))) (s_heap (s_sh s)) (s_tos (s_sh s)).1.

  Lemma chainb_ok fuel h : forall p a, chainb fuel h p = Some a -> chain c h p a.
  Proof.
    induction fuel as [|fuel IH]; intros p a H; simpl in H.
    - destruct (decide _) as [->|]; [|done]. injection H as <-. constructor.
    - destruct (decide _) as [->|]; [injection H as <-; constructor|].
      destruct (h !! p) as [[lk [v|]]|] eqn:Hp; [|done..].
      destruct (chainb fuel h lk.1) as [a'|] eqn:Hc; [|done]. injection H as <-.
      econstructor; [done|done|]. by apply IH.
  Qed.
  Lemma contentsb_ok s a : contentsb s = Some a -> scontents c s a.
  Proof. apply chainb_ok. Qed.

  (** What a schedule leads to: the history, the elements, and the number of
      calls in progress. *)
  Definition sshow (ns : list N) (chs : list schoice) : option (list sevent * list N * nat * bool) :=
    match srun c (sinit c ns) chs with
    | Some (h, s) => match contentsb s with
                     | Some a => Some (h, a, size (s_pcs s), hist_okb h)
                     | None => None
                     end
    | None => None
    end.

  Lemma sshow_reach ns chs h a k :
    sshow ns chs = Some (h, a, k, true) -> pool_ok ns ->
    exists s, sreach c ns h s /\ scontents c s a /\ (k = 0 -> quiescent s) /\
      srun c (sinit c ns) chs = Some (h, s).
  Proof.
    unfold sshow. destruct (srun c (sinit c ns) chs) as [[h' s]|] eqn:Hf; [|done].
    destruct (contentsb s) as [a'|] eqn:Hc; [|done]. intros [= -> -> <- Hh] Hp.
    exists s. split; [by eapply srun_reach|]. split; [by apply contentsb_ok|]. split; [|done].
    intros Hk. by apply map_size_empty_inv in Hk.
  Qed.

  (** What the steps of a call look like: the elements before the call, after
      each step, and the result. *)
  Definition wshow (ns : list N) (pre : list schoice) (t : nat) (o : sop) (chs : list schoice) :
      option (list (option (list N)) * option sret * bool) :=
    match swindow ns pre t o chs with
    | Some (h, w) =>
        Some (map (fun st => contentsb (r_post st)) w, list.last w ≫= fun st => sresult (r_post st) t,
              hist_okb h && ch_okb (Invoke t o) && forallb (inside t) w)
    | None => None
    end.

  Lemma wshow_callret ns pre t o chs cs r :
    wshow ns pre t o chs = Some (cs, Some r, true) -> pool_ok ns ->
    exists w, scallret c ns t o w r /\
      Forall2 (fun st oa => forall a, oa = Some a -> scontents c (r_post st) a) w cs.
  Proof.
    unfold wshow, swindow. destruct (srun c (sinit c ns) pre) as [[h s]|] eqn:Hr; [|done].
    destruct (sstep c s (Invoke t o)) as [s1 evs| |] eqn:Hs; [|done..].
    destruct (srecs s1 chs) as [ws|] eqn:Hw; [|done]. cbn [fmap option_fmap option_map].
    intros Heq Hp. injection Heq as <- Hres Hb. apply andb_prop in Hb as [Hb Hin]. apply andb_prop in Hb as [Hb Ho].
    exists (SRec s (Invoke t o) s1 :: ws). split.
    - exists (match list.last ws with Some st => r_post st | None => s1 end). split.
      + apply andb_prop in Hin as [_ Hin].
        apply (scall_recs ns t o [SRec s (Invoke t o) s1] s1 chs ws); [|done|done].
        eapply scall_start; [by eapply srun_reach|by apply (ch_okb_ok (Invoke t o))|done].
      + rewrite last_cons in Hres.
        assert (Hres' : sresult (match list.last ws with Some st => r_post st | None => s1 end) t = Some r)
          by (by destruct (list.last ws)).
        unfold sresult in Hres'. exists false, None, false. eexists. cbn [sstep].
        destruct (s_pcs _ !! t) as [pc|]; [|done].
        destruct pc; try done. injection Hres' as ->. reflexivity.
    - change (Forall2 (fun st oa => forall a, oa = Some a -> scontents c (r_post st) a)
                (SRec s (Invoke t o) s1 :: ws)
                (map (fun st => contentsb (r_post st)) (SRec s (Invoke t o) s1 :: ws))).
      generalize (SRec s (Invoke t o) s1 :: ws). intros l. clear. induction l as [|st l IH]; simpl; [constructor|].
      constructor; [|done]. intros a. by apply contentsb_ok.
  Qed.
End demo.
