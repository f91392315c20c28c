(** * What queue::pop assigns to its destination *)
From stdpp Require Import gmap list numbers.
From Verif Require Import Lin PoolModel QueueModel DestSpec DestQueueModel DestFacts.

Set Default Proof Using "Type".

(** In general: the last assignment is the result. *)
Definition qP (o : qop) (r : qret) (l : list val) : Prop :=
  match r with
  | RPop (Some v) => list.last l = Some v
  | RPop None => True
  | RExn => o = Pop \/ l = []
  | _ => l = []
  end.
Definition qQ (o : qop) (l : list val) : Prop := True.
(** One pop at a time: the only assignment is the result. *)
Definition qP1 (o : qop) (r : qret) (l : list val) : Prop := l = option_list (qval r).
Definition qQ1 (o : qop) (l : list val) : Prop := l = [].

Section dest.
  Context (c : cfg).

  (** The assignment made by a step at [pc]. *)
  Definition asg_at (pc : qpc) (thr : bool) : option val :=
    match pc with
    | PcOCopy hd np acc => if thr then None else if decide (length acc < c_words c) then None else Some acc
    | _ => None
    end.

  (** The steps of pop before it takes effect. *)
  Definition popping (pc : qpc) : bool :=
    match pc with
    | PcOHead | PcOTail _ | PcONext _ _ | PcOCheck _ _ _ | PcOSwing _ _ | PcOCopy _ _ _ => true
    | _ => false
    end.

  (** The head that pop has read. *)
  Definition seen (pc : qpc) : option tagged :=
    match pc with
    | PcOTail hd | PcONext hd _ | PcOCheck hd _ _ | PcOCopy hd _ _ => Some hd
    | _ => None
    end.

  Definition goal_of (pc : qpc) : option qret :=
    match pc with
    | PcDealloc _ _ (KRet r) | PcRet r => Some r
    | _ => None
    end.

  (** A call at [pc] may have assigned [l]. *)
  Definition fits (o : qop) (pc : qpc) (l : list val) : Prop :=
    match goal_of pc with
    | Some r => qP o r l
    | None => popping pc = false -> l = []
    end.
  Definition fits1 (pc : qpc) (l : list val) : Prop :=
    match goal_of pc with
    | Some r => qP1 Pop r l
    | None => l = []
    end.

  Lemma tstep_fits o x pc sp addr thr x' pc' l :
    tstep c x pc sp addr thr = TGo x' pc' -> fits o pc l -> (popping pc = true -> o = Pop) ->
    fits o pc' (l ++ option_list (asg_at pc thr)).
  Proof.
    intros Hs Hc Ho. unfold tstep in Hs. unfold fits in *.
    destruct pc; simpl in *;
      repeat first
        [ match type of Hs with context [decide ?P] => destruct (decide P) end
        | match type of Hs with context [match ?e with _ => _ end] => destruct e eqn:? end
        | progress simplify_eq/= ];
      rewrite ?app_nil_r; try done; try (by rewrite Hc); try (by rewrite last_snoc);
      try (by intros _; apply Hc); try (by left; apply Ho); try (by right; apply Hc); try (by right; rewrite Hc).
  Qed.

  Lemma tstep_popping x pc sp addr thr x' pc' :
    tstep c x pc sp addr thr = TGo x' pc' -> popping pc' = true -> popping pc = true.
  Proof.
    intros Hs Hc. unfold tstep in Hs.
    destruct pc; simpl in *;
      repeat first
        [ match type of Hs with context [decide ?P] => destruct (decide P) end
        | match type of Hs with context [match ?e with _ => _ end] => destruct e eqn:? end
        | progress simplify_eq/= ]; done.
  Qed.

  (** With the head that was read still in place, and no spurious failure. *)
  Lemma tstep_fits1 x pc addr thr x' pc' l :
    tstep c x pc false addr thr = TGo x' pc' -> fits1 pc l ->
    (forall hd, seen pc = Some hd -> hd = q_head x) ->
    fits1 pc' (l ++ option_list (asg_at pc thr)) /\
    (forall hd, seen pc' = Some hd -> hd = q_head x').
  Proof.
    intros Hs Hc Hsee. unfold tstep in Hs. unfold fits1 in *.
    destruct pc; simpl in *;
      repeat first
        [ match type of Hs with context [decide ?P] => destruct (decide P) end
        | match type of Hs with context [match ?e with _ => _ end] => destruct e eqn:? end
        | progress simplify_eq/= ];
      rewrite ?app_nil_r; try done;
      try (split; [done|]; intros ? [= <-]; by try apply Hsee).
    all: try (destruct Hsee with (hd := hd); [done|]; by destruct_and?).
    all: try (split; [by rewrite Hc|]; done).
    all: try (exfalso; apply n0; split; [done|]; by rewrite (Hsee hd)).
    all: split; [done|]; by intros ? [= <-].
  Qed.

  Lemma tstep_head x pc sp addr thr x' pc' :
    tstep c x pc sp addr thr = TGo x' pc' -> popping pc = false -> q_head x' = q_head x.
  Proof.
    intros Hs Hc. unfold tstep in Hs.
    destruct pc; simpl in *;
      repeat first
        [ match type of Hs with context [decide ?P] => destruct (decide P) end
        | match type of Hs with context [match ?e with _ => _ end] => destruct e eqn:? end
        | progress simplify_eq/= ]; done.
  Qed.

  (** Every thread step, seen from the layer. *)
  Lemma run_cases s t sp addr thr s' evs :
    qstep c s (Run t sp addr thr) = QNext s' evs ->
    exists pc, q_pcs s !! t = Some pc /\
    ((exists r, pc = PcRet r /\ s' = QSt (q_sh s) (delete t (q_pcs s)) /\
        qvisible c s (Run t sp addr thr) evs = [DEv (Res t r)]) \/
     (exists x pc', tstep c (q_sh s) pc sp addr thr = TGo x pc' /\
        s' = QSt x (<[t := pc']> (q_pcs s)) /\
        qvisible c s (Run t sp addr thr) evs = DAsg t <$> option_list (asg_at pc thr))).
  Proof.
    simpl. destruct (q_pcs s !! t) as [pc|] eqn:Ht; [|done]. intros Hs. exists pc. split; [done|].
    destruct pc; try (right; destruct (tstep c (q_sh s) _ sp addr thr) as [x pc'| |] eqn:Hst; [|done..];
      injection Hs as <- <-; exists x, pc'; split; [done|]; split; [done|]; simpl; repeat case_match; done).
    left. injection Hs as <- <-. eauto.
  Qed.

  Section general.
    Context (weak : bool).

    Definition inv (s : qstate) (m : gmap nat (qop * list val)) : Prop :=
      (forall t pc, q_pcs s !! t = Some pc -> exists o l, m !! t = Some (o, l) /\ fits o pc l /\ (popping pc = true -> o = Pop)) /\
      (forall t, q_pcs s !! t = None -> m !! t = None).

    Lemma start_fits o tf pc : qstart c o tf = Some pc -> goal_of pc = None /\ seen pc = None /\ (popping pc = true -> o = Pop).
    Proof. destruct o; simpl; repeat case_match; intros; by simplify_eq/=. Qed.

    Lemma unsync_scan (P : qop -> qret -> list val -> Prop) (Q : qop -> list val -> Prop) s m tr t o addrs thr r :
      scan P Q tr m -> m !! t = None -> P o r (option_list (qval r)) -> Q o [] ->
      scan P Q (tr ++ qvisible c s (Unsync t o addrs thr) [Inv t o; Res t r]) m.
    Proof.
      intros Hm Ht HP HQ.
      assert (scan P Q (tr ++ [DEv (Inv t o)]) (<[t := (o, [])]> m)) as H1 by by constructor.
      destruct (qval r) as [v|] eqn:Hr.
      - destruct r; simpl in Hr; try done. subst. simpl.
        replace m with (delete t (<[t := (o, [v])]> (<[t := (o, [])]> m)))
          by (rewrite insert_insert, delete_insert; done).
        change [DEv (Inv t o); DAsg t v; DEv (Res t (RPop (Some v)))]
          with ([DEv (Inv t o)] ++ [DAsg t v] ++ [@DEv qop qret val (Res t (RPop (Some v)))]).
        rewrite !app_assoc. eapply scan_res; [|by rewrite lookup_insert|done].
        apply (scan_asg _ _ _ _ _ o []); [done|by rewrite lookup_insert|done].
      - assert (qvisible c s (Unsync t o addrs thr) [Inv t o; Res t r] = [DEv (Inv t o); DEv (Res t r)]) as ->.
        { simpl. destruct r as [|[]| |]; done. }
        replace m with (delete t (<[t := (o, [])]> m)) by (rewrite delete_insert; done).
        change [DEv (Inv t o); DEv (Res t r)] with ([DEv (Inv t o)] ++ [@DEv qop qret val (Res t r)]).
        rewrite app_assoc. eapply scan_res; [done|by rewrite lookup_insert|done].
    Qed.

    Lemma run_scan (P : qop -> qret -> list val -> Prop) (Q : qop -> list val -> Prop) tr m t o l v :
      scan P Q tr m -> m !! t = Some (o, l) -> (v <> None -> Q o l) ->
      scan P Q (tr ++ (DAsg t <$> option_list v)) (<[t := (o, l ++ option_list v)]> m).
    Proof.
      intros Hm Ht HQ. destruct v as [v|]; simpl.
      - by apply (scan_asg _ _ _ _ _ o l); [..|apply HQ].
      - rewrite !app_nil_r. by rewrite insert_id.
    Qed.

    Lemma qd_scan s0 tr s :
      q_pcs s0 = ∅ -> qdexec c weak s0 tr s -> exists m, scan qP qQ tr m /\ inv s m.
    Proof.
      intros H0. induction 1 as [|tr s ch s' evs He IH Hs _].
      - exists ∅. split; [constructor|]. split; intros t; rewrite H0, !lookup_empty; done.
      - destruct IH as (m & Hm & Hin & Hout). destruct ch as [t o tf|t sp addr thr|t o addrs thr].
        + simpl in Hs. destruct (q_pcs s !! t) eqn:Ht; [done|]. destruct (qstart c o tf) as [pc|] eqn:Hpc; [|done].
          injection Hs as <- <-. exists (<[t := (o, [])]> m). split; [simpl; by constructor; auto|].
          destruct (start_fits _ _ _ Hpc) as (Hg & _ & Hpo).
          split; intros u; simpl.
          * intros pc' [[-> ->]|[Hne Hu]]%lookup_insert_Some.
            -- exists o, []. rewrite lookup_insert. split; [done|]. unfold fits. by rewrite Hg.
            -- rewrite lookup_insert_ne by done. by apply Hin.
          * intros [Hu Hne]%lookup_insert_None. rewrite lookup_insert_ne by done. by apply Hout.
        + destruct (run_cases _ _ _ _ _ _ _ Hs) as (pc & Ht & [(r & -> & -> & ->)|(x & pc' & Hst & -> & ->)]);
            destruct (Hin _ _ Ht) as (o & l & Hmt & Hf & Hpo).
          * exists (delete t m). split.
            { by eapply scan_res. }
            split; intros u; simpl.
            -- intros pc' [Hne Hu]%lookup_delete_Some. rewrite lookup_delete_ne by done. by apply Hin.
            -- intros Hu. destruct (decide (t = u)) as [->|Hne]; [by rewrite lookup_delete|].
               rewrite lookup_delete_ne by done. apply Hout. by rewrite lookup_delete_ne in Hu.
          * exists (<[t := (o, l ++ option_list (asg_at pc thr))]> m). split; [by apply run_scan|].
            split; intros u; simpl.
            -- intros pc1 [[-> ->]|[Hne Hu]]%lookup_insert_Some.
               ++ rewrite lookup_insert. do 2 eexists. split; [done|]. split; [by eapply tstep_fits|].
                  intros Hp. apply Hpo. by eapply tstep_popping.
               ++ rewrite lookup_insert_ne by done. by apply Hin.
            -- intros [Hu Hne]%lookup_insert_None. rewrite lookup_insert_ne by done. by apply Hout.
        + simpl in Hs. destruct (decide (q_pcs s = ∅)) as [Hem|]; [|done].
          destruct (ucall c (q_sh s) o addrs thr) as [x r| |] eqn:Hu; [|done..]. injection Hs as <- <-.
          exists m. split.
          * apply unsync_scan; [done| |destruct r as [|[]| |]; try done; by right|done].
            apply Hout. rewrite Hem. apply lookup_empty.
          * split; intros u; simpl; rewrite ?lookup_empty; [done|]. intros _. apply Hout. rewrite Hem. apply lookup_empty.
    Qed.
  End general.

  (** ** One pop at a time *)

  Definition kpop (o : qop) : Prop := o = Pop.

  Definition inv1 (s : qstate) (m : gmap nat (qop * list val)) : Prop :=
    (forall t pc, q_pcs s !! t = Some pc ->
       exists o l, m !! t = Some (o, l) /\ fits1 pc l /\ (popping pc = true -> o = Pop) /\
         (forall hd, seen pc = Some hd -> hd = q_head (q_sh s))) /\
    (forall t, q_pcs s !! t = None -> m !! t = None).

  Lemma qd_scan1 s0 tr s :
    q_pcs s0 = ∅ -> qdexec c false s0 tr s -> serial kpop tr -> exists m, scan qP1 qQ1 tr m /\ inv1 s m.
  Proof.
    intros H0. induction 1 as [|tr s ch s' evs He IH Hs Hsp]; intros Hser.
    - exists ∅. split; [constructor|]. split; intros t; rewrite H0, !lookup_empty; done.
    - destruct IH as (m & Hm & Hin & Hout); [by eapply serial_prefix|].
      destruct ch as [t o tf|t sp addr thr|t o addrs thr].
      + simpl in Hs. destruct (q_pcs s !! t) eqn:Ht; [done|]. destruct (qstart c o tf) as [pc|] eqn:Hpc; [|done].
        injection Hs as <- <-. exists (<[t := (o, [])]> m). split; [simpl; by constructor; auto|].
        destruct (start_fits _ _ _ Hpc) as (Hg & Hse & Hpo).
        split; intros u; simpl.
        * intros pc' [[-> ->]|[Hne Hu]]%lookup_insert_Some.
          -- exists o, []. rewrite lookup_insert. split; [done|]. unfold fits1. rewrite Hg.
             do 2 (split; [done|]). intros hd. by rewrite Hse.
          -- rewrite lookup_insert_ne by done. by apply Hin.
        * intros [Hu Hne]%lookup_insert_None. rewrite lookup_insert_ne by done. by apply Hout.
      + assert (sp = false) as ->. { destruct sp; [|done]. by specialize (Hsp eq_refl). }
        destruct (run_cases _ _ _ _ _ _ _ Hs) as (pc & Ht & [(r & -> & -> & ->)|(x & pc' & Hst & -> & Hv)]);
          destruct (Hin _ _ Ht) as (o & l & Hmt & Hf & Hpo & Hse).
        * exists (delete t m). split.
          { by eapply scan_res. }
          split; intros u; simpl.
          -- intros pc' [Hne Hu]%lookup_delete_Some. rewrite lookup_delete_ne by done. by apply Hin.
          -- intros Hu. destruct (decide (t = u)) as [->|Hne]; [by rewrite lookup_delete|].
             rewrite lookup_delete_ne by done. apply Hout. by rewrite lookup_delete_ne in Hu.
        * destruct (tstep_fits1 _ _ _ _ _ _ _ Hst Hf Hse) as [Hf' Hse'].
          assert (scan qP1 qQ1 (tr ++ (DAsg t <$> option_list (asg_at pc thr)))
                    (<[t := (o, l ++ option_list (asg_at pc thr))]> m)) as Hm'.
          { apply run_scan; [done..|]. intros Hne. unfold qQ1. unfold fits1 in Hf.
            destruct pc; simpl in *; done. }
          rewrite Hv in Hser |- *. exists (<[t := (o, l ++ option_list (asg_at pc thr))]> m). split; [done|].
          split; intros u; simpl.
          -- intros pc1 [[-> ->]|[Hne Hu]]%lookup_insert_Some.
             ++ rewrite lookup_insert. do 2 eexists. split; [done|]. split; [done|]. split; [|done].
                intros Hp. apply Hpo. by eapply tstep_popping.
             ++ rewrite lookup_insert_ne by done. destruct (Hin _ _ Hu) as (o1 & l1 & Hm1 & Hf1 & Hp1 & Hs1).
                exists o1, l1. do 3 (split; [done|]). intros hd Hhd. rewrite (Hs1 _ Hhd).
                destruct (popping pc) eqn:Hpp; [|symmetry; by eapply tstep_head].
                exfalso. apply Hne. eapply (scan_serial _ _ kpop _ _ Hm); [by eapply serial_prefix|done..| |].
                ** by apply Hpo.
                ** apply Hp1. by destruct pc1.
          -- intros [Hu Hne]%lookup_insert_None. rewrite lookup_insert_ne by done. by apply Hout.
      + simpl in Hs. destruct (decide (q_pcs s = ∅)) as [Hem|]; [|done].
        destruct (ucall c (q_sh s) o addrs thr) as [x r| |] eqn:Hu; [|done..]. injection Hs as <- <-.
        exists m. split.
        * apply unsync_scan; [done| |done..].
          apply Hout. rewrite Hem. apply lookup_empty.
        * split; intros u; simpl; rewrite ?lookup_empty; [done|]. intros _. apply Hout. rewrite Hem. apply lookup_empty.
  Qed.

  (** ** Results *)

  Lemma init_idle ns addr s0 : qinit c ns addr = Some s0 -> q_pcs s0 = ∅.
  Proof.
    unfold qinit. destruct (pool_init c (qd0 c) ns) as [h p].
    destruct (alloc_unsafe c (qd0 c) false h p addr) as [|h' p' n| | | |]; try done.
    - destruct (h' !! n); [|done]. by intros [= <-].
    - by intros [= <-].
  Qed.

  Theorem queue_destination weak ns tr s t o r l :
    qdreach c weak ns tr s -> one_call tr t o r l ->
    match r with
    | RPop (Some v) => list.last l = Some v
    | RPop None => True
    | RExn => o = Pop \/ l = []
    | _ => l = []
    end.
  Proof.
    intros (addr & s0 & _ & _ & _ & Hi & He) Hc.
    destruct (qd_scan _ _ _ _ (init_idle _ _ _ Hi) He) as (m & Hs & _). by eapply (scan_call qP qQ) in Hc.
  Qed.

  Theorem queue_serial_destination ns tr s t o r l :
    qdreach c false ns tr s -> serial kpop tr -> one_call tr t o r l -> l = option_list (qval r).
  Proof.
    intros (addr & s0 & _ & _ & _ & Hi & He) Hser Hc.
    destruct (qd_scan1 _ _ _ (init_idle _ _ _ Hi) He Hser) as (m & Hs & _). by eapply (scan_call qP1 qQ1) in Hc.
  Qed.

  Theorem queue_serial_owning ns tr s :
    qdreach c false ns tr s -> serial kpop tr ->
    w_gone (owners tr) = [] /\ w_given (owners tr) = returned qval tr.
  Proof.
    intros (addr & s0 & _ & _ & _ & Hi & He) Hser.
    destruct (qd_scan1 _ _ _ (init_idle _ _ _ Hi) He Hser) as (m & Hs & _).
    by apply (scan_owners qP1 qQ1 qval) in Hs as (_ & ? & ?).
  Qed.

  (** The layer observes executions of the machine. *)
  Lemma qd_events weak s0 tr s : qdexec c weak s0 tr s -> qexec c s0 (events tr) s.
  Proof.
    induction 1 as [|tr s ch s' evs He IH Hs _]; [constructor|].
    rewrite events_app. assert (events (qvisible c s ch evs) = evs) as ->.
    { unfold qvisible. repeat case_match; rewrite ?events_asg, ?events_ev; done. }
    by econstructor.
  Qed.

  Lemma qd_visible s ch evs : events (qvisible c s ch evs) = evs.
  Proof. unfold qvisible. repeat case_match; rewrite ?events_asg, ?events_ev; done. Qed.

  Theorem queue_observed s0 hist s :
    qexec c s0 hist s <-> exists tr, qdexec c true s0 tr s /\ events tr = hist.
  Proof.
    split.
    - induction 1 as [|hist s ch s' evs He IH Hs]; [by exists []; split; [constructor|]|].
      destruct IH as (tr & Htr & <-). exists (tr ++ qvisible c s ch evs). split; [by econstructor|].
      by rewrite events_app, qd_visible.
    - intros (tr & Htr & <-). by eapply qd_events.
  Qed.
End dest.
