(** * stack::pop assigns its destination once if it succeeds, and not otherwise *)
From stdpp Require Import gmap list numbers.
From Verif Require Import Lin PoolModel StackModel DestSpec DestStackModel DestFacts.

Set Default Proof Using "Type".

Definition sP (o : sop) (r : sret) (l : list N) : Prop := l = option_list (sval r).
Definition sQ (o : sop) (l : list N) : Prop := l = [].

Section dest.
  Context (c : cfg).

  (** What a call at [pc] has assigned. *)
  Definition done_at (pc : spc) : list N :=
    match pc with
    | PcDestroy _ (KRet r) | PcDealloc _ _ (KRet r) | PcRet r => option_list (sval r)
    | _ => []
    end.

  (** Results carried along by a push. *)
  Definition carried (pc : spc) : Prop :=
    match pc with
    | PcLLoad _ _ r | PcLSet _ _ _ r | PcLCas _ _ _ r => sval r = None
    | _ => True
    end.

  Lemma tstep_done x pc sp addr thr x' pc' :
    tstep c x pc sp addr thr = TGo x' pc' -> carried pc ->
    carried pc' /\
    done_at pc' = done_at pc ++
      match pc with
      | PcCFun n => match s_heap x !! n with
                    | Some (Node _ (Some v)) => if thr then [] else [v]
                    | _ => []
                    end
      | _ => []
      end /\
    (forall n, pc = PcCFun n -> done_at pc = []).
  Proof.
    intros Hs Hc. unfold tstep in Hs.
    destruct pc; simpl in *;
      repeat first
        [ progress unfold c_test, a_test, r_next, r_catch, kgo in *
        | match type of Hs with context [decide ?P] => destruct (decide P) end
        | match type of Hs with context [match ?e with _ => _ end] => destruct e eqn:? end
        | progress simplify_eq/= ];
      try (split_and!; rewrite ?app_nil_r, ?Hc; done).
  Qed.

  Definition inv (s : sstate) (m : gmap nat (sop * list N)) : Prop :=
    (forall t pc, s_pcs s !! t = Some pc -> carried pc /\ exists o, m !! t = Some (o, done_at pc)) /\
    (forall t, s_pcs s !! t = None -> m !! t = None).

  Lemma sd_scan ns tr s :
    sdexec c (sinit c ns) tr s -> exists m, scan sP sQ tr m /\ inv s m.
  Proof.
    induction 1 as [|tr s ch s' evs He IH Hs].
    - exists ∅. split; [constructor|]. unfold sinit. destruct (pool_init c None ns) as [h p].
      split; intros t; simpl; rewrite ?lookup_empty; done.
    - destruct IH as (m & Hm & Hin & Hout). destruct ch as [t o|t sp addr thr|t o addrs thr]; simpl in Hs.
      + destruct (s_pcs s !! t) eqn:Ht; [done|]. destruct (sstart c o) as [pc|] eqn:Hpc; [|done].
        injection Hs as <- <-. exists (<[t := (o, [])]> m). split; [simpl; by constructor; auto|].
        assert (carried pc /\ done_at pc = []) as [Hc Hd].
        { destruct o; simpl in Hpc; repeat case_match; by simplify_eq/=. }
        split; intros u; simpl.
        * intros pc' [[-> ->]|[Hne Hu]]%lookup_insert_Some.
          -- split; [done|]. exists o. by rewrite lookup_insert, Hd.
          -- rewrite lookup_insert_ne by done. by apply Hin.
        * intros [Hu Hne]%lookup_insert_None. rewrite lookup_insert_ne by done. by apply Hout.
      + destruct (s_pcs s !! t) as [pc|] eqn:Ht; [|done].
        destruct (Hin _ _ Ht) as (Hc & o & Hmt).
        assert ((exists r, pc = PcRet r /\ s' = SSt (s_sh s) (delete t (s_pcs s)) /\ evs = [Res t r]) \/
                (exists x pc', tstep c (s_sh s) pc sp addr thr = TGo x pc' /\
                    s' = SSt x (<[t := pc']> (s_pcs s)) /\ evs = [])) as [(r & -> & -> & ->)|(x & pc' & Hst & -> & ->)].
        { destruct pc; try (right; destruct (tstep c (s_sh s) _ sp addr thr) as [x pc'| |]; [|done..];
            injection Hs as <- <-; by eauto). left. injection Hs as <- <-. eauto. }
        * simpl. rewrite Ht. exists (delete t m). split; [by econstructor|]. split; intros u; simpl.
          -- intros pc' [Hne Hu]%lookup_delete_Some. rewrite lookup_delete_ne by done. by apply Hin.
          -- intros [Hu|Hu]%lookup_delete_None; [subst; by rewrite lookup_delete|].
             destruct (decide (t = u)) as [->|Hne]; [by rewrite lookup_delete|].
             rewrite lookup_delete_ne by done. by apply Hout.
        * destruct (tstep_done _ _ _ _ _ _ _ Hst Hc) as (Hc' & Hd & Hf).
          set (l := match pc with
                    | PcCFun n => match s_heap (s_sh s) !! n with
                                  | Some (Node _ (Some v)) => if thr then [] else [v]
                                  | _ => []
                                  end
                    | _ => []
                    end) in *.
          assert (svisible s (Run t sp addr thr) [] = DAsg t <$> l) as Hv.
          { unfold svisible, l. rewrite Ht. repeat case_match; done. }
          exists (<[t := (o, done_at pc')]> m). split.
          -- rewrite Hv, Hd. destruct l as [|v [|v' l']] eqn:Hl; simpl.
             ++ rewrite !app_nil_r. rewrite insert_id by done. done.
             ++ apply (scan_asg _ _ _ _ _ o (done_at pc)); [done..|]. unfold sQ.
                unfold l in Hl. repeat case_match; try done; by eapply Hf.
             ++ unfold l in Hl. repeat case_match; done.
          -- split; intros u; simpl.
             ++ intros pc1 [[-> ->]|[Hne Hu]]%lookup_insert_Some.
                ** split; [done|]. exists o. by rewrite lookup_insert.
                ** rewrite lookup_insert_ne by done. by apply Hin.
             ++ intros [Hu Hne]%lookup_insert_None. rewrite lookup_insert_ne by done. by apply Hout.
      + destruct (decide (s_pcs s = ∅)) as [Hem|]; [|done].
        destruct (ucall c (s_sh s) o addrs thr) as [x r| |] eqn:Hu; [|done..]. injection Hs as <- <-.
        assert (m !! t = None) as Ht. { apply Hout. rewrite Hem. apply lookup_empty. }
        exists m. split.
        * assert (scan sP sQ (tr ++ [DEv (Inv t o)]) (<[t := (o, [])]> m)) as H1 by by constructor.
          destruct (sval r) as [v|] eqn:Hr.
          -- destruct r; simpl in Hr; try done. subst. simpl.
             replace m with (delete t (<[t := (o, [v])]> (<[t := (o, [])]> m)))
               by (rewrite insert_insert, delete_insert; done).
             change [DEv (Inv t o); DAsg t v; DEv (Res t (SGot (Some v)))]
               with ([DEv (Inv t o)] ++ [DAsg t v] ++ [@DEv sop sret N (Res t (SGot (Some v)))]).
             rewrite !app_assoc. eapply scan_res; [|by rewrite lookup_insert|done].
             apply (scan_asg _ _ _ _ _ o []); [done|by rewrite lookup_insert|done].
          -- assert (svisible s (Unsync t o addrs thr) [Inv t o; Res t r] = [DEv (Inv t o); DEv (Res t r)]) as ->.
             { simpl. destruct r as [|[]| | | |]; done. }
             replace m with (delete t (<[t := (o, [])]> m)) by (rewrite delete_insert; done).
             change [DEv (Inv t o); DEv (Res t r)] with ([DEv (Inv t o)] ++ [@DEv sop sret N (Res t r)]).
             rewrite app_assoc. eapply scan_res; [done|by rewrite lookup_insert|].
             unfold sP. by rewrite Hr.
        * split; intros u; simpl; rewrite ?lookup_empty; [done|]. intros _. apply Hout. rewrite Hem. apply lookup_empty.
  Qed.

  Theorem stack_destination ns tr s t o r l :
    sdreach c ns tr s -> one_call tr t o r l -> l = option_list (sval r).
  Proof.
    intros (_ & _ & He) Hc. destruct (sd_scan _ _ _ He) as (m & Hs & _). by eapply (scan_call sP sQ) in Hc.
  Qed.

  Theorem stack_owning ns tr s :
    sdreach c ns tr s -> w_gone (owners tr) = [] /\ w_given (owners tr) = returned sval tr.
  Proof.
    intros (_ & _ & He). destruct (sd_scan _ _ _ He) as (m & Hs & _).
    by apply (scan_owners sP sQ sval) in Hs as (_ & ? & ?).
  Qed.

  (** The layer observes exactly the executions of the machine. *)
  Lemma sd_events s0 tr s : sdexec c s0 tr s -> sexec c s0 (events tr) s.
  Proof.
    induction 1 as [|tr s ch s' evs He IH Hs]; [constructor|].
    rewrite events_app. assert (events (svisible s ch evs) = evs) as ->.
    { unfold svisible. repeat case_match; rewrite ?events_asg, ?events_ev; done. }
    by econstructor.
  Qed.

  Lemma sd_visible s ch evs : events (svisible s ch evs) = evs.
  Proof. unfold svisible. repeat case_match; rewrite ?events_asg, ?events_ev; done. Qed.

  Theorem stack_observed s0 hist s :
    sexec c s0 hist s <-> exists tr, sdexec c s0 tr s /\ events tr = hist.
  Proof.
    split.
    - induction 1 as [|hist s ch s' evs He IH Hs]; [by exists []; split; [constructor|]|].
      destruct IH as (tr & Htr & <-). exists (tr ++ svisible s ch evs). split; [by econstructor|].
      by rewrite events_app, sd_visible.
    - intros (tr & Htr & <-). by eapply sd_events.
  Qed.
End dest.
