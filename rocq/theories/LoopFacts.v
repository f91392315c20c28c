(** * Facts about loops over any machine *)
From stdpp Require Import gmap list numbers.
From Verif Require Import Lin LoopModel LoopObs.

Set Default Proof Using "Type".

Section loop.
  Context {st ch op ret V : Type}.
  Context (step : st -> ch -> bout st (event op ret)) (busy : st -> nat -> bool)
    (who : ch -> nat) (unsync : ch -> bool) (call_pop : nat -> ch) (got : ret -> popped V)
    (after : bool).
  Notation lstep := (lstep step busy who unsync call_pop got after).
  Notation lexec := (lexec step busy who unsync call_pop got after).
  Notation tev := (ltrace op ret V).

  (** Executions of the machine below. *)
  Inductive bexec (b0 : st) : list (event op ret) -> st -> Prop :=
    | bexec_nil : bexec b0 [] b0
    | bexec_step h b x b' evs : bexec b0 h b -> step b x = BNext b' evs -> bexec b0 (h ++ evs) b'.

  Lemma below_own (evs : list (event op ret)) : omap below (Own (V:=V) <$> evs) = evs.
  Proof. induction evs as [|e evs IH]; [done|]. cbn. by f_equal. Qed.
  Lemma below_sub (evs : list (event op ret)) : omap below (Sub (V:=V) <$> evs) = evs.
  Proof. induction evs as [|e evs IH]; [done|]. cbn. by f_equal. Qed.

  (** A step of the loop machine is at most one step below, with the same
      events. *)
  Lemma lstep_below s x s' evs :
    lstep s x = BNext s' evs ->
    (l_st s' = l_st s /\ omap below evs = []) \/
    (exists y, step (l_st s) y = BNext (l_st s') (omap below evs) /\
       (x = LOwn y \/ exists t z thr, x = LGo t z thr /\ (y = call_pop t \/ y = z))).
  Proof.
    destruct x as [y|t|t y thr]; cbn [LoopModel.lstep].
    - case_decide; [|done]. destruct (step (l_st s) y) as [b bevs| |] eqn:E; [|done|done].
      intros H'. injection H' as <- <-. right. exists y. cbn [l_st]. rewrite below_own. auto.
    - case_decide; [|done]. intros H'. injection H' as <- <-. left. done.
    - destruct (l_in s !! t) as [[n|n|n v|n]|]; [..|done].
      + destruct (step (l_st s) (call_pop t)) as [b bevs| |] eqn:E; [|done|done].
        intros H'. injection H' as <- <-. right. exists (call_pop t). cbn [l_st]. rewrite below_sub. eauto 8.
      + case_decide; [|done]. destruct (step (l_st s) y) as [b [|[t' o|t' r] [|]]| |] eqn:E; try done.
        * intros H'. injection H' as <- <-. right. exists y. cbn [l_st]. eauto 8.
        * destruct (got r); intros H'; try done; injection H' as <- <-; right; exists y; cbn [l_st]; eauto 8.
      + destruct thr; [destruct after; [|done]|]; intros H'; injection H' as <- <-; by left.
      + intros H'; injection H' as <- <-; by left.
  Qed.

  Lemma lexec_below s0 tr s : lexec s0 tr s -> bexec (l_st s0) (omap below tr) (l_st s).
  Proof.
    induction 1 as [|tr s x s' evs He IH Hs]; [constructor|].
    rewrite omap_app. destruct (lstep_below _ _ _ _ Hs) as [[-> ->]|(y & Hy & _)].
    - by rewrite app_nil_r.
    - by econstructor.
  Qed.

  (** ** The shape of a call *)

  Context (o : op) (one : V -> ret) (none : ret).
  Context (Hinv : forall b t b' evs, step b (call_pop t) = BNext b' evs -> evs = [Inv t o]).
  Context (Hown : forall b x b' evs, step b x = BNext b' evs -> Forall (fun e => ev_thread e = who x) evs).
  Context (Hone : forall r v, got r = GotOne v -> r = one v) (Hnone : forall r, got r = GotNone -> r = none).

  (** What a thread in consume_all has done since it was called. *)
  Definition sofar (t : nat) (p : lpc V) (m : list tev) : Prop :=
    match p with
    | LTest n => exists vs, length vs = n /\ m = rounds o one t vs
    | LPop n => exists vs, length vs = n /\ m = rounds o one t vs ++ [Sub (Inv t o)]
    | LFun n v => exists vs, length vs = n /\ m = rounds o one t vs ++ [Sub (Inv t o); Sub (Res t (one v))]
    | LEnd n => exists vs, length vs = n /\ m = rounds o one t vs ++ last_round o none t
    end.

  Definition incall (t : nat) (p : lpc V) (tr : list tev) : Prop :=
    exists tr1 m, tr = tr1 ++ AllCall t :: m /\ sofar t p (of_thread t m).

  Lemma of_thread_app t (l1 l2 : list tev) : of_thread t (l1 ++ l2) = of_thread t l1 ++ of_thread t l2.
  Proof. apply list.filter_app. Qed.

  Lemma of_thread_other t (l : list tev) : Forall (fun e => tev_thread e <> t) l -> of_thread t l = [].
  Proof.
    induction 1 as [|e l He Hl IH]; [done|]. unfold of_thread in *. rewrite filter_cons_False; done.
  Qed.

  Lemma of_thread_all t (l : list tev) : Forall (fun e => tev_thread e = t) l -> of_thread t l = l.
  Proof.
    induction 1 as [|e l He Hl IH]; [done|]. unfold of_thread in *. rewrite filter_cons_True by done. by f_equal.
  Qed.

  Lemma incall_other t p tr evs :
    Forall (fun e => tev_thread e <> t) evs -> incall t p tr -> incall t p (tr ++ evs).
  Proof.
    intros HF (tr1 & m & -> & Hm). exists tr1, (m ++ evs). rewrite <- app_assoc. split; [done|].
    by rewrite of_thread_app, (of_thread_other t evs), app_nil_r.
  Qed.

  Lemma incall_own t p p' tr evs :
    Forall (fun e => tev_thread e = t) evs ->
    (forall m, sofar t p m -> sofar t p' (m ++ evs)) -> incall t p tr -> incall t p' (tr ++ evs).
  Proof.
    intros HF Hs (tr1 & m & -> & Hm). exists tr1, (m ++ evs). rewrite <- app_assoc. split; [done|].
    rewrite of_thread_app, (of_thread_all t evs) by done. auto.
  Qed.

  Lemma rounds_snoc t vs v : rounds o one t (vs ++ [v]) = rounds o one t vs ++ round o one t v.
  Proof. unfold rounds. rewrite fmap_app, concat_app. cbn. done. Qed.

  Lemma lstep_threads s x s' evs :
    lstep s x = BNext s' evs ->
    Forall (fun e => tev_thread e = match x with LOwn y => who y | LCall t | LGo t _ _ => t end) evs.
  Proof using Hinv Hown.
    destruct x as [y|t|t y thr]; cbn [LoopModel.lstep].
    - case_decide; [|done]. destruct (step (l_st s) y) as [b bevs| |] eqn:E; [|done|done].
      intros H'. injection H' as <- <-. apply Hown in E. by apply list.Forall_fmap.
    - case_decide; [|done]. intros H'. injection H' as <- <-. by repeat constructor.
    - destruct (l_in s !! t) as [[n|n|n v|n]|]; [..|done].
      + destruct (step (l_st s) (call_pop t)) as [b bevs| |] eqn:E; [|done|done].
        apply Hinv in E as ->. intros H'. injection H' as <- <-. by repeat constructor.
      + case_decide as Hd; [|done]. destruct Hd as [Hw _].
        destruct (step (l_st s) y) as [b [|[t' o'|t' r] [|]]| |] eqn:E; try done.
        * intros H'. injection H' as <- <-. constructor.
        * apply Hown in E. apply Forall_inv in E. cbn [ev_thread] in E. rewrite Hw in E. subst t'.
          destruct (got r); intros H'; try done; injection H' as <- <-; by repeat constructor.
      + destruct thr; [destruct after; [|done]|]; intros H'; injection H' as <- <-; by repeat constructor.
      + intros H'; injection H' as <- <-; by repeat constructor.
  Qed.

  (** What a step does to the position of a thread. *)
  Lemma lstep_in s x s' evs t :
    lstep s x = BNext s' evs ->
    match l_in s !! t, l_in s' !! t with
    | None, None =>
        Forall (fun e => match e with AllRet t' _ | AllThrow t' | AllCall t' => t' <> t | _ => True end) evs
    | None, Some p => p = LTest 0 /\ evs = [AllCall t]
    | Some p, Some p' =>
        (p' = p /\ Forall (fun e => tev_thread e <> t) evs) \/
        (Forall (fun e => tev_thread e = t) evs /\ forall m, sofar t p m -> sofar t p' (m ++ evs))
    | Some p, None => (exists n, p = LEnd n /\ evs = [AllRet t n]) \/ (exists evs', evs = evs' ++ [AllThrow t])
    end.
  Proof using Hinv Hnone Hone Hown.
    intros Hs. pose proof (lstep_threads _ _ _ _ Hs) as HT. revert Hs.
    destruct x as [y|u|u y thr]; cbn [LoopModel.lstep].
    - case_decide as Hd; [|done]. destruct Hd as [Hd _].
      destruct (step (l_st s) y) as [b bevs| |] eqn:E; [|done|done].
      intros H'. injection H' as <- <-. cbn [l_in]. destruct (l_in s !! t) as [p|] eqn:Ep.
      + left. split; [done|]. eapply list.Forall_impl; [exact HT|]. cbn. intros e He. congruence.
      + apply list.Forall_fmap. apply list.Forall_forall. done.
    - case_decide as Hd; [|done]. intros H'. injection H' as <- <-. unfold lset. cbn [l_in].
      destruct (decide (u = t)) as [->|Hne].
      + destruct Hd as [-> _]. rewrite lookup_insert. done.
      + rewrite lookup_insert_ne by done. destruct (l_in s !! t) as [p|].
        * left. split; [done|]. by repeat constructor.
        * by repeat constructor.
    - destruct (decide (u = t)) as [->|Hne].
      2:{ assert (Hev : Forall (fun e => tev_thread e <> t) evs).
          { eapply list.Forall_impl; [exact HT|]. cbn. intros e He. congruence. }
          assert (Hev' : Forall (fun e : tev => match e with AllRet t' _ | AllThrow t' | AllCall t' => t' <> t | _ => True end) evs).
          { eapply list.Forall_impl; [exact Hev|]. intros [] He; done. }
          intros Hs. assert (Hsame : l_in s' !! t = l_in s !! t).
          { revert Hs. destruct (l_in s !! u) as [[n|n|n v|n]|]; [..|done].
            - destruct (step (l_st s) (call_pop u)) as [b bevs| |]; [|done|done].
              intros H'. injection H' as <- _. cbn [l_in]. by rewrite lookup_insert_ne.
            - case_decide; [|done]. destruct (step (l_st s) y) as [b [|[t' o'|t' r] [|]]| |]; try done.
              + intros H'. by injection H' as <- _.
              + destruct (got r); intros H'; try done; injection H' as <- _; cbn [l_in];
                  first [by rewrite lookup_insert_ne|by rewrite lookup_delete_ne].
            - destruct thr; [destruct after; [|done]|]; intros H'; injection H' as <- _; unfold lset; cbn [l_in];
                  first [by rewrite lookup_insert_ne|by rewrite lookup_delete_ne].
            - intros H'; injection H' as <- _; cbn [l_in]; by rewrite lookup_delete_ne. }
          rewrite Hsame. destruct (l_in s !! t); [by left|done]. }
      destruct (l_in s !! t) as [[n|n|n v|n]|] eqn:Ep; [..|done].
      + destruct (step (l_st s) (call_pop t)) as [b bevs| |] eqn:E; [|done|done].
        apply Hinv in E as ->. intros H'. injection H' as <- <-. cbn [l_in]. rewrite lookup_insert.
        right. split; [done|]. intros m (vs & Hl & ->). by exists vs.
      + case_decide as Hd; [|done]. destruct Hd as [Hw _].
        destruct (step (l_st s) y) as [b [|[t' o'|t' r] [|]]| |] eqn:E; try done.
        * intros H'. injection H' as <- <-. cbn [l_in]. rewrite Ep. right. split; [constructor|].
          intros m Hm. by rewrite app_nil_r.
        * apply Hown in E. apply Forall_inv in E. cbn [ev_thread] in E. rewrite Hw in E. subst t'.
          destruct (got r) as [v| |v| |] eqn:Eg; intros H'; try done; injection H' as <- <-; cbn [l_in].
          -- rewrite lookup_insert. right. split; [by repeat constructor|].
             intros m (vs & Hl & ->). exists vs. apply Hone in Eg as ->. by rewrite <- app_assoc.
          -- rewrite lookup_insert. right. split; [by repeat constructor|].
             intros m (vs & Hl & ->). exists vs. apply Hnone in Eg as ->. by rewrite <- app_assoc.
          -- rewrite lookup_delete. right. by exists [Sub (Res t r); AllApply t v].
          -- rewrite lookup_delete. right. by exists [Sub (Res t r)].
      + destruct thr; [destruct after; [|done]|]; intros H'; injection H' as <- <-; unfold lset; cbn [l_in].
        * rewrite lookup_delete. right. by exists [AllApply t v].
        * rewrite lookup_insert. right. split; [by repeat constructor|].
          intros m (vs & Hl & ->). exists (vs ++ [v]). rewrite app_length, rounds_snoc, <- app_assoc. cbn. split; [lia|done].
      + intros H'; injection H' as <- <-; cbn [l_in]. rewrite lookup_delete. left. eauto.
  Qed.

  Lemma lexec_incall s0 tr s t p :
    l_in s0 = ∅ -> lexec s0 tr s -> l_in s !! t = Some p -> incall t p tr.
  Proof using Hinv Hnone Hone Hown.
    intros H0 H. revert p. induction H as [|tr s x s' evs He IH Hs]; intros p Hp.
    { by rewrite H0, lookup_empty in Hp. }
    pose proof (lstep_in _ _ _ _ t Hs) as Hin. rewrite Hp in Hin. destruct (l_in s !! t) as [q|].
    - destruct Hin as [[-> HF]|[HF Hm]]; [by apply incall_other; auto|]. eapply incall_own; eauto.
    - destruct Hin as [-> ->]. exists tr, []. split; [done|]. by exists [].
  Qed.

  Lemma lstep_ret s x s' evs t n :
    lstep s x = BNext s' evs -> AllRet t n ∈ evs -> l_in s !! t = Some (LEnd n) /\ evs = [AllRet t n].
  Proof.
    destruct x as [y|u|u y thr]; cbn [LoopModel.lstep].
    - case_decide; [|done]. destruct (step (l_st s) y) as [b bevs| |]; [|done|done].
      intros H'. injection H' as <- <-. intros (? & ? & _)%elem_of_list_fmap. done.
    - case_decide; [|done]. intros H'. injection H' as <- <-. by intros ?%elem_of_list_singleton.
    - destruct (l_in s !! u) as [[k|k|k v|k]|] eqn:Eu; [..|done].
      + destruct (step (l_st s) (call_pop u)) as [b bevs| |]; [|done|done].
        intros H'. injection H' as <- <-. intros (? & ? & _)%elem_of_list_fmap. done.
      + case_decide; [|done]. destruct (step (l_st s) y) as [b [|[t' o'|t' r0] [|]]| |]; try done.
        * intros H'. injection H' as <- <-. by intros ?%elem_of_nil.
        * destruct (got r0); intros H'; try done; injection H' as <- <-; intros Hmem;
            repeat (apply elem_of_cons in Hmem as [Hmem|Hmem]; [done|]); by apply elem_of_nil in Hmem.
      + destruct thr; [destruct after; [|done]|]; intros H'; injection H' as <- <-; intros Hmem;
            repeat (apply elem_of_cons in Hmem as [Hmem|Hmem]; [done|]); by apply elem_of_nil in Hmem.
      + intros H'. injection H' as <- <-. intros Hmem.
        apply elem_of_list_singleton in Hmem. injection Hmem as <- <-. done.
  Qed.

  Lemma split_last {A} (x : A) p1 m1 p2 m2 :
    p1 ++ x :: m1 = p2 ++ x :: m2 -> x ∉ m1 -> x ∉ m2 -> p1 = p2 /\ m1 = m2.
  Proof.
    intros Heq H1 H2. apply app_eq_inv in Heq as [(k & Hk & Hq)|(k & Hk & Hq)]; destruct k as [|e k].
    - rewrite app_nil_l in Hq. rewrite app_nil_r in Hk. injection Hq as Hq. done.
    - injection Hq as <- Hq. destruct H2. rewrite Hq. apply elem_of_app. right. left.
    - rewrite app_nil_l in Hq. rewrite app_nil_r in Hk. injection Hq as Hq. done.
    - injection Hq as <- Hq. destruct H1. rewrite Hq. apply elem_of_app. right. left.
  Qed.

  Lemma rounds_nocall t vs : AllCall t ∉ rounds o one t vs.
  Proof.
    induction vs as [|v vs IH] using rev_ind; [by intros ?%elem_of_nil|]. rewrite rounds_snoc.
    intros [Hin|Hin]%elem_of_app; [done|].
    repeat (apply elem_of_cons in Hin as [Hin|Hin]; [done|]); by apply elem_of_nil in Hin.
  Qed.

  (** A completed call: the thread has popped [vs], applied the functor to each
      of them in this order, found nothing the last time and returns their
      number. *)
  Lemma lexec_call s0 tr s t p m n q :
    l_in s0 = ∅ -> lexec s0 tr s -> tr = p ++ AllCall t :: m ++ AllRet t n :: q ->
    AllCall t ∉ m ->
    exists vs, n = length vs /\ of_thread t m = rounds o one t vs ++ last_round o none t.
  Proof using Hinv Hnone Hone Hown.
    intros H0 H. revert q. induction H as [|tr s x s' evs He IH Hs]; intros q Heq Hm.
    { by destruct p. }
    assert (Hcase : (exists q', tr = p ++ AllCall t :: m ++ AllRet t n :: q') \/
                    (exists e1 e2, evs = e1 ++ AllRet t n :: e2 /\ tr ++ e1 = p ++ AllCall t :: m)).
    { replace (p ++ AllCall t :: m ++ AllRet t n :: q) with ((p ++ AllCall t :: m) ++ AllRet t n :: q) in Heq
        by (rewrite <- app_assoc; done).
      apply app_eq_inv in Heq as [(k & Hk & Hq)|(k & Hk & Hq)].
      - destruct k as [|e k].
        + rewrite app_nil_l in Hq. rewrite app_nil_r in Hk. right. exists [], q. rewrite app_nil_r. done.
        + left. injection Hq as <- Hq. exists k. rewrite Hk, <- app_assoc. done.
      - right. exists k, q. done. }
    destruct Hcase as [(q' & Hq')|(e1 & e2 & Hev & Htr)]; [by eapply IH|].
    destruct (lstep_ret _ _ _ _ t n Hs) as [HLE Hev'].
    { rewrite Hev. apply elem_of_app. right. left. }
    assert (e1 = []) as ->. { rewrite Hev' in Hev. destruct e1 as [|? [|]]; done. }
    rewrite app_nil_r in Htr.
    destruct (lexec_incall _ _ _ _ _ H0 He HLE) as (tr1 & m' & Htr' & vs & Hl & Hvs).
    rewrite Htr in Htr'. apply split_last in Htr' as [_ ->]; [by exists vs|done|].
    intros Hin. assert (Hin' : AllCall t ∈ of_thread t m') by (by apply elem_of_list_filter).
    rewrite Hvs in Hin'. apply elem_of_app in Hin' as [Hin'|Hin']; [by eapply rounds_nocall|].
    repeat (apply elem_of_cons in Hin' as [Hin'|Hin']; [done|]); by apply elem_of_nil in Hin'.
  Qed.
End loop.
