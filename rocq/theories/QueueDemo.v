(** * Running concrete schedules (used by the Examples and the refutations) *)
From stdpp Require Import gmap list numbers.
From Verif Require Import Lin PoolModel QueueModel QueueSpec QueueObs.

(** A node-based queue of two-word elements, and a fixed-size queue with one-word
    elements whose null handle is 9. *)
Definition demoN : cfg := Cfg 0%N true None false 2.
Definition demoF : cfg := Cfg 9%N false None false 1.

(** [k] steps of thread [t]. *)
Definition runs (t k : nat) : list qchoice := replicate k (Run t false None false).
(** A whole call that runs alone, [k] steps long. *)
Definition whole (t : nat) (o : qop) (k : nat) : list qchoice := Invoke t o false :: runs t k.

Section demo.
  Context (c : cfg).

  Lemma qexec_trans s0 h s h' s' : qexec c s0 h s -> qexec c s h' s' -> qexec c s0 (h ++ h') s'.
  Proof.
    intros H. induction 1 as [|hist s1 ch s2 evs He IH Hs].
    - by rewrite app_nil_r.
    - rewrite app_assoc. by econstructor.
  Qed.

  Lemma qrun_exec chs : forall s h s', qrun c s chs = Some (h, s') -> qexec c s h s'.
  Proof.
    induction chs as [|ch chs IH]; intros s h s' H; simpl in H.
    - injection H as <- <-. constructor.
    - destruct (qstep c s ch) as [s1 evs| |] eqn:Hs; [|done..].
      destruct (qrun c s1 chs) as [[h1 s2]|] eqn:Hr; [|done]. injection H as <- <-.
      eapply qexec_trans; [|by apply IH].
      rewrite <- (app_nil_l evs). econstructor; [constructor|done].
  Qed.

  (** Run from construction. *)
  Definition qfrom (ns : list N) (addr : option N) (chs : list qchoice) : option (list qevent * qstate) :=
    match qinit c ns addr with
    | Some s0 => qrun c s0 chs
    | None => None
    end.

  Lemma qfrom_reach ns addr chs h s :
    qfrom ns addr chs = Some (h, s) -> NoDup ns -> c_null c ∉ ns -> (ns <> [] \/ c_node_based c = true) ->
    qreach c ns h s.
  Proof.
    unfold qfrom. destruct (qinit c ns addr) as [s0|] eqn:Hi; [|done]. intros Hr H1 H2 H3.
    exists addr, s0. do 4 (split; [done|]). by eapply qrun_exec.
  Qed.

  (** The states passed through. *)
  Fixpoint qstates (s : qstate) (chs : list qchoice) : option (list qstate) :=
    match chs with
    | [] => Some []
    | ch :: chs =>
        match qstep c s ch with
        | QNext s' _ => cons s' <$> qstates s' chs
        | _ => None
        end
    end.

  Lemma qcall_states s0 t o w s chs : forall ws,
    qcall c s0 t o w s -> qstates s chs = Some ws ->
    Forall (fun s => is_Some (q_pcs s !! t)) ws ->
    qcall c s0 t o (w ++ ws) (default s (list.last ws)).
  Proof.
    revert w s. induction chs as [|ch chs IH]; intros w s ws Hc Hs HF; simpl in Hs.
    - injection Hs as <-. by rewrite app_nil_r.
    - destruct (qstep c s ch) as [s1 evs| |] eqn:Hst; [|done..].
      destruct (qstates s1 chs) as [ws1|] eqn:Hw; [|done]. injection Hs as <-.
      apply Forall_cons_1 in HF as [H1 HF].
      assert (Hc1 : qcall c s0 t o (w ++ [s1]) s1) by (by eapply qcall_step).
      specialize (IH _ _ _ Hc1 Hw HF). rewrite <- app_assoc in IH. simpl in IH.
      rewrite last_cons. destruct (list.last ws1); done.
  Qed.

  (** [w] are the states of a call that starts after [pre] and is followed by
      [chs]. *)
  Definition qwindow (ns : list N) (addr : option N) (pre : list qchoice) (t : nat) (o : qop) (tf : bool)
      (chs : list qchoice) : option (list qstate) :=
    match qfrom ns addr pre with
    | Some (_, s) =>
        match qstep c s (Invoke t o tf) with
        | QNext s1 _ => cons s1 <$> qstates s1 chs
        | _ => None
        end
    | None => None
    end.

  Definition qresult (s : qstate) (t : nat) : option qret :=
    match q_pcs s !! t with Some (PcRet r) => Some r | _ => None end.

  Lemma qwindow_callret ns addr pre t o tf chs w r :
    qwindow ns addr pre t o tf chs = Some w ->
    NoDup ns -> c_null c ∉ ns -> (ns <> [] \/ c_node_based c = true) ->
    Forall (fun s => is_Some (q_pcs s !! t)) w ->
    (list.last w ≫= fun s => qresult s t) = Some r ->
    qcallret c ns t o w r.
  Proof.
    unfold qwindow, qfrom. destruct (qinit c ns addr) as [s0|] eqn:Hi; [|done].
    destruct (qrun c s0 pre) as [[h s]|] eqn:Hr; [|done].
    destruct (qstep c s (Invoke t o tf)) as [s1 evs| |] eqn:Hs; [|done..].
    destruct (qstates s1 chs) as [ws|] eqn:Hw; [|done]. intros [= <-] H1 H2 H3 HF Hres.
    exists addr, s0, (default s1 (list.last ws)). do 4 (split; [done|]). split.
    - apply Forall_cons_1 in HF as [_ HF].
      apply (qcall_states s0 t o [s1] s1 chs ws); [|done|done].
      eapply qcall_start; [by eapply qrun_exec|done].
    - rewrite last_cons in Hres.
      assert (Hres' : qresult (default s1 (list.last ws)) t = Some r) by (by destruct (list.last ws)).
      unfold qresult in Hres'. exists false, None, false. eexists. simpl.
      destruct (q_pcs _ !! t) as [pc|]; [|done].
      destruct pc; try done. injection Hres' as ->. reflexivity.
  Qed.

  (** The values found by following links, computably. *)
  Fixpoint chainb (fuel : nat) (h : gmap N qnode) (p : N) : option (list val) :=
    if decide (p = c_null c) then Some []
    else match fuel with
         | O => None
         | S fuel => match h !! p with
                     | Some nd => cons (dat nd) <$> chainb fuel h (nx nd).1
                     | None => None
                     end
         end.
  Definition contentsb (s : qstate) : option (list val) :=
    match q_heap (q_sh s) !! (q_head (q_sh s)).1 with
    | Some nd => chainb (size (q_heap (q_sh s))) (q_heap (q_sh s)) (nx nd).1
    | None => None
    end.

  Lemma chainb_ok fuel h : forall p a, chainb fuel h p = Some a -> chain c h p a.
  Proof.
    induction fuel as [|fuel IH]; intros p a H; simpl in H.
    - destruct (decide _) as [->|]; [|done]. injection H as <-. constructor.
    - destruct (decide _) as [->|]; [injection H as <-; constructor|].
      destruct (h !! p) as [nd|] eqn:Hp; [|done].
      destruct (chainb fuel h (nx nd).1) as [a'|] eqn:Hc; [|done]. injection H as <-.
      econstructor; [done|done|]. by apply IH.
  Qed.
  Lemma contentsb_ok s a : contentsb s = Some a -> qcontents c s a.
  Proof.
    unfold contentsb. destruct (q_heap (q_sh s) !! (q_head (q_sh s)).1) as [nd|] eqn:Hn; [|done].
    intros H. exists nd. split; [done|]. by eapply chainb_ok.
  Qed.

  (** What a schedule leads to: the history, the elements, and the number of
      calls in progress. *)
  Definition qshow (r : option (list qevent * qstate)) : option (list qevent * list val * nat) :=
    match r with
    | Some (h, s) => match contentsb s with
                     | Some a => Some (h, a, size (q_pcs s))
                     | None => None
                     end
    | None => None
    end.

  Lemma qshow_reach ns addr chs h a k :
    qshow (qfrom ns addr chs) = Some (h, a, k) -> NoDup ns -> c_null c ∉ ns ->
    (ns <> [] \/ c_node_based c = true) ->
    exists s, qreach c ns h s /\ qcontents c s a /\ (k = 0 -> quiescent s).
  Proof.
    unfold qshow. destruct (qfrom ns addr chs) as [[h' s]|] eqn:Hf; [|done].
    destruct (contentsb s) as [a'|] eqn:Hc; [|done]. intros [= -> -> <-] H1 H2 H3.
    exists s. split; [by eapply qfrom_reach|]. split; [by apply contentsb_ok|].
    intros Hk. by apply map_size_empty_inv in Hk.
  Qed.

  (** What the states of a call look like: the elements in each of them, whether
      the thread is inside the call, and the result. *)
  Definition wshow (t : nat) (r : option (list qstate)) : option (list (option (list val)) * list bool * option qret) :=
    match r with
    | Some w => Some (map contentsb w, map (fun s => match q_pcs s !! t with Some _ => true | None => false end) w,
                      list.last w ≫= fun s => qresult s t)
    | None => None
    end.

  Lemma wshow_callret ns addr pre t o tf chs cs bs r :
    wshow t (qwindow ns addr pre t o tf chs) = Some (cs, bs, Some r) ->
    forallb (fun b => b) bs = true ->
    NoDup ns -> c_null c ∉ ns -> (ns <> [] \/ c_node_based c = true) ->
    exists w, qcallret c ns t o w r /\ Forall2 (fun s oa => forall a, oa = Some a -> qcontents c s a) w cs.
  Proof.
    unfold wshow. destruct (qwindow ns addr pre t o tf chs) as [w|] eqn:Hw; [|done].
    intros [= <- <- Hr] Hb H1 H2 H3. exists w. split.
    - eapply qwindow_callret; [done|done|done|done| |done].
      clear Hw Hr. induction w as [|s w IH]; [constructor|]. simpl in Hb.
      apply andb_prop in Hb as [Hb1 Hb2]. constructor; [|auto].
      destruct (q_pcs s !! t); [done|discriminate].
    - clear Hw Hr Hb. induction w as [|s w IH]; simpl; [constructor|].
      constructor; [|done]. intros a. by apply contentsb_ok.
  Qed.
End demo.
