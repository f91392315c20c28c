(** * The queue on release/acquire memory: what threads compare with are values
      they have read, and the simulation *)
From stdpp Require Import gmap list numbers.
From Verif Require Import Lin PoolModel QueueModel QueueObs RaMem RaFacts RaQueueModel RaQueueObs
  RaQueueInv RaQueueStep RaQueueSafe
  QueueWrapObs WrapPool QueueWrap RaTags RaTagFacts RaQueueWrapObs RaQueueWrap.

Set Default Proof Using "Type".
#[local] Arguments hist : simpl never.

(** The word that the next step of a thread may change. *)
Definition writes (c : cfg) (pc : qpc) : option qloc :=
  match qaccess c pc with
  | XCas i _ _ => Some (root_loc i)
  | XNCas n _ | XNStore n | XWrite n => Some (LNext n)
  | _ => None
  end.

(** The values of [l] before the newest one. *)
Definition older (w : wmem) (l : qloc) : list tagged :=
  match l with
  | LHead => (w_head w).*1
  | LTail => (w_tail w).*1
  | LPool => (w_pool w).*1
  | LNext n => (w_next w n).*1
  end.
Lemma values_eq x w l z : xword x l = Some z -> values x w l = older w l ++ [z].
Proof.
  destruct l as [| | |n]; simpl; try (intros [= <-]; unfold hist; by rewrite fmap_app).
  destruct (q_heap x !! n) as [nd|]; [|done]. intros [= <-]. unfold nhist. by rewrite fmap_app.
Qed.
Lemma values_none x w l : xword x l = None -> values x w l = [].
Proof. destruct l as [| | |n]; simpl; try done. by destruct (q_heap x !! n). Qed.

Lemma older_push_msg i x w V l :
  older (push_msg i x w V) l = if decide (l = root_loc i) then values x w l else older w l.
Proof. destruct i, l; simpl; try done. Qed.
Lemma older_push_next x nd w n V l :
  q_heap x !! n = Some nd ->
  older (push_next nd w n V) l = if decide (l = LNext n) then values x w l else older w l.
Proof.
  intros Hnd. destruct l as [| | |m]; simpl; try done. unfold fupd. destruct (decide (m = n)) as [->|Hne].
  - rewrite decide_True by done. by rewrite Hnd.
  - rewrite decide_False by congruence. done.
Qed.
Lemma older_push_acc w n l : older (push_acc w n) l = older w l.
Proof. by destruct l. Qed.

Section words.
  Context (c : cfg) (Htag : c_tagmod c = None).

  (** How a step changes the words. *)
  Definition words_ok (pc : qpc) (x x' : qshared) : Prop :=
    forall l, (writes c pc <> Some l -> xword x l = None \/ xword x' l = xword x l) /\
      (writes c pc = Some l -> exists z z', xword x l = Some z /\ xword x' l = Some z' /\ (z'.2 = z.2 \/ z'.2 = z.2 + 1)%N).

  Lemma words_same pc x : writes c pc = None -> words_ok pc x x.
  Proof. intros H l. split; [by right|]. congruence. Qed.
  Lemma words_fresh pc x h p n nd :
    writes c pc = None -> h = q_heap x -> p = q_pool x ->
    (match h !! n with Some nd0 => nx nd0 = nx nd | None => True end) -> 
    words_ok pc x (set_heap_pool x (<[n := nd]> h) p).
  Proof.
    intros H -> -> Hn l. split; [|congruence]. intros _. destruct l as [| | |m]; try (by right). simpl.
    destruct (decide (n = m)) as [->|Hne].
    - rewrite lookup_insert. destruct (q_heap x !! m) as [nd0|]; [|by left]. right. simpl. by rewrite Hn.
    - right. by rewrite lookup_insert_ne.
  Qed.
  Lemma words_link pc x n nd nd' :
    writes c pc = Some (LNext n) -> q_heap x !! n = Some nd -> ((nx nd').2 = (nx nd).2 \/ (nx nd').2 = (nx nd).2 + 1)%N ->
    words_ok pc x (set_heap x (<[n := nd']> (q_heap x))).
  Proof.
    intros H Hnd Hn l. split.
    - intros Hl. right. destruct l as [| | |m]; try done. simpl. rewrite lookup_insert_ne; [done|]. congruence.
    - intros Hl. assert (l = LNext n) as -> by congruence. exists (nx nd), (nx nd'). simpl. rewrite Hnd, lookup_insert. done.
  Qed.
  Lemma words_root pc x x' i z z' :
    writes c pc = Some (root_loc i) -> xword x (root_loc i) = Some z -> x' = see i x z' -> (z'.2 = z.2 \/ z'.2 = z.2 + 1)%N ->
    words_ok pc x x'.
  Proof.
    intros H Hz -> Hz' l. split.
    - intros Hl. right. destruct l, i; try done; by rewrite H in Hl.
    - intros Hl. assert (l = root_loc i) as -> by congruence. exists z, z'. by rewrite xword_see.
  Qed.
  Lemma see_same i x z : xword x (root_loc i) = Some z -> x = see i x z.
  Proof. destruct x, i; simpl; by intros [= <-]. Qed.

  Lemma tstep_words x pc sp addr x' pc' :
    (forall n tag nd, pc = PcNStore n tag -> q_heap x !! n = Some nd -> (nx nd).2 = tag) ->
    tstep c x pc sp addr false = TGo x' pc' -> words_ok pc x x'.
  Proof using Htag.
    intros HT Hs.
    assert (Hroot : forall i z z', writes c pc = Some (root_loc i) -> xword x (root_loc i) = Some z ->
      x' = see i x z' \/ x' = x -> (z'.2 = z.2 \/ z'.2 = z.2 + 1)%N -> words_ok pc x x').
    { intros i z z' Hw Hz [->| ->] Hz'; [by eapply words_root|].
      apply (words_root _ _ _ i z z); [done|done|by apply see_same|by left]. }
    destruct pc as [b v a|v n k|n tag|n|n tl|n tl nx'|n tl nx'|n tl|n tl np| |hd|hd tl|hd tl nx'|tl np
                   |hd np acc|n d k|[|k]| |hh| |tl|r]; cbn [tstep] in Hs.
    - destruct a as [|old|old nxt]; cbn [astep] in Hs.
      + injection Hs as <- <-. destruct x. by apply words_same.
      + destruct (decide (old.1 = c_null c)) as [Hnull|Hnull].
        * assert (Hw : writes c (PcAlloc b v (ATest old)) = None).
          { unfold writes. simpl. by rewrite decide_True. }
          destruct (_ && _); [destruct addr as [n|]; [destruct (decide _) as [[Hn _]|]|]|];
            try discriminate Hs; injection Hs as <- <-; try by apply words_same.
          apply words_fresh; try done. by rewrite Hn.
        * destruct (q_heap x !! old.1) as [nd|]; [|discriminate Hs]. injection Hs as <- <-.
          destruct x. apply words_same. unfold writes. simpl. by rewrite decide_False.
      + destruct (decide _) as [[_ Ho]|]; injection Hs as <- <-.
        * apply (Hroot RPool (q_pool x) (nxt, next_tag c old.2)); [done|done|by left|]. simpl.
          rewrite (next_none c Htag), Ho. by right.
        * apply (Hroot RPool (q_pool x) (q_pool x)); [done|done|by destruct x; right|by left].
    - destruct (q_heap x !! n) as [nd|] eqn:Hn; [|discriminate Hs].
      destruct (v !! k) as [vk|] eqn:Hk; injection Hs as <- <-.
      + apply (words_fresh _ x (q_heap x) (q_pool x)); try done.
        * unfold writes. simpl. by rewrite Hk.
        * by rewrite Hn.
      + apply words_same. unfold writes. simpl. by rewrite Hk.
    - destruct (q_heap x !! n) as [nd|] eqn:Hn; [|discriminate Hs]. injection Hs as <- <-.
      apply (words_link _ _ n nd); try done. simpl. rewrite (next_none c Htag), (HT n tag nd eq_refl Hn). by right.
    - injection Hs as <- <-. by apply words_same.
    - destruct (q_heap x !! tl.1) as [nd|]; [|discriminate Hs]. injection Hs as <- <-. by apply words_same.
    - repeat destruct (decide _); injection Hs as <- <-; by apply words_same.
    - destruct (q_heap x !! tl.1) as [nd|] eqn:Hn; [|discriminate Hs].
      destruct (decide _) as [[_ Hx]|]; injection Hs as <- <-.
      + apply (words_link _ _ tl.1 nd); try done. simpl. rewrite (next_none c Htag), Hx. by right.
      + intros l. split; [by right|]. intros [= <-]. exists (nx nd), (nx nd). simpl. rewrite Hn. auto.
    - injection Hs as <- <-. destruct (decide _) as [Hx|].
      + apply (Hroot RTail (q_tail x) (n, next_tag c tl.2)); [done|done|by left|]. simpl. rewrite (next_none c Htag), Hx. by right.
      + apply (Hroot RTail (q_tail x) (q_tail x)); [done|done|by right|by left].
    - injection Hs as <- <-. destruct (decide _) as [Hx|].
      + apply (Hroot RTail (q_tail x) (np, next_tag c tl.2)); [done|done|by left|]. simpl. rewrite (next_none c Htag), Hx. by right.
      + apply (Hroot RTail (q_tail x) (q_tail x)); [done|done|by right|by left].
    - injection Hs as <- <-. by apply words_same.
    - injection Hs as <- <-. by apply words_same.
    - destruct (q_heap x !! hd.1) as [nd|]; [|discriminate Hs]. injection Hs as <- <-. by apply words_same.
    - repeat destruct (decide _); injection Hs as <- <-; by apply words_same.
    - injection Hs as <- <-. destruct (decide _) as [Hx|].
      + apply (Hroot RTail (q_tail x) (np, next_tag c tl.2)); [done|done|by left|]. simpl. rewrite (next_none c Htag), Hx. by right.
      + apply (Hroot RTail (q_tail x) (q_tail x)); [done|done|by right|by left].
    - destruct (decide (length acc < c_words c)) as [Hacc|Hacc].
      + destruct (q_heap x !! np) as [nd|]; [|discriminate Hs]. destruct (dat nd !! _); [|discriminate Hs].
        injection Hs as <- <-. apply words_same. unfold writes. simpl. by rewrite decide_True.
      + assert (Hw : writes c (PcOCopy hd np acc) = Some (root_loc RHead)).
        { unfold writes. simpl. by rewrite decide_False. }
        destruct (decide _) as [[_ Hx]|]; injection Hs as <- <-.
        * apply (Hroot RHead (q_head x) (np, next_tag c hd.2)); [done|done|by left|]. simpl. rewrite (next_none c Htag), Hx. by right.
        * apply (Hroot RHead (q_head x) (q_head x)); [done|done|by right|by left].
    - destruct d as [|old|old]; cbn [dstep] in Hs.
      + injection Hs as <- <-. destruct x. by apply words_same.
      + destruct (q_heap x !! n) as [nd|] eqn:Hn; [|discriminate Hs]. injection Hs as <- <-.
        apply (words_link _ _ n nd); try done. by left.
      + destruct (decide _) as [[_ Hx]|]; injection Hs as <- <-.
        * apply (Hroot RPool (q_pool x) (n, old.2)); [done|done|by left|]. simpl. rewrite Hx. by left.
        * apply (Hroot RPool (q_pool x) (q_pool x)); [done|done|by destruct x; right|by left].
    - injection Hs as <- <-. by apply words_same.
    - destruct addr as [n|]; [destruct (decide _) as [[Hn _]|]|]; try discriminate Hs; injection Hs as <- <-.
      + apply (words_fresh _ x (q_heap x) (q_pool x)); try done. by rewrite Hn.
      + by apply words_same.
    - injection Hs as <- <-. by apply words_same.
    - injection Hs as <- <-. by apply words_same.
    - injection Hs as <- <-. by apply words_same.
    - injection Hs as <- <-. by apply words_same.
    - discriminate Hs.
  Qed.

  Lemma reads_held x pc sp addr x' pc' l y :
    tstep c x pc sp addr false = TGo x' pc' -> (l, y) ∈ held pc' ->
    if decide (reads c pc = Some l) then xword x l = Some y else (l, y) ∈ held pc.
  Proof using Htag.
    clear Htag. intros Hs Hin.
    assert (Hsame : (l, y) ∈ held pc -> xword x l = Some y \/ reads c pc <> Some l ->
      if decide (reads c pc = Some l) then xword x l = Some y else (l, y) ∈ held pc).
    { intros H1 H2. destruct (decide _); [|done]. by destruct H2. }
    assert (Hread : reads c pc = Some l -> xword x l = Some y ->
      if decide (reads c pc = Some l) then xword x l = Some y else (l, y) ∈ held pc).
    { intros H1 H2. by rewrite decide_True. }
    destruct pc as [b v a|v n k|n tag|n|n tl|n tl nx'|n tl nx'|n tl|n tl np| |hd|hd tl|hd tl nx'|tl np
                   |hd np acc|n d k|[|k]| |hh| |tl|r]; cbn [tstep] in Hs.
    - destruct a as [|old|old nxt]; cbn [astep] in Hs.
      + injection Hs as <- <-. apply elem_of_list_singleton in Hin as [= -> ->]. by apply Hread.
      + destruct (decide (old.1 = c_null c)) as [Hnull|Hnull].
        * destruct (_ && _); [destruct addr as [n|]; [destruct (decide _) as [[Hn _]|]|]|];
            try discriminate Hs; injection Hs as <- <-; by apply elem_of_nil in Hin.
        * destruct (q_heap x !! old.1) as [nd|]; [|discriminate Hs]. injection Hs as <- <-.
          apply Hsame; [done|]. right. unfold reads. simpl. by rewrite decide_False.
      + destruct (decide _) as [[_ Ho]|]; injection Hs as <- <-; [by apply elem_of_nil in Hin|].
        apply elem_of_list_singleton in Hin as [= -> ->]. by apply Hread.
    - destruct (q_heap x !! n) as [nd|] eqn:Hn; [|discriminate Hs].
      destruct (v !! k) as [vk|] eqn:Hk; injection Hs as <- <-; by apply elem_of_nil in Hin.
    - destruct (q_heap x !! n) as [nd|] eqn:Hn; [|discriminate Hs]. injection Hs as <- <-. by apply elem_of_nil in Hin.
    - injection Hs as <- <-. apply elem_of_list_singleton in Hin as [= -> ->]. by apply Hread.
    - destruct (q_heap x !! tl.1) as [nd|] eqn:Hn; [|discriminate Hs]. injection Hs as <- <-.
      apply elem_of_cons in Hin as [[= -> ->]|Hin]; [apply Hsame; [by left|by right]|].
      apply elem_of_list_singleton in Hin as [= -> ->]. apply Hread; [done|]. simpl. by rewrite Hn.
    - repeat match type of Hs with context [decide ?P] => destruct (decide P) end; injection Hs as <- <-; try (by apply elem_of_nil in Hin).
      + apply elem_of_cons in Hin as [[= -> ->]|Hin]; [apply Hread; [done|]; simpl; by f_equal|].
        apply elem_of_list_singleton in Hin as [= -> ->]. apply Hsame; [right; by left|by right].
      + apply elem_of_list_singleton in Hin as [= -> ->]. apply Hread; [done|]. simpl. by f_equal.
    - destruct (q_heap x !! tl.1) as [nd|] eqn:Hn; [|discriminate Hs].
      destruct (decide _) as [[_ Hx]|]; injection Hs as <- <-; [|by apply elem_of_nil in Hin].
      apply elem_of_list_singleton in Hin as [= -> ->]. apply Hsame; [by left|by right].
    - injection Hs as <- <-. by apply elem_of_nil in Hin.
    - injection Hs as <- <-. by apply elem_of_nil in Hin.
    - injection Hs as <- <-. apply elem_of_list_singleton in Hin as [= -> ->]. by apply Hread.
    - injection Hs as <- <-.
      apply elem_of_cons in Hin as [[= -> ->]|Hin]; [apply Hsame; [by left|by right]|].
      apply elem_of_list_singleton in Hin as [= -> ->]. by apply Hread.
    - destruct (q_heap x !! hd.1) as [nd|]; [|discriminate Hs]. injection Hs as <- <-.
      apply Hsame; [done|]. right. intros [= <-]. apply elem_of_cons in Hin as [[=]|Hin].
      by apply elem_of_list_singleton in Hin.
    - repeat match type of Hs with context [decide ?P] => destruct (decide P) end; injection Hs as <- <-; try (by apply elem_of_nil in Hin).
      + apply elem_of_list_singleton in Hin as [= -> ->]. apply Hsame; [right; by left|by right].
      + apply elem_of_list_singleton in Hin as [= -> ->]. apply Hread; [done|]. simpl. by f_equal.
    - injection Hs as <- <-. by apply elem_of_nil in Hin.
    - destruct (decide (length acc < c_words c)) as [Hacc|Hacc].
      + destruct (q_heap x !! np) as [nd|]; [|discriminate Hs]. destruct (dat nd !! _); [|discriminate Hs].
        injection Hs as <- <-. apply Hsame; [done|]. right. unfold reads. simpl. by rewrite decide_True.
      + destruct (decide _) as [[_ Hx]|]; injection Hs as <- <-; by apply elem_of_nil in Hin.
    - destruct d as [|old|old]; cbn [dstep] in Hs.
      + injection Hs as <- <-. apply elem_of_list_singleton in Hin as [= -> ->]. by apply Hread.
      + destruct (q_heap x !! n) as [nd|] eqn:Hn; [|discriminate Hs]. injection Hs as <- <-.
        apply Hsame; [done|by right].
      + destruct (decide _) as [[_ Hx]|]; injection Hs as <- <-; [destruct k; by apply elem_of_nil in Hin|].
        apply elem_of_list_singleton in Hin as [= -> ->]. by apply Hread.
    - injection Hs as <- <-. by apply elem_of_nil in Hin.
    - destruct addr as [n|]; [destruct (decide _) as [[Hn _]|]|]; try discriminate Hs; injection Hs as <- <-; by apply elem_of_nil in Hin.
    - injection Hs as <- <-. by apply elem_of_nil in Hin.
    - injection Hs as <- <-. by apply elem_of_nil in Hin.
    - injection Hs as <- <-. by apply elem_of_nil in Hin.
    - injection Hs as <- <-. by apply elem_of_nil in Hin.
    - discriminate Hs.
  Qed.
End words.

Section effect.
  Context (c : cfg) (Htag : c_tagmod c = None).

  Record effect (x : qshared) (w : wmem) (V : view) (pc : qpc) (ts : nat) (x' : qshared) (w' : wmem) (V' : view) (pc' : qpc) : Prop := {
    ef_values : forall l, values x' w' l = values x w l \/
      exists m, values x' w' l = values x w l ++ [m] /\
        (forall z, list.last (values x w l) = Some z -> (m.2 = z.2 \/ m.2 = z.2 + 1)%N);
    ef_held : forall l y, (l, y) ∈ held pc' ->
      if decide (reads c pc = Some l) then values x' w' l !! ts = Some y /\ ts <= V' (view_loc l) else (l, y) ∈ held pc;
    ef_view : vle V V';
  }.

  (** The values of the words after a step that leaves the memory alone or writes one word. *)
  Lemma values_keep x w x' w' pc :
    (forall n, q_heap x !! n = None -> w_next w n = []) ->
    words_ok c pc x x' -> (forall l, older w' l = if decide (writes c pc = Some l) then values x w l else older w l) ->
    forall l, values x' w' l = values x w l \/
      exists m, values x' w' l = values x w l ++ [m] /\
        (forall z, list.last (values x w l) = Some z -> (m.2 = z.2 \/ m.2 = z.2 + 1)%N).
  Proof.
    intros Hn Hw Ho l. destruct (Hw l) as [H1 H2]. specialize (Ho l). destruct (decide (writes c pc = Some l)) as [Hl|Hl].
    - destruct (H2 Hl) as (z & z' & Hz & Hz' & Ht). right. exists z'.
      rewrite (values_eq _ _ _ _ Hz'), Ho. split; [done|]. intros z1. rewrite (values_eq _ _ _ _ Hz), last_snoc. by intros [= <-].
    - destruct (H1 Hl) as [Hz|Hz].
      + rewrite (values_none _ _ _ Hz). destruct (xword x' l) as [z'|] eqn:Hz'.
        * right. exists z'. rewrite (values_eq _ _ _ _ Hz'), Ho. split; [|done].
          destruct l as [| | |n]; try done. simpl in Hz |- *. rewrite (Hn n); [done|]. by destruct (q_heap x !! n).
        * left. by apply values_none.
      + left. destruct (xword x l) as [z|] eqn:Hz0.
        * by rewrite (values_eq _ _ _ _ Hz), (values_eq _ _ _ _ Hz0), Ho.
        * by rewrite !values_none.
  Qed.

  Lemma xword_see_next x n v nd : xword (see_next x n v nd) (LNext n) = Some v.
  Proof. simpl. by rewrite lookup_insert. Qed.

  Lemma rtstep_effect x w V pc ts sp addr junk x' w' V' pc' :
    (forall n, q_heap x !! n = None -> w_next w n = []) ->
    (forall n tag nd, pc = PcNStore n tag -> q_heap x !! n = Some nd -> (nx nd).2 = tag) ->
    rtstep c true x w V pc ts sp addr junk = RGo x' w' V' pc' -> effect x w V pc ts x' w' V' pc'.
  Proof using Htag.
    intros Hnone HT Hs. unfold rtstep in Hs.
    assert (Hkeep : forall x1 sp1 x2 pc2, x1 = x -> tstep c x1 pc sp1 addr false = TGo x2 pc2 -> words_ok c pc x x2).
    { intros x1 sp1 x2 pc2 -> Ht. by apply (tstep_words c Htag x pc sp1 addr x2 pc2). }
    pose proof (fun x1 sp1 x2 pc2 l y => reads_held c Htag x1 pc sp1 addr x2 pc2 l y) as Hreads.
    assert (Hld : forall l v (V1 : view), reads c pc = Some l -> values x w l !! ts = Some v -> vle V V1 -> ts <= V1 (view_loc l) ->
      forall x1 sp1 x2 pc2, xword x1 l = Some v -> tstep c x1 pc sp1 addr false = TGo x2 pc2 -> effect x w V pc ts x w V1 pc2).
    { intros l v V1 Hr Hv HV Hts x1 sp1 x2 pc2 Hx1 Ht. split; [by left| |done].
      intros l' y Hin. specialize (Hreads _ _ _ _ _ _ Ht Hin). destruct (decide _) as [Hl|Hl]; [|done].
      assert (l' = l) as -> by congruence. split; [|done]. congruence. }
    assert (Hplain : reads c pc = None -> writes c pc = None -> forall x1 sp1 x2 pc2, tstep c x1 pc sp1 addr false = TGo x2 pc2 ->
      effect x w V pc ts x w V pc2).
    { intros Hr Hw x1 sp1 x2 pc2 Ht. split; [by left| |apply vle_refl]. intros l y Hin. specialize (Hreads _ _ _ _ _ _ Ht Hin).
      rewrite Hr in *. by destruct (decide _). }
    assert (Hst : forall l sp1 x2 w2 (V2 : view) pc2, reads c pc = None -> writes c pc = l ->
      tstep c x pc sp1 addr false = TGo x2 pc2 -> vle V V2 ->
      (forall l', older w2 l' = if decide (l = Some l') then values x w l' else older w l') ->
      effect x w V pc ts x2 w2 V2 pc2).
    { intros l sp1 x2 w2 V2 pc2 Hr Hw Ht HV Ho. split; [|
        intros l' y Hin; specialize (Hreads _ _ _ _ _ _ Ht Hin); rewrite Hr in *; by destruct (decide _)|done].
      apply (values_keep x w x2 w2 pc); [done|by eapply Hkeep|]. by rewrite Hw. }
    assert (Hcas : forall l v sp1 x2 w2 (V2 : view) pc2, reads c pc = Some l -> writes c pc = Some l -> xword x l = Some v ->
      values x w l !! ts = Some v -> vle V V2 -> ts <= V2 (view_loc l) ->
      tstep c x pc sp1 addr false = TGo x2 pc2 ->
      (forall l', older w2 l' = if decide (l' = l) then values x w l' else older w l') ->
      effect x w V pc ts x2 w2 V2 pc2).
    { intros l v sp1 x2 w2 V2 pc2 Hr Hw Hx Hv HV Hts Ht Ho.
      assert (Hvals := values_keep x w x2 w2 pc Hnone (Hkeep _ _ _ _ eq_refl Ht)).
      rewrite Hw in Hvals. specialize (Hvals ltac:(intros l'; rewrite Ho; destruct (decide (l' = l)) as [->|]; [by rewrite decide_True|by rewrite decide_False by congruence])).
      split; [done| |done]. intros l' y Hin. specialize (Hreads _ _ _ _ _ _ Ht Hin).
      destruct (decide _) as [Hl|Hl]; [|done]. assert (l' = l) as -> by congruence. split; [|done].
      assert (y = v) as -> by congruence.
      destruct (Hvals l) as [->|(m & -> & _)]; [done|]. by apply lookup_app_l_Some. }
    assert (Hrd : reads c pc = match qaccess c pc with
      | XLoad i | XCas i _ _ => Some (root_loc i) | XNLoad n _ | XNCas n _ => Some (LNext n) | _ => None end) by done.
    assert (Hwr : writes c pc = match qaccess c pc with
      | XCas i _ _ => Some (root_loc i) | XNCas n _ | XNStore n | XWrite n => Some (LNext n) | _ => None end) by done.
    assert (Hload : forall l (mv : view), V l <= ts -> vle V (vjoin (vset V l ts) mv) /\ ts <= vjoin (vset V l ts) mv l).
    { intros l mv Hl. split; [eapply vle_trans; [by apply vle_vset|apply vle_join_l]|].
      unfold vjoin. rewrite vset_eq. lia. }
    assert (Hcasv : forall l (mv : view), V l <= ts ->
      vle V (vset (vjoin V mv) l (S ts)) /\ ts <= vset (vjoin V mv) l (S ts) l).
    { intros l mv Hl. split; [|rewrite vset_eq; lia]. intros l'. unfold vset, vjoin. destruct (decide _) as [->|]; lia. }
    destruct (qaccess c pc) as [|i|i old st|n a|n old|n|n|n|n|n k] eqn:Ha.
    - unfold rwrite in Hs. destruct (tstep c x pc sp addr false) as [x2 pc2| |] eqn:Ht; try done.
      injection Hs as <- <- <- <-. eapply (Hst None); [done|done|exact Ht|apply vle_refl|]. intros l'. by destruct (decide _).
    - destruct (hist i x w !! ts) as [[v mv]|] eqn:Hh; [|done]. destruct (decide _) as [Hle|]; [|done].
      unfold rread in Hs. destruct (tstep c (see i x v) pc sp addr false) as [x2 pc2| |] eqn:Ht; try done.
      injection Hs as <- <- <- <-. destruct (Hload (rloc i) mv Hle) as [L1 L2].
      eapply (Hld (root_loc i) v); [done| |done|by rewrite view_root|apply xword_see|exact Ht].
      by rewrite values_root, list_lookup_fmap, Hh.
    - destruct (hist i x w !! ts) as [[v mv]|] eqn:Hh; [|done]. destruct (decide _) as [Hle|]; [|done].
      assert (Hv : values x w (root_loc i) !! ts = Some v) by by rewrite values_root, list_lookup_fmap, Hh.
      destruct (decide _) as [(Hl & -> & _)|Hf].
      + unfold rwrite in Hs. destruct (tstep c x pc false addr false) as [x2 pc2| |] eqn:Ht; try done.
        injection Hs as <- <- <- <-. destruct (Hcasv (rloc i) mv Hle) as [L1 L2].
        eapply (Hcas (root_loc i) old); [done|done|by eapply xword_hist|done|done|by rewrite view_root|exact Ht|].
        intros l'. apply older_push_msg.
      + destruct (decide _); [done|].
        unfold rread in Hs. destruct (tstep c (see i x v) pc true addr false) as [x2 pc2| |] eqn:Ht; try done.
        injection Hs as <- <- <- <-. destruct (Hload (rloc i) mv Hle) as [L1 L2].
        eapply (Hld (root_loc i) v); [done|done|done|by rewrite view_root|apply xword_see|exact Ht].
    - destruct (q_heap x !! n) as [nd|] eqn:Hnd; [|done]. destruct (nhist nd w n !! ts) as [[v mv]|] eqn:Hh; [|done].
      destruct (decide _) as [Hle|]; [|done]. unfold rread in Hs.
      destruct (tstep c (see_next x n v nd) pc sp addr false) as [x2 pc2| |] eqn:Ht; try done.
      injection Hs as <- <- <- <-. destruct (Hload (RaMem.LNext n) (if a then mv else v0) Hle) as [L1 L2].
      eapply (Hld (LNext n) v); [done| |done|done|apply xword_see_next|exact Ht].
      simpl. by rewrite Hnd, list_lookup_fmap, Hh.
    - destruct (q_heap x !! n) as [nd|] eqn:Hnd; [|done]. destruct (nhist nd w n !! ts) as [[v mv]|] eqn:Hh; [|done].
      destruct (decide _) as [Hle|]; [|done].
      assert (Hv : values x w (LNext n) !! ts = Some v) by (simpl; by rewrite Hnd, list_lookup_fmap, Hh).
      destruct (decide _) as [(Hl & -> & _)|Hf].
      + unfold rwrite in Hs. destruct (tstep c x pc false addr false) as [x2 pc2| |] eqn:Ht; try done.
        injection Hs as <- <- <- <-. destruct (Hcasv (RaMem.LNext n) mv Hle) as [L1 L2].
        eapply (Hcas (LNext n) old); [done|done| |done|done|done|exact Ht|].
        * simpl. rewrite Hnd. simpl. unfold nhist in Hh, Hl. rewrite app_length in Hl. simpl in Hl.
          rewrite lookup_app_r in Hh by lia. replace (_ - _) with 0 in Hh by lia. simpl in Hh. by injection Hh as -> _.
        * intros l'. by apply older_push_next.
      + unfold rread in Hs.
        destruct (tstep c (see_next x n v nd) pc true addr false) as [x2 pc2| |] eqn:Ht; try done.
        injection Hs as <- <- <- <-. destruct (Hload (RaMem.LNext n) mv Hle) as [L1 L2].
        eapply (Hld (LNext n) v); [done|done|done|done|apply xword_see_next|exact Ht].
    - unfold rstore in Hs. destruct (q_heap x !! n) as [nd|] eqn:Hnd; [|done]. destruct (decide _) as [Hle|]; [|done].
      unfold rwrite in Hs. destruct (tstep c x pc sp addr false) as [x2 pc2| |] eqn:Ht; try done.
      injection Hs as <- <- <- <-. eapply (Hst (Some (LNext n))); [done|done|exact Ht|apply vle_vset; lia|].
      intros l'. rewrite (older_push_next x) by done. apply decide_iff. split; congruence.
    - destruct (q_heap x !! n) as [nd|] eqn:Hnd; [|done]. unfold rread in Hs.
      destruct (decide _); destruct (tstep c _ pc sp addr false) as [x2 pc2| |] eqn:Ht; try done;
        injection Hs as <- <- <- <-; by eapply Hplain.
    - unfold rstore in Hs. destruct (q_heap x !! n) as [nd|] eqn:Hnd; [|done]. destruct (decide _) as [Hle|]; [|done].
      unfold rwrite in Hs. destruct (tstep c x pc sp addr false) as [x2 pc2| |] eqn:Ht; try done.
      injection Hs as <- <- <- <-. eapply (Hst (Some (LNext n))); [done|done|exact Ht|apply vle_vset; lia|].
      intros l'. rewrite (older_push_next x) by done. apply decide_iff. split; congruence.
    - destruct (decide _) as [Hle|]; [|done].
      unfold rwrite in Hs. destruct (tstep c x pc sp addr false) as [x2 pc2| |] eqn:Ht; try done.
      injection Hs as <- <- <- <-. eapply (Hst None); [done|done|exact Ht|apply vle_vset; lia|].
      intros l'. rewrite older_push_acc. by destruct (decide _).
    - destruct (q_heap x !! n) as [nd|] eqn:Hnd; [|done]. unfold rread in Hs.
      destruct (decide _); destruct (tstep c _ pc sp addr false) as [x2 pc2| |] eqn:Ht; try done;
        injection Hs as <- <- <- <-; by eapply Hplain.
  Qed.

  (** ** The invariant of the machine with unbounded tags *)
  Definition jinv (s : rstate) (k : nat -> qloc -> option nat) : Prop :=
    (forall l, stepwise (values (r_x s) (r_w s) l)) /\
    (forall t pc l y, r_pcs s !! t = Some pc -> (l, y) ∈ held pc ->
      exists j, k t l = Some j /\ values (r_x s) (r_w s) l !! j = Some y /\ j <= r_view s t (view_loc l)).

  Lemma stepwise_app (l : list tagged) (m : tagged) :
    stepwise l -> (forall z, list.last l = Some z -> (m.2 = z.2 \/ m.2 = z.2 + 1)%N) -> stepwise (l ++ [m]).
  Proof.
    intros Hl Hm. destruct (list.last l) as [z|] eqn:Hz; [by eapply stepwise_snoc; eauto|].
    apply last_None in Hz as ->. intros j a b _ Hb. by destruct j.
  Qed.

  Lemma qstart_held o tf pc : qstart c o tf = Some pc -> held pc = [].
  Proof. destruct o; simpl; repeat case_decide; repeat case_match; intros; by simplify_eq/=. Qed.

  Lemma jinv_init ns addr s k : rinit c ns addr = Some s -> jinv s k.
  Proof.
    unfold rinit. destruct (qinit c ns addr) as [q|]; [|done]. intros [= <-]. split.
    - intros l j a b _ Hb. destruct l as [| | |n]; simpl in Hb; try by destruct j.
      destruct (q_heap _ !! n); [|done]. by destruct j.
    - intros t pc l y Hpc. simpl in Hpc. by rewrite lookup_empty in Hpc.
  Qed.

  Lemma jinv_step s tr g k ch s' evs :
    RInv c s tr g -> jinv s k -> rstep c true s ch = RNext s' evs -> jinv s' (last_read c k s ch).
  Proof using Htag.
    intros HI [Hw Hh] Hs. destruct ch as [t o tf|t ts sp addr junk|t u]; cbn [rstep] in Hs.
    - destruct (r_pcs s !! t) as [|] eqn:Ht; [done|]. destruct (qstart c o tf) as [pc|] eqn:Ho; [|done].
      injection Hs as <- <-. split; [done|]. simpl. intros t' pc' l y Hpc' Hin. unfold last_read.
      destruct (decide (t = t')) as [<-|Hne].
      + rewrite lookup_insert in Hpc'. injection Hpc' as <-. rewrite (qstart_held _ _ _ Ho) in Hin. by apply elem_of_nil in Hin.
      + rewrite lookup_insert_ne in Hpc' by done. rewrite set_view_ne by done. by apply (Hh t' pc').
    - destruct (r_pcs s !! t) as [pc|] eqn:Ht; [|done].
      assert (Hd : (exists r, pc = PcRet r) \/
        match rtstep c true (r_x s) (r_w s) (r_view s t) pc ts sp addr junk with
        | RGo x w V pc' => RNext (RSt x w (<[t := pc']> (r_pcs s)) (set_view (r_view s) t V)) []
        | RGRace => RRace
        | RGUB => RUB
        | RGDisabled => RDisabled
        end = RNext s' evs) by (destruct pc; try (by right); left; eauto).
      destruct Hd as [[r ->]|Hd].
      + injection Hs as <- <-. split; [done|]. simpl. intros t' pc' l y Hpc' Hin. unfold last_read.
        destruct (decide (t = t')) as [<-|Hne]; [by rewrite lookup_delete in Hpc'|].
        rewrite lookup_delete_ne in Hpc' by done. rewrite set_view_ne by done. by apply (Hh t' pc').
      + clear Hs. destruct (rtstep c true _ _ _ _ _ _ _ _) as [x w V pc'| | |] eqn:Hr; try done.
        injection Hd as <- <-. apply rtstep_effect in Hr as [He Hl HV].
        2:{ intros n Hn. by apply (qi_none _ _ _ _ _ _ _ (in_q _ _ _ _ HI)). }
        2:{ intros n tag nd -> Hnd. pose proof (in_t _ _ _ _ HI t) as HT. rewrite Ht in HT.
            destruct HT as (i & o & iv & p & _ & _ & _ & HT). destruct HT as (b & v & nd' & _ & _ & Hnd' & _ & Htg).
            rewrite Hnd in Hnd'. by injection Hnd' as <-. }
        split; simpl.
        * intros l. destruct (He l) as [->|(m & -> & Hm)]; [done|]. by apply stepwise_app.
        * assert (Hpre : forall l j y, values (r_x s) (r_w s) l !! j = Some y -> values x w l !! j = Some y).
          { intros l j y Hy. destruct (He l) as [->|(m & -> & _)]; [done|]. by apply lookup_app_l_Some. }
          intros t' pc'' l y Hpc'' Hin. unfold last_read. destruct (decide (t = t')) as [<-|Hne].
          -- rewrite lookup_insert in Hpc''. injection Hpc'' as <-. rewrite Ht, set_view_eq. specialize (Hl l y Hin).
             destruct (decide (reads c pc = Some l)) as [Hrd|Hrd]; [by exists ts|].
             destruct (Hh t pc l y Ht Hl) as (j & Hj & Hy & HVj). exists j. split; [done|]. split; [by apply Hpre|].
             specialize (HV (view_loc l)). lia.
          -- rewrite lookup_insert_ne in Hpc'' by done. rewrite set_view_ne by done.
             destruct (Hh t' pc'' l y Hpc'' Hin) as (j & Hj & Hy & HVj).
             exists j. split; [done|]. split; [by apply Hpre|done].
    - injection Hs as <- <-. split; [done|]. simpl. intros t' pc' l y Hpc' Hin.
      destruct (Hh t' pc' l y Hpc' Hin) as (j & Hj & Hy & HVj). exists j. split; [done|]. split; [done|].
      unfold set_view. destruct (decide _) as [->|]; [|done]. unfold vjoin. lia.
  Qed.
End effect.

(** ** The simulation *)
Section sim.
  Context (c : cfg) (M : N) (Hc : c_tagmod c = Some M) (HM : (2 <= M)%N).
  Notation c0 := (nowrap c).

  Lemma last_read_mod k s0 s ch t l : msr M s0 s -> last_read c k s ch t l = last_read c0 k s0 ch t l.
  Proof using HM.
    intros [_ _ Hp _]. unfold last_read. destruct ch as [t' o tf|t' ts sp addr junk|t' u]; try done.
    rewrite Hp, lookup_fmap. destruct (r_pcs s0 !! t) as [pc|]; [|done]. simpl. by rewrite reads_mod.
  Qed.

  Lemma values_mod x w0 w l : mwr M w0 w -> values (mshared M x) w l = mt M <$> values x w0 l.
  Proof using HM.
    intros Hw. assert (E : forall h : list (tagged * view), (mmsg M <$> h).*1 = mt M <$> h.*1).
    { intros h. by rewrite <- !list_fmap_compose. }
    destruct l as [| | |n]; cbn [values]; rewrite ?(hist_mod _ _ _ _ _ Hw), ?E; try done.
    rewrite mshared_heap, mheap_lookup. destruct (q_heap x !! n) as [nd|]; [|done].
    cbn [fmap option_fmap option_map]. by rewrite (nhist_mod _ _ _ _ _ Hw), E.
  Qed.

  Lemma jinv_clear s0 s k :
    msr M s0 s -> jinv s0 k ->
    (forall t l j, is_Some (r_pcs s !! t) -> k t l = Some j -> (N.of_nat (updates_since s l j) < M)%N) ->
    rclear c M s0.
  Proof using HM.
    intros Hm [Hw Hh] Hk t pc Hpc l y ts v Hcm HV Hv. apply compared_held in Hcm.
    destruct (Hh t pc l y Hpc Hcm) as (j & Hj & Hy & HVj).
    assert (Hpc' : is_Some (r_pcs s !! t)) by (rewrite (ms_pcs _ _ _ Hm), lookup_fmap, Hpc; by eexists).
    specialize (Hk t l j Hpc' Hj). unfold updates_since in Hk.
    rewrite (ms_x _ _ _ Hm), (values_mod _ _ _ _ (ms_w _ _ _ Hm)) in Hk.
    apply (stepwise_near_at M (values (r_x s0) (r_w s0) l) j ts); [done|done|done|done|lia|done].
  Qed.

  Lemma rqwexec_sim ns addr s1 tr s k :
    NoDup ns -> c_null c ∉ ns -> (ns <> [] \/ c_node_based c = true) -> rinit c ns addr = Some s1 ->
    rqwexec c true M s1 tr s k ->
    exists s01 s0 k0, rinit c0 ns addr = Some s01 /\ rexec c0 true s01 tr s0 /\ msr M s0 s /\ jinv s0 k0 /\
      (forall t l, k0 t l = k t l) /\ rclear c M s0.
  Proof using Hc HM.
    intros Hnd Hnn Hne Hi. destruct (rinit_mod c M Hc ltac:(lia) ns addr s1 Hi) as (s01 & Hi0 & Hm1).
    induction 1 as [|tr s k ch s' evs He IH Hs Hb].
    - exists s01, s01, (fun _ _ => None). split; [done|]. split; [constructor|]. split; [done|].
      split; [by eapply jinv_init|]. split; [done|]. intros t pc Hpc. exfalso.
      revert Hi0 Hpc. unfold rinit. destruct (qinit c0 ns addr); [|done]. intros [= <-]. simpl. by rewrite lookup_empty.
    - destruct IH as (s01' & s0 & k0 & Hi0' & He0 & Hm & Hj & Hk & Hcl).
      rewrite Hi0 in Hi0'. injection Hi0' as <-.
      pose proof (rstep_mod c true M Hc ltac:(lia) s0 s ch Hm Hcl) as Hst. rewrite Hs in Hst.
      destruct (rstep c0 true s0 ch) as [s0' evs0| | |] eqn:Hs0; try done. destruct Hst as [Hm' ->].
      destruct (rexec_ok c0 eq_refl ns addr s01 tr s0 Hnd Hnn Hne Hi0 He0) as [g HI].
      pose proof (jinv_step c0 eq_refl s0 tr g k0 ch s0' evs0 HI Hj Hs0) as Hj1.
      assert (Hkk : forall t l, last_read c0 k0 s0 ch t l = last_read c k s ch t l).
      { intros t l. rewrite (last_read_mod _ _ _ _ _ _ Hm). unfold last_read. destruct ch; try done; repeat case_match; by rewrite ?Hk. }
      exists s01, s0', (last_read c0 k0 s0 ch). split; [done|]. split; [by econstructor|]. split; [done|]. split; [done|].
      split; [done|]. apply (jinv_clear s0' s' _ Hm' Hj1). intros t l j Ht Hr. rewrite Hkk in Hr. by apply (Hb t l j).
  Qed.
End sim.
