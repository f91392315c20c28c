(** * The stack machine: every execution satisfies the invariant *)
From stdpp Require Import gmap list numbers.
From Verif Require Import Lin PoolModel Chain PoolProofs StackModel StackSpec StackObs StackInv StackStep.

Set Default Proof Using "Type".

Lemma size_dom_ge (h : gmap N snode) (L : list N) :
  NoDup L -> (forall n, n ∈ L -> is_Some (h !! n)) -> length L <= size h.
Proof.
  intros Hnd HL. rewrite <- size_dom, <- (size_list_to_set (C := gset N) L Hnd).
  apply subseteq_size. intros n Hn. apply elem_of_list_to_set in Hn.
  apply elem_of_dom. by apply HL.
Qed.

Section safe.
  Context (c : cfg).
  Notation null := (c_null c).
  Notation spec := (sspec (c_node_based c) (c_throws c)).
  Notation GI := (GI c).
  Notation tinv := (tinv c).
  Notation Inv := (Inv c).
  Notation holds_list := (holds_list c).
  Notation built := (built c).

  (** ** Operations without synchronization *)

  Definition nohold (g : ghost) : Prop := forall t, owns t g [].

  (** What a call leaves behind. *)
  Definition uok (m0 : nat) (t : nat) (o : sop) (g : ghost) (u : uout) : Prop :=
    match u with
    | UUB => False
    | UDisabled => True
    | UDone x' r =>
        exists g', GI x' g' /\ fin g' t o r /\ erase (g_l g') = erase (g_l g) /\
          (forall t', t' <> t -> g_ph g' !! t' = g_ph g !! t') /\ nohold g' /\
          spec (g_a g) o r (g_a g') /\ lossy (Some m0) g g'
    end.

  (** The nodes of the other threads. *)
  Definition alone (t : nat) (g : ghost) : Prop := forall t', t' <> t -> owns t' g [].

  Lemma alone_nohold t g : alone t g -> owns t g [] -> nohold g.
  Proof. intros Ha Ho t'. destruct (decide (t' = t)) as [->|]; [done|by apply Ha]. Qed.

  Lemma alone_own t g g' :
    (forall n t', t' <> t -> g_own g' !! n = Some (OT t') -> g_own g !! n = Some (OT t')) ->
    alone t g -> alone t g'.
  Proof.
    intros H Ha t' Hne. destruct (Ha t' Hne) as [_ Ho]. split; [constructor|].
    intros n. split; [|intros Hn; by apply elem_of_nil in Hn]. intros Hn. apply Ho. by apply H.
  Qed.

  Lemma alone_insert t g g' n o :
    alone t g -> g_own g' = <[n := o]> (g_own g) -> (forall t', t' <> t -> o <> OT t') -> alone t g'.
  Proof.
    intros Ha Hg Ho. eapply alone_own; [|exact Ha]. intros m t' Hne. rewrite Hg, lookup_insert_Some.
    intros [[_ ?]|[_ ?]]; [|done]. by apply Ho in Hne.
  Qed.

  Lemma alone_set t g g' L o :
    alone t g -> g_own g' = own_set L o (g_own g) -> (forall t', t' <> t -> o <> OT t') -> alone t g'.
  Proof.
    intros Ha Hg Ho. eapply alone_own; [|exact Ha]. intros m t' Hne. rewrite Hg, own_set_Some.
    intros [[_ ?]|[_ ?]]; [|done]. by apply Ho in Hne.
  Qed.

  Lemma uok_now {m0} t o r x g :
    GI x g -> nohold g -> pend g t o -> spec (g_a g) o r (g_a g) -> uok m0 t o g (UDone x r).
  Proof.
    intros HG HN Hp Hs. destruct (act_lin c _ _ _ _ _ HG Hp Hs) as [HG' _].
    eexists. split; [exact HG'|]. split; [unfold fin; simpl; by rewrite lookup_insert|].
    split; [simpl; by rewrite erase_app, app_nil_r|].
    split; [|split; [done|split; [done|apply lossless_lossy, (lossless_refl g)]]].
    intros t' Hne. simpl. by rewrite lookup_insert_ne.
  Qed.

  Lemma uok_ext {m0} t o g g1 u :
    g_l g1 = g_l g -> g_ph g1 = g_ph g -> g_a g1 = g_a g -> lossless g g1 ->
    uok m0 t o g1 u -> uok m0 t o g u.
  Proof.
    intros Hl Hp Ha Hlo. unfold uok. rewrite Hl, Hp, Ha. destruct u as [x r| |]; [|done..].
    intros (g' & H1 & H2 & H3 & H4 & H5 & H6 & H7). exists g'. repeat (split; [done|]).
    by eapply lossless_trans.
  Qed.

  Lemma uok_leak t o g n u :
    uok 0 t o (g_mem g (own_set [n] OL (g_own g)) (g_sn g) (g_fn g)) u -> uok 1 t o g u.
  Proof.
    destruct u as [x r| |]; [|done..].
    intros (g' & H1 & H2 & H3 & H4 & H5 & H6 & K & HK & Hm). exists g'. repeat (split; [done|]).
    exists (n :: K). split; [|simpl; lia]. intros m Hn.
    destruct (HK m Hn) as [H|H]; [|right; by right].
    simpl in H. rewrite lookup_insert_Some in H. destruct H as [[-> _]|[_ ?]]; [right; left|by left].
  Qed.

  Lemma uok_link {m0} t o r x g top bot L vs :
    GI x g -> alone t g -> pend g t o -> spec (g_a g) o r (vs ++ g_a g) ->
    owns t g (L ++ [bot]) -> seg (s_heap x) top L bot -> vals (s_heap x) (L ++ [bot]) vs ->
    uok m0 t o g (ulink x top bot r).
  Proof.
    intros HG HA Hp Hs Ho Hsg Hv. unfold ulink.
    assert (Hon : g_own g !! bot = Some (OT t)) by (apply Ho, elem_of_app; right; left).
    destruct (gi_own_dom c _ _ _ _ HG Hon) as [nd Hnd]. rewrite Hnd.
    destruct (act_write c x g t bot (set_next nd (s_tos x).1) HG Hon) as [HG1 _].
    destruct (act_link c _ g t o r L vs top bot HG1 Hp Hs (proj1 Ho)) as [HG2 _].
    { intros n Hn. by apply Ho. }
    { simpl. apply seg_insert_ne; [|done]. destruct Ho as [Hnd' _].
      apply NoDup_app in Hnd' as (_ & Hd & _). intros Hi. apply (Hd _ Hi). left. }
    { simpl. by apply vals_link. }
    { simpl. by rewrite nxp_set_next. }
    match type of HG2 with StackInv.GI _ _ ?g2 => set (g2' := g2) in * end.
    exists g2'. split; [exact HG2|]. split; [unfold fin; simpl; by rewrite lookup_insert|].
    split; [simpl; by rewrite erase_app, app_nil_r|].
    split; [intros t' Hne; simpl; by rewrite lookup_insert_ne|].
    split; [|split; [done|by apply lossless_lossy, (lossless_set g _ (L ++ [bot]) OQ)]].
    apply (alone_nohold t).
    - eapply (alone_set t g g2' (L ++ [bot]) OQ); done.
    - by eapply (owns_none t g g2' (L ++ [bot]) OQ).
  Qed.

  Context (Htag : c_tagmod c = None).

  Lemma ualloc_ok t x g L b addr :
    GI x g -> owns t g L ->
    match alloc_unsafe c None b (s_heap x) (s_pool x) addr with
    | ACont _ _ _ => False
    | AGot h p n => exists g', let x' := set_heap_pool x h p in
        GI x' g' /\ owns t g' (n :: L) /\ raw h n /\
        (forall m, m ∈ L -> h !! m = s_heap x !! m) /\
        g_l g' = g_l g /\ g_ph g' = g_ph g /\ g_a g' = g_a g /\
        g_own g' = <[n := OT t]> (g_own g)
    | AFail => c_node_based c = false \/ b = true
    | AThrow => c_node_based c = true /\ b = false
    | AUB => False
    | ADisabled => True
    end.
  Proof using Htag.
    intros HG Ho.
    pose proof (alloc_unsafe_ok c Htag None b _ _ _ _ addr (gi_pi _ _ _ HG)) as Hok.
    destruct (alloc_unsafe c None b (s_heap x) (s_pool x) addr) as [h p a|h p n| | | |]; try done.
    - destruct Hok as [(-> & Hn & Hpn & Hp2 & Hx & fn' & Hfn)|(Hf & Hn & -> & -> & _)].
      + destruct (act_pool_pop c x g t n fn' p HG Hfn Hx Hp2) as (HG' & HoF & Hraw & _).
        assert (Hni : n ∉ L). { intros Hi. apply Ho in Hi. congruence. }
        eexists. split; [exact HG'|]. split; [by eapply owns_insert|].
        repeat (split; [done|]). done.
      + rewrite set_heap_pool_heap.
        destruct (act_fresh c x g t n (Node (null, 0%N) None) HG Hf Hn) as (HG' & HoN & _).
        assert (Hni : n ∉ L). { intros Hi. apply Ho in Hi. congruence. }
        eexists. split; [exact HG'|]. split; [by eapply owns_insert|].
        split; [eexists; by rewrite lookup_insert|].
        split; [intros m Hm; rewrite lookup_insert_ne; [done|by intros ->]|].
        repeat (split; [done|]). done.
    - apply Hok.
    - by destruct Hok as (? & ? & _).
  Qed.

  Lemma upush_ok x g t v addr (thr : bool) :
    GI x g -> nohold g -> pend g t (SUPush v) -> uok (if thr then 1 else 0) t (SUPush v) g (upush c x v addr thr).
  Proof using Htag.
    intros HG HN Hp. unfold upush.
    pose proof (ualloc_ok t x g [] false addr HG (HN t)) as Hok.
    destruct (alloc_unsafe c None false (s_heap x) (s_pool x) addr) as [h p a|h p n| | | |]; try done.
    - destruct Hok as (g1 & HG1 & Ho1 & (lk & Hn) & _ & Hl & Hph & Ha & Hown). rewrite Hn.
      assert (HA : alone t g1).
      { eapply (alone_insert t g); [intros t' _; apply HN|exact Hown|congruence]. }
      eapply (uok_ext _ _ g g1); [done|done|done|by apply (lossless_insert g _ n (OT t))|].
      assert (Hp1 : pend g1 t (SUPush v)) by (unfold pend; by rewrite Hph).
      destruct thr.
      + destruct (c_throws c) eqn:Hth; [|done].
        destruct (act_leak c _ g1 t [n] Hth HG1) as [HG2 _].
        { intros m Hm. by apply Ho1. }
        match type of HG2 with StackInv.GI _ _ ?g2 => set (g2' := g2) in * end.
        apply (uok_leak _ _ g1 n). fold g2'. apply uok_now; [done| |done|].
        * apply (alone_nohold t).
          -- by eapply (alone_set t g1 g2' [n] OL).
          -- by eapply (owns_none t g1 g2' [n] OL).
        * constructor. by left.
      + assert (Hon : g_own g1 !! n = Some (OT t)) by (apply Ho1; left).
        destruct (act_write c _ g1 t n (Node lk (Some v)) HG1 Hon) as [HG2 _].
        eapply (uok_link _ _ _ _ g1 n n [] [v]); [exact HG2|done|done|constructor|done|done|].
        constructor; [|constructor]. exists lk. simpl. by rewrite lookup_insert.
    - destruct Hok as [Hnb|?]; [|done]. apply uok_now; [done|done|done|]. by constructor.
    - destruct Hok as [Hnb _]. apply uok_now; [done|done|done|]. constructor. by right.
  Qed.

  (** Destroying a node and giving it back. *)
  Lemma ufree_ok x g t n lk v L :
    GI x g -> owns t g (n :: L) -> s_heap x !! n = Some (Node lk (Some v)) ->
    exists g', let h' := <[n := Node ((s_pool x).1, lk.2) None]> (<[n := Node lk None]> (s_heap x)) in
      let x' := set_heap_pool x h' (n, (s_pool x).2) in
      dealloc_unsafe n (<[n := Node lk None]> (s_heap x)) (s_pool x) = DDone h' (n, (s_pool x).2) /\
      GI x' g' /\ owns t g' L /\ (forall m, m <> n -> h' !! m = s_heap x !! m) /\
      g_l g' = g_l g /\ g_ph g' = g_ph g /\ g_a g' = g_a g /\
      g_own g' = <[n := OF]> (g_own g).
  Proof.
    intros HG Ho Hn.
    assert (Hon : g_own g !! n = Some (OT t)) by (apply Ho; left).
    destruct (act_write c x g t n (Node lk None) HG Hon) as [HG1 _].
    match type of HG1 with StackInv.GI _ ?x1 _ => set (x1' := x1) in * end.
    destruct (act_write c x1' g t n (Node ((s_pool x).1, lk.2) None) HG1 Hon) as [HG2 _].
    match type of HG2 with StackInv.GI _ ?x2 _ => set (x2' := x2) in * end.
    destruct (act_pool_push c x2' g t n HG2 Hon) as [HG3 _].
    { eexists. simpl. by rewrite lookup_insert. }
    { simpl. by rewrite nxp_insert. }
    match type of HG3 with StackInv.GI _ _ ?g3 => exists g3 end.
    split; [by rewrite (dealloc_unsafe_ok _ _ _ _ (lookup_insert _ _ _))|].
    split; [exact HG3|]. split; [by eapply (owns_give t g _ L n OF)|].
    split; [|done]. intros m Hm. by rewrite !lookup_insert_ne.
  Qed.

  Lemma uundo_ok {m0} o fuel x g t cur L vs :
    GI x g -> alone t g -> pend g t o -> spec (g_a g) o (SExn []) (g_a g) ->
    owns t g L -> holds_list (s_heap x) cur L vs -> length L <= fuel ->
    uok m0 t o g (uundo c fuel x cur).
  Proof.
    revert x g cur L vs. induction fuel as [|fuel IH]; intros x g cur L vs HG HA Hp Hsp Ho Hh Hf;
      (destruct (holds_list_null c _ _ _ _ _ _ HG ltac:(intros n Hn; exists (OT t); by apply Ho) Hh)
        as [(-> & -> & ->)|(Hne & L' & v & vs' & -> & ->)]; simpl;
       [rewrite decide_True by done; apply uok_now; [done|by eapply alone_nohold|done|done]|]).
    - simpl in Hf. lia.
    - rewrite decide_False by done. destruct Hh as [(_ & y & Hy & Hs) Hv].
      apply Forall2_cons_1 in Hv as [(lk & Hn) Hv]. rewrite Hn.
      destruct (ufree_ok _ _ _ _ _ _ _ HG Ho Hn) as (g1 & Hd & HG1 & Ho1 & Hrest & Hl & Hph & Ha & Hown).
      rewrite Hd. rewrite (nxp_Some _ _ _ Hn) in Hy. injection Hy as <-. simpl in Hs.
      eapply (uok_ext _ _ g g1); [done|done|done|by apply (lossless_insert g _ cur OF)|].
      assert (Hni : cur ∉ L'). { destruct Ho as [Hnd _]. by apply list.NoDup_cons in Hnd as [? _]. }
      eapply IH; [exact HG1| | | |exact Ho1| |].
      + by eapply (alone_insert t g).
      + unfold pend. by rewrite Hph.
      + by rewrite Ha.
      + eapply holds_list_ext; [|split; [exact Hs|exact Hv]]. intros m Hm. apply Hrest. by intros ->.
      + simpl in Hf. lia.
  Qed.

  Lemma ucatch_ok {m0} o x g t te L vs :
    GI x g -> alone t g -> pend g t o -> spec (g_a g) o (SExn []) (g_a g) ->
    owns t g L -> built (s_heap x) te L vs -> uok m0 t o g (ucatch c x te).
  Proof.
    intros HG HA Hp Hsp Ho HB. destruct te as [[top bot]|]; simpl in HB; simpl.
    - destruct HB as (L' & -> & Hs & Hx & Hv). eapply uundo_ok; [done|done|done|done|done| |].
      + split; [|exact Hv]. apply seg_snoc. done.
      + apply size_dom_ge; [apply Ho|]. intros n Hn. apply Ho in Hn. by eapply gi_own_dom.
    - destruct HB as [-> ->]. apply uok_now; [done|by eapply alone_nohold|done|done].
  Qed.

  Lemma urange_ok pre vs x g t te L addrs thr :
    c_node_based c = true -> pre ++ vs <> [] ->
    GI x g -> alone t g -> pend g t (SURange (pre ++ vs)) ->
    owns t g L -> built (s_heap x) te L (reverse pre) ->
    uok (match thr with Some _ => 1 | None => 0 end) t (SURange (pre ++ vs)) g (urange c x vs (length pre) te addrs thr).
  Proof using Htag.
    intros Hnb. revert pre x g te L addrs. induction vs as [|v vs IH];
      intros pre x g te L addrs Hne HG HA Hp Ho HB; cbn [urange].
    - rewrite app_nil_r in *. destruct te as [[top bot]|]; simpl in HB.
      + destruct HB as (L' & -> & Hs & Hx & Hv). eapply uok_link; [done|done|done| |done|done|done].
        apply ss_urange.
      + destruct HB as [_ Hnil]. apply Hne. apply (f_equal reverse) in Hnil.
        by rewrite reverse_involutive in Hnil.
    - pose proof (ualloc_ok t x g L false (match addrs with a :: _ => a | [] => None end) HG Ho) as Hok.
      destruct (alloc_unsafe c None false (s_heap x) (s_pool x) _) as [h p a|h p n| | | |]; try done.
      + destruct Hok as (g1 & HG1 & Ho1 & (lk & Hn) & Hrest & Hl & Hph & Ha & Hown). rewrite Hn.
        assert (HA1 : alone t g1).
        { eapply (alone_insert t g); [done|exact Hown|congruence]. }
        assert (Hp1 : pend g1 t (SURange (pre ++ v :: vs))) by (unfold pend; by rewrite Hph).
        eapply (uok_ext _ _ g g1); [done|done|done|by apply (lossless_insert g _ n (OT t))|].
        destruct (decide (thr = Some (length pre))) as [->|_].
        * destruct (c_throws c) eqn:Hth; [|done].
          destruct (act_leak c _ g1 t [n] Hth HG1) as [HG2 _].
          { intros m Hm. apply elem_of_list_singleton in Hm as ->. apply Ho1. left. }
          match type of HG2 with StackInv.GI _ _ ?g2 => set (g2' := g2) in * end.
          apply (uok_leak _ _ g1 n). fold g2'.
          eapply (ucatch_ok _ _ g2' _ _ L); [done| |done|constructor| |].
          -- by eapply (alone_set t g1 g2' [n] OL).
          -- by eapply (owns_give t g1 g2' L n OL).
          -- simpl. eapply built_ext; [|exact HB]. done.
        * assert (Hon : g_own g1 !! n = Some (OT t)) by (apply Ho1; left).
          set (pp := match te with None => null | Some te => te.1 end).
          destruct (act_write c _ g1 t n (Node (pp, lk.2) (Some v)) HG1 Hon) as [HG2 _].
          assert (Hni : n ∉ L). { destruct Ho1 as [Hnd _]. by apply list.NoDup_cons in Hnd as [? _]. }
          rewrite cons_middle, app_assoc in Hp1, Hne |- *.
          replace (S (length pre)) with (length (pre ++ [v])) by (rewrite app_length; simpl; lia).
          eapply (IH (pre ++ [v]) _ g1 _ (n :: L)); [done|exact HG2|done|done|done|].
          rewrite reverse_snoc. set (h' := <[n := Node (pp, lk.2) (Some v)]> h).
          assert (HB' : built h' te L (reverse pre)).
          { eapply built_ext; [|exact HB]. intros m Hm. unfold h'.
            rewrite lookup_insert_ne; [by apply Hrest|]. by intros ->. }
          assert (Hlv : exists lk, h' !! n = Some (Node lk (Some v))).
          { eexists. unfold h'. by rewrite lookup_insert. }
          destruct te as [[top bot]|]; simpl in HB'.
          -- destruct HB' as (L' & HL & Hs & Hx & Hvs). subst L. exists (n :: L'). simpl.
             split; [done|]. split; [|split; [exact Hx|by constructor]].
             split; [done|]. exists top. split; [|exact Hs]. unfold h'. by rewrite nxp_insert.
          -- destruct HB' as [-> ->]. exists []. simpl. split; [done|]. split; [done|].
             split; [unfold h'; by rewrite nxp_insert|]. by repeat constructor.
      + destruct Hok as [?|?]; congruence.
      + eapply ucatch_ok; [done|done|done|constructor|done|done].
  Qed.

  Lemma upop_ok x g t (thr : bool) :
    GI x g -> nohold g -> pend g t SUPop -> uok (if thr then 1 else 0) t SUPop g (upop c x thr).
  Proof using Htag.
    intros HG HN Hp. unfold upop. destruct (decide ((s_tos x).1 = null)) as [Hn|Hn].
    - apply uok_now; [done|done|done|].
      apply (gi_tos_null c _ _ HG), (gi_a_nil c _ _ HG) in Hn as ->. constructor.
    - destruct (gi_tos_cons c _ _ HG Hn) as [l Hl].
      pose proof (gi_a _ _ _ HG) as HF. rewrite Hl in HF.
      apply Forall2_cons_inv_l in HF as (v & a' & (lk & Hlv) & _ & Ha'). rewrite Hlv.
      destruct thr.
      + destruct (c_throws c) eqn:Hth; [|done].
        destruct (act_pop c x g t SUPop (SExn [v]) lk.1 v (s_tos x).1 l (next_tag c (s_tos x).2)
                    HG Hp) as (a1 & Ha & HG1 & _); try done.
        { intros a. rewrite Hth. by constructor. }
        { by rewrite (nxp_Some _ _ _ Hlv). }
        { by exists lk. }
        { rewrite next_tag_succ by done. lia. }
        match type of HG1 with StackInv.GI _ _ ?g1 => set (g1' := g1) in * end.
        destruct (act_leak c _ g1' t [(s_tos x).1] Hth HG1) as [HG2 _].
        { intros m Hm. apply elem_of_list_singleton in Hm as ->. simpl. by rewrite lookup_insert. }
        match type of HG2 with StackInv.GI _ _ ?g2 => exists g2; set (g2' := g2) in * end.
        split; [exact HG2|]. split; [unfold fin; simpl; by rewrite lookup_insert|].
        split; [simpl; by rewrite erase_app, app_nil_r|].
        split; [intros t' Hne; simpl; by rewrite lookup_insert_ne|].
        assert (Ho1 : owns t g1' [(s_tos x).1]).
        { eapply (owns_insert t g g1' []); [apply HN|by apply not_elem_of_nil|done]. }
        split; [|split].
        * apply (alone_nohold t).
          -- eapply (alone_set t g1' g2' [(s_tos x).1] OL); [|done|done].
             eapply (alone_insert t g g1'); [intros t' _; apply HN|done|congruence].
          -- by eapply (owns_none t g1' g2' [(s_tos x).1] OL).
        * simpl. rewrite Ha. by constructor.
        * exists [(s_tos x).1]. split; [|simpl; lia]. intros m. simpl. rewrite !lookup_insert_Some.
          intros [[-> _]|[_ [[_ ?]|[_ ?]]]]; [right; left|done|by left].
      + destruct (act_pop c x g t SUPop (SGot (Some v)) lk.1 v (s_tos x).1 l (next_tag c (s_tos x).2)
                    HG Hp) as (a1 & Ha & HG1 & _); try done.
        { intros a. constructor. }
        { by rewrite (nxp_Some _ _ _ Hlv). }
        { by exists lk. }
        { rewrite next_tag_succ by done. lia. }
        match type of HG1 with StackInv.GI _ _ ?g1 => set (g1' := g1) in * end.
        assert (Ho1 : owns t g1' [(s_tos x).1]).
        { eapply (owns_insert t g g1' []); [apply HN|by apply not_elem_of_nil|done]. }
        destruct (ufree_ok _ g1' t _ _ _ _ HG1 Ho1 Hlv) as (g2 & Hd & HG2 & Ho2 & _ & Hl2 & Hph2 & Ha2 & Hown).
        simpl in Hd. rewrite Hd. exists g2. split; [exact HG2|].
        split; [unfold fin; rewrite Hph2; simpl; by rewrite lookup_insert|].
        split; [rewrite Hl2; simpl; by rewrite erase_app, app_nil_r|].
        split; [intros t' Hne; rewrite Hph2; simpl; by rewrite lookup_insert_ne|].
        split; [|split; [rewrite Ha2; simpl; rewrite Ha; constructor|]].
        2: { apply lossless_lossy. intros m. rewrite Hown. simpl. rewrite !lookup_insert_Some.
             intros [[_ ?]|[_ [[_ ?]|[_ ?]]]]; done. }
        apply (alone_nohold t); [|done].
        eapply (alone_insert t g1' g2); [|done|done].
        eapply (alone_insert t g g1'); [intros t' _; apply HN|done|congruence].
  Qed.

  Lemma ureserve_ok {m0} m n x g t addrs :
    GI x g -> nohold g -> pend g t (SUReserve m) -> uok m0 t (SUReserve m) g (ureserve c n x addrs).
  Proof using Htag.
    revert x g addrs. induction n as [|n IH]; intros x g addrs HG HN Hp; simpl.
    - apply uok_now; [done|done|done|]. constructor.
    - destruct addrs as [|[a|] addrs]; [done| |].
      + destruct (decide _) as [[Hf Hn]|]; [|done].
        rewrite (dealloc_unsafe_ok _ _ _ _ (lookup_insert _ _ _)). simpl.
        destruct (act_fresh c x g t a (Node (null, 0%N) None) HG Hf Hn) as (HG1 & _).
        match type of HG1 with StackInv.GI _ ?x1 ?g1 => set (x1' := x1) in *; set (g1' := g1) in * end.
        assert (Ho1 : g_own g1' !! a = Some (OT t)) by (simpl; by rewrite lookup_insert).
        destruct (act_write c x1' g1' t a (Node ((s_pool x).1, 0%N) None) HG1 Ho1) as [HG2 _].
        match type of HG2 with StackInv.GI _ ?x2 _ => set (x2' := x2) in * end.
        destruct (act_pool_push c x2' g1' t a HG2 Ho1) as [HG3 _].
        { eexists. simpl. by rewrite lookup_insert. }
        { simpl. by rewrite nxp_insert. }
        match type of HG3 with StackInv.GI _ _ ?g3 => set (g3' := g3) in * end.
        eapply (uok_ext _ _ g g3'); [done|done|done| |].
        { intros b0. simpl. rewrite !lookup_insert_Some. intros [[_ ?]|[_ [[_ ?]|[_ ?]]]]; done. }
        eapply IH; [exact HG3| |done].
        intros t'. split; [constructor|]. intros b. simpl. rewrite !lookup_insert_Some.
        split; [|intros Hb; by apply elem_of_nil in Hb].
        intros [[_ ?]|[? [[? ?]|[_ Hm]]]]; [done|done|]. by apply HN in Hm.
      + apply uok_now; [done|done|done|]. constructor.
  Qed.

  Lemma ucall_ok x g t o addrs thr :
    nonempty_op o -> GI x g -> nohold g -> pend g t o -> uok (match thr with Some _ => 1 | None => 0 end) t o g (ucall c x o addrs thr).
  Proof using Htag.
    intros Hne HG HN Hp. destruct o as [b v|b vs| |rev| |n|v|vs| |n]; simpl; try done.
    - pose proof (upush_ok x g t v (match addrs with a :: _ => a | [] => None end)
                    (bool_decide (is_Some thr)) HG HN Hp) as H. by destruct thr.
    - destruct (c_node_based c) eqn:Hnb; [|done].
      apply (urange_ok [] vs x g t None [] addrs thr); try done. by intros t' _.
    - pose proof (upop_ok x g t (bool_decide (is_Some thr)) HG HN Hp) as H. by destruct thr.
    - destruct (c_node_based c); [|done]. by apply ureserve_ok.
  Qed.

  (** ** Every step preserves the invariant and is free of undefined behaviour *)

  Lemma sstart_ok x g t o pc :
    sstart c o = Some pc -> nonempty_op o -> owns t g [] -> pend g t o -> tinv t pc x g.
  Proof.
    intros Hs Hne Ho Hp.
    destruct o as [b v|b vs| |rev| |n|v|vs| |n]; simpl in Hs; try done;
      try (destruct (c_node_based c) eqn:Hnb; [|done]); injection Hs as <-; simpl; try done.
    split; [done|]. by exists n.
  Qed.

  Lemma ustep_ok s g t o addrs thr :
    nonempty_op o -> Inv s g -> s_pcs s = ∅ ->
    match ucall c (s_sh s) o addrs thr with
    | UDone x' r => exists g', Inv (SSt x' ∅) g' /\
        erase (g_l g') = erase (g_l g) ++ [Lin.Inv t o; Res t r] /\ spec (g_a g) o r (g_a g') /\
        lossy (Some (match thr with Some _ => 1 | None => 0 end)) g g'
    | UUB => False
    | UDisabled => True
    end.
  Proof using Htag.
    intros Hne [HG HT] Hemp.
    assert (Hn : forall t', g_ph g !! t' = None).
    { intros t'. pose proof (HT t') as Ht'. rewrite Hemp, lookup_empty in Ht'. apply Ht'. }
    assert (HN : nohold g).
    { intros t'. pose proof (HT t') as Ht'. rewrite Hemp, lookup_empty in Ht'. apply Ht'. }
    destruct (act_inv c _ _ _ o HG (Hn t)) as [HG1 _].
    match type of HG1 with StackInv.GI _ _ ?g1 => set (g1' := g1) in * end.
    pose proof (ucall_ok _ _ t o addrs thr Hne HG1 HN) as Hok.
    destruct (ucall c (s_sh s) o addrs thr) as [x' r| |].
    - destruct Hok as (g2 & HG2 & Hd & Hl & Hph & HN2 & Hsp & HK); [unfold pend; simpl; by rewrite lookup_insert|].
      destruct (act_res c _ _ _ _ _ HG2 Hd) as [HG3 _].
      eexists. split; [split; [exact HG3|]|split].
      + intros t'. simpl. rewrite lookup_empty. split; [|by apply HN2].
        destruct (decide (t = t')) as [<-|Hne'].
        * by rewrite lookup_delete.
        * rewrite lookup_delete_ne by done. rewrite Hph by done. simpl.
          by rewrite lookup_insert_ne.
      + simpl. rewrite erase_app, Hl. simpl. rewrite erase_app. by rewrite <- app_assoc.
      + done.
    - apply Hok. unfold pend. simpl. by rewrite lookup_insert.
    - done.
  Qed.

  (** How a step changes the state of its call and the contents. *)
  Definition change (ch : schoice) (s s' : sstate) (g g' : ghost) : Prop :=
    match ch with
    | Invoke t o => pend g' t o /\ g_a g' = g_a g
    | Run t _ _ _ =>
        (is_Some (s_pcs s' !! t) /\ trans c t g g') \/ (s_pcs s' !! t = None /\ g_a g' = g_a g)
    | Unsync t o _ _ => exists r, spec (g_a g) o r (g_a g')
    end.

  (** How many nodes a step may lose. *)
  Definition loss (ch : schoice) (s : sstate) (g g' : ghost) : Prop :=
    match ch with
    | Invoke _ _ => lossless g g'
    | Run t _ _ thr => match s_pcs s !! t with Some pc => lossy (cost pc thr) g g' | None => True end
    | Unsync _ _ _ thr => lossy (Some (match thr with Some _ => 1 | None => 0 end)) g g'
    end.

  Lemma sstep_ok s g ch :
    ch_ok ch -> Inv s g ->
    match sstep c s ch with
    | SUB => False
    | SDisabled => True
    | SNext s' evs => exists g', Inv s' g' /\ erase (g_l g') = erase (g_l g) ++ evs /\
        change ch s s' g g' /\
        (forall t pc, s_pcs s !! t = Some pc -> ch_thread ch <> t ->
           s_pcs s' !! t = Some pc /\ rely t (s_sh s) g (s_sh s') g') /\
        loss ch s g g'
    end.
  Proof using Htag.
    intros Hch [HG HT]. destruct ch as [t o|t sp addr thr|t o addrs thr]; simpl.
    - pose proof (HT t) as Ht. destruct (s_pcs s !! t) as [pc|] eqn:Hpc; [done|].
      destruct (sstart c o) as [pc|] eqn:Hs; [|done].
      destruct Ht as [Ht HN]. destruct (act_inv c _ _ _ o HG Ht) as [HG' R].
      eexists. split; [split; [exact HG'|]|split; [simpl; by rewrite erase_app|split]];
        [|unfold pend; simpl; by rewrite lookup_insert|
          split; [|exact (lossless_refl g)];
          intros t' pc' Hpc' Hne; simpl; rewrite lookup_insert_ne by done; split; [done|by apply R]].
      intros t'. simpl. destruct (decide (t = t')) as [<-|Hne].
      + rewrite lookup_insert. eapply sstart_ok; [done|done|done|]. unfold pend. simpl. by rewrite lookup_insert.
      + rewrite lookup_insert_ne by done. pose proof (HT t') as Ht'.
        destruct (s_pcs s !! t') as [pc'|]; [|by rewrite lookup_insert_ne].
        eapply tinv_stable; [exact (R t' ltac:(done))|done].
    - pose proof (HT t) as Ht. destruct (s_pcs s !! t) as [pc|] eqn:Hpc; [|done].
      assert (Hret : forall r, pc = PcRet r ->
        exists g', Inv (SSt (s_sh s) (delete t (s_pcs s))) g' /\
          erase (g_l g') = erase (g_l g) ++ [Res t r] /\
          ((is_Some (delete t (s_pcs s) !! t) /\ trans c t g g') \/
           (delete t (s_pcs s) !! t = None /\ g_a g' = g_a g)) /\
          (forall t' pc', s_pcs s !! t' = Some pc' -> t <> t' ->
             delete t (s_pcs s) !! t' = Some pc' /\ rely t' (s_sh s) g (s_sh s) g') /\
          lossy (cost pc thr) g g').
      { intros r ->. destruct Ht as [HH [o Ho]]. destruct (act_res c _ _ _ _ _ HG Ho) as [HG' R].
        eexists. split; [split; [exact HG'|]|split; [simpl; by rewrite erase_app|split]];
          [|right; by rewrite lookup_delete|
            split; [|exact (lossless_lossy _ g g (lossless_refl g))]; intros t' pc' Hpc' Hne; rewrite lookup_delete_ne by done; split; [done|by apply R]].
        intros t'. simpl. destruct (decide (t = t')) as [<-|Hne].
        - rewrite lookup_delete. simpl. rewrite lookup_delete. done.
        - rewrite lookup_delete_ne by done. pose proof (HT t') as Ht'.
          destruct (s_pcs s !! t') as [pc'|]; [|by simpl; rewrite lookup_delete_ne].
          eapply tinv_stable; [exact (R t' ltac:(done))|done]. }
      assert (Hgo : (forall r, pc <> PcRet r) ->
        match (match tstep c (s_sh s) pc sp addr thr with
               | TGo x pc' => SNext (SSt x (<[t := pc']> (s_pcs s))) []
               | TUB => SUB
               | TDisabled => SDisabled
               end) with
        | SUB => False
        | SDisabled => True
        | SNext s' evs => exists g', Inv s' g' /\ erase (g_l g') = erase (g_l g) ++ evs /\
            ((is_Some (s_pcs s' !! t) /\ trans c t g g') \/ (s_pcs s' !! t = None /\ g_a g' = g_a g)) /\
            (forall t' pc', s_pcs s !! t' = Some pc' -> t <> t' ->
               s_pcs s' !! t' = Some pc' /\ rely t' (s_sh s) g (s_sh s') g') /\
            lossy (cost pc thr) g g'
        end).
      { intros _. pose proof (tstep_ok c Htag t _ _ _ sp addr thr HG Ht) as Hok.
        destruct (tstep c (s_sh s) pc sp addr thr) as [x' pc'| |]; [|done..].
        destruct Hok as (g' & HG' & HT' & He & R & Htr & HK). exists g'.
        split; [split; [done|]|split; [by rewrite app_nil_r|split]];
          [|left; simpl; by rewrite lookup_insert|split; [|exact HK]; intros t' pc'' Hpc' Hne; simpl; rewrite lookup_insert_ne by done; split; [done|by apply R]].
        intros t'. simpl. destruct (decide (t = t')) as [<-|Hne].
        - by rewrite lookup_insert.
        - rewrite lookup_insert_ne by done. pose proof (HT t') as Ht'.
          pose proof (R t' ltac:(done)) as Rt.
          destruct (s_pcs s !! t') as [pc''|].
          + eapply tinv_stable; [exact Rt|done].
          + rewrite (rl_ph _ _ _ _ _ Rt). destruct Ht' as [Ht' HN].
            split; [done|]. by eapply owns_stable. }
      destruct pc; try (apply Hgo; by intros ?). by apply Hret.
    - destruct (decide (s_pcs s = ∅)) as [Hemp|]; [|done].
      pose proof (ustep_ok s g t o addrs thr Hch (conj HG HT) Hemp) as Hok.
      destruct (ucall c (s_sh s) o addrs thr) as [x' r| |]; [|done..].
      destruct Hok as (g' & HI' & He & Hsp & HK). exists g'. split; [done|]. split; [done|].
      split; [by exists r|]. split; [|done]. intros t' pc' Hpc'. by rewrite Hemp, lookup_empty in Hpc'.
  Qed.

  Lemma hist_ok_app h1 h2 : hist_ok (h1 ++ h2) <-> hist_ok h1 /\ hist_ok h2.
  Proof.
    unfold hist_ok. split.
    - intros H. split; intros t o Hi; apply (H t); apply elem_of_app; auto.
    - intros [H1 H2] t o Hi. apply elem_of_app in Hi as [Hi|Hi]; [by eapply H1|by eapply H2].
  Qed.

  Lemma sstep_evs s ch s' evs :
    sstep c s ch = SNext s' evs -> (ch_ok ch <-> hist_ok evs).
  Proof.
    unfold hist_ok. destruct ch as [t o|t sp addr thr|t o addrs thr]; simpl.
    - destruct (s_pcs s !! t), (sstart c o); try done. intros [= <- <-]. split.
      + intros Hok t' o' Hi. apply elem_of_list_singleton in Hi. by inversion Hi; subst.
      + intros H. apply (H t). left.
    - intros Hs. split; [|done]. intros _ t' o' Hi. exfalso. revert Hs.
      destruct (s_pcs s !! t) as [pc|]; [|done].
      assert (Hn : forall xs pcs, SNext xs pcs = SNext s' evs -> Lin.Inv t' o' ∈ pcs -> Lin.Inv t' o' ∈ evs).
      { by intros xs pcs [= _ <-]. }
      assert (Hgo : match tstep c (s_sh s) pc sp addr thr with
               | TGo x pc' => SNext (SSt x (<[t := pc']> (s_pcs s))) []
               | TUB => SUB
               | TDisabled => SDisabled
               end <> SNext s' evs).
      { destruct (tstep _ _ _ _ _ _); try done. intros [= _ He]. subst evs. by apply elem_of_nil in Hi. }
      destruct pc; try done. intros [= _ He]. subst evs. apply elem_of_list_singleton in Hi. done.
    - destruct (decide _); [|done]. destruct (ucall _ _ _ _ _) as [x r| |]; try done.
      intros [= <- <-]. split.
      + intros Hok t' o' Hi. apply elem_of_cons in Hi as [Hi|Hi]; [by inversion Hi; subst|].
        apply elem_of_list_singleton in Hi. done.
      + intros H. apply (H t). left.
  Qed.

  Lemma sexec_ok s0 g0 hist s :
    Inv s0 g0 -> erase (g_l g0) = [] -> sexec c s0 hist s -> hist_ok hist ->
    exists g, Inv s g /\ erase (g_l g) = hist.
  Proof using Htag.
    intros HI Hl. induction 1 as [|hist s ch s' evs He IH Hs]; intros Hok.
    - by exists g0.
    - apply hist_ok_app in Hok as [Hok1 Hok2]. destruct (IH Hok1) as (g & HI' & Hl').
      pose proof (sstep_ok _ _ ch (proj2 (sstep_evs _ _ _ _ Hs) Hok2) HI') as Hst. rewrite Hs in Hst.
      destruct Hst as (g' & HI'' & Hl'' & _). exists g'. split; [done|]. by rewrite Hl'', Hl'.
  Qed.

  (** ** The constructors establish the invariant *)

  Lemma sinit_ok ns :
    NoDup ns -> null ∉ ns -> 
    exists g, Inv (sinit c ns) g /\ g_l g = [] /\ g_a g = [] /\ forall n, g_own g !! n <> Some OL.
  Proof.
    intros Hnd Hnn. unfold sinit.
    destruct (pool_add_ok c (None : option N) ns ∅ (null, 0%N) ∅ [] (PI_empty c 0%N) Hnd)
      as (own & HP & Ht & Ho & Hd & Hr).
    { intros n Hn. split; [by rewrite lookup_empty|]. by intros ->. }
    unfold pool_init. destruct (pool_add (None : option N) ns ∅ (null, 0%N)) as [h p]. simpl in *.
    rewrite app_nil_r in HP.
    assert (HF : forall n o, own !! n = Some o -> n ∈ ns /\ o = OF).
    { intros n o. rewrite Ho. destruct (decide _); [intros [= <-]; done|]. by rewrite lookup_empty. }
    exists (Gh own [] (reverse ns) [] ∅ []).
    split; [|split; [done|split; [done|intros n Hn; by apply HF in Hn as [_ ?]]]]. split.
    - split; simpl; try done.
      + constructor.
      + intros n. split; [intros Hn; by apply elem_of_nil in Hn|]. intros Hn. by apply HF in Hn as [_ ?].
      + constructor.
      + intros n Hn. apply HF in Hn as [Hn _]. destruct (Hd n Hn) as [y Hy]. by eexists.
      + intros _ n Hn. by apply HF in Hn as [_ ?].
      + constructor.
    - intros t. simpl. rewrite !lookup_empty. split; [done|]. split; [constructor|].
      intros n. split; [|intros Hn; by apply elem_of_nil in Hn]. intros Hn. by apply HF in Hn as [_ ?].
  Qed.
End safe.
