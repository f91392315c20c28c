(** * Lifetimes of the elements *)
From stdpp Require Import gmap list numbers.
From Verif Require Import Lin SpscModel SpscSpec SpscArith SpscInv SpscStep SpscSafe SpscObs SpscWin SpscSeq.

Set Default Proof Using "Type".

Section life.
  Context {V : Type} (c : xcfg).
  Notation M := (x_max c).
  Implicit Types (g : xghost V) (s : xstate V).

  Ltac hsplit Hs := repeat match type of Hs with context [match ?x with _ => _ end] => destruct x eqn:? end.

  Definition cnt (P : xrec V -> bool) (w : list (xrec V)) : nat := length (List.filter P w).
  Lemma cnt_app P w1 w2 : cnt P (w1 ++ w2) = cnt P w1 + cnt P w2.
  Proof. unfold cnt. by rewrite List.filter_app, app_length. Qed.
  Lemma cnt_one P x : cnt P [x] = if P x then 1 else 0.
  Proof. unfold cnt. simpl. by destruct (P x). Qed.

  Definition al (sl : gmap N (slot V)) (i : N) : nat := match s_val (slot_at sl i) with Some _ => 1 | None => 0 end.
  Lemma al_insert sl j x i : al (<[j := x]> sl) i = if (j =? i)%N then (match s_val x with Some _ => 1 | None => 0 end) else al sl i.
  Proof.
    unfold al. rewrite slot_insert. destruct (decide (j = i)) as [->|Hn]; [by rewrite N.eqb_refl|].
    by rewrite (proj2 (N.eqb_neq _ _) Hn).
  Qed.

  Lemma acc_p_val sl (h : thread V) v y h' : acc_p sl h v = Some (y, h') -> s_val y = v.
  Proof. unfold acc_p. destruct (decide _); [|done]. by intros [= <- <-]. Qed.
  Lemma acc_c_val wr sl (h : thread V) v y h' : acc_c wr sl h v = Some (y, h') -> s_val y = v.
  Proof. unfold acc_c. destruct (decide _); [|done]. by intros [= <- <-]. Qed.

  (** Slots outside the buffer are not used. *)
  Definition inb (sl : gmap N (slot V)) : Prop := forall i, (M <= i)%N -> s_val (slot_at sl i) = None.
  Lemma inb_insert sl i x : inb sl -> (i < M)%N \/ s_val x = None -> inb (<[i := x]> sl).
  Proof.
    intros H Hi j Hj. rewrite slot_insert. destruct (decide _) as [->|]; [|by apply H].
    destruct Hi as [?|?]; [lia|done].
  Qed.

  (** Every step: an object begins to live by construction and ends by destruction. *)
  Ltac vals :=
    repeat match goal with
    | H : acc_p _ _ _ = Some _ |- _ => apply acc_p_val in H
    | H : acc_c _ _ _ _ = Some _ |- _ => apply acc_c_val in H
    end.

  Ltac fin i :=
    vals; rewrite ?al_insert;
    try match goal with |- context [(?a =? i)%N] => destruct (N.eqb_spec a i) as [<-|] end;
    unfold al; repeat match goal with H : s_val _ = _ |- _ => rewrite H in * end; lia.

  Lemma step_life s ch s' evs i :
    x_triv c = false -> xstep c s ch = XNext s' evs ->
    al (x_slots s') i + (if destroys i (XRec s ch s') then 1 else 0) =
    al (x_slots s) i + (if constructs i (XRec s ch s') then 1 else 0).
  Proof.
    intros Ht Hs. unfold xstep in Hs. destruct (x_dead s); [done|]. unfold constructs, destroys. simpl.
    destruct ch as [[] o|[] k thr|]; simpl.
    - hsplit Hs; simplify_eq/=; done.
    - hsplit Hs; simplify_eq/=; done.
    - destruct (t_pc (x_prod s)) as [pc|]; [|done].
      destruct pc; unfold pstep, estep, construct in Hs; simpl in Hs; hsplit Hs; simplify_eq/=; try done; try lia;
        try (by destruct thr).
      all: try (replace (if thr then false else false) with false by (by destruct thr)).
      + fin i.
      + fin i.
      + rewrite (proj2 (N.ltb_ge _ _)) by done. done.
      + rewrite (proj2 (N.ltb_lt _ _)) by lia. cbn [andb]. fin i.
    - destruct (t_pc (x_cons s)) as [pc|]; [|done].
      destruct pc; unfold cstep, estep, consume, destroy in Hs; simpl in Hs; hsplit Hs; simplify_eq/=; try done; try lia;
      fin i.
    - hsplit Hs; simplify_eq/=; done.
  Qed.

  Lemma step_inb s ch s' evs : xstep c s ch = XNext s' evs -> inb (x_slots s) -> inb (x_slots s').
  Proof.
    intros Hs Hi. unfold xstep in Hs. destruct (x_dead s); [done|].
    destruct ch as [[] o|[] k thr|]; simpl.
    - hsplit Hs; simplify_eq/=; done.
    - hsplit Hs; simplify_eq/=; done.
    - destruct (t_pc (x_prod s)) as [pc|]; [|done].
      destruct pc; unfold pstep, estep, construct in Hs; simpl in Hs; hsplit Hs; simplify_eq/=; try done;
      vals; (apply inb_insert; [done|]); ((by right) || (left; lia)).
    - destruct (t_pc (x_cons s)) as [pc|]; [|done].
      destruct pc; unfold cstep, estep, consume, destroy in Hs; simpl in Hs; hsplit Hs; simplify_eq/=; try done;
      vals; (apply inb_insert; [done|]); ((by right) || (left; lia)).
    - hsplit Hs; simplify_eq/=; done.
  Qed.

  Lemma life_balance w h s i :
    x_triv c = false -> xsteps c xinit w h s ->
    cnt (constructs i) w = cnt (destroys i) w + (if alive s i then 1 else 0).
  Proof.
    intros Ht. induction 1 as [|w h s ch s' evs _ IH Hs]; [done|].
    rewrite !cnt_app, !cnt_one. pose proof (step_life _ _ _ _ i Ht Hs) as Hl.
    assert (Hal : forall s, al (x_slots s) i = if alive s i then 1 else 0).
    { intros s2. unfold al, alive. by destruct (s_val _). }
    rewrite !Hal in Hl. lia.
  Qed.

  Lemma inb_all w h s : xsteps c xinit w h s -> inb (x_slots s).
  Proof.
    induction 1 as [|w h s ch s' evs _ IH Hs]; [|by eapply step_inb].
    intros i _. simpl. unfold slot_at. by rewrite lookup_empty.
  Qed.

  Lemma mod_reach a i : (i < M)%N -> exists j, (j < M)%N /\ i = ((a + j) mod M)%N.
  Proof.
    intros Hi. pose proof (N.mod_lt a M ltac:(lia)) as Hr. pose proof (N.le_0_l (a mod M)) as Hr0.
    destruct (N.le_gt_cases (a mod M) i).
    - exists (i - a mod M)%N. split; [lia|].
      destruct (mod_lt_add M a (i - a mod M)) as [[? ->]|[? ->]]; lia.
    - exists (i + M - a mod M)%N. split; [lia|].
      destruct (mod_lt_add M a (i + M - a mod M)) as [[? ->]|[? ->]]; lia.
  Qed.

  Lemma none_alive s g :
    x_triv c = false -> Inv c s g -> inb (x_slots s) -> g_q g = [] -> g_up g = [] -> g_ac g = 0 ->
    forall i, alive s i = false.
  Proof.
    intros Ht HI Hb Hq Hu Ha i. unfold alive. destruct (decide (M <= i)%N) as [Hi|Hi]; [by rewrite Hb|].
    destruct HI as [HG _]. pose proof (gi_si _ _ _ _ _ _ _ HG) as HS.
    pose proof (si_none _ _ _ _ _ _ _ HS Ht) as Hn. rewrite Hq, Hu, Ha in Hn. simpl in Hn.
    assert (exists j, (j < M)%N /\ i = ((g_nc g + j) mod M)%N) as (j & Hj & ->).
    { apply mod_reach. lia. }
    specialize (Hn (N.to_nat j) ltac:(lia) ltac:(lia)). rewrite N2Nat.id in Hn. by rewrite Hn.
  Qed.

  Lemma quiet_alive s g i :
    x_triv c = false -> Inv c s g -> inb (x_slots s) -> g_up g = [] -> g_ac g = 0 ->
    alive s i = true <-> exists j, j < length (g_q g) /\ i = ((g_nc g + N.of_nat j) mod M)%N.
  Proof.
    intros Ht HI Hb Hu Ha. unfold alive. destruct HI as [HG _]. pose proof (gi_si _ _ _ _ _ _ _ HG) as HS.
    pose proof (wi_M _ _ _ _ _ _ (gi_wi _ _ _ _ _ _ _ HG)) as HM0.
    pose proof (si_none _ _ _ _ _ _ _ HS Ht) as Hn. pose proof (si_vals _ _ _ _ _ _ _ HS) as Hv.
    rewrite Hu, Ha, app_nil_r in Hn. rewrite Hu, Ha, app_nil_r in Hv. split.
    - intros Hal. destruct (decide (M <= i)%N) as [Hi|Hi]; [by rewrite Hb in Hal|].
      assert (exists j, (j < M)%N /\ i = ((g_nc g + j) mod M)%N) as (j & Hj & ->).
      { apply mod_reach. lia. }
      exists (N.to_nat j). rewrite N2Nat.id. split; [|done].
      destruct (decide (N.to_nat j < length (g_q g))) as [|Hge]; [done|].
      specialize (Hn (N.to_nat j) ltac:(lia) ltac:(lia)). rewrite N2Nat.id in Hn. by rewrite Hn in Hal.
    - intros (j & Hj & ->). destruct (lookup_lt_is_Some_2 _ _ Hj) as [x Hx]. by rewrite (Hv j x ltac:(lia) Hx).
  Qed.

  (** Only reset and the destructor return nothing. *)
  Lemma lruns_unit sc cap l ph (a : aq V) t o :
    lruns (xspec cap sc) ∅ xs_init l ph a -> ph !! t = Some (Done o RUnit) -> o = OReset \/ o = ODestroy.
  Proof.
    intros H. revert t o. induction H as [|l ph a u o' H IH Hph|l ph a u o' r a' H IH Hph Hs|l ph a u o' r H IH Hph];
      intros t o Hp.
    - by rewrite lookup_empty in Hp.
    - destruct (decide (u = t)) as [->|Hne]; [by rewrite lookup_insert in Hp|].
      rewrite lookup_insert_ne in Hp by done. by eapply IH.
    - destruct (decide (u = t)) as [->|Hne].
      + rewrite lookup_insert in Hp. injection Hp as -> ->. inversion Hs; by subst.
      + rewrite lookup_insert_ne in Hp by done. by eapply IH.
    - destruct (decide (u = t)) as [->|Hne]; [by rewrite lookup_delete in Hp|].
      rewrite lookup_delete_ne in Hp by done. by eapply IH.
  Qed.

  (** When reset or the destructor returns, or after destruction, nothing is left. *)
  Lemma end_none w h s g :
    x_triv c = false -> Inv c s g -> xsteps c xinit w h s ->
    x_dead s = true \/ t_pc (x_cons s) = Some (XRet RUnit) -> forall i, alive s i = false.
  Proof.
    intros Ht HI H He. pose proof HI as (HG & HI'). pose proof (inb_all _ _ _ H) as Hb.
    destruct (x_dead s) eqn:Hd.
    - destruct HI' as (? & ? & ?). by eapply none_alive.
    - destruct He as [?|He]; [done|]. rewrite He in HI'. destruct HI' as (HP & HC & HX).
      destruct HC as (Ha & (o & Hp & _ & Hxo) & Hq).
      assert (Hne : x_excl s <> None).
      { rewrite Hxo. destruct (lruns_unit _ _ _ _ _ _ _ (gi_run _ _ _ _ _ _ _ HG) Hp) as [->| ->]; done. }
      destruct (HX Hne) as [Hpp _]. rewrite Hpp in HP. destruct HP as [_ Hu].
      eapply none_alive; try done. by apply Hq.
  Qed.
End life.
