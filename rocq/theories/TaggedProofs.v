From Coq Require Import NArith Lia Bool.
From Verif Require Import TaggedModel.
Local Open Scope N_scope.

(** ** Packing as arithmetic *)

Lemma ones_48 : ptr_mask = N.ones 48. Proof. reflexivity. Qed.
Lemma ones_16 : 0xffff = N.ones 16. Proof. reflexivity. Qed.

Lemma extract_ptr_mod v : extract_ptr v = v mod 2 ^ 48.
Proof. unfold extract_ptr. rewrite ones_48. apply N.land_ones. Qed.

Lemma extract_tag_le v : extract_tag LittleEndian v = (v / 2 ^ 48) mod 2 ^ 16.
Proof.
  unfold extract_tag, get_half. change (half_shift LittleEndian tag_index) with 48.
  rewrite ones_16, N.land_ones, N.shiftr_div_pow2. reflexivity.
Qed.

Lemma testbit_small x n k : x < 2 ^ n -> n <= k -> N.testbit x k = false.
Proof.
  intros Hx Hk. destruct (N.eq_dec x 0) as [->|Hx0]; [apply N.bits_0|].
  apply N.bits_above_log2. apply N.log2_lt_pow2; [lia|].
  eapply N.lt_le_trans; [exact Hx|]. apply N.pow_le_mono_r; lia.
Qed.

Lemma pack_ptr_le p t : p < 2 ^ 64 -> pack_ptr LittleEndian p t = p mod 2 ^ 48 + t * 2 ^ 48.
Proof.
  intros Hp. unfold pack_ptr, set_half. change (half_shift LittleEndian tag_index) with 48.
  rewrite <- N.shiftl_mul_pow2.
  assert (Hld : N.ldiff p (N.shiftl 65535 48) = p mod 2 ^ 48).
  { apply N.bits_inj. intros k. rewrite N.ldiff_spec.
    destruct (N.lt_ge_cases k 48) as [Hk|Hk].
    - rewrite N.shiftl_spec_low by exact Hk. simpl negb. rewrite andb_true_r.
      rewrite N.mod_pow2_bits_low by exact Hk. reflexivity.
    - rewrite N.mod_pow2_bits_high by exact Hk.
      destruct (N.lt_ge_cases k 64) as [Hk2|Hk2].
      + rewrite N.shiftl_spec_high' by exact Hk.
        rewrite ones_16, N.ones_spec_low by lia. apply andb_false_r.
      + rewrite (testbit_small p 64) by assumption. reflexivity. }
  rewrite Hld. symmetry. rewrite <- N.lxor_lor, N.add_nocarry_lxor; [reflexivity| |];
  apply N.bits_inj; intros k; rewrite N.land_spec, N.bits_0;
    (destruct (N.lt_ge_cases k 48) as [Hk|Hk];
     [rewrite N.shiftl_spec_low by exact Hk; apply andb_false_r
     |rewrite N.mod_pow2_bits_high by exact Hk; reflexivity]).
Qed.

Lemma pack_small p t : p < 2 ^ 48 -> pack_ptr LittleEndian p t = p + t * 2 ^ 48.
Proof.
  intros Hp. rewrite pack_ptr_le.
  - rewrite N.mod_small by exact Hp. reflexivity.
  - eapply N.lt_trans; [exact Hp|]. apply N.pow_lt_mono_r; lia.
Qed.

Lemma get_ptr_pack p t : p < 2 ^ 48 -> cptr_get_ptr (cptr_make LittleEndian p t) = p.
Proof.
  intros Hp. unfold cptr_get_ptr, cptr_make. rewrite extract_ptr_mod, pack_small by exact Hp.
  rewrite N.mod_add by (apply N.pow_nonzero; lia). apply N.mod_small, Hp.
Qed.

Lemma get_tag_pack p t : p < 2 ^ 48 -> t < 2 ^ 16 ->
  cptr_get_tag LittleEndian (cptr_make LittleEndian p t) = t.
Proof.
  intros Hp Ht. unfold cptr_get_tag, cptr_make. rewrite extract_tag_le, pack_small by exact Hp.
  rewrite N.div_add by (apply N.pow_nonzero; lia). rewrite (N.div_small p) by exact Hp.
  apply N.mod_small, Ht.
Qed.

Lemma make_range p t : p < 2 ^ 48 -> t < 2 ^ 16 -> cptr_make LittleEndian p t < 2 ^ 64.
Proof.
  intros Hp Ht. unfold cptr_make. rewrite pack_small by exact Hp.
  change (2 ^ 64) with (2 ^ 16 * 2 ^ 48). nia.
Qed.

Lemma ptr_range v : cptr_get_ptr v < 2 ^ 48.
Proof.
  unfold cptr_get_ptr. rewrite extract_ptr_mod. apply N.mod_lt, N.pow_nonzero. lia.
Qed.

Lemma tag_range v : cptr_get_tag LittleEndian v < 2 ^ 16.
Proof.
  unfold cptr_get_tag. rewrite extract_tag_le. apply N.mod_lt, N.pow_nonzero. lia.
Qed.

Lemma make_eta v : v < 2 ^ 64 ->
  cptr_make LittleEndian (cptr_get_ptr v) (cptr_get_tag LittleEndian v) = v.
Proof.
  intros Hv. pose proof (ptr_range v) as Hp. unfold cptr_make. rewrite pack_small by exact Hp.
  unfold cptr_get_tag, cptr_get_ptr. rewrite extract_tag_le, extract_ptr_mod.
  rewrite (N.mod_small (v / 2 ^ 48)).
  - rewrite N.add_comm, N.mul_comm. symmetry. apply N.div_mod, N.pow_nonzero. lia.
  - apply N.div_lt_upper_bound; [apply N.pow_nonzero; lia|].
    change (2 ^ 48 * 2 ^ 16) with (2 ^ 64). exact Hv.
Qed.

Lemma compressed_lossless :
  (forall p t, p < 2 ^ 48 -> t < 2 ^ 16 ->
     cptr_make LittleEndian p t < 2 ^ 64 /\
     cptr_get_ptr (cptr_make LittleEndian p t) = p /\
     cptr_get_tag LittleEndian (cptr_make LittleEndian p t) = t) /\
  (forall v q, v < 2 ^ 64 -> q < 2 ^ 48 ->
     cptr_get_ptr (cptr_set_ptr LittleEndian v q) = q /\
     cptr_get_tag LittleEndian (cptr_set_ptr LittleEndian v q) = cptr_get_tag LittleEndian v) /\
  (forall v t, v < 2 ^ 64 -> t < 2 ^ 16 ->
     cptr_get_tag LittleEndian (cptr_set_tag LittleEndian v t) = t /\
     cptr_get_ptr (cptr_set_tag LittleEndian v t) = cptr_get_ptr v) /\
  (forall v w, v < 2 ^ 64 -> w < 2 ^ 64 ->
     cptr_eqb v w = true <->
     cptr_get_ptr v = cptr_get_ptr w /\ cptr_get_tag LittleEndian v = cptr_get_tag LittleEndian w) /\
  (forall p t, p < 2 ^ 48 -> t < 2 ^ 16 ->
     (cptr_bool (cptr_make LittleEndian p t) = true <-> p <> 0)).
Proof.
  repeat apply conj.
  - intros p t Hp Ht. split; [apply make_range; assumption|].
    split; [apply get_ptr_pack; assumption|apply get_tag_pack; assumption].
  - intros v q Hv Hq. unfold cptr_set_ptr. split.
    + apply get_ptr_pack, Hq.
    + apply get_tag_pack; [exact Hq|apply tag_range].
  - intros v t Hv Ht. unfold cptr_set_tag. split.
    + apply get_tag_pack; [apply ptr_range|exact Ht].
    + apply get_ptr_pack, ptr_range.
  - intros v w Hv Hw. unfold cptr_eqb. rewrite N.eqb_eq. split.
    + intros ->. split; reflexivity.
    + intros [Hp Ht]. rewrite <- (make_eta v Hv), <- (make_eta w Hw), Hp, Ht. reflexivity.
  - intros p t Hp Ht. unfold cptr_bool. rewrite get_ptr_pack by exact Hp.
    rewrite negb_true_iff, N.eqb_neq. reflexivity.
Qed.

Lemma plain_lossless :
  (forall p t, dptr_ptr (Dptr p t) = p /\ dptr_tag (Dptr p t) = t) /\
  (forall a q, dptr_ptr (dptr_set_ptr a q) = q /\ dptr_tag (dptr_set_ptr a q) = dptr_tag a) /\
  (forall a t, dptr_tag (dptr_set_tag a t) = t /\ dptr_ptr (dptr_set_tag a t) = dptr_ptr a) /\
  (forall a b, dptr_eqb a b = true <-> dptr_ptr a = dptr_ptr b /\ dptr_tag a = dptr_tag b) /\
  (forall a q, ti_index (tindex_set_index a q) = q /\ ti_tag (tindex_set_index a q) = ti_tag a) /\
  (forall a t, ti_tag (tindex_set_tag a t) = t /\ ti_index (tindex_set_tag a t) = ti_index a) /\
  (forall a b, tindex_eqb a b = true <-> ti_index a = ti_index b /\ ti_tag a = ti_tag b).
Proof.
  repeat apply conj; try (intros; split; reflexivity);
    intros a b; [unfold dptr_eqb|unfold tindex_eqb];
    rewrite andb_true_iff, !N.eqb_eq; reflexivity.
Qed.

(** ** Period of the tag *)

Lemma land_ones_mod x n : N.land x (N.ones n) = x mod 2 ^ n.
Proof. apply N.land_ones. Qed.

Lemma next_tag_16 x : x < 2 ^ 16 -> N.land ((x + 1) mod 2 ^ 32) 0xffff = (x + 1) mod 2 ^ 16.
Proof.
  intros Hx. rewrite ones_16, N.land_ones. f_equal. apply N.mod_small.
  assert (2 ^ 16 + 1 < 2 ^ 32) by reflexivity. lia.
Qed.

Lemma next_tag_64 x : N.land ((x + 1) mod 2 ^ 64) 0xffffffffffffffff = (x + 1) mod 2 ^ 64.
Proof.
  change 0xffffffffffffffff with (N.ones 64). rewrite N.land_ones.
  apply N.mod_mod, N.pow_nonzero. lia.
Qed.

Lemma iter_step (f : N -> N) (M : N) : M <> 0 ->
  (forall x, x < M -> f x = (x + 1) mod M) ->
  forall k x, x < M -> N.iter k f x = (x + k) mod M.
Proof.
  intros HM Hf k x Hx. induction k as [|k IH] using N.peano_ind.
  - simpl. rewrite N.add_0_r, N.mod_small by exact Hx. reflexivity.
  - rewrite N.iter_succ, IH, Hf by (apply N.mod_lt, HM).
    rewrite N.add_mod_idemp_l by exact HM. f_equal. lia.
Qed.

Lemma iter_period (f : N -> N) (M : N) : M <> 0 ->
  (forall x, x < M -> f x = (x + 1) mod M) ->
  forall k x, x < M -> (N.iter k f x = x <-> exists q, k = q * M).
Proof.
  intros HM Hf k x Hx. rewrite (iter_step f M HM Hf k x Hx). split.
  - intros He. exists ((x + k) / M).
    pose proof (N.div_mod (x + k) M HM) as Hd. rewrite He in Hd. lia.
  - intros [q ->]. rewrite N.mod_add by exact HM. apply N.mod_small, Hx.
Qed.

Lemma cptr_next_tag v :
  cptr_get_next_tag LittleEndian v = (cptr_get_tag LittleEndian v + 1) mod 2 ^ 16.
Proof. apply next_tag_16, tag_range. Qed.

(** Bumping the tag of a whole handle, as the data structures do it. *)
Definition cptr_bump (v : N) : N :=
  cptr_make LittleEndian (cptr_get_ptr v) (cptr_get_next_tag LittleEndian v).
Definition dptr_bump (a : dptr) : dptr := Dptr (dptr_ptr a) (dptr_get_next_tag a).
Definition tindex_bump (a : tindex) : tindex := Tindex (ti_index a) (tindex_get_next_tag a).

Lemma cptr_bump_iter k v : v < 2 ^ 64 ->
  N.iter k cptr_bump v < 2 ^ 64 /\
  cptr_get_ptr (N.iter k cptr_bump v) = cptr_get_ptr v /\
  cptr_get_tag LittleEndian (N.iter k cptr_bump v) = (cptr_get_tag LittleEndian v + k) mod 2 ^ 16.
Proof.
  intros Hv. induction k as [|k [IH1 [IH2 IH3]]] using N.peano_ind.
  - simpl N.iter. rewrite N.add_0_r. split; [exact Hv|]. split; [reflexivity|].
    rewrite N.mod_small; [reflexivity|apply tag_range].
  - rewrite N.iter_succ. set (w := N.iter k cptr_bump v) in *.
    unfold cptr_bump at 1 2 3.
    assert (Hn : cptr_get_next_tag LittleEndian w < 2 ^ 16).
    { rewrite cptr_next_tag. apply N.mod_lt. discriminate. }
    split; [apply make_range; [apply ptr_range|exact Hn]|].
    split; [rewrite get_ptr_pack by apply ptr_range; exact IH2|].
    rewrite get_tag_pack; [|apply ptr_range|exact Hn].
    rewrite cptr_next_tag, IH3. rewrite N.add_mod_idemp_l by discriminate.
    f_equal. lia.
Qed.

Lemma cptr_period k v : v < 2 ^ 64 ->
  (N.iter k cptr_bump v = v <-> exists q, k = q * 2 ^ 16).
Proof.
  intros Hv. destruct (cptr_bump_iter k v Hv) as (H1 & H2 & H3). split.
  - intros He. rewrite He in H3.
    exists ((cptr_get_tag LittleEndian v + k) / 2 ^ 16).
    pose proof (N.div_mod (cptr_get_tag LittleEndian v + k) (2 ^ 16)) as Hd.
    rewrite <- H3 in Hd. specialize (Hd ltac:(discriminate)). lia.
  - intros [q ->]. rewrite <- (make_eta _ H1), H2, H3.
    rewrite N.mod_add by discriminate. rewrite N.mod_small by apply tag_range.
    apply make_eta, Hv.
Qed.

Lemma dptr_iter k a : dptr_tag a < 2 ^ 64 ->
  N.iter k dptr_bump a = Dptr (dptr_ptr a) ((dptr_tag a + k) mod 2 ^ 64).
Proof.
  intros Ha. induction k as [|k IH] using N.peano_ind.
  - simpl N.iter. rewrite N.add_0_r, N.mod_small by exact Ha. destruct a; reflexivity.
  - rewrite N.iter_succ, IH. unfold dptr_bump, dptr_get_next_tag. cbn [dptr_ptr dptr_tag].
    rewrite next_tag_64. f_equal. rewrite N.add_mod_idemp_l by discriminate. f_equal. lia.
Qed.

Lemma tindex_iter k a : ti_tag a < 2 ^ 16 ->
  N.iter k tindex_bump a = Tindex (ti_index a) ((ti_tag a + k) mod 2 ^ 16).
Proof.
  intros Ha. induction k as [|k IH] using N.peano_ind.
  - simpl N.iter. rewrite N.add_0_r, N.mod_small by exact Ha. destruct a; reflexivity.
  - rewrite N.iter_succ, IH. unfold tindex_bump, tindex_get_next_tag. cbn [ti_index ti_tag].
    rewrite next_tag_16 by (apply N.mod_lt; discriminate).
    f_equal. rewrite N.add_mod_idemp_l by discriminate. f_equal. lia.
Qed.

Lemma mod_period M k x : M <> 0 -> x < M -> ((x + k) mod M = x <-> exists q, k = q * M).
Proof.
  intros HM Hx. split.
  - intros He. exists ((x + k) / M). pose proof (N.div_mod (x + k) M HM) as Hd.
    rewrite He in Hd. lia.
  - intros [q ->]. rewrite N.mod_add by exact HM. apply N.mod_small, Hx.
Qed.

Lemma dptr_period k a : dptr_tag a < 2 ^ 64 ->
  (N.iter k dptr_bump a = a <-> exists q, k = q * 2 ^ 64).
Proof.
  intros Ha. rewrite dptr_iter by exact Ha. rewrite <- (mod_period (2 ^ 64) k (dptr_tag a)); [|discriminate|exact Ha].
  destruct a as [p t]; cbn [dptr_ptr dptr_tag]. split; [intros H; injection H; auto|intros ->; reflexivity].
Qed.

Lemma tindex_period k a : ti_tag a < 2 ^ 16 ->
  (N.iter k tindex_bump a = a <-> exists q, k = q * 2 ^ 16).
Proof.
  intros Ha. rewrite tindex_iter by exact Ha. rewrite <- (mod_period (2 ^ 16) k (ti_tag a)); [|discriminate|exact Ha].
  destruct a as [p t]; cbn [ti_index ti_tag]. split; [intros H; injection H; auto|intros ->; reflexivity].
Qed.

(** ** Array handles *)

Lemma handles_ok nodes sz count n :
  nodes <> 0 -> sz <> 0 -> runtime_storage count = Some n ->
  n = count /\
  (forall i, i < n -> get_pointer nodes sz n i = nodes + sz * i /\
                      get_handle nodes sz n (nodes + sz * i) = i /\
                      i <> null_handle n) /\
  get_pointer nodes sz n (null_handle n) = 0 /\
  get_handle nodes sz n 0 = null_handle n /\
  null_handle n < 2 ^ 16.
Proof.
  intros Hn Hs Hst. unfold runtime_storage in Hst.
  destruct (N.ltb_spec 65535 count) as [Hlt|Hle]; [discriminate|]. injection Hst as <-.
  assert (Hnull : null_handle count = count).
  { unfold null_handle. apply N.mod_small. change (2 ^ 16) with 65536. lia. }
  split; [reflexivity|]. split; [|split; [|split]].
  - intros i Hi. rewrite Hnull. split; [|split].
    + unfold get_pointer. rewrite Hnull. destruct (N.eqb_spec i count); [lia|reflexivity].
    + unfold get_handle. destruct (N.eqb_spec (nodes + sz * i) 0); [lia|].
      replace (nodes + sz * i - nodes) with (i * sz) by lia.
      rewrite N.div_mul by exact Hs. apply N.mod_small. change (2 ^ 16) with 65536. lia.
    + lia.
  - unfold get_pointer. rewrite N.eqb_refl. reflexivity.
  - unfold get_handle. reflexivity.
  - rewrite Hnull. change (2 ^ 16) with 65536. lia.
Qed.

Lemma runtime_storage_rejects count : runtime_storage count = None <-> 65535 < count.
Proof.
  unfold runtime_storage. destruct (N.ltb_spec 65535 count) as [Hlt|Hle].
  - split; [intros _; exact Hlt|reflexivity].
  - split; [discriminate|lia].
Qed.

(** ** Aligned storage *)

Lemma align_up_spec p a : a <> 0 ->
  p <= align_up p a /\ align_up p a < p + a /\ align_up p a mod a = 0.
Proof.
  intros Ha. unfold align_up.
  pose proof (N.div_mod (p + (a - 1)) a Ha) as Hd.
  pose proof (N.mod_lt (p + (a - 1)) a Ha) as Hm.
  split; [|split; [|apply N.mod_mul, Ha]];
    rewrite (N.mul_comm _ a); revert Hd Hm;
    generalize (a * ((p + (a - 1)) / a)) ((p + (a - 1)) mod a); lia.
Qed.

Lemma storage_inside data size sz :
  data <= storage_nodes data 64 /\
  storage_nodes data 64 + size * sz <= data + storage_bytes size sz /\
  storage_nodes data 64 mod 64 = 0.
Proof.
  unfold storage_nodes, storage_bytes.
  destruct (align_up_spec data 64) as (H1 & H2 & H3); [discriminate|].
  split; [exact H1|]. split; [lia|exact H3].
Qed.

(** Larger cache lines: inside only if the array happens to be aligned well enough. *)
Lemma storage_inside_iff data size sz cl : cl <> 0 -> 0 < size * sz ->
  (storage_nodes data cl + size * sz <= data + storage_bytes size sz <->
   storage_nodes data cl <= data + 64).
Proof. intros _ _. unfold storage_bytes. split; lia. Qed.
