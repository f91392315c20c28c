(** Properties C36, C37, C38, C40: tagged pointers, array handles, storage. *)
From Coq Require Import NArith.
From Verif Require Import TaggedModel TaggedProofs.
Local Open Scope N_scope.

(** C36 (pointer compression, little-endian as on the platforms that enable
    it).  [e] is the byte order of the machine. *)
Theorem C36_tagged_ptr_lossless :
  (forall p t, p < 2 ^ 48 -> t < 2 ^ 16 ->
     cptr_make LittleEndian p t < 2 ^ 64 /\
     cptr_get_ptr (cptr_make LittleEndian p t) = p /\
     cptr_get_tag LittleEndian (cptr_make LittleEndian p t) = t) /\
  (forall v q, v < 2 ^ 64 -> q < 2 ^ 48 ->
     cptr_get_ptr (cptr_set_ptr LittleEndian v q) = q /\
     cptr_get_tag LittleEndian (cptr_set_ptr LittleEndian v q) = cptr_get_tag LittleEndian v) /\
  (forall v t, v < 2 ^ 64 -> t < 2 ^ 16 ->
     cptr_get_tag LittleEndian (cptr_set_tag LittleEndian v t) = t /\
     cptr_get_ptr (cptr_set_tag LittleEndian v t) = cptr_get_ptr v) /\
  (forall v w, v < 2 ^ 64 -> w < 2 ^ 64 ->
     cptr_eqb v w = true <->
     cptr_get_ptr v = cptr_get_ptr w /\ cptr_get_tag LittleEndian v = cptr_get_tag LittleEndian w) /\
  (forall p t, p < 2 ^ 48 -> t < 2 ^ 16 ->
     (cptr_bool (cptr_make LittleEndian p t) = true <-> p <> 0)).
Proof. exact compressed_lossless. Qed.
Print Assumptions C36_tagged_ptr_lossless.

Example C36_nonvacuous :
  cptr_make LittleEndian 0x7fffdeadbee0 0xfffe = 0xfffe7fffdeadbee0 /\
  cptr_get_ptr 0xfffe7fffdeadbee0 = 0x7fffdeadbee0 /\
  cptr_get_next_tag LittleEndian 0xffff7fffdeadbee0 = 0.
Proof. vm_compute. repeat split. Qed.

(** The double-width and the array-index variants. *)
Theorem C36_dcas_and_index_lossless :
  (forall p t, dptr_ptr (Dptr p t) = p /\ dptr_tag (Dptr p t) = t) /\
  (forall a q, dptr_ptr (dptr_set_ptr a q) = q /\ dptr_tag (dptr_set_ptr a q) = dptr_tag a) /\
  (forall a t, dptr_tag (dptr_set_tag a t) = t /\ dptr_ptr (dptr_set_tag a t) = dptr_ptr a) /\
  (forall a b, dptr_eqb a b = true <-> dptr_ptr a = dptr_ptr b /\ dptr_tag a = dptr_tag b) /\
  (forall a q, ti_index (tindex_set_index a q) = q /\ ti_tag (tindex_set_index a q) = ti_tag a) /\
  (forall a t, ti_tag (tindex_set_tag a t) = t /\ ti_index (tindex_set_tag a t) = ti_index a) /\
  (forall a b, tindex_eqb a b = true <-> ti_index a = ti_index b /\ ti_tag a = ti_tag b).
Proof. exact plain_lossless. Qed.
Print Assumptions C36_dcas_and_index_lossless.

(** Outside its range the packing is lossy: on a big-endian machine the tag
    overlays the low bits, and a pointer with a bit above 47 loses it. *)
Theorem C36_big_endian_refuted :
  exists p t, p < 2 ^ 48 /\ t < 2 ^ 16 /\ cptr_get_ptr (cptr_make BigEndian p t) <> p.
Proof. exists 0x1230, 1. repeat split. vm_compute. discriminate. Qed.
Print Assumptions C36_big_endian_refuted.

Theorem C36_wide_pointer_refuted :
  exists p t, p < 2 ^ 57 /\ t < 2 ^ 16 /\ cptr_get_ptr (cptr_make LittleEndian p t) <> p.
Proof. exists (2 ^ 48), 1. repeat split. vm_compute. discriminate. Qed.
Print Assumptions C36_wide_pointer_refuted.

(** C37: the handle with [get_next_tag] applied [k] times (keeping the
    pointer) is the same handle again iff [k] is a multiple of the period. *)
Theorem C37_compressed_tag_period k v : v < 2 ^ 64 ->
  (N.iter k (fun v => cptr_make LittleEndian (cptr_get_ptr v) (cptr_get_next_tag LittleEndian v)) v = v
   <-> exists q, k = q * 2 ^ 16).
Proof. exact (cptr_period k v). Qed.
Print Assumptions C37_compressed_tag_period.

Theorem C37_dcas_tag_period k a : dptr_tag a < 2 ^ 64 ->
  (N.iter k (fun a => Dptr (dptr_ptr a) (dptr_get_next_tag a)) a = a <-> exists q, k = q * 2 ^ 64).
Proof. exact (dptr_period k a). Qed.
Print Assumptions C37_dcas_tag_period.

Theorem C37_index_tag_period k a : ti_tag a < 2 ^ 16 ->
  (N.iter k (fun a => Tindex (ti_index a) (tindex_get_next_tag a)) a = a <-> exists q, k = q * 2 ^ 16).
Proof. exact (tindex_period k a). Qed.
Print Assumptions C37_index_tag_period.

Example C37_nonvacuous :
  N.iter 3 (fun a => Tindex (ti_index a) (tindex_get_next_tag a)) (Tindex 7 65534) = Tindex 7 1.
Proof. vm_compute. reflexivity. Qed.

(** C38: for every accepted node count the handle conversions are mutually
    inverse and the null handle is no node's handle. *)
Theorem C38_handles_unique nodes sz count n :
  nodes <> 0 -> sz <> 0 -> runtime_storage count = Some n ->
  n = count /\
  (forall i, i < n -> get_pointer nodes sz n i = nodes + sz * i /\
                      get_handle nodes sz n (nodes + sz * i) = i /\
                      i <> null_handle n) /\
  get_pointer nodes sz n (null_handle n) = 0 /\
  get_handle nodes sz n 0 = null_handle n /\
  null_handle n < 2 ^ 16.
Proof. exact (handles_ok nodes sz count n). Qed.
Print Assumptions C38_handles_unique.

Example C38_nonvacuous :
  runtime_storage 65535 = Some 65535 /\
  get_handle 4096 64 65535 (get_pointer 4096 64 65535 65534) = 65534.
Proof. vm_compute. split; reflexivity. Qed.

Theorem C38_too_large_throws count : runtime_storage count = None <-> 65535 < count.
Proof. exact (runtime_storage_rejects count). Qed.
Print Assumptions C38_too_large_throws.

(** With 65536 nodes node 0 would have the null handle. *)
Theorem C38_65536_nodes_refuted :
  exists i, i < 65536 /\ i = null_handle 65536 /\ get_pointer 4096 64 65536 i = 0.
Proof. exists 0. vm_compute. repeat split. Qed.
Print Assumptions C38_65536_nodes_refuted.

(** C40: for a 64-byte cache line the aligned node array lies inside [data]. *)
Theorem C40_storage_inside data size sz :
  data <= storage_nodes data 64 /\
  storage_nodes data 64 + size * sz <= data + storage_bytes size sz /\
  storage_nodes data 64 mod 64 = 0.
Proof. exact (storage_inside data size sz). Qed.
Print Assumptions C40_storage_inside.

Example C40_nonvacuous : storage_nodes 4097 64 = 4160 /\ storage_bytes 3 64 = 256.
Proof. vm_compute. split; reflexivity. Qed.

(** For the 128 and 256 byte cache lines the slack of 64 bytes does not
    suffice unless the object is placed luckily. *)
Theorem C40_larger_cacheline data size sz cl : cl <> 0 -> 0 < size * sz ->
  (storage_nodes data cl + size * sz <= data + storage_bytes size sz <->
   storage_nodes data cl <= data + 64).
Proof. exact (storage_inside_iff data size sz cl). Qed.
Print Assumptions C40_larger_cacheline.

Theorem C40_cacheline_128_refuted :
  exists data, data mod 16 = 0 /\
    data + storage_bytes 4 128 < storage_nodes data 128 + 4 * 128.
Proof. exists (4096 + 16). vm_compute. split; reflexivity. Qed.
Print Assumptions C40_cacheline_128_refuted.
