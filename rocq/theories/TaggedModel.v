(** * Model of the handle layer of boost.lockfree

    - include/boost/lockfree/detail/tagged_ptr_ptrcompression.hpp
    - include/boost/lockfree/detail/tagged_ptr_dcas.hpp
    - include/boost/lockfree/detail/freelist.hpp (tagged_index, node storages,
      handle conversions of fixed_size_freelist)

    Unsigned integers are elements of [N]; conversions to a narrower type are
    written as [mod 2^k].  The size of a node in bytes, addresses and the byte
    order of the machine are parameters. *)

From Coq Require Import NArith.
Local Open Scope N_scope.

(** ** tagged_ptr with pointer compression *)

(** Byte order; it decides which bits of [value] the array member [tag[i]] of
    the union overlays (tagged_ptr_ptrcompression.hpp:31-35). *)
Inductive endian := LittleEndian | BigEndian.

(** Position of the lowest bit of [cast_unit::tag[i]] inside
    [cast_unit::value] (tagged_ptr_ptrcompression.hpp:31-35). *)
Definition half_shift (e : endian) (i : N) : N :=
  match e with LittleEndian => 16 * i | BigEndian => 16 * (3 - i) end.

(** Reading [cu.tag[i]] (tagged_ptr_ptrcompression.hpp:49). *)
Definition get_half (e : endian) (v i : N) : N :=
  N.land (N.shiftr v (half_shift e i)) 0xffff.

(** Writing [ret.tag[i] = t] (tagged_ptr_ptrcompression.hpp:56). *)
Definition set_half (e : endian) (v i t : N) : N :=
  N.lor (N.ldiff v (N.shiftl 0xffff (half_shift e i))) (N.shiftl t (half_shift e i)).

(** [tag_index] and [ptr_mask] (tagged_ptr_ptrcompression.hpp:37-38). *)
Definition tag_index : N := 3.
Definition ptr_mask : N := 0xffffffffffff.

(** [extract_ptr] (tagged_ptr_ptrcompression.hpp:40-43). *)
Definition extract_ptr (v : N) : N := N.land v ptr_mask.

(** [extract_tag] (tagged_ptr_ptrcompression.hpp:45-50). *)
Definition extract_tag (e : endian) (v : N) : N := get_half e v tag_index.

(** [pack_ptr] (tagged_ptr_ptrcompression.hpp:52-58); [compressed_ptr_t(ptr)]
    is the address as a 64-bit number. *)
Definition pack_ptr (e : endian) (p t : N) : N := set_half e p tag_index t.

(** The class: one 64-bit word (tagged_ptr_ptrcompression.hpp:162).
    Constructor / [set] (74-76, 90-93). *)
Definition cptr_make (e : endian) (p t : N) : N := pack_ptr e p t.

(** [operator==] (tagged_ptr_ptrcompression.hpp:98-101). *)
Definition cptr_eqb (v w : N) : bool := N.eqb v w.

(** [get_ptr] (111-114), [get_tag] (125-128). *)
Definition cptr_get_ptr (v : N) : N := extract_ptr v.
Definition cptr_get_tag (e : endian) (v : N) : N := extract_tag e v.

(** [set_ptr] (tagged_ptr_ptrcompression.hpp:116-120). *)
Definition cptr_set_ptr (e : endian) (v p : N) : N :=
  let tag := cptr_get_tag e v in pack_ptr e p tag.

(** [set_tag] (tagged_ptr_ptrcompression.hpp:136-140). *)
Definition cptr_set_tag (e : endian) (v t : N) : N :=
  let p := cptr_get_ptr v in pack_ptr e p t.

(** [get_next_tag] (tagged_ptr_ptrcompression.hpp:130-134):
    [(get_tag() + 1u) & max(tag_t)] with a 16-bit [tag_t]; the addition is done
    in a 32-bit unsigned. *)
Definition cptr_get_next_tag (e : endian) (v : N) : N :=
  N.land ((cptr_get_tag e v + 1) mod 2 ^ 32) 0xffff.

(** [operator bool] (tagged_ptr_ptrcompression.hpp:155-158). *)
Definition cptr_bool (v : N) : bool := negb (N.eqb (cptr_get_ptr v) 0).

(** ** tagged_ptr for double-width CAS (64-bit pointers and tags) *)

(** The class (tagged_ptr_dcas.hpp:134-136). *)
Record dptr := Dptr { dptr_ptr : N; dptr_tag : N }.

(** [operator==] (tagged_ptr_dcas.hpp:73-76). *)
Definition dptr_eqb (a b : dptr) : bool :=
  N.eqb (dptr_ptr a) (dptr_ptr b) && N.eqb (dptr_tag a) (dptr_tag b).

(** [set_ptr] (91-94), [set_tag] (110-113). *)
Definition dptr_set_ptr (a : dptr) (p : N) : dptr := Dptr p (dptr_tag a).
Definition dptr_set_tag (a : dptr) (t : N) : dptr := Dptr (dptr_ptr a) t.

(** [get_next_tag] (tagged_ptr_dcas.hpp:104-108), [tag_t = std::size_t]. *)
Definition dptr_get_next_tag (a : dptr) : N :=
  N.land ((dptr_tag a + 1) mod 2 ^ 64) 0xffffffffffffffff.

(** ** tagged_index (freelist.hpp:260-331) *)

Record tindex := Tindex { ti_index : N; ti_tag : N }.

(** [operator==] (freelist.hpp:318-321). *)
Definition tindex_eqb (a b : tindex) : bool :=
  N.eqb (ti_index a) (ti_index b) && N.eqb (ti_tag a) (ti_tag b).

(** [set_index] (294-297), [set_tag] (312-315). *)
Definition tindex_set_index (a : tindex) (i : N) : tindex := Tindex i (ti_tag a).
Definition tindex_set_tag (a : tindex) (t : N) : tindex := Tindex (ti_index a) t.

(** [get_next_tag] (freelist.hpp:306-310). *)
Definition tindex_get_next_tag (a : tindex) : N :=
  N.land ((ti_tag a + 1) mod 2 ^ 32) 0xffff.

(** ** Handles of fixed_size_freelist *)

(** [runtime_sized_freelist_storage] constructor: the node count is accepted
    or an exception is thrown (freelist.hpp:371-380).  [None] is the throw. *)
Definition runtime_storage (count : N) : option N :=
  if N.ltb 65535 count then None else Some count.

(** [null_handle]: [static_cast<uint16_t>(node_count())] (freelist.hpp:496-499). *)
Definition null_handle (count : N) : N := count mod 2 ^ 16.

(** [get_handle (T pointer)] (freelist.hpp:501-507): addresses in bytes, [nodes] the
    address of node 0, [sz = sizeof(T)]; address 0 is NULL. *)
Definition get_handle (nodes sz count pointer : N) : N :=
  if N.eqb pointer 0 then null_handle count
  else ((pointer - nodes) / sz) mod 2 ^ 16.

(** [get_pointer(index_t)] (freelist.hpp:519-525). *)
Definition get_pointer (nodes sz count index : N) : N :=
  if N.eqb index (null_handle count) then 0 else nodes + sz * index.

(** ** compiletime_sized_freelist_storage *)

(** [boost::alignment::align_up(ptr, a)] for a power of two [a]. *)
Definition align_up (p a : N) : N := (p + (a - 1)) / a * a.

(** [nodes()] (freelist.hpp:348-352): the byte array [data] starts at address
    [data]. *)
Definition storage_nodes (data cacheline : N) : N := align_up data cacheline.

(** Size of the member [data] (freelist.hpp:339). *)
Definition storage_bytes (size sz : N) : N := size * sz + 64.
