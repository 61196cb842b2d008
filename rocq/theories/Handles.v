(** Handles.v -- stored subarrays and iterators.

    A sub_array or array_iterator object does not contain the geometry it works
    with: it holds a T* and raw pointers into the extent_list_, stride_list_ and
    index_base_list_ members of the array it came from (subarray.hpp:186-189,
    iterator.hpp:83-87).  The rest of the model uses the geometry at the moment of
    use ([nd], [iter]); this file models the objects as they are stored, so that
    the parent may change between creation and use. *)

From Verif Require Import Base StorageOrder Ranges Layout Access Objects.

(** subarray.hpp:186-189 members of const_sub_array of an array: base_, and the
    number of entries by which extents_, strides_ and index_base_ point past the
    start of the parent's lists *)
Record sub_handle := SubH { sh_base : ptr; sh_depth : nat }.

(** what shape(), strides(), index_bases() and origin() of the stored object
    return while its parent is [c] (subarray.hpp:159-167) *)
Definition sub_now (c : cref) (s : sub_handle) : nd :=
  ND (sh_base s) (skipn (sh_depth s) (cr_ext c)) (skipn (sh_depth s) (cr_str c))
     (skipn (sh_depth s) (cr_ib c)).

(** base.hpp:129-141: access returns
    Reference(base + idx * strides[0], extents+1, strides+1, index_bases+1) *)
Definition sub_at (chk : bool) (c : cref) (s : sub_handle) (idx : Z) : outcome sub_handle :=
  a <- access_n chk idx (sub_now c s) ;; Ok (SubH (nd_org a) (S (sh_depth s))).

(** sub = a[i1]...[ik], stored *)
Fixpoint sub_take_from (chk : bool) (c : cref) (s : sub_handle) (idx : list Z) : outcome sub_handle :=
  match idx with
  | [] => Ok s
  | i :: rest => s' <- sub_at chk c s i ;; sub_take_from chk c s' rest
  end.
Definition sub_take (chk : bool) (c : cref) (idx : list Z) : outcome sub_handle :=
  sub_take_from chk c (SubH (nd_org (cr_nd c)) 0) idx.

(** iterator.hpp:83-87 a stored iterator of an array: position, base pointer, and
    pointers to the parent's lists *)
Record iter_handle := IterH { ih_idx : Z; ih_base : ptr }.
Definition iter_now (c : cref) (i : iter_handle) : iter :=
  Iter (ih_idx i) (ih_base i) (cr_ext c) (cr_str c) (cr_ib c).
(** it = a.begin(), it = a.end(), stored (multi_array_ref.hpp:243-251) *)
Definition iter_begin (c : cref) : outcome iter_handle :=
  i <- nd_begin (cr_nd c) ;; Ok (IterH (it_idx i) (it_base i)).
Definition iter_end (c : cref) : outcome iter_handle :=
  i <- nd_end (cr_nd c) ;; Ok (IterH (it_idx i) (it_base i)).
