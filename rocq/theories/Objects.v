(** Objects.v -- the array classes: const_multi_array_ref / multi_array_ref
    (multi_array_ref.hpp), const_sub_array / sub_array (subarray.hpp) and
    const_multi_array_view / multi_array_view (view.hpp).

    const and non-const classes have the same members and the same code up to
    constness, so one record models each pair. *)

From Verif Require Import Base StorageOrder Ranges Layout Access.

(** * const_multi_array_ref / multi_array_ref *)

(** multi_array_ref.hpp:349-356 members *)
Record cref := CRef {
  cr_base : ptr;
  cr_storage : storage_order;
  cr_ext : list Z;
  cr_str : list Z;
  cr_ib : list Z;
  cr_origin_offset : Z;
  cr_directional_offset : Z;
  cr_num : Z
}.

(** copy construction: multi_array_ref.hpp:79-87 (from another pointer type; the
    implicit copy constructors of const_multi_array_ref and multi_array_ref copy
    the same members).  The copy is shallow: base_ is the same pointer *)
Definition cr_shallow_copy (other : cref) : cref :=
  CRef (cr_base other) (cr_storage other) (cr_ext other) (cr_str other) (cr_ib other)
       (cr_origin_offset other) (cr_directional_offset other) (cr_num other).

(** multi_array_ref.hpp:389-408 init_multi_array_ref(extents_iter): [n] is
    NumDims, [extents] the sequence read through the iterator (its values are
    converted to size_type by the copy), [bases] the already filled
    index_base_list_ *)
Definition init_multi_array_ref (chk : bool) (n : nat) (base : ptr)
           (so : storage_order) (bases : list Z) (extents : list Z) : outcome cref :=
  raw <- copy_n extents n ;;
  let ext := map to_size raw in
  let num := accumulate_mul ext in
  str <- compute_strides chk ext so ;;
  oo <- origin_offset str ext so bases ;;
  dd <- descending_offset str ext so ;;
  Ok (CRef base so ext str bases oo dd num).

(** multi_array_ref.hpp:99-108 (and 89-97 with c_storage_order):
    const_multi_array_ref(base, ExtentList, storage_order) *)
Definition cref_from_list (chk : bool) (n : nat) (base : ptr) (extents : list Z)
           (so : storage_order) : outcome cref :=
  init_multi_array_ref chk n base so (repeat 0 n) extents.

Fixpoint er_sizes (l : list extent_range) : outcome (list Z) :=
  match l with
  | [] => Ok []
  | r :: l' => s <- er_size r ;; t <- er_sizes l' ;; Ok (to_index s :: t)
  end.

(** multi_array_ref.hpp:362-380 init_from_extent_gen; the sizes go through an
    array of index (lines 366,374-377) *)
Definition init_from_extent_gen (chk : bool) (base : ptr) (so : storage_order)
           (g : extent_gen) : outcome cref :=
  let ranges := eg_ranges g in
  sizes <- er_sizes ranges ;;
  init_multi_array_ref chk (eg_num g) base so (map er_start ranges) sizes.

(** multi_array_ref.hpp:110-125 const_multi_array_ref(base, extent_gen[, so]) *)
Definition cref_from_gen (chk : bool) (base : ptr) (g : extent_gen)
           (so : storage_order) : outcome cref :=
  init_from_extent_gen chk base so g.

(** multi_array_ref.hpp:324-346 const_multi_array_ref(base, so, index_bases,
    extents) with non-null pointers *)
Definition cref_from_shape (chk : bool) (n : nat) (base : ptr) (so : storage_order)
           (bases extents : list Z) : outcome cref :=
  ib <- copy_n bases n ;;
  init_multi_array_ref chk n base so ib extents.

(** the same constructor with null index_bases and extents (default
    constructor of multi_array, multi_array.hpp:152-157) *)
Definition cref_default (chk : bool) (n : nat) (base : ptr) (so : storage_order)
  : outcome cref :=
  init_multi_array_ref chk n base so (repeat 0 n) (repeat 0 n).

(** multi_array_ref.hpp:197,504 origin() *)
Definition cr_origin (c : cref) : ptr := padd (cr_base c) (cr_origin_offset c).
(** multi_array_ref.hpp:198,506 data() *)
Definition cr_data (c : cref) : ptr := cr_base c.
(** multi_array_ref.hpp:189-204 shape(), strides(), index_bases() *)
Definition cr_nd (c : cref) : nd := ND (cr_origin c) (cr_ext c) (cr_str c) (cr_ib c).
(** multi_array_ref.hpp:319 set_base_ptr *)
Definition cr_set_base (c : cref) (p : ptr) : cref :=
  CRef p (cr_storage c) (cr_ext c) (cr_str c) (cr_ib c)
       (cr_origin_offset c) (cr_directional_offset c) (cr_num c).

(** multi_array_ref.hpp:180 num_dimensions() *)
Definition cr_num_dimensions (c : cref) : nat := length (cr_ext c).
(** multi_array_ref.hpp:182 size() *)
Definition cr_size (c : cref) : outcome Z :=
  match cr_ext c with e :: _ => Ok e | [] => UB end.
(** multi_array_ref.hpp:200 num_elements() *)
Definition cr_num_elements (c : cref) : Z := cr_num c.
(** multi_array_ref.hpp:185 max_size() *)
Definition cr_max_size (c : cref) : Z := cr_num_elements c.
(** multi_array_ref.hpp:187 empty() *)
Definition cr_empty (c : cref) : outcome bool := s <- cr_size c ;; Ok (s =? 0).

(** multi_array_ref.hpp:147-155 reindex(BaseList) *)
Definition cr_reindex (c : cref) (values : list Z) : outcome cref :=
  ib <- copy_n values (length (cr_ext c)) ;;
  oo <- origin_offset (cr_str c) (cr_ext c) (cr_storage c) ib ;;
  Ok (CRef (cr_base c) (cr_storage c) (cr_ext c) (cr_str c) ib oo
           (cr_directional_offset c) (cr_num c)).

(** multi_array_ref.hpp:157-162 reindex(index) *)
Definition cr_reindex1 (c : cref) (value : Z) : outcome cref :=
  let ib := repeat value (length (cr_ext c)) in
  oo <- origin_offset (cr_str c) (cr_ext c) (cr_storage c) ib ;;
  Ok (CRef (cr_base c) (cr_storage c) (cr_ext c) (cr_str c) ib oo
           (cr_directional_offset c) (cr_num c)).

(** multi_array_ref.hpp:164-178 reshape(SizeList): directional_offset_ is not
    recomputed.  The values of the list are converted to size_type. *)
Definition cr_reshape (chk : bool) (c : cref) (extents : list Z) : outcome cref :=
  _ <- assertM chk (Ok (cr_num c =? accumulate_mul (map to_size extents))) ;;
  ext <- copy_into (cr_ext c) (map to_size extents) ;;
  str <- compute_strides chk ext (cr_storage c) ;;
  oo <- origin_offset str ext (cr_storage c) (cr_ib c) ;;
  Ok (CRef (cr_base c) (cr_storage c) ext str (cr_ib c) oo
           (cr_directional_offset c) (cr_num c)).

(** * const_multi_array_view / multi_array_view *)

(** view.hpp:250-255 members *)
Record view := View {
  v_base : ptr;
  v_origin_offset : Z;
  v_num : Z;
  v_ext : list Z;
  v_str : list Z;
  v_ib : list Z
}.

(** copy construction: view.hpp:67-73 (and the implicit copy constructors) *)
Definition v_shallow_copy (other : view) : view :=
  View (v_base other) (v_origin_offset other) (v_num other) (v_ext other) (v_str other) (v_ib other).

(** view.hpp:228-245 const_multi_array_view(base, extents, strides); extents
    are converted from index to size_type *)
Definition view_make (n : nat) (base : ptr) (extents strides : list Z) : outcome view :=
  ext <- copy_n extents n ;;
  str <- copy_n strides n ;;
  let ext' := map to_size ext in
  Ok (View base 0 (accumulate_mul ext') ext' str (repeat 0 n)).

(** view.hpp:112,323 origin() and 104-118 shape(), strides(), index_bases() *)
Definition v_origin (v : view) : ptr := padd (v_base v) (v_origin_offset v).
Definition v_nd (v : view) : nd := ND (v_origin v) (v_ext v) (v_str v) (v_ib v).

(** view.hpp:83-90 reindex(BaseList) *)
Definition v_reindex (v : view) (values : list Z) : outcome view :=
  ib <- copy_n values (length (v_ext v)) ;;
  oo <- indexing_offset (v_str v) ib ;;
  Ok (View (v_base v) oo (v_num v) (v_ext v) (v_str v) ib).
(** view.hpp:92-96 reindex(index) *)
Definition v_reindex1 (v : view) (value : Z) : outcome view :=
  let ib := repeat value (length (v_ext v)) in
  oo <- indexing_offset (v_str v) ib ;;
  Ok (View (v_base v) oo (v_num v) (v_ext v) (v_str v) ib).

(** view.hpp:100 size() *)
Definition v_size (v : view) : outcome Z :=
  match v_ext v with e :: _ => Ok e | [] => UB end.
(** view.hpp:114 num_elements(), 101 max_size() *)
Definition v_num_elements (v : view) : Z := v_num v.
(** view.hpp:102 empty() *)
Definition v_empty (v : view) : outcome bool := s <- v_size v ;; Ok (s =? 0).

(** a[indices]: operator[](index_gen) of all classes (multi_array_ref.hpp:228-241,
    528-540; subarray.hpp:90-103,266-278; view.hpp:138-151,345-357) *)
Definition make_view (chk : bool) (a : nd) (ig : index_gen) : outcome view :=
  t <- generate_array_view chk ig a ;;
  let '(p, ext, str) := t in
  view_make (ig_dims ig) p ext str.

(** * const_sub_array / sub_array *)

(** subarray.hpp:186-189: a sub_array is the base pointer plus pointers into the
    parent's lists; its geometry is the [nd] returned by [access_n].
    subarray.hpp:156 size() *)
Definition sub_size (a : nd) : outcome Z :=
  match nd_ext a with e :: _ => Ok e | [] => UB end.
(** subarray.hpp:164-167 num_elements(), 157 max_size() *)
Definition sub_num_elements (a : nd) : Z := accumulate_mul (nd_ext a).
(** subarray.hpp:158 empty() *)
Definition sub_empty (a : nd) : outcome bool := s <- sub_size a ;; Ok (s =? 0).
