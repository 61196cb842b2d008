(** MultiArray.v -- the owning class multi_array (multi_array.hpp).

    Allocator objects are represented by their identity [aid]; two allocator
    objects with the same identity compare equal. *)

From Verif Require Import Base StorageOrder Ranges Layout Access Objects Memory Ops.

Section MultiArray.
Context {T : Type}.
Variable dflt : T.      (* the value-initialised element T() *)

(** multi_array.hpp:121-123 (base classes) and 561-562 (members base_,
    allocated_elements_; the allocator is the empty_value base) *)
Record multi_array := MA {
  ma_ref : cref;
  ma_base : ptr;
  ma_alloc_elems : Z;
  ma_aid : nat
}.

(** super_type(initial_base_ cast to T-pointer, ...): the null pointer used until
    allocate_space; block 0 is never dereferenced through it because
    allocate_space always replaces it (line 546) before any element access *)
Definition null_ptr : ptr := Ptr 0 0.

(** multi_array.hpp:544-549 allocate_space().  It runs in the constructor body:
    if alloc_construct_n throws, ~multi_array does not run. *)
Definition allocate_space (c : cref) (aid : nat) : M T multi_array :=
  p <~ allocate aid (cr_num c) ;;
  let c' := cr_set_base c p in
  _ <~ alloc_construct_n dflt p (Z.to_nat (cr_num c)) ;;
  ret (MA c' p (cr_num c) aid).

(** multi_array.hpp:551-556 deallocate_space(), called by the destructor
    (519-521).  [base_] is never null after construction (the allocator returns
    a non-null pointer, also for zero elements). *)
Definition ma_destroy (a : multi_array) : M T unit :=
  _ <~ alloc_destroy_n (ma_base a) (Z.to_nat (ma_alloc_elems a)) ;;
  deallocate (ma_aid a) (ma_base a) (ma_alloc_elems a).

(** multi_array.hpp:152-157 multi_array(alloc) *)
Definition ma_default (chk : bool) (n : nat) (aid : nat) : M T multi_array :=
  so <~ lift (c_conversion n) ;;
  c <~ lift (cref_default chk n null_ptr so) ;;
  allocate_space c aid.

(** multi_array.hpp:160-174 multi_array(ExtentList, alloc) (with
    c_storage_order, multi_array_ref.hpp:89-97), 177-196 with a storage order *)
Definition ma_from_list (chk : bool) (n : nat) (extents : list Z)
           (so : storage_order) (aid : nat) : M T multi_array :=
  c <~ lift (cref_from_list chk n null_ptr extents so) ;;
  allocate_space c aid.

(** multi_array.hpp:199-227 multi_array(extent_gen[, storage_order][, alloc]) *)
Definition ma_from_gen (chk : bool) (g : extent_gen) (so : storage_order)
           (aid : nat) : M T multi_array :=
  c <~ lift (cref_from_gen chk null_ptr g so) ;;
  allocate_space c aid.

(** algorithm.hpp:52-61 copy_n(first, count, result) on element pointers *)
Fixpoint copy_n_elems (first : ptr) (count : nat) (result : ptr) : M T unit :=
  match count with
  | O => ret tt
  | S k =>
      _ <~ elem_assign result first ;;
      copy_n_elems (padd first 1) k (padd result 1)
  end.

(** multi_array.hpp:229-234 multi_array(const multi_array& rhs); the base class
    copy constructor copies every member *)
Definition ma_copy (rhs : multi_array) : M T multi_array :=
  this <~ allocate_space (ma_ref rhs) (ma_aid rhs) ;;
  _ <~ copy_n_elems (ma_base rhs) (Z.to_nat (cr_num (ma_ref rhs))) (ma_base this) ;;
  ret this.

(** multi_array.hpp:246-281 the converting constructors from
    const_multi_array_ref, const_sub_array and const_multi_array_view, which
    differ only in the type of [rhs] *)
Definition ma_convert (chk : bool) (rhs : nd) (so : storage_order) (aid : nat)
  : M T multi_array :=
  let n := length (nd_ext rhs) in
  c <~ lift (cref_from_shape chk n null_ptr so (nd_base rhs) (nd_ext rhs)) ;;
  this <~ allocate_space c aid ;;
  _ <~ std_copy_nd chk n (cr_nd (ma_ref this)) rhs ;;
  ret this.

(** multi_array.hpp:421-425 operator=(const ConstMultiArray&) *)
Definition ma_assign_from (chk : bool) (this : multi_array) (other : nd) : M T unit :=
  assign_nd chk (length (cr_ext (ma_ref this))) (cr_nd (ma_ref this)) other.

(** multi_array.hpp:427-432 operator=(const multi_array&); [same] is
    [&other == this] *)
Definition ma_assign (chk : bool) (same : bool) (this other : multi_array) : M T unit :=
  if same then ret tt else ma_assign_from chk this (cr_nd (ma_ref other)).

(** std::min<size_type> applied pointwise by std::transform
    (multi_array.hpp:464-471) *)
Fixpoint min_extents (l1 l2 : list Z) : outcome (list Z) :=
  match l1, l2 with
  | [], [] => Ok []
  | x :: r1, y :: r2 =>
      t <- min_extents r1 r2 ;; Ok ((if y <? x then y else x) :: t)
  | _, _ => UB
  end.

(** multi_array.hpp:53-60 populate_index_ranges: index_range(base, base+extent_)
    where the sum is computed in size_type and converted back to index *)
Definition populate_index_ranges (base extent_ : Z) : index_range :=
  ir_make base (to_index (to_size base + extent_)) 1.

(** multi_array.hpp:478-490 one of the two index_gen<N,N> objects filled by
    std::transform *)
Fixpoint populate_all (bases mins : list Z) : outcome (list index_range) :=
  match bases, mins with
  | [], [] => Ok []
  | b :: bs, m :: ms =>
      t <- populate_all bs ms ;; Ok (populate_index_ranges b m :: t)
  | _, _ => UB
  end.

(** multi_array.hpp:501-513 the member-wise swap at the end of resize *)
Definition swap_internals (this new_array : multi_array) : multi_array * multi_array :=
  let t := ma_ref this in
  let o := ma_ref new_array in
  (MA (CRef (cr_base o) (cr_storage o) (cr_ext o) (cr_str o) (cr_ib o)
            (cr_origin_offset o) (cr_directional_offset o) (cr_num o))
      (ma_base new_array) (ma_alloc_elems new_array) (ma_aid new_array),
   MA (CRef (cr_base t) (cr_storage t) (cr_ext t) (cr_str t) (cr_ib t)
            (cr_origin_offset t) (cr_directional_offset t) (cr_num t))
      (ma_base this) (ma_alloc_elems this) (ma_aid this)).

(** multi_array.hpp:453-516 resize(extent_gen).  [new_array] is a local
    variable: an exception after its construction runs its destructor. *)
Definition ma_resize (chk : bool) (this : multi_array) (g : extent_gen)
  : M T multi_array :=
  let n := length (cr_ext (ma_ref this)) in
  if Nat.eqb (eg_num g) n then
    new_array <~ ma_from_gen chk g (cr_storage (ma_ref this)) (ma_aid this) ;;
    _ <~ on_throw
           (mins <~ lift (min_extents (cr_ext (ma_ref new_array)) (cr_ext (ma_ref this))) ;;
            new_ranges <~ lift (populate_all (cr_ib (ma_ref new_array)) mins) ;;
            old_ranges <~ lift (populate_all (cr_ib (ma_ref this)) mins) ;;
            view_old <~ lift (make_view chk (cr_nd (ma_ref this)) (IGen n n old_ranges)) ;;
            view_new <~ lift (make_view chk (cr_nd (ma_ref new_array)) (IGen n n new_ranges)) ;;
            assign_nd chk n (v_nd view_new) (v_nd view_old))
           (ma_destroy new_array) ;;
    let '(this', new_array') := swap_internals this new_array in
    _ <~ ma_destroy new_array' ;;
    ret this'
  else fun _ => Undef.      (* rejected by the compiler *)

(** multi_array.hpp:435-449 resize(ExtentList): ranges (0, extents[i]) *)
Definition ma_resize_list (chk : bool) (this : multi_array) (extents : list Z)
  : M T multi_array :=
  let n := length (cr_ext (ma_ref this)) in
  es <~ lift (copy_n extents n) ;;
  ma_resize chk this (EGen n (map (fun e => ERange 0 (to_index e)) es)).

(** reindex / reshape of a multi_array are those of its base class
    (multi_array_ref.hpp:147-178) *)
Definition ma_with_ref (a : multi_array) (c : cref) : multi_array :=
  MA c (ma_base a) (ma_alloc_elems a) (ma_aid a).
Definition ma_reindex (a : multi_array) (values : list Z) : outcome multi_array :=
  c <- cr_reindex (ma_ref a) values ;; Ok (ma_with_ref a c).
Definition ma_reindex1 (a : multi_array) (value : Z) : outcome multi_array :=
  c <- cr_reindex1 (ma_ref a) value ;; Ok (ma_with_ref a c).
Definition ma_reshape (chk : bool) (a : multi_array) (extents : list Z) : outcome multi_array :=
  c <- cr_reshape chk (ma_ref a) extents ;; Ok (ma_with_ref a c).

(** multi_array.hpp:524-530 operator== / != forward to the base class *)

End MultiArray.
