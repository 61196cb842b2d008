(** Layout.v -- strides and offsets: model of the layout computations of
    multi_array_impl_base (base.hpp:329-395) *)

From Verif Require Import Base StorageOrder.

(** base.hpp:335-346, the loop of compute_strides.  [ord] is the list of
    remaining values of storage.ordering(n); [acc] is stride_list, whose
    entries are uninitialised ([None]) until written.
    - line 338: storage.ascending(ordering(n))
    - line 343: stride_list[ordering(n)] = stride * stride_sign (signed product)
    - line 345: stride *= extent (index *= size_type: computed modulo 2^64 and
      converted back to index) *)
Fixpoint cs_loop (chk : bool) (ord : list nat) (so : storage_order)
         (ext : list Z) (stride : Z) (acc : list (option Z))
  : outcome (list (option Z)) :=
  match ord with
  | [] => Ok acc
  | d :: ord' =>
      up <- so_asc_at chk so d ;;
      let stride_sign := if (up : bool) then 1 else -1 in
      v <- smul stride stride_sign ;;
      acc' <- arr_set chk acc d (Some v) ;;
      e <- arr_get chk ext d ;;
      cs_loop chk ord' so ext (to_index (to_size stride * e)) acc'
  end.

(** Reading the finished stride list: an entry that was never written is
    indeterminate and its use is undefined behaviour.  (Simplification: the
    model reports it at the end of the computation rather than at the first
    later use; every array operation uses all strides through the origin
    offset, multi_array_ref.hpp:402-407.) *)
Fixpoint read_all (l : list (option Z)) : outcome (list Z) :=
  match l with
  | [] => Ok []
  | None :: _ => UB
  | Some x :: r => t <- read_all r ;; Ok (x :: t)
  end.

(** base.hpp:329-347 compute_strides(stride_list, extent_list, storage).
    The loop runs over n = 0 .. NumDims-1, i.e. over the NumDims entries of
    ordering_.  For reshape (multi_array_ref.hpp:173) stride_list holds the old
    strides instead of uninitialised entries; since every array object that
    exists has a permutation as ordering (otherwise its construction was
    already UB), all entries are overwritten and the difference is invisible. *)
Definition compute_strides (chk : bool) (ext : list Z) (so : storage_order)
  : outcome (list Z) :=
  acc <- cs_loop chk (so_ordering so) so ext 1 (repeat None (length ext)) ;;
  read_all acc.

(** base.hpp:375-377: loop of calculate_descending_dimension_offset.
    [(extent_list[n] - 1) * stride_list[n]] is size_type arithmetic, and
    [offset -= ...] converts back to index. *)
Fixpoint desc_loop (asc : list bool) (ext str : list Z) (offset : Z) : outcome Z :=
  match ext, str with
  | [], [] => Ok offset
  | e :: ext', s :: str' =>
      match asc with
      | [] => UB
      | up :: asc' =>
          desc_loop asc' ext' str'
            (if (up : bool) then offset
             else to_index (to_size offset - to_size (to_size (e - 1) * to_size s)))
      end
  | _, _ => UB
  end.

(** base.hpp:367-380 calculate_descending_dimension_offset *)
Definition descending_offset (str ext : list Z) (so : storage_order) : outcome Z :=
  if all_dims_ascending so then Ok 0
  else desc_loop (so_ascending so) ext str 0.

(** base.hpp:392-393: loop of calculate_indexing_offset (signed arithmetic) *)
Fixpoint idxoff_loop (str bases : list Z) (offset : Z) : outcome Z :=
  match str, bases with
  | [], [] => Ok offset
  | s :: str', b :: bases' =>
      m <- smul s b ;; o <- ssub offset m ;; idxoff_loop str' bases' o
  | _, _ => UB
  end.

(** base.hpp:386-395 calculate_indexing_offset *)
Definition indexing_offset (str bases : list Z) : outcome Z :=
  idxoff_loop str bases 0.

(** base.hpp:352-363 calculate_origin_offset *)
Definition origin_offset (str ext : list Z) (so : storage_order) (bases : list Z)
  : outcome Z :=
  d <- descending_offset str ext so ;;
  i <- indexing_offset str bases ;;
  sadd d i.
