(** Properties.v -- GENERATED by tools/gen_props.py from the Thm*.v files.

    The property theorems and nothing else: each is closed by the lemma of the
    same name (lower case) and followed by Print Assumptions. *)

From Coq Require Import ZArith List Bool Permutation Sorted.
From Verif Require Import Base StorageOrder Ranges Layout Access Objects Memory Ops MultiArray Handles Threads Const Algorithms UserCode History Stored Calls Strict Shared Torn Quota Concur Fork Lock
  Spec ViewSpec ReachSpec IterSpec MemSpec CompareSpec OwnSpec CheckSpec History HistorySpec AliasSpec StoredSpec CallSpec FaultSpec ThreadSpec SharedSpec ConstSpec SeqSpec CostSpec ConcurSpec ParSpec ForkSpec LockSpec UseSpec ExactSpec TornSpec QuotaSpec OpaqueSpec StrictSpec OverlapSpec RelocSpec ThmAddressing ThmViews ThmGeometry ThmCompose ThmIter ThmCopy ThmBulk ThmCompare ThmMultiArray ThmChecks ThmHandles ThmHistory ThmSelf ThmAlias ThmParts ThmFaults ThmThreads ThmConst ThmAlgorithms ThmLists ThmCosts ThmExact ThmQuota ThmOpaque ThmStrict ThmUses ThmOverlap ThmTorn ThmRegular ThmReloc ThmStored ThmShared ThmConcur ThmPar ThmFork ThmLock ThmCalls.
Import ListNotations.
Local Open Scope Z_scope.

(** * C01 -- Element addressing is a bijection onto the storage *)

Theorem C01_addressing_bijection : forall chk c, array_object c ->
  (forall i, in_bounds (cr_ib c) (cr_ext c) i ->
     exists k, 0 <= k < cr_num_elements c /\
               access_element chk (cr_nd c) i = Ok (padd (cr_data c) k)) /\
  (forall i j p, in_bounds (cr_ib c) (cr_ext c) i -> in_bounds (cr_ib c) (cr_ext c) j ->
     access_element chk (cr_nd c) i = Ok p -> access_element chk (cr_nd c) j = Ok p -> i = j) /\
  (forall k, 0 <= k < cr_num_elements c ->
     exists i, in_bounds (cr_ib c) (cr_ext c) i /\
               access_element chk (cr_nd c) i = Ok (padd (cr_data c) k)).
Proof. exact c01_addressing_bijection. Qed.
Print Assumptions C01_addressing_bijection.

(** the same for subarrays and views of any nesting: distinct tuples denote
    distinct cells, all of them cells of the array they come from *)
Theorem C01_derived_injective : forall chk c a, array_object c -> derived c a ->
  (forall i, in_bounds (nd_base a) (nd_ext a) i ->
     exists k, 0 <= k < cr_num_elements c /\
               access_element chk a i = Ok (padd (cr_data c) k)) /\
  (forall i j p, in_bounds (nd_base a) (nd_ext a) i -> in_bounds (nd_base a) (nd_ext a) j ->
     access_element chk a i = Ok p -> access_element chk a j = Ok p -> i = j).
Proof. exact c01_derived_injective. Qed.
Print Assumptions C01_derived_injective.

(** * C02 -- Storage orders place elements where the documentation says *)

Theorem C02_storage_order_layout : forall chk c i, array_object c ->
  in_bounds (cr_ib c) (cr_ext c) i ->
  access_element chk (cr_nd c) i =
    Ok (padd (cr_data c)
         (position (so_ordering (cr_storage c)) (so_ascending (cr_storage c)) (cr_ib c) (cr_ext c) i)).
Proof. exact c02_storage_order_layout. Qed.
Print Assumptions C02_storage_order_layout.

(** the constructors give the array the storage order they were passed *)
Theorem C02_constructors_keep_order : forall chk base shape so c,
  order_ok (length shape) so -> layout_ok so (repeat 0 (length shape)) shape ->
  cref_from_list chk (length shape) base shape so = Ok c ->
  cr_storage c = so /\ cr_ext c = shape /\ cr_ib c = repeat 0 (length shape) /\ cr_data c = base.
Proof. exact c02_constructors_keep_order. Qed.
Print Assumptions C02_constructors_keep_order.

(** operator== of storage orders: the same dimension at every rank and the same
    direction for every dimension.  c_storage_order and fortran_storage_order
    differ from two dimensions on *)
Theorem C02_order_equality : forall n a b,
  length (so_ordering a) = n -> length (so_ordering b) = n -> length (so_ascending a) = n -> length (so_ascending b) = n ->
  (so_eqb a b = true <->
   forall d, (d < n)%nat -> nth_error (so_ordering a) d = nth_error (so_ordering b) d /\
                            nth_error (so_ascending a) d = nth_error (so_ascending b) d) /\
  (so_eqb (so_from_c n) (so_from_fortran n) = true <-> (n <= 1)%nat).
Proof. exact c02_order_equality. Qed.
Print Assumptions C02_order_equality.

Theorem C02_named_orders_valid : forall n, order_ok n (so_from_c n) /\ order_ok n (so_from_fortran n).
Proof. exact c02_named_orders_valid. Qed.
Print Assumptions C02_named_orders_valid.

Theorem C02_c_order_is_row_major : forall chk c i, array_object c ->
  cr_storage c = so_from_c (length (cr_ext c)) -> in_bounds (cr_ib c) (cr_ext c) i ->
  access_element chk (cr_nd c) i = Ok (padd (cr_data c) (row_major (cr_ib c) (cr_ext c) i)).
Proof. exact c02_c_order_is_row_major. Qed.
Print Assumptions C02_c_order_is_row_major.

Theorem C02_fortran_order_is_column_major : forall chk c i, array_object c ->
  cr_storage c = so_from_fortran (length (cr_ext c)) -> in_bounds (cr_ib c) (cr_ext c) i ->
  access_element chk (cr_nd c) i = Ok (padd (cr_data c) (column_major (cr_ib c) (cr_ext c) i)).
Proof. exact c02_fortran_order_is_column_major. Qed.
Print Assumptions C02_fortran_order_is_column_major.

Theorem C02_conversions_agree : forall n,
  c_conversion n = Ok (so_from_c n) /\ fortran_conversion n = Ok (so_from_fortran n).
Proof. exact c02_conversions_agree. Qed.
Print Assumptions C02_conversions_agree.

(** * C03 -- Accessor equivalence *)

(** with range checks: identical behaviour on every index tuple, in or out of range *)
Theorem C03_accessors_agree_checked : forall c a i, array_object c -> derived c a ->
  length i = length (nd_ext a) -> bracket true a i = access_element true a i.
Proof. exact c03_accessors_agree_checked. Qed.
Print Assumptions C03_accessors_agree_checked.

(** with or without range checks: the same element for every valid tuple *)
Theorem C03_accessors_agree : forall chk1 chk2 c a i, array_object c -> derived c a ->
  in_bounds (nd_base a) (nd_ext a) i ->
  exists p, bracket chk1 a i = Ok p /\ access_element chk2 a i = Ok p.
Proof. exact c03_accessors_agree. Qed.
Print Assumptions C03_accessors_agree.

(** * C04 -- Range checking is exact and accepted accesses stay inside the array *)

Theorem C04_range_check_exact : forall c a i, array_object c -> derived c a ->
  length i = length (nd_ext a) ->
  Forall2 (fun b k => index_value (k - b)) (nd_base a) i ->
  (in_bounds (nd_base a) (nd_ext a) i ->
     exists k, 0 <= k < cr_num_elements c /\
       access_element true a i = Ok (padd (cr_data c) k) /\
       bracket true a i = Ok (padd (cr_data c) k)) /\
  (~ in_bounds (nd_base a) (nd_ext a) i ->
     access_element true a i = Abort /\ bracket true a i = Abort).
Proof. exact c04_range_check_exact. Qed.
Print Assumptions C04_range_check_exact.

(** no hypothesis on the indices: whatever is accepted is in range and inside the storage *)
Theorem C04_accepted_is_inside : forall c a i p, array_object c -> derived c a ->
  length i = length (nd_ext a) ->
  (access_element true a i = Ok p \/ bracket true a i = Ok p) ->
  in_bounds (nd_base a) (nd_ext a) i /\
  exists k, 0 <= k < cr_num_elements c /\ p = padd (cr_data c) k.
Proof. exact c04_accepted_is_inside. Qed.
Print Assumptions C04_accepted_is_inside.

(** without the hypothesis that index - base is representable the check itself
    overflows: an out-of-range index is then neither accepted nor rejected *)
Theorem C04_extreme_index_refuted : exists c i, array_object c /\
  Forall index_value i /\ length i = length (cr_ext c) /\
  ~ in_bounds (cr_ib c) (cr_ext c) i /\ access_element true (cr_nd c) i = UB.
Proof. exact c04_extreme_index_refuted. Qed.
Print Assumptions C04_extreme_index_refuted.

(** * C05 -- Views alias the elements selected by their ranges *)

Theorem C05_views_alias : forall chk chk' c a ig v,
  array_object c -> derived c a -> built ig -> make_view chk a ig = Ok v ->
  view_shape (nd_base a) (nd_ext a) (ig_ranges ig) (v_ext v) /\
  length (v_ext v) = ig_dims ig /\
  v_ib v = repeat 0 (length (v_ext v)) /\
  (ranges_inside (nd_base a) (nd_ext a) (ig_ranges ig) -> (0 < ig_dims ig)%nat ->
   forall t, in_bounds (v_ib v) (v_ext v) t ->
     in_bounds (nd_base a) (nd_ext a) (source_index (nd_base a) (ig_ranges ig) t) /\
     exists p, access_element chk' (v_nd v) t = Ok p /\
               access_element chk' a (source_index (nd_base a) (ig_ranges ig) t) = Ok p).
Proof. exact c05_views_alias. Qed.
Print Assumptions C05_views_alias.

(** * C06 -- View extents count exactly the selected indices *)

(** the extent computation (as long as it does not overflow) counts exactly the
    indices start + k*stride lying strictly before finish *)
Theorem C06_extent_counts_selected : forall start finish stride len,
  view_len start finish stride = Ok len ->
  0 <= len /\ forall k, 0 <= k < len <-> selected start finish stride k.
Proof. exact c06_extent_counts_selected. Qed.
Print Assumptions C06_extent_counts_selected.

(** ... and it does not overflow when the distances involved are representable *)
Theorem C06_extent_defined : forall start finish stride, stride <> 0 ->
  index_value stride -> index_value (finish - start) -> index_value (finish - start + stride) ->
  (stride = -1 -> - max_index <= finish - start) ->
  exists len, view_len start finish stride = Ok len.
Proof. exact c06_extent_defined. Qed.
Print Assumptions C06_extent_defined.

(** hence the length is the unique count *)
Theorem C06_extent_unique : forall start finish stride len len',
  view_len start finish stride = Ok len -> 0 <= len' ->
  (forall k, 0 <= k < len' <-> selected start finish stride k) -> len' = len.
Proof. exact c06_extent_unique. Qed.
Print Assumptions C06_extent_unique.

(** a zero stride is rejected by the assertion *)
Theorem C06_zero_stride_rejected : forall e s b r st, ir_stride r = 0 -> gav_step true r e s b st = Abort.
Proof. exact c06_zero_stride_rejected. Qed.
Print Assumptions C06_zero_stride_rejected.

(** * C07 -- Accepted views stay inside the parent exactly when no range starts past the end *)

(** exact condition: an accepted view stays inside its parent iff no range
    starts past the end of its dimension *)
Theorem C07_accepted_view_contained_iff : forall c a ig v,
  array_object c -> derived c a -> built ig -> make_view true a ig = Ok v ->
  (ranges_inside (nd_base a) (nd_ext a) (ig_ranges ig) <->
   ~ some_dim starts_past_end (nd_base a) (nd_ext a) (ig_ranges ig)).
Proof. exact c07_accepted_view_contained_iff. Qed.
Print Assumptions C07_accepted_view_contained_iff.

(** then every element of the view is an element of the array *)
Theorem C07_contained_view_is_safe : forall c a ig v t p,
  array_object c -> derived c a -> built ig -> (0 < ig_dims ig)%nat -> make_view true a ig = Ok v ->
  ~ some_dim starts_past_end (nd_base a) (nd_ext a) (ig_ranges ig) ->
  length t = length (v_ext v) -> access_element true (v_nd v) t = Ok p ->
  (exists j, in_bounds (nd_base a) (nd_ext a) j /\ access_element true a j = Ok p) /\
  (exists k, 0 <= k < cr_num_elements c /\ p = padd (cr_data c) k).
Proof. exact c07_contained_view_is_safe. Qed.
Print Assumptions C07_contained_view_is_safe.

(** ranges with positive stride and plain indices (other than the two reserved
    values for open ends) never start past the end and are always safe *)
Theorem C07_forward_ranges_safe : forall c a ig v,
  array_object c -> derived c a -> built ig -> make_view true a ig = Ok v ->
  Forall (fun r => 0 < ir_stride r /\
                   (ir_degenerate r = true -> ir_finish r = ir_start r + 1 /\
                      ir_start r <> - max_index - 1 /\ ir_finish r <> max_index))
         (ig_ranges ig) ->
  ranges_inside (nd_base a) (nd_ext a) (ig_ranges ig).
Proof. exact c07_forward_ranges_safe. Qed.
Print Assumptions C07_forward_ranges_safe.

(** the checks accept A[indices[range(4,-1,-1)]] on an array with extent 4; the
    view has 5 elements, the first of them one past the end of the storage *)
Theorem C07_view_escapes_parent_refuted : exists c ig v t p,
  array_object c /\ built ig /\ make_view true (cr_nd c) ig = Ok v /\
  in_bounds (v_ib v) (v_ext v) t /\
  access_element true (v_nd v) t = Ok p /\
  (forall k, 0 <= k < cr_num_elements c -> p <> padd (cr_data c) k).
Proof. exact c07_view_escapes_parent_refuted. Qed.
Print Assumptions C07_view_escapes_parent_refuted.

(** * C08 -- Writes through views and subarrays hit exactly the aliased element *)

(** Writing v to element i of a (an array, subarray or view of c), by either
    notation: that element then reads v through every array-like object that
    can reach it, every other element of every object reads as before, and no
    slot other than that element changes *)
Theorem C08_write_hits_the_aliased_element : forall (T : Type) (h : heap T) chk c a i v,
  array_object c -> derived c a -> live h c -> in_bounds (nd_base a) (nd_ext a) i ->
  exists h' p, access_element chk a i = Ok p /\ cell_of c p /\
    set_element chk a i v (World h None) = Done tt (World h' None) /\
    set_bracket chk a i v (World h None) = Done tt (World h' None) /\
    (forall q, q <> p -> same_at h h' q) /\
    forall c' a' j, array_object c' -> derived c' a' -> in_bounds (nd_base a') (nd_ext a') j ->
      (access_element chk a' j = Ok p -> reads h' a' j v) /\
      (access_element chk a' j <> Ok p -> forall u, reads h a' j u <-> reads h' a' j u).
Proof. exact c08_write_hits_the_aliased_element. Qed.
Print Assumptions C08_write_hits_the_aliased_element.

(** an element write that throws changes nothing *)
Theorem C08_throwing_write_changes_nothing : forall (T : Type) (h : heap T) chk c a i v,
  array_object c -> derived c a -> in_bounds (nd_base a) (nd_ext a) i ->
  set_element chk a i v (World h (Some O)) = Thrown (World h None).
Proof. exact c08_throwing_write_changes_nothing. Qed.
Print Assumptions C08_throwing_write_changes_nothing.

(** * C09 -- reindex moves the index bases and nothing else *)

(** reindex(b): only the index bases change; the element at position k stays the
    same cell; reindexing back restores the array *)
Theorem C09_reindex_array : forall chk c bases,
  array_object c -> length bases = length (cr_ext c) -> layout_ok (cr_storage c) bases (cr_ext c) ->
  exists c', cr_reindex c bases = Ok c' /\ array_object c' /\
    cr_ib c' = bases /\ cr_ext c' = cr_ext c /\ cr_str c' = cr_str c /\
    cr_storage c' = cr_storage c /\ cr_data c' = cr_data c /\ cr_num_elements c' = cr_num_elements c /\
    cr_reindex c' (cr_ib c) = Ok c /\
    forall k, in_bounds (repeat 0 (length (cr_ext c))) (cr_ext c) k ->
      exists p, access_element chk (cr_nd c) (tadd (cr_ib c) k) = Ok p /\
                access_element chk (cr_nd c') (tadd bases k) = Ok p.
Proof. exact c09_reindex_array. Qed.
Print Assumptions C09_reindex_array.

(** reindex(value) is reindex with that value in every dimension *)
Theorem C09_reindex_scalar : forall c v, array_object c ->
  cr_reindex1 c v = cr_reindex c (repeat v (length (cr_ext c))).
Proof. exact c09_reindex_scalar. Qed.
Print Assumptions C09_reindex_scalar.

Theorem C09_reindex_view : forall chk c v bases,
  array_object c -> derived_view c v -> length bases = length (v_ext v) ->
  addressable bases (v_ext v) (v_str v) ->
  exists v', v_reindex v bases = Ok v' /\ derived_view c v' /\
    v_ib v' = bases /\ v_ext v' = v_ext v /\ v_str v' = v_str v /\ v_num_elements v' = v_num_elements v /\
    v_reindex v' (v_ib v) = Ok v /\
    forall k, in_bounds (repeat 0 (length (v_ext v))) (v_ext v) k ->
      exists p, access_element chk (v_nd v) (tadd (v_ib v) k) = Ok p /\
                access_element chk (v_nd v') (tadd bases k) = Ok p.
Proof. exact c09_reindex_view. Qed.
Print Assumptions C09_reindex_view.

Theorem C09_reindex_view_scalar : forall v b, v_reindex1 v b = v_reindex v (repeat b (length (v_ext v))).
Proof. exact c09_reindex_view_scalar. Qed.
Print Assumptions C09_reindex_view_scalar.

(** * C10 -- reshape keeps the element sequence *)

(** reshape with the right number of elements: data, bases, storage order and
    element count stay; elements correspond by storage position; reshaping back
    restores the array *)
Theorem C10_reshape : forall chk c shape,
  array_object c -> length shape = length (cr_ext c) -> layout_ok (cr_storage c) (cr_ib c) shape ->
  prod shape = cr_num_elements c ->
  exists c', cr_reshape chk c shape = Ok c' /\ array_object c' /\
    cr_ext c' = shape /\ cr_ib c' = cr_ib c /\ cr_storage c' = cr_storage c /\
    cr_data c' = cr_data c /\ cr_num_elements c' = cr_num_elements c /\
    cr_reshape chk c' (cr_ext c) = Ok c /\
    let pos := position (so_ordering (cr_storage c)) (so_ascending (cr_storage c)) (cr_ib c) in
    forall i j, in_bounds (cr_ib c) (cr_ext c) i -> in_bounds (cr_ib c) shape j ->
      (access_element chk (cr_nd c) i = access_element chk (cr_nd c') j <->
       pos (cr_ext c) i = pos shape j).
Proof. exact c10_reshape. Qed.
Print Assumptions C10_reshape.

(** reshape is rejected when the element count differs *)
Theorem C10_reshape_rejected : forall c shape,
  array_object c -> length shape = length (cr_ext c) ->
  Forall (fun e => 0 <= e < 2 ^ 64) shape -> prod shape < 2 ^ 64 -> prod shape <> cr_num_elements c ->
  cr_reshape true c shape = Abort.
Proof. exact c10_reshape_rejected. Qed.
Print Assumptions C10_reshape_rejected.

(** products that wrap around 2^64 are accepted *)
Theorem C10_reshape_wraps_refuted : exists c c' shape, array_object c /\
  length shape = length (cr_ext c) /\ Forall (fun e => 0 <= e < 2 ^ 64) shape /\
  prod shape <> cr_num_elements c /\ cr_reshape true c shape = Ok c'.
Proof. exact c10_reshape_wraps_refuted. Qed.
Print Assumptions C10_reshape_wraps_refuted.

(** * C11 -- resize preserves the common block and value-initialises the rest *)

(** resize to bases/shape: succeeds (when nothing throws), keeps storage order
    and allocator, keeps the value of every position inside both shapes, value-
    initialises every other position, and changes no other array's storage; the
    old storage is released *)
Theorem C11_resize_preserves_common_block : forall (T : Type) (dflt : T) chk (h : heap T) a vs g bases shape,
  owns h a vs -> length shape = length (cr_ext (ma_ref a)) ->
  layout_ok (cr_storage (ma_ref a)) bases shape ->
  eg_num g = length shape -> ranges_are (eg_ranges g) bases shape ->
  exists a' vs' h', ma_resize dflt chk a g (World h None) = Done a' (World h' None) /\
    owns h' a' vs' /\
    cr_ext (ma_ref a') = shape /\ cr_ib (ma_ref a') = bases /\
    cr_storage (ma_ref a') = cr_storage (ma_ref a) /\ ma_aid a' = ma_aid a /\
    (forall k v, in_bounds (repeat 0 (length shape)) shape k ->
       in_bounds (repeat 0 (length shape)) (cr_ext (ma_ref a)) k ->
       reads h (cr_nd (ma_ref a)) (tadd (cr_ib (ma_ref a)) k) v ->
       reads h' (cr_nd (ma_ref a')) (tadd bases k) v) /\
    (forall k, in_bounds (repeat 0 (length shape)) shape k ->
       ~ in_bounds (repeat 0 (length shape)) (cr_ext (ma_ref a)) k ->
       reads h' (cr_nd (ma_ref a')) (tadd bases k) dflt) /\
    ma_block a' = length h /\ length h' = S (length h) /\ nth_error h' (ma_block a) = Some None /\
    (forall b, (b < length h)%nat -> b <> ma_block a -> same_block h h' b).
Proof. exact c11_resize_preserves_common_block. Qed.
Print Assumptions C11_resize_preserves_common_block.

(** resize from a list of extents: the same with all index bases zero (the old
    index bases are not kept) *)
Theorem C11_resize_list : forall (T : Type) (dflt : T) chk a (w : world T) shape,
  length shape = length (cr_ext (ma_ref a)) -> Forall (fun e => 0 <= e <= max_index) shape ->
  exists g, ma_resize_list dflt chk a shape w = ma_resize dflt chk a g w /\
    eg_num g = length shape /\ ranges_are (eg_ranges g) (repeat 0 (length shape)) shape.
Proof. exact c11_resize_list. Qed.
Print Assumptions C11_resize_list.

(** * C12 -- Assignment is an element-wise deep copy *)

(** Assignment is the element assignments dst(k) = src(k) in lexicographic
    order -- for every state of memory, also for overlapping operands and when
    an element assignment throws *)
Theorem C12_assignment_is_elementwise : forall (T : Type) (w : world T) chk c1 c2 dst src,
  array_object c1 -> derived c1 dst -> array_object c2 -> derived c2 src -> nd_ext dst = nd_ext src ->
  assign_nd chk (length (nd_ext dst)) dst src w = assign_in_order chk dst src (positions (nd_ext dst)) w /\
  copy_array chk (length (nd_ext dst)) dst src w = assign_in_order chk dst src (positions (nd_ext dst)) w.
Proof. exact c12_assignment_is_elementwise. Qed.
Print Assumptions C12_assignment_is_elementwise.

(** different shapes are rejected before anything is modified *)
Theorem C12_shape_mismatch_aborts : forall (T : Type) (w : world T) c1 c2 dst src,
  array_object c1 -> derived c1 dst -> array_object c2 -> derived c2 src -> nd_ext dst <> nd_ext src ->
  assign_nd true (length (nd_ext dst)) dst src w = Aborted w /\
  copy_array true (length (nd_ext dst)) dst src w = Aborted w.
Proof. exact c12_shape_mismatch_aborts. Qed.
Print Assumptions C12_shape_mismatch_aborts.

(** dst = src for operands without common cells: afterwards dst reads at every
    position what src read there before, src reads as before, and no slot
    outside dst changes *)
Theorem C12_deep_copy : forall (T : Type) (h : heap T) chk c1 c2 dst src,
  array_object c1 -> derived c1 dst -> array_object c2 -> derived c2 src -> nd_ext dst = nd_ext src ->
  live h c1 -> live h c2 -> no_overlap dst src ->
  exists h', assign_nd chk (length (nd_ext dst)) dst src (World h None) = Done tt (World h' None) /\
    (forall k, in_bounds (repeat 0 (length (nd_ext dst))) (nd_ext dst) k ->
       exists v, reads h src (tadd (nd_base src) k) v /\
                 reads h' src (tadd (nd_base src) k) v /\ reads h' dst (tadd (nd_base dst) k) v) /\
    (forall p, ~ element_of dst p -> same_at h h' p) /\
    live h' c1 /\ live h' c2.
Proof. exact c12_deep_copy. Qed.
Print Assumptions C12_deep_copy.

(** if the (k+1)-th element assignment throws, exactly the first k have been done *)
Theorem C12_throwing_assignment : forall (T : Type) (h : heap T) chk c1 c2 dst src k,
  array_object c1 -> derived c1 dst -> array_object c2 -> derived c2 src -> nd_ext dst = nd_ext src ->
  live h c1 -> live h c2 -> no_overlap dst src -> (k < length (positions (nd_ext dst)))%nat ->
  exists h', assign_nd chk (length (nd_ext dst)) dst src (World h (Some k)) = Thrown (World h' None) /\
    (forall j, In j (firstn k (positions (nd_ext dst))) -> exists v,
       reads h src (tadd (nd_base src) j) v /\ reads h' dst (tadd (nd_base dst) j) v) /\
    (forall j, In j (skipn k (positions (nd_ext dst))) -> exists v,
       reads h dst (tadd (nd_base dst) j) v /\ reads h' dst (tadd (nd_base dst) j) v) /\
    (forall p, ~ element_of dst p -> same_at h h' p).
Proof. exact c12_throwing_assignment. Qed.
Print Assumptions C12_throwing_assignment.

(** dst = src, overlapping or not: it finishes, changes only cells of dst, and
    everything stays a constructed element *)
Theorem C12_only_the_destination_changes : forall (T : Type) (h : heap T) chk c1 c2 dst src,
  array_object c1 -> derived c1 dst -> array_object c2 -> derived c2 src -> nd_ext dst = nd_ext src ->
  live h c1 -> live h c2 ->
  exists h', assign_nd chk (length (nd_ext dst)) dst src (World h None) = Done tt (World h' None) /\
    (forall p, ~ element_of dst p -> same_at h h' p) /\
    (forall p, element_at h p -> element_at h' p).
Proof. exact c12_only_the_destination_changes. Qed.
Print Assumptions C12_only_the_destination_changes.

(** overlapping operands: v = a[1..3) is assigned from w = a[0..2).  Afterwards v
    does not hold what w held before: 10 is smeared over the array *)
Theorem C12_overlap_refuted : exists (c : cref) (dst src : nd) (h h' : heap Z) k v,
  array_object c /\ derived c dst /\ derived c src /\ nd_ext dst = nd_ext src /\ live h c /\
  assign_nd true (length (nd_ext dst)) dst src (World h None) = Done tt (World h' None) /\
  in_bounds (repeat 0 (length (nd_ext dst))) (nd_ext dst) k /\
  reads h src (tadd (nd_base src) k) v /\ ~ reads h' dst (tadd (nd_base dst) k) v.
Proof. exact c12_overlap_refuted. Qed.
Print Assumptions C12_overlap_refuted.

(** * C13 -- Copy construction clones layout and contents into fresh storage *)

(** copy construction: a fresh block, equal geometry and allocator, equal
    elements; nothing that existed changes *)
Theorem C13_copy_construction : forall (T : Type) (dflt : T) (h : heap T) a vs,
  owns h a vs ->
  exists a' h', ma_copy dflt a (World h None) = Done a' (World h' None) /\
    owns h' a' vs /\
    cr_ext (ma_ref a') = cr_ext (ma_ref a) /\ cr_str (ma_ref a') = cr_str (ma_ref a) /\
    cr_ib (ma_ref a') = cr_ib (ma_ref a) /\ cr_storage (ma_ref a') = cr_storage (ma_ref a) /\
    ma_aid a' = ma_aid a /\
    (forall i v, in_bounds (cr_ib (ma_ref a)) (cr_ext (ma_ref a)) i ->
       reads h (cr_nd (ma_ref a)) i v <-> reads h' (cr_nd (ma_ref a')) i v) /\
    ma_block a' = length h /\ length h' = S (length h) /\ untouched h h'.
Proof. exact c13_copy_construction. Qed.
Print Assumptions C13_copy_construction.

(** arrays that own different blocks are independent: no operation on one
    (element writes through it, its subarrays or views, assignment, copy_array,
    for_each, assign) changes what any element of the other reads *)
Theorem C13_copies_are_independent : forall (T : Type) (h : heap T) a va b vb m f,
  owns h a va -> owns h b vb -> ma_block a <> ma_block b -> buffer_op (ma_ref a) m ->
  match m (World h f) with
  | Done _ w | Thrown w | Aborted w =>
      forall i v, in_bounds (cr_ib (ma_ref b)) (cr_ext (ma_ref b)) i ->
        reads h (cr_nd (ma_ref b)) i v <-> reads (w_heap w) (cr_nd (ma_ref b)) i v
  | Undef | OutOfFuel => False
  end.
Proof. exact c13_copies_are_independent. Qed.
Print Assumptions C13_copies_are_independent.

(** * C14 -- Converting construction copies by position into the requested storage order *)

(** converting construction from any array, subarray or view x, with any storage
    order: x's shape and index bases, equal elements at equal indices, fresh
    storage from the given allocator *)
Theorem C14_converting_construction : forall (T : Type) (dflt : T) chk (h : heap T) c x so aid,
  array_object c -> derived c x -> live h c ->
  order_ok (length (nd_ext x)) so -> layout_ok so (nd_base x) (nd_ext x) ->
  exists a vs h', ma_convert dflt chk x so aid (World h None) = Done a (World h' None) /\
    owns h' a vs /\
    cr_ext (ma_ref a) = nd_ext x /\ cr_ib (ma_ref a) = nd_base x /\ cr_storage (ma_ref a) = so /\
    ma_aid a = aid /\
    (forall i v, in_bounds (nd_base x) (nd_ext x) i ->
       reads h x i v -> reads h' (cr_nd (ma_ref a)) i v /\ reads h' x i v) /\
    ma_block a = length h /\ length h' = S (length h) /\ untouched h h'.
Proof. exact c14_converting_construction. Qed.
Print Assumptions C14_converting_construction.

(** the default storage order of the converting constructors is C order, for
    which the array is laid out row by row *)
Theorem C14_default_order_is_row_major : forall (T : Type) (dflt : T) chk (h : heap T) c x aid,
  array_object c -> derived c x -> live h c -> layout_ok (so_from_c (length (nd_ext x))) (nd_base x) (nd_ext x) ->
  exists a vs h', ma_convert dflt chk x (so_from_c (length (nd_ext x))) aid (World h None) = Done a (World h' None) /\
    owns h' a vs /\
    forall i v, in_bounds (nd_base x) (nd_ext x) i -> reads h x i v ->
      nth_error vs (Z.to_nat (row_major (nd_base x) (nd_ext x) i)) = Some v.
Proof. exact c14_default_order_is_row_major. Qed.
Print Assumptions C14_default_order_is_row_major.

(** * C15 -- Equality compares shape and elements by position *)

(** a == b iff the shapes agree and elements at equal positions (distances from
    the index bases) are equal; storage orders, index bases and kinds of array
    do not enter.  != is the negation. *)
Theorem C15_equality_is_positional : forall (T : Type) (eqT : T -> T -> bool) (h : heap T) chk c1 c2 a b,
  array_object c1 -> derived c1 a -> array_object c2 -> derived c2 b -> live h c1 -> live h c2 ->
  length (nd_ext a) = length (nd_ext b) ->
  exists r, nd_eq eqT chk h (length (nd_ext a)) a b = Ok r /\
    nd_neq eqT chk h (length (nd_ext a)) a b = Ok (negb r) /\
    (r = true <->
     nd_ext a = nd_ext b /\
     forall k, in_bounds (repeat 0 (length (nd_ext a))) (nd_ext a) k ->
       exists u v, reads h a (tadd (nd_base a) k) u /\ reads h b (tadd (nd_base b) k) v /\ eqT u v = true).
Proof. exact c15_equality_is_positional. Qed.
Print Assumptions C15_equality_is_positional.

(** == is reflexive, symmetric and transitive if the element == is *)
Theorem C15_equality_is_an_equivalence : forall (T : Type) (eqT : T -> T -> bool) (h : heap T) chk c1 c2 c3 a b d,
  array_object c1 -> derived c1 a -> array_object c2 -> derived c2 b -> array_object c3 -> derived c3 d ->
  live h c1 -> live h c2 -> live h c3 ->
  let n := length (nd_ext a) in length (nd_ext b) = n -> length (nd_ext d) = n ->
  ((forall x, eqT x x = true) -> nd_eq eqT chk h n a a = Ok true) /\
  ((forall x y, eqT x y = true -> eqT y x = true) ->
   nd_eq eqT chk h n a b = Ok true -> nd_eq eqT chk h n b a = Ok true) /\
  ((forall x y z, eqT x y = true -> eqT y z = true -> eqT x z = true) ->
   nd_eq eqT chk h n a b = Ok true -> nd_eq eqT chk h n b d = Ok true -> nd_eq eqT chk h n a d = Ok true).
Proof. exact c15_equality_is_an_equivalence. Qed.
Print Assumptions C15_equality_is_an_equivalence.

(** * C16 -- Ordering is the nested lexicographic order *)

(** a < b compares the contents as nested lists, lexicographically at every
    level; >, <= and >= are derived from < *)
Theorem C16_less_is_nested_lexicographic : forall (T : Type) (ltT : T -> T -> bool) (h : heap T) chk c1 c2 a b,
  array_object c1 -> derived c1 a -> array_object c2 -> derived c2 b -> live h c1 -> live h c2 ->
  let n := length (nd_ext a) in length (nd_ext b) = n ->
  exists ta tb r s, contents h a n ta /\ contents h b n tb /\
    nd_lt ltT chk h n a b = Ok r /\ (r = true <-> tensor_lt ltT n ta tb) /\
    nd_lt ltT chk h n b a = Ok s /\ (s = true <-> tensor_lt ltT n tb ta) /\
    nd_gt ltT chk h n a b = Ok s /\ nd_le ltT chk h n a b = Ok (negb s) /\ nd_ge ltT chk h n a b = Ok (negb r).
Proof. exact c16_less_is_nested_lexicographic. Qed.
Print Assumptions C16_less_is_nested_lexicographic.

(** the contents of an array are unique, so the previous theorem determines < *)
Theorem C16_contents_unique : forall (T : Type) (h : heap T) a n t u,
  Forall (fun e => 0 <= e) (nd_ext a) -> contents h a n t -> contents h a n u -> t = u.
Proof. exact c16_contents_unique. Qed.
Print Assumptions C16_contents_unique.

(** if the element < is a strict weak order, so is < on arrays of any shapes;
    <= is then total and transitive *)
Theorem C16_order_laws : forall (T : Type) (ltT : T -> T -> bool) (h : heap T) chk c1 c2 c3 a b d,
  strict_weak (fun x y => ltT x y = true) ->
  array_object c1 -> derived c1 a -> array_object c2 -> derived c2 b -> array_object c3 -> derived c3 d ->
  live h c1 -> live h c2 -> live h c3 ->
  let n := length (nd_ext a) in length (nd_ext b) = n -> length (nd_ext d) = n ->
  nd_lt ltT chk h n a a = Ok false /\
  (nd_lt ltT chk h n a b = Ok true -> nd_lt ltT chk h n b a = Ok false) /\
  (nd_lt ltT chk h n a b = Ok true -> nd_lt ltT chk h n b d = Ok true -> nd_lt ltT chk h n a d = Ok true) /\
  (nd_lt ltT chk h n a b = Ok false -> nd_lt ltT chk h n b a = Ok false ->
   nd_lt ltT chk h n b d = Ok false -> nd_lt ltT chk h n d b = Ok false ->
   nd_lt ltT chk h n a d = Ok false /\ nd_lt ltT chk h n d a = Ok false) /\
  (nd_le ltT chk h n a b = Ok true \/ nd_le ltT chk h n b a = Ok true) /\
  (nd_le ltT chk h n a b = Ok true -> nd_le ltT chk h n b d = Ok true -> nd_le ltT chk h n a d = Ok true).
Proof. exact c16_order_laws. Qed.
Print Assumptions C16_order_laws.

(** * C17 -- Ordering and equality agree when no leading extent is zero *)

(** with a strict total element order and element == being equality, if no
    extent of a except possibly the last is zero: a == b iff neither is less *)
Theorem C17_trichotomy : forall (T : Type) (eqT ltT : T -> T -> bool) (h : heap T) chk c1 c2 a b,
  strict_total (fun x y => ltT x y = true) -> (forall x y, eqT x y = true <-> x = y) ->
  array_object c1 -> derived c1 a -> array_object c2 -> derived c2 b -> live h c1 -> live h c2 ->
  let n := length (nd_ext a) in length (nd_ext b) = n ->
  Forall (fun e => 0 < e) (removelast (nd_ext a)) ->
  (nd_eq eqT chk h n a b = Ok true <->
   nd_lt ltT chk h n a b = Ok false /\ nd_lt ltT chk h n b a = Ok false).
Proof. exact c17_trichotomy. Qed.
Print Assumptions C17_trichotomy.

(** in general a == b still implies that neither is less *)
Theorem C17_equal_not_less : forall (T : Type) (eqT ltT : T -> T -> bool) (h : heap T) chk c1 c2 a b,
  strict_weak (fun x y => ltT x y = true) -> (forall x y, eqT x y = true -> x = y) ->
  array_object c1 -> derived c1 a -> array_object c2 -> derived c2 b -> live h c1 -> live h c2 ->
  let n := length (nd_ext a) in length (nd_ext b) = n ->
  nd_eq eqT chk h n a b = Ok true ->
  nd_lt ltT chk h n a b = Ok false /\ nd_lt ltT chk h n b a = Ok false.
Proof. exact c17_equal_not_less. Qed.
Print Assumptions C17_equal_not_less.

Theorem C17_trichotomy_refuted : exists c1 c2 (h : heap Z),
  array_object c1 /\ array_object c2 /\ live h c1 /\ live h c2 /\
  nd_lt Z.ltb true h 2 (cr_nd c1) (cr_nd c2) = Ok false /\
  nd_lt Z.ltb true h 2 (cr_nd c2) (cr_nd c1) = Ok false /\
  nd_eq Z.eqb true h 2 (cr_nd c1) (cr_nd c2) = Ok false.
Proof. exact c17_trichotomy_refuted. Qed.
Print Assumptions C17_trichotomy_refuted.

(** * C18 -- Iterators form a valid random-access range *)

(** end() - begin() is size() *)
Theorem C18_distance_is_size : forall c a, array_object c -> derived c a ->
  exists first last size, nd_begin a = Ok first /\ nd_end a = Ok last /\
    hd_error (nd_ext a) = Some size /\ it_distance first last = Ok size /\ it_advance first size = Ok last.
Proof. exact c18_distance_is_size. Qed.
Print Assumptions C18_distance_is_size.

Theorem C18_dereference : forall chk c a k first b, array_object c -> derived c a ->
  nd_begin a = Ok first -> hd_error (nd_base a) = Some b -> index_value (b + k) ->
  exists i, it_advance first k = Ok i /\
    it_deref_n chk i = access_n chk (b + k) a /\ it_deref_one chk i = access_one chk (b + k) a.
Proof. exact c18_dereference. Qed.
Print Assumptions C18_dereference.

(** dereferencing any iterator outside [begin(), end()) aborts; inside it does not *)
Theorem C18_dereference_checked : forall c a i first n, array_object c -> derived c a ->
  iterator_of a i -> nd_begin a = Ok first -> it_distance first i = Ok n ->
  forall size, hd_error (nd_ext a) = Some size ->
  (0 <= n < size -> if (1 <? length (nd_ext a))%nat then exists r, it_deref_n true i = Ok r
                    else exists p, it_deref_one true i = Ok p) /\
  (~ 0 <= n < size -> if (1 <? length (nd_ext a))%nat then it_deref_n true i = Abort
                      else it_deref_one true i = Abort).
Proof. exact c18_dereference_checked. Qed.
Print Assumptions C18_dereference_checked.

Theorem C18_increment_is_advance : forall i,
  it_inc i = it_advance i 1 /\ it_dec i = it_advance i (-1).
Proof. exact c18_increment_is_advance. Qed.
Print Assumptions C18_increment_is_advance.

Theorem C18_advance_add : forall i j k m n,
  it_advance i m = Ok j -> it_advance j n = Ok k -> it_advance i (m + n) = Ok k.
Proof. exact c18_advance_add. Qed.
Print Assumptions C18_advance_add.

(** distance is the inverse of advance *)
Theorem C18_distance_advance : forall c a i j n, array_object c -> derived c a ->
  iterator_of a i -> iterator_of a j -> index_value n ->
  (it_distance i j = Ok n <-> it_advance i n = Ok j).
Proof. exact c18_distance_advance. Qed.
Print Assumptions C18_distance_advance.

(** == is distance 0, < is positive distance; the distance between iterators in
    [begin(), end()] is always defined *)
Theorem C18_comparisons : forall c a i j n, array_object c -> derived c a ->
  iterator_of a i -> iterator_of a j -> it_distance i j = Ok n -> - max_index <= n ->
  (it_equal i j = true <-> n = 0) /\ (it_equal i j = true <-> i = j) /\
  it_less i j = Ok (0 <? n).
Proof. exact c18_comparisons. Qed.
Print Assumptions C18_comparisons.

Theorem C18_distance_defined : forall c a i j first last ni nj size, array_object c -> derived c a ->
  iterator_of a i -> iterator_of a j -> nd_begin a = Ok first -> nd_end a = Ok last ->
  it_distance first last = Ok size ->
  it_distance first i = Ok ni -> it_distance first j = Ok nj -> 0 <= ni <= size -> 0 <= nj <= size ->
  it_distance i j = Ok (nj - ni).
Proof. exact c18_distance_defined. Qed.
Print Assumptions C18_distance_defined.

(** i[n] is *(i + n): begin()[k] is a[index_base + k] *)
Theorem C18_subscript : forall chk c a k first b, array_object c -> derived c a ->
  nd_begin a = Ok first -> hd_error (nd_base a) = Some b -> index_value (b + k) ->
  it_index_n chk first k = access_n chk (b + k) a /\ it_index_one chk first k = access_one chk (b + k) a.
Proof. exact c18_subscript. Qed.
Print Assumptions C18_subscript.

(** * C19 -- Reverse iteration is the exact reverse of forward iteration *)

(** N >= 2: the loop over begin()..end() sees the subarrays a[base], ..., in
    index order; the loop over rbegin()..rend() the same in reverse order *)
Theorem C19_reverse_rows : forall chk c a fuel b size, array_object c -> derived c a ->
  (1 < length (nd_ext a))%nat -> hd_error (nd_base a) = Some b -> hd_error (nd_ext a) = Some size ->
  (Z.to_nat size <= fuel)%nat ->
  exists l, rows_forward chk fuel a = Ok l /\ rows_backward chk fuel a = Ok (rev l) /\
    Forall2 (fun k r => access_n chk k a = Ok r) (zseq b (Z.to_nat size)) l.
Proof. exact c19_reverse_rows. Qed.
Print Assumptions C19_reverse_rows.

(** the same for N = 1, where the loop sees elements *)
Theorem C19_reverse_elements : forall chk c a fuel b size, array_object c -> derived c a ->
  nd_base a = [b] -> nd_ext a = [size] -> (Z.to_nat size <= fuel)%nat ->
  exists l, elems_forward chk fuel a = Ok l /\ elems_backward chk fuel a = Ok (rev l) /\
    Forall2 (fun k p => access_one chk k a = Ok p) (zseq b (Z.to_nat size)) l.
Proof. exact c19_reverse_elements. Qed.
Print Assumptions C19_reverse_elements.

Theorem C19_reverse_random_access : forall chk c a b size k, array_object c -> derived c a ->
  hd_error (nd_base a) = Some b -> hd_error (nd_ext a) = Some size -> 0 <= k <= size ->
  index_value (b - 1) ->
  exists first last r, nd_rbegin a = Ok first /\ nd_rend a = Ok last /\
    ri_distance first last = Ok size /\ ri_advance first size = Ok last /\
    ri_advance first k = Ok r /\ ri_incs (Z.to_nat k) first = Ok r /\
    ri_distance first r = Ok k /\ ri_less first r = Ok (0 <? k) /\ ri_equal first r = (k =? 0) /\
    (0 < k -> exists q, ri_dec r = Ok q /\ ri_inc q = Ok r /\ ri_advance first (k - 1) = Ok q) /\
    ri_deref_n chk r = access_n chk (b + size - 1 - k) a /\
    ri_deref_one chk r = access_one chk (b + size - 1 - k) a.
Proof. exact c19_reverse_random_access. Qed.
Print Assumptions C19_reverse_random_access.

(** * C20 -- Nested iteration visits every element exactly once in index order *)

(** n nested loops visit the elements of the valid tuples, each exactly once, in
    lexicographic order of the tuples *)
Theorem C20_nested_iteration : forall chk c a fuel, array_object c -> derived c a ->
  Forall (fun e => (Z.to_nat e <= fuel)%nat) (nd_ext a) ->
  exists order visited, visit chk fuel (length (nd_ext a)) a = Ok visited /\
    Forall2 (fun i p => access_element chk a i = Ok p) order visited /\
    (forall i, In i order <-> in_bounds (nd_base a) (nd_ext a) i) /\
    StronglySorted lex_less order /\ NoDup visited.
Proof. exact c20_nested_iteration. Qed.
Print Assumptions C20_nested_iteration.

(** the nested traversal applying f to every element: each element is replaced
    by f of its old value, exactly once, and nothing else changes *)
Theorem C20_for_each : forall (T : Type) (h : heap T) chk f c a,
  array_object c -> derived c a -> live h c ->
  exists h', for_each chk f (length (nd_ext a)) a (World h None) = Done tt (World h' None) /\
    (forall i, in_bounds (nd_base a) (nd_ext a) i -> exists v, reads h a i v /\ reads h' a i (f v)) /\
    (forall p, ~ element_of a p -> same_at h h' p).
Proof. exact c20_for_each. Qed.
Print Assumptions C20_for_each.

(** * C21 -- assign(first,last) fills storage order and never overruns *)

(** assign(first, last): the element at storage position k receives the k-th
    input value, for k < min(length, num_elements()); nothing else changes *)
Theorem C21_assign_fills_storage_order : forall (T : Type) (h : heap T) c l,
  array_object c -> live h c ->
  exists h', cr_assign c l (World h None) = Done tt (World h' None) /\
    (forall i, in_bounds (cr_ib c) (cr_ext c) i ->
       let k := position (so_ordering (cr_storage c)) (so_ascending (cr_storage c)) (cr_ib c) (cr_ext c) i in
       match nth_error l (Z.to_nat k) with
       | Some v => reads h' (cr_nd c) i v
       | None => forall v, reads h (cr_nd c) i v <-> reads h' (cr_nd c) i v
       end) /\
    (forall p, (forall k, 0 <= k < Z.min (Z.of_nat (length l)) (cr_num_elements c) -> p <> padd (cr_data c) k) ->
       same_at h h' p).
Proof. exact c21_assign_fills_storage_order. Qed.
Print Assumptions C21_assign_fills_storage_order.

(** if the (n+1)-th element assignment throws, exactly the first n values have
    been stored *)
Theorem C21_assign_throws : forall (T : Type) (h : heap T) c l n,
  array_object c -> live h c -> (n < length l)%nat -> Z.of_nat n < cr_num_elements c ->
  exists h', cr_assign c l (World h (Some n)) = Thrown (World h' None) /\
    cr_assign c (firstn n l) (World h None) = Done tt (World h' None).
Proof. exact c21_assign_throws. Qed.
Print Assumptions C21_assign_throws.

(** * C22 -- Storage lifetime discipline over any history *)

(** after any program: every live variable has exactly its own block, and there
    is no other block that has not been given back *)
Theorem C22_no_leak_no_sharing : forall (T : Type) (dflt : T) eqT ltT chk p os st,
  steps dflt eqT ltT empty_state p os st ->
  exists en h, run dflt eqT ltT chk (Env [] []) p (World [] None) = Done (en, os) (World h None) /\
    memory_ok en h /\
    forall b, outstanding h b <-> exists x m, nth_error (e_vars en) x = Some (Some m) /\ ma_block m = b.
Proof. exact c22_no_leak_no_sharing. Qed.
Print Assumptions C22_no_leak_no_sharing.

(** when all variables have been destroyed every block has been given back *)
Theorem C22_all_memory_returned : forall (T : Type) (dflt : T) eqT ltT chk p os st,
  steps dflt eqT ltT empty_state p os st -> (forall x a, ~ array_is st x a) ->
  exists en h, run dflt eqT ltT chk (Env [] []) p (World [] None) = Done (en, os) (World h None) /\
    forall b, ~ outstanding h b.
Proof. exact c22_all_memory_returned. Qed.
Print Assumptions C22_all_memory_returned.

(** * C23 -- Arrays behave like independent value-semantic maps *)

(** For every program whose calls keep to the contract the run finishes, without
    undefined behaviour, failed assertion or exception, with the outputs of the
    abstract machine and with every variable in the state the abstract machine
    says -- with run-time checks enabled or disabled *)
Theorem C23_programs_behave_as_specified : forall (T : Type) (dflt : T) eqT ltT chk p os st,
  steps dflt eqT ltT empty_state p os st ->
  exists en h, run dflt eqT ltT chk (Env [] []) p (World [] None) = Done (en, os) (World h None) /\ agrees st en h.
Proof. exact c23_programs_behave_as_specified. Qed.
Print Assumptions C23_programs_behave_as_specified.

(** the abstract machine is stuck only outside the contract *)
Theorem C23_legal_commands_proceed : forall (T : Type) (dflt : T) eqT ltT p os st c,
  steps dflt eqT ltT empty_state p os st -> legal st c -> exists o st', step dflt eqT ltT st c o st'.
Proof. exact c23_legal_commands_proceed. Qed.
Print Assumptions C23_legal_commands_proceed.

(** and its results are determined by the program *)
Theorem C23_results_are_determined : forall (T : Type) (dflt : T) eqT ltT p os st os' st',
  steps dflt eqT ltT empty_state p os st -> steps dflt eqT ltT empty_state p os' st' -> os = os' /\ s_arrays st = s_arrays st' /\
  forall k n n', named_is st k n -> named_is st' k n' -> same_place (place_of n) (place_of n').
Proof. exact c23_results_are_determined. Qed.
Print Assumptions C23_results_are_determined.

(** * C24 -- resize gives the strong exception guarantee *)

(** whatever throws during resize (allocation, element construction or element
    assignment, at any point), every block that existed before -- the array's
    own and every other array's -- is bit for bit as before; if nothing throws
    the call completes *)
Theorem C24_resize_strong_guarantee : forall (T : Type) (dflt : T) chk (h : heap T) a vs g bases shape k,
  owns h a vs -> length shape = length (cr_ext (ma_ref a)) ->
  layout_ok (cr_storage (ma_ref a)) bases shape ->
  eg_num g = length shape -> ranges_are (eg_ranges g) bases shape ->
  match ma_resize dflt chk a g (World h (Some k)) with
  | Thrown w => untouched h (w_heap w) /\ owns (w_heap w) a vs
  | Done a' w => exists vs', owns (w_heap w) a' vs' /\ cr_ext (ma_ref a') = shape
  | _ => False
  end.
Proof. exact c24_resize_strong_guarantee. Qed.
Print Assumptions C24_resize_strong_guarantee.

(** what a throwing resize leaves behind besides: nothing when the allocation
    threw; a raw block, never returned, when an element constructor threw; nothing
    (the new block has been returned) when an element assignment threw *)
Theorem C24_resize_leftover : forall (T : Type) (dflt : T) chk (h : heap T) a vs g bases shape k w,
  owns h a vs -> length shape = length (cr_ext (ma_ref a)) ->
  layout_ok (cr_storage (ma_ref a)) bases shape ->
  eg_num g = length shape -> ranges_are (eg_ranges g) bases shape ->
  ma_resize dflt chk a g (World h (Some k)) = Thrown w ->
  let n := Z.to_nat (prod shape) in
  k = O /\ w_heap w = h \/
  (0 < k <= n)%nat /\ w_heap w = h ++ [Some (Block (ma_aid a) (repeat None n))] \/
  (n < k)%nat /\ w_heap w = h ++ [None].
Proof. exact c24_resize_leftover. Qed.
Print Assumptions C24_resize_leftover.

(** * C25 -- What a constructor that throws leaves behind *)

(** every constructor call, with an exception at any point or none: either it
    completes with a new array in one fresh block, or the exception propagates
    and the heap is as before except that, if the exception came after the
    allocation, the new block is still there and nobody owns it; no existing
    block changes in either case *)
Theorem C25_constructor_outcomes : forall (T : Type) (dflt : T) (h : heap T) aid m f,
  constructor dflt h aid m ->
  match m (World h f) with
  | Done a w => exists vs, owns (w_heap w) a vs /\ ma_aid a = aid /\ ma_block a = length h /\
                  length (w_heap w) = S (length h) /\ untouched h (w_heap w)
  | Thrown w => f <> None /\ untouched h (w_heap w) /\
                (f = Some O /\ w_heap w = h \/
                 f <> Some O /\ exists cells, w_heap w = h ++ [Some (Block aid cells)])
  | _ => False
  end.
Proof. exact c25_constructor_outcomes. Qed.
Print Assumptions C25_constructor_outcomes.

(** the memory is not released: whenever allocation succeeds and the constructor
    throws later, the block it obtained stays outstanding *)
Theorem C25_release_refuted : forall (T : Type) (dflt : T) (h : heap T) aid m k w,
  constructor dflt h aid m -> m (World h (Some k)) = Thrown w -> (0 < k)%nat ->
  outstanding (w_heap w) (length h).
Proof. exact c25_release_refuted. Qed.
Print Assumptions C25_release_refuted.

(** the copy constructor: if the exception comes from an element assignment
    (after all elements have been value-initialised), the leaked block is full of
    constructed elements whose destructors never run; if it comes from an element
    constructor, the elements constructed so far have been destroyed and only raw
    memory leaks *)
Theorem C25_copy_leaks_elements : forall (T : Type) (dflt : T) (h : heap T) a vs k w,
  owns h a vs -> ma_copy dflt a (World h (Some k)) = Thrown w ->
  ((length vs < k)%nat -> exists vs', length vs' = length vs /\
     w_heap w = h ++ [Some (Block (ma_aid a) (map Some vs'))]) /\
  ((0 < k <= length vs)%nat -> w_heap w = h ++ [Some (Block (ma_aid a) (repeat None (length vs)))]) /\
  (k = O -> w_heap w = h).
Proof. exact c25_copy_leaks_elements. Qed.
Print Assumptions C25_copy_leaks_elements.

(** * C26 -- num_elements() is the product of the extents modulo 2^64 *)

Theorem C26_num_elements_is_product_mod_2_64 : forall chk n base so bases extents c,
  init_multi_array_ref chk n base so bases extents = Ok c ->
  cr_num_elements c = prod (cr_ext c) mod 2 ^ 64.
Proof. exact c26_num_elements_is_product_mod_2_64. Qed.
Print Assumptions C26_num_elements_is_product_mod_2_64.

Theorem C26_fits_64_bits : forall c, array_object c ->
  cr_num_elements c = prod (cr_ext c).
Proof. exact c26_fits_64_bits. Qed.
Print Assumptions C26_fits_64_bits.

Theorem C26_overflow_refuted : exists c i p,
  cref_from_list true 2 (Ptr 0 0) [2 ^ 32; 2 ^ 32] (so_from_c 2) = Ok c /\
  cr_num_elements c <> prod (cr_ext c) /\
  in_bounds (cr_ib c) (cr_ext c) i /\
  access_element true (cr_nd c) i = Ok p /\
  (forall k, 0 <= k < cr_num_elements c -> p <> padd (cr_data c) k).
Proof. exact c26_overflow_refuted. Qed.
Print Assumptions C26_overflow_refuted.

(** * C27 -- Range notations are interchangeable *)

Theorem C27_setters_commute : forall r s f d,
  ir_set_start (ir_set_finish r f) s = ir_set_finish (ir_set_start r s) f /\
  ir_set_stride (ir_set_start r s) d = ir_set_start (ir_set_stride r d) s /\
  ir_set_stride (ir_set_finish r f) d = ir_set_finish (ir_set_stride r d) f.
Proof. exact c27_setters_commute. Qed.
Print Assumptions C27_setters_commute.

(** start() and finish() turn any range, a single-index range too, into a slice
    with exactly the given bounds *)
Theorem C27_setters_make_slices : forall r s f d,
  ir_set_stride (ir_set_finish (ir_set_start r s) f) d = ir_make s f d /\
  ir_set_start r s = ir_make s (ir_finish r) (ir_stride r) /\
  ir_set_finish r f = ir_make (ir_start r) f (ir_stride r) /\
  ir_degenerate (ir_set_stride r d) = ir_degenerate r.
Proof. exact c27_setters_make_slices. Qed.
Print Assumptions C27_setters_make_slices.

Theorem C27_notations_equal : forall s f d, idx_min < s <= idx_max - 1 -> idx_min <= f < idx_max - 1 ->
  (* range().start(s).finish(f).stride(d) *)
  ir_set_stride (ir_set_finish (ir_set_start ir_default s) f) d = ir_make s f d /\
  (* s <= range().stride(d) < f *)
  ir_lt_right (ir_le_left s (ir_set_stride ir_default d)) f = ir_make s f d /\
  (* s-1 < range().stride(d) < f *)
  ir_lt_left (s - 1) (ir_lt_right (ir_set_stride ir_default d) f) = Ok (ir_make s f d) /\
  (* s <= range().stride(d) <= f-1, for f-1 representable *)
  (idx_min < f -> ir_le_right (ir_le_left s (ir_set_stride ir_default d)) (f - 1) = Ok (ir_make s f d)).
Proof. exact c27_notations_equal. Qed.
Print Assumptions C27_notations_equal.

(** r.set_index_range(s, f, d) makes r the range the constructor would make,
    unless r was a single index: it stays one (index s), whereas assigning a new
    range to it, or calling start() or finish(), makes it a slice *)
Theorem C27_set_index_range : forall r s f d,
  (ir_degenerate r = false -> ir_set_index_range r s f d = ir_make s f d) /\
  (ir_degenerate r = true ->
     ir_set_index_range r s f d <> ir_make s f d /\ ir_degenerate (ir_set_index_range r s f d) = true /\
     ir_start (ir_set_index_range r s f d) = s /\
     ir_set_stride (ir_set_finish (ir_set_start r s) f) d = ir_make s f d).
Proof. exact c27_set_index_range. Qed.
Print Assumptions C27_set_index_range.

Theorem C27_open_ends_mean_bounds : forall chk c a num dims rs,
  array_object c -> derived c a ->
  make_view chk a (IGen num dims (spell_out (nd_base a) (nd_ext a) rs)) =
  make_view chk a (IGen num dims rs).
Proof. exact c27_open_ends_mean_bounds. Qed.
Print Assumptions C27_open_ends_mean_bounds.

(** shifting a fully specified range shifts every selected index *)
Theorem C27_shift_selects_shifted : forall r k r' n i,
  ir_plus r k = Ok r' \/ ir_minus r (- k) = Ok r' ->
  (selected (ir_start r') (ir_finish r') (ir_stride r') n <->
   selected (ir_start r) (ir_finish r) (ir_stride r) n) /\
  (i = ir_start r + n * ir_stride r <-> i + k = ir_start r' + n * ir_stride r').
Proof. exact c27_shift_selects_shifted. Qed.
Print Assumptions C27_shift_selects_shifted.

Theorem C27_shift_roundtrip : forall r k r', ir_plus r k = Ok r' -> idx_min <= ir_start r <= idx_max ->
  idx_min <= ir_finish r <= idx_max -> ir_degenerate r = false -> ir_minus r' k = Ok r.
Proof. exact c27_shift_roundtrip. Qed.
Print Assumptions C27_shift_roundtrip.

(** shifting a range with an open end is not a shift: it overflows *)
Theorem C27_shift_open_range_refuted : ir_plus ir_default 1 = UB /\ ir_minus ir_default 1 = UB.
Proof. exact c27_shift_open_range_refuted. Qed.
Print Assumptions C27_shift_open_range_refuted.

Theorem C27_nth_selected : forall r n v, ir_nth r n = Ok v -> v = ir_start r + n * ir_stride r.
Proof. exact c27_nth_selected. Qed.
Print Assumptions C27_nth_selected.

(** * C28 -- index_range::size() agrees with the view extent exactly when the stride divides the range or the range is empty in place *)

(** exact relation between index_range::size() and the extent of the view *)
Theorem C28_size_vs_view_extent : forall r n len idx,
  ir_start r <> - max_index - 1 -> ir_finish r <> max_index ->
  ir_size r idx = Ok n -> view_len (ir_start r) (ir_finish r) (ir_stride r) = Ok len ->
  n = (Z.quot (ir_finish r - ir_start r) (ir_stride r)) mod 2 ^ 64 /\
  (n = len <->
   0 <= Z.quot (ir_finish r - ir_start r) (ir_stride r) /\
   (Z.rem (ir_finish r - ir_start r) (ir_stride r) = 0 \/
    (ir_finish r - ir_start r) * ir_stride r <= 0)).
Proof. exact c28_size_vs_view_extent. Qed.
Print Assumptions C28_size_vs_view_extent.

Theorem C28_size_disagrees_refuted : exists r n len,
  ir_size r 5 = Ok n /\ view_len (ir_start r) (ir_finish r) (ir_stride r) = Ok len /\ n <> len.
Proof. exact c28_size_disagrees_refuted. Qed.
Print Assumptions C28_size_disagrees_refuted.

(** a range in the wrong direction has size 2^64-something instead of 0 *)
Theorem C28_reverse_range_size_refuted :
  ir_size (ir_make 5 2 1) 5 = Ok (2 ^ 64 - 3) /\ view_len 5 2 1 = Ok 0.
Proof. exact c28_reverse_range_size_refuted. Qed.
Print Assumptions C28_reverse_range_size_refuted.

(** * C29 -- Dimension bookkeeping of index_gen matches the generated view *)

(** indices[x1]...[xN] records its arguments in order and counts the ranges *)
Theorem C29_generator_records_arguments : forall args, args <> [] ->
  Forall (fun x => match x with AIndex k => idx_min <= k < idx_max | _ => True end) args ->
  ig_build indices args = Ok (IGen (length args) (length (filter is_range args)) (map arg_range args)).
Proof. exact c29_generator_records_arguments. Qed.
Print Assumptions C29_generator_records_arguments.

(** an accepted view has exactly as many dimensions as range arguments, and no
    range argument was degenerate *)
Theorem C29_view_dimensions : forall chk c a args ig v,
  array_object c -> derived c a -> args <> [] ->
  Forall (fun x => match x with AIndex k => idx_min <= k < idx_max | _ => True end) args ->
  ig_build indices args = Ok ig -> make_view chk a ig = Ok v ->
  length args = length (nd_ext a) /\
  length (v_ext v) = length (filter is_range args) /\
  Forall (fun x => match x with ARange r => ir_degenerate r = false | _ => True end) args.
Proof. exact c29_view_dimensions. Qed.
Print Assumptions C29_view_dimensions.

(** a degenerate range object passed where a range is expected is rejected *)
Theorem C29_degenerate_range_argument_refuted : exists c ig,
  array_object c /\ built ig /\ ig_dims ig = 1%nat /\ ig_num ig = 1%nat /\
  ig_at_range indices (IRange 2 3 1 true) = Ok ig /\
  make_view true (cr_nd c) ig = Abort /\ make_view false (cr_nd c) ig = UB.
Proof. exact c29_degenerate_range_argument_refuted. Qed.
Print Assumptions C29_degenerate_range_argument_refuted.

(** * C30 -- Which stored handles survive a change of their parent's geometry *)

(** taken and used at once, a stored subarray is the subarray of the rest of the
    model: a[i1]...[ik](j...) is a(i1,...,ik,j...) *)
Theorem C30_fresh_handle : forall chk c is s, array_object c ->
  sub_take true c is = Ok s ->
  derived c (sub_now c s) /\ sh_depth s = length is /\
  forall j, in_bounds (nd_base (sub_now c s)) (nd_ext (sub_now c s)) j ->
    in_bounds (cr_ib c) (cr_ext c) (is ++ j) /\
    access_element chk (sub_now c s) j = access_element chk (cr_nd c) (is ++ j).
Proof. exact c30_fresh_handle. Qed.
Print Assumptions C30_fresh_handle.

(** the parent is reindexed while the subarray is stored: as long as the index
    bases of the subarray's own dimensions stay the same, it is unchanged (the
    bases of the leading dimensions may change freely) *)
Theorem C30_reindex_of_leading_dimensions : forall c is s bases c', array_object c ->
  sub_take true c is = Ok s -> length bases = length (cr_ext c) ->
  layout_ok (cr_storage c) bases (cr_ext c) -> cr_reindex c bases = Ok c' ->
  skipn (length is) bases = skipn (length is) (cr_ib c) ->
  sub_now c' s = sub_now c s.
Proof. exact c30_reindex_of_leading_dimensions. Qed.
Print Assumptions C30_reindex_of_leading_dimensions.

(** otherwise its index range moves with the new bases while its base pointer does
    not: index j denotes the element that was a(i1,...,ik,j) before *)
Theorem C30_reindex_denotes_old_index : forall chk c is s bases c' j, array_object c ->
  sub_take true c is = Ok s -> length bases = length (cr_ext c) ->
  layout_ok (cr_storage c) bases (cr_ext c) -> cr_reindex c bases = Ok c' ->
  nd_base (sub_now c' s) = skipn (length is) bases /\ nd_ext (sub_now c' s) = nd_ext (sub_now c s) /\
  (in_bounds (nd_base (sub_now c' s)) (nd_ext (sub_now c' s)) j ->
   in_bounds (nd_base (sub_now c s)) (nd_ext (sub_now c s)) j ->
   access_element chk (sub_now c' s) j = access_element chk (cr_nd c) (is ++ j)).
Proof. exact c30_reindex_denotes_old_index. Qed.
Print Assumptions C30_reindex_denotes_old_index.

(** so a checked access through a stored subarray can leave the storage after its
    parent has been reindexed *)
Theorem C30_reindex_refuted : exists c is s bases c' j p, array_object c /\
  sub_take true c is = Ok s /\ layout_ok (cr_storage c) bases (cr_ext c) /\
  cr_reindex c bases = Ok c' /\
  access_element true (sub_now c' s) j = Ok p /\ ~ cell_of c' p.
Proof. exact c30_reindex_refuted. Qed.
Print Assumptions C30_reindex_refuted.

(** and after its parent has been reshaped (2x3 to 1x6) *)
Theorem C30_reshape_refuted : exists c is s shape c' j p, array_object c /\
  sub_take true c is = Ok s /\ layout_ok (cr_storage c) (cr_ib c) shape /\
  cr_reshape true c shape = Ok c' /\
  access_element true (sub_now c' s) j = Ok p /\ ~ cell_of c' p.
Proof. exact c30_reshape_refuted. Qed.
Print Assumptions C30_reshape_refuted.

(** stored iterators, used while the array's geometry is unchanged, are begin()
    and end() *)
Theorem C30_fresh_iterator : forall c, array_object c ->
  exists first last, iter_begin c = Ok first /\ iter_end c = Ok last /\
    nd_begin (cr_nd c) = Ok (iter_now c first) /\ nd_end (cr_nd c) = Ok (iter_now c last).
Proof. exact c30_fresh_iterator. Qed.
Print Assumptions C30_fresh_iterator.

(** after a reindex a stored iterator still points where it pointed, but is checked
    against the new index range of the first dimension: its position counts as the
    index it had before *)
Theorem C30_iterator_after_reindex : forall c bases c' b b' e k p, array_object c ->
  length bases = length (cr_ext c) -> layout_ok (cr_storage c) bases (cr_ext c) -> cr_reindex c bases = Ok c' ->
  hd_error (cr_ib c) = Some b -> hd_error bases = Some b' -> hd_error (cr_ext c) = Some e ->
  nd_org (cr_nd c) = p -> b <= k < b + e -> index_value (k - b') ->
  (length (cr_ext c) = 1%nat ->
     it_deref_one true (iter_now c' (IterH k p)) =
     if (b' <=? k) && (k <? b' + e) then it_deref_one true (iter_now c (IterH k p)) else Abort) /\
  ((1 < length (cr_ext c))%nat ->
     match it_deref_n true (iter_now c' (IterH k p)) with
     | Ok r => b' <= k < b' + e /\ nd_base r = tl bases /\
               exists r0, it_deref_n true (iter_now c (IterH k p)) = Ok r0 /\
                 nd_org r = nd_org r0 /\ nd_ext r = nd_ext r0 /\ nd_str r = nd_str r0
     | Abort => ~ b' <= k < b' + e
     | UB => False
     end).
Proof. exact c30_iterator_after_reindex. Qed.
Print Assumptions C30_iterator_after_reindex.

(** stored iterators: a stored end() is never reached from begin() after the
    parent has been reindexed, so a loop running up to it runs away *)
Theorem C30_iterator_refuted : exists c e bases c' b, array_object c /\
  iter_end c = Ok e /\ layout_ok (cr_storage c) bases (cr_ext c) /\
  cr_reindex c bases = Ok c' /\ nd_begin (cr_nd c') = Ok b /\
  forall n i, it_advance b n = Ok i -> it_equal i (iter_now c' e) = false.
Proof. exact c30_iterator_refuted. Qed.
Print Assumptions C30_iterator_refuted.

(** views own their geometry: whatever is done to the array's geometry (reindex,
    reshape), a stored view denotes the same cells as before, and they are cells
    of the array in its new geometry too *)
Theorem C30_views_survive : forall chk c v c', array_object c -> derived_view c v ->
  (exists bases, length bases = length (cr_ext c) /\ layout_ok (cr_storage c) bases (cr_ext c) /\ cr_reindex c bases = Ok c') \/
  (exists shape, length shape = length (cr_ext c) /\ layout_ok (cr_storage c) (cr_ib c) shape /\
     prod shape = cr_num_elements c /\ cr_reshape chk c shape = Ok c') ->
  forall i, in_bounds (v_ib v) (v_ext v) i ->
    exists j, in_bounds (cr_ib c') (cr_ext c') j /\
      access_element chk (v_nd v) i = access_element chk (cr_nd c') j.
Proof. exact c30_views_survive. Qed.
Print Assumptions C30_views_survive.

(** after the array is destroyed or resized, every element access through an old
    subarray, view or reference to it is undefined behaviour *)
Theorem C30_dangling_after_destroy : forall (T : Type) chk (h : heap T) a vs f x i,
  owns h a vs -> derived (ma_ref a) x -> in_bounds (nd_base x) (nd_ext x) i ->
  exists w, ma_destroy a (World h f) = Done tt w /\
    get_element chk x i w = Undef.
Proof. exact c30_dangling_after_destroy. Qed.
Print Assumptions C30_dangling_after_destroy.

Theorem C30_dangling_after_resize : forall (T : Type) (dflt : T) chk (h : heap T) a vs g bases shape x i,
  owns h a vs -> length shape = length (cr_ext (ma_ref a)) ->
  layout_ok (cr_storage (ma_ref a)) bases shape ->
  eg_num g = length shape -> ranges_are (eg_ranges g) bases shape ->
  derived (ma_ref a) x -> in_bounds (nd_base x) (nd_ext x) i ->
  exists a' w, ma_resize dflt chk a g (World h None) = Done a' w /\
    get_element chk x i w = Undef.
Proof. exact c30_dangling_after_resize. Qed.
Print Assumptions C30_dangling_after_resize.

(** * C31 -- Disabling assertions does not change programs that pass them *)

(** a program that, compiled with assertions, runs to its end or to an exception
    (no assertion fires) does exactly the same compiled without: same result,
    same memory, same remaining exception budget *)
Theorem C31_assertions_are_transparent : forall (T : Type) (dflt : T) (A : Type) (m : bool -> M T A) w,
  operation dflt A m ->
  (forall a w', m true w = Done a w' -> m false w = Done a w') /\
  (forall w', m true w = Thrown w' -> m false w = Thrown w').
Proof. exact c31_assertions_are_transparent. Qed.
Print Assumptions C31_assertions_are_transparent.

(** the converse fails: without assertions a program may go on where the checked
    one stops -- reading a(3,0), outside of the array, gives a value *)
Theorem C31_converse_refuted : exists (m : bool -> M Z Z) w, operation 0 Z m /\
  m true w = Aborted w /\ m false w = Done 12 w.
Proof. exact c31_converse_refuted. Qed.
Print Assumptions C31_converse_refuted.

(** * C32 -- origin() is the address of the all-zero index *)

Theorem C32_origin_addresses_elements : forall chk c i, array_object c ->
  in_bounds (cr_ib c) (cr_ext c) i ->
  access_element chk (cr_nd c) i = Ok (padd (cr_origin c) (dot i (cr_str c))).
Proof. exact c32_origin_addresses_elements. Qed.
Print Assumptions C32_origin_addresses_elements.

Theorem C32_derived_origin_addresses_elements : forall chk c a i, array_object c -> derived c a ->
  in_bounds (nd_base a) (nd_ext a) i ->
  access_element chk a i = Ok (padd (nd_org a) (dot i (nd_str a))).
Proof. exact c32_derived_origin_addresses_elements. Qed.
Print Assumptions C32_derived_origin_addresses_elements.

Theorem C32_data_from_origin : forall c, array_object c ->
  Forall (fun up => up = true) (so_ascending (cr_storage c)) ->
  cr_data c = padd (cr_origin c) (dot (cr_ib c) (cr_str c)).
Proof. exact c32_data_from_origin. Qed.
Print Assumptions C32_data_from_origin.

(** origin() itself can point outside the storage *)
Theorem C32_origin_outside_storage_refuted : exists c, array_object c /\
  forall k, 0 <= k <= cr_num_elements c -> cr_origin c <> padd (cr_data c) k.
Proof. exact c32_origin_outside_storage_refuted. Qed.
Print Assumptions C32_origin_outside_storage_refuted.

(** * C33 -- Size queries are consistent *)

Theorem C33_array_sizes : forall c, array_object c ->
  cr_num_elements c = prod (cr_ext c) /\
  cr_max_size c = cr_num_elements c /\
  cr_num_dimensions c = length (cr_ext c) /\
  (exists e es, cr_ext c = e :: es /\ cr_size c = Ok e /\ cr_empty c = Ok (e =? 0)).
Proof. exact c33_array_sizes. Qed.
Print Assumptions C33_array_sizes.

Theorem C33_subarray_and_view_sizes : forall c, array_object c ->
  (forall a, derived c a ->
     sub_num_elements a = prod (nd_ext a) /\ 0 <= prod (nd_ext a) <= cr_num_elements c /\
     exists e es, nd_ext a = e :: es /\ sub_size a = Ok e /\ sub_empty a = Ok (e =? 0)) /\
  (forall v, derived_view c v ->
     v_num_elements v = prod (v_ext v) /\
     exists e es, v_ext v = e :: es /\ v_size v = Ok e /\ v_empty v = Ok (e =? 0)).
Proof. exact c33_subarray_and_view_sizes. Qed.
Print Assumptions C33_subarray_and_view_sizes.

(** empty() looks only at the first extent *)
Theorem C33_empty_iff_no_elements_refuted : exists c, array_object c /\
  cr_num_elements c = 0 /\ cr_empty c = Ok false.
Proof. exact c33_empty_iff_no_elements_refuted. Qed.
Print Assumptions C33_empty_iff_no_elements_refuted.

(** * C34 -- Subarrays partition their parent *)

(** a[i] has the remaining shape and bases, and its element t is a's element (i,t) *)
Theorem C34_subarray_is_a_slice : forall chk c a i b e, array_object c -> derived c a ->
  (1 < length (nd_ext a))%nat -> hd_error (nd_base a) = Some b -> hd_error (nd_ext a) = Some e ->
  b <= i < b + e ->
  exists s, access_n chk i a = Ok s /\ derived c s /\
    nd_ext s = tl (nd_ext a) /\ nd_base s = tl (nd_base a) /\
    forall t, in_bounds (nd_base s) (nd_ext s) t ->
      in_bounds (nd_base a) (nd_ext a) (i :: t) /\
      exists p, access_element chk s t = Ok p /\ access_element chk a (i :: t) = Ok p.
Proof. exact c34_subarray_is_a_slice. Qed.
Print Assumptions C34_subarray_is_a_slice.

(** subarrays at different indices have no element in common, and together they
    have exactly the elements of a *)
Theorem C34_subarrays_partition : forall c a b e, array_object c -> derived c a ->
  (1 < length (nd_ext a))%nat -> hd_error (nd_base a) = Some b -> hd_error (nd_ext a) = Some e ->
  (forall i j s t, i <> j -> access_n true i a = Ok s -> access_n true j a = Ok t -> no_overlap s t) /\
  (forall p, element_of a p <-> exists i s, b <= i < b + e /\ access_n true i a = Ok s /\ element_of s p).
Proof. exact c34_subarrays_partition. Qed.
Print Assumptions C34_subarrays_partition.

(** a[i] = src changes no element of a whose first index is not i *)
Theorem C34_row_assignment_is_local : forall (T : Type) (h : heap T) chk c c2 a i s src,
  array_object c -> derived c a -> (1 < length (nd_ext a))%nat -> access_n true i a = Ok s ->
  array_object c2 -> derived c2 src -> nd_ext s = nd_ext src -> live h c -> live h c2 ->
  exists h', assign_nd chk (length (nd_ext s)) s src (World h None) = Done tt (World h' None) /\
    forall j t v, j <> i -> in_bounds (nd_base a) (nd_ext a) (j :: t) ->
      (reads h a (j :: t) v <-> reads h' a (j :: t) v).
Proof. exact c34_row_assignment_is_local. Qed.
Print Assumptions C34_row_assignment_is_local.

(** * C35 -- Extent specifications are equivalent *)

(** extents[x1][x2]... records its arguments in call order *)
Theorem C35_generator_records_arguments : forall args, args <> [] ->
  eg_build extents args = Ok (EGen (length args) (map arg_erange args)).
Proof. exact c35_generator_records_arguments. Qed.
Print Assumptions C35_generator_records_arguments.

(** extents[n1][n2]... and the collection {n1,n2,...} construct the same array *)
Theorem C35_collection_equivalent : forall chk base so ns g, ns <> [] ->
  Forall index_value ns ->
  eg_build extents (map EExtent ns) = Ok g ->
  cref_from_gen chk base g so = cref_from_list chk (length ns) base ns so.
Proof. exact c35_collection_equivalent. Qed.
Print Assumptions C35_collection_equivalent.

(** extents[range(b1,f1)]...: extent f-b, index base b *)
Theorem C35_ranges_give_bases_and_extents : forall chk base so bases shape g,
  order_ok (length shape) so -> layout_ok so bases shape ->
  eg_build extents (map (fun be => EFromTo (fst be) (fst be + snd be)) (combine bases shape)) = Ok g ->
  exists c, cref_from_gen chk base g so = Ok c /\ array_object c /\
    cr_ext c = shape /\ cr_ib c = bases /\ cr_storage c = so /\ cr_data c = base.
Proof. exact c35_ranges_give_bases_and_extents. Qed.
Print Assumptions C35_ranges_give_bases_and_extents.

(** * C36 -- Composition of views *)

(** the full-range view is the array itself with zero index bases *)
Theorem C36_full_view_is_identity : forall chk chk' c a, array_object c -> derived c a ->
  exists v, make_view chk a (IGen (length (nd_ext a)) (length (nd_ext a))
                                  (repeat ir_all (length (nd_ext a)))) = Ok v /\
    v_ext v = nd_ext a /\ v_ib v = repeat 0 (length (nd_ext a)) /\
    forall k, in_bounds (repeat 0 (length (nd_ext a))) (nd_ext a) k ->
      exists p, access_element chk' (v_nd v) k = Ok p /\
                access_element chk' a (tadd (nd_base a) k) = Ok p.
Proof. exact c36_full_view_is_identity. Qed.
Print Assumptions C36_full_view_is_identity.

(** A view of a view is a view of the parent: given a view v1 of a and a view v2
    of v1, one index_gen applied to a directly gives a view with the shape of v2
    whose elements are the elements of v2.  (The two side conditions exclude
    index bases equal to the least index value and extents above 2^62, where the
    arithmetic on the combined range would overflow.) *)
Theorem C36_views_compose : forall c a ig1 v1 ig2 v2,
  array_object c -> derived c a ->
  Forall (fun b => - max_index <= b) (nd_base a) -> Forall (fun e => 2 * e <= max_index) (nd_ext a) ->
  built ig1 -> (0 < ig_dims ig1)%nat -> make_view true a ig1 = Ok v1 ->
  ranges_inside (nd_base a) (nd_ext a) (ig_ranges ig1) ->
  built ig2 -> (0 < ig_dims ig2)%nat -> make_view true (v_nd v1) ig2 = Ok v2 ->
  ranges_inside (v_ib v1) (v_ext v1) (ig_ranges ig2) ->
  exists ig v, built ig /\ make_view true a ig = Ok v /\
    ranges_inside (nd_base a) (nd_ext a) (ig_ranges ig) /\
    v_ib v = v_ib v2 /\ v_ext v = v_ext v2 /\
    forall chk t, in_bounds (v_ib v2) (v_ext v2) t ->
      exists p, access_element chk (v_nd v2) t = Ok p /\ access_element chk (v_nd v) t = Ok p.
Proof. exact c36_views_compose. Qed.
Print Assumptions C36_views_compose.

(** * C37 -- multi_array_ref touches only the wrapped buffer *)

(** any sequence of operations on a wrapped buffer, whatever its outcome and
    whichever element operation throws, depends only on the num_elements()
    cells starting at data() and changes no other slot *)
Theorem C37_operations_stay_in_the_buffer : forall (T : Type) c (m : M T unit),
  array_object c -> buffer_op c m -> local (cell_of c) m.
Proof. exact c37_operations_stay_in_the_buffer. Qed.
Print Assumptions C37_operations_stay_in_the_buffer.

(** and it is free of undefined behaviour, keeping all cells constructed *)
Theorem C37_operations_are_safe : forall (T : Type) c (m : M T unit) h f,
  array_object c -> buffer_op c m -> live h c ->
  match m (World h f) with
  | Done _ w | Thrown w | Aborted w => live (w_heap w) c
  | Undef | OutOfFuel => False
  end.
Proof. exact c37_operations_are_safe. Qed.
Print Assumptions C37_operations_are_safe.

(** reindex and reshape leave the set of cells as it is (they have no access to
    memory at all) *)
Theorem C37_geometry_keeps_the_buffer : forall c c' bases shape,
  array_object c -> length bases = length (cr_ext c) -> layout_ok (cr_storage c) bases (cr_ext c) ->
  length shape = length (cr_ext c) -> layout_ok (cr_storage c) (cr_ib c) shape ->
  cr_reindex c bases = Ok c' \/ cr_reshape true c shape = Ok c' ->
  array_object c' /\ forall p, cell_of c' p <-> cell_of c p.
Proof. exact c37_geometry_keeps_the_buffer. Qed.
Print Assumptions C37_geometry_keeps_the_buffer.

(** * C38 -- Self assignment and identity assignment are no-ops *)

(** dst = src where dst and src are the same elements position by position
    leaves memory as it is *)
Theorem C38_identity_assignment : forall (T : Type) (h : heap T) chk c1 c2 dst src,
  array_object c1 -> derived c1 dst -> array_object c2 -> derived c2 src -> nd_ext dst = nd_ext src -> live h c1 ->
  (forall k, in_bounds (repeat 0 (length (nd_ext dst))) (nd_ext dst) k ->
     access_element true dst (tadd (nd_base dst) k) = access_element true src (tadd (nd_base src) k)) ->
  assign_nd chk (length (nd_ext dst)) dst src (World h None) = Done tt (World h None) /\
  copy_array chk (length (nd_ext dst)) dst src (World h None) = Done tt (World h None).
Proof. exact c38_identity_assignment. Qed.
Print Assumptions C38_identity_assignment.

(** in particular x = x, through the copy assignment operator or the converting one *)
Theorem C38_self_assignment : forall (T : Type) (h : heap T) chk same c a,
  array_object c -> derived c a -> live h c ->
  assign_copy chk same (length (nd_ext a)) a a (World h None) = Done tt (World h None) /\
  assign_nd chk (length (nd_ext a)) a a (World h None) = Done tt (World h None).
Proof. exact c38_self_assignment. Qed.
Print Assumptions C38_self_assignment.

Theorem C38_identity_assignment_interrupted : forall (T : Type) (h : heap T) chk c1 c2 dst src k,
  array_object c1 -> derived c1 dst -> array_object c2 -> derived c2 src -> nd_ext dst = nd_ext src -> live h c1 ->
  (forall k, in_bounds (repeat 0 (length (nd_ext dst))) (nd_ext dst) k ->
     access_element true dst (tadd (nd_base dst) k) = access_element true src (tadd (nd_base src) k)) ->
  let n := length (all_positions (nd_ext dst)) in
  let out := if (n <=? k)%nat then Done tt (World h (Some (k - n)%nat)) else Thrown (World h None) in
  assign_nd chk (length (nd_ext dst)) dst src (World h (Some k)) = out /\
  copy_array chk (length (nd_ext dst)) dst src (World h (Some k)) = out.
Proof. exact c38_identity_assignment_interrupted. Qed.
Print Assumptions C38_identity_assignment_interrupted.

Theorem C38_programs_identity : forall (T : Type) (dflt : T) eqT ltT chk p os st en h f dst src pd ps,
  steps dflt eqT ltT empty_state p os st ->
  run dflt eqT ltT chk (Env [] []) p (World [] None) = Done (en, os) (World h None) ->
  denotes st dst pd -> denotes st src ps -> same_elements pd ps ->
  unchanged en h f (exec dflt eqT ltT chk en (Assign dst src) (World h f)) /\
  unchanged en h f (exec dflt eqT ltT chk en (CopyArray dst src) (World h f)).
Proof. exact c38_programs_identity. Qed.
Print Assumptions C38_programs_identity.

(** x = x for a multi_array, and e = e for any subarray, view or ref; x = x does not even call an
    element operation, so it cannot throw *)
Theorem C38_programs_self : forall (T : Type) (dflt : T) eqT ltT chk p os st en h f,
  steps dflt eqT ltT empty_state p os st ->
  run dflt eqT ltT chk (Env [] []) p (World [] None) = Done (en, os) (World h None) ->
  (forall x a, array_is st x a -> exec dflt eqT ltT chk en (AssignVar x x) (World h f) = Done (en, ONone) (World h f)) /\
  (forall e pe, denotes st e pe -> unchanged en h f (exec dflt eqT ltT chk en (Assign e e) (World h f))).
Proof. exact c38_programs_self. Qed.
Print Assumptions C38_programs_self.

(** * C39 -- What reshape does with lists of the wrong length *)

(** a list that is too long is written past the end of the extent list *)
Theorem C39_longer_list_writes_past_end : forall chk c shape,
  (length (cr_ext c) < length shape)%nat ->
  cr_num c = accumulate_mul (map to_size shape) ->
  cr_reshape chk c shape = UB.
Proof. exact c39_longer_list_writes_past_end. Qed.
Print Assumptions C39_longer_list_writes_past_end.

(** a list that is too short but has the right product is accepted; the
    remaining old extents stay, and accepted indices leave the storage *)
Theorem C39_shorter_list_refuted : exists c c' i p, array_object c /\
  cr_ext c = [2; 3] /\ cr_reshape true c [6] = Ok c' /\ cr_ext c' = [6; 3] /\
  access_element true (cr_nd c') i = Ok p /\
  (forall k, 0 <= k < cr_num_elements c -> p <> padd (cr_data c) k).
Proof. exact c39_shorter_list_refuted. Qed.
Print Assumptions C39_shorter_list_refuted.

(** * C40 -- Only permutations are usable storage orders *)

(** no constructor accepts an ordering that is not a permutation *)
Theorem C40_invalid_order_unusable : forall chk n base so bases extents c,
  length (so_ordering so) = n -> length extents = n ->
  init_multi_array_ref chk n base so bases extents = Ok c ->
  Permutation (so_ordering so) (seq 0 n).
Proof. exact c40_invalid_order_unusable. Qed.
Print Assumptions C40_invalid_order_unusable.

(** the constructor of general_storage_order always stores N entries *)
Theorem C40_storage_order_lengths : forall n ordering ascending so,
  general_storage_order n ordering ascending = Ok so ->
  length (so_ordering so) = n /\ length (so_ascending so) = n.
Proof. exact c40_storage_order_lengths. Qed.
Print Assumptions C40_storage_order_lengths.

Theorem C40_valid_order_usable : forall chk base so bases shape,
  order_ok (length shape) so -> layout_ok so bases shape ->
  exists c, init_multi_array_ref chk (length shape) base so bases shape = Ok c.
Proof. exact c40_valid_order_usable. Qed.
Print Assumptions C40_valid_order_usable.

Theorem C40_invalid_order_outcome : forall chk n base so bases extents,
  length (so_ordering so) = n -> length (so_ascending so) = n -> length extents = n ->
  ~ Permutation (so_ordering so) (seq 0 n) ->
  (chk = true -> (exists d, In d (so_ordering so) /\ (n <= d)%nat) -> so_ascending so = repeat true n ->
     init_multi_array_ref chk n base so bases extents = Abort) /\
  (chk = false \/ (forall d, In d (so_ordering so) -> (d < n)%nat) ->
     init_multi_array_ref chk n base so bases extents = UB).
Proof. exact c40_invalid_order_outcome. Qed.
Print Assumptions C40_invalid_order_outcome.

(** * C41 -- Basic exception guarantee over any history *)

(** For every program in which any allocation, element construction or element
    assignment may throw and every exception is caught, and whose calls keep to
    the contract however the earlier calls ended: no undefined behaviour; every
    call that throws leaves the state unchanged, or changed on exactly the first k of
    its elements; every live variable still owns its block; the memory not owned
    is exactly one block per constructor call that threw after its allocation and
    per resize call in which the construction of an element threw *)
Theorem C41_exceptions_keep_the_basic_guarantee : forall (T : Type) (dflt : T) eqT ltT chk p,
  always_legal dflt eqT ltT empty_state p ->
  exists en os h st, run_catching dflt eqT ltT chk (Env [] []) p [] = Done (en, os) (World h None) /\
    attempts dflt eqT ltT empty_state p os st /\ agrees st en h /\ memory_ok en h /\
    exists lost, length lost = blocks_lost p os /\ NoDup lost /\ forall b, leaked en h b <-> In b lost.
Proof. exact c41_exceptions_keep_the_basic_guarantee. Qed.
Print Assumptions C41_exceptions_keep_the_basic_guarantee.

(** * C42 -- Named views and refs stay valid exactly until their array is resized or destroyed *)

(** As long as their array is neither resized nor destroyed, a named view or a
    multi_array_ref goes on denoting the same elements, whatever else happens:
    arrays and other views created, filled, assigned, reindexed, reshaped, and
    other arrays resized or destroyed *)
Theorem C42_names_stay_valid : forall (T : Type) (dflt : T) eqT ltT chk p os st k n q os' st',
  steps dflt eqT ltT empty_state p os st -> named_is st k n -> steps dflt eqT ltT st q os' st' ->
  (forall c, In c q -> ~ ends (owner n) c /\ ~ regeometrizes k c) ->
  exists en h en' h' d,
    run dflt eqT ltT chk (Env [] []) p (World [] None) = Done (en, os) (World h None) /\
    run dflt eqT ltT chk en q (World h None) = Done (en', os') (World h' None) /\
    nth_error (e_handles en) k = Some d /\ nth_error (e_handles en') k = Some d /\
    let a := obj_nd (handle_obj d) in
    nd_base a = pl_bases (place_of n) /\ nd_ext a = pl_shape (place_of n) /\
    forall i, in_bounds (nd_base a) (nd_ext a) i ->
      exists v, look st' (place_of n) i v /\ reads h' a i v.
Proof. exact c42_names_stay_valid. Qed.
Print Assumptions C42_names_stay_valid.

(** Once its array has been resized or destroyed, every later use of an element
    through the name is undefined behaviour, however much later it comes *)
Theorem C42_ended_names_dangle : forall (T : Type) (dflt : T) eqT ltT chk p os st k n c o st1 q os' st' i,
  steps dflt eqT ltT empty_state p os st -> named_is st k n ->
  step dflt eqT ltT st c o st1 -> ends (owner n) c -> steps dflt eqT ltT st1 q os' st' ->
  in_bounds (pl_bases (place_of n)) (pl_shape (place_of n)) i ->
  run dflt eqT ltT chk (Env [] []) (p ++ c :: q ++ [Get (Named k) i]) (World [] None) = Undef.
Proof. exact c42_ended_names_dangle. Qed.
Print Assumptions C42_ended_names_dangle.

(** * C43 -- A checked build stops at the first misuse, before it does any damage *)

(** With assertions on, in any program: if what has been done so far is within the
    contract and the next call is a misuse -- an index or iterator position out of
    range anywhere in its operands, subscripts or slices out of bounds, a zero
    stride, shapes that differ in an assignment, or a reshape to another number of
    elements -- then the program aborts at that call, before the call has changed
    anything: memory is as the commands before it left it, and agrees with the
    abstract machine. *)
Theorem C43_misuse_is_caught : forall (T : Type) (dflt : T) eqT ltT p os st c rest,
  steps dflt eqT ltT empty_state p os st -> misuse st c ->
  exists en h, run dflt eqT ltT true (Env [] []) p (World [] None) = Done (en, os) (World h None) /\
    agrees st en h /\
    run dflt eqT ltT true (Env [] []) (p ++ c :: rest) (World [] None) = Aborted (World h None) /\
    forall f, exec dflt eqT ltT true en c (World h f) = Aborted (World h f).
Proof. exact c43_misuse_is_caught. Qed.
Print Assumptions C43_misuse_is_caught.

(** a misuse is outside the contract: the abstract machine has no step for it *)
Theorem C43_misuse_is_illegal : forall (T : Type) (dflt : T) eqT ltT p os st c,
  steps dflt eqT ltT empty_state p os st -> misuse st c -> ~ legal st c.
Proof. exact c43_misuse_is_illegal. Qed.
Print Assumptions C43_misuse_is_illegal.

(** * C44 -- Threads on disjoint elements behave as if run one after the other *)

(** running a thread's steps without interruption is the same as calling the
    functions: same results, memory, aborts and undefined behaviour *)
Theorem C44_steps_refine_calls : forall (T : Type) eqT ltT chk (t : list (call T)) h,
  run_prog (p_thread eqT ltT chk t) (World h None) = run_thread eqT ltT chk t (World h None).
Proof. exact c44_steps_refine_calls. Qed.
Print Assumptions C44_steps_refine_calls.

(** threads of which none uses an element that another writes: under every
    schedule there is no data race, no thread aborts or has undefined behaviour,
    every unfinished thread can go on, and if all have finished the results and the memory
    are those of running the threads one after another, in whatever order *)
Theorem C44_independent_threads : forall (T : Type) eqT ltT chk (h : heap T) (threads : list (list (call T))),
  Forall (Forall (proper h)) threads -> independent threads ->
  forall h' pool, t_steps (h, map (p_thread eqT ltT chk) threads) (h', pool) ->
    ~ data_race pool /\
    (forall i m, nth_error pool i = Some m ->
       (exists rs, m = PRet rs) \/
       (exists p k v, m = PLoad p k /\ t_step (h', pool) (h', set_nth i (k v) pool)) \/
       (exists p v k h2, m = PStore p v k /\ t_step (h', pool) (h2, set_nth i k pool))) /\
    (forall results, all_finished pool results ->
       length results = length threads /\
       forall order, Permutation order (seq 0 (length threads)) ->
         one_after_another eqT ltT chk threads order (World h None) =
         Done (map (fun i => (i, nth i results [])) order) (World h' None)).
Proof. exact c44_independent_threads. Qed.
Print Assumptions C44_independent_threads.

(** no schedule goes on for ever *)
Theorem C44_every_schedule_ends : forall (T : Type) eqT ltT chk (h : heap T) (threads : list (list (call T))),
  ~ exists run : nat -> heap T * list (prog T (list (result T))),
      run O = (h, map (p_thread eqT ltT chk) threads) /\ forall n, t_step (run n) (run (S n)).
Proof. exact c44_every_schedule_ends. Qed.
Print Assumptions C44_every_schedule_ends.

Theorem C44_readers : forall (T : Type) eqT ltT chk (h : heap T) (threads : list (list (call T))),
  Forall (Forall (proper h)) threads -> Forall (Forall (reading T)) threads ->
  independent threads /\
  forall h' pool, t_steps (h, map (p_thread eqT ltT chk) threads) (h', pool) -> h' = h.
Proof. exact c44_readers. Qed.
Print Assumptions C44_readers.

(** one subarray per thread: thread k writes only to elements of a[index_k], with
    different indices for different threads, and reads only these and elements
    outside a *)
Theorem C44_one_subarray_per_thread : forall (T : Type) c a (threads : list (list (call T))) (index : nat -> Z),
  array_object c -> derived c a -> (1 < length (nd_ext a))%nat ->
  (forall i j, (i < length threads)%nat -> (j < length threads)%nat -> index i = index j -> i = j) ->
  (forall i t, nth_error threads i = Some t -> exists s, access_n true (index i) a = Ok s /\
     (forall p, thread_writes t p -> element_of s p) /\
     (forall p, thread_reads t p -> element_of s p \/ ~ element_of a p)) ->
  independent threads.
Proof. exact c44_one_subarray_per_thread. Qed.
Print Assumptions C44_one_subarray_per_thread.

Theorem C44_shared_element_refuted : exists (h : heap Z) (threads : list (list (call Z))),
  Forall (Forall (proper h)) threads /\ ~ independent threads /\
  data_race (map (p_thread Z.eqb Z.ltb true) threads) /\
  exists h1 h2 r1 r2, h1 <> h2 /\
    t_steps (h, map (p_thread Z.eqb Z.ltb true) threads) (h1, map PRet r1) /\
    t_steps (h, map (p_thread Z.eqb Z.ltb true) threads) (h2, map PRet r2).
Proof. exact c44_shared_element_refuted. Qed.
Print Assumptions C44_shared_element_refuted.

(** * C45 -- const access is read-only access *)

(** From a const array, a const_* handle, a const iterator or a pointer or reference
    to const, whatever chain of member calls, slices, iterator steps, dereferences,
    conversions and copies the compiler accepts - unless one of its steps is a
    loophole - the expression reached is again read-only, and no operation that
    changes elements compiles on it. *)
Theorem C45_const_access_is_read_only : forall t p t',
  read_only t = true ->
  no_loophole t p = true ->
  chain_type t p = Some t' ->
  read_only t' = true /\
  forall w, changes_elements w = true -> modifier_ok t' w = false.
Proof. exact c45_const_access_is_read_only. Qed.
Print Assumptions C45_const_access_is_read_only.

(** Conversely every way of modifying elements that starts from read-only access
    goes through a loophole. *)
Theorem C45_only_loopholes : forall t p t' w,
  read_only t = true ->
  chain_type t p = Some t' ->
  changes_elements w = true ->
  modifier_ok t' w = true ->
  exists p1 o p2 t1,
    p = p1 ++ o :: p2 /\ chain_type t p1 = Some t1 /\ loophole t1 o = true.
Proof. exact c45_only_loopholes. Qed.
Print Assumptions C45_only_loopholes.

(** The types called read-only are exactly those from which, loopholes apart,
    nothing can be modified. *)
Theorem C45_read_only_exact : forall t,
  (1 <= typ_dims t)%nat ->
  (read_only t = true <-> ~ can_modify t).
Proof. exact c45_read_only_exact. Qed.
Print Assumptions C45_read_only_exact.

(** The loopholes are real: the compiler accepts each of them, on any number of
    dimensions, and the result can be used to modify the elements of the const
    object. *)
Theorem C45_loopholes_refuted : forall t o,
  loophole t o = true ->
  (1 <= typ_dims t)%nat ->
  read_only t = true /\
  exists t', op_type t o = Some t' /\ can_modify t'.
Proof. exact c45_loopholes_refuted. Qed.
Print Assumptions C45_loopholes_refuted.

(** const is no obstacle to reading: a chain of accesses that compiles on an array
    compiles on the const array too and arrives at the read-only version of the same
    type.  (const_sub_array<T,N,T*>, whose origin() returns T* either way, excepted.) *)
Theorem C45_const_offers_same_access : forall c n k p t,
  c <> KConstSub PMut ->
  p <> [] ->
  forallb is_access p = true ->
  chain_type (TObj c n k) p = Some t ->
  chain_type (TObj c n true) p = Some (read_only_version t).
Proof. exact c45_const_offers_same_access. Qed.
Print Assumptions C45_const_offers_same_access.

(** A const object of any class cannot be assigned, refilled, resized, reindexed or
    reshaped. *)
Theorem C45_const_object_fixed : forall c n w, modifier_ok (TObj c n true) w = false.
Proof. exact c45_const_object_fixed. Qed.
Print Assumptions C45_const_object_fixed.

(** Which non-const objects accept which change: assignment from another array needs
    one of the four mutable classes; assign() needs an array or reference over mutable
    elements; resize() needs a multi_array; arrays and references - also
    const_multi_array_ref - can be reindexed and reshaped, views can be reindexed only,
    subarrays neither. *)
Theorem C45_modifiers_exact : forall c n w,
  modifier_ok (TObj c n false) w = true <->
  match w with
  | WElement => False
  | WArray => In c [KMultiArray; KRef; KSub; KView]
  | WRange => In c [KMultiArray; KRef; KConstRef PMut]
  | WResize => In c [KMultiArray]
  | WReindex => In c [KMultiArray; KRef; KConstRef PMut; KConstRef PConst;
                      KView; KConstView PMut; KConstView PConst]
  | WReshape => In c [KMultiArray; KRef; KConstRef PMut; KConstRef PConst]
  end.
Proof. exact c45_modifiers_exact. Qed.
Print Assumptions C45_modifiers_exact.

(** What every member gives: on a non-const object of one of the four mutable classes
    ([writable]) pointers, iterators, subarrays, views and elements that may be
    modified, otherwise their read-only counterparts; only arrays and references have
    data(); slicing needs as many ranges as there are dimensions.
    (const_sub_array<T,N,T*> is the exception named in C45's loopholes.) *)
Theorem C45_members_exact : forall c n k m,
  (1 <= n)%nat ->
  c <> KConstSub PMut ->
  let writable := negb k && match c with KMultiArray | KRef | KSub | KView => true | _ => false end in
  let pointer := if writable then PMut else PConst in
  op_type (TObj c n k) (OMember m) =
  match m with
  | MOrigin => Some (TPtr pointer)
  | MData => match c with KMultiArray | KRef | KConstRef _ => Some (TPtr pointer) | _ => None end
  | MBegin | MEnd => Some (TIter pointer n)
  | MRbegin | MRend => Some (TRev pointer n)
  | MCall _ => Some (TElem (negb writable))
  | MIndex _ => Some (if Nat.eqb n 1 then TElem (negb writable)
                      else TObj (if writable then KSub else KConstSub PConst) (n - 1) false)
  | MSlice g => if Nat.eqb (ig_num g) n
                then Some (TObj (if writable then KView else KConstView PConst) (ig_dims g) false)
                else None
  end.
Proof. exact c45_members_exact. Qed.
Print Assumptions C45_members_exact.

(** What iterators, pointers and elements give, and which conversions and handle
    copies compile: never one from read-only to mutable, and always the others
    within a family. *)
Theorem C45_steps_exact :
  (forall p n, let const := match p with PConst => true | PMut => false end in
     let target := match n with
                   | O => None
                   | 1%nat => Some (TElem const)
                   | S m => Some (TObj (if const then KConstSub PConst else KSub) m false)
                   end in
     (1 <= n)%nat ->
     op_type (TIter p n) ODeref = target /\ op_type (TRev p n) ODeref = target /\
     (forall i, op_type (TIter p n) (OSubscript i) = target /\ op_type (TRev p n) (OSubscript i) = target) /\
     (forall i, op_type (TIter p n) (OMove i) = Some (TIter p n) /\ op_type (TRev p n) (OMove i) = Some (TRev p n)) /\
     op_type (TIter p n) OReverse = Some (TRev p n) /\ op_type (TRev p n) OBase = Some (TIter p n)) /\
  (forall p, op_type (TPtr p) ODeref = Some (TElem match p with PConst => true | PMut => false end)) /\
  (forall const, op_type (TElem const) OAddress = Some (TPtr (if const then PConst else PMut))) /\
  (forall p q n,
     let legal := match p, q with PConst, PMut => false | _, _ => true end in
     op_type (TIter p n) (OConvert q) = (if legal then Some (TIter q n) else None) /\
     op_type (TRev p n) (OConvert q) = (if legal then Some (TRev q n) else None) /\
     op_type (TPtr p) (OConvert q) = (if legal then Some (TPtr q) else None)) /\
  (forall c n const c',
     op_type (TObj c n const) (OCopy c') = Some (TObj c' n false) <->
     In c' match c with
           | KMultiArray | KRef => [KRef; KConstRef PMut; KConstRef PConst]
           | KConstRef PMut => [KConstRef PMut; KConstRef PConst]
           | KConstRef PConst => [KConstRef PConst]
           | KSub => [KSub; KConstSub PMut; KConstSub PConst]
           | KConstSub PMut => [KConstSub PMut; KConstSub PConst]
           | KConstSub PConst => [KConstSub PConst]
           | KView => [KView; KConstView PMut; KConstView PConst]
           | KConstView PMut => [KConstView PMut; KConstView PConst]
           | KConstView PConst => [KConstView PConst]
           end).
Proof. exact c45_steps_exact. Qed.
Print Assumptions C45_steps_exact.

(** Element access: as many brackets as there are dimensions, or one operator(),
    lead to an element in every class; the element may be assigned exactly if the
    object is a non-const one of class multi_array, multi_array_ref, sub_array or
    multi_array_view. *)
Theorem C45_element_access : forall c k is idx,
  is <> [] ->
  let writable := negb k && match c with KMultiArray | KRef | KSub | KView => true | _ => false end in
  chain_type (TObj c (length is) k) (map (fun i => OMember (MIndex i)) is) = Some (TElem (negb writable)) /\
  chain_type (TObj c (length is) k) [OMember (MCall idx)] = Some (TElem (negb writable)).
Proof. exact c45_element_access. Qed.
Print Assumptions C45_element_access.

(** it->f() means the same as dereferencing and calling f, for iterators over rows; on iterators over the elements of
    a one-dimensional array operator-> is ill-formed. *)
Theorem C45_arrow : forall p n,
  op_type (TIter p (S (S n))) OArrow = op_type (TIter p (S (S n))) ODeref /\
  op_type (TIter p (S (S n))) OArrow <> None /\
  op_type (TIter p 1) OArrow = None.
Proof. exact c45_arrow. Qed.
Print Assumptions C45_arrow.

(** A function that receives some arrays, views, subarrays or iterators as const
    (or as const_* types) and others as mutable, whatever it does with them short of
    a loophole, and however it ends, leaves every storage block unchanged that none
    of the mutable arguments points into. *)
Theorem C45_const_arguments_unchanged : forall (T : Type) (dflt : T) chk types types' args program
    (h h' : heap T) fuse b,
  length types = length args ->
  program_types types program = Some types' ->
  program_without_loophole types program = true ->
  (forall k t v, nth_error types k = Some t -> nth_error args k = Some v ->
                 read_only t = false -> block_of v <> b) ->
  (b < length h)%nat ->
  leaves_heap (run_program dflt chk args program (World h fuse)) h' ->
  nth_error h' b = nth_error h b.
Proof. exact c45_const_arguments_unchanged. Qed.
Print Assumptions C45_const_arguments_unchanged.

(** With a loophole the theorem fails:
      void f(const multi_array<Z,1>& a) { multi_array_ref<Z,1> r(a); r[0] = 42; } *)
Theorem C45_copied_handle_refuted :
  exists types args (program : list (@statement Z)) types' h',
    types = [TObj KMultiArray 1 true] /\
    program_types types program = Some types' /\
    leaves_heap (run_program 0 true args program (World two_heap None)) h' /\
    h' <> two_heap.
Proof. exact c45_copied_handle_refuted. Qed.
Print Assumptions C45_copied_handle_refuted.

(** * C46 -- Generic algorithms see every array as a plain sequence of rows *)

(** Every algorithm, run on the iterators of any arrays, subarrays or views
    without common elements, does exactly what it does on plain sequences: the
    same result, the same final rows, the same behaviour when an operation throws
    (also at which one); nothing outside the arrays changes. *)
Theorem C46_algorithms_see_sequences : forall (T : Type) (dflt : T) eqT ltT (A : Type) (alg : algorithm T A) chk
    (h : heap T) f l qs,
  usable_arrays l -> Forall2 (is_sequence h) l qs ->
  match call_on_sequences eqT ltT alg qs f with
  | Some (Finished r _ st f') => exists h',
      call_algorithm dflt eqT ltT chk alg l (World h f) = Done r (World h' f') /\
      Forall2 (is_sequence h') l (ss_arrays st) /\ elsewhere_same l h h' /\ no_leak h h'
  | Some (Stopped qs' copying) => exists h',
      call_algorithm dflt eqT ltT chk alg l (World h f) = Thrown (World h' None) /\
      Forall2 (is_sequence h') l qs' /\ elsewhere_same l h h' /\ released copying h h'
  | None => True
  end.
Proof. exact c46_algorithms_see_sequences. Qed.
Print Assumptions C46_algorithms_see_sequences.

(** every array, subarray and view is such a sequence, and only one *)
Theorem C46_every_array_is_a_sequence : forall (T : Type) (h : heap T) c a,
  array_object c -> derived c a -> live h c -> exists! q, is_sequence h a q.
Proof. exact c46_every_array_is_a_sequence. Qed.
Print Assumptions C46_every_array_is_a_sequence.

(** so the storage order, the strides, the position in memory and the index base
    of the first dimension cannot be observed: arrays with the same rows give the same result and the same rows *)
Theorem C46_layout_is_invisible : forall (T : Type) (dflt : T) eqT ltT (A : Type) (alg : algorithm T A) chk chk2
    (h h2 : heap T) f l l2 qs,
  usable_arrays l -> usable_arrays l2 ->
  Forall2 (is_sequence h) l qs -> Forall2 (is_sequence h2) l2 qs ->
  call_on_sequences eqT ltT alg qs f <> None ->
  match call_algorithm dflt eqT ltT chk alg l (World h f), call_algorithm dflt eqT ltT chk2 alg l2 (World h2 f) with
  | Done r w, Done r2 w2 => r = r2 /\ w_fuse w = w_fuse w2 /\
      exists qs', Forall2 (is_sequence (w_heap w)) l qs' /\ Forall2 (is_sequence (w_heap w2)) l2 qs'
  | Thrown w, Thrown w2 =>
      exists qs', Forall2 (is_sequence (w_heap w)) l qs' /\ Forall2 (is_sequence (w_heap w2)) l2 qs'
  | _, _ => False
  end.
Proof. exact c46_layout_is_invisible. Qed.
Print Assumptions C46_layout_is_invisible.

(** reversing any array, subarray or view with std::reverse's loop reverses its
    rows *)
Theorem C46_reverse : forall (T : Type) (dflt : T) eqT ltT chk (h : heap T) a q,
  usable_arrays [a] -> is_sequence h a q ->
  exists h', call_algorithm dflt eqT ltT chk (reverse_range (one_dim a)) [a] (World h None) = Done tt (World h' None) /\
    is_sequence h' a (Sequence (q_bases q) (q_shape q) (rev (q_rows q))) /\ elsewhere_same [a] h h' /\ no_leak h h'.
Proof. exact c46_reverse. Qed.
Print Assumptions C46_reverse.

(** sorting any array, subarray or view by insertion sort: the same rows, sorted
    by operator< *)
Theorem C46_sort : forall (T : Type) (dflt : T) eqT ltT chk (h : heap T) a q,
  strict_weak (fun x y => ltT x y = true) -> usable_arrays [a] -> is_sequence h a q ->
  exists h' rows', call_algorithm dflt eqT ltT chk (sort_range (one_dim a)) [a] (World h None) = Done tt (World h' None) /\
    is_sequence h' a (Sequence (q_bases q) (q_shape q) rows') /\ Permutation (q_rows q) rows' /\
    StronglySorted (row_le ltT) rows' /\ elsewhere_same [a] h h' /\ no_leak h h'.
Proof. exact c46_sort. Qed.
Print Assumptions C46_sort.

(** searching a one-dimensional array, subarray or view: the position of the
    first element with the property, or the length; nothing changes *)
Theorem C46_find : forall (T : Type) (dflt : T) eqT ltT chk (p : T -> bool) (h : heap T) a q,
  one_dim a = true -> usable_arrays [a] -> is_sequence h a q ->
  exists vs n h', q_rows q = map (fun v => [v]) vs /\
    call_algorithm dflt eqT ltT chk (find_range p) [a] (World h None) = Done (Z.of_nat n) (World h' None) /\
    is_sequence h' a q /\ elsewhere_same [a] h h' /\
    (n <= length vs)%nat /\
    (forall m v, (m < n)%nat -> nth_error vs m = Some v -> p v = false) /\
    (forall v, nth_error vs n = Some v -> p v = true).
Proof. exact c46_find. Qed.
Print Assumptions C46_find.

(** * C47 -- Only the first N entries of a list argument count *)

(** a list longer than the number of dimensions: the entries beyond it are never
    looked at *)
Theorem C47_longer_lists : forall (T : Type) (dflt : T) chk c,
  array_object c ->
  (forall a i extra, derived c a -> length i = length (nd_ext a) ->
     access_element chk a (i ++ extra) = access_element chk a i) /\
  (forall b extra, length b = length (cr_ext c) -> cr_reindex c (b ++ extra) = cr_reindex c b) /\
  (forall v b extra, derived_view c v -> length b = length (v_ext v) -> v_reindex v (b ++ extra) = v_reindex v b) /\
  (forall n base shape extra so, length shape = n ->
     cref_from_list chk n base (shape ++ extra) so = cref_from_list chk n base shape so) /\
  (forall n shape extra so aid w, length shape = n ->
     ma_from_list dflt chk n (shape ++ extra) so aid w = ma_from_list dflt chk n shape so aid w) /\
  (forall m shape extra w, ma_ref m = c -> length shape = length (cr_ext c) ->
     ma_resize_list dflt chk m (shape ++ extra) w = ma_resize_list dflt chk m shape w) /\
  (forall n o a extra extra', length o = n -> length a = n ->
     general_storage_order n (o ++ extra) (a ++ extra') = general_storage_order n o a).
Proof. exact c47_longer_lists. Qed.
Print Assumptions C47_longer_lists.

(** a shorter list is read past its end: undefined behaviour (an index list may
    run into an assertion first, and is never accepted) *)
Theorem C47_shorter_lists : forall (T : Type) (dflt : T) chk c,
  array_object c ->
  (forall a i, derived c a -> (length i < length (nd_ext a))%nat ->
     access_element false a i = UB /\ (access_element true a i = UB \/ access_element true a i = Abort)) /\
  (forall b, (length b < length (cr_ext c))%nat -> cr_reindex c b = UB) /\
  (forall v b, derived_view c v -> (length b < length (v_ext v))%nat -> v_reindex v b = UB) /\
  (forall n base shape so, (length shape < n)%nat -> cref_from_list chk n base shape so = UB) /\
  (forall n shape so aid w, (length shape < n)%nat -> ma_from_list dflt chk n shape so aid w = Undef) /\
  (forall m shape w, ma_ref m = c -> (length shape < length (cr_ext c))%nat -> ma_resize_list dflt chk m shape w = Undef) /\
  (forall n o a, (length o < n)%nat \/ (length a < n)%nat -> general_storage_order n o a = UB).
Proof. exact c47_shorter_lists. Qed.
Print Assumptions C47_shorter_lists.

(** index lists of unsigned values: index i passed as size_t(i) addresses the same
    element (also a negative i), and the checks reject exactly the indices outside *)
Theorem C47_unsigned_index_list : forall c a i, array_object c -> derived c a ->
  length i = length (nd_ext a) -> Forall index_value i ->
  (in_bounds (nd_base a) (nd_ext a) i ->
     forall chk, access_element_u chk a (map to_size i) = access_element chk a i) /\
  (~ in_bounds (nd_base a) (nd_ext a) i -> access_element_u true a (map to_size i) = Abort).
Proof. exact c47_unsigned_index_list. Qed.
Print Assumptions C47_unsigned_index_list.

(** * C48 -- Which calls can throw, and exactly how much work each does *)

(** the call after any legal program: it performs exactly n operations that can
    throw, whatever the checks are set to, and exactly one allocation if it is a
    constructor or resize and none otherwise *)
Theorem C48_exact_counts : forall (T : Type) (dflt : T) eqT ltT chk p os st c o st' n,
  steps dflt eqT ltT empty_state p os st -> step dflt eqT ltT st c o st' -> costs st c n ->
  exists en h en' h',
    run dflt eqT ltT chk (Env [] []) p (World [] None) = Done (en, os) (World h None) /\ agrees st en h /\
    exec dflt eqT ltT chk en c (World h None) = Done (en', o) (World h' None) /\ agrees st' en' h' /\
    (forall k, (n <= k)%nat -> exec dflt eqT ltT chk en c (World h (Some k)) = Done (en', o) (World h' (Some (k - n)%nat))) /\
    (forall k, (k < n)%nat -> exists h2, exec dflt eqT ltT chk en c (World h (Some k)) = Thrown (World h2 None)) /\
    length h' = (length h + (if allocates c then 1 else 0))%nat.
Proof. exact c48_exact_counts. Qed.
Print Assumptions C48_exact_counts.

(** views, refs, subscripting, reindexing, reshaping, comparing, querying,
    destroying and self-assignment never throw and use up nothing *)
Theorem C48_calls_that_never_throw : forall (T : Type) (dflt : T) eqT ltT chk p os st c o st',
  steps dflt eqT ltT empty_state p os st -> step dflt eqT ltT st c o st' -> costs st c 0 ->
  exists en h en' h',
    run dflt eqT ltT chk (Env [] []) p (World [] None) = Done (en, os) (World h None) /\ agrees st en h /\
    forall f, exec dflt eqT ltT chk en c (World h f) = Done (en', o) (World h' f).
Proof. exact c48_calls_that_never_throw. Qed.
Print Assumptions C48_calls_that_never_throw.

(** every legal call has exactly one count *)
Theorem C48_counts_are_complete : forall (T : Type) (dflt : T) eqT ltT p os st c o st',
  steps dflt eqT ltT empty_state p os st -> step dflt eqT ltT st c o st' -> exists! n, costs st c n.
Proof. exact c48_counts_are_complete. Qed.
Print Assumptions C48_counts_are_complete.

(** whole programs: the counts add up *)
Theorem C48_program_counts : forall (T : Type) (dflt : T) eqT ltT chk p os st n,
  counted dflt eqT ltT empty_state p os st n ->
  exists en h,
    run dflt eqT ltT chk (Env [] []) p (World [] None) = Done (en, os) (World h None) /\ agrees st en h /\
    (forall k, (n <= k)%nat ->
       run dflt eqT ltT chk (Env [] []) p (World [] (Some k)) = Done (en, os) (World h (Some (k - n)%nat))) /\
    (forall k, (k < n)%nat -> exists h2, run dflt eqT ltT chk (Env [] []) p (World [] (Some k)) = Thrown (World h2 None)) /\
    length h = length (filter allocates p).
Proof. exact c48_program_counts. Qed.
Print Assumptions C48_program_counts.

(** * C49 -- std::swap exchanges the elements of two arrays of equal shape *)

(** C49 *)
Theorem C49_swap : forall (T : Type) (dflt : T) chk (h : heap T) a b va vb ra rb,
  owns h a va -> owns h b vb -> ma_block a <> ma_block b ->
  cr_ext (ma_ref a) = cr_ext (ma_ref b) ->
  holds h a ra -> holds h b rb ->
  exists h', std_swap dflt chk false a b (World h None) = Done tt (World h' None) /\
    holds h' a rb /\ holds h' b ra /\
    both_alive h' a b /\ others_same h h' a b /\ no_leak h h'.
Proof. exact c49_swap. Qed.
Print Assumptions C49_swap.

Theorem C49_swap_interrupted : forall (T : Type) (dflt : T) chk (h : heap T) a b va vb ra rb k,
  owns h a va -> owns h b vb -> ma_block a <> ma_block b ->
  cr_ext (ma_ref a) = cr_ext (ma_ref b) ->
  holds h a ra -> holds h b rb ->
  let n := length ra in
  ((1 + 4 * n <= k)%nat -> exists h',
    std_swap dflt chk false a b (World h (Some k)) = Done tt (World h' (Some (k - (1 + 4 * n))%nat)) /\
    holds h' a rb /\ holds h' b ra /\
    both_alive h' a b /\ others_same h h' a b /\ no_leak h h') /\
  ((k < 1 + 4 * n)%nat -> exists h',
    std_swap dflt chk false a b (World h (Some k)) = Thrown (World h' None) /\
    holds h' a (firstn (k - (1 + 2 * n)) rb ++ skipn (k - (1 + 2 * n)) ra) /\
    holds h' b (firstn (k - (1 + 3 * n)) ra ++ skipn (k - (1 + 3 * n)) rb) /\
    both_alive h' a b /\ others_same h h' a b /\
    released (k <? 1 + 2 * n)%nat h h').
Proof. exact c49_swap_interrupted. Qed.
Print Assumptions C49_swap_interrupted.

(** swap(a, a), also when an exception ends it *)
Theorem C49_self_swap : forall (T : Type) (dflt : T) chk (h : heap T) f a va ra,
  owns h a va -> holds h a ra ->
  exists h' f' e, std_swap dflt chk true a a (World h f) = (if e : bool then Thrown (World h' f') else Done tt (World h' f')) /\
    (f = None -> e = false) /\
    holds h' a ra /\ both_alive h' a a /\ others_same h h' a a /\ released e h h'.
Proof. exact c49_self_swap. Qed.
Print Assumptions C49_self_swap.

(** different shapes: the shape check stops the first assignment, before any element
    changed *)
Theorem C49_swap_shape_mismatch : forall (T : Type) (dflt : T) (h : heap T) a b va vb ra rb,
  owns h a va -> owns h b vb ->
  length (cr_ext (ma_ref a)) = length (cr_ext (ma_ref b)) -> cr_ext (ma_ref a) <> cr_ext (ma_ref b) ->
  holds h a ra -> holds h b rb ->
  exists h', std_swap dflt true false a b (World h None) = Aborted (World h' None) /\
    holds h' a ra /\ holds h' b rb /\ untouched h h'.
Proof. exact c49_swap_shape_mismatch. Qed.
Print Assumptions C49_swap_shape_mismatch.

(** * C50 -- assign() from live data, also the array's own *)

(** C50 *)
Theorem C50_assign_from_live_data : forall (T : Type) (h : heap T) f chk c first last cells vs,
  array_object c -> live h c -> input_range first last cells ->
  Forall2 (fun p v => hread h p = Ok v) (firstn (Z.to_nat (cr_num_elements c)) cells) vs ->
  read_before_written c cells ->
  cr_assign_range chk c first last (World h f) = cr_assign c vs (World h f).
Proof. exact c50_assign_from_live_data. Qed.
Print Assumptions C50_assign_from_live_data.

(** what the elements are afterwards *)
Theorem C50_elements_after_assign : forall (T : Type) (h : heap T) chk c first last cells,
  array_object c -> live h c -> input_range first last cells ->
  (forall p, In p cells -> exists v, hread h p = Ok v) ->
  read_before_written c cells ->
  exists h', cr_assign_range chk c first last (World h None) = Done tt (World h' None) /\
    (forall i, in_bounds (cr_ib c) (cr_ext c) i ->
       let k := position (so_ordering (cr_storage c)) (so_ascending (cr_storage c)) (cr_ib c) (cr_ext c) i in
       match nth_error cells (Z.to_nat k) with
       | Some p => forall v, hread h p = Ok v -> reads h' (cr_nd c) i v
       | None => forall v, reads h (cr_nd c) i v <-> reads h' (cr_nd c) i v
       end) /\
    (forall p, (forall k, 0 <= k < Z.min (Z.of_nat (length cells)) (cr_num_elements c) -> p <> padd (cr_data c) k) ->
       same_at h h' p).
Proof. exact c50_elements_after_assign. Qed.
Print Assumptions C50_elements_after_assign.

(** a.assign(a.data(), a.data() + a.num_elements()) changes nothing *)
Theorem C50_assign_own_storage : forall (T : Type) (h : heap T) chk c,
  array_object c -> live h c ->
  exists h', cr_assign_range chk c (InPtr (cr_data c)) (InPtr (padd (cr_data c) (cr_num_elements c))) (World h None) =
             Done tt (World h' None) /\ forall p, same_at h h' p.
Proof. exact c50_assign_own_storage. Qed.
Print Assumptions C50_assign_own_storage.

(** reversing in place: a.assign(a.rbegin(), a.rend()) reads elements it has already
    overwritten *)
Theorem C50_reverse_in_place_refuted :
  exists (c : cref) (h h' : heap Z) first last cells vs i v,
    array_object c /\ live h c /\ input_range first last cells /\
    Forall2 (fun p u => hread h p = Ok u) cells vs /\
    cr_assign_range true c first last (World h None) = Done tt (World h' None) /\
    in_bounds (cr_ib c) (cr_ext c) i /\
    nth_error vs (Z.to_nat (position (so_ordering (cr_storage c)) (so_ascending (cr_storage c)) (cr_ib c) (cr_ext c) i)) = Some v /\
    ~ reads h' (cr_nd c) i v.
Proof. exact c50_reverse_in_place_refuted. Qed.
Print Assumptions C50_reverse_in_place_refuted.

(** * C51 -- Assignment from an array with another element type *)

(** C51 *)
Theorem C51_converting_assignment : forall (T : Type) (conv : T -> T) (h : heap T) chk c1 c2 dst src rd rs,
  array_object c1 -> derived c1 dst -> array_object c2 -> derived c2 src -> nd_ext dst = nd_ext src ->
  no_overlap dst src -> elements h dst rd -> elements h src rs ->
  exists h', assign_convert conv chk (length (nd_ext dst)) dst src (World h None) = Done tt (World h' None) /\
    elements h' dst (map conv rs) /\ elements h' src rs /\
    (forall p, ~ element_of dst p -> same_at h h' p).
Proof. exact c51_converting_assignment. Qed.
Print Assumptions C51_converting_assignment.

(** an exception at the k-th conversion or assignment: the first k elements, in index
    order, are converted; the others still have their old values *)
Theorem C51_conversion_throws : forall (T : Type) (conv : T -> T) (h : heap T) chk c1 c2 dst src rd rs k,
  array_object c1 -> derived c1 dst -> array_object c2 -> derived c2 src -> nd_ext dst = nd_ext src ->
  no_overlap dst src -> elements h dst rd -> elements h src rs -> (k < length rd)%nat ->
  exists h', assign_convert conv chk (length (nd_ext dst)) dst src (World h (Some k)) = Thrown (World h' None) /\
    elements h' dst (firstn k (map conv rs) ++ skipn k rd) /\ elements h' src rs /\
    (forall p, ~ element_of dst p -> same_at h h' p).
Proof. exact c51_conversion_throws. Qed.
Print Assumptions C51_conversion_throws.

Theorem C51_shape_mismatch_aborts : forall (T : Type) (conv : T -> T) (w : world T) c1 c2 dst src,
  array_object c1 -> derived c1 dst -> array_object c2 -> derived c2 src -> nd_ext dst <> nd_ext src ->
  assign_convert conv true (length (nd_ext dst)) dst src w = Aborted w.
Proof. exact c51_shape_mismatch_aborts. Qed.
Print Assumptions C51_shape_mismatch_aborts.

(** with the same element type (no conversion) it is ordinary assignment, whatever the
    overlap and wherever an exception comes *)
Theorem C51_no_conversion : forall (T : Type) (w : world T) chk c1 c2 dst src,
  array_object c1 -> derived c1 dst -> array_object c2 -> derived c2 src -> nd_ext dst = nd_ext src ->
  assign_convert (fun v => v) chk (length (nd_ext dst)) dst src w = assign_nd chk (length (nd_ext dst)) dst src w.
Proof. exact c51_no_conversion. Qed.
Print Assumptions C51_no_conversion.

(** * C52 -- The example programs print and resize_from_MultiArray *)

(** C52 *)
Theorem C52_print : forall (T : Type) (h : heap T) f chk c a n t,
  array_object c -> derived c a -> contents h a n t ->
  print chk n a (World h f) = Done (render n t) (World h f).
Proof. exact c52_print. Qed.
Print Assumptions C52_print.

(** the text determines the shape and every element *)
Theorem C52_print_is_faithful : forall (T : Type) (h1 h2 : heap T) f1 f2 chk1 chk2 c1 c2 a1 a2 n t1 t2 out1 out2 w1 w2,
  array_object c1 -> derived c1 a1 -> contents h1 a1 n t1 ->
  array_object c2 -> derived c2 a2 -> contents h2 a2 n t2 ->
  print chk1 n a1 (World h1 f1) = Done out1 w1 -> print chk2 n a2 (World h2 f2) = Done out2 w2 ->
  (out1 = out2 <-> t1 = t2).
Proof. exact c52_print_is_faithful. Qed.
Print Assumptions C52_print_is_faithful.

(** resize_from_MultiArray *)
Theorem C52_resize_from : forall (T : Type) (dflt : T) chk (h : heap T) a vs c other,
  owns h a vs -> array_object c -> derived c other -> length (nd_ext other) = length (cr_ext (ma_ref a)) ->
  layout_ok (cr_storage (ma_ref a)) (repeat 0 (length (nd_ext other))) (nd_ext other) ->
  exists a' vs' h', resize_from dflt chk a other (World h None) = Done a' (World h' None) /\
    owns h' a' vs' /\
    cr_ext (ma_ref a') = nd_ext other /\ cr_ib (ma_ref a') = repeat 0 (length (nd_ext other)) /\
    (forall k v, in_bounds (repeat 0 (length (nd_ext other))) (nd_ext other) k ->
       in_bounds (repeat 0 (length (nd_ext other))) (cr_ext (ma_ref a)) k ->
       reads h (cr_nd (ma_ref a)) (tadd (cr_ib (ma_ref a)) k) v -> reads h' (cr_nd (ma_ref a')) k v) /\
    (forall k, in_bounds (repeat 0 (length (nd_ext other))) (nd_ext other) k ->
       ~ in_bounds (repeat 0 (length (nd_ext other))) (cr_ext (ma_ref a)) k ->
       reads h' (cr_nd (ma_ref a')) k dflt) /\
    (forall b, (b < length h)%nat -> b <> ma_block a -> same_block h h' b).
Proof. exact c52_resize_from. Qed.
Print Assumptions C52_resize_from.

(** * C53 -- Assignment between overlapping arrays and views *)

(** Assignment (and copy_array) between arrays, subarrays and views that may
    share cells copies the old values for all contents exactly if no cell is
    overwritten at an earlier position than the one at which it is read *)
Theorem C53_overlapping_assignment_exact : forall (T : Type) (x y : T) (h : heap T) chk c1 c2 dst src,
  x <> y -> array_object c1 -> derived c1 dst -> array_object c2 -> derived c2 src -> nd_ext dst = nd_ext src ->
  live h c1 -> live h c2 ->
  let n := length (nd_ext dst) in
  (read_first dst src <->
   forall h2 : heap T, live h2 c1 -> live h2 c2 -> copies (assign_nd chk n dst src) dst src h2) /\
  (read_first dst src <->
   forall h2 : heap T, live h2 c1 -> live h2 c2 -> copies (copy_array chk n dst src) dst src h2).
Proof. exact c53_overlapping_assignment_exact. Qed.
Print Assumptions C53_overlapping_assignment_exact.

(** if the (k+1)-th element assignment throws, the first k positions of dst have
    the old values of src and the others the old values of dst *)
Theorem C53_interrupted : forall (T : Type) (h : heap T) chk c1 c2 dst src k,
  array_object c1 -> derived c1 dst -> array_object c2 -> derived c2 src -> nd_ext dst = nd_ext src ->
  live h c1 -> live h c2 -> read_first dst src -> (k < length (positions (nd_ext dst)))%nat ->
  exists h', assign_nd chk (length (nd_ext dst)) dst src (World h (Some k)) = Thrown (World h' None) /\
    copy_array chk (length (nd_ext dst)) dst src (World h (Some k)) = Thrown (World h' None) /\
    (forall j, In j (firstn k (positions (nd_ext dst))) -> exists v,
       reads h src (tadd (nd_base src) j) v /\ reads h' dst (tadd (nd_base dst) j) v) /\
    (forall j, In j (skipn k (positions (nd_ext dst))) -> exists v,
       reads h dst (tadd (nd_base dst) j) v /\ reads h' dst (tadd (nd_base dst) j) v) /\
    (forall p, ~ element_of dst p -> same_at h h' p).
Proof. exact c53_interrupted. Qed.
Print Assumptions C53_interrupted.

(** blocks of one array: the assignment is right exactly if they are disjoint or
    the source does not begin before the destination *)
Theorem C53_blocks : forall c a dst src o1 o2,
  array_object c -> derived c a -> derived c dst -> derived c src -> nd_ext dst = nd_ext src ->
  box a o1 dst -> box a o2 src ->
  (read_first dst src <-> (no_overlap dst src \/ ~ lex_less o2 o1)).
Proof. exact c53_blocks. Qed.
Print Assumptions C53_blocks.

(** blocks of one array can always be copied: front to back if the source does
    not begin before the destination, else through views with all dimensions
    reversed *)
Theorem C53_one_direction_is_right : forall (T : Type) (h : heap T) chk c a dst src o1 o2 rdst rsrc,
  array_object c -> derived c a -> derived c dst -> derived c src -> nd_ext dst = nd_ext src ->
  box a o1 dst -> box a o2 src ->
  derived c rdst -> derived c rsrc -> mirrored dst rdst -> mirrored src rsrc -> live h c ->
  let n := length (nd_ext dst) in
  (~ lex_less o2 o1 -> copies (assign_nd chk n dst src) dst src h) /\
  (~ lex_less o1 o2 -> copies (assign_nd chk n rdst rsrc) dst src h).
Proof. exact c53_one_direction_is_right. Qed.
Print Assumptions C53_one_direction_is_right.

(** views made with stride-1 ranges are blocks, and views made with reversed full
    ranges are mirrored *)
Theorem C53_unit_views_are_blocks : forall c a corner ig v,
  array_object c -> derived c a -> built ig -> (0 < ig_dims ig)%nat -> make_view true a ig = Ok v ->
  ranges_inside (nd_base a) (nd_ext a) (ig_ranges ig) ->
  unit_ranges (nd_base a) corner (ig_ranges ig) ->
  derived c (v_nd v) /\ box a corner (v_nd v).
Proof. exact c53_unit_views_are_blocks. Qed.
Print Assumptions C53_unit_views_are_blocks.

Theorem C53_reversed_views_are_mirrored : forall c a ig v,
  array_object c -> derived c a -> built ig -> (0 < ig_dims ig)%nat -> make_view true a ig = Ok v ->
  Forall (fun e => 0 < e) (nd_ext a) -> reverse_ranges (nd_base a) (nd_ext a) (ig_ranges ig) ->
  derived c (v_nd v) /\ mirrored a (v_nd v).
Proof. exact c53_reversed_views_are_mirrored. Qed.
Print Assumptions C53_reversed_views_are_mirrored.

(** * C54 -- Copies compare equal to what they were copied from *)

(** dst = src copies src's old values and leaves dst == src, for all contents,
    exactly if every cell the two share has the same position in both *)
Theorem C54_assignment_postcondition : forall (T : Type) (eqT : T -> T -> bool) (x y : T) (h : heap T) chk c1 c2 dst src,
  (forall v, eqT v v = true) -> eqT x y = false ->
  array_object c1 -> derived c1 dst -> array_object c2 -> derived c2 src -> nd_ext dst = nd_ext src ->
  live h c1 -> live h c2 ->
  let prog := assign_nd chk (length (nd_ext dst)) dst src in
  (aligned dst src <->
   forall h2 : heap T, live h2 c1 -> live h2 c2 ->
     copies prog dst src h2 /\ then_equal eqT chk prog dst src h2).
Proof. exact c54_assignment_postcondition. Qed.
Print Assumptions C54_assignment_postcondition.

(** for dst == src alone it is enough that no cell of src is overwritten after it
    has been read (then dst may have got values already assigned) *)
Theorem C54_equal_after_assignment : forall (T : Type) (eqT : T -> T -> bool) (h : heap T) chk c1 c2 dst src,
  (forall v, eqT v v = true) ->
  array_object c1 -> derived c1 dst -> array_object c2 -> derived c2 src -> nd_ext dst = nd_ext src ->
  live h c1 -> live h c2 -> read_first src dst ->
  then_equal eqT chk (assign_nd chk (length (nd_ext dst)) dst src) dst src h /\
  then_equal eqT chk (copy_array chk (length (nd_ext dst)) dst src) dst src h.
Proof. exact c54_equal_after_assignment. Qed.
Print Assumptions C54_equal_after_assignment.

(** the documented postcondition *this == x fails for overlapping operands: a[0..2) = a[1..3) *)
Theorem C54_postcondition_refuted : exists (c : cref) (dst src : nd) (h h' : heap Z),
  array_object c /\ derived c dst /\ derived c src /\ nd_ext dst = nd_ext src /\ live h c /\
  assign_nd true (length (nd_ext dst)) dst src (World h None) = Done tt (World h' None) /\
  nd_eq Z.eqb true h' (length (nd_ext dst)) dst src = Ok false.
Proof. exact c54_postcondition_refuted. Qed.
Print Assumptions C54_postcondition_refuted.

(** copies compare equal to the original and not less in either direction *)
Theorem C54_copies_compare_equal : forall (T : Type) (dflt : T) (eqT : T -> T -> bool) (ltT : T -> T -> bool) chk (h : heap T) a vs,
  (forall v, eqT v v = true) -> (forall x y, eqT x y = true -> x = y) -> strict_weak (fun x y => ltT x y = true) ->
  owns h a vs ->
  let x := cr_nd (ma_ref a) in let n := length (nd_ext x) in
  exists a' h', ma_copy dflt a (World h None) = Done a' (World h' None) /\
    let x' := cr_nd (ma_ref a') in
    nd_eq eqT chk h' n x' x = Ok true /\ nd_eq eqT chk h' n x x' = Ok true /\
    nd_lt ltT chk h' n x' x = Ok false /\ nd_lt ltT chk h' n x x' = Ok false.
Proof. exact c54_copies_compare_equal. Qed.
Print Assumptions C54_copies_compare_equal.

(** an array constructed from any array, subarray or view compares equal to it *)
Theorem C54_converted_arrays_compare_equal : forall (T : Type) (dflt : T) (eqT : T -> T -> bool) chk (h : heap T) c x so aid,
  (forall v, eqT v v = true) ->
  array_object c -> derived c x -> live h c ->
  order_ok (length (nd_ext x)) so -> layout_ok so (nd_base x) (nd_ext x) ->
  exists a h', ma_convert dflt chk x so aid (World h None) = Done a (World h' None) /\
    nd_eq eqT chk h' (length (nd_ext x)) (cr_nd (ma_ref a)) x = Ok true.
Proof. exact c54_converted_arrays_compare_equal. Qed.
Print Assumptions C54_converted_arrays_compare_equal.

(** * C55 -- No program can observe where its storage lies, and independent parts of a program do not interfere *)

(** C55: wherever the storage of a program state lies -- moved, compacted, at
    identities used before, among other blocks -- a call gives the same result:
    the same value, the same exception or the same failed assertion, and again
    the same state up to where it lies. *)
Theorem C55_place_does_not_matter :
  forall (T : Type) (dflt : T) (eqT ltT : T -> T -> bool) (chk : bool)
         (en en' : env) (h h' : heap T) (c : command) (f : option nat),
  relocated en h en' h' ->
  match exec dflt eqT ltT chk en c (World h f) with
  | Done (en1, o) w => exists en1' h1',
      exec dflt eqT ltT chk en' c (World h' f) = Done (en1', o) (World h1' (w_fuse w)) /\
      relocated en1 (w_heap w) en1' h1'
  | Thrown w => exists h1',
      exec dflt eqT ltT chk en' c (World h' f) = Thrown (World h1' (w_fuse w)) /\
      relocated en (w_heap w) en' h1'
  | Aborted w => exists h1',
      exec dflt eqT ltT chk en' c (World h' f) = Aborted (World h1' (w_fuse w)) /\
      relocated en (w_heap w) en' h1'
  | _ => True
  end.
Proof. exact c55_place_does_not_matter. Qed.
Print Assumptions C55_place_does_not_matter.

(** C55: a program whose storage is moved at will between its calls (compaction,
    reuse of returned blocks' identities, foreign blocks coming and going) yields
    exactly the outputs it yields when nothing is ever moved. *)
Theorem C55_moving_storage_is_unobservable :
  forall (T : Type) (dflt : T) (eqT ltT : T -> T -> bool) (chk : bool)
         (p : list (command * option nat)) (en2 : env) (os os' : list (option output)) (w : world T) (h0 : heap T),
  run_catching dflt eqT ltT chk (Env [] []) p [] = Done (en2, os) w ->
  moving_run dflt eqT ltT chk (Env [] []) h0 p os' ->
  os' = os.
Proof. exact c55_moving_storage_is_unobservable. Qed.
Print Assumptions C55_moving_storage_is_unobservable.

(** C55: and such a machine never gets stuck where the unmoved program does not. *)
Theorem C55_moving_storage_never_stuck :
  forall (T : Type) (dflt : T) (eqT ltT : T -> T -> bool) (chk : bool)
         (p : list (command * option nat)) (en en' en2 : env) (h h' : heap T) (os : list (option output)) (w : world T),
  run_catching dflt eqT ltT chk en p h = Done (en2, os) w ->
  relocated en h en' h' ->
  moving_run dflt eqT ltT chk en' h' p os /\
  exists en2' h2', run_catching dflt eqT ltT chk en' p h' = Done (en2', os) (World h2' (w_fuse w)) /\
                   relocated en2 (w_heap w) en2' h2'.
Proof. exact c55_moving_storage_never_stuck. Qed.
Print Assumptions C55_moving_storage_never_stuck.

(** C55: independent parts of a program -- each with arrays, views and refs of its
    own, all storage in one heap -- running interleaved in any order, with any
    exceptions: if each part alone is fine, then together they are fine, each part
    sees exactly the outputs it sees alone, and at the end the shared heap is the
    disjoint union of the storage the parts would have alone: nothing shared,
    nothing lost, nothing else alive. *)
Theorem C55_independent_parts_do_not_interfere :
  forall (T : Type) (dflt : T) (eqT ltT : T -> T -> bool) (chk : bool)
         (n : nat) (sched : list (nat * (command * option nat))),
  Forall (fun e => (fst e < n)%nat) sched ->
  (forall i, (i < n)%nat -> exists en os w,
     run_catching dflt eqT ltT chk (Env [] []) (part i sched) [] = Done (en, os) w) ->
  exists ens os w own_env own_heap,
    run_together dflt eqT ltT chk (repeat (Env [] []) n) sched [] = Done (ens, os) w /\
    (forall i, (i < n)%nat ->
       run_catching dflt eqT ltT chk (Env [] []) (part i sched) []
         = Done (own_env i, part i os) (World (own_heap i) None)) /\
    side_by_side n own_env own_heap ens (w_heap w).
Proof. exact c55_independent_parts_do_not_interfere. Qed.
Print Assumptions C55_independent_parts_do_not_interfere.

(** C55: a program run next to any storage of others leaves every block of that
    storage exactly as it was. *)
Theorem C55_foreign_storage_is_untouched :
  forall (T : Type) (dflt : T) (eqT ltT : T -> T -> bool) (chk : bool)
         (p : list (command * option nat)) (en2 : env) (os : list (option output)) (w : world T) (h0 : heap T),
  run_catching dflt eqT ltT chk (Env [] []) p [] = Done (en2, os) w ->
  exists en2' h2',
    run_catching dflt eqT ltT chk (Env [] []) p h0 = Done (en2', os) (World h2' (w_fuse w)) /\
    relocated en2 (w_heap w) en2' h2' /\
    forall b, (b < length h0)%nat -> hblock h2' b = hblock h0 b.
Proof. exact c55_foreign_storage_is_untouched. Qed.
Print Assumptions C55_foreign_storage_is_untouched.

(** * C56 -- Kept subarrays and iterators are abbreviations *)

(** a program that keeps subarrays and iterators does what the same program does
    when every use of one is written out as an expression, as long as none is used
    after its array's geometry was changed *)
Theorem C56_kept_objects_are_abbreviations : forall (T : Type) (dflt : T) eqT ltT chk p,
  match run_steps (lexec dflt eqT ltT chk) (LEnv (Env [] []) []) p [] with
  | Done (le, os) w => exists ks,
      run_steps (kexec dflt eqT ltT chk) (KEnv (Env [] []) []) p [] = Done (KEnv (le_env le) ks, os) w
  | Aborted w => run_steps (kexec dflt eqT ltT chk) (KEnv (Env [] []) []) p [] = Aborted w
  | Thrown _ | Undef | OutOfFuel => True
  end.
Proof. exact c56_kept_objects_are_abbreviations. Qed.
Print Assumptions C56_kept_objects_are_abbreviations.

(** contract-keeping programs with kept subarrays and iterators behave as the
    abstract machine says *)
Theorem C56_programs_behave_as_specified : forall (T : Type) (dflt : T) eqT ltT chk p os st ns,
  ksteps dflt eqT ltT empty_state [] p os st ns ->
  exists en ks h, run_steps (kexec dflt eqT ltT chk) (KEnv (Env [] []) []) (map (fun c => (c, None)) p) [] =
    Done (KEnv en ks, map Some os) (World h None) /\ agrees st en h.
Proof. exact c56_programs_behave_as_specified. Qed.
Print Assumptions C56_programs_behave_as_specified.

Theorem C56_unnamed_view_refuted : forall (T : Type) (dflt : T) eqT ltT chk ke e w ke' o w',
  from_view e = true -> (kexec dflt eqT ltT chk ke (XKeep e) w = Done (ke', o) w' \/
    exists edge, kexec dflt eqT ltT chk ke (XStart edge e) w = Done (ke', o) w') ->
  exists k, (k < length (ke_kept ke'))%nat /\
    forall w i n v, kexec dflt eqT ltT chk ke' (XGet (XKept k) i) w = Undef /\
      kexec dflt eqT ltT chk ke' (XSet (XKept k) i v) w = Undef /\
      kexec dflt eqT ltT chk ke' (XGet (XDeref k) i) w = Undef /\
      kexec dflt eqT ltT chk ke' (XMove k n) w = Undef /\
      kexec dflt eqT ltT chk ke' (XRead k) w = Undef /\
      kexec dflt eqT ltT chk ke' (XWrite k v) w = Undef.
Proof. exact c56_unnamed_view_refuted. Qed.
Print Assumptions C56_unnamed_view_refuted.

Theorem C56_reindexed_parent_refuted : exists ke h,
  run_steps (kexec 0 Z.eqb Z.ltb true) (KEnv (Env [] []) []) ex_c56_reindexed [] =
    Done (ke, [Some ONone; Some ONone; Some ONone; Some ONone; Some (OVal 2); Some (OVal 1)]) (World h None) /\
  run_steps (lexec 0 Z.eqb Z.ltb true) (LEnv (Env [] []) []) ex_c56_reindexed [] = Undef.
Proof. exact c56_reindexed_parent_refuted. Qed.
Print Assumptions C56_reindexed_parent_refuted.

(** * C57 -- What comparisons ask of the element type *)

(** a == b asks the element operator about the pairs at equal positions, in
    lexicographic order of position, until the first answer other than yes;
    nothing if the shapes differ; != does the same.  So at most num_elements()
    calls, whatever the operator does. *)
Theorem C57_equality_calls : forall (T : Type) (op : user_op T) (h : heap T) chk c1 c2 a b,
  array_object c1 -> derived c1 a -> array_object c2 -> derived c2 b -> live h c1 -> live h c2 ->
  let n := length (nd_ext a) in length (nd_ext b) = n ->
  exists ta tb c, contents h a n ta /\ contents h b n tb /\
    ask_compare T op CEq chk h a b [] = Ok c /\ ask_compare T op CNe chk h a b [] = Ok (opposite c) /\
    (nd_ext a <> nd_ext b -> c = Gave false []) /\
    (nd_ext a = nd_ext b -> until_no op (combine (in_order n ta) (in_order n tb)) c) /\
    Z.of_nat (length (in_order n ta)) = prod (nd_ext a) /\
    Z.of_nat (length (questions c)) <= prod (nd_ext a).
Proof. exact c57_equality_calls. Qed.
Print Assumptions C57_equality_calls.

(** a < b compares nested lists, asking both ways at every place until one answer
    is yes; > exchanges the operands, <= and >= negate > and < *)
Theorem C57_order_calls : forall (T : Type) (op : user_op T) (h : heap T) chk c1 c2 a b,
  array_object c1 -> derived c1 a -> array_object c2 -> derived c2 b -> live h c1 -> live h c2 ->
  let n := length (nd_ext a) in length (nd_ext b) = n ->
  exists ta tb c d, contents h a n ta /\ contents h b n tb /\
    less_asks op n ta tb [] c /\ less_asks op n tb ta [] d /\
    ask_compare T op CLt chk h a b [] = Ok c /\ ask_compare T op CGt chk h a b [] = Ok d /\
    ask_compare T op CLe chk h a b [] = Ok (opposite d) /\ ask_compare T op CGe chk h a b [] = Ok (opposite c).
Proof. exact c57_order_calls. Qed.
Print Assumptions C57_order_calls.

(** the specifications used above leave no choice *)
Theorem C57_calls_determined : forall (T : Type) (op : user_op T),
  (forall Q c c', until_no op Q c -> until_no op Q c' -> c = c') /\
  (forall n t u q c c', less_asks op n t u q c -> less_asks op n t u q c' -> c = c').
Proof. exact c57_calls_determined. Qed.
Print Assumptions C57_calls_determined.

(** whatever the operator answers, an order comparison makes at most
    2^NumDims calls per position common to both arrays, each about two elements
    at the same position; if all answers are no and the shapes agree, exactly
    2^NumDims * num_elements() calls *)
Theorem C57_order_call_count : forall (T : Type) (op : user_op T) (h : heap T) chk c1 c2 a b r c,
  array_object c1 -> derived c1 a -> array_object c2 -> derived c2 b -> live h c1 -> live h c2 ->
  let n := length (nd_ext a) in length (nd_ext b) = n ->
  r = CLt \/ r = CGt \/ r = CLe \/ r = CGe ->
  ask_compare T op r chk h a b [] = Ok c ->
  Z.of_nat (length (questions c)) <= 2 ^ Z.of_nat n * prod (smaller (nd_ext a) (nd_ext b)) /\
  Forall (fun p => exists k u v, in_bounds (repeat 0 n) (nd_ext a) k /\ in_bounds (repeat 0 n) (nd_ext b) k /\
            reads h a (tadd (nd_base a) k) u /\ reads h b (tadd (nd_base b) k) v /\ (p = (u, v) \/ p = (v, u))) (questions c) /\
  (nd_ext a = nd_ext b -> (forall q u v, op q u v = Says false) ->
   Z.of_nat (length (questions c)) = 2 ^ Z.of_nat n * prod (nd_ext a)).
Proof. exact c57_order_call_count. Qed.
Print Assumptions C57_order_call_count.

(** only shapes and contents matter: arrays of equal shape and contents make the
    same calls, whatever their storage orders, index bases, strides and kinds *)
Theorem C57_layout_makes_no_difference : forall (T : Type) (op : user_op T) (h h' : heap T) chk chk' c1 c2 c1' c2' a b a' b' r,
  array_object c1 -> derived c1 a -> array_object c2 -> derived c2 b -> live h c1 -> live h c2 ->
  array_object c1' -> derived c1' a' -> array_object c2' -> derived c2' b' -> live h' c1' -> live h' c2' ->
  let n := length (nd_ext a) in length (nd_ext b) = n ->
  nd_ext a' = nd_ext a -> nd_ext b' = nd_ext b ->
  (forall t, contents h a n t -> contents h' a' n t) -> (forall t, contents h b n t -> contents h' b' n t) ->
  ask_compare T op r chk h a b [] = ask_compare T op r chk' h' a' b' [].
Proof. exact c57_layout_makes_no_difference. Qed.
Print Assumptions C57_layout_makes_no_difference.

(** an operator that is a function, and does not throw: the result is the one of
    the comparisons of C15-C17, for all arguments *)
Theorem C57_lawful_operators : forall (T : Type) (eqT ltT : T -> T -> bool) (h : heap T) chk r a b q,
  let op : user_op T := fun _ u v => Says (match r with CEq | CNe => eqT u v | _ => ltT u v end) in
  same_answer (ask_compare T op r chk h a b q) (compare eqT ltT r chk h a b).
Proof. exact c57_lawful_operators. Qed.
Print Assumptions C57_lawful_operators.

(** * C58 -- Exactly where exceptions and failed assertions leave a program *)

(** Programs whose commands keep to the contract or make mistakes that assertions
    catch, in which any allocation, element construction or element assignment
    may throw, and which catch everything (exceptions, and with a throwing
    assertion handler failed assertions): outputs, values, geometry, names and
    lost memory are exactly those of the specification *)
Theorem C58_where_failures_leave_a_program : forall (T : Type) (dflt : T) eqT ltT asserts chk p os st m,
  (asserts = true -> chk = true) -> survives dflt eqT ltT asserts empty_state p os st m ->
  exists en h, run_handled dflt eqT ltT chk (Env [] []) p [] = Done (en, os) (World h None) /\
    agrees st en h /\ memory_ok en h /\
    exists lost, length lost = m /\ NoDup lost /\ forall b, leaked en h b <-> In b lost.
Proof. exact c58_where_failures_leave_a_program. Qed.
Print Assumptions C58_where_failures_leave_a_program.

(** a program that makes no mistakes needs no assertion handler *)
Theorem C58_without_mistakes : forall (T : Type) (dflt : T) eqT ltT chk p os st m,
  survives dflt eqT ltT false empty_state p os st m ->
  exists en h, run_catching dflt eqT ltT chk (Env [] []) p [] = Done (en, os) (World h None) /\
    agrees st en h /\ memory_ok en h /\
    exists lost, length lost = m /\ NoDup lost /\ forall b, leaked en h b <-> In b lost.
Proof. exact c58_without_mistakes. Qed.
Print Assumptions C58_without_mistakes.

(** the outcome is a function of the program and its throw points *)
Theorem C58_outcome_is_determined : forall (T : Type) (dflt : T) eqT ltT asserts p os st m os' st' m',
  survives dflt eqT ltT asserts empty_state p os st m -> survives dflt eqT ltT asserts empty_state p os' st' m' ->
  os = os' /\ m = m' /\ s_arrays st = s_arrays st' /\
  forall k n n', named_is st k n -> named_is st' k n' -> same_place (place_of n) (place_of n').
Proof. exact c58_outcome_is_determined. Qed.
Print Assumptions C58_outcome_is_determined.

(** and there always is one *)
Theorem C58_outcome_exists : forall (T : Type) (dflt : T) eqT ltT asserts p,
  acceptable dflt eqT ltT asserts empty_state p ->
  exists os st m, survives dflt eqT ltT asserts empty_state p os st m.
Proof. exact c58_outcome_exists. Qed.
Print Assumptions C58_outcome_exists.

(** * C59 -- No pointer outside the storage is even computed while index 0 is valid; exactly when one is otherwise *)

(** a(i) computes origin(), the address that an element with index (0, ..., 0)
    would have: a valid access is undefined iff that is outside of the storage *)
Theorem C59_element_access_exact : forall room chk c i, array_object c -> stored room c ->
  in_bounds (cr_ib c) (cr_ext c) i ->
  let origin := padd (cr_data c) (position (so_ordering (cr_storage c)) (so_ascending (cr_storage c)) (cr_ib c) (cr_ext c) (repeat 0 (length i))) in
  (within room origin -> strict_access_element room chk (OArr c) i = access_element chk (cr_nd c) i) /\
  (~ within room origin -> strict_access_element room chk (OArr c) i = UB).
Proof. exact c59_element_access_exact. Qed.
Print Assumptions C59_element_access_exact.

(** a[i1]...[iN] computes one pointer after each bracket: the addresses of the
    indices (0,...,0), (i1,0,...,0), (i1,i2,0,...,0), ... *)
Theorem C59_brackets_exact : forall room chk c i, array_object c -> stored room c ->
  in_bounds (cr_ib c) (cr_ext c) i ->
  let fine := forall m, (m <= length i)%nat ->
    within room (padd (cr_data c) (position (so_ordering (cr_storage c)) (so_ascending (cr_storage c)) (cr_ib c) (cr_ext c) (zeros_after m i))) in
  (fine -> strict_bracket room chk (OArr c) i = bracket chk (cr_nd c) i) /\
  (~ fine -> strict_bracket room chk (OArr c) i = UB).
Proof. exact c59_brackets_exact. Qed.
Print Assumptions C59_brackets_exact.

Theorem C59_element_access_inside : forall room chk c o i, array_object c -> stored room c -> object_of c o ->
  around_zero (nd_base (obj_nd o)) (nd_ext (obj_nd o)) -> in_bounds (nd_base (obj_nd o)) (nd_ext (obj_nd o)) i ->
  strict_access_element room chk o i = access_element chk (obj_nd o) i /\ strict_bracket room chk o i = bracket chk (obj_nd o) i.
Proof. exact c59_element_access_inside. Qed.
Print Assumptions C59_element_access_inside.

Theorem C59_rows_inside : forall room chk c o k r, array_object c -> stored room c -> object_of c o ->
  around_zero (nd_base (obj_nd o)) (nd_ext (obj_nd o)) -> access_n true k (obj_nd o) = Ok r ->
  strict_geometry room o = Ok (obj_nd o) /\ strict_access_n room chk k (obj_nd o) = Ok r /\
  object_of c (OSub r) /\ around_zero (nd_base r) (nd_ext r).
Proof. exact c59_rows_inside. Qed.
Print Assumptions C59_rows_inside.

Theorem C59_views_inside : forall room chk c o ig v, array_object c -> stored room c -> object_of c o ->
  around_zero (nd_base (obj_nd o)) (nd_ext (obj_nd o)) ->
  built ig -> (0 < ig_dims ig)%nat -> ranges_inside (nd_base (obj_nd o)) (nd_ext (obj_nd o)) (ig_ranges ig) ->
  make_view true (obj_nd o) ig = Ok v -> around_zero (v_ib v) (v_ext v) ->
  strict_make_view room true o ig = Ok v /\ object_of c (OView v) /\
  (make_view chk (obj_nd o) ig = Ok v -> strict_make_view room chk o ig = Ok v).
Proof. exact c59_views_inside. Qed.
Print Assumptions C59_views_inside.

Theorem C59_whole_array_operations_inside : forall (T : Type) eqT ltT room chk c1 c2 o1 o2,
  array_object c1 -> stored room c1 -> object_of c1 o1 -> tame_object o1 ->
  array_object c2 -> stored room c2 -> object_of c2 o2 -> tame_object o2 ->
  let n := length (nd_ext (obj_nd o1)) in
  (forall f w, strict_for_each (T := T) room chk f n o1 w = for_each chk f n (obj_nd o1) w) /\
  (length (nd_ext (obj_nd o2)) = n -> forall op h,
     strict_compare (T := T) room eqT ltT op chk h o1 o2 = compare eqT ltT op chk h (obj_nd o1) (obj_nd o2)) /\
  (nd_ext (obj_nd o2) = nd_ext (obj_nd o1) -> forall w,
     strict_assign (T := T) room chk n o1 o2 w = assign_nd chk n (obj_nd o1) (obj_nd o2) w /\
     strict_copy_array (T := T) room chk n o1 o2 w = copy_array chk n (obj_nd o1) (obj_nd o2) w).
Proof. exact c59_whole_array_operations_inside. Qed.
Print Assumptions C59_whole_array_operations_inside.

(** any program that uses only tame objects runs to its end under the C++ rule,
    with the outputs and the final state the abstract machine says *)
Theorem C59_programs_inside : forall (T : Type) (dflt : T) eqT ltT chk p,
  always_easy dflt eqT ltT empty_state p ->
  strict_run_catching dflt eqT ltT chk (Env [] []) p [] = run_catching dflt eqT ltT chk (Env [] []) p [] /\
  exists en os h st, strict_run_catching dflt eqT ltT chk (Env [] []) p [] = Done (en, os) (World h None) /\
    attempts dflt eqT ltT empty_state p os st /\ agrees st en h.
Proof. exact c59_programs_inside. Qed.
Print Assumptions C59_programs_inside.

(** the index bases of an array that owns its storage are not negative, and one is
    positive (Fortran style, or reindex(1)): every valid element access computes
    a pointer in front of the storage *)
Theorem C59_positive_bases_refuted : forall room chk c i, array_object c -> p_off (cr_data c) = 0 ->
  Forall (fun up => up = true) (so_ascending (cr_storage c)) ->
  Forall (fun b => 0 <= b) (cr_ib c) -> Exists (fun b => 0 < b) (cr_ib c) ->
  in_bounds (cr_ib c) (cr_ext c) i ->
  strict_access_element room chk (OArr c) i = UB /\ strict_bracket room chk (OArr c) i = UB /\
  exists p, access_element chk (cr_nd c) i = Ok p /\ bracket chk (cr_nd c) i = Ok p.
Proof. exact c59_positive_bases_refuted. Qed.
Print Assumptions C59_positive_bases_refuted.

(** the second row of an empty 2x0 array in Fortran order, begin() of an empty array
    stored in descending order, and a view of no rows of a 2x3 array all compute a
    pointer outside of the storage, although none of them has an element, every
    index base is 0, and the unchecked functions accept the arguments *)
Theorem C59_empty_objects_refuted : forall chk,
  (exists c r, array_object c /\ cr_num_elements c = 0 /\ cr_ib c = [0; 0] /\ access_n true 1 (cr_nd c) = Ok r /\
     forall room, p_off (cr_data c) = 0 /\ (room (p_blk (cr_data c)) = 0 -> stored room c /\ strict_access_n room chk 1 (cr_nd c) = UB)) /\
  (exists c, array_object c /\ cr_num_elements c = 0 /\ cr_ib c = [0] /\
     forall room, p_off (cr_data c) = 0 /\ (room (p_blk (cr_data c)) = 0 -> stored room c /\ strict_geometry room (OArr c) = UB)) /\
  (exists c ig v, array_object c /\ cr_ext c = [2; 3] /\ cr_ib c = [0; 0] /\ indices_of indices [Slice (Some 2) (Some 2) 1; Slice (Some 1) (Some 3) 1] = Ok ig /\
     make_view true (cr_nd c) ig = Ok v /\ v_ext v = [0; 2] /\
     forall room, p_off (cr_data c) = 0 /\ (room (p_blk (cr_data c)) = 6 -> stored room c /\ strict_make_view room chk (OArr c) ig = UB)).
Proof. exact c59_empty_objects_refuted. Qed.
Print Assumptions C59_empty_objects_refuted.

(** * C60 -- Copies of multi_array_refs and views are shallow, copies of multi_arrays are deep *)

(** a write through one expression is seen by a read through another exactly if
    both indices stand for the same element; otherwise the read gives what it
    would have given without the write *)
Theorem C60_writes_are_seen : forall (T : Type) (dflt : T) eqT ltT chk p os st e1 p1 i v e2 p2 j,
  steps dflt eqT ltT empty_state p os st -> denotes st e1 p1 -> denotes st e2 p2 ->
  in_bounds (pl_bases p1) (pl_shape p1) i -> in_bounds (pl_bases p2) (pl_shape p2) j ->
  (same_element p1 i p2 j -> gives dflt eqT ltT chk (p ++ [Set_ e1 i v; Get e2 j]) (os ++ [ONone; OVal v])) /\
  (~ same_element p1 i p2 j -> exists u, gives dflt eqT ltT chk (p ++ [Get e2 j]) (os ++ [OVal u]) /\
     gives dflt eqT ltT chk (p ++ [Set_ e1 i v; Get e2 j]) (os ++ [ONone; OVal u])).
Proof. exact c60_writes_are_seen. Qed.
Print Assumptions C60_writes_are_seen.

(** copies of views and of multi_array_refs are shallow: original and copy go on
    sharing every element, whatever happens (short of their array being resized or
    destroyed, or one of the two being given new index bases or a new shape) *)
Theorem C60_copies_are_shallow : forall (T : Type) (dflt : T) eqT ltT chk p os st k n q os' st' i v,
  steps dflt eqT ltT empty_state p os st -> named_is st k n ->
  let k' := length (s_named st) in
  steps dflt eqT ltT (add_named st n) q os' st' ->
  (forall c, In c q -> ~ ends (owner n) c /\ ~ regeometrizes k c /\ ~ regeometrizes k' c) ->
  in_bounds (pl_bases (place_of n)) (pl_shape (place_of n)) i ->
  let run_up := p ++ NewAlias k :: q in
  let said := os ++ ONone :: os' in
  gives dflt eqT ltT chk (run_up ++ [Set_ (Named k) i v; Get (Named k') i]) (said ++ [ONone; OVal v]) /\
  gives dflt eqT ltT chk (run_up ++ [Set_ (Named k') i v; Get (Named k) i]) (said ++ [ONone; OVal v]) /\
  exists u, gives dflt eqT ltT chk (run_up ++ [Get (Named k) i; Get (Named k') i]) (said ++ [OVal u; OVal u]).
Proof. exact c60_copies_are_shallow. Qed.
Print Assumptions C60_copies_are_shallow.

(** a multi_array_ref made from a multi_array keeps the geometry the array had; it
    shares the array's elements, by storage position, also after the array has been
    reindexed or reshaped *)
Theorem C60_refs_of_arrays_are_shallow : forall (T : Type) (dflt : T) eqT ltT chk p os st x a q os' st' a' i j v,
  steps dflt eqT ltT empty_state p os st -> array_is st x a ->
  let r := length (s_named st) in
  steps dflt eqT ltT (add_named st (ARef x 0 (a_bases a) (a_shape a) (a_order a))) q os' st' ->
  (forall c, In c q -> ~ ends x c /\ ~ regeometrizes r c) -> array_is st' x a' ->
  in_bounds (a_bases a) (a_shape a) i -> in_bounds (a_bases a') (a_shape a') j -> a_pos a i = a_pos a' j ->
  let run_up := p ++ NewRefOf x :: q in
  let said := os ++ ONone :: os' in
  gives dflt eqT ltT chk (run_up ++ [Set_ (Named r) i v; Get (Var x) j]) (said ++ [ONone; OVal v]) /\
  gives dflt eqT ltT chk (run_up ++ [Set_ (Var x) j v; Get (Named r) i]) (said ++ [ONone; OVal v]).
Proof. exact c60_refs_of_arrays_are_shallow. Qed.
Print Assumptions C60_refs_of_arrays_are_shallow.

(** new index bases or a new shape for the copy leave the original as it was, and
    the other way round *)
Theorem C60_copies_have_their_own_geometry : forall (T : Type) (dflt : T) eqT ltT chk p os st k n c o st1 ask,
  steps dflt eqT ltT empty_state p os st -> named_is st k n ->
  let k' := length (s_named st) in
  step dflt eqT ltT (add_named st n) c o st1 ->
  (regeometrizes k' c -> gives dflt eqT ltT chk (p ++ [NewAlias k; c; Ask ask (Named k)]) (os ++ [ONone; o; tells (place_of n) ask])) /\
  (regeometrizes k c -> gives dflt eqT ltT chk (p ++ [NewAlias k; c; Ask ask (Named k')]) (os ++ [ONone; o; tells (place_of n) ask])).
Proof. exact c60_copies_have_their_own_geometry. Qed.
Print Assumptions C60_copies_have_their_own_geometry.

(** copies of multi_arrays are deep *)
Theorem C60_array_copies_are_deep : forall (T : Type) (dflt : T) eqT ltT chk p os st x a i j v,
  steps dflt eqT ltT empty_state p os st -> array_is st x a ->
  let y := length (s_arrays st) in
  in_bounds (a_bases a) (a_shape a) i -> in_bounds (a_bases a) (a_shape a) j ->
  exists u, gives dflt eqT ltT chk (p ++ [Get (Var x) j]) (os ++ [OVal u]) /\
    gives dflt eqT ltT chk (p ++ [NewCopy x; Set_ (Var x) i v; Get (Var y) j]) (os ++ [ONone; ONone; OVal u]) /\
    gives dflt eqT ltT chk (p ++ [NewCopy x; Set_ (Var y) i v; Get (Var x) j]) (os ++ [ONone; ONone; OVal u]).
Proof. exact c60_array_copies_are_deep. Qed.
Print Assumptions C60_array_copies_are_deep.

(** a copy does not keep the elements alive: once the array is resized or destroyed
    using the copy is undefined behaviour, as is using the original *)
Theorem C60_copies_do_not_own : forall (T : Type) (dflt : T) eqT ltT chk p os st k n c o st1 i,
  steps dflt eqT ltT empty_state p os st -> named_is st k n ->
  step dflt eqT ltT (add_named st n) c o st1 -> ends (owner n) c ->
  in_bounds (pl_bases (place_of n)) (pl_shape (place_of n)) i ->
  run dflt eqT ltT chk (Env [] []) (p ++ [NewAlias k; c; Get (Named (length (s_named st))) i]) (World [] None) = Undef.
Proof. exact c60_copies_do_not_own. Qed.
Print Assumptions C60_copies_do_not_own.

Theorem C60_reindexed_copies_share : forall (T : Type) (dflt : T) eqT ltT chk p os st k n bases o st1 j v,
  steps dflt eqT ltT empty_state p os st -> named_is st k n ->
  let k' := length (s_named st) in
  let here := rebase (pl_bases (place_of n)) bases j in
  step dflt eqT ltT (add_named st n) (ReindexNamed k' bases) o st1 ->
  in_bounds bases (pl_shape (place_of n)) j ->
  gives dflt eqT ltT chk (p ++ [NewAlias k; ReindexNamed k' bases; Set_ (Named k') j v; Get (Named k) here])
    (os ++ [ONone; o; ONone; OVal v]) /\
  gives dflt eqT ltT chk (p ++ [NewAlias k; ReindexNamed k' bases; Set_ (Named k) here v; Get (Named k') j])
    (os ++ [ONone; o; ONone; OVal v]).
Proof. exact c60_reindexed_copies_share. Qed.
Print Assumptions C60_reindexed_copies_share.

(** * C61 -- Elements are opaque: the library never invents, inspects or mixes them *)

(** A program, and the corresponding program over another element type: if the
    default elements are related and the element comparisons agree on related
    elements, the two runs end the same way (also when an operation throws at
    any point), with the same objects, related answers and related memories. *)
Theorem C61_related_elements :
  forall (T U : Type) (R : T -> U -> Prop) (dT : T) (dU : U)
         (eqT ltT : T -> T -> bool) (eqU ltU : U -> U -> bool),
  R dT dU ->
  (forall a b a' b', R a a' -> R b b' -> eqT a b = eqU a' b') ->
  (forall a b a' b', R a a' -> R b b' -> ltT a b = ltU a' b') ->
  forall chk p q en w v,
  Forall2 (corresponds R) p q -> world_alike R w v ->
  same_way R (results_alike (out_alike R)) (run dT eqT ltT chk en p w) (run dU eqU ltU chk en q v).
Proof. exact c61_related_elements. Qed.
Print Assumptions C61_related_elements.

(** the same for programs that catch exceptions, and for programs that also
    survive failed assertions, each command having its own point of failure *)
Theorem C61_related_catching :
  forall (T U : Type) (R : T -> U -> Prop) (dT : T) (dU : U)
         (eqT ltT : T -> T -> bool) (eqU ltU : U -> U -> bool),
  R dT dU ->
  (forall a b a' b', R a a' -> R b b' -> eqT a b = eqU a' b') ->
  (forall a b a' b', R a a' -> R b b' -> ltT a b = ltU a' b') ->
  forall chk p q en h k,
  Forall2 (fun x y => corresponds R (fst x) (fst y) /\ snd x = snd y) p q -> heap_alike R h k ->
  same_way R (results_alike (maybe_alike R))
    (run_catching dT eqT ltT chk en p h) (run_catching dU eqU ltU chk en q k) /\
  same_way R (results_alike (maybe_alike R))
    (run_handled dT eqT ltT chk en p h) (run_handled dU eqU ltU chk en q k).
Proof. exact c61_related_catching. Qed.
Print Assumptions C61_related_catching.

(** if a function f respects the default element, == and <, then a program over
    f's values answers exactly what the original answers, with f applied to the
    elements read; here b corresponds to a when b = f a *)
Theorem C61_relabel :
  forall (T U : Type) (f : T -> U) (dT : T) (eqT ltT : T -> T -> bool) (eqU ltU : U -> U -> bool),
  (forall a b, eqU (f a) (f b) = eqT a b) ->
  (forall a b, ltU (f a) (f b) = ltT a b) ->
  forall chk p q,
  Forall2 (corresponds (fun a b => b = f a)) p q ->
  match run dT eqT ltT chk (Env [] []) p (World [] None), run (f dT) eqU ltU chk (Env [] []) q (World [] None) with
  | Done (en, os) _, Done (en', os') _ => en' = en /\ os' = map (relabel_output f) os
  | Thrown _, Thrown _ | Aborted _, Aborted _ | Undef, Undef | OutOfFuel, OutOfFuel => True
  | _, _ => False
  end.
Proof. exact c61_relabel. Qed.
Print Assumptions C61_relabel.

Theorem C61_values_do_not_matter :
  forall (T U : Type) (dT : T) (dU : U) (eqT ltT : T -> T -> bool) (eqU ltU : U -> U -> bool)
         chk (p : list (@command T * option nat)) (q : list (@command U * option nat)) en h k,
  (forall c f, In (c, f) p -> ~ comparing c) ->
  Forall2 (fun x y => corresponds (fun _ _ => True) (fst x) (fst y) /\ snd x = snd y) p q ->
  heap_alike (fun _ _ => True) h k ->
  same_way (fun _ _ => True) (results_alike (maybe_alike (fun _ _ => True)))
    (run_catching dT eqT ltT chk en p h) (run_catching dU eqU ltU chk en q k).
Proof. exact c61_values_do_not_matter. Qed.
Print Assumptions C61_values_do_not_matter.

Theorem C61_no_value_invented :
  forall (T : Type) (P : T -> Prop) (dflt : T) (eqT ltT : T -> T -> bool) chk p en h,
  P dflt -> contains_only P h -> (forall c f, In (c, f) p -> brings P c) ->
  match run_catching dflt eqT ltT chk en p h with
  | Done (_, os) w => contains_only P (w_heap w) /\ forall o, In (Some o) os -> answers_with P o
  | Thrown w | Aborted w => contains_only P (w_heap w)
  | _ => True
  end /\
  match run_handled dflt eqT ltT chk en p h with
  | Done (_, os) w => contains_only P (w_heap w) /\ forall o, In (Some o) os -> answers_with P o
  | Thrown w | Aborted w => contains_only P (w_heap w)
  | _ => True
  end.
Proof. exact c61_no_value_invented. Qed.
Print Assumptions C61_no_value_invented.

(** * C62 -- Threads may change the geometry of objects no other thread is using *)

(** the steps of a call, run without interruption, are the call *)
Theorem C62_steps_are_calls : forall (T : Type) dflt eqT ltT chk ke (c : @kcommand T) ke' m h,
  plan eqT ltT chk ke c = Some (ke', m) ->
  kexec dflt eqT ltT chk ke c (World h None) = bind (run_prog m) (fun o => ret (ke', o)) (World h None).
Proof. exact c62_steps_are_calls. Qed.
Print Assumptions C62_steps_are_calls.

(** threads of which none uses an element that another writes and none changes the
    geometry of an object that another uses: under every schedule there is no race on
    elements or on objects, every thread that has not finished can go on, and when all
    have finished their answers, the objects and the memory are those of running the
    threads one after another, in whatever order *)
Theorem C62_independent_threads : forall (T : Type) dflt eqT ltT chk ke (h : heap T) (threads : list (list kcommand)) uses,
  Forall2 (accesses dflt eqT ltT chk ke) threads uses -> Forall (Forall (proper h)) uses ->
  independent uses -> undisturbed ke threads ->
  forall ke' h' pool, sh_steps eqT ltT chk (ke, h, map not_started threads) (ke', h', pool) ->
    ~ element_race pool /\ ~ object_race ke' pool /\
    (forall i w, nth_error pool i = Some w ->
       (exists outs, w = Worker outs None []) \/
       (exists ke2 h2 w', sh_step eqT ltT chk (ke', h', pool) (ke2, h2, set_nth i w' pool))) /\
    (forall results, all_done pool results ->
       length results = length threads /\
       forall order, Permutation order (seq 0 (length threads)) ->
         in_turn dflt eqT ltT chk ke threads order (World h None) =
         Done (ke', map (fun i => (i, nth i results [])) order) (World h' None)).
Proof. exact c62_independent_threads. Qed.
Print Assumptions C62_independent_threads.

(** no schedule goes on for ever *)
Theorem C62_every_schedule_ends : forall (T : Type) eqT ltT chk s,
  ~ exists run : nat -> @shared_state T, run O = s /\ forall n, sh_step eqT ltT chk (run n) (run (S n)).
Proof. exact c62_every_schedule_ends. Qed.
Print Assumptions C62_every_schedule_ends.

(** a view or ref has its geometry to itself: whatever is computed from it is not
    affected by changing the geometry of any array, also not of the one whose
    elements it shows, and such a change disturbs no thread that uses only views and
    refs *)
Theorem C62_views_own_their_geometry : forall chk ke e x, from_named e ->
  (forall a, keval chk (with_env ke (update (ke_env ke) x a)) e = keval chk ke e) /\ ~ In (TheVar x) (things_of ke e).
Proof. exact c62_views_own_their_geometry. Qed.
Print Assumptions C62_views_own_their_geometry.

(** one thread reindexes an array that another is using: every call alone is fine
    and no element is shared, but it is a race; what the other thread sees depends on
    the schedule, and an index that was in range may no longer be *)
Theorem C62_reindex_while_in_use_refuted : exists (ke : kenv) (h : heap Z) (threads : list (list (@kcommand Z))) uses,
  Forall2 (accesses 0 Z.eqb Z.ltb true ke) threads uses /\ Forall (Forall (proper h)) uses /\ independent uses /\
  ~ undisturbed ke threads /\ object_race ke (map not_started threads) /\
  (exists s1 s2, fst s1 = fst s2 /\
     sh_steps Z.eqb Z.ltb true (ke, h, map not_started threads) s1 /\ all_done (snd s1) [[ONone]; [OInts [0]; OVal 10]] /\
     sh_steps Z.eqb Z.ltb true (ke, h, map not_started threads) s2 /\
     nth_error (snd s2) 1 = Some (Worker [OInts [5]] (Some (XGet (XVar 0) [0], PAbort)) [])).
Proof. exact c62_reindex_while_in_use_refuted. Qed.
Print Assumptions C62_reindex_while_in_use_refuted.

(** kept subarrays and iterators have no geometry of their own: a thread that only
    holds an iterator is disturbed when another reindexes the array it came from *)
Theorem C62_iterators_share_geometry_refuted : exists (ke : kenv) (h : heap Z) (threads : list (list (@kcommand Z))),
  ~ undisturbed ke threads /\
  (exists s1 s2,
     sh_steps Z.eqb Z.ltb true (ke, h, map not_started threads) s1 /\ all_done (snd s1) [[ONone]; [OVal 10]] /\
     sh_steps Z.eqb Z.ltb true (ke, h, map not_started threads) s2 /\
     nth_error (snd s2) 1 = Some (Worker [] (Some (XRead 1, PAbort)) [])).
Proof. exact c62_iterators_share_geometry_refuted. Qed.
Print Assumptions C62_iterators_share_geometry_refuted.

(** * C63 -- A multi_array_ref wraps any part of a buffer, and disjoint parts are independent *)

(** two multi_array_refs over the same buffer share element i of the one with
    element j of the other exactly if both lie the same number of elements from the
    start of the buffer: a write through the first is read through the second then,
    and only then *)
Theorem C63_refs_share_by_position : forall (T : Type) (dflt : T) eqT ltT chk p os st r1 x off1 b1 s1 so1 r2 y off2 b2 s2 so2 i j v,
  steps dflt eqT ltT empty_state p os st ->
  named_is st r1 (ARef x off1 b1 s1 so1) -> named_is st r2 (ARef y off2 b2 s2 so2) ->
  in_bounds b1 s1 i -> in_bounds b2 s2 j ->
  let at1 := off1 + position (so_ordering so1) (so_ascending so1) b1 s1 i in
  let at2 := off2 + position (so_ordering so2) (so_ascending so2) b2 s2 j in
  (x = y /\ at1 = at2 ->
     gives dflt eqT ltT chk (p ++ [Set_ (Named r1) i v; Get (Named r2) j]) (os ++ [ONone; OVal v])) /\
  (x <> y \/ at1 <> at2 -> exists u,
     gives dflt eqT ltT chk (p ++ [Get (Named r2) j]) (os ++ [OVal u]) /\
     gives dflt eqT ltT chk (p ++ [Set_ (Named r1) i v; Get (Named r2) j]) (os ++ [ONone; OVal u])).
Proof. exact c63_refs_share_by_position. Qed.
Print Assumptions C63_refs_share_by_position.

(** a multi_array_ref of n elements made off elements into the storage of x stands
    for exactly the elements off .. off+n-1 of that storage, each once *)
Theorem C63_part_exact : forall (T : Type) (dflt : T) eqT ltT chk p os st r x off b s so a j,
  steps dflt eqT ltT empty_state p os st -> named_is st r (ARef x off b s so) -> array_is st x a ->
  in_bounds (a_bases a) (a_shape a) j ->
  let k := position (so_ordering (a_order a)) (so_ascending (a_order a)) (a_bases a) (a_shape a) j in
  (off <= k < off + prod s ->
     exists i, in_bounds b s i /\
       (forall v, gives dflt eqT ltT chk (p ++ [Set_ (Named r) i v; Get (Var x) j]) (os ++ [ONone; OVal v])) /\
       (forall v, gives dflt eqT ltT chk (p ++ [Set_ (Var x) j v; Get (Named r) i]) (os ++ [ONone; OVal v])) /\
       forall i', in_bounds b s i' -> i' <> i -> exists u, gives dflt eqT ltT chk (p ++ [Get (Var x) j]) (os ++ [OVal u]) /\
         forall v, gives dflt eqT ltT chk (p ++ [Set_ (Named r) i' v; Get (Var x) j]) (os ++ [ONone; OVal u])) /\
  (~ off <= k < off + prod s ->
     exists u, gives dflt eqT ltT chk (p ++ [Get (Var x) j]) (os ++ [OVal u]) /\
     forall i v, in_bounds b s i -> gives dflt eqT ltT chk (p ++ [Set_ (Named r) i v; Get (Var x) j]) (os ++ [ONone; OVal u])).
Proof. exact c63_part_exact. Qed.
Print Assumptions C63_part_exact.

(** whatever is done through one ref (writes, assign, =, for_each through it, its
    rows and views, reindex and reshape of it), all an expression that starts from a
    ref to another part of the buffer (or to another buffer) sees stays the same *)
Theorem C63_disjoint_parts_are_independent : forall (T : Type) (dflt : T) eqT ltT chk p os st r1 x off1 b1 s1 so1 r2 y off2 b2 s2 so2 q os' st' e e_place j,
  steps dflt eqT ltT empty_state p os st ->
  named_is st r1 (ARef x off1 b1 s1 so1) -> named_is st r2 (ARef y off2 b2 s2 so2) -> r1 <> r2 ->
  x <> y \/ off1 + prod s1 <= off2 \/ off2 + prod s2 <= off1 ->
  steps dflt eqT ltT st q os' st' -> (forall c, In c q -> only_through r1 c) ->
  through r2 e -> denotes st e e_place -> in_bounds (pl_bases e_place) (pl_shape e_place) j ->
  exists u, gives dflt eqT ltT chk (p ++ [Get e j]) (os ++ [OVal u]) /\
            gives dflt eqT ltT chk (p ++ q ++ [Get e j]) (os ++ os' ++ [OVal u]).
Proof. exact c63_disjoint_parts_are_independent. Qed.
Print Assumptions C63_disjoint_parts_are_independent.

(** the library cannot know how long the buffer is: a ref that is longer than the
    rest of the buffer is made without complaint, in checked builds too, and
    reading an element of it beyond the buffer is undefined behaviour although the
    index is in range *)
Theorem C63_overlong_ref_refuted : forall (T : Type) (dflt : T) eqT ltT chk p os st x a off shape so i,
  steps dflt eqT ltT empty_state p os st -> array_is st x a ->
  order_ok (length shape) so -> layout_ok so (repeat 0 (length shape)) shape ->
  in_bounds (repeat 0 (length shape)) shape i ->
  ~ 0 <= off + position (so_ordering so) (so_ascending so) (repeat 0 (length shape)) shape i < prod (a_shape a) ->
  let r := length (s_named st) in
  gives dflt eqT ltT chk (p ++ [NewRefList x off shape so]) (os ++ [ONone]) /\
  run dflt eqT ltT chk (Env [] []) (p ++ [NewRefList x off shape so; Get (Named r) i]) (World [] None) = Undef.
Proof. exact c63_overlong_ref_refuted. Qed.
Print Assumptions C63_overlong_ref_refuted.

(** * C64 -- An element assignment that fails half way damages only the element it was assigning *)

(** Programs in which any element assignment may throw half way and leave any value
    behind in the element it was assigning to (and any allocation or element
    construction may throw), and which catch everything: outputs, values, geometry,
    names and lost memory are exactly those of the specification *)
Theorem C64_where_torn_assignments_leave_a_program : forall (T : Type) (dflt : T) eqT ltT asserts chk p os st m,
  (asserts = true -> chk = true) -> withstands dflt eqT ltT asserts empty_state p os st m ->
  exists en h, torn_run dflt eqT ltT chk (Env [] []) p [] = Done (en, os) (World h None) /\
    agrees st en h /\ memory_ok en h /\
    exists lost, length lost = m /\ NoDup lost /\ forall b, leaked en h b <-> In b lost.
Proof. exact c64_where_torn_assignments_leave_a_program. Qed.
Print Assumptions C64_where_torn_assignments_leave_a_program.

(** the outcome is a function of the program, its throw points and what they leave *)
Theorem C64_outcome_is_determined : forall (T : Type) (dflt : T) eqT ltT asserts p os st m os' st' m',
  withstands dflt eqT ltT asserts empty_state p os st m -> withstands dflt eqT ltT asserts empty_state p os' st' m' ->
  os = os' /\ m = m' /\ s_arrays st = s_arrays st' /\
  forall k n n', named_is st k n -> named_is st' k n' -> same_place (place_of n) (place_of n').
Proof. exact c64_outcome_is_determined. Qed.
Print Assumptions C64_outcome_is_determined.

(** and there always is one *)
Theorem C64_outcome_exists : forall (T : Type) (dflt : T) eqT ltT asserts p,
  tolerable dflt eqT ltT asserts empty_state p ->
  exists os st m, withstands dflt eqT ltT asserts empty_state p os st m.
Proof. exact c64_outcome_exists. Qed.
Print Assumptions C64_outcome_exists.

(** A command in which an assignment fails half way leaves what a command would
    leave in which that assignment threw without effect, but for at most one
    element -- the one that was being assigned *)
Theorem C64_only_one_element : forall (T : Type) (dflt : T) eqT ltT asserts p os st m c o st' n k u st2,
  withstands dflt eqT ltT asserts empty_state p os st m ->
  step dflt eqT ltT st c o st' -> costs st c n -> (k < n)%nat -> torn st k u c st2 ->
  exists st1, interrupted st k c st1 /\ (st2 = st1 \/ one_element_is st1 u st2).
Proof. exact c64_only_one_element. Qed.
Print Assumptions C64_only_one_element.

(** dst = src (and copy_array) between any two arrays, subarrays or views of equal
    shape, when what is overwritten has already been read: an assignment of an
    element that fails half way leaves the elements before it assigned, the one it
    was assigning as the failure left it, the elements after it and everything
    outside dst as they were *)
Theorem C64_assignment : forall (T : Type) (h : heap T) (u : T) chk c1 c2 dst src k j,
  array_object c1 -> derived c1 dst -> array_object c2 -> derived c2 src -> nd_ext dst = nd_ext src ->
  live h c1 -> live h c2 -> read_first dst src -> nth_error (positions (nd_ext dst)) k = Some j ->
  exists h', torn_assign_nd u chk (length (nd_ext dst)) dst src (World h (Some k)) = Thrown (World h' None) /\
    torn_copy_array u chk (length (nd_ext dst)) dst src (World h (Some k)) = Thrown (World h' None) /\
    (forall i, In i (firstn k (positions (nd_ext dst))) -> exists v,
       reads h src (tadd (nd_base src) i) v /\ reads h' dst (tadd (nd_base dst) i) v) /\
    reads h' dst (tadd (nd_base dst) j) u /\
    (forall i, In i (skipn (S k) (positions (nd_ext dst))) -> exists v,
       reads h dst (tadd (nd_base dst) i) v /\ reads h' dst (tadd (nd_base dst) i) v) /\
    (forall p, ~ element_of dst p -> same_at h h' p).
Proof. exact c64_assignment. Qed.
Print Assumptions C64_assignment.

(** resize keeps its promise even so: when copying one of the kept elements fails
    half way, the damaged element is in the new block, which is given back; the
    array, and all the rest of memory, are as if the assignment had thrown without
    effect *)
Theorem C64_resize_is_unaffected : forall (T : Type) (dflt u : T) chk a vs g bases shape (h : heap T) f,
  owns h a vs -> ranges_are (eg_ranges g) bases shape -> eg_num g = length shape ->
  length shape = length (cr_ext (ma_ref a)) -> layout_ok (cr_storage (ma_ref a)) bases shape ->
  torn_ma_resize u dflt chk a g (World h f) = ma_resize dflt chk a g (World h f).
Proof. exact c64_resize_is_unaffected. Qed.
Print Assumptions C64_resize_is_unaffected.

(** * C65 -- Exactly how much memory a program needs *)

(** Programs that catch every exception, with allocators of limited capacity, in
    which any allocation, element construction or element assignment may also
    throw of its own accord: outputs, values, geometry and names are exactly those
    of the specification, and at the end every allocator has handed out exactly the
    elements of the live arrays made with it and of the blocks lost on the way *)
Theorem C65_exactly_enough : forall (T : Type) (dflt : T) eqT ltT cap chk p os st lost,
  budgeted dflt eqT ltT cap empty_state [] p os st lost ->
  exists en h, q_run cap dflt eqT ltT chk (Env [] []) p [] = Done (en, os) (World h None) /\
    agrees st en h /\ memory_ok en h /\
    forall aid, used aid h = in_use st aid + lost_in lost aid.
Proof. exact c65_exactly_enough. Qed.
Print Assumptions C65_exactly_enough.

(** the outcome is a function of the program, its throw points and the capacities *)
Theorem C65_outcome_is_determined : forall (T : Type) (dflt : T) eqT ltT cap p os st lost os' st' lost',
  budgeted dflt eqT ltT cap empty_state [] p os st lost -> budgeted dflt eqT ltT cap empty_state [] p os' st' lost' ->
  os = os' /\ s_arrays st = s_arrays st' /\ (forall aid, lost_in lost aid = lost_in lost' aid) /\
  forall k n n', named_is st k n -> named_is st' k n' -> same_place (place_of n) (place_of n').
Proof. exact c65_outcome_is_determined. Qed.
Print Assumptions C65_outcome_is_determined.

(** and there always is one *)
Theorem C65_outcome_exists : forall (T : Type) (dflt : T) eqT ltT cap p,
  lawful dflt eqT ltT empty_state p ->
  exists os st lost, budgeted dflt eqT ltT cap empty_state [] p os st lost.
Proof. exact c65_outcome_exists. Qed.
Print Assumptions C65_outcome_exists.

(** A program in which nothing else goes wrong runs to the end without bad_alloc
    exactly when at every constructor and resize the array's allocator has room for
    the new elements besides the elements of all arrays alive then, among them the
    one being resized *)
Theorem C65_smallest_memory : forall (T : Type) (dflt : T) eqT ltT cap chk p os st,
  steps dflt eqT ltT empty_state p os st ->
  ((exists en h, q_run cap dflt eqT ltT chk (Env [] []) (map (fun c => (c, None)) p) [] = Done (en, map Some os) (World h None)) <->
   forall p1 c p2 os1 os2 st1 aid n, p = p1 ++ c :: p2 ->
     steps dflt eqT ltT empty_state p1 os1 st1 -> steps dflt eqT ltT st1 (c :: p2) os2 st ->
     asks_for st1 c aid n -> in_use st1 aid + n <= cap aid).
Proof. exact c65_smallest_memory. Qed.
Print Assumptions C65_smallest_memory.

(** resize needs room for the whole new array while it still has the old one, even
    when it shrinks the array; without that room it throws and nothing at all has
    changed *)
Theorem C65_resize_needs_both : forall (T : Type) (dflt : T) cap chk h f a vs g bases shape,
  owns h a vs -> length shape = length (cr_ext (ma_ref a)) ->
  order_ok (length shape) (cr_storage (ma_ref a)) -> layout_ok (cr_storage (ma_ref a)) bases shape ->
  eg_num g = length shape -> ranges_are (eg_ranges g) bases shape ->
  q_ma_resize cap dflt chk a g (World h f) =
  if used (ma_aid a) h + prod shape <=? cap (ma_aid a)
  then ma_resize dflt chk a g (World h f)
  else Thrown (World h f).
Proof. exact c65_resize_needs_both. Qed.
Print Assumptions C65_resize_needs_both.

(** commands that neither construct nor resize never ask for memory *)
Theorem C65_no_memory_needed : forall (T : Type) (dflt : T) eqT ltT cap st c o st' chk en w,
  step dflt eqT ltT st c o st' -> (forall aid n, ~ asks_for st c aid n) ->
  q_exec cap dflt eqT ltT chk en c w = exec dflt eqT ltT chk en c w.
Proof. exact c65_no_memory_needed. Qed.
Print Assumptions C65_no_memory_needed.

(** * C66 -- Threads may build, use, resize and destroy arrays of their own while sharing others read-only *)

(** the steps, made without interruption, are the calls *)
Theorem C66_steps_are_calls : forall (T : Type) (dflt : T) eqT ltT chk en c h f,
  run_job (j_exec dflt eqT ltT chk en c) (World h f) = exec dflt eqT ltT chk en c (World h f).
Proof. exact c66_steps_are_calls. Qed.
Print Assumptions C66_steps_are_calls.

Theorem C66_threads_are_programs : forall (T : Type) (dflt : T) eqT ltT chk en p h f,
  run_job (j_thread dflt eqT ltT chk en p) (World h f) = run_catching dflt eqT ltT chk en p h.
Proof. exact c66_threads_are_programs. Qed.
Print Assumptions C66_threads_are_programs.

(** the main program builds the shared arrays; then any number of threads run, in any
    interleaving of their steps *)
Theorem C66_threads_do_not_interfere : forall (T : Type) (dflt : T) eqT ltT chk p0 os0 st0 en0 h0 threads results,
  private_run dflt eqT ltT 0 empty_state p0 os0 st0 ->
  run_catching dflt eqT ltT chk (Env [] []) p0 [] = Done (en0, os0) (World h0 None) ->
  let k := length (s_arrays st0) in
  Forall2 (fun p r => private_run dflt eqT ltT k st0 p (fst r) (snd r)) threads results ->
  forall h pool, c_steps (h0, map (fun p => (j_thread dflt eqT ltT chk en0 p, None)) threads) (h, pool) ->
    ~ clash pool /\
    (forall i m f, nth_error pool i = Some (m, f) ->
       (exists r, m = JRet r) \/ exists m' h' f', job_step m h f = Some (m', h', f')) /\
    (forall i en os f, nth_error pool i = Some (JRet (en, os), f) ->
       exists st, nth_error results i = Some (os, st) /\ agrees st en h /\ memory_ok en h) /\
    (forall i j en en' os os' f f' x y m m', i <> j ->
       nth_error pool i = Some (JRet (en, os), f) -> nth_error pool j = Some (JRet (en', os'), f') ->
       (k <= x)%nat -> (k <= y)%nat -> nth_error (e_vars en) x = Some (Some m) -> nth_error (e_vars en') y = Some (Some m') ->
       ma_block m <> ma_block m') /\
    (forall b, (b < length h0)%nat -> nth_error h b = nth_error h0 b).
Proof. exact c66_threads_do_not_interfere. Qed.
Print Assumptions C66_threads_do_not_interfere.

(** as if each thread had run alone *)
Theorem C66_same_as_alone : forall (T : Type) (dflt : T) eqT ltT chk p0 os0 st0 en0 h0 p os st,
  private_run dflt eqT ltT 0 empty_state p0 os0 st0 ->
  run_catching dflt eqT ltT chk (Env [] []) p0 [] = Done (en0, os0) (World h0 None) ->
  private_run dflt eqT ltT (length (s_arrays st0)) st0 p os st ->
  exists en h, run_catching dflt eqT ltT chk en0 p h0 = Done (en, os) (World h None) /\ agrees st en h.
Proof. exact c66_same_as_alone. Qed.
Print Assumptions C66_same_as_alone.

(** programs that keep to the contract have such an outcome *)
Theorem C66_outcome_exists : forall (T : Type) (dflt : T) eqT ltT p0 os0 st0 k p,
  private_run dflt eqT ltT 0 empty_state p0 os0 st0 -> private_legal dflt eqT ltT k st0 p ->
  exists os st, private_run dflt eqT ltT k st0 p os st.
Proof. exact c66_outcome_exists. Qed.
Print Assumptions C66_outcome_exists.

Theorem C66_every_schedule_ends : forall (T A : Type) (s : heap T * list (job T A * option nat)),
  ~ exists run : nat -> heap T * list (job T A * option nat), run O = s /\ forall n, c_step (run n) (run (S n)).
Proof. exact c66_every_schedule_ends. Qed.
Print Assumptions C66_every_schedule_ends.

(** Finding: the arrays that are shared may not be destroyed while others use them.  If
    one thread destroys the shared array and another reads an element, some
    interleaving has both at the same block, and another leaves the reader with an
    undefined operation as its next step *)
Theorem C66_destroying_shared_refuted : ~ forall (T : Type) (dflt : T) eqT ltT chk p0 os0 st0 en0 h0 threads,
  private_run dflt eqT ltT 0 empty_state p0 os0 st0 ->
  run_catching dflt eqT ltT chk (Env [] []) p0 [] = Done (en0, os0) (World h0 None) ->
  (forall p, In p threads -> exists os st, private_run dflt eqT ltT 0 st0 p os st) ->
  forall h pool, c_steps (h0, map (fun p => (j_thread dflt eqT ltT chk en0 p, None)) threads) (h, pool) ->
    ~ clash pool /\
    (forall i m f, nth_error pool i = Some (m, f) ->
       (exists r, m = JRet r) \/ exists m' h' f', job_step m h f = Some (m', h', f')).
Proof. exact c66_destroying_shared_refuted. Qed.
Print Assumptions C66_destroying_shared_refuted.

(** the second half on its own: the reader's next operation may be undefined *)
Theorem C66_reader_left_with_nothing : exists (p0 : list (@command Z * option nat)) os0 st0 en0 h0 p1 p2 os1 st1 os2 st2 h pool m f,
  private_run 0 Z.eqb Z.ltb 0 empty_state p0 os0 st0 /\
  run_catching 0 Z.eqb Z.ltb true (Env [] []) p0 [] = Done (en0, os0) (World h0 None) /\
  private_run 0 Z.eqb Z.ltb 0 st0 p1 os1 st1 /\ private_run 0 Z.eqb Z.ltb 0 st0 p2 os2 st2 /\
  c_steps (h0, map (fun p => (j_thread 0 Z.eqb Z.ltb true en0 p, None)) [p1; p2]) (h, pool) /\
  nth_error pool 1 = Some (m, f) /\ (forall r, m <> JRet r) /\ job_step m h f = None.
Proof. exact c66_reader_left_with_nothing. Qed.
Print Assumptions C66_reader_left_with_nothing.

(** * C67 -- Threads may fill disjoint elements of shared arrays while building, resizing and destroying arrays of their own *)

(** the main program builds the shared arrays; then any number of threads run, in any
    interleaving of their steps *)
Theorem C67_threads_share_elements : forall (T : Type) (dflt : T) eqT ltT chk lot p0 os0 st0 en0 h0 threads results,
  private_run dflt eqT ltT 0 empty_state p0 os0 st0 ->
  run_catching dflt eqT ltT chk (Env [] []) p0 [] = Done (en0, os0) (World h0 None) ->
  let k := length (s_arrays st0) in
  length results = length threads ->
  (forall i p r, nth_error threads i = Some p -> nth_error results i = Some r ->
     lot_run dflt eqT ltT lot i k st0 p (fst r) (snd r)) ->
  forall h pool, c_steps (h0, map (fun p => (j_thread dflt eqT ltT chk en0 p, None)) threads) (h, pool) ->
    (* no data race *)
    ~ race pool /\
    (* every thread is finished or can take a step *)
    (forall i m f, nth_error pool i = Some (m, f) ->
       (exists r, m = JRet r) \/ exists m' h' f', job_step m h f = Some (m', h', f')) /\
    (* a finished thread has its outputs, and its variables hold what it left in them,
       except for the elements that are given to others *)
    (forall i en os f, nth_error pool i = Some (JRet (en, os), f) ->
       exists st st', nth_error results i = Some (os, st) /\ seen_by lot i k st st' /\ agrees st' en h /\ memory_ok en h) /\
    (* arrays made by different threads lie in different blocks *)
    (forall i j en en' os os' f f' x y m m', i <> j ->
       nth_error pool i = Some (JRet (en, os), f) -> nth_error pool j = Some (JRet (en', os'), f') ->
       (k <= x)%nat -> (k <= y)%nat -> nth_error (e_vars en) x = Some (Some m) -> nth_error (e_vars en') y = Some (Some m') ->
       ma_block m <> ma_block m') /\
    (* shared elements given to no thread keep their values *)
    (forall x a m q v, array_is st0 x a -> nth_error (e_vars en0) x = Some (Some m) -> nth_error (a_elems a) q = Some v ->
       (forall i, lot x q = Some i -> (length threads <= i)%nat) ->
       hread h (padd (cr_data (ma_ref m)) (Z.of_nat q)) = Ok v) /\
    (* shared elements given to a finished thread hold what it left there *)
    (forall i en os f st x a m q v, nth_error pool i = Some (JRet (en, os), f) -> nth_error results i = Some (os, st) ->
       array_is st x a -> nth_error (e_vars en0) x = Some (Some m) -> lot x q = Some i -> nth_error (a_elems a) q = Some v ->
       hread h (padd (cr_data (ma_ref m)) (Z.of_nat q)) = Ok v).
Proof. exact c67_threads_share_elements. Qed.
Print Assumptions C67_threads_share_elements.

(** as if each thread had run alone *)
Theorem C67_same_as_alone : forall (T : Type) (dflt : T) eqT ltT chk lot p0 os0 st0 en0 h0 i p os st,
  private_run dflt eqT ltT 0 empty_state p0 os0 st0 ->
  run_catching dflt eqT ltT chk (Env [] []) p0 [] = Done (en0, os0) (World h0 None) ->
  lot_run dflt eqT ltT lot i (length (s_arrays st0)) st0 p os st ->
  exists en h, run_catching dflt eqT ltT chk en0 p h0 = Done (en, os) (World h None) /\ agrees st en h.
Proof. exact c67_same_as_alone. Qed.
Print Assumptions C67_same_as_alone.

(** programs that keep to the contract and to their lot have such an outcome *)
Theorem C67_outcome_exists : forall (T : Type) (dflt : T) eqT ltT lot p0 os0 st0 i k p,
  private_run dflt eqT ltT 0 empty_state p0 os0 st0 -> lot_legal dflt eqT ltT lot i k st0 p ->
  exists os st, lot_run dflt eqT ltT lot i k st0 p os st.
Proof. exact c67_outcome_exists. Qed.
Print Assumptions C67_outcome_exists.

(** the programs of C66 are those whose lot is empty *)
Theorem C67_covers_private_programs : forall (T : Type) (dflt : T) eqT ltT i k st p os st',
  private_run dflt eqT ltT k st p os st' -> lot_run dflt eqT ltT (fun _ _ => None) i k st p os st'.
Proof. exact c67_covers_private_programs. Qed.
Print Assumptions C67_covers_private_programs.

(** The restriction is needed: two threads that both write the same element race, also if
    each stays within a lot that contains the element, when the lots are not the same
    division of the elements *)
Theorem C67_overlapping_lots_refuted : ~ forall (T : Type) (dflt : T) eqT ltT chk (lots : nat -> nat -> nat -> option nat) p0 os0 st0 en0 h0 threads results,
  private_run dflt eqT ltT 0 empty_state p0 os0 st0 ->
  run_catching dflt eqT ltT chk (Env [] []) p0 [] = Done (en0, os0) (World h0 None) ->
  length results = length threads ->
  (forall i p r, nth_error threads i = Some p -> nth_error results i = Some r ->
     lot_run dflt eqT ltT (lots i) i (length (s_arrays st0)) st0 p (fst r) (snd r)) ->
  forall h pool, c_steps (h0, map (fun p => (j_thread dflt eqT ltT chk en0 p, None)) threads) (h, pool) -> ~ race pool.
Proof. exact c67_overlapping_lots_refuted. Qed.
Print Assumptions C67_overlapping_lots_refuted.

(** * C68 -- Fork-join programs over shared arrays are deterministic *)

(** a program with parallel phases: at every moment of every run *)
Theorem C68_fork_join : forall (T : Type) (dflt : T) eqT ltT chk p outs st,
  fork_run dflt eqT ltT empty_state p outs st ->
  forall s, fork_steps dflt eqT ltT chk (Between (Env [] []) [] p []) s ->
    (* no data race *)
    ~ races s /\
    (* every thread is finished or can take a step *)
    (forall en pool h rest before i m f, s = During en pool h rest before -> nth_error pool i = Some (m, f) ->
       (exists r, m = JRet r) \/ exists m' h' f', job_step m h f = Some (m', h', f')) /\
    (* the run is complete or goes on *)
    ((exists en h outs', s = Between en h [] outs') \/ exists s', fork_step dflt eqT ltT chk s s') /\
    (* a complete run has these outputs, and leaves these arrays and names *)
    (forall en h outs', s = Between en h [] outs' -> outs' = outs /\ agrees st en h /\ memory_ok en h).
Proof. exact c68_fork_join. Qed.
Print Assumptions C68_fork_join.

(** no run goes on for ever *)
Theorem C68_every_run_ends : forall (T : Type) (dflt : T) eqT ltT chk (s : @moment T),
  ~ exists run : nat -> @moment T, run O = s /\ forall n, fork_step dflt eqT ltT chk (run n) (run (S n)).
Proof. exact c68_every_run_ends. Qed.
Print Assumptions C68_every_run_ends.

(** the outcome does not depend on the schedule, nor on which division of the elements one
    has in mind *)
Theorem C68_one_outcome : forall (T : Type) (dflt : T) eqT ltT p outs st outs' st',
  fork_run dflt eqT ltT empty_state p outs st -> fork_run dflt eqT ltT empty_state p outs' st' ->
  outs' = outs /\ exists en h, agrees st en h /\ agrees st' en h.
Proof. exact c68_one_outcome. Qed.
Print Assumptions C68_one_outcome.

(** programs that keep to the contract and to some division have an outcome *)
Theorem C68_outcome_exists : forall (T : Type) (dflt : T) eqT ltT p,
  fork_legal dflt eqT ltT empty_state p -> exists outs st, fork_run dflt eqT ltT empty_state p outs st.
Proof. exact c68_outcome_exists. Qed.
Print Assumptions C68_outcome_exists.

(** * C69 -- Sections under a common mutex or reader/writer lock are atomic *)

(** the main program builds the shared arrays; then threads share them under a mutex, and have arrays of their own *)
Theorem C69_sections_are_atomic : forall (T : Type) (dflt : T) eqT ltT chk p0 os0 st0 en0 h0 programs,
  private_run dflt eqT ltT 0 empty_state p0 os0 st0 ->
  run_catching dflt eqT ltT chk (Env [] []) p0 [] = Done (en0, os0) (World h0 None) ->
  let g := length (s_arrays st0) in
  let start := (s_arrays st0, map (fun secs => (St (repeat None g) [], secs, [])) programs) in
  turns_legal dflt eqT ltT start ->
  forall s, scene_steps dflt eqT ltT chk
      (Scene h0 (e_vars en0) LFree (map (fun secs => Party (Resting (Env (repeat None g) [])) secs []) programs)) s ->
    ~ collide s /\
    (forall i q, nth_error (sc_parties s) i = Some q -> goes_on dflt eqT ltT chk s i q) /\
    ((forall i q, nth_error (sc_parties s) i = Some q -> exists en outs, q = Party (Resting en) [] outs) \/
     exists i s', scene_step dflt eqT ltT chk i s s') /\
    (forall i j m m' b f f' rest rest' outs outs', i <> j ->
       nth_error (sc_parties s) i = Some (Party (Working HeldAlone m f) rest outs) ->
       nth_error (sc_parties s) j = Some (Party (Working b m' f') rest' outs') -> b = NotHeld) /\
    exists sh l, take_turns dflt eqT ltT start (sh, l) /\ length l = length programs /\ length (sc_parties s) = length programs /\
      ((forall i m f rest outs, nth_error (sc_parties s) i <> Some (Party (Working HeldAlone m f) rest outs)) ->
       agrees (St sh []) (Env (sc_shared s) []) (sc_heap s) /\ memory_ok (Env (sc_shared s) []) (sc_heap s)) /\
      forall i en rest outs, nth_error (sc_parties s) i = Some (Party (Resting en) rest outs) ->
        exists st, nth_error l i = Some (st, rest, outs) /\ agrees st en (sc_heap s) /\ memory_ok en (sc_heap s).
Proof. exact c69_sections_are_atomic. Qed.
Print Assumptions C69_sections_are_atomic.

Theorem C69_every_run_ends : forall (T : Type) (dflt : T) eqT ltT chk,
  ~ exists run : nat -> @scene T, forall n, exists i, scene_step dflt eqT ltT chk i (run n) (run (S n)).
Proof. exact c69_every_run_ends. Qed.
Print Assumptions C69_every_run_ends.

Theorem C69_names_end_with_the_section_refuted : exists en0 h0, run_catching 0 Z.eqb Z.ltb true (Env [] []) ex_start [] = Done (en0, [Some ONone; Some ONone]) (World h0 None) /\
  let s0 := ex_scene0 h0 (e_vars en0) 1 ex_stale in
  (exists s, scene_steps 0 Z.eqb Z.ltb true s0 s /\ map pt_outs (sc_parties s) = [[[Some ONone]; [Some (OVal 1)]]; [[Some ONone]]]) /\
  (exists s m f rest outs, scene_steps 0 Z.eqb Z.ltb true s0 s /\ nth_error (sc_parties s) 0 = Some (Party (Working HeldAlone m f) rest outs) /\
     map pt_rest (sc_parties s) = [[]; []] /\ job_step m (sc_heap s) f = None /\ (forall r, m <> JRet r) /\ m <> JThrow /\
     forall s', ~ scene_step 0 Z.eqb Z.ltb true 0 s s').
Proof. exact c69_names_end_with_the_section_refuted. Qed.
Print Assumptions C69_names_end_with_the_section_refuted.
