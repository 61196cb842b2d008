(** ThmAddressing.v -- C01, C02, C03, C04, C26, C32, C33, C40 *)

From Coq Require Import ZArith List Bool Permutation Lia.
From Verif Require Import Base StorageOrder Ranges Layout Access Objects Spec ViewSpec ReachSpec
  Facts LayoutProofs AccessProofs ViewProofs CopyProofs ReachProofs.
Import ListNotations.
Local Open Scope Z_scope.

(** * a concrete array used to show that hypotheses can be met:
      extents[range(1,3)][range(-2,1)] (bases 1,-2; shape 2x3), ordering {0,1}
      (column-major), second dimension descending, storage at block 7 *)
Definition ex_so : storage_order := SO [0%nat; 1%nat] [true; false].
Definition ex_arr : cref :=
  CRef (Ptr 7 0) ex_so [2; 3] [1; -2] [1; -2] (-1) 4 6.

Ltac forall_tac :=
  repeat match goal with
         | |- Forall _ [] => constructor
         | |- Forall _ (_ :: _) => constructor; [cbv; intuition congruence|]
         | |- Forall2 _ [] [] => constructor
         | |- Forall2 _ (_ :: _) (_ :: _) => constructor; [cbv; intuition congruence|]
         end.
Ltac layout_tac :=
  unfold layout_ok, representable; cbn [length repeat so_ordering];
  split; [reflexivity|]; split; [lia|]; split; [forall_tac|]; split; [forall_tac|];
  vm_compute; congruence.
Ltac order_tac :=
  unfold order_ok, valid_order; split; [|reflexivity]; cbn [so_ordering length seq].

Example ex_order : order_ok 2 ex_so.
Proof. order_tac. apply Permutation_refl. Qed.

Example ex_arr_object : array_object ex_arr.
Proof.
  eapply (ao_gen true (Ptr 7 0) [1; -2] [2; 3] (EGen 2 [ERange 1 3; ERange (-2) 1]) ex_so).
  - apply ex_order.
  - layout_tac.
  - reflexivity.
  - simpl. repeat constructor.
  - vm_compute. reflexivity.
Qed.

(** * C01 *)

Theorem c01_addressing_bijection : forall chk c, array_object c ->
  (forall i, in_bounds (cr_ib c) (cr_ext c) i ->
     exists k, 0 <= k < cr_num_elements c /\
               access_element chk (cr_nd c) i = Ok (padd (cr_data c) k)) /\
  (forall i j p, in_bounds (cr_ib c) (cr_ext c) i -> in_bounds (cr_ib c) (cr_ext c) j ->
     access_element chk (cr_nd c) i = Ok p -> access_element chk (cr_nd c) j = Ok p -> i = j) /\
  (forall k, 0 <= k < cr_num_elements c ->
     exists i, in_bounds (cr_ib c) (cr_ext c) i /\
               access_element chk (cr_nd c) i = Ok (padd (cr_data c) k)).
Proof.
  intros chk c Hc. apply array_object_ok in Hc. pose proof (cref_addressable c Hc) as Hnd.
  pose proof Hc as (Ho & Hr & Hs & Hoo & Hn).
  split; [|split].
  - intros i Hi. exists (pos_of (cr_storage c) (cr_ib c) (cr_ext c) i). split.
    + unfold cr_num_elements. rewrite Hn. apply position_bound; auto.
    + rewrite access_element_ok by auto. rewrite cref_addr; auto. apply in_bounds_length in Hi. tauto.
  - intros i j p Hi Hj Ei Ej. rewrite access_element_ok in Ei, Ej by auto.
    apply (cref_addr_inj c); auto. congruence.
  - intros k Hk. unfold cr_num_elements in Hk. rewrite Hn in Hk.
    destruct (position_surj (so_ordering (cr_storage c)) (so_ascending (cr_storage c)) (cr_ib c) (cr_ext c) k)
      as (i & Hi & Ei); auto.
    + apply Hr.
    + eapply rep_nonneg; apply Hr.
    + exists i. split; auto. rewrite access_element_ok by auto. rewrite cref_addr; auto.
      * unfold pos_of. rewrite Ei. reflexivity.
      * apply in_bounds_length in Hi. tauto.
Qed.

(** the same for subarrays and views of any nesting: distinct tuples denote
    distinct cells, all of them cells of the array they come from *)
Theorem c01_derived_injective : forall chk c a, array_object c -> derived c a ->
  (forall i, in_bounds (nd_base a) (nd_ext a) i ->
     exists k, 0 <= k < cr_num_elements c /\
               access_element chk a i = Ok (padd (cr_data c) k)) /\
  (forall i j p, in_bounds (nd_base a) (nd_ext a) i -> in_bounds (nd_base a) (nd_ext a) j ->
     access_element chk a i = Ok p -> access_element chk a j = Ok p -> i = j).
Proof.
  intros chk c a Hc Ha. pose proof (derived_ok c a Hc Ha) as Hok. split.
  - intros i Hi. destruct (derived_inside c a Hc Ha i Hi) as (j & Hj & E).
    rewrite access_element_ok by auto. rewrite E.
    destruct (proj1 (c01_addressing_bijection chk c Hc) j Hj) as (k & Hk & Ek).
    exists k. split; auto. rewrite <- Ek. symmetry. apply access_element_ok; auto.
    apply cref_addressable, array_object_ok; auto.
  - intros i j p Hi Hj Ei Ej. rewrite access_element_ok in Ei, Ej by auto.
    apply (derived_inj c a Hc Ha); auto. congruence.
Qed.

Example ex_c01 : access_element true (cr_nd ex_arr) [2; -1] = Ok (padd (cr_data ex_arr) 3)
  /\ in_bounds (cr_ib ex_arr) (cr_ext ex_arr) [2; -1].
Proof. split; [vm_compute; reflexivity|simpl; lia]. Qed.

(** a view of the example array, and a subarray of it *)
Definition ex_ig : index_gen := IGen 2 2 [ir_make 1 3 1; ir_make 0 (-3) (-2)].
Lemma ex_ig_built : built ex_ig.
Proof.
  eapply built_range; [eapply built_range; [apply built_none|]|]; vm_compute; reflexivity.
Qed.
Lemma selected_split b e r : (forall k, 0 <= k -> k < vlen (range_start r b) (range_finish r b e) (ir_stride r) ->
    b <= range_start r b + k * ir_stride r < b + e) ->
  ir_stride r <> 0 -> ir_degenerate r = false -> range_inside b e r.
Proof.
  intros H Hs Hd. unfold range_inside. rewrite Hd. intros k Hk. apply H; apply vlen_selected in Hk; auto; lia.
Qed.
Example ex_view_inside : ranges_inside [1; -2] [2; 3] (ig_ranges ex_ig).
Proof.
  simpl. split; [|split; [|exact I]].
  - apply selected_split; [|discriminate|reflexivity].
    replace (vlen _ _ _) with 2 by (vm_compute; reflexivity).
    change (range_start (ir_make 1 3 1) 1) with 1. cbn [ir_stride ir_make]. lia.
  - apply selected_split; [|discriminate|reflexivity].
    replace (vlen _ _ _) with 2 by (vm_compute; reflexivity).
    change (range_start (ir_make 0 (-3) (-2)) (-2)) with 0. cbn [ir_stride ir_make]. lia.
Qed.
Definition ex_view : view := View (Ptr 7 0) 0 4 [2; 2] [1; 4] [0; 0].
Example ex_view_derived : derived ex_arr (v_nd ex_view).
Proof.
  apply d_view. eapply (dv_make _ (cr_nd ex_arr) ex_ig).
  - apply d_array.
  - apply ex_ig_built.
  - cbv; lia.
  - vm_compute; reflexivity.
  - apply ex_view_inside.
Qed.
Example ex_sub_derived : derived ex_arr (ND (Ptr 7 1) [2] [4] [0]).
Proof. eapply (d_sub _ (v_nd ex_view) 1); [apply ex_view_derived|vm_compute; reflexivity]. Qed.

(** * C02 *)

Theorem c02_storage_order_layout : forall chk c i, array_object c ->
  in_bounds (cr_ib c) (cr_ext c) i ->
  access_element chk (cr_nd c) i =
    Ok (padd (cr_data c)
         (position (so_ordering (cr_storage c)) (so_ascending (cr_storage c)) (cr_ib c) (cr_ext c) i)).
Proof.
  intros chk c i Hc Hi. apply array_object_ok in Hc.
  rewrite access_element_ok by (auto; apply cref_addressable; auto).
  rewrite cref_addr; auto. apply in_bounds_length in Hi. tauto.
Qed.

(** the constructors give the array the storage order they were passed *)
Theorem c02_constructors_keep_order : forall chk base shape so c,
  order_ok (length shape) so -> layout_ok so (repeat 0 (length shape)) shape ->
  cref_from_list chk (length shape) base shape so = Ok c ->
  cr_storage c = so /\ cr_ext c = shape /\ cr_ib c = repeat 0 (length shape) /\ cr_data c = base.
Proof.
  intros chk base shape so c Ho Hl E.
  destruct (from_list_ok chk base shape so Ho Hl) as (c2 & E2 & _ & H1 & H2 & H3 & H4).
  rewrite E in E2. injection E2 as <-. auto.
Qed.

(** the two named storage orders *)
Lemma mixed_radix_app o1 o2 ext digs :
  mixed_radix (o1 ++ o2) ext digs = mixed_radix o1 ext digs + radices o1 ext * mixed_radix o2 ext digs.
Proof.
  induction o1 as [|d o1 IH]; cbn [app mixed_radix].
  - change (radices [] ext) with 1. lia.
  - rewrite IH. unfold radices. cbn [map]. rewrite prod_cons. ring.
Qed.

Lemma mixed_radix_map_S o e ext d digs :
  mixed_radix (map S o) (e :: ext) (d :: digs) = mixed_radix o ext digs.
Proof. induction o as [|x o IH]; simpl; auto. rewrite IH. reflexivity. Qed.

Lemma radices_map_S o e ext : radices (map S o) (e :: ext) = radices o ext.
Proof. unfold radices. rewrite map_map. reflexivity. Qed.

Definition c_ordering (n : nat) : list nat := map (fun i => (n - 1 - i)%nat) (seq 0 n).

Lemma c_ordering_S n : c_ordering (S n) = map S (c_ordering n) ++ [0%nat].
Proof.
  unfold c_ordering. rewrite seq_S, map_app. simpl. f_equal.
  - rewrite map_map. apply map_ext_in. intros x Hx. apply in_seq in Hx. lia.
  - f_equal. lia.
Qed.

Lemma c_ordering_perm n : Permutation (c_ordering n) (seq 0 n).
Proof.
  induction n as [|n IH]; [constructor|].
  rewrite c_ordering_S. simpl.
  etransitivity; [apply Permutation_app_comm|]. simpl. constructor.
  rewrite <- seq_shift. apply Permutation_map. auto.
Qed.

Lemma nats_eqb_eq : forall a b, nats_eqb a b = true <-> a = b.
Proof.
  induction a as [|x a IH]; intros [|y b]; cbn [nats_eqb]; try (split; congruence).
  rewrite andb_true_iff, Nat.eqb_eq, IH. split; [intros [-> ->]; auto|intros [= -> ->]; auto].
Qed.
Lemma bools_eqb_eq : forall a b, bools_eqb a b = true <-> a = b.
Proof.
  induction a as [|x a IH]; intros [|y b]; cbn [bools_eqb]; try (split; congruence).
  rewrite andb_true_iff, eqb_true_iff, IH. split; [intros [-> ->]; auto|intros [= -> ->]; auto].
Qed.

(** operator== of storage orders: the same dimension at every rank and the same
    direction for every dimension.  c_storage_order and fortran_storage_order
    differ from two dimensions on *)
Theorem c02_order_equality : forall n a b,
  length (so_ordering a) = n -> length (so_ordering b) = n -> length (so_ascending a) = n -> length (so_ascending b) = n ->
  (so_eqb a b = true <->
   forall d, (d < n)%nat -> nth_error (so_ordering a) d = nth_error (so_ordering b) d /\
                            nth_error (so_ascending a) d = nth_error (so_ascending b) d) /\
  (so_eqb (so_from_c n) (so_from_fortran n) = true <-> (n <= 1)%nat).
Proof.
  intros n a b L1 L2 L3 L4. unfold so_eqb. rewrite !andb_true_iff, !nats_eqb_eq, !bools_eqb_eq. split.
  - split.
    + intros [-> ->]. auto.
    + intros H. split; apply nth_error_ext; intros d; destruct (Nat.lt_ge_cases d n) as [Hd|Hd]; try (apply H; exact Hd).
      * rewrite (proj2 (nth_error_None (so_ordering a) d)) by lia. symmetry. apply nth_error_None. lia.
      * rewrite (proj2 (nth_error_None (so_ascending a) d)) by lia. symmetry. apply nth_error_None. lia.
  - unfold so_from_c, so_from_fortran. cbn [so_ordering so_ascending]. split.
    + intros [H _]. destruct n as [|[|n]]; auto. exfalso.
      apply (f_equal (fun l => nth 0 l 0%nat)) in H. simpl in H. lia.
    + intros Hn. split; [|reflexivity]. destruct n as [|[|n]]; auto; lia.
Qed.
Example ex_c02_equality : so_eqb (SO [1%nat; 0%nat] [true; false]) (SO [1%nat; 0%nat] [true; false]) = true /\
  so_eqb (SO [1%nat; 0%nat] [true; false]) (SO [1%nat; 0%nat] [true; true]) = false.
Proof. split; reflexivity. Qed.

Theorem c02_named_orders_valid : forall n, order_ok n (so_from_c n) /\ order_ok n (so_from_fortran n).
Proof.
  intros n. split; split; simpl; try apply repeat_length.
  - apply c_ordering_perm.
  - rewrite map_id. apply Permutation_refl.
Qed.

Lemma position_c bases shape : forall i, in_bounds bases shape i ->
  position (c_ordering (length shape)) (repeat true (length shape)) bases shape i = row_major bases shape i.
Proof.
  unfold position. revert shape. induction bases as [|b bases IH]; intros [|e shape] [|k i] H; simpl in H; try contradiction; auto.
  destruct H as [H1 H2]. cbn [length]. rewrite c_ordering_S, mixed_radix_app. cbn [repeat digits].
  rewrite mixed_radix_map_S, radices_map_S, IH by auto.
  cbn [mixed_radix nth row_major digit].
  rewrite radices_perm by apply c_ordering_perm. lia.
Qed.

Lemma position_fortran bases shape : forall i, in_bounds bases shape i ->
  position (seq 0 (length shape)) (repeat true (length shape)) bases shape i = column_major bases shape i.
Proof.
  unfold position. revert shape. induction bases as [|b bases IH]; intros [|e shape] [|k i] H; simpl in H; try contradiction; auto.
  destruct H as [H1 H2]. cbn [length seq]. rewrite <- seq_shift. cbn [repeat digits mixed_radix nth].
  rewrite mixed_radix_map_S, IH by auto. reflexivity.
Qed.

Theorem c02_c_order_is_row_major : forall chk c i, array_object c ->
  cr_storage c = so_from_c (length (cr_ext c)) -> in_bounds (cr_ib c) (cr_ext c) i ->
  access_element chk (cr_nd c) i = Ok (padd (cr_data c) (row_major (cr_ib c) (cr_ext c) i)).
Proof.
  intros chk c i Hc E Hi. rewrite c02_storage_order_layout by auto. rewrite E. unfold so_from_c.
  cbn [so_ordering so_ascending]. fold (c_ordering (length (cr_ext c))). rewrite position_c by auto. reflexivity.
Qed.

Theorem c02_fortran_order_is_column_major : forall chk c i, array_object c ->
  cr_storage c = so_from_fortran (length (cr_ext c)) -> in_bounds (cr_ib c) (cr_ext c) i ->
  access_element chk (cr_nd c) i = Ok (padd (cr_data c) (column_major (cr_ib c) (cr_ext c) i)).
Proof.
  intros chk c i Hc E Hi. rewrite c02_storage_order_layout by auto. rewrite E. unfold so_from_fortran.
  cbn [so_ordering so_ascending]. rewrite map_id. rewrite position_fortran by auto. reflexivity.
Qed.

Theorem c02_conversions_agree : forall n,
  c_conversion n = Ok (so_from_c n) /\ fortran_conversion n = Ok (so_from_fortran n).
Proof.
  intros n. unfold c_conversion, fortran_conversion, general_storage_order, so_from_c, so_from_fortran.
  rewrite !map_map. cbn [fst snd].
  assert (A : forall (X : Type) (f : nat -> X), copy_n (map f (seq 0 n)) n = Ok (map f (seq 0 n))).
  { intros X f. rewrite <- (seq_length n 0) at 2. rewrite <- (map_length f). apply copy_n_all. }
  assert (B : map (fun _ : nat => true) (seq 0 n) = repeat true n).
  { clear. generalize 0%nat. induction n; intros m; simpl; auto. f_equal. auto. }
  rewrite !A. cbn [obind]. rewrite B. auto.
Qed.

Example ex_c02 : exists c, cref_from_list true 2 (Ptr 1 0) [2; 3] (so_from_c 2) = Ok c /\
  array_object c /\ cr_storage c = so_from_c (length (cr_ext c)) /\
  in_bounds (cr_ib c) (cr_ext c) [1; 2] /\ row_major (cr_ib c) (cr_ext c) [1; 2] = 5.
Proof.
  eexists. split; [vm_compute; reflexivity|]. split; [|split; [reflexivity|split; [simpl; lia|reflexivity]]].
  eapply (ao_list true (Ptr 1 0) [2; 3] (so_from_c 2)).
  - apply c02_named_orders_valid.
  - layout_tac.
  - vm_compute; reflexivity.
Qed.

(** * C03 *)

Lemma bracket_true_eq : forall idx a, nd_ok a -> length idx = length (nd_ext a) ->
  bracket true a idx = (_ <- ae_checks true (nd_ext a) (nd_base a) idx ;; Ok (addr a idx)).
Proof.
  induction idx as [|i idx IH]; intros a Hok L.
  - destruct Hok as (_ & _ & H & _). simpl in L. lia.
  - destruct (nd_ok_shape a Hok) as (b & bs & e & es & st & ss & Eb & Ee & Es & L1 & L2 & HA).
    pose proof Hok as Hok2. unfold nd_ok in Hok2. rewrite Eb, Ee, Es in Hok2. apply addressable_cons in Hok2.
    destruct Hok2 as (He & _).
    rewrite Ee in L. simpl in L. rewrite Eb, Ee. cbn [ae_checks].
    destruct idx as [|i2 idx].
    + destruct es; simpl in L; [|lia]. destruct bs, ss; simpl in L1, L2; try lia.
      cbn [bracket ae_checks obind]. destruct (range_check true i b e) as [[]| |] eqn:R.
      * pose proof (range_check_true_inv i b e R He) as HI. cbn [obind].
        rewrite (access_one_ok true i a b e st) by auto. unfold addr. rewrite Es. cbn [dot].
        rewrite Z.add_0_r. reflexivity.
      * unfold access_one. rewrite Eb, Ee, Es, R. reflexivity.
      * unfold access_one. rewrite Eb, Ee, Es, R. reflexivity.
    + change (bracket true a (i :: i2 :: idx)) with (s <- access_n true i a ;; bracket true s (i2 :: idx)).
      assert (Hne : es <> []) by (destruct es; simpl in *; [lia|congruence]).
      destruct (range_check true i b e) as [[]| |] eqn:R.
      * pose proof (range_check_true_inv i b e R He) as HI. cbn [obind].
        rewrite (access_n_ok true i a b bs e es st ss) by auto. cbn [obind].
        rewrite IH; cbn [nd_ext nd_base]; auto.
        2:{ unfold nd_ok. simpl. auto. }
        destruct (ae_checks true es bs (i2 :: idx)); auto. cbn [obind]. f_equal.
        unfold addr. cbn [nd_org nd_str]. rewrite Es. cbn [dot]. rewrite padd_padd. reflexivity.
      * unfold access_n. rewrite Eb, Ee, Es. destruct es; [congruence|]. rewrite R. reflexivity.
      * unfold access_n. rewrite Eb, Ee, Es. destruct es; [congruence|]. rewrite R. reflexivity.
Qed.

Lemma access_element_true_eq idx a : nd_ok a -> length idx = length (nd_ext a) ->
  access_element true a idx = (_ <- ae_checks true (nd_ext a) (nd_base a) idx ;; Ok (addr a idx)).
Proof.
  intros Hok L. unfold access_element.
  destruct (ae_checks true (nd_ext a) (nd_base a) idx) as [[]| |] eqn:E; auto. cbn [obind].
  assert (HB : in_bounds (nd_base a) (nd_ext a) idx) by (apply ae_checks_inv; auto; apply Hok).
  pose proof (access_element_ok true a idx Hok HB) as H. unfold access_element in H. rewrite E in H.
  cbn [obind] in H. exact H.
Qed.

(** with range checks: identical behaviour on every index tuple, in or out of range *)
Theorem c03_accessors_agree_checked : forall c a i, array_object c -> derived c a ->
  length i = length (nd_ext a) -> bracket true a i = access_element true a i.
Proof.
  intros c a i Hc Ha L. pose proof (derived_ok c a Hc Ha) as Hok.
  rewrite bracket_true_eq, access_element_true_eq by auto. reflexivity.
Qed.

(** with or without range checks: the same element for every valid tuple *)
Theorem c03_accessors_agree : forall chk1 chk2 c a i, array_object c -> derived c a ->
  in_bounds (nd_base a) (nd_ext a) i ->
  exists p, bracket chk1 a i = Ok p /\ access_element chk2 a i = Ok p.
Proof.
  intros chk1 chk2 c a i Hc Ha Hi. pose proof (derived_ok c a Hc Ha) as Hok.
  exists (addr a i). rewrite bracket_ok, access_element_ok by auto. auto.
Qed.

Example ex_c03 : bracket true (v_nd ex_view) [1; 0] = Ok (Ptr 7 1) /\
                 access_element true (v_nd ex_view) [1; 0] = Ok (Ptr 7 1) /\
                 bracket true (v_nd ex_view) [2; 0] = Abort.
Proof. vm_compute. auto. Qed.

(** * C04 *)

Theorem c04_range_check_exact : forall c a i, array_object c -> derived c a ->
  length i = length (nd_ext a) ->
  Forall2 (fun b k => index_value (k - b)) (nd_base a) i ->
  (in_bounds (nd_base a) (nd_ext a) i ->
     exists k, 0 <= k < cr_num_elements c /\
       access_element true a i = Ok (padd (cr_data c) k) /\
       bracket true a i = Ok (padd (cr_data c) k)) /\
  (~ in_bounds (nd_base a) (nd_ext a) i ->
     access_element true a i = Abort /\ bracket true a i = Abort).
Proof.
  intros c a i Hc Ha L HD. pose proof (derived_ok c a Hc Ha) as Hok. split.
  - intros Hi. destruct (proj1 (c01_derived_injective true c a Hc Ha) i Hi) as (k & Hk & E).
    exists k. split; auto. split; auto. rewrite (c03_accessors_agree_checked c a i Hc Ha L). auto.
  - intros Hi. split; [apply access_element_abort; auto|apply bracket_abort; auto].
Qed.

(** no hypothesis on the indices: whatever is accepted is in range and inside the storage *)
Theorem c04_accepted_is_inside : forall c a i p, array_object c -> derived c a ->
  length i = length (nd_ext a) ->
  (access_element true a i = Ok p \/ bracket true a i = Ok p) ->
  in_bounds (nd_base a) (nd_ext a) i /\
  exists k, 0 <= k < cr_num_elements c /\ p = padd (cr_data c) k.
Proof.
  intros c a i p Hc Ha L H. pose proof (derived_ok c a Hc Ha) as Hok.
  assert (HI : in_bounds (nd_base a) (nd_ext a) i /\ p = addr a i).
  { destruct H as [H|H]; [apply access_element_inv in H|apply bracket_inv in H]; auto. }
  destruct HI as [HI ->]. split; auto.
  destruct (proj1 (c01_derived_injective true c a Hc Ha) i HI) as (k & Hk & E).
  exists k. split; auto. rewrite access_element_ok in E by auto. congruence.
Qed.

(** without the hypothesis that index - base is representable the check itself
    overflows: an out-of-range index is then neither accepted nor rejected *)
Theorem c04_extreme_index_refuted : exists c i, array_object c /\
  Forall index_value i /\ length i = length (cr_ext c) /\
  ~ in_bounds (cr_ib c) (cr_ext c) i /\ access_element true (cr_nd c) i = UB.
Proof.
  exists ex_arr, [- max_index - 1; 0]. split; [apply ex_arr_object|].
  split; [repeat constructor; cbv; congruence|]. split; [reflexivity|].
  split; [simpl; unconst; lia|]. vm_compute. reflexivity.
Qed.

Example ex_c04 : access_element true (cr_nd ex_arr) [3; 0] = Abort /\
  Forall2 (fun b k => index_value (k - b)) (nd_base (cr_nd ex_arr)) [3; 0].
Proof. split; [vm_compute; reflexivity|]. simpl. forall_tac. Qed.

(** * C26 *)

Theorem c26_num_elements_is_product_mod_2_64 : forall chk n base so bases extents c,
  init_multi_array_ref chk n base so bases extents = Ok c ->
  cr_num_elements c = prod (cr_ext c) mod 2 ^ 64.
Proof.
  intros chk n base so bases extents c H. unfold init_multi_array_ref in H.
  oinv H. oinv H. oinv H. oinv H. injection H as <-.
  unfold cr_num_elements. cbn [cr_num cr_ext]. apply accumulate_mul_mod.
Qed.

Theorem c26_fits_64_bits : forall c, array_object c ->
  cr_num_elements c = prod (cr_ext c).
Proof. intros c Hc. apply array_object_ok in Hc. apply Hc. Qed.

Theorem c26_overflow_refuted : exists c i p,
  cref_from_list true 2 (Ptr 0 0) [2 ^ 32; 2 ^ 32] (so_from_c 2) = Ok c /\
  cr_num_elements c <> prod (cr_ext c) /\
  in_bounds (cr_ib c) (cr_ext c) i /\
  access_element true (cr_nd c) i = Ok p /\
  (forall k, 0 <= k < cr_num_elements c -> p <> padd (cr_data c) k).
Proof.
  eexists. exists [5; 0], (Ptr 0 (5 * 2 ^ 32)). split; [vm_compute; reflexivity|].
  split; [vm_compute; congruence|]. split; [simpl; lia|]. split; [vm_compute; reflexivity|].
  cbn. intros k Hk. lia.
Qed.

(** * C32 *)

Theorem c32_origin_addresses_elements : forall chk c i, array_object c ->
  in_bounds (cr_ib c) (cr_ext c) i ->
  access_element chk (cr_nd c) i = Ok (padd (cr_origin c) (dot i (cr_str c))).
Proof.
  intros chk c i Hc Hi. apply array_object_ok in Hc.
  rewrite access_element_ok by (auto; apply cref_addressable; auto). reflexivity.
Qed.

Theorem c32_derived_origin_addresses_elements : forall chk c a i, array_object c -> derived c a ->
  in_bounds (nd_base a) (nd_ext a) i ->
  access_element chk a i = Ok (padd (nd_org a) (dot i (nd_str a))).
Proof.
  intros chk c a i Hc Ha Hi. rewrite access_element_ok by (auto; eapply derived_ok; eauto). reflexivity.
Qed.

Theorem c32_data_from_origin : forall c, array_object c ->
  Forall (fun up => up = true) (so_ascending (cr_storage c)) ->
  cr_data c = padd (cr_origin c) (dot (cr_ib c) (cr_str c)).
Proof.
  intros c Hc HA. apply array_object_ok in Hc. destruct Hc as (Ho & Hr & Hs & Hoo & Hn).
  unfold cr_data, cr_origin. rewrite padd_padd, Hoo. unfold origin_of.
  rewrite spec_origin_eq; [|apply Ho|apply Hr].
  rewrite desc_sum_all_asc by auto. rewrite Hs. unfold strides_of.
  match goal with |- _ = padd _ ?z => replace z with 0 by lia end. symmetry; apply padd_0.
Qed.

(** origin() itself can point outside the storage *)
Theorem c32_origin_outside_storage_refuted : exists c, array_object c /\
  forall k, 0 <= k <= cr_num_elements c -> cr_origin c <> padd (cr_data c) k.
Proof.
  exists ex_arr. split; [apply ex_arr_object|]. intros k Hk E. cbv [cr_origin cr_data padd ex_arr cr_base cr_origin_offset p_blk p_off] in E.
  injection E as E. lia.
Qed.

(** * C33 *)

Theorem c33_array_sizes : forall c, array_object c ->
  cr_num_elements c = prod (cr_ext c) /\
  cr_max_size c = cr_num_elements c /\
  cr_num_dimensions c = length (cr_ext c) /\
  (exists e es, cr_ext c = e :: es /\ cr_size c = Ok e /\ cr_empty c = Ok (e =? 0)).
Proof.
  intros c Hc. apply array_object_ok in Hc. pose proof Hc as (Ho & Hr & Hs & Hoo & Hn).
  split; [exact Hn|]. split; [reflexivity|]. split; [reflexivity|].
  destruct (cr_ext c) as [|e es] eqn:E.
  - destruct Hr as (_ & H & _). rewrite ?E in H. simpl in H. lia.
  - exists e, es. unfold cr_size, cr_empty, cr_size. rewrite E. auto.
Qed.

Lemma derived_count c a : array_object c -> derived c a -> 0 <= prod (nd_ext a) <= prod (cr_ext c).
Proof.
  intros Hc Ha. pose proof (derived_ok c a Hc Ha) as Hok.
  pose proof Hok as (L1 & L2 & L3 & HF & HB & HS & HR).
  assert (HF0 : Forall (fun e => 0 <= e) (nd_ext a)).
  { eapply Forall_impl; [|exact HF]. simpl. intros; lia. }
  split; [apply prod_nonneg; auto|].
  pose proof (array_object_ok c Hc) as Hcok. pose proof Hcok as (Ho & Hr & Hs & Hoo & Hn).
  assert (HP : 0 <= prod (cr_ext c)) by (apply prod_nonneg; eapply rep_nonneg; apply Hr).
  rewrite <- (length_tuples (nd_base a) (nd_ext a)) by auto.
  rewrite <- (map_length (addr a)).
  set (cells := map (fun k => padd (cr_base c) k) (zseq 0 (Z.to_nat (prod (cr_ext c))))).
  assert (HL : (length (map (addr a) (tuples (nd_base a) (nd_ext a))) <= length cells)%nat).
  { apply NoDup_incl_length.
    - assert (HN : NoDup (tuples (nd_base a) (nd_ext a))) by apply nodup_tuples.
      assert (HI : forall i, In i (tuples (nd_base a) (nd_ext a)) -> in_bounds (nd_base a) (nd_ext a) i).
      { intros i Hi. apply in_tuples; auto. }
      revert HN HI. generalize (tuples (nd_base a) (nd_ext a)).
      induction l as [|x l IH]; intros HN HI; simpl; constructor.
      + inversion HN; subst. intros HX. apply in_map_iff in HX. destruct HX as (y & Ey & Hy).
        apply (derived_inj c a Hc Ha) in Ey; [subst; contradiction| |]; apply HI; simpl; auto.
      + inversion HN; subst. apply IH; auto. intros i Hi. apply HI. simpl; auto.
    - intros p Hp. apply in_map_iff in Hp. destruct Hp as (i & <- & Hi).
      apply in_tuples in Hi; auto.
      destruct (derived_inside c a Hc Ha i Hi) as (j & Hj & ->).
      rewrite cref_addr; auto; [|apply in_bounds_length in Hj; tauto].
      unfold cells. apply in_map_iff. eexists. split; [reflexivity|].
      apply in_zseq. rewrite Z2Nat.id by auto. simpl.
      apply position_bound; auto. }
  unfold cells in HL. rewrite (map_length (fun k => padd (cr_base c) k)), length_zseq in HL. lia.
Qed.

Theorem c33_subarray_and_view_sizes : forall c, array_object c ->
  (forall a, derived c a ->
     sub_num_elements a = prod (nd_ext a) /\ 0 <= prod (nd_ext a) <= cr_num_elements c /\
     exists e es, nd_ext a = e :: es /\ sub_size a = Ok e /\ sub_empty a = Ok (e =? 0)) /\
  (forall v, derived_view c v ->
     v_num_elements v = prod (v_ext v) /\
     exists e es, v_ext v = e :: es /\ v_size v = Ok e /\ v_empty v = Ok (e =? 0)).
Proof.
  intros c Hc.
  assert (HR : forall a, derived c a -> exists e es, nd_ext a = e :: es).
  { intros a Ha. destruct (nd_ok_shape a (derived_ok c a Hc Ha)) as (b & bs & e & es & _ & _ & _ & E & _). eauto. }
  pose proof (c26_fits_64_bits c Hc) as Hnum.
  assert (HM : prod (cr_ext c) <= max_index).
  { apply array_object_ok in Hc. destruct Hc as (_ & Hr & _). apply rep_prod in Hr. lia. }
  split.
  - intros a Ha. pose proof (derived_count c a Hc Ha) as HC.
    split; [unfold sub_num_elements; apply accumulate_mul_small; unconst; lia|].
    split; [lia|]. destruct (HR a Ha) as (e & es & E). exists e, es.
    unfold sub_size, sub_empty, sub_size. rewrite E. auto.
  - intros v Hv. pose proof (d_view c v Hv) as Hd. pose proof (derived_count c _ Hc Hd) as HC.
    destruct (derived_view_ok c v Hc Hv) as (_ & _ & HN). cbn [v_nd nd_ext] in HC.
    split; [unfold v_num_elements; rewrite HN; apply accumulate_mul_small; unconst; lia|].
    destruct (HR _ Hd) as (e & es & E). cbn [v_nd nd_ext] in E. exists e, es.
    unfold v_size, v_empty, v_size. rewrite E. auto.
Qed.

(** empty() looks only at the first extent *)
Theorem c33_empty_iff_no_elements_refuted : exists c, array_object c /\
  cr_num_elements c = 0 /\ cr_empty c = Ok false.
Proof.
  assert (exists c, cref_from_list true 2 (Ptr 0 0) [3; 0] (so_from_c 2) = Ok c /\ cr_num_elements c = 0 /\ cr_empty c = Ok false)
    as (c & E & H1 & H2).
  { eexists. split; [vm_compute; reflexivity|]. split; vm_compute; reflexivity. }
  exists c. split; auto. eapply (ao_list true (Ptr 0 0) [3; 0] (so_from_c 2)); [apply c02_named_orders_valid| |exact E].
  layout_tac.
Qed.

(** * C40 *)

Lemma arr_set_inv {A} chk (l : list A) d x l' : arr_set chk l d x = Ok l' -> (d < length l)%nat /\ l' = set_nth d x l.
Proof.
  unfold arr_set. destruct (Nat.ltb_spec d (length l)); [|destruct chk; discriminate]. intros H0; injection H0 as <-. auto.
Qed.

Lemma cs_loop_written chk so ext : forall ord st acc acc',
  cs_loop chk ord so ext st acc = Ok acc' ->
  length acc' = length acc /\
  (forall d, ~ In d ord -> nth_error acc' d = nth_error acc d) /\
  (forall d, In d ord -> (d < length acc)%nat).
Proof.
  induction ord as [|x ord IH]; intros st acc acc' H.
  - injection H as <-. simpl. tauto.
  - cbn [cs_loop] in H. oinv H. oinv H. oinv H. oinv H.
    apply arr_set_inv in E1. destruct E1 as [Hx ->].
    apply IH in H. rewrite length_set_nth in H. destruct H as (H1 & H2 & H3).
    split; auto. split.
    + intros d Hd. rewrite H2 by (simpl in Hd; tauto). apply nth_error_set_nth_ne. simpl in Hd. intuition.
    + intros d [->|Hd]; auto.
Qed.

Lemma read_all_inv : forall l r, read_all l = Ok r -> forall d, nth_error l d <> Some None.
Proof.
  induction l as [|[x|] l IH]; intros r H d; simpl in H; try discriminate.
  - destruct d; discriminate.
  - oinv H. destruct d; simpl; [discriminate|]. eapply IH; eauto.
Qed.

Lemma compute_strides_perm chk ext so str :
  length (so_ordering so) = length ext ->
  compute_strides chk ext so = Ok str -> Permutation (so_ordering so) (seq 0 (length ext)).
Proof.
  intros L H. unfold compute_strides in H. oinv H.
  apply cs_loop_written in E. rewrite repeat_length in E. destruct E as (HL & H1 & H2).
  pose proof (read_all_inv _ _ H) as HR.
  assert (HI : incl (seq 0 (length ext)) (so_ordering so)).
  { intros d Hd. apply in_seq in Hd. destruct (in_dec Nat.eq_dec d (so_ordering so)) as [|Hn]; auto.
    exfalso. apply (HR d). rewrite H1 by auto. apply nth_error_repeat. lia. }
  symmetry. apply NoDup_Permutation_bis; auto.
  - apply seq_NoDup.
  - rewrite seq_length. lia.
Qed.

(** no constructor accepts an ordering that is not a permutation *)
Theorem c40_invalid_order_unusable : forall chk n base so bases extents c,
  length (so_ordering so) = n -> length extents = n ->
  init_multi_array_ref chk n base so bases extents = Ok c ->
  Permutation (so_ordering so) (seq 0 n).
Proof.
  intros chk n base so bases extents c L LE H. unfold init_multi_array_ref in H.
  oinv H. oinv H.
  assert (LV : length v = n).
  { rewrite <- LE in E. rewrite copy_n_all in E. congruence. }
  apply compute_strides_perm in E0; rewrite map_length, LV in *; auto.
Qed.

(** the constructor of general_storage_order always stores N entries *)
Theorem c40_storage_order_lengths : forall n ordering ascending so,
  general_storage_order n ordering ascending = Ok so ->
  length (so_ordering so) = n /\ length (so_ascending so) = n.
Proof.
  intros n o a so H. unfold general_storage_order in H. oinv H. oinv H. injection H as <-. simpl.
  assert (A : forall (X : Type) (l : list X) m r, copy_n l m = Ok r -> length r = m).
  { intros X l m. revert l. induction m; intros l r Hr; destruct l; simpl in Hr.
    - injection Hr as <-. auto.
    - injection Hr as <-. auto.
    - discriminate.
    - oinv Hr. injection Hr as <-. simpl. f_equal. eauto. }
  eauto.
Qed.

Theorem c40_valid_order_usable : forall chk base so bases shape,
  order_ok (length shape) so -> layout_ok so bases shape ->
  exists c, init_multi_array_ref chk (length shape) base so bases shape = Ok c.
Proof.
  intros chk base so bases shape Ho Hl. destruct (init_ok chk base so bases shape Ho Hl) as (dd & E & _). eauto.
Qed.

(** what happens otherwise: where the assertions of boost::array are on and a dimension number is too
    big, they fail (when all dimensions ascend, so that no stride can overflow first); in all
    other cases the constructor's behaviour is undefined *)
Lemma cs_loop_no_abort chk so ext n : length (so_ascending so) = n -> length ext = n -> forall ord st acc,
  length acc = n -> (chk = false \/ forall d, In d ord -> (d < n)%nat) -> cs_loop chk ord so ext st acc <> Abort.
Proof.
  intros LA LE. induction ord as [|d ord IH]; intros st acc L H; cbn [cs_loop]; [discriminate|].
  assert (HC : chk = false \/ (d < n)%nat) by (destruct H as [H|H]; [auto|right; apply H; left; auto]).
  unfold so_asc_at, arr_get at 1. destruct (nth_error (so_ascending so) d) as [up|] eqn:E.
  2:{ destruct HC as [->|HC]; [discriminate|]. apply nth_error_None in E. lia. }
  cbn [obind]. assert (Hd : (d < n)%nat) by (rewrite <- LA; apply nth_error_Some; congruence).
  assert (HS : forall a b, smul a b <> Abort) by (intros a b; unfold smul, signed; match goal with |- context [if ?c then _ else _] => destruct c end; discriminate).
  destruct (smul _ _) eqn:EM; [|destruct (HS _ _ EM)|discriminate]. cbn [obind].
  unfold arr_set. destruct (Nat.ltb_spec d (length acc)); [|lia]. cbn [obind].
  unfold arr_get. destruct (nth_error ext d) eqn:E2; [|apply nth_error_None in E2; lia]. cbn [obind].
  apply IH; [rewrite length_set_nth; auto|]. destruct H as [H|H]; [auto|right; intros x Hx; apply H; right; auto].
Qed.
Lemma read_all_no_abort l : read_all l <> Abort.
Proof.
  induction l as [|[x|] l IH]; cbn [read_all]; try discriminate. destruct (read_all l); cbn [obind]; congruence.
Qed.
Lemma cs_loop_aborts so ext n : so_ascending so = repeat true n -> length ext = n -> forall ord st acc,
  length acc = n -> idx_min <= st <= idx_max -> (exists d, In d ord /\ (n <= d)%nat) -> cs_loop true ord so ext st acc = Abort.
Proof.
  intros EA LE. induction ord as [|d ord IH]; intros st acc L Hst (x & Hx & Hn); [destruct Hx|]. cbn [cs_loop].
  unfold so_asc_at, arr_get at 1. rewrite EA. destruct (nth_error (repeat true n) d) as [up|] eqn:E; [|reflexivity].
  cbn [obind]. assert (Hd : (d < n)%nat) by (rewrite <- (repeat_length true n); apply nth_error_Some; congruence).
  rewrite nth_error_repeat in E by auto. injection E as <-. rewrite smul_ok by lia. cbn [obind].
  unfold arr_set. destruct (Nat.ltb_spec d (length acc)); [|lia]. cbn [obind].
  unfold arr_get. destruct (nth_error ext d) eqn:E2; [|apply nth_error_None in E2; lia]. cbn [obind].
  apply IH; [rewrite length_set_nth; auto| |].
  - apply to_index_range.
  - exists x. destruct Hx as [->|Hx]; [lia|auto].
Qed.
Theorem c40_invalid_order_outcome : forall chk n base so bases extents,
  length (so_ordering so) = n -> length (so_ascending so) = n -> length extents = n ->
  ~ Permutation (so_ordering so) (seq 0 n) ->
  (chk = true -> (exists d, In d (so_ordering so) /\ (n <= d)%nat) -> so_ascending so = repeat true n ->
     init_multi_array_ref chk n base so bases extents = Abort) /\
  (chk = false \/ (forall d, In d (so_ordering so) -> (d < n)%nat) ->
     init_multi_array_ref chk n base so bases extents = UB).
Proof.
  intros chk n base so bases extents L LA LE HP. unfold init_multi_array_ref, compute_strides.
  assert (EC : copy_n extents n = Ok extents) by (rewrite <- LE; apply copy_n_all). rewrite EC. cbn [obind]. split.
  - intros -> Hd EA. rewrite (cs_loop_aborts so _ n EA); auto; rewrite ?repeat_length, ?map_length; auto. unconst. lia.
  - intros H. pose proof (cs_loop_no_abort chk so (map to_size extents) n LA ltac:(rewrite map_length; auto) (so_ordering so) 1 (repeat None (length (map to_size extents)))
      ltac:(rewrite repeat_length, map_length; auto) H) as HN.
    destruct (cs_loop _ _ _ _ _ _) as [acc| |] eqn:E; [|congruence|reflexivity]. cbn [obind].
    pose proof (read_all_no_abort acc) as HR. destruct (read_all acc) as [str| |] eqn:E2; [|congruence|reflexivity].
    exfalso. apply HP. rewrite <- LE, <- (map_length to_size extents). apply (compute_strides_perm chk _ so str); [rewrite map_length; congruence|].
    unfold compute_strides. rewrite E. exact E2.
Qed.

Example ex_c40 : cref_from_list true 2 (Ptr 0 0) [2; 3] (SO [0%nat; 0%nat] [true; true]) = UB /\
                 cref_from_list true 2 (Ptr 0 0) [2; 3] (SO [0%nat; 5%nat] [true; true]) = Abort.
Proof. vm_compute. auto. Qed.
