(** ThmStrict.v -- C59: no pointer outside of the storage is ever computed, as
    long as index 0 is valid in every dimension. *)

From Coq Require Import Lia Permutation.
From Verif Require Import Base StorageOrder Ranges Layout Access Objects Memory Ops MultiArray Spec Facts
  LayoutProofs AccessProofs ViewSpec ViewProofs MemoryProofs CopyProofs ReachSpec ReachProofs IterSpec MemSpec ThmIter
  CompareSpec OwnSpec ThmAddressing ThmViews ThmGeometry ThmCopy ThmBulk CompareProofs ThmCompare OwnProofs ResizeProofs ThmMultiArray
  History HistorySpec HistoryProofs ThmHistory AlgProofs Strict StrictSpec StrictProofs.

(** * where pointers point *)

Lemma firstn_dot t z str : dot (t ++ repeat 0 z) str = dot t str.
Proof.
  revert str; induction t as [|x t IH]; intros [|s str]; cbn [app dot]; auto.
  - destruct z; reflexivity.
  - rewrite dot_repeat_0. auto.
  - rewrite IH. auto.
Qed.

Lemma around_zero_prefix : forall bases ext m t, around_zero bases ext -> in_bounds (firstn m bases) (firstn m ext) t ->
  in_bounds bases ext (t ++ repeat 0 (length ext - length t)).
Proof.
  unfold around_zero. induction bases as [|b bases IH]; intros [|e ext] m t Hz Ht; cbn [length repeat in_bounds] in Hz; try tauto.
  - destruct m, t; cbn in Ht; try tauto; exact I.
  - destruct Hz as [H0 Hz]. destruct m as [|m]; cbn [firstn in_bounds] in Ht.
    + destruct t; [|tauto]. cbn [app length Nat.sub repeat in_bounds]. split; auto.
    + destruct t as [|x t]; [tauto|]. destruct Ht as [Hx Ht]. cbn [app length Nat.sub in_bounds]. split; [auto|]. eapply IH; eauto.
Qed.

Lemma walkable_from room a : around_zero (nd_base a) (nd_ext a) ->
  (forall i, in_bounds (nd_base a) (nd_ext a) i -> within room (addr a i)) -> walkable room a.
Proof.
  intros Hz H m t Ht. specialize (H _ (around_zero_prefix _ _ _ _ Hz Ht)). unfold addr in H. rewrite firstn_dot in H. auto.
Qed.

Lemma element_within room c a i : array_object c -> derived c a -> stored room c ->
  in_bounds (nd_base a) (nd_ext a) i -> within room (addr a i).
Proof.
  intros Hc Ha [S1 S2] Hi. destruct (derived_inside c a Hc Ha i Hi) as (j & Hj & ->).
  pose proof (array_object_ok c Hc) as Hok. rewrite cref_addr by (auto; apply in_bounds_length in Hj; tauto).
  assert (PB : 0 <= pos_of (cr_storage c) (cr_ib c) (cr_ext c) j < prod (cr_ext c)).
  { destruct Hok as (Hv & _). unfold pos_of. apply position_bound; auto. }
  assert (EN : cr_num_elements c = prod (cr_ext c)) by (apply c26_fits_64_bits; auto).
  unfold within, cr_data in *. cbn [padd p_off p_blk]. lia.
Qed.

Lemma derived_walkable room c a : array_object c -> derived c a -> stored room c ->
  around_zero (nd_base a) (nd_ext a) -> walkable room a.
Proof. intros Hc Ha S1 Hz. apply walkable_from; auto. intros i Hi. eapply element_within; eauto. Qed.

Lemma position_c_len : forall bases shape i, length bases = length shape -> length i = length shape ->
  position (c_ordering (length shape)) (repeat true (length shape)) bases shape i = row_major bases shape i.
Proof.
  unfold position. induction bases as [|b bases IH]; intros [|e shape] [|k i] L1 L2; simpl in L1, L2; try lia; auto.
  cbn [length]. rewrite c_ordering_S, mixed_radix_app. cbn [repeat digits].
  rewrite mixed_radix_map_S, radices_map_S, IH by lia.
  cbn [mixed_radix nth row_major digit].
  rewrite radices_perm by apply c_ordering_perm. lia.
Qed.
Lemma row_major_zeros : forall bases shape n, Forall (fun b => b = 0) bases -> row_major bases shape (repeat 0 n) = 0.
Proof.
  induction bases as [|b bases IH]; intros [|e shape] [|n] F; cbn [repeat row_major]; auto.
  inversion F; subst. rewrite IH by auto. lia.
Qed.
Lemma row_major_empty : forall bases shape m t n, Forall (fun b => b = 0) bases -> In 0 shape ->
  in_bounds (firstn m bases) (firstn m shape) t -> row_major bases shape (t ++ repeat 0 n) = 0.
Proof.
  induction bases as [|b bases IH]; intros [|e shape] m t n F H0 Ht; cbn [row_major]; auto.
  inversion F; subst. destruct m as [|m]; cbn [firstn in_bounds] in Ht.
  - destruct t; [|destruct Ht]. cbn [app]. apply (row_major_zeros (0 :: bases) (e :: shape) n). auto.
  - destruct t as [|k t]; [destruct Ht|]. destruct Ht as [Hk Ht]. cbn [app].
    destruct H0 as [->|H0]; [lia|].
    assert (P0 : prod shape = 0).
    { clear - H0. induction shape as [|e shape IH]; [destruct H0|]. rewrite prod_cons. destruct H0 as [->|H0]; [lia|]. rewrite IH by auto. lia. }
    rewrite P0, (IH shape m t n) by auto. lia.
Qed.

Lemma tame_walkable room c : array_object c -> stored room c -> tame (cr_ib c) (cr_ext c) (cr_storage c) -> walkable room (cr_nd c).
Proof.
  intros Hc HS [Hz|(Fb & H0 & HT)]; [apply derived_walkable with c; auto; constructor|].
  pose proof (array_object_ok c Hc) as Hok.
  assert (ED : within room (cr_data c)).
  { destruct HS as [S1 S2]. unfold within. pose proof (new_num c Hc). unfold cr_num_elements in *. lia. }
  assert (Lib : length (cr_ib c) = length (cr_ext c)) by (apply cref_ok_len; auto).
  intros m t Ht. cbn [cr_nd nd_base nd_ext nd_org nd_str] in *.
  assert (LT : (length t <= length (cr_ext c))%nat).
  { apply in_bounds_length in Ht. rewrite firstn_length in Ht. lia. }
  assert (EA : padd (cr_origin c) (dot t (cr_str c)) = padd (cr_data c)
     (pos_of (cr_storage c) (cr_ib c) (cr_ext c) (t ++ repeat 0 (length (cr_ext c) - length t)))).
  { rewrite <- cref_addr; auto; [|rewrite app_length, repeat_length; lia]. unfold addr. cbn [cr_nd nd_org nd_str].
    rewrite firstn_dot. auto. }
  destruct HT as [HT|[Fe Fa]].
  - rewrite EA. unfold pos_of. rewrite HT. unfold so_from_c. cbn [so_ordering so_ascending]. fold (c_ordering (length (cr_ext c))).
    rewrite position_c_len by (auto; rewrite app_length, repeat_length; lia).
    rewrite (row_major_empty (cr_ib c) (cr_ext c) m) by auto. rewrite padd_0. auto.
  - assert (t = []) as ->.
    { clear - Fe Ht. destruct m; [destruct t; [auto|destruct Ht]|].
      destruct (cr_ib c) as [|b bs], Fe as [|e es He Fe]; cbn [firstn in_bounds] in Ht; destruct t; try tauto. subst. lia. }
    pose proof (c32_data_from_origin c Hc Fa) as ED2.
    assert (D0 : forall l s, Forall (fun b => b = 0) l -> dot l s = 0).
    { induction l as [|b l IH]; intros [|s ss] F; cbn [dot]; auto. inversion F; subst. rewrite IH by auto. lia. }
    rewrite D0, padd_0 in ED2 by auto. cbn [dot]. rewrite padd_0, <- ED2. auto.
Qed.

Lemma tame_object_walkable room c o : array_object c -> stored room c -> object_of c o -> tame_object o -> walkable room (obj_nd o).
Proof.
  intros Hc HS Ho Ht. destruct o as [c'|v|a]; cbn [object_of tame_object obj_nd] in *.
  - subst. apply tame_walkable; auto.
  - apply derived_walkable with c; auto. constructor; auto.
  - apply derived_walkable with c; auto.
Qed.

(** * exactly which pointers element access computes *)

Lemma strict_brackets_iff room chk : forall idx a, nd_ok a -> in_bounds (nd_base a) (nd_ext a) idx ->
  ((forall m, (0 < m <= length idx)%nat -> within room (padd (nd_org a) (dot (firstn m idx) (nd_str a)))) ->
     strict_brackets room chk a idx = bracket chk a idx) /\
  (~ (forall m, (0 < m <= length idx)%nat -> within room (padd (nd_org a) (dot (firstn m idx) (nd_str a)))) ->
     strict_brackets room chk a idx = UB).
Proof.
  induction idx as [|k idx IH]; intros a Ha Hi;
    destruct (nd_ok_shape a Ha) as (b & bs & e & es & s & ss & Eb & Ee & Es & L1 & L2 & HA); rewrite Eb, Ee in Hi; [destruct Hi|].
  destruct Hi as [Hk Hi]. pose proof (in_bounds_length _ _ _ Hi) as [_ Hl].
  destruct idx as [|k2 idx].
  - destruct es; [|discriminate]. destruct bs; [|discriminate]. destruct ss; [|discriminate].
    cbn [strict_brackets bracket]. unfold strict_access_one. rewrite (access_one_ok chk k a b e s) by auto. cbn [obind]. rewrite Es.
    assert (EW : (forall m, (0 < m <= length [k])%nat -> within room (padd (nd_org a) (dot (firstn m [k]) [s]))) <-> within room (padd (nd_org a) (k * s))).
    { split.
      - intros H. specialize (H 1%nat ltac:(simpl; lia)). cbn [firstn dot] in H. rewrite Z.add_0_r in H. auto.
      - intros H m Hm. simpl in Hm. destruct m as [|[|m]]; try lia. cbn [firstn dot]. rewrite Z.add_0_r. auto. }
    split; intros H; [rewrite (proj2 (formed_iff room _)); [auto|now apply EW]|].
    rewrite formed_not; [auto|]. intros W. apply H. now apply EW.
  - assert (Hne : es <> []) by (destruct es; simpl in *; [lia|congruence]).
    change (strict_brackets room chk a (k :: k2 :: idx)) with (r <- strict_access_n room chk k a ;; strict_brackets room chk r (k2 :: idx)).
    change (bracket chk a (k :: k2 :: idx)) with (r <- access_n chk k a ;; bracket chk r (k2 :: idx)).
    assert (EA : access_n chk k a = Ok (row a k)).
    { rewrite (access_n_ok chk k a b bs e es s ss) by auto. unfold row. rewrite Eb, Ee, Es. auto. }
    unfold strict_access_n. rewrite EA. cbn [obind].
    assert (HR : nd_ok (row a k)) by (apply row_ok; auto; rewrite Ee; auto).
    destruct (IH (row a k) HR) as [IH1 IH2].
    { cbn [row nd_base nd_ext]. rewrite Eb, Ee. exact Hi. }
    assert (EO : nd_org (row a k) = padd (nd_org a) (k * s)) by (unfold row; cbn [nd_org]; rewrite Es; auto).
    assert (EX : forall m, padd (nd_org (row a k)) (dot (firstn m (k2 :: idx)) (nd_str (row a k))) = padd (nd_org a) (dot (firstn (S m) (k :: k2 :: idx)) (nd_str a))).
    { intros m. rewrite EO, padd_padd. unfold row. cbn [nd_str]. rewrite Es. cbn [tl]. change (firstn (S m) (k :: k2 :: idx)) with (k :: firstn m (k2 :: idx)).
      cbn [dot]. auto. }
    split; intros H.
    + rewrite (proj2 (formed_iff room _)).
      2:{ specialize (H 1%nat ltac:(simpl; lia)). rewrite Es in H. cbn [firstn dot] in H. rewrite Z.add_0_r in H. rewrite EO. auto. }
      cbn [obind]. apply IH1. intros m Hm. rewrite EX. apply H. simpl in *. lia.
    + destruct (formed room (nd_org (row a k))) as [[]| |] eqn:EF; cbn [obind].
      * apply IH2. intros H'. apply H. intros [|[|m]] Hm; [lia| |].
        { rewrite Es. cbn [firstn dot]. rewrite Z.add_0_r. rewrite <- EO. now apply formed_iff. }
        { rewrite <- EX. apply H'. simpl in *. lia. }
      * unfold formed in EF. destruct ((_ <=? _) && _); discriminate.
      * auto.
Qed.

Lemma zeros_addr c i m : array_object c -> length i = length (cr_ext c) -> (m <= length i)%nat ->
  padd (cr_origin c) (dot (firstn m i) (cr_str c)) =
  padd (cr_data c) (position (so_ordering (cr_storage c)) (so_ascending (cr_storage c)) (cr_ib c) (cr_ext c) (zeros_after m i)).
Proof.
  intros Hc L Hm. pose proof (cref_addr c (zeros_after m i) (array_object_ok c Hc)) as E.
  rewrite <- (firstn_dot (firstn m i) (length i - m)). apply E.
  unfold zeros_after. rewrite app_length, firstn_length, repeat_length. lia.
Qed.

(** a(i) computes origin(), the address that an element with index (0, ..., 0)
    would have: a valid access is undefined iff that is outside of the storage *)
Theorem c59_element_access_exact : forall room chk c i, array_object c -> stored room c ->
  in_bounds (cr_ib c) (cr_ext c) i ->
  let origin := padd (cr_data c) (position (so_ordering (cr_storage c)) (so_ascending (cr_storage c)) (cr_ib c) (cr_ext c) (repeat 0 (length i))) in
  (within room origin -> strict_access_element room chk (OArr c) i = access_element chk (cr_nd c) i) /\
  (~ within room origin -> strict_access_element room chk (OArr c) i = UB).
Proof.
  intros room chk c i Hc HS Hi origin. pose proof (in_bounds_length _ _ _ Hi) as [_ L].
  assert (EO : origin = cr_origin c).
  { unfold origin. pose proof (zeros_addr c i 0 Hc ltac:(lia) ltac:(lia)) as E. cbn [firstn dot] in E. rewrite padd_0 in E.
    rewrite E. unfold zeros_after. cbn [firstn app]. rewrite Nat.sub_0_r. auto. }
  rewrite EO. unfold strict_access_element. cbn [strict_geometry obj_nd cr_nd nd_org]. fold (cr_nd c). split; intros H.
  - rewrite (proj2 (formed_iff room (cr_origin c)) H). cbn [obind].
    pose proof (array_object_ok c Hc) as Hok.
    rewrite access_element_ok by (auto; apply cref_addressable; auto). cbn [obind].
    rewrite (proj2 (formed_iff room _)); auto. eapply element_within; eauto; constructor.
  - rewrite formed_not by auto. auto.
Qed.

(** a[i1]...[iN] computes one pointer after each bracket: the addresses of the
    indices (0,...,0), (i1,0,...,0), (i1,i2,0,...,0), ... *)
Theorem c59_brackets_exact : forall room chk c i, array_object c -> stored room c ->
  in_bounds (cr_ib c) (cr_ext c) i ->
  let fine := forall m, (m <= length i)%nat ->
    within room (padd (cr_data c) (position (so_ordering (cr_storage c)) (so_ascending (cr_storage c)) (cr_ib c) (cr_ext c) (zeros_after m i))) in
  (fine -> strict_bracket room chk (OArr c) i = bracket chk (cr_nd c) i) /\
  (~ fine -> strict_bracket room chk (OArr c) i = UB).
Proof.
  intros room chk c i Hc HS Hi fine. pose proof (in_bounds_length _ _ _ Hi) as [_ L].
  pose proof (array_object_ok c Hc) as Hok.
  destruct (strict_brackets_iff room chk i (cr_nd c) (cref_addressable c Hok) Hi) as [B1 B2].
  assert (EF : fine <-> within room (cr_origin c) /\
    forall m, (0 < m <= length i)%nat -> within room (padd (cr_origin c) (dot (firstn m i) (cr_str c)))).
  { unfold fine. split.
    - intros H. split.
      + specialize (H O ltac:(lia)). rewrite <- (zeros_addr c i 0) in H by (auto; lia). cbn [firstn dot] in H. rewrite padd_0 in H. auto.
      + intros m Hm. rewrite (zeros_addr c i m) by (auto; lia). apply H. lia.
    - intros [H0 H] [|m] Hm; rewrite <- (zeros_addr c i) by (auto; lia).
      + cbn [firstn dot]. rewrite padd_0. auto.
      + apply H. lia. }
  unfold strict_bracket. cbn [strict_geometry obj_nd cr_nd nd_org]. fold (cr_nd c). split; intros H.
  - apply EF in H. destruct H as [H0 H]. rewrite (proj2 (formed_iff room (cr_origin c)) H0). cbn [obind]. apply B1. exact H.
  - destruct (formed room (cr_origin c)) as [[]| |] eqn:E0; cbn [obind]; auto.
    + apply B2. intros H'. apply H. apply EF. split; [now apply formed_iff|exact H'].
    + unfold formed in E0. destruct ((_ <=? _) && _); discriminate.
Qed.

(** * index 0 valid: nothing outside is computed *)

Lemma object_derived c o : object_of c o -> derived c (obj_nd o).
Proof. destruct o; cbn [object_of obj_nd]; intros H; subst; [constructor|constructor; auto|auto]. Qed.

Theorem c59_element_access_inside : forall room chk c o i, array_object c -> stored room c -> object_of c o ->
  around_zero (nd_base (obj_nd o)) (nd_ext (obj_nd o)) -> in_bounds (nd_base (obj_nd o)) (nd_ext (obj_nd o)) i ->
  strict_access_element room chk o i = access_element chk (obj_nd o) i /\ strict_bracket room chk o i = bracket chk (obj_nd o) i.
Proof.
  intros room chk c o i Hc HS Ho Hz Hi. pose proof (object_derived c o Ho) as Hd. pose proof (derived_ok _ _ Hc Hd) as Hok.
  pose proof (derived_walkable room c _ Hc Hd HS Hz) as HW. split.
  - unfold strict_access_element. rewrite geometry_ok by auto. cbn [obind]. rewrite access_element_ok by auto. cbn [obind].
    rewrite (proj2 (formed_iff room _)); auto. eapply element_within; eauto.
  - unfold strict_bracket. rewrite geometry_ok by auto. cbn [obind]. apply strict_brackets_iff; auto.
    intros m Hm. apply (HW m). clear - Hi. revert m i Hi. generalize (nd_base (obj_nd o)) (nd_ext (obj_nd o)).
    induction l as [|b l IH]; intros [|e l0] m [|x i] Hi; cbn [in_bounds] in Hi; try tauto.
    + destruct m; exact I.
    + destruct m as [|m]; [exact I|]. cbn [firstn in_bounds]. split; [tauto|]. apply IH. tauto.
Qed.

Theorem c59_rows_inside : forall room chk c o k r, array_object c -> stored room c -> object_of c o ->
  around_zero (nd_base (obj_nd o)) (nd_ext (obj_nd o)) -> access_n true k (obj_nd o) = Ok r ->
  strict_geometry room o = Ok (obj_nd o) /\ strict_access_n room chk k (obj_nd o) = Ok r /\
  object_of c (OSub r) /\ around_zero (nd_base r) (nd_ext r).
Proof.
  intros room chk c o k r Hc HS Ho Hz E. pose proof (object_derived c o Ho) as Hd. pose proof (derived_ok _ _ Hc Hd) as Hok.
  pose proof (derived_walkable room c _ Hc Hd HS Hz) as HW. split; [apply geometry_ok; auto|].
  destruct (access_n_inv k _ r Hok E) as (b & bs & e & es & s & ss & Eb & Ee & Es & Hne & Hk & Er).
  destruct (strict_access_n_ok room chk (obj_nd o) k b bs e es s ss Hok Eb Ee Es Hne Hk HW) as [A1 A2].
  destruct (strict_access_n_ok room true (obj_nd o) k b bs e es s ss Hok Eb Ee Es Hne Hk HW) as [_ A3].
  rewrite E in A3. injection A3 as ->. split; [auto|]. split; [eapply d_sub; eauto|].
  unfold around_zero in *. rewrite Eb, Ee in Hz. cbn [row nd_base nd_ext]. rewrite Eb, Ee. cbn [tl length repeat in_bounds] in *. tauto.
Qed.

Theorem c59_views_inside : forall room chk c o ig v, array_object c -> stored room c -> object_of c o ->
  around_zero (nd_base (obj_nd o)) (nd_ext (obj_nd o)) ->
  built ig -> (0 < ig_dims ig)%nat -> ranges_inside (nd_base (obj_nd o)) (nd_ext (obj_nd o)) (ig_ranges ig) ->
  make_view true (obj_nd o) ig = Ok v -> around_zero (v_ib v) (v_ext v) ->
  strict_make_view room true o ig = Ok v /\ object_of c (OView v) /\
  (make_view chk (obj_nd o) ig = Ok v -> strict_make_view room chk o ig = Ok v).
Proof.
  intros room chk c o ig v Hc HS Ho Hz Hb Hn Hr E Hv. pose proof (object_derived c o Ho) as Hd.
  pose proof (derived_walkable room c _ Hc Hd HS Hz) as HW.
  assert (Hdv : derived_view c v) by (eapply dv_make; eauto).
  pose proof (derived_walkable room c (v_nd v) Hc (d_view c v Hdv) HS Hv) as HWv. apply walkable_org in HWv.
  assert (EO : v_origin_offset v = 0).
  { clear - E. unfold make_view in E. destruct (generate_array_view true ig (obj_nd o)) as [[[p e] s]| |]; try discriminate. cbn [obind] in E.
    unfold view_make in E. destruct (copy_n e (ig_dims ig)); try discriminate. cbn [obind] in E. destruct (copy_n s (ig_dims ig)); try discriminate.
    cbn [obind] in E. injection E as <-. reflexivity. }
  assert (EB : within room (v_base v)).
  { unfold v_nd, v_origin in HWv. cbn [nd_org] in HWv. rewrite EO, padd_0 in HWv. auto. }
  assert (G : forall chk, make_view chk (obj_nd o) ig = Ok v -> strict_make_view room chk o ig = Ok v).
  { intros chk' E'. unfold strict_make_view. rewrite geometry_ok by auto. cbn [obind]. rewrite E'. cbn [obind].
    rewrite (proj2 (formed_iff room _) EB). auto. }
  split; [auto|]. split; [exact Hdv|auto].
Qed.

Theorem c59_whole_array_operations_inside : forall (T : Type) eqT ltT room chk c1 c2 o1 o2,
  array_object c1 -> stored room c1 -> object_of c1 o1 -> tame_object o1 ->
  array_object c2 -> stored room c2 -> object_of c2 o2 -> tame_object o2 ->
  let n := length (nd_ext (obj_nd o1)) in
  (forall f w, strict_for_each (T := T) room chk f n o1 w = for_each chk f n (obj_nd o1) w) /\
  (length (nd_ext (obj_nd o2)) = n -> forall op h,
     strict_compare (T := T) room eqT ltT op chk h o1 o2 = compare eqT ltT op chk h (obj_nd o1) (obj_nd o2)) /\
  (nd_ext (obj_nd o2) = nd_ext (obj_nd o1) -> forall w,
     strict_assign (T := T) room chk n o1 o2 w = assign_nd chk n (obj_nd o1) (obj_nd o2) w /\
     strict_copy_array (T := T) room chk n o1 o2 w = copy_array chk n (obj_nd o1) (obj_nd o2) w).
Proof.
  intros T eqT ltT room chk c1 c2 o1 o2 Hc1 HS1 Ho1 Hz1 Hc2 HS2 Ho2 Hz2 n.
  pose proof (object_derived c1 o1 Ho1) as Hd1. pose proof (derived_ok _ _ Hc1 Hd1) as Hok1.
  pose proof (object_derived c2 o2 Ho2) as Hd2. pose proof (derived_ok _ _ Hc2 Hd2) as Hok2.
  pose proof (tame_object_walkable room c1 o1 Hc1 HS1 Ho1 Hz1) as HW1.
  pose proof (tame_object_walkable room c2 o2 Hc2 HS2 Ho2 Hz2) as HW2.
  split; [intros; apply strict_for_each_ok; auto|]. split; [intros; apply strict_compare_ok; auto|].
  intros E w. split; [apply strict_assign_ok|apply strict_copy_array_ok]; auto; rewrite E; auto.
Qed.

(** * whole programs *)

Lemma sizes_live {T} (h : heap T) b k : nth_error h b = Some (Some k) -> sizes h b = Z.of_nat (length (b_cells k)).
Proof. intros E. unfold sizes, hblock. rewrite E. auto. Qed.

Lemma owns_room {T} (h : heap T) m vs : owns h m vs -> sizes h (ma_block m) = cr_num_elements (ma_ref m).
Proof. intros (_ & _ & _ & _ & L & E). rewrite (sizes_live _ _ _ E). cbn [b_cells]. rewrite map_length. auto. Qed.

Lemma lies_stored {T} (h : heap T) m vs c : owns h m vs -> lies_in c m -> stored (sizes h) c.
Proof. intros Ho (off & H0 & E & N). unfold stored. rewrite E. cbn [p_off p_blk]. rewrite (owns_room h m vs Ho). lia. Qed.

(** the whole of an owned array *)
Lemma owned_stored {T} (h : heap T) m vs : owns h m vs -> stored (sizes h) (ma_ref m).
Proof.
  intros Ho. pose proof Ho as (_ & Ed & E0 & _). unfold stored. rewrite Ed, E0.
  change (p_blk (ma_base m)) with (ma_block m). rewrite (owns_room h m vs Ho).
  split; [lia|]. pose proof Ho as (_ & _ & _ & _ & L & _). lia.
Qed.

Section Programs.
Context {T : Type}.
Variable dflt : T.
Variable eqT : T -> T -> bool.
Variable ltT : T -> T -> bool.

Lemma stands_walkable (st : @state T) en h c d p : related st en h -> stands (e_vars en) c d p ->
  around_zero (pl_bases p) (pl_shape p) -> nd_ok d /\ walkable (sizes h) d.
Proof.
  intros HR (m & Em & Hc & HL & Hd & Eb & Ee & _) Hz.
  destruct (relA_var_inv _ _ _ _ _ (proj1 HR) Em) as (a & _ & (Ho & _)).
  split; [eapply derived_ok; eauto|]. eapply derived_walkable; eauto; [eapply lies_stored; eauto|]. rewrite Eb, Ee. auto.
Qed.

Lemma view_base chk a ig v : make_view chk a ig = Ok v -> v_origin v = v_base v.
Proof.
  intros E. unfold make_view in E. destruct (generate_array_view chk ig a) as [[[p e] s]| |]; try discriminate. cbn [obind] in E.
  unfold view_make in E. destruct (copy_n e (ig_dims ig)); try discriminate. cbn [obind] in E. destruct (copy_n s (ig_dims ig)); try discriminate.
  cbn [obind] in E. injection E as <-. unfold v_origin. cbn [v_base v_origin_offset]. apply padd_0.
Qed.

(** the elements of a view, also those it would have if it were larger *)
Lemma view_addresses vars chk c d x bs ns ss m subs vs ws g ig v : stands vars c d (Place x bs ns ss m) ->
  slices bs ns ss subs vs ws g -> vs <> [] -> indices_of indices subs = Ok ig -> make_view chk d ig = Ok v ->
  forall t, length t = length vs -> addr (v_nd v) t = addr d (g t).
Proof.
  intros (mm & Em & Hc & HL & Hd & Eb & Ee & Es & Fs & Ei) HS Hne EIG EV t Lt. cbn [pl_var pl_bases pl_shape pl_strides pl_cell] in *.
  pose proof (derived_ok _ _ Hc Hd) as Hok. pose proof Hok as (L1 & L2 & L3 & F1 & F2 & F3 & F4).
  rewrite Eb, Ee, Es in *.
  destruct (slices_facts _ _ _ _ _ _ _ HS) as (A1 & A2 & A3 & A4 & A5 & A6 & A6' & A7 & A8); auto; [split; auto|].
  cbv zeta in *. set (args := map sub_arg subs) in *. set (rs := map arg_range args) in *.
  assert (Hargs : args <> []).
  { intros E0. unfold rs in A1. rewrite E0 in A1. destruct bs; [simpl in L1; lia|]. destruct ns, ss; simpl in A1; tauto. }
  pose proof (c29_generator_records_arguments args Hargs A7) as EI.
  rewrite indices_of_build in EIG. fold args in EIG. rewrite EI in EIG. injection EIG as <-.
  set (ig := IGen (length args) (length (filter is_range args)) rs) in *.
  pose proof (ranges_fit_length _ _ _ _ A1) as Lr.
  assert (Hnum : ig_num ig = length (nd_ext d)).
  { unfold ig. cbn [ig_num]. rewrite Ee, <- Lr. unfold rs. rewrite map_length. auto. }
  assert (Hdf : forall ck, dims_facts ck bs ns ss rs).
  { intros ck. apply ranges_fit_facts; auto; [split; auto|lia]. }
  assert (Hdims : length (gav_strides rs ss) = ig_dims ig).
  { unfold ig. cbn [ig_dims]. rewrite A5, <- A4. apply (length_gav true); auto. }
  assert (EV' : make_view chk d ig = Ok (view_of d rs)).
  { apply make_view_ok; auto; unfold ig; cbn [ig_ranges]; rewrite ?Eb, ?Ee, ?Es; auto. lia. }
  assert (v = view_of d rs) as -> by (change (make_view chk d ig = Ok v) in EV; congruence). rewrite <- (A8 t Lt).
  pose proof (view_addr true d rs t Hok) as VA. rewrite Eb, Ee, Es, A4 in VA. apply VA; auto.
Qed.

Lemma slices_prefix bs ns ss subs vs ws g : slices bs ns ss subs vs ws g -> Forall (fun e => 0 < e) ns ->
  forall n t, in_bounds (firstn n (repeat 0 (length vs))) (firstn n vs) t ->
  in_bounds bs ns (g (t ++ repeat 0 (length vs - length t))).
Proof.
  induction 1 as [|b bs e es s ss i subs vs ws m Hi Hm HS IH|b bs e es s ss lo hi stride subs len vs ws m start finish H0 H1 H2 H3 H4 H5 H6 H7 H8 H9 HS IH];
    intros F n t Ht.
  - destruct n, t; cbn in Ht |- *; tauto.
  - inversion F; subst. cbn [in_bounds]. split; [lia|]. eapply IH; eauto.
  - inversion F as [|? ? He F']; subst. destruct n as [|n]; cbn [length repeat firstn in_bounds] in Ht.
    + destruct t; [|destruct Ht]. cbn [app length Nat.sub repeat in_bounds]. split; [lia|].
      specialize (IH F' O [] I). cbn [app length] in IH. rewrite Nat.sub_0_r in IH. exact IH.
    + destruct t as [|k t]; [destruct Ht|]. destruct Ht as [Hk Ht]. cbn [app length Nat.sub in_bounds]. split; [|eapply IH; eauto].
      assert (HK : selected start finish stride k) by (apply H9; lia). unfold selected in HK. destruct HK as [_ HK].
      destruct (Z.ltb_spec 0 stride) as [Q|Q]; [specialize (H4 Q)|specialize (H5 ltac:(lia))]; nia.
Qed.

(** what an expression evaluates to *)
Lemma easy_eval st en (h : heap T) chk e p : related st en h -> denotes st e p -> zero_based st e ->
  exists o, strict_eval (sizes h) chk en e = Ok o /\ eval chk en e = Ok o /\ nd_ok (obj_nd o) /\ walkable (sizes h) (obj_nd o) /\
    nd_base (obj_nd o) = pl_bases p /\ nd_ext (obj_nd o) = pl_shape p /\
    (forall i, in_bounds (pl_bases p) (pl_shape p) i -> within (sizes h) (addr (obj_nd o) i)).
Proof.
  intros HR HD HZ. assert (HX : exists o, strict_eval (sizes h) chk en e = Ok o /\ eval chk en e = Ok o /\ walkable (sizes h) (obj_nd o)).
  { revert HZ. induction HD as [x a Ha|k n Hn|e i x b bs n ns s ss m H IH Hne Hi|e subs x bs ns ss m vs ws g H IH HS Hne
      |e k x b bs n ns s ss m H IH Hne Hi|e k x b bs n ns s ss m H IH Hne Hi]; intros HZ; cbn [zero_based] in HZ.
    - destruct (relA_var _ _ _ _ _ (proj1 HR) Ha) as (m & Em & (Ho & E1 & E2 & E3 & _)).
      exists (OArr (ma_ref m)). cbn [strict_eval eval]. rewrite (var_eval _ _ _ Em). split; [auto|]. split; [auto|]. cbn [obj_nd].
      apply tame_walkable; [apply Ho|eapply owned_stored; eauto|]. rewrite E1, E2, E3. auto.
    - destruct (proj2 (proj2 HR) k n Hn) as (d & Ed & Hd). exists (handle_obj d). cbn [strict_eval eval]. unfold named. rewrite Ed. cbn [obind].
      split; [auto|]. split; [auto|]. specialize (HZ n Hn).
      destruct d as [v|c], n as [p|x off bases shape so]; cbn [hrel handle_obj obj_nd] in *; try tauto.
      + destruct Hd as (c & Hdv & Hs). eapply stands_walkable; eauto.
      + destruct Hd as (m & Em & Hc & HL & <- & <- & <-).
        destruct (relA_var_inv _ _ _ _ _ (proj1 HR) Em) as (a & _ & (Ho & _)). apply tame_walkable; auto. eapply lies_stored; [eauto|exists off; exact HL].
    - destruct (IH HZ) as (o & E1 & E2 & HW). destruct (denotes_eval st en h chk e _ HR H) as (o' & c & Eo & Hs & _).
      rewrite E2 in Eo. injection Eo as <-. destruct (row_stands _ chk _ _ _ _ _ _ _ _ _ _ i Hs Hne Hi) as [E _].
      pose proof Hs as (mm & _ & Hc & _ & Hd & Eb & Ee & _). cbn [pl_bases pl_shape] in Eb, Ee. pose proof (derived_ok _ _ Hc Hd) as Hok.
      destruct (nd_ok_shape _ Hok) as (b' & bs' & e' & es' & st' & ss' & Eb' & Ee' & Es' & _). rewrite Eb' in Eb. rewrite Ee' in Ee. injection Eb as -> ->. injection Ee as -> ->.
      pose proof (walkable_row _ _ i _ _ _ _ _ _ Eb' Ee' Es' Hi HW) as HWr.
      exists (OSub (row (obj_nd o) i)). cbn [strict_eval eval]. rewrite E1, E2. cbn [obind]. rewrite geometry_ok by auto. cbn [obind].
      unfold strict_access_n. rewrite E. cbn [obind]. rewrite (proj2 (formed_iff _ _) (walkable_org _ _ HWr)). auto.
    - destruct HZ as [HZ HZv]. destruct (IH HZ) as (o & E1 & E2 & HW). destruct (denotes_eval st en h chk e _ HR H) as (o' & c & Eo & Hs & _).
      rewrite E2 in Eo. injection Eo as <-.
      destruct (view_stands _ chk _ _ _ _ _ _ _ _ _ _ _ Hs HS Hne) as (ig & v & Ei & E & Hv & Hr).
      assert (HWv : walkable (sizes h) (v_nd v)).
      { specialize (HZv _ H). cbn [pl_shape] in HZv.
        pose proof Hs as (mm & Em & Hc & HL & Hd & Eb & Ee & _). cbn [pl_bases pl_shape] in Eb, Ee.
        destruct (relA_var_inv _ _ _ _ _ (proj1 HR) Em) as (a & _ & (Ho & _)).
        destruct Hr as (_ & _ & _ & _ & _ & Ebv & Eev & _). cbn [pl_bases pl_shape] in Ebv, Eev.
        intros n t Ht. rewrite Ebv, Eev in Ht.
        assert (LT : (length t <= length vs)%nat) by (apply in_bounds_length in Ht; rewrite !firstn_length in Ht; lia).
        pose proof (view_addresses _ _ _ _ _ _ _ _ _ _ _ _ _ _ _ Hs HS Hne Ei E (t ++ repeat 0 (length vs - length t))
          ltac:(rewrite app_length, repeat_length; lia)) as VA.
        unfold addr in VA at 1. rewrite firstn_dot in VA. rewrite VA.
        eapply element_within; eauto; [eapply lies_stored; eauto|]. rewrite Eb, Ee. eapply slices_prefix; eauto. }
      exists (OView v). cbn [strict_eval eval]. rewrite E1, E2. cbn [obind]. rewrite Ei. cbn [obind].
      unfold strict_make_view. rewrite geometry_ok by auto. cbn [obind]. rewrite E. cbn [obind].
      pose proof (walkable_org _ _ HWv) as HO. unfold v_nd in HO. cbn [nd_org] in HO. rewrite (view_base _ _ _ _ E) in HO.
      rewrite (proj2 (formed_iff _ _) HO). auto.
    - destruct (IH HZ) as (o & E1 & E2 & HW). destruct (denotes_eval st en h chk e _ HR H) as (o' & c & Eo & Hs & _).
      rewrite E2 in Eo. injection Eo as <-. destruct (row_stands _ chk _ _ _ _ _ _ _ _ _ _ (b + k) Hs Hne ltac:(lia)) as [E _].
      pose proof Hs as (mm & _ & Hc & _ & Hd & Eb & Ee & _). cbn [pl_bases pl_shape] in Eb, Ee. pose proof (derived_ok _ _ Hc Hd) as Hok.
      destruct (nd_ok_shape _ Hok) as (b' & bs' & e' & es' & st' & ss' & Eb' & Ee' & Es' & _). rewrite Eb' in Eb. rewrite Ee' in Ee. injection Eb as -> ->. injection Ee as -> ->.
      pose proof (walkable_row _ _ (b + k) _ _ _ _ _ _ Eb' Ee' Es' ltac:(lia) HW) as HWr.
      exists (OSub (row (obj_nd o) (b + k))). cbn [strict_eval eval]. rewrite E1, E2. cbn [obind]. rewrite geometry_ok by auto. cbn [obind].
      destruct (ends_at _ _ _ _ _ _ _ Hok Eb' Ee' Es') as (B & _ & Hn).
      assert (EK : it_advance (it_at (obj_nd o) b) k = Ok (it_at (obj_nd o) (b + k))).
      { pose proof Hok as Hk. unfold nd_ok in Hk. rewrite Eb', Ee', Es' in Hk. apply addressable_cons in Hk.
        apply it_advance_at. unconst; lia. }
      rewrite B. cbn [obind]. rewrite EK. cbn [obind]. unfold strict_deref_n, it_deref_n, strict_access_n. rewrite it_nd_at. cbn [it_at it_idx].
      rewrite E. cbn [obind]. rewrite (proj2 (formed_iff _ _) (walkable_org _ _ HWr)). auto.
    - destruct (IH HZ) as (o & E1 & E2 & HW). destruct (denotes_eval st en h chk e _ HR H) as (o' & c & Eo & Hs & _).
      rewrite E2 in Eo. injection Eo as <-. destruct (row_stands _ chk _ _ _ _ _ _ _ _ _ _ (b + n - 1 - Z.of_nat k) Hs Hne ltac:(lia)) as [E _].
      pose proof Hs as (mm & _ & Hc & _ & Hd & Eb & Ee & _). cbn [pl_bases pl_shape] in Eb, Ee. pose proof (derived_ok _ _ Hc Hd) as Hok.
      destruct (nd_ok_shape _ Hok) as (b' & bs' & e' & es' & st' & ss' & Eb' & Ee' & Es' & _). rewrite Eb' in Eb. rewrite Ee' in Ee. injection Eb as -> ->. injection Ee as -> ->.
      pose proof (walkable_row _ _ (b + n - 1 - Z.of_nat k) _ _ _ _ _ _ Eb' Ee' Es' ltac:(lia) HW) as HWr.
      exists (OSub (row (obj_nd o) (b + n - 1 - Z.of_nat k))). cbn [strict_eval eval]. rewrite E1, E2. cbn [obind]. rewrite geometry_ok by auto. cbn [obind].
      destruct (ends_at _ _ _ _ _ _ _ Hok Eb' Ee' Es') as (_ & B & Hn).
      pose proof Hok as Hk. unfold nd_ok in Hk. rewrite Eb', Ee', Es' in Hk. apply addressable_cons in Hk.
      unfold nd_rbegin. rewrite B. cbn [obind]. rewrite ri_inc_n_at by (unconst; lia). cbn [obind].
      replace (b + n - Z.of_nat k) with (b + n - 1 - Z.of_nat k + 1) by lia.
      rewrite ri_deref_n_at by (unconst; lia). rewrite E. cbn [obind].
      unfold ri_deref_n. cbn [ri_base]. rewrite it_dec_at by (unconst; lia). cbn [obind].
      unfold strict_deref_n, strict_access_n. rewrite it_nd_at. cbn [it_at it_idx].
      replace (b + n - 1 - Z.of_nat k + 1 - 1) with (b + n - 1 - Z.of_nat k) by lia.
      rewrite E. cbn [obind]. rewrite (proj2 (formed_iff _ _) (walkable_org _ _ HWr)). auto. }
  destruct HX as (o & E1 & E2 & HW). destruct (denotes_eval st en h chk e _ HR HD) as (o' & c & Eo & Hs & _).
  rewrite E2 in Eo. injection Eo as <-. exists o. split; [auto|]. split; [auto|].
  destruct Hs as (m & Em & Hc & HL & Hd & Eb & Ee & _). split; [eapply derived_ok; eauto|]. split; [auto|]. split; [auto|]. split; [auto|].
  destruct (relA_var_inv _ _ _ _ _ (proj1 HR) Em) as (a & _ & (Ho & _)).
  intros i Hi. eapply element_within; eauto; [eapply lies_stored; eauto|]. rewrite Eb, Ee. auto.
Qed.

(** reading or writing an element: the next pointer is not outside *)
Lemma cell_next (h : heap T) p c : hcell h p = Some c -> within (sizes h) (padd p 1).
Proof.
  unfold hcell, within, sizes. cbn [padd p_off p_blk]. destruct (hblock h (p_blk p)) as [k|]; [|discriminate].
  destruct (Z.ltb_spec (p_off p) 0); [discriminate|]. intros E. apply nth_error_Some_lt in E || (assert (E' : nth_error (b_cells k) (Z.to_nat (p_off p)) <> None) by congruence; apply nth_error_Some in E'). lia.
Qed.
Lemma hwrite_sizes (h h' : heap T) p v : hwrite h p v = Ok h' -> forall b, sizes h' b = sizes h b.
Proof.
  unfold hwrite, hset. destruct (hcell h p) as [[u|]|] eqn:E; try discriminate. destruct (hblock h (p_blk p)) as [k|] eqn:EB; [|discriminate].
  intros H. injection H as <-. intros b. unfold sizes. destruct (Nat.eq_dec b (p_blk p)) as [->|N].
  - rewrite EB. unfold hblock. rewrite nth_error_set_nth_eq; [cbn [b_cells]; rewrite length_set_nth; auto|].
    unfold hblock in EB. apply nth_error_Some. destruct (nth_error h (p_blk p)); congruence.
  - unfold hblock. rewrite nth_error_set_nth_ne by auto. auto.
Qed.
Lemma store_next p v w a w' : store (T := T) p v w = Done a w' -> within (sizes (w_heap w)) (padd p 1) /\ (forall b, sizes (w_heap w') b = sizes (w_heap w) b).
Proof.
  unfold store. destruct (hwrite (w_heap w) p v) as [h'| |] eqn:E; try discriminate. intros H. injection H as <- <-. cbn [w_heap].
  split; [|eapply hwrite_sizes; eauto]. unfold hwrite in E. destruct (hcell (w_heap w) p) as [c|] eqn:EC; [|discriminate]. eapply cell_next; eauto.
Qed.
Lemma tick_sizes w a w' : tick (T := T) w = Done a w' -> w_heap w' = w_heap w.
Proof. unfold tick. destruct (w_fuse w) as [[|k]|]; intros H; try discriminate; injection H as <- <-; auto. Qed.
Lemma elem_assign_next d s w a w' : elem_assign (T := T) d s w = Done a w' ->
  within (sizes (w_heap w)) (padd s 1) /\ within (sizes (w_heap w)) (padd d 1) /\ (forall b, sizes (w_heap w') b = sizes (w_heap w) b).
Proof.
  unfold elem_assign, bind at 1, load, lift. destruct (hread (w_heap w) s) as [v| |] eqn:E; try discriminate.
  unfold bind at 1. destruct (tick w) as [[] w1|w1|w1| |] eqn:ET; try discriminate. apply tick_sizes in ET. intros H.
  apply store_next in H. rewrite ET in H. split; [|exact H]. unfold hread in E. destruct (hcell (w_heap w) s) as [c|] eqn:EC; [|discriminate]. eapply cell_next; eauto.
Qed.

Lemma within_ext room room' p : (forall b, room b = room' b) -> within room p <-> within room' p.
Proof. intros H. unfold within. rewrite H. tauto. Qed.

Lemma strict_copy_n_ok : forall n room first result (w : world T), (forall b, room b = sizes (w_heap w) b) ->
  strict_copy_n_elems room first n result w = copy_n_elems first n result w.
Proof.
  induction n as [|n IH]; intros room first result w HE; [auto|]. cbn [strict_copy_n_elems copy_n_elems]. unfold bind at 1 4.
  destruct (elem_assign result first w) as [[] w'|w'|w'| |] eqn:E; auto. apply elem_assign_next in E. destruct E as (E1 & E2 & E3).
  rewrite (bind_lift_ok tt) by (apply formed_iff; apply (within_ext _ _ _ HE); auto).
  rewrite (bind_lift_ok tt) by (apply formed_iff; apply (within_ext _ _ _ HE); auto).
  apply IH. intros b. rewrite HE, E3. auto.
Qed.

Lemma strict_assign_loop_ok : forall l room out k n (w : world T), (forall b, room b = sizes (w_heap w) b) ->
  strict_assign_loop room out l k n w = assign_loop out l k n w.
Proof.
  induction l as [|v l IH]; intros room out k n w HE; [auto|]. cbn [strict_assign_loop assign_loop]. destruct (k <? n); [|auto].
  unfold bind at 1 4. destruct (tick w) as [[] w1|w1|w1| |] eqn:ET; auto. apply tick_sizes in ET.
  unfold bind at 1 3. destruct (store out v w1) as [[] w'|w'|w'| |] eqn:E; auto. apply store_next in E. destruct E as (E1 & E2).
  rewrite (bind_lift_ok tt) by (apply formed_iff; apply (within_ext _ _ _ HE); rewrite <- ET; auto).
  apply IH. intros b. rewrite HE, E2, ET. auto.
Qed.


(** a new block does not move the end of the others *)
Lemma within_app (h : heap T) b p : within (sizes h) p -> within (sizes (h ++ [b])) p.
Proof.
  unfold within, sizes, hblock. destruct (nth_error h (p_blk p)) as [[k|]|] eqn:E; try lia.
  rewrite nth_error_app1 by (apply nth_error_Some; congruence). rewrite E. auto.
Qed.
Lemma walkable_app (h : heap T) b a : walkable (sizes h) a -> walkable (sizes (h ++ [b])) a.
Proof. intros H m t Ht. apply within_app. apply (H m t Ht). Qed.

(** the corner of an array that resize copies *)
Lemma corner_walkable room chk c mins rs v : array_object c -> stored room c -> tame (cr_ib c) (cr_ext c) (cr_storage c) ->
  Forall2 (fun m e => 0 <= m <= e) mins (cr_ext c) ->
  populate_all (cr_ib c) mins = Ok rs -> make_view chk (cr_nd c) (IGen (length (cr_ext c)) (length (cr_ext c)) rs) = Ok v ->
  within room (cr_origin c) /\ within room (v_base v) /\ walkable room (v_nd v) /\ nd_ok (v_nd v) /\ v_ext v = mins.
Proof.
  intros Hc HS HRe HM HP HV. pose proof (array_object_ok c Hc) as Hok.
  destruct (corner_view chk (cr_nd c) mins (cref_addressable c Hok) HM) as (rs' & v' & P' & V' & K & X & B & Ad).
  cbn [cr_nd nd_base nd_ext] in *. rewrite HP in P'. injection P' as <-. rewrite HV in V'. injection V' as <-.
  pose proof (Forall2_length _ _ _ HM) as LM.
  assert (Lib : length (cr_ib c) = length (cr_ext c)) by (apply cref_ok_len; auto).
  assert (EW : forall i, in_bounds (cr_ib c) (cr_ext c) i -> within room (addr (cr_nd c) i)) by (intros i Hi; eapply element_within; eauto; constructor).
  assert (HO : within room (cr_origin c) /\ walkable room (v_nd v)).
  { pose proof (tame_walkable room c Hc HS HRe) as HWc. split; [apply (walkable_org room (cr_nd c)); auto|].
    destruct HRe as [Hz|(Fb & _)].
    - intros m t Ht. cbn [v_nd nd_base nd_ext nd_org nd_str] in *. rewrite X, B in Ht.
      set (k := t ++ repeat 0 (length (cr_ext c) - length t)).
      assert (Hin : in_bounds (repeat 0 (length (cr_ext c))) (cr_ext c) k).
      { unfold k, around_zero in *. revert Hz HM Ht. clear. intros Hz HM. revert t m Hz.
        assert (G : forall t m bs, in_bounds bs (cr_ext c) (repeat 0 (length (cr_ext c))) ->
          in_bounds (firstn m (repeat 0 (length (cr_ext c)))) (firstn m mins) t ->
          in_bounds (repeat 0 (length (cr_ext c))) (cr_ext c) (t ++ repeat 0 (length (cr_ext c) - length t))).
        { induction HM as [|x e mins ext Hx HM IH]; intros t m bs Hz Ht.
          - destruct m, t; cbn in Ht |- *; tauto.
          - destruct bs as [|b bs]; [destruct Hz|]. cbn [length repeat in_bounds] in Hz. destruct Hz as [H0 Hz].
            destruct m as [|m]; cbn [length repeat firstn in_bounds] in Ht.
            + destruct t; [|destruct Ht]. cbn [app length Nat.sub repeat in_bounds]. split; [lia|]. specialize (IH [] O bs Hz I). cbn [app length] in IH. rewrite Nat.sub_0_r in IH. exact IH.
            + destruct t as [|y t]; [destruct Ht|]. destruct Ht as [Hy Ht]. cbn [app length Nat.sub repeat in_bounds]. split; [lia|]. eapply IH; eauto. }
        intros t m Hz Ht. eapply G; eauto. }
      pose proof (in_bounds_length _ _ _ Hin) as [_ Lk]. specialize (Ad k Lk).
      unfold addr in Ad at 1. cbn [v_nd nd_org nd_str] in Ad. unfold k in Ad at 1. rewrite firstn_dot in Ad. rewrite Ad.
      apply EW. apply tadd_in_bounds; auto.
    - intros m t Ht. cbn [v_nd nd_base nd_ext nd_org nd_str] in *. rewrite X, B in Ht.
      set (k := t ++ repeat 0 (length (cr_ext c) - length t)).
      assert (LT : (length t <= length (cr_ext c))%nat).
      { apply in_bounds_length in Ht. rewrite !firstn_length, LM in Ht. lia. }
      assert (Lk : length k = length (cr_ext c)) by (unfold k; rewrite app_length, repeat_length; lia). specialize (Ad k Lk).
      assert (EB : cr_ib c = repeat 0 (length (cr_ext c))) by (rewrite <- Lib; clear - Fb; induction Fb; simpl; congruence).
      assert (T0 : forall n l, length l = n -> tadd (repeat 0 n) l = l).
      { induction n as [|n IH]; intros [|x l] Hl; simpl in *; try lia; auto. f_equal. apply IH. lia. }
      rewrite EB, T0 in Ad by auto.
      unfold addr in Ad. cbn [v_nd cr_nd nd_org nd_str] in Ad. unfold k in Ad. rewrite !firstn_dot in Ad. rewrite Ad.
      apply (HWc m t). cbn [cr_nd nd_base nd_ext]. rewrite EB. clear - HM Ht. revert t m Ht.
      induction HM as [|x e mins ext Hx HM IH]; intros t m Ht; [destruct m; exact Ht|].
      destruct m as [|m]; [exact Ht|]. cbn [length repeat firstn in_bounds] in *. destruct t as [|y t]; [destruct Ht|].
      destruct Ht as [Hy Ht]. split; [lia|]. apply IH; auto. }
  destruct HO as [HO HW]. split; [auto|]. split; [|auto].
  assert (EO : v_origin_offset v = 0).
  { clear - HV. unfold make_view in HV. destruct (generate_array_view _ _ _) as [[[p e] s]| |]; try discriminate. cbn [obind] in HV.
    unfold view_make in HV. destruct (copy_n e _); try discriminate. cbn [obind] in HV. destruct (copy_n s _); try discriminate.
    cbn [obind] in HV. injection HV as <-. reflexivity. }
  apply walkable_org in HW. unfold v_nd, v_origin in HW. cbn [nd_org] in HW. rewrite EO, padd_0 in HW. auto.
Qed.

Lemma strict_resize_ok chk a vs g bases shape (h : heap T) f :
  owns h a vs -> length shape = length (cr_ext (ma_ref a)) -> layout_ok (cr_storage (ma_ref a)) bases shape ->
  eg_num g = length shape -> ranges_are (eg_ranges g) bases shape ->
  tame (cr_ib (ma_ref a)) (cr_ext (ma_ref a)) (cr_storage (ma_ref a)) -> tame bases shape (cr_storage (ma_ref a)) ->
  strict_ma_resize dflt chk a g (World h f) = ma_resize dflt chk a g (World h f).
Proof.
  intros Ho Hlen Hl Hg HR HRo HRn. pose proof Ho as (Ha & Hdata & _). pose proof (array_object_ok _ Ha) as Hok.
  assert (Hso : order_ok (length shape) (cr_storage (ma_ref a))) by (rewrite Hlen; apply Hok).
  destruct (from_gen_ok chk null_ptr bases shape g (cr_storage (ma_ref a)) Hso Hl Hg HR) as (c & Ec & Hcok & Eb & Es & Ee & Ei).
  assert (Hc : array_object c) by (eapply (ao_gen chk null_ptr bases shape g); eauto).
  unfold strict_ma_resize, ma_resize. rewrite Hg, Hlen, Nat.eqb_refl. unfold ma_from_gen. rewrite Ec.
  change (x <~ lift (Ok c) ;; allocate_space dflt x (ma_aid a)) with (allocate_space dflt c (ma_aid a)).
  assert (NN : forall n w, allocate_space dflt c (ma_aid a) (World h f) = Done n w ->
    n = new_ma c (ma_aid a) (length h) /\ exists vs0, length vs0 = Z.to_nat (cr_num c) /\ w_heap w = h ++ [Some (Block (ma_aid a) (map Some vs0))]).
  { intros n w E. destruct (allocate_space_cases dflt c (ma_aid a) h f Hc) as [(k & Ef & Hk & [[K0 E']|[K0 E']])|[Hf E']]; rewrite E' in E; try discriminate.
    injection E as <- <-. split; [auto|]. eexists. split; [|reflexivity]. apply repeat_length. }
  apply bind_ext_res; [auto|]. intros new w E. destruct (NN _ _ E) as (-> & vs0 & Lv & Ew). clear NN E.
  set (new := new_ma c (ma_aid a) (length h)). set (room := sizes (w_heap w)).
  assert (On : owns (w_heap w) new vs0) by (rewrite Ew; apply new_owns; auto).
  assert (Oa : owns (w_heap w) a vs).
  { rewrite Ew. apply (owns_other a vs h); auto. apply app_untouched. eapply owns_lt; eauto. }
  pose proof (owned_stored _ _ _ On) as Sn. pose proof (owned_stored _ _ _ Oa) as Sa. fold room in Sn, Sa.
  pose proof On as (Hn & _).
  destruct (min_extents_ok (cr_ext c) (cr_ext (ma_ref a))) as (mins & Em & M1 & M2 & M3); [congruence| | |].
  { destruct Hcok as (_ & Hr & _). eapply rep_nonneg; apply Hr. }
  { destruct Hok as (_ & Hr & _). eapply rep_nonneg; apply Hr. }
  destruct (corner_view chk (cr_nd (ma_ref new)) mins (cref_addressable _ (array_object_ok _ Hn)) M1) as (rs1 & v1 & P1 & V1 & _).
  destruct (corner_view chk (cr_nd (ma_ref a)) mins (cref_addressable _ Hok) M2) as (rs2 & v2 & P2 & V2 & _).
  cbn [cr_nd nd_base nd_ext] in P1, V1, P2, V2.
  assert (RN : tame (cr_ib (ma_ref new)) (cr_ext (ma_ref new)) (cr_storage (ma_ref new))).
  { unfold new, new_ma, cr_set_base. cbn [ma_ref cr_ib cr_ext cr_storage]. rewrite Ee, Ei, Es. auto. }
  destruct (corner_walkable room chk (ma_ref new) mins rs1 v1 Hn Sn RN M1 P1 V1) as (W1 & W2 & W3 & W4 & W5).
  destruct (corner_walkable room chk (ma_ref a) mins rs2 v2 Ha Sa HRo M2 P2 V2) as (Z1 & Z2 & Z3 & Z4 & Z5).
  apply bind_ext_res; [|auto]. unfold here. fold room. unfold on_throw. change (cr_ext (ma_ref new)) with (cr_ext c) in *.
  rewrite !(bind_lift_ok _ _ _ _ Em), !(bind_lift_ok _ _ _ _ P1), !(bind_lift_ok _ _ _ _ P2).
  replace (length (cr_ext c)) with (length (cr_ext (ma_ref a))) in V1 by congruence.
  rewrite (bind_lift_ok v2), (bind_lift_ok v1).
  2:{ unfold strict_make_view. cbn [strict_geometry obj_nd cr_nd nd_org]. rewrite (proj2 (formed_iff room _) W1). cbn [obind].
      change (Nd _ _ _ _) with (cr_nd (ma_ref new)) || idtac. rewrite V1. cbn [obind]. rewrite (proj2 (formed_iff room _) W2). auto. }
  2:{ unfold strict_make_view. cbn [strict_geometry obj_nd cr_nd nd_org]. rewrite (proj2 (formed_iff room _) Z1). cbn [obind].
      rewrite V2. cbn [obind]. rewrite (proj2 (formed_iff room _) Z2). auto. }
  rewrite (bind_lift_ok v2) by auto. rewrite (bind_lift_ok v1) by auto.
  rewrite (strict_assign_ok room chk (length (cr_ext (ma_ref a))) (OView v1) (OView v2)); auto; cbn [obj_nd v_nd nd_ext]; [congruence|].
  rewrite Z5. apply Forall2_length in M2. auto.
Qed.

Lemma strict_copy_ok a vs (h : heap T) f : owns h a vs -> strict_ma_copy dflt a (World h f) = ma_copy dflt a (World h f).
Proof.
  intros Ho. unfold strict_ma_copy, ma_copy. apply bind_ext_res; [auto|]. intros new w E. apply bind_ext_res; [|auto].
  unfold here. apply strict_copy_n_ok. auto.
Qed.

Lemma strict_convert_ok chk o so aid (h : heap T) f : nd_ok (obj_nd o) -> walkable (sizes h) (obj_nd o) ->
  tame (nd_base (obj_nd o)) (nd_ext (obj_nd o)) so ->
  order_ok (length (nd_ext (obj_nd o))) so -> layout_ok so (nd_base (obj_nd o)) (nd_ext (obj_nd o)) ->
  strict_ma_convert dflt chk o so aid (World h f) = ma_convert dflt chk (obj_nd o) so aid (World h f).
Proof.
  intros Hok HW Hz Hso Hlay. unfold strict_ma_convert, ma_convert.
  destruct (from_shape_ok chk null_ptr (nd_base (obj_nd o)) (nd_ext (obj_nd o)) so Hso Hlay) as (c & Ec & Hcok & Eb & Es & Ee & Ei).
  assert (Hc : array_object c) by (eapply ao_shape; eauto).
  rewrite !(bind_lift_ok _ _ _ _ Ec). apply bind_ext_res; [auto|]. intros new w E. apply bind_ext_res; [|auto].
  assert (NN : new = new_ma c aid (length h) /\ exists vs0, length vs0 = Z.to_nat (cr_num c) /\ w_heap w = h ++ [Some (Block aid (map Some vs0))]).
  { destruct (allocate_space_cases dflt c aid h f Hc) as [(k & Ef & Hk & [[K0 E']|[K0 E']])|[Hf E']]; rewrite E' in E; try discriminate.
    injection E as <- <-. split; [auto|]. eexists. split; [|reflexivity]. apply repeat_length. }
  destruct NN as (-> & vs0 & Lv & Ew). unfold here. set (new := new_ma c aid (length h)).
  assert (On : owns (w_heap w) new vs0) by (rewrite Ew; apply new_owns; auto).
  pose proof On as (Hn & _). pose proof (owned_stored _ _ _ On) as Sn.
  apply strict_std_copy_ok; cbn [obj_nd]; auto.
  - apply cref_addressable, array_object_ok; auto.
  - apply tame_walkable; auto.
    unfold new, new_ma, cr_set_base. cbn [ma_ref cr_ib cr_ext cr_storage]. rewrite Ee, Ei, Es. auto.
  - rewrite Ew. apply walkable_app. auto.
Qed.

Lemma access_cong {A} chk o i (h : heap T) (k : ptr -> M T A) w : nd_ok (obj_nd o) -> walkable (sizes h) (obj_nd o) ->
  in_bounds (nd_base (obj_nd o)) (nd_ext (obj_nd o)) i -> within (sizes h) (addr (obj_nd o) i) ->
  bind (lift (strict_access_element (sizes h) chk o i)) k w = bind (lift (access_element chk (obj_nd o) i)) k w /\
  bind (lift (strict_bracket (sizes h) chk o i)) k w = bind (lift (bracket chk (obj_nd o) i)) k w.
Proof.
  intros Hok HW Hi Hin. split; do 2 f_equal.
  - unfold strict_access_element. rewrite geometry_ok by auto. cbn [obind]. rewrite access_element_ok by auto. cbn [obind].
    rewrite (proj2 (formed_iff _ _)); auto.
  - unfold strict_bracket. rewrite geometry_ok by auto. cbn [obind]. apply strict_brackets_iff; auto.
    intros m Hm. apply (HW m). clear - Hi. revert m i Hi. generalize (nd_base (obj_nd o)) (nd_ext (obj_nd o)).
    induction l as [|b l IH]; intros [|e l0] m [|x i] Hi; cbn [in_bounds] in Hi; try tauto.
    + destruct m; exact I.
    + destruct m as [|m]; [exact I|]. cbn [firstn in_bounds]. split; [tauto|]. apply IH. tauto.
Qed.

Lemma ref_formed {X} (st : @state T) en (h : heap T) x a off shape so bases (k : multi_array -> M T X) f :
  related st en h -> array_is st x a -> 0 <= off -> layout_ok so bases shape -> off + prod shape <= prod (a_shape a) ->
  (b <~ lift (var en x) ;; _ <~ lift (formed (sizes h) (padd (cr_data (ma_ref b)) off)) ;; k b) (World h f) =
  (b <~ lift (var en x) ;; k b) (World h f).
Proof.
  intros HR Ha H0 Hl HP. destruct (relA_var _ _ _ _ _ (proj1 HR) Ha) as (m & Em & (Ho & E1 & _)).
  pose proof (var_eval _ _ _ Em) as EV. rewrite !(bind_lift_ok _ _ _ _ EV).
  pose proof (self_lies _ _ _ Ho) as (_ & Ed & _). pose proof (owns_room _ _ _ Ho) as ER.
  pose proof (array_object_ok _ (proj1 Ho)) as (_ & _ & _ & _ & EN). unfold cr_num_elements in ER. rewrite EN, E1 in ER.
  pose proof (prod_nonneg _ (rep_nonneg _ _ _ Hl)) as HN.
  rewrite (bind_lift_ok tt); [reflexivity|]. unfold formed. rewrite Ed. unfold padd. cbn [p_off p_blk]. rewrite ER.
  destruct (Z.leb_spec 0 (0 + off)), (Z.leb_spec (0 + off) (prod (a_shape a))); cbn [andb]; auto; lia.
Qed.

Lemma strict_exec_ok chk st en (h : heap T) f c : related st en h -> legal st c -> easy st c ->
  strict_exec dflt eqT ltT chk en c (World h f) = exec dflt eqT ltT chk en c (World h f).
Proof.
  intros HR HL HE. unfold strict_exec, here. cbn [w_heap].
  destruct c as [n aid|shape so aid|rs so aid|y|e so aid|e subs|x off shape so|x off rs so|x|k|x|dst src|x y|dst src|e i|e i v|e i|e i v|x l|k l|e fn
    |x bases|x b|x shape|k bases|k b|k shape|x rs|x shape|op a b|q e]; try reflexivity; cbn [legal easy] in HL, HE; cbn [exec].
  - (* NewCopy *)
    destruct HL as (a & Ha). destruct (relA_var _ _ _ _ _ (proj1 HR) Ha) as (m & Em & Hr & _).
    pose proof (var_eval _ _ _ Em) as EV. rewrite !(bind_lift_ok _ _ _ _ EV). apply bind_ext_res; [|auto]. eapply strict_copy_ok; eauto.
  - (* NewFrom *)
    destruct HL as (p & Hp & Hso & Hlay). destruct HE as [HE HEt]. destruct (easy_eval st en h chk e p HR Hp HE) as (o & E1 & E2 & Hok & HW & Eb & Ee & _).
    rewrite (bind_lift_ok _ _ _ _ E1). unfold eval_nd. rewrite E2. cbn [obind]. rewrite (bind_lift_ok (obj_nd o)) by auto.
    apply bind_ext_res; [|auto]. apply strict_convert_ok; auto; rewrite ?Eb, ?Ee; auto.
  - (* NewView *)
    destruct HL as (p & Hp). pose proof (easy_eval st en h chk (View_of e subs) p HR Hp HE) as (o & E1 & E2 & _).
    cbn [strict_eval eval] in E1, E2. cbn [zero_based] in HE. unfold eval_nd.
    destruct (strict_eval (sizes h) chk en e) as [o1| |]; try discriminate. destruct (eval chk en e) as [o2| |]; try discriminate.
    cbn [obind] in *. rewrite (bind_lift_ok o1), (bind_lift_ok (obj_nd o2)) by auto.
    destruct (indices_of indices subs) as [ig| |]; try discriminate. cbn [obind] in *. rewrite !(bind_lift_ok ig) by auto.
    destruct (strict_make_view (sizes h) chk o1 ig) as [v1| |]; try discriminate. destruct (make_view chk (obj_nd o2) ig) as [v2| |]; try discriminate.
    cbn [obind] in *. congruence.
  - (* NewRefList *)
    destruct HL as (a & Ha & Hoff & _ & Hl & HP). apply (ref_formed st en h x a off shape so (repeat 0 (length shape))); auto.
  - (* NewRefRanges *)
    destruct HL as (a & Ha & Hoff & _ & Hl & HP). apply (ref_formed st en h x a off (ranges_shape rs) so (ranges_bases rs)); auto.
  - (* Assign *)
    destruct HL as (pd & ps & Hd & Hs & EE). destruct HE as [HE1 HE2].
    destruct (easy_eval st en h chk src ps HR Hs HE2) as (so & E1 & E2 & Hok1 & HW1 & Eb1 & Ee1 & _).
    destruct (easy_eval st en h chk dst pd HR Hd HE1) as (do_ & E3 & E4 & Hok2 & HW2 & Eb2 & Ee2 & _).
    unfold eval_nd. rewrite E1, E2, E3, E4. cbn [obind]. rewrite !bind_lift_ok with (a := so) by auto.
    rewrite (bind_lift_ok (obj_nd so)), (bind_lift_ok do_), (bind_lift_ok (obj_nd do_)) by auto.
    apply bind_ext_res; [|auto]. apply strict_assign_ok; auto; congruence.
  - (* AssignVar *)
    destruct HL as (a & b & Ha & Hb & EE). destruct HE as [HE1 HE2].
    pose proof (dn_var st x a Ha) as D1. pose proof (dn_var st y b Hb) as D2.
    destruct (easy_eval st en h chk (Var x) _ HR D1 HE1) as (o1 & _ & E2 & Hok1 & HW1 & Eb1 & Ee1 & _).
    destruct (easy_eval st en h chk (Var y) _ HR D2 HE2) as (o2 & _ & E4 & Hok2 & HW2 & Eb2 & Ee2 & _).
    cbn [eval] in E2, E4. destruct (var en x) as [m1| |]; try discriminate. destruct (var en y) as [m2| |]; try discriminate.
    cbn [obind] in *. injection E2 as <-. injection E4 as <-. cbn [obj_nd] in *.
    rewrite !(bind_lift_ok m1 _ (Ok m1) _ eq_refl), !(bind_lift_ok m2 _ (Ok m2) _ eq_refl).
    apply bind_ext_res; [|auto]. unfold strict_ma_assign, ma_assign, ma_assign_from. destruct (Nat.eqb x y); [auto|].
    assert (EX : cr_ext (ma_ref m1) = cr_ext (ma_ref m2)).
    { unfold arranged in Ee1, Ee2. cbn [cr_nd nd_ext pl_shape] in Ee1, Ee2. congruence. }
    apply (strict_assign_ok (sizes h) chk _ (OArr (ma_ref m1)) (OArr (ma_ref m2))); cbn [obj_nd cr_nd nd_ext]; auto. congruence.
  - (* CopyArray *)
    destruct HL as (pd & ps & Hd & Hs & EE). destruct HE as [HE1 HE2].
    destruct (easy_eval st en h chk src ps HR Hs HE2) as (so & E1 & E2 & Hok1 & HW1 & Eb1 & Ee1 & _).
    destruct (easy_eval st en h chk dst pd HR Hd HE1) as (do_ & E3 & E4 & Hok2 & HW2 & Eb2 & Ee2 & _).
    unfold eval_nd. rewrite E1, E2, E3, E4. cbn [obind]. rewrite !bind_lift_ok with (a := so) by auto.
    rewrite (bind_lift_ok (obj_nd so)), (bind_lift_ok do_), (bind_lift_ok (obj_nd do_)) by auto.
    apply bind_ext_res; [|auto]. apply strict_copy_array_ok; auto; congruence.
  - (* Get *)
    destruct HL as (p & Hp & Hi). destruct (easy_eval st en h chk e p HR Hp HE) as (o & E1 & E2 & Hok & HW & Eb & Ee & Hin).
    unfold eval_nd. rewrite E1, E2. cbn [obind]. rewrite (bind_lift_ok o), (bind_lift_ok (obj_nd o)) by auto.
    unfold get_element. rewrite bind_assoc. apply access_cong; auto. rewrite Eb, Ee. auto.
  - destruct HL as (p & Hp & Hi). destruct (easy_eval st en h chk e p HR Hp HE) as (o & E1 & E2 & Hok & HW & Eb & Ee & Hin).
    unfold eval_nd. rewrite E1, E2. cbn [obind]. rewrite (bind_lift_ok o), (bind_lift_ok (obj_nd o)) by auto.
    unfold set_element. rewrite bind_assoc.
    rewrite (proj1 (access_cong chk o i h _ (World h f) Hok HW ltac:(rewrite Eb, Ee; auto) (Hin i Hi))).
    apply bind_ext; [auto|]. intros q w. rewrite bind_assoc. auto.
  - destruct HL as (p & Hp & Hi). destruct (easy_eval st en h chk e p HR Hp HE) as (o & E1 & E2 & Hok & HW & Eb & Ee & Hin).
    unfold eval_nd. rewrite E1, E2. cbn [obind]. rewrite (bind_lift_ok o), (bind_lift_ok (obj_nd o)) by auto.
    unfold get_bracket. rewrite bind_assoc. apply access_cong; auto. rewrite Eb, Ee. auto.
  - destruct HL as (p & Hp & Hi). destruct (easy_eval st en h chk e p HR Hp HE) as (o & E1 & E2 & Hok & HW & Eb & Ee & Hin).
    unfold eval_nd. rewrite E1, E2. cbn [obind]. rewrite (bind_lift_ok o), (bind_lift_ok (obj_nd o)) by auto.
    unfold set_bracket. rewrite bind_assoc.
    rewrite (proj2 (access_cong chk o i h _ (World h f) Hok HW ltac:(rewrite Eb, Ee; auto) (Hin i Hi))).
    apply bind_ext; [auto|]. intros q w. rewrite bind_assoc. auto.
  - (* Fill *)
    destruct HL as (a & Ha). destruct (relA_var _ _ _ _ _ (proj1 HR) Ha) as (m & Em & Hr & _).
    pose proof (var_eval _ _ _ Em) as EV. rewrite !(bind_lift_ok _ _ _ _ EV). apply bind_ext_res; [|auto].
    unfold strict_cr_assign, cr_assign. apply strict_assign_loop_ok. auto.
  - (* FillRef *)
    destruct (named en k) as [d| |]; auto. rewrite !(bind_lift_ok d) by auto.
    destruct d as [v|c]; [auto|]. apply bind_ext_res; [|auto].
    unfold strict_cr_assign, cr_assign. apply strict_assign_loop_ok. auto.
  - (* ForEach *)
    destruct HL as (p & Hp). destruct (easy_eval st en h chk e p HR Hp HE) as (o & E1 & E2 & Hok & HW & _).
    unfold eval_nd. rewrite E1, E2. cbn [obind]. rewrite (bind_lift_ok o), (bind_lift_ok (obj_nd o)) by auto.
    apply bind_ext_res; [|auto]. apply strict_for_each_ok; auto.
  - (* Resize *)
    destruct HL as (a & Ha & L & HWl). destruct HE as [HE1 HE2]. cbn [zero_based] in HE1. specialize (HE1 a Ha). specialize (HE2 a Ha).
    destruct (relA_var _ _ _ _ _ (proj1 HR) Ha) as (m & Em & Ho & X1 & X2 & X3 & _).
    destruct (extents_of_ok rs) as (g & Eg & Hn & Hg).
    { intros ->. apply layout_ne in HWl. apply HWl. reflexivity. }
    pose proof (var_eval _ _ _ Em) as EV. rewrite !(bind_lift_ok _ _ _ _ EV), !(bind_lift_ok _ _ _ _ Eg). apply bind_ext_res; [|auto].
    apply (strict_resize_ok chk m _ g (ranges_bases rs) (ranges_shape rs) h f Ho); rewrite ?X1, ?X2, ?X3; auto.
    unfold ranges_shape. rewrite map_length. auto.
  - (* ResizeList *)
    destruct HL as (a & Ha & L & HWl). destruct HE as [HE1 HE2]. cbn [zero_based] in HE1. specialize (HE1 a Ha). specialize (HE2 a Ha).
    destruct (relA_var _ _ _ _ _ (proj1 HR) Ha) as (m & Em & Ho & X1 & X2 & X3 & _).
    pose proof (var_eval _ _ _ Em) as EV. rewrite !(bind_lift_ok _ _ _ _ EV). apply bind_ext_res; [|auto].
    unfold strict_ma_resize_list, ma_resize_list. assert (Ln : length shape = length (cr_ext (ma_ref m))) by congruence.
    pose proof (copy_n_all shape) as EC. rewrite Ln in EC. rewrite !(bind_lift_ok _ _ _ _ EC).
    assert (HF : Forall (fun e => 0 <= e <= max_index) shape) by (eapply rep_ext_bound; apply HWl).
    apply (strict_resize_ok chk m _ _ (repeat 0 (length shape)) shape h f Ho); rewrite ?X1, ?X2, ?X3; auto.
    unfold ranges_are. cbn [eg_ranges]. clear - HF. induction HF as [|e shape He HF IH]; simpl; constructor; auto.
      cbn [er_start er_finish fst snd]. rewrite to_index_small by (unconst; lia). auto.
  - (* Compare *)
    destruct HL as (p1 & p2 & H1 & H2 & EL). destruct HE as [HE1 HE2].
    destruct (easy_eval st en h chk a p1 HR H1 HE1) as (o1 & E1 & E2 & Hok1 & HW1 & Eb1 & Ee1 & _).
    destruct (easy_eval st en h chk b p2 HR H2 HE2) as (o2 & E3 & E4 & Hok2 & HW2 & Eb2 & Ee2 & _).
    unfold eval_nd. rewrite E1, E2, E3, E4. cbn [obind].
    rewrite (bind_lift_ok o1), (bind_lift_ok (obj_nd o1)), (bind_lift_ok o2), (bind_lift_ok (obj_nd o2)) by auto.
    cbn [w_heap]. do 2 f_equal. f_equal. apply strict_compare_ok; auto. congruence.
  - (* Ask *)
    destruct HL as (p & Hp). destruct (easy_eval st en h chk e p HR Hp HE) as (o & E1 & E2 & _). rewrite E1, E2. auto.
Qed.

Lemma strict_run_ok chk : forall p st en (h : heap T), related st en h -> always_easy dflt eqT ltT st p ->
  strict_run_catching dflt eqT ltT chk en p h = run_catching dflt eqT ltT chk en p h.
Proof.
  induction p as [|[c f] p IH]; intros st en h HR HA; [auto|]. cbn [always_easy] in HA. destruct HA as (HL & HE & HD & HT).
  destruct (legal_step dflt eqT ltT st en h c HR HL) as (o & st1 & HS).
  pose proof (exec_sound dflt eqT ltT st en h c o st1 chk f HR HS) as HF. cbn [run_catching strict_run_catching].
  rewrite (strict_exec_ok chk st en h f c) by auto.
  destruct (exec dflt eqT ltT chk en c (World h f)) as [[en1 o1] [h1 f1]|[h1 f1]|w| |]; cbn [follows w_heap w_fuse] in HF |- *; try tauto.
  - destruct HF as (-> & HR1 & _). rewrite (IH st1 en1 h1 HR1 (HD o st1 HS)). auto.
  - destruct HF as (_ & k & st'' & -> & HI & HR1 & _). rewrite (IH st'' en h1 HR1 (HT k st'' eq_refl HI)). auto.
Qed.
End Programs.

Lemma easy_legal {T} (dflt : T) eqT ltT : forall p st, always_easy dflt eqT ltT st p -> always_legal dflt eqT ltT st p.
Proof.
  induction p as [|[c f] p IH]; intros st H; [exact I|]. cbn [always_easy always_legal] in *. destruct H as (H1 & _ & H2 & H3).
  split; [auto|]. split; [intros o st' H; eapply IH, H2; eauto|intros k st' E H; eapply IH, H3; eauto].
Qed.

(** any program that uses only tame objects runs to its end under the C++ rule,
    with the outputs and the final state the abstract machine says *)
Theorem c59_programs_inside : forall (T : Type) (dflt : T) eqT ltT chk p,
  always_easy dflt eqT ltT empty_state p ->
  strict_run_catching dflt eqT ltT chk (Env [] []) p [] = run_catching dflt eqT ltT chk (Env [] []) p [] /\
  exists en os h st, strict_run_catching dflt eqT ltT chk (Env [] []) p [] = Done (en, os) (World h None) /\
    attempts dflt eqT ltT empty_state p os st /\ agrees st en h.
Proof.
  intros T dflt eqT ltT chk p HA. pose proof (strict_run_ok dflt eqT ltT chk p _ _ _ related_nil HA) as E. split; [auto|]. rewrite E.
  destruct (catching_sound dflt eqT ltT chk p empty_state (Env [] []) [] related_nil (easy_legal _ _ _ _ _ HA)) as (en & os & h & st & ER & HAt & HR & _).
  exists en, os, h, st. split; [auto|]. split; [auto|]. apply related_agrees; auto.
Qed.

(** * and when index 0 is not valid *)

Lemma dim_step_pos ord ext d : Permutation ord (seq 0 (length ext)) -> Forall (fun e => 0 < e) ext -> 0 < dim_step ord ext d.
Proof.
  intros HP F. assert (HI : forall x, In x ord -> 0 < nth x ext 0).
  { intros x Hx. rewrite HP in Hx. apply in_seq in Hx. rewrite Forall_forall in F. apply F, nth_In. lia. }
  clear HP. induction ord as [|x ord IH]; cbn [dim_step]; [lia|]. destruct (Nat.eqb x d); [lia|].
  apply Z.mul_pos_pos; [apply HI; simpl; auto|]. apply IH. intros y Hy. apply HI. simpl; auto.
Qed.

(** the index bases of an array that owns its storage are not negative, and one is
    positive (Fortran style, or reindex(1)): every valid element access computes
    a pointer in front of the storage *)
Theorem c59_positive_bases_refuted : forall room chk c i, array_object c -> p_off (cr_data c) = 0 ->
  Forall (fun up => up = true) (so_ascending (cr_storage c)) ->
  Forall (fun b => 0 <= b) (cr_ib c) -> Exists (fun b => 0 < b) (cr_ib c) ->
  in_bounds (cr_ib c) (cr_ext c) i ->
  strict_access_element room chk (OArr c) i = UB /\ strict_bracket room chk (OArr c) i = UB /\
  exists p, access_element chk (cr_nd c) i = Ok p /\ bracket chk (cr_nd c) i = Ok p.
Proof.
  intros room chk c i Hc H0 Fa Fb Xb Hi. pose proof (c32_data_from_origin c Hc Fa) as ED.
  pose proof (array_object_ok c Hc) as Hok.
  assert (FP : Forall (fun s => 0 < s) (cr_str c)).
  { pose proof Hok as ((HP & LA) & Hr & Hs & _). rewrite Hs. unfold strides_of, spec_strides.
    apply Forall_forall. intros s Hx. apply in_map_iff in Hx. destruct Hx as (d & <- & Hd).
    assert (FE : Forall (fun e => 0 < e) (cr_ext c)).
    { clear - Hi. revert Hi. generalize (cr_ib c) (cr_ext c) i. induction l as [|b l IH]; intros [|e l0] [|k i0] H; cbn [in_bounds] in H; try tauto; constructor; [lia|].
      eapply IH. apply H. }
    pose proof (dim_step_pos (so_ordering (cr_storage c)) (cr_ext c) d HP FE) as D.
    assert (SG : sgn (so_ascending (cr_storage c)) d = 1).
    { unfold sgn. rewrite Forall_forall in Fa. apply in_seq in Hd.
      assert (EN : nth d (so_ascending (cr_storage c)) true = true) by (apply Fa, nth_In; lia).
      rewrite EN. auto. }
    rewrite SG. lia. }
  assert (L : length (cr_ib c) = length (cr_str c)).
  { pose proof Hok as (_ & _ & Hs & _). rewrite Hs. unfold strides_of. rewrite length_spec_strides. apply cref_ok_len; auto. }
  assert (DP : 0 < dot (cr_ib c) (cr_str c)).
  { clear - Fb Xb FP L. revert L. revert Fb Xb FP. generalize (cr_ib c) (cr_str c). 
    assert (NN : forall bs ss, Forall (fun b => 0 <= b) bs -> Forall (fun s => 0 < s) ss -> 0 <= dot bs ss).
    { induction bs as [|b bs IH]; intros [|s ss] F1 F2; cbn [dot]; try lia. inversion F1; inversion F2; subst. specialize (IH ss H2 H6). nia. }
    induction l as [|b bs IH]; intros [|s ss] F1 X F2 L; cbn [dot length] in *; try discriminate; [inversion X|].
    inversion F1; inversion F2; subst. specialize (NN bs ss H2 H6). inversion X; subst; [nia|]. specialize (IH ss H2 H0 H6 ltac:(lia)). nia. }
  assert (HN : ~ within room (cr_origin c)).
  { unfold within. rewrite ED in H0. cbn [padd p_off] in H0. lia. }
  unfold strict_access_element, strict_bracket. cbn [strict_geometry obj_nd cr_nd nd_org]. rewrite formed_not by auto. split; [auto|]. split; [auto|].
  exists (addr (cr_nd c) i). split; [apply access_element_ok|apply bracket_ok]; auto; apply cref_addressable; auto.
Qed.

(** * empty objects *)

Definition ex_fortran_empty : cref := CRef (Ptr 0 0) (so_from_fortran 2) [2; 0] [1; 2] [0; 0] 0 0 0.
Definition ex_down_empty : cref := CRef (Ptr 0 0) (SO [0%nat] [false]) [0] [-1] [0] (-1) (-1) 0.
Definition ex_full : cref := CRef (Ptr 0 0) (so_from_c 2) [2; 3] [3; 1] [0; 0] 0 0 6.
Definition ex_past_end : index_gen := IGen 2 2 [ir_make 2 2 1; ir_make 1 3 1].

(** the second row of an empty 2x0 array in Fortran order, begin() of an empty array
    stored in descending order, and a view of no rows of a 2x3 array all compute a
    pointer outside of the storage, although none of them has an element, every
    index base is 0, and the unchecked functions accept the arguments *)
Theorem c59_empty_objects_refuted : forall chk,
  (exists c r, array_object c /\ cr_num_elements c = 0 /\ cr_ib c = [0; 0] /\ access_n true 1 (cr_nd c) = Ok r /\
     forall room, p_off (cr_data c) = 0 /\ (room (p_blk (cr_data c)) = 0 -> stored room c /\ strict_access_n room chk 1 (cr_nd c) = UB)) /\
  (exists c, array_object c /\ cr_num_elements c = 0 /\ cr_ib c = [0] /\
     forall room, p_off (cr_data c) = 0 /\ (room (p_blk (cr_data c)) = 0 -> stored room c /\ strict_geometry room (OArr c) = UB)) /\
  (exists c ig v, array_object c /\ cr_ext c = [2; 3] /\ cr_ib c = [0; 0] /\ indices_of indices [Slice (Some 2) (Some 2) 1; Slice (Some 1) (Some 3) 1] = Ok ig /\
     make_view true (cr_nd c) ig = Ok v /\ v_ext v = [0; 2] /\
     forall room, p_off (cr_data c) = 0 /\ (room (p_blk (cr_data c)) = 6 -> stored room c /\ strict_make_view room chk (OArr c) ig = UB)).
Proof.
  intros chk. split; [|split].
  - exists ex_fortran_empty. eexists. split.
    { eapply (ao_list true (Ptr 0 0) [2; 0] (so_from_fortran 2)); [apply c02_named_orders_valid| |vm_compute; reflexivity]. unfold so_from_fortran. layout_tac. }
    split; [reflexivity|]. split; [reflexivity|]. split; [vm_compute; reflexivity|]. intros room. split; [reflexivity|].
    intros E. split; [unfold stored; cbn in *; lia|]. cbn [ex_fortran_empty cr_data cr_base p_blk] in E.
    unfold strict_access_n. assert (EA : access_n chk 1 (cr_nd ex_fortran_empty) = Ok (ND (Ptr 0 1) [0] [2] [0])) by (destruct chk; reflexivity).
    rewrite EA. cbn [obind nd_org]. rewrite formed_not; [reflexivity|]. unfold within. cbn [p_off p_blk]. rewrite E. lia.
  - exists ex_down_empty. split.
    { eapply (ao_list true (Ptr 0 0) [0] (SO [0%nat] [false])); [order_tac; apply Permutation_refl| |vm_compute; reflexivity]. layout_tac. }
    split; [reflexivity|]. split; [reflexivity|]. intros room. split; [reflexivity|].
    intros E. split; [unfold stored; cbn in *; lia|]. reflexivity.
  - exists ex_full, ex_past_end. eexists. split.
    { eapply (ao_list true (Ptr 0 0) [2; 3] (so_from_c 2)); [apply c02_named_orders_valid| |vm_compute; reflexivity]. unfold so_from_c. layout_tac. }
    split; [reflexivity|]. split; [reflexivity|]. split; [reflexivity|]. split; [vm_compute; reflexivity|]. split; [reflexivity|].
    intros room. split; [reflexivity|].
    intros E. split; [unfold stored; cbn in *; lia|]. cbn [ex_full cr_data cr_base p_blk] in E.
    unfold strict_make_view. cbn [strict_geometry obj_nd]. rewrite (proj2 (formed_iff room _)); [|unfold within; cbn; rewrite E; lia]. cbn [obind].
    assert (EA : make_view chk (cr_nd ex_full) ex_past_end = Ok (View (Ptr 0 7) 0 0 [0; 2] [3; 1] [0; 0])) by (destruct chk; reflexivity).
    rewrite EA. cbn [obind v_base]. rewrite formed_not; [reflexivity|]. unfold within. cbn [p_off p_blk]. rewrite E. lia.
Qed.

(** * examples *)

Example ex_full_object : array_object ex_full.
Proof. eapply (ao_list true (Ptr 0 0) [2; 3] (so_from_c 2)); [apply c02_named_orders_valid| |vm_compute; reflexivity]. unfold so_from_c. layout_tac. Qed.

(** a 2x3 array with bases 1 and 1: every access leaves the storage in front *)
Definition ex_ones : cref := CRef (Ptr 0 0) (so_from_c 2) [2; 3] [3; 1] [1; 1] (-4) 0 6.
Example ex_c59_refuted : array_object ex_ones /\ p_off (cr_data ex_ones) = 0 /\
  Forall (fun up => up = true) (so_ascending (cr_storage ex_ones)) /\
  Forall (fun b => 0 <= b) (cr_ib ex_ones) /\ Exists (fun b => 0 < b) (cr_ib ex_ones) /\
  in_bounds (cr_ib ex_ones) (cr_ext ex_ones) [2; 3] /\ access_element true (cr_nd ex_ones) [2; 3] = Ok (Ptr 0 5).
Proof.
  split.
  { eapply (ao_shape true (Ptr 0 0) [1; 1] [2; 3] (so_from_c 2)); [apply c02_named_orders_valid| |vm_compute; reflexivity]. unfold so_from_c. layout_tac. }
  split; [reflexivity|]. split; [repeat constructor|]. split; [repeat constructor; lia|]. split; [constructor; cbn; lia|].
  split; [cbn; lia|reflexivity].
Qed.

(** the whole 2x3 array and the view of its reversed second row *)
Example ex_c59 : let room := fun _ : nat => 6 in stored room ex_full /\ object_of ex_full (OArr ex_full) /\ tame_object (OArr ex_full) /\
  around_zero (cr_ib ex_full) (cr_ext ex_full) /\ in_bounds (cr_ib ex_full) (cr_ext ex_full) [1; 2] /\
  exists ig v, indices_of indices [At 1; Slice (Some 2) (Some (-1)) (-1)] = Ok ig /\
    make_view true (cr_nd ex_full) ig = Ok v /\ around_zero (v_ib v) (v_ext v).
Proof.
  cbv zeta. assert (AZ : around_zero (cr_ib ex_full) (cr_ext ex_full)) by (cbn; lia).
  split; [unfold stored; cbn; lia|]. split; [reflexivity|]. split; [left; exact AZ|]. split; [exact AZ|]. split; [cbn; lia|].
  do 2 eexists. split; [vm_compute; reflexivity|]. split; [vm_compute; reflexivity|]. cbn. lia.
Qed.

(** the program of C41 (a row is assigned the reversed second row, with exceptions) *)
Example ex_c59_program : always_easy 0 Z.eqb Z.ltb empty_state ex_throwing.
Proof.
  unfold ex_throwing. cbn [always_easy].
  split; [split; apply ex_well_formed|]. split; [exact I|]. split; [|congruence]. intros o st1 H1. inversion H1; subst. clear H1.
  change (add_array _ _) with (ex_st [0; 0; 0; 0; 0; 0]).
  split; [eexists; reflexivity|]. split; [exact I|]. split; [|congruence]. intros o st1 H2. inversion H2; subst.
  match goal with H : array_is _ _ a |- _ => unfold array_is in H; cbn in H; injection H as <- end.
  change (set_array _ _ _) with (ex_st [1; 2; 3; 4; 5; 6]). clear.
  split; [exists ex_dst, ex_src; split; [apply ex_denotes_dst|split; [apply ex_denotes_src|reflexivity]]|].
  assert (HV : zero_based (ex_st [1; 2; 3; 4; 5; 6]) (Var 0)).
  { intros a H. unfold array_is in H. cbn in H. injection H as <-. left. cbn. lia. }
  split.
  { cbn [easy]. split; [exact HV|]. split; [exact HV|]. intros p Hp. inversion Hp as [x' a Ha E1 E2| | | | |]; subst.
    unfold array_is in Ha. cbn in Ha. injection Ha as <-. cbn. repeat constructor. }
  assert (L : forall st, legal st (@NewList Z [2; 3] (so_from_c 2) 7)) by (intros; split; apply ex_well_formed).
  split; intros; (split; [apply L|split; [exact I|auto]]).
Qed.

(** a default-constructed array is compared with itself, then resized to 2x3 (which
    may throw) and compared again *)
Example ex_c59_program2 : always_easy 0 Z.eqb Z.ltb empty_state
  [ (NewDefault 2 7, None); (Compare CEq (Var 0) (Var 0), None); (ResizeList 0 [2; 3], Some 4%nat); (Compare CLt (Var 0) (Var 0), None) ].
Proof.
  cbn [always_easy]. split; [cbn; lia|]. split; [exact I|]. split; [|congruence]. intros o st1 H1. inversion H1; subst. clear H1.
  set (st1 := add_array _ _).
  assert (HV : zero_based st1 (Var 0)).
  { intros a H. unfold array_is in H. cbn in H. injection H as <-. right. split; [cbn; repeat constructor|]. split; [cbn; auto|]. left. reflexivity. }
  assert (HC : forall st op, (exists a, array_is st 0 a) -> legal st (@Compare Z op (Var 0) (Var 0))).
  { intros st op [a Ha]. exists (arranged 0 (a_bases a) (a_shape a) (a_order a)), (arranged 0 (a_bases a) (a_shape a) (a_order a)).
    split; [constructor; auto|]. split; [constructor; auto|auto]. }
  split; [apply HC; eexists; reflexivity|]. split; [split; exact HV|]. split; [|congruence]. intros o2 st2 H2. inversion H2; subst. clear H2.
  split; [eexists; split; [reflexivity|]; split; [reflexivity|]; apply (proj1 (proj2 ex_well_formed))|].
  split; [split; [exact HV|]; intros a Ha; left; cbn; lia|].
  split.
  - intros o st3 HQ. inversion HQ as [| | | | | | | | | | | | | | | | | | | | | | | | | | | | | |x shape a a' Ha (L & E1 & E2 & E3 & _)| |]; subst. clear HQ.
    assert (HA : array_is (orphan (set_array st1 0 a') 0) 0 a') by reflexivity.
    split; [apply HC; eexists; exact HA|]. split; [|auto].
    assert (HV2 : zero_based (orphan (set_array st1 0 a') 0) (Var 0)).
    { intros b H. assert (b = a') by (unfold array_is in *; congruence). subst b. rewrite E1, E2. left. cbn. lia. }
    split; exact HV2.
  - intros k st3 _ HQ. inversion HQ; subst. split; [apply HC; eexists; reflexivity|]. split; [split; exact HV|auto].
Qed.

(** a Fortran-style array with indices 1..2, 1..3: the first access is undefined *)
Example ex_c59_fortran_style :
  let p := [ (NewRanges [(1, 3); (1, 4)] (so_from_c 2) 7, None); (Get (Var 0) [1; 1], None) ] in
  strict_run_catching 0 Z.eqb Z.ltb false (Env [] []) p [] = Undef /\
  exists en h, run_catching 0 Z.eqb Z.ltb false (Env [] []) p [] = Done (en, [Some ONone; Some (OVal 0)]) (World h None).
Proof. split; [vm_compute; reflexivity|]. do 2 eexists. vm_compute. reflexivity. Qed.
