(** ThmHandles.v -- C30: handles whose parent changes. *)

From Coq Require Import ZArith List Bool Lia.
From Verif Require Import Base StorageOrder Ranges Layout Access Objects Memory Ops MultiArray Handles
  Spec ViewSpec ReachSpec MemSpec OwnSpec
  Facts LayoutProofs AccessProofs ViewProofs MemoryProofs CopyProofs ReachProofs ThmAddressing ThmGeometry ThmIter ThmCopy
  OwnProofs ThmMultiArray.
Import ListNotations.
Local Open Scope Z_scope.

(** * C30 *)

Lemma sub_at_now chk c s i : forall s', sub_at chk c s i = Ok s' ->
  access_n chk i (sub_now c s) = Ok (sub_now c s') /\ sh_depth s' = S (sh_depth s).
Proof.
  intros s' E. unfold sub_at in E. destruct (access_n chk i (sub_now c s)) as [a| |] eqn:EA; try discriminate.
  cbn [obind] in E. injection E as <-. split; [|reflexivity]. f_equal.
  unfold access_n, sub_now in EA. cbn [nd_ext nd_str nd_base nd_org] in EA.
  assert (TL : forall {A} d (l : list A) x r, skipn d l = x :: r -> skipn (S d) l = r).
  { clear. intros A d; induction d as [|d IH]; intros [|y l] x r E; simpl in *; try discriminate; [congruence|]. apply (IH l x r); auto. }
  destruct (skipn (sh_depth s) (cr_ext c)) as [|e [|e2 es]] eqn:E1; try discriminate.
  destruct (skipn (sh_depth s) (cr_str c)) as [|t ts] eqn:E2; try discriminate.
  destruct (skipn (sh_depth s) (cr_ib c)) as [|b bs] eqn:E3; try discriminate.
  destruct (range_check chk i b e); try discriminate. cbn [obind] in EA.
  destruct (smul i t); try discriminate. cbn [obind] in EA. injection EA as <-.
  unfold sub_now. cbn [sh_base sh_depth nd_org].
  rewrite (TL _ _ _ _ _ E1), (TL _ _ _ _ _ E2), (TL _ _ _ _ _ E3). reflexivity.
Qed.

Lemma sub_take_from_ok c : array_object c -> forall is s s', derived c (sub_now c s) ->
  sub_take_from true c s is = Ok s' ->
  derived c (sub_now c s') /\ sh_depth s' = (sh_depth s + length is)%nat /\
  forall j, in_bounds (nd_base (sub_now c s')) (nd_ext (sub_now c s')) j ->
    in_bounds (nd_base (sub_now c s)) (nd_ext (sub_now c s)) (is ++ j) /\
    addr (sub_now c s') j = addr (sub_now c s) (is ++ j).
Proof.
  intros Hc. induction is as [|i is IH]; intros s s' Hd E.
  - simpl in E. injection E as <-. split; [auto|]. split; [simpl; lia|]. auto.
  - cbn [sub_take_from] in E. destruct (sub_at true c s i) as [s1| |] eqn:E1; try discriminate. cbn [obind] in E.
    destruct (sub_at_now true c s i s1 E1) as [EA ED].
    assert (Hd1 : derived c (sub_now c s1)) by (eapply d_sub; eauto).
    destruct (IH s1 s' Hd1 E) as (H1 & H2 & H3). split; [auto|]. split; [simpl; lia|].
    intros j Hj. destruct (H3 j Hj) as [H4 H5].
    destruct (access_n_inv _ _ _ (derived_ok c _ Hc Hd) EA) as (b & bs & e & es & st & ss & Eb & Ee & Es & _ & Hi & ER).
    rewrite ER in H4, H5. split.
    + cbn [app]. rewrite Eb, Ee. split; [auto|]. unfold row in H4. rewrite Eb, Ee, Es in H4. exact H4.
    + rewrite H5. unfold addr, row. rewrite Eb, Ee, Es. cbn [nd_org nd_str hd tl]. rewrite padd_padd. reflexivity.
Qed.

(** taken and used at once, a stored subarray is the subarray of the rest of the
    model: a[i1]...[ik](j...) is a(i1,...,ik,j...) *)
Theorem c30_fresh_handle : forall chk c is s, array_object c ->
  sub_take true c is = Ok s ->
  derived c (sub_now c s) /\ sh_depth s = length is /\
  forall j, in_bounds (nd_base (sub_now c s)) (nd_ext (sub_now c s)) j ->
    in_bounds (cr_ib c) (cr_ext c) (is ++ j) /\
    access_element chk (sub_now c s) j = access_element chk (cr_nd c) (is ++ j).
Proof.
  intros chk c is s Hc E. 
  destruct (sub_take_from_ok c Hc is (SubH (nd_org (cr_nd c)) 0) s (d_array c) E) as (H1 & H2 & H3).
  split; [auto|]. split; [auto|]. intros j Hj. destruct (H3 j Hj) as [H4 H5]. split; [exact H4|].
  change (sub_now c (SubH (nd_org (cr_nd c)) 0)) with (cr_nd c) in *.
  rewrite !access_element_ok; auto; [congruence|apply cref_addressable, array_object_ok; auto|apply (derived_ok c); auto].
Qed.

(** the parent is reindexed while the subarray is stored: as long as the index
    bases of the subarray's own dimensions stay the same, it is unchanged (the
    bases of the leading dimensions may change freely) *)
Theorem c30_reindex_of_leading_dimensions : forall c is s bases c', array_object c ->
  sub_take true c is = Ok s -> length bases = length (cr_ext c) ->
  layout_ok (cr_storage c) bases (cr_ext c) -> cr_reindex c bases = Ok c' ->
  skipn (length is) bases = skipn (length is) (cr_ib c) ->
  sub_now c' s = sub_now c s.
Proof.
  intros c is s bases c' Hc E L Hl ER Hs.
  destruct (c30_fresh_handle true c is s Hc E) as (_ & HD & _).
  destruct (c09_reindex_array true c bases Hc L Hl) as (c2 & E2 & _ & F1 & F2 & F3 & _).
  assert (c2 = c') by congruence. subst c2. unfold sub_now. rewrite F1, F2, F3, HD, Hs. reflexivity.
Qed.

(** otherwise its index range moves with the new bases while its base pointer does
    not: index j denotes the element that was a(i1,...,ik,j) before *)
Theorem c30_reindex_denotes_old_index : forall chk c is s bases c' j, array_object c ->
  sub_take true c is = Ok s -> length bases = length (cr_ext c) ->
  layout_ok (cr_storage c) bases (cr_ext c) -> cr_reindex c bases = Ok c' ->
  nd_base (sub_now c' s) = skipn (length is) bases /\ nd_ext (sub_now c' s) = nd_ext (sub_now c s) /\
  (in_bounds (nd_base (sub_now c' s)) (nd_ext (sub_now c' s)) j ->
   in_bounds (nd_base (sub_now c s)) (nd_ext (sub_now c s)) j ->
   access_element chk (sub_now c' s) j = access_element chk (cr_nd c) (is ++ j)).
Proof.
  intros chk c is s bases c' j Hc E L Hl ER.
  destruct (c30_fresh_handle chk c is s Hc E) as (Hd & HD & HA).
  destruct (c09_reindex_array true c bases Hc L Hl) as (c2 & E2 & _ & F1 & F2 & F3 & _).
  assert (c2 = c') by congruence. subst c2.
  split; [unfold sub_now; cbn [nd_base]; rewrite F1, HD; reflexivity|].
  split; [unfold sub_now; cbn [nd_ext]; rewrite F2; reflexivity|].
  intros H1 H2. destruct (HA j H2) as [_ <-].
  assert (EQ : forall a a' i, nd_org a = nd_org a' -> nd_str a = nd_str a' -> nd_ext a = nd_ext a' -> nd_ok a ->
    in_bounds (nd_base a) (nd_ext a) i -> in_bounds (nd_base a') (nd_ext a') i ->
    access_element chk a' i = access_element chk a i).
  { clear. intros a a' i EO ES EX Hok HI HI'. rewrite (access_element_ok chk a i Hok HI).
    unfold access_element. rewrite <- EO, <- ES.
    assert (CH : (if chk then ae_checks chk (nd_ext a') (nd_base a') i else Ok tt) = Ok tt).
    { destruct chk; auto. apply ae_checks_in; auto. rewrite <- EX. apply Hok. }
    rewrite CH. pose proof (access_element_ok false a i Hok HI) as A. unfold access_element in A. exact A. }
  apply EQ; auto; [unfold sub_now; rewrite F3; reflexivity|unfold sub_now; rewrite F2; reflexivity|apply (derived_ok c); auto].
Qed.

(** so a checked access through a stored subarray can leave the storage after its
    parent has been reindexed *)
Theorem c30_reindex_refuted : exists c is s bases c' j p, array_object c /\
  sub_take true c is = Ok s /\ layout_ok (cr_storage c) bases (cr_ext c) /\
  cr_reindex c bases = Ok c' /\
  access_element true (sub_now c' s) j = Ok p /\ ~ cell_of c' p.
Proof.
  exists ex_arr, [1]. eexists. exists [1; 5]. eexists. exists [7], (Ptr 7 (-14)).
  split; [apply ex_arr_object|]. split; [vm_compute; reflexivity|]. split; [cbn [cr_storage cr_ext ex_arr]; layout_tac|].
  split; [vm_compute; reflexivity|]. split; [vm_compute; reflexivity|].
  intros (k & Hk & E). injection E as E. cbn in E. lia.
Qed.

(** and after its parent has been reshaped (2x3 to 1x6) *)
Theorem c30_reshape_refuted : exists c is s shape c' j p, array_object c /\
  sub_take true c is = Ok s /\ layout_ok (cr_storage c) (cr_ib c) shape /\
  cr_reshape true c shape = Ok c' /\
  access_element true (sub_now c' s) j = Ok p /\ ~ cell_of c' p.
Proof.
  assert (exists c, cref_from_list true 2 (Ptr 0 0) [2; 3] (so_from_c 2) = Ok c /\ cr_storage c = so_from_c 2 /\ cr_ib c = [0; 0]) as (c & E & ES & EI).
  { eexists. split; [vm_compute; reflexivity|]. split; reflexivity. }
  exists c, [1]. eexists. exists [1; 6]. eexists. exists [5], (Ptr 0 8).
  split. { eapply (ao_list true (Ptr 0 0) [2; 3] (so_from_c 2)); [apply c02_named_orders_valid|layout_tac|exact E]. }
  split; [|split; [rewrite ES, EI; layout_tac|split]].
  - vm_compute in E. injection E as <-. vm_compute. reflexivity.
  - vm_compute in E. injection E as <-. vm_compute. reflexivity.
  - vm_compute in E. injection E as <-. split; [vm_compute; reflexivity|].
    intros (k & Hk & E). injection E as E. cbn in E, Hk. lia.
Qed.

(** stored iterators, used while the array's geometry is unchanged, are begin()
    and end() *)
Theorem c30_fresh_iterator : forall c, array_object c ->
  exists first last, iter_begin c = Ok first /\ iter_end c = Ok last /\
    nd_begin (cr_nd c) = Ok (iter_now c first) /\ nd_end (cr_nd c) = Ok (iter_now c last).
Proof.
  intros c Hc. pose proof (derived_ok c _ Hc (d_array c)) as Hok.
  destruct (dims_at _ Hok) as (b & bs & e & es & Eb & Ee & He & Hb & Hbe & E1 & E2).
  unfold iter_begin, iter_end. rewrite E1, E2. cbn [obind]. eexists. eexists.
  split; [reflexivity|]. split; [reflexivity|]. split; reflexivity.
Qed.

(** after a reindex a stored iterator still points where it pointed, but is checked
    against the new index range of the first dimension: its position counts as the
    index it had before *)
Theorem c30_iterator_after_reindex : forall c bases c' b b' e k p, array_object c ->
  length bases = length (cr_ext c) -> layout_ok (cr_storage c) bases (cr_ext c) -> cr_reindex c bases = Ok c' ->
  hd_error (cr_ib c) = Some b -> hd_error bases = Some b' -> hd_error (cr_ext c) = Some e ->
  nd_org (cr_nd c) = p -> b <= k < b + e -> index_value (k - b') ->
  (length (cr_ext c) = 1%nat ->
     it_deref_one true (iter_now c' (IterH k p)) =
     if (b' <=? k) && (k <? b' + e) then it_deref_one true (iter_now c (IterH k p)) else Abort) /\
  ((1 < length (cr_ext c))%nat ->
     match it_deref_n true (iter_now c' (IterH k p)) with
     | Ok r => b' <= k < b' + e /\ nd_base r = tl bases /\
               exists r0, it_deref_n true (iter_now c (IterH k p)) = Ok r0 /\
                 nd_org r = nd_org r0 /\ nd_ext r = nd_ext r0 /\ nd_str r = nd_str r0
     | Abort => ~ b' <= k < b' + e
     | UB => False
     end).
Proof.
  intros c bases c' b b' e k p Hc L Hl ER Hb Hb' He Hp Hk Hv.
  destruct (c09_reindex_array true c bases Hc L Hl) as (c2 & E2 & Hc' & F1 & F2 & F3 & _).
  assert (c2 = c') by congruence. subst c2. clear E2.
  pose proof (derived_ok c _ Hc (d_array c)) as Hok. pose proof (derived_ok c' _ Hc' (d_array c')) as Hok'.
  destruct (nd_ok_shape _ Hok) as (b0 & bs & e0 & es & s & ss & Eb & Ee & Es & L1 & L2 & HA).
  destruct (nd_ok_shape _ Hok') as (b1 & bs' & e1 & es' & s1 & ss' & Eb' & Ee' & Es' & L1' & L2' & HA').
  cbn [cr_nd nd_base nd_ext nd_str] in Eb, Ee, Es, Eb', Ee', Es'.
  rewrite F1 in Eb'. rewrite F2, Ee in Ee'. rewrite F3, Es in Es'. injection Ee' as <- <-. injection Es' as <- <-.
  rewrite Eb in Hb. injection Hb as ->. rewrite Eb' in Hb'. injection Hb' as ->. rewrite Ee in He. injection He as ->.
  pose proof Hok as HB. unfold nd_ok in HB. cbn [cr_nd nd_base nd_ext nd_str] in HB. rewrite Eb, Ee, Es in HB.
  apply addressable_cons in HB. destruct HB as (He & Hb1 & Hb2 & _ & _).
  pose proof Hok' as HB'. unfold nd_ok in HB'. cbn [cr_nd nd_base nd_ext nd_str] in HB'. rewrite F1, F2, F3, Eb', Ee, Es in HB'.
  apply addressable_cons in HB'. destruct HB' as (_ & Hb1' & Hb2' & _ & _).
  assert (N : it_nd (iter_now c (IterH k p)) = cr_nd c).
  { unfold iter_now, it_nd. cbn [it_base it_ext it_str it_ib ih_base]. rewrite <- Hp. reflexivity. }
  assert (SM : smul k s = Ok (k * s)).
  { destruct es as [|e2 es].
    - destruct bs, ss; cbn [length] in *; try lia.
      pose proof (access_one_ok true k (cr_nd c) b e s Eb Ee Es Hok Hk) as A.
      unfold access_one in A. cbn [cr_nd nd_base nd_ext nd_str] in A. rewrite Eb, Ee, Es in A.
      oinv A. oinv A. match goal with H : smul k s = Ok _ |- _ => rename H into S0 end. rewrite S0.
      apply signed_inv in S0. destruct S0 as [-> _]. reflexivity.
    - assert (Hne : e2 :: es <> []) by congruence.
      pose proof (access_n_ok true k (cr_nd c) b bs e (e2 :: es) s ss Eb Ee Es Hne Hok Hk) as A.
      unfold access_n in A. cbn [cr_nd nd_base nd_ext nd_str] in A. rewrite Eb, Ee, Es in A.
      oinv A. oinv A. match goal with H : smul k s = Ok _ |- _ => rename H into S0 end. rewrite S0.
      apply signed_inv in S0. destruct S0 as [-> _]. reflexivity. }
  split; intros Hlen; rewrite Ee in Hlen; cbn [length] in Hlen.
  - destruct es; cbn [length] in *; [|lia]. destruct bs, ss, bs'; cbn [length] in *; try lia.
    unfold it_deref_one. rewrite N. unfold access_one at 1. cbn [it_nd iter_now it_ext it_str it_ib it_base it_idx ih_idx ih_base nd_ext nd_str nd_base nd_org].
    rewrite F1, F2, F3, Ee, Es, Eb'. rewrite (access_one_ok true k (cr_nd c) b e s) by auto. rewrite Hp.
    destruct (Z.leb_spec b' k), (Z.ltb_spec k (b' + e)); cbn [andb].
    + rewrite range_check_in by (auto; lia). cbn [obind]. rewrite SM. reflexivity.
    + rewrite range_check_out by (auto; lia). reflexivity.
    + rewrite range_check_out by (auto; lia). reflexivity.
    + rewrite range_check_out by (auto; lia). reflexivity.
  - assert (Hne : es <> []) by (destruct es; cbn [length] in *; [lia|congruence]).
    unfold it_deref_n. rewrite N. cbn [it_idx iter_now ih_idx].
    rewrite (access_n_ok true k (cr_nd c) b bs e es s ss) by auto.
    unfold access_n. cbn [it_nd iter_now it_ext it_str it_ib it_base it_idx ih_idx ih_base nd_ext nd_str nd_base nd_org].
    rewrite F1, F2, F3, Ee, Es, Eb'. destruct es as [|e2 es]; [congruence|].
    destruct (Z_le_dec b' k) as [H1|H1]; [destruct (Z_lt_dec k (b' + e)) as [H2|H2]|].
    + rewrite range_check_in by (auto; lia). cbn [obind]. rewrite SM. cbn [obind]. split; [lia|]. split; [reflexivity|].
      eexists. split; [reflexivity|]. cbn [nd_org nd_ext nd_str tl]. rewrite Hp. auto.
    + rewrite range_check_out by (auto; lia). cbn [obind]. lia.
    + rewrite range_check_out by (auto; lia). cbn [obind]. lia.
Qed.

(** stored iterators: a stored end() is never reached from begin() after the
    parent has been reindexed, so a loop running up to it runs away *)
Theorem c30_iterator_refuted : exists c e bases c' b, array_object c /\
  iter_end c = Ok e /\ layout_ok (cr_storage c) bases (cr_ext c) /\
  cr_reindex c bases = Ok c' /\ nd_begin (cr_nd c') = Ok b /\
  forall n i, it_advance b n = Ok i -> it_equal i (iter_now c' e) = false.
Proof.
  exists ex_arr. eexists. exists [0; 5]. eexists. eexists.
  split; [apply ex_arr_object|]. split; [vm_compute; reflexivity|]. split; [cbn [cr_storage cr_ext ex_arr]; layout_tac|].
  split; [vm_compute; reflexivity|]. split; [vm_compute; reflexivity|].
  intros n i E. unfold it_advance in E. destruct (sadd _ n) as [k| |]; try discriminate.
  cbn [obind] in E. injection E as <-. unfold it_equal. cbn.
  rewrite andb_false_r. reflexivity.
Qed.

(** views own their geometry: whatever is done to the array's geometry (reindex,
    reshape), a stored view denotes the same cells as before, and they are cells
    of the array in its new geometry too *)
Theorem c30_views_survive : forall chk c v c', array_object c -> derived_view c v ->
  (exists bases, length bases = length (cr_ext c) /\ layout_ok (cr_storage c) bases (cr_ext c) /\ cr_reindex c bases = Ok c') \/
  (exists shape, length shape = length (cr_ext c) /\ layout_ok (cr_storage c) (cr_ib c) shape /\
     prod shape = cr_num_elements c /\ cr_reshape chk c shape = Ok c') ->
  forall i, in_bounds (v_ib v) (v_ext v) i ->
    exists j, in_bounds (cr_ib c') (cr_ext c') j /\
      access_element chk (v_nd v) i = access_element chk (cr_nd c') j.
Proof.
  intros chk c v c' Hc Hv Hch i Hi.
  assert (K : array_object c' /\ cr_data c' = cr_data c /\ cr_num_elements c' = cr_num_elements c).
  { destruct Hch as [(bases & L & Hl & E)|(shape & L & Hl & HP & E)].
    - destruct (c09_reindex_array true c bases Hc L Hl) as (c2 & E2 & H1 & _ & _ & _ & _ & H2 & H3 & _).
      assert (c2 = c') by congruence. subst; auto.
    - destruct (c10_reshape chk c shape Hc L Hl HP) as (c2 & E2 & H1 & _ & _ & _ & H2 & H3 & _).
      assert (c2 = c') by congruence. subst; auto. }
  destruct K as (Hc' & Ed & En).
  assert (Hd : derived c (v_nd v)) by (apply d_view; auto).
  destruct (derived_cell c (v_nd v) i Hc Hd Hi) as (k & Hk & E).
  destruct (c01_addressing_bijection chk c' Hc') as (_ & _ & SURJ).
  rewrite <- En in Hk. destruct (SURJ k Hk) as (j & Hj & Ej).
  exists j. split; [auto|]. rewrite Ej, access_element_ok; auto; [congruence|]. apply (derived_ok c); auto.
Qed.

(** after the array is destroyed or resized, every element access through an old
    subarray, view or reference to it is undefined behaviour *)
Theorem c30_dangling_after_destroy : forall (T : Type) chk (h : heap T) a vs f x i,
  owns h a vs -> derived (ma_ref a) x -> in_bounds (nd_base x) (nd_ext x) i ->
  exists w, ma_destroy a (World h f) = Done tt w /\
    get_element chk x i w = Undef.
Proof.
  intros T chk h a vs f x i Ho Hx Hi. pose proof Ho as (Ha & Hd & _).
  eexists. split; [apply (owns_destroy a vs); auto|].
  unfold get_element, bind. rewrite access_element_ok by (auto; apply (derived_ok (ma_ref a)); auto).
  unfold lift, load. cbn [w_heap].
  destruct (derived_cell (ma_ref a) x i Ha Hx Hi) as (k & Hk & ->).
  unfold hread, hcell, hblock. rewrite Hd. change (p_blk (padd (ma_base a) k)) with (ma_block a).
  rewrite nth_error_set_nth_eq; [reflexivity|]. apply (owns_lt a vs h Ho).
Qed.

Theorem c30_dangling_after_resize : forall (T : Type) (dflt : T) chk (h : heap T) a vs g bases shape x i,
  owns h a vs -> length shape = length (cr_ext (ma_ref a)) ->
  layout_ok (cr_storage (ma_ref a)) bases shape ->
  eg_num g = length shape -> ranges_are (eg_ranges g) bases shape ->
  derived (ma_ref a) x -> in_bounds (nd_base x) (nd_ext x) i ->
  exists a' w, ma_resize dflt chk a g (World h None) = Done a' w /\
    get_element chk x i w = Undef.
Proof.
  intros T dflt chk h a vs g bases shape x i Ho Hlen Hl Hg HR Hx Hi. pose proof Ho as (Ha & Hd & _).
  destruct (resize_outcomes dflt chk a vs g bases shape h None Ho Hlen Hl Hg HR) as [(k & h' & E & _)|(c & vs' & f' & E & _)]; [discriminate|].
  eexists _, _. split; [exact E|].
  unfold get_element, bind. rewrite access_element_ok by (auto; apply (derived_ok (ma_ref a)); auto).
  unfold lift, load. cbn [w_heap].
  destruct (derived_cell (ma_ref a) x i Ha Hx Hi) as (k & Hk & ->).
  unfold hread, hcell, hblock. rewrite Hd. change (p_blk (padd (ma_base a) k)) with (ma_block a).
  pose proof (owns_lt a vs h Ho).
  rewrite nth_error_app1 by (rewrite length_set_nth; auto).
  rewrite nth_error_set_nth_eq; auto.
Qed.

(** non-vacuity: the subarray a[2] of [ex_arr], a leading-dimension reindex *)
Example ex_c30 : exists s c', sub_take true ex_arr [2] = Ok s /\
  layout_ok (cr_storage ex_arr) [9; -2] (cr_ext ex_arr) /\
  cr_reindex ex_arr [9; -2] = Ok c' /\ skipn 1 [9; -2] = skipn 1 (cr_ib ex_arr) /\
  access_element true (sub_now c' s) [0] = Ok (Ptr 7 1) /\
  access_element true (cr_nd ex_arr) [2; 0] = Ok (Ptr 7 1).
Proof.
  eexists _, _. split; [vm_compute; reflexivity|]. split; [cbn [cr_storage cr_ext ex_arr]; layout_tac|].
  split; [vm_compute; reflexivity|]. split; [reflexivity|]. split; vm_compute; reflexivity.
Qed.
(** the owned array of [ex_owned] has elements reachable through a view *)
Example ex_c30_dangling : owns ex_heap ex_ma [10; 11; 12; 13; 14; 15] /\
  derived (ma_ref ex_ma) (cr_nd (ma_ref ex_ma)) /\
  in_bounds (cr_ib (ma_ref ex_ma)) (cr_ext (ma_ref ex_ma)) [2; -1].
Proof. split; [apply ex_owned|]. split; [apply d_array|]. simpl. lia. Qed.
