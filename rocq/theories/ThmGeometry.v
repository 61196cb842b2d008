(** ThmGeometry.v -- C09, C10, C35, C36, C39 *)

From Coq Require Import ZArith List Bool Permutation Lia.
From Verif Require Import Base StorageOrder Ranges Layout Access Objects Spec ViewSpec ReachSpec
  Facts LayoutProofs AccessProofs ViewProofs CopyProofs ReachProofs ThmAddressing ThmViews.
Import ListNotations.
Local Open Scope Z_scope.

Lemma length_tadd : forall a b, length a = length b -> length (tadd a b) = length a.
Proof. induction a; intros [|y b] L; simpl in *; try lia. rewrite IHa; lia. Qed.

Lemma dot_tadd : forall a b s, length a = length s -> length b = length s ->
  dot (tadd a b) s = dot a s + dot b s.
Proof.
  induction a as [|x a IH]; intros [|y b] [|z s] L1 L2; simpl in *; try lia.
  rewrite IH by lia. lia.
Qed.

Lemma tadd_in_bounds : forall bases shape k, in_bounds (repeat 0 (length shape)) shape k ->
  length bases = length shape -> in_bounds bases shape (tadd bases k).
Proof.
  induction bases as [|b bases IH]; intros [|e shape] [|x k] H L; simpl in *; try contradiction; try lia; auto.
  destruct H as [H1 H2]. split; [lia|]. apply IH; auto.
Qed.

Lemma tadd_surj : forall bases shape i, in_bounds bases shape i ->
  exists k, in_bounds (repeat 0 (length shape)) shape k /\ i = tadd bases k.
Proof.
  induction bases as [|b bases IH]; intros [|e shape] [|x i] H; simpl in *; try contradiction.
  - exists []. auto.
  - destruct H as [H1 H2]. destruct (IH _ _ H2) as (k & Hk & ->). exists (x - b :: k). simpl.
    split; [split; [lia|auto]|]. f_equal. lia.
Qed.

(** * C09 *)

Lemma cref_addr_tadd c k : cref_ok c -> length k = length (cr_ext c) ->
  addr (cr_nd c) (tadd (cr_ib c) k) =
  padd (cr_base c) (- desc_sum (so_ascending (cr_storage c)) (cr_ext c) (cr_str c) + dot k (cr_str c)).
Proof.
  intros Hc L. pose proof (cref_ok_len c Hc) as [L1 L2]. destruct Hc as (Ho & Hr & Hs & Hoo & Hn).
  unfold addr, cr_nd, cr_origin. cbn [nd_org nd_str]. rewrite padd_padd. f_equal.
  rewrite Hoo. unfold origin_of. rewrite spec_origin_eq; [|apply Ho|apply Hr].
  rewrite Hs. unfold strides_of. rewrite dot_tadd.
  - lia.
  - rewrite length_spec_strides. auto.
  - rewrite length_spec_strides. auto.
Qed.

(** reindex(b): only the index bases change; the element at position k stays the
    same cell; reindexing back restores the array *)
Theorem c09_reindex_array : forall chk c bases,
  array_object c -> length bases = length (cr_ext c) -> layout_ok (cr_storage c) bases (cr_ext c) ->
  exists c', cr_reindex c bases = Ok c' /\ array_object c' /\
    cr_ib c' = bases /\ cr_ext c' = cr_ext c /\ cr_str c' = cr_str c /\
    cr_storage c' = cr_storage c /\ cr_data c' = cr_data c /\ cr_num_elements c' = cr_num_elements c /\
    cr_reindex c' (cr_ib c) = Ok c /\
    forall k, in_bounds (repeat 0 (length (cr_ext c))) (cr_ext c) k ->
      exists p, access_element chk (cr_nd c) (tadd (cr_ib c) k) = Ok p /\
                access_element chk (cr_nd c') (tadd bases k) = Ok p.
Proof.
  intros chk c bases Hc L Hl. pose proof (array_object_ok c Hc) as Hok.
  pose proof (reindex_eq c bases Hok L Hl) as E.
  pose proof (reindexed_ok c bases Hok Hl) as Hok'.
  eexists. split; [exact E|]. split; [eapply ao_reindex; eauto|].
  do 6 (split; [reflexivity|]).
  pose proof (cref_ok_len c Hok) as [L1 L2].
  split.
  - rewrite reindex_eq; auto.
    + cbn [cr_base cr_storage cr_ext cr_str cr_directional_offset cr_num].
      destruct Hok as (_ & _ & _ & Hoo & _). rewrite <- Hoo. destruct c; reflexivity.
    + apply Hok.
  - intros k Hk. pose proof (in_bounds_length _ _ _ Hk) as [_ Lk].
    exists (addr (cr_nd c) (tadd (cr_ib c) k)). split.
    + apply access_element_ok; [apply cref_addressable; auto|]. apply tadd_in_bounds; auto.
    + rewrite access_element_ok; [|apply cref_addressable; auto|apply tadd_in_bounds; auto].
      f_equal. rewrite (cref_addr_tadd c) by auto.
      pose proof (cref_addr_tadd _ k Hok' Lk) as E2. exact E2.
Qed.

(** reindex(value) is reindex with that value in every dimension *)
Theorem c09_reindex_scalar : forall c v, array_object c ->
  cr_reindex1 c v = cr_reindex c (repeat v (length (cr_ext c))).
Proof. intros c v Hc. apply reindex1_eq, array_object_ok; auto. Qed.

Theorem c09_reindex_view : forall chk c v bases,
  array_object c -> derived_view c v -> length bases = length (v_ext v) ->
  addressable bases (v_ext v) (v_str v) ->
  exists v', v_reindex v bases = Ok v' /\ derived_view c v' /\
    v_ib v' = bases /\ v_ext v' = v_ext v /\ v_str v' = v_str v /\ v_num_elements v' = v_num_elements v /\
    v_reindex v' (v_ib v) = Ok v /\
    forall k, in_bounds (repeat 0 (length (v_ext v))) (v_ext v) k ->
      exists p, access_element chk (v_nd v) (tadd (v_ib v) k) = Ok p /\
                access_element chk (v_nd v') (tadd bases k) = Ok p.
Proof.
  intros chk c v bases Hc Hv L HA. destruct (derived_view_ok c v Hc Hv) as (Hok & HO & HN).
  pose proof (v_reindex_eq v bases L HA) as E.
  eexists. split; [exact E|]. split; [eapply dv_reindex; eauto|].
  do 4 (split; [reflexivity|]).
  pose proof Hok as HAv. unfold nd_ok in HAv. cbn [v_nd nd_base nd_ext nd_str] in HAv.
  pose proof HAv as (A1 & A2 & _). pose proof HA as (B1 & B2 & _).
  split.
  - rewrite v_reindex_eq by auto. cbn [v_base v_str v_num v_ext]. rewrite <- HO. destruct v; reflexivity.
  - intros k Hk. pose proof (in_bounds_length _ _ _ Hk) as [_ Lk].
    exists (addr (v_nd v) (tadd (v_ib v) k)). split.
    + apply access_element_ok; auto. apply tadd_in_bounds; auto.
    + rewrite access_element_ok; [|exact HA|apply tadd_in_bounds; auto]. f_equal.
      unfold addr, v_nd, v_origin. cbn [nd_org nd_str v_base v_origin_offset v_str]. rewrite !padd_padd. f_equal.
      rewrite !dot_tadd by congruence. lia.
Qed.

Theorem c09_reindex_view_scalar : forall v b, v_reindex1 v b = v_reindex v (repeat b (length (v_ext v))).
Proof. intros v b. apply v_reindex1_eq. Qed.

Example ex_c09 : layout_ok (cr_storage ex_arr) [5; 100] (cr_ext ex_arr) /\
  exists c', cr_reindex ex_arr [5; 100] = Ok c' /\
  access_element true (cr_nd ex_arr) [2; -2] = Ok (Ptr 7 5) /\ access_element true (cr_nd c') [6; 100] = Ok (Ptr 7 5).
Proof. split; [cbn [ex_arr cr_storage cr_ib cr_ext]; layout_tac|]. eexists. split; [vm_compute; reflexivity|]. split; vm_compute; reflexivity. Qed.

(** * C10 *)

(** reshape with the right number of elements: data, bases, storage order and
    element count stay; elements correspond by storage position; reshaping back
    restores the array *)
Theorem c10_reshape : forall chk c shape,
  array_object c -> length shape = length (cr_ext c) -> layout_ok (cr_storage c) (cr_ib c) shape ->
  prod shape = cr_num_elements c ->
  exists c', cr_reshape chk c shape = Ok c' /\ array_object c' /\
    cr_ext c' = shape /\ cr_ib c' = cr_ib c /\ cr_storage c' = cr_storage c /\
    cr_data c' = cr_data c /\ cr_num_elements c' = cr_num_elements c /\
    cr_reshape chk c' (cr_ext c) = Ok c /\
    let pos := position (so_ordering (cr_storage c)) (so_ascending (cr_storage c)) (cr_ib c) in
    forall i j, in_bounds (cr_ib c) (cr_ext c) i -> in_bounds (cr_ib c) shape j ->
      (access_element chk (cr_nd c) i = access_element chk (cr_nd c') j <->
       pos (cr_ext c) i = pos shape j).
Proof.
  intros chk c shape Hc L Hl HP. pose proof (array_object_ok c Hc) as Hok.
  assert (Hn : cr_num c = prod (cr_ext c)) by apply Hok. unfold cr_num_elements in HP. rewrite Hn in HP.
  pose proof (reshape_eq chk c shape Hok L Hl HP) as E.
  pose proof (reshape_eq true c shape Hok L Hl HP) as E1.
  pose proof (reshaped_ok c shape Hok L Hl HP) as Hok'.
  eexists. split; [exact E|].
  assert (Hc' : array_object (CRef (cr_base c) (cr_storage c) shape (strides_of (cr_storage c) shape) (cr_ib c)
             (origin_of (cr_storage c) shape (cr_ib c)) (cr_directional_offset c) (cr_num c))).
  { eapply ao_reshape; eauto. }
  split; [exact Hc'|].
  do 5 (split; [reflexivity|]).
  split.
  - rewrite reshape_eq; auto.
    + cbn [cr_base cr_storage cr_ext cr_str cr_ib cr_directional_offset cr_num].
      destruct Hok as (_ & _ & Hs & Hoo & _). rewrite <- Hoo, <- Hs. destruct c; reflexivity.
    + apply Hok.
  - cbv zeta. intros i j Hi Hj.
    rewrite (c02_storage_order_layout chk c i Hc Hi).
    rewrite (c02_storage_order_layout chk _ j Hc') by exact Hj.
    cbn [cr_storage cr_ib cr_ext cr_data cr_base]. unfold cr_data. cbn [cr_base]. split.
    + intros H. injection H as H. lia.
    + intros ->. reflexivity.
Qed.

(** reshape is rejected when the element count differs *)
Theorem c10_reshape_rejected : forall c shape,
  array_object c -> length shape = length (cr_ext c) ->
  Forall (fun e => 0 <= e < 2 ^ 64) shape -> prod shape < 2 ^ 64 -> prod shape <> cr_num_elements c ->
  cr_reshape true c shape = Abort.
Proof.
  intros c shape Hc L HF HP Hne. apply array_object_ok in Hc. destruct Hc as (Ho & Hr & Hs & Hoo & Hn).
  unfold cr_reshape.
  assert (E : map to_size shape = shape).
  { clear - HF. induction HF; simpl; auto. rewrite IHHF. f_equal. apply to_size_small. unconst. lia. }
  rewrite E, accumulate_mul_small.
  2:{ split; [apply prod_nonneg; eapply Forall_impl; [|exact HF]; simpl; intros; lia|unconst; lia]. }
  unfold cr_num_elements in Hne. destruct (Z.eqb_spec (cr_num c) (prod shape)); [lia|]. reflexivity.
Qed.

(** products that wrap around 2^64 are accepted *)
Theorem c10_reshape_wraps_refuted : exists c c' shape, array_object c /\
  length shape = length (cr_ext c) /\ Forall (fun e => 0 <= e < 2 ^ 64) shape /\
  prod shape <> cr_num_elements c /\ cr_reshape true c shape = Ok c'.
Proof.
  assert (exists c, cref_from_list true 2 (Ptr 0 0) [3; 0] (so_from_c 2) = Ok c /\
          exists c', cr_reshape true c [2 ^ 32; 2 ^ 32] = Ok c' /\
          length [2 ^ 32; 2 ^ 32] = length (cr_ext c) /\ cr_num_elements c = 0) as (c & E & c' & E2 & E3 & E4).
  { eexists. split; [vm_compute; reflexivity|]. eexists. split; [vm_compute; reflexivity|]. split; reflexivity. }
  exists c, c', [2 ^ 32; 2 ^ 32]. split.
  { eapply (ao_list true (Ptr 0 0) [3; 0] (so_from_c 2)); [apply c02_named_orders_valid|layout_tac|exact E]. }
  split; [auto|]. split; [repeat constructor; lia|]. split; [|exact E2]. rewrite E4. vm_compute. congruence.
Qed.

Example ex_c10 : layout_ok (cr_storage ex_arr) (cr_ib ex_arr) [6; 1] /\ prod [6; 1] = cr_num_elements ex_arr /\
  cr_reshape true ex_arr [2; 2] = Abort.
Proof. split; [cbn [ex_arr cr_storage cr_ib cr_ext]; layout_tac|]. split; vm_compute; reflexivity. Qed.

(** * C39 *)

(** a list that is too long is written past the end of the extent list *)
Theorem c39_longer_list_writes_past_end : forall chk c shape,
  (length (cr_ext c) < length shape)%nat ->
  cr_num c = accumulate_mul (map to_size shape) ->
  cr_reshape chk c shape = UB.
Proof.
  intros chk c shape L E. unfold cr_reshape. rewrite E, Z.eqb_refl.
  replace (assertM chk (Ok true)) with (Ok tt) by (destruct chk; auto). cbn [obind].
  assert (H : forall (d s : list Z), (length d < length s)%nat -> copy_into d s = UB).
  { induction d; intros [|y s] Hl; simpl in *; try lia; auto. rewrite IHd by lia. reflexivity. }
  rewrite H; auto. rewrite map_length. auto.
Qed.

(** a list that is too short but has the right product is accepted; the
    remaining old extents stay, and accepted indices leave the storage *)
Theorem c39_shorter_list_refuted : exists c c' i p, array_object c /\
  cr_ext c = [2; 3] /\ cr_reshape true c [6] = Ok c' /\ cr_ext c' = [6; 3] /\
  access_element true (cr_nd c') i = Ok p /\
  (forall k, 0 <= k < cr_num_elements c -> p <> padd (cr_data c) k).
Proof.
  assert (exists c, cref_from_list true 2 (Ptr 0 0) [2; 3] (so_from_c 2) = Ok c /\
          exists c', cr_reshape true c [6] = Ok c' /\ cr_ext c' = [6; 3] /\ cr_ext c = [2; 3] /\
          access_element true (cr_nd c') [5; 2] = Ok (Ptr 0 17) /\ cr_num_elements c = 6 /\ cr_data c = Ptr 0 0)
    as (c & E & c' & E2 & E3 & E4 & E5 & E6 & E7).
  { eexists. split; [vm_compute; reflexivity|]. eexists. split; [vm_compute; reflexivity|]. repeat split. }
  exists c, c', [5; 2], (Ptr 0 17). split.
  { eapply (ao_list true (Ptr 0 0) [2; 3] (so_from_c 2)); [apply c02_named_orders_valid|layout_tac|exact E]. }
  repeat (split; [assumption|]). rewrite E6, E7. intros k Hk H. injection H as H. lia.
Qed.

(** * C35 *)

(** extents[n], extents[range(b,f)], extents[range()] *)
Inductive eg_arg := EExtent (n : Z) | EFromTo (b f : Z) | EEmpty.
Fixpoint eg_build (g : extent_gen) (args : list eg_arg) : outcome extent_gen :=
  match args with
  | [] => Ok g
  | EExtent n :: rest => g' <- eg_at_index g n ;; eg_build g' rest
  | EFromTo b f :: rest => g' <- eg_at_range g (ERange b f) ;; eg_build g' rest
  | EEmpty :: rest => g' <- eg_at_range g extent_range_default ;; eg_build g' rest
  end.
Definition arg_erange (x : eg_arg) : extent_range :=
  match x with EExtent n => ERange 0 n | EFromTo b f => ERange b f | EEmpty => ERange 0 0 end.

Definition eg_wf (g : extent_gen) : Prop :=
  match eg_num g with O => length (eg_ranges g) = 1%nat | S _ => length (eg_ranges g) = eg_num g end.
Definition eg_list (g : extent_gen) : list extent_range :=
  match eg_num g with O => [] | S _ => eg_ranges g end.

Lemma extent_gen_extend_eq g r : eg_wf g ->
  extent_gen_extend g r = Ok (EGen (S (eg_num g)) (eg_list g ++ [r])).
Proof.
  intros H. unfold extent_gen_extend.
  pose proof (extend_list (eg_num g) (eg_ranges g) extent_range_default r H) as E.
  unfold obind in *. destruct (copy_into _ _); try discriminate.
  rewrite E. reflexivity.
Qed.

Lemma eg_build_gen : forall args g, eg_wf g ->
  exists g', eg_build g args = Ok g' /\ eg_wf g' /\ eg_num g' = (eg_num g + length args)%nat /\
    eg_list g' = eg_list g ++ map arg_erange args.
Proof.
  induction args as [|x args IH]; intros g Hwf.
  - exists g. simpl. rewrite app_nil_r, Nat.add_0_r. auto.
  - assert (LL : length (eg_list g) = eg_num g).
    { unfold eg_wf, eg_list in *. destruct (eg_num g); auto. }
    assert (E0 : eg_build g (x :: args) = eg_build (EGen (S (eg_num g)) (eg_list g ++ [arg_erange x])) args).
    { destruct x; cbn [eg_build]; unfold eg_at_index, eg_at_range; rewrite extent_gen_extend_eq by auto; reflexivity. }
    rewrite E0.
    destruct (IH (EGen (S (eg_num g)) (eg_list g ++ [arg_erange x]))) as (g' & E & W & N & R).
    { unfold eg_wf. cbn [eg_num eg_ranges]. rewrite app_length, LL. simpl. lia. }
    exists g'. rewrite E, N, R. cbn [eg_num eg_list eg_ranges]. rewrite <- app_assoc. simpl.
    split; [auto|]. split; [auto|]. split; [lia|auto].
Qed.

(** extents[x1][x2]... records its arguments in call order *)
Theorem c35_generator_records_arguments : forall args, args <> [] ->
  eg_build extents args = Ok (EGen (length args) (map arg_erange args)).
Proof.
  intros args Hne. destruct (eg_build_gen args extents) as (g & E & W & N & R); [reflexivity|].
  rewrite E. f_equal. destruct g as [num rs]. unfold eg_list in R. cbn [eg_num eg_ranges extents] in *.
  destruct num; [destruct args; [congruence|discriminate]|]. simpl in N, R. subst rs; rewrite N; reflexivity.
Qed.

(** extents[n1][n2]... and the collection {n1,n2,...} construct the same array *)
Theorem c35_collection_equivalent : forall chk base so ns g, ns <> [] ->
  Forall index_value ns ->
  eg_build extents (map EExtent ns) = Ok g ->
  cref_from_gen chk base g so = cref_from_list chk (length ns) base ns so.
Proof.
  intros chk base so ns g Hne HF E.
  rewrite c35_generator_records_arguments in E by (destruct ns; simpl; congruence).
  injection E as <-. rewrite map_length, map_map. unfold cref_from_gen, init_from_extent_gen. cbn [eg_ranges eg_num].
  assert (A : er_sizes (map (fun x => arg_erange (EExtent x)) ns) = Ok ns).
  { clear Hne. induction HF as [|n ns Hn HF IH]; [reflexivity|]. cbn [map er_sizes]; cbn [arg_erange] in *; cbn [arg_erange].
    unfold er_size. cbn [er_start er_finish]. unfold index_value in Hn.
    rewrite ssub_ok by (unconst; lia). cbn [obind]. rewrite IH. cbn [obind].
    rewrite to_index_to_size, to_index_small by (unconst; lia). repeat f_equal. lia. }
  rewrite A. cbn [obind]. rewrite map_map. cbn [er_start arg_erange].
  replace (map (fun _ : Z => 0) ns) with (repeat 0 (length ns)); [reflexivity|].
  clear. induction ns; simpl; congruence.
Qed.

(** extents[range(b1,f1)]...: extent f-b, index base b *)
Theorem c35_ranges_give_bases_and_extents : forall chk base so bases shape g,
  order_ok (length shape) so -> layout_ok so bases shape ->
  eg_build extents (map (fun be => EFromTo (fst be) (fst be + snd be)) (combine bases shape)) = Ok g ->
  exists c, cref_from_gen chk base g so = Ok c /\ array_object c /\
    cr_ext c = shape /\ cr_ib c = bases /\ cr_storage c = so /\ cr_data c = base.
Proof.
  intros chk base so bases shape g Ho Hl E.
  pose proof Hl as (L & L0 & _).
  assert (LC : length (combine bases shape) = length shape) by (rewrite combine_length; lia).
  rewrite c35_generator_records_arguments in E.
  2:{ destruct (combine bases shape); simpl in *; [lia|congruence]. }
  injection E as <-.
  assert (HR : Forall2 (fun r be => er_start r = fst be /\ er_finish r = fst be + snd be)
     (map arg_erange (map (fun be => EFromTo (fst be) (fst be + snd be)) (combine bases shape))) (combine bases shape)).
  { generalize (combine bases shape). induction l; simpl; constructor; auto. }
  assert (HN : length (map (fun be => EFromTo (fst be) (fst be + snd be)) (combine bases shape)) = length shape)
    by (rewrite map_length; auto).
  destruct (from_gen_ok chk base bases shape (EGen (length (map (fun be => EFromTo (fst be) (fst be + snd be)) (combine bases shape)))
     (map arg_erange (map (fun be => EFromTo (fst be) (fst be + snd be)) (combine bases shape)))) so Ho Hl HN HR)
    as (c & E & Hok & H1 & H2 & H3 & H4).
  exists c. split; auto. split; [refine (ao_gen chk base bases shape (EGen _ _) so c Ho Hl _ _ E); [exact HN|exact HR]|]. auto.
Qed.

Example ex_c35 : eg_build extents [EFromTo 1 3; EExtent 4; EEmpty] = Ok (EGen 3 [ERange 1 3; ERange 0 4; ERange 0 0]).
Proof. vm_compute. reflexivity. Qed.

(** * C36 *)

(** the full-range view is the array itself with zero index bases *)
Theorem c36_full_view_is_identity : forall chk chk' c a, array_object c -> derived c a ->
  exists v, make_view chk a (IGen (length (nd_ext a)) (length (nd_ext a))
                                  (repeat ir_all (length (nd_ext a)))) = Ok v /\
    v_ext v = nd_ext a /\ v_ib v = repeat 0 (length (nd_ext a)) /\
    forall k, in_bounds (repeat 0 (length (nd_ext a))) (nd_ext a) k ->
      exists p, access_element chk' (v_nd v) k = Ok p /\
                access_element chk' a (tadd (nd_base a) k) = Ok p.
Proof.
  intros chk chk' c a Hc Ha. pose proof (derived_ok c a Hc Ha) as Hok.
  set (n := length (nd_ext a)). set (rs := repeat ir_all n).
  pose proof Hok as (A1 & A2 & A3 & A4 & A5 & A6 & A7).
  assert (RS : forall b, range_start ir_all b = b) by (intros b; reflexivity).
  assert (RF : forall b e, range_finish ir_all b e = b + e) by (intros b e; reflexivity).
  assert (VL : forall b e, 0 <= e -> vlen b (b + e) 1 = e).
  { intros b e He. unfold vlen. rewrite Z.quot_1_r. destruct (Z.ltb_spec (b + e - b) 0); [lia|].
    cbn [Z.ltb Z.compare]. rewrite Z.quot_1_r. change (1 - 1) with 0. lia. }
  assert (FIT : ranges_fit (nd_base a) (nd_ext a) (nd_str a) rs /\
                corner (nd_base a) rs (nd_str a) <= reach (nd_base a) (nd_ext a) (nd_str a) /\
                gav_lens (nd_base a) (nd_ext a) rs = nd_ext a /\
                gav_strides rs (nd_str a) = nd_str a /\
                ranges_inside (nd_base a) (nd_ext a) rs /\
                (forall k, length k = length (nd_ext a) -> source_index (nd_base a) rs k = tadd (nd_base a) k)).
  { unfold rs, n. clear Hok rs n A3 A7. clear Ha Hc.
    revert A1 A2 A4 A5 A6. generalize (nd_base a) (nd_ext a) (nd_str a).
    induction l as [|b bs IH]; intros [|e es] [|s ss] A1 A2 A4 A5 A6; simpl in A1, A2; try lia.
    - simpl. split; [auto|]. split; [lia|]. split; [auto|]. split; [auto|]. split; [auto|].
      intros [|x k]; simpl; auto.
    - inversion A4; inversion A5; inversion A6; subst.
      destruct (IH es ss) as (F1 & F2 & F3 & F4 & F5 & F6); auto.
      cbn [length repeat ranges_fit corner gav_lens gav_strides ranges_inside source_index reach].
      unfold range_fits, accepted. change (range_start ir_all b) with b. change (range_finish ir_all b e) with (b + e). cbn [ir_all ir_make ir_stride ir_degenerate].
      change (1 <? 0) with false. cbv iota.
      split; [split; [|exact F1]|].
      { change (0 <? 1) with true. unfold index_value in *. split; [lia|]. split; [lia|]. split; [lia|]. split; [unconst; lia|].
        split; [unconst; lia|]. split; [lia|]. intros _. rewrite Z.mul_1_l. unconst; lia. }
      split; [nia|]. split; [rewrite F3, VL by lia; auto|]. split; [rewrite F4; f_equal; lia|].
      split; [split; [|exact F5]|].
      + apply selected_split; cbn [ir_stride ir_degenerate ir_all ir_make]; try lia; auto.
        change (range_start ir_all b) with b.
        change (range_finish ir_all b e) with (b + e).
        rewrite VL by lia. intros; lia.
      + intros [|x k] Lk; simpl in Lk; [lia|]. cbn [tadd]. f_equal; [lia|]. apply F6. lia. }
  destruct FIT as (F1 & F2 & F3 & F4 & F5 & F6).
  assert (E : make_view chk a (IGen n n rs) = Ok (view_of a rs)).
  { apply make_view_ok; cbn [ig_num ig_dims ig_ranges]; auto.
    - lia.
    - rewrite F4. auto. }
  exists (view_of a rs). split; [exact E|].
  cbn [view_of v_ext v_ib]. rewrite F3. split; [auto|]. split; [auto|].
  intros k Hk. pose proof (in_bounds_length _ _ _ Hk) as [_ Lk].
  assert (HD : dims_facts chk (nd_base a) (nd_ext a) (nd_str a) rs).
  { apply ranges_fit_facts; auto; [split; auto|lia]. }
  assert (LR : length rs = length (nd_ext a)) by apply repeat_length.
  exists (addr a (tadd (nd_base a) k)). split.
  - rewrite access_element_ok.
    + rewrite (view_addr chk); auto.
      * rewrite F6 by auto. reflexivity.
      * rewrite F3. auto.
    + apply (view_nd_ok chk); auto.
      * rewrite F3, F4. auto.
      * rewrite F3. auto.
    + cbn [view_of v_nd nd_base nd_ext v_ib v_ext]. rewrite F3. exact Hk.
  - apply access_element_ok; auto. apply tadd_in_bounds; auto.
Qed.

