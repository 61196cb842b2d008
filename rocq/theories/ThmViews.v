(** ThmViews.v -- C05, C06, C07, C27, C28, C29 *)

From Coq Require Import ZArith List Bool Permutation Lia.
From Verif Require Import Base StorageOrder Ranges Layout Access Objects Spec ViewSpec ReachSpec
  Facts LayoutProofs AccessProofs ViewProofs CopyProofs ReachProofs ThmAddressing.
Import ListNotations.
Local Open Scope Z_scope.

(** * C05 *)

Theorem c05_views_alias : forall chk chk' c a ig v,
  array_object c -> derived c a -> built ig -> make_view chk a ig = Ok v ->
  view_shape (nd_base a) (nd_ext a) (ig_ranges ig) (v_ext v) /\
  length (v_ext v) = ig_dims ig /\
  v_ib v = repeat 0 (length (v_ext v)) /\
  (ranges_inside (nd_base a) (nd_ext a) (ig_ranges ig) -> (0 < ig_dims ig)%nat ->
   forall t, in_bounds (v_ib v) (v_ext v) t ->
     in_bounds (nd_base a) (nd_ext a) (source_index (nd_base a) (ig_ranges ig) t) /\
     exists p, access_element chk' (v_nd v) t = Ok p /\
               access_element chk' a (source_index (nd_base a) (ig_ranges ig) t) = Ok p).
Proof.
  intros chk chk' c a ig v Hc Ha Hb E. pose proof (derived_ok c a Hc Ha) as Hok.
  destruct (view_made chk a ig v Hok Hb E) as (L & -> & HF & L1 & L2).
  split; [apply (view_shape_lens chk _ _ (nd_str a)); auto|]. split; [exact L1|]. split; [reflexivity|].
  intros HI Hd t Ht. cbn [view_of v_ib v_ext] in Ht.
  pose proof (source_index_in_bounds chk _ _ _ _ t L HF HI Ht) as Hs. split; auto.
  exists (addr a (source_index (nd_base a) (ig_ranges ig) t)).
  rewrite access_element_ok.
  - rewrite (view_addr chk); auto; [|apply in_bounds_length in Ht; tauto].
    split; auto. apply access_element_ok; auto.
  - apply (view_nd_ok chk); auto; [apply (length_gav chk); auto|]. simpl in L1. lia.
  - exact Ht.
Qed.

(** a view taken at single indices and full ranges is accepted *)
Example ex_c05 : exists v, make_view true (cr_nd ex_arr) ex_ig = Ok v /\ derived ex_arr (v_nd v) /\
  in_bounds (v_ib v) (v_ext v) [1; 1] /\
  source_index (cr_ib ex_arr) (ig_ranges ex_ig) [1; 1] = [2; -2].
Proof.
  exists ex_view. split; [vm_compute; reflexivity|]. split; [apply ex_view_derived|].
  split; [simpl; lia|reflexivity].
Qed.

(** * C06 *)

(** the extent computation (as long as it does not overflow) counts exactly the
    indices start + k*stride lying strictly before finish *)
Theorem c06_extent_counts_selected : forall start finish stride len,
  view_len start finish stride = Ok len ->
  0 <= len /\ forall k, 0 <= k < len <-> selected start finish stride k.
Proof.
  intros start finish stride len H. apply view_len_inv in H. destruct H as [Hs ->].
  split; [apply vlen_nonneg; auto|]. intros k. apply vlen_selected; auto.
Qed.

(** ... and it does not overflow when the distances involved are representable *)
Theorem c06_extent_defined : forall start finish stride, stride <> 0 ->
  index_value stride -> index_value (finish - start) -> index_value (finish - start + stride) ->
  (stride = -1 -> - max_index <= finish - start) ->
  exists len, view_len start finish stride = Ok len.
Proof.
  intros start finish stride Hs H1 H2 H3 H4. exists (vlen start finish stride).
  unfold index_value in *. apply view_len_ok; auto; unfold index_value;
    destruct (Z.ltb_spec 0 stride); unconst; lia.
Qed.

(** hence the length is the unique count *)
Theorem c06_extent_unique : forall start finish stride len len',
  view_len start finish stride = Ok len -> 0 <= len' ->
  (forall k, 0 <= k < len' <-> selected start finish stride k) -> len' = len.
Proof.
  intros start finish stride len len' H H0 HS. apply c06_extent_counts_selected in H. destruct H as [H1 H2].
  destruct (Z.lt_trichotomy len len') as [Hlt|[Heq|Hgt]]; auto.
  - assert (0 <= len < len) by (apply H2, HS; lia). lia.
  - assert (0 <= len' < len') by (apply HS, H2; lia). lia.
Qed.

(** a zero stride is rejected by the assertion *)
Theorem c06_zero_stride_rejected : forall e s b r st, ir_stride r = 0 -> gav_step true r e s b st = Abort.
Proof. intros e s b r st H. unfold gav_step. rewrite H. reflexivity. Qed.

Example ex_c06 : view_len 4 (-1) (-2) = Ok 3 /\ view_len 0 5 2 = Ok 3 /\ view_len 5 0 2 = Ok 0.
Proof. vm_compute. auto. Qed.

(** * C07 *)

(** dimension with base b, extent e: range r starts one past the end and walks
    backwards, or is a single index one past the end *)
Definition starts_past_end (b e : Z) (r : index_range) : Prop :=
  (ir_degenerate r = true \/ ir_stride r < 0) /\ range_start r b = b + e.

Fixpoint some_dim (P : Z -> Z -> index_range -> Prop) (bases shape : list Z) (rs : list index_range) : Prop :=
  match bases, shape, rs with
  | b :: bs, e :: es, r :: rs' => P b e r \/ some_dim P bs es rs'
  | _, _, _ => False
  end.

Lemma ranges_inside_iff : forall bases shape str rs,
  length rs = length shape -> Forall (fun e => 0 <= e <= max_index) shape ->
  dims_facts true bases shape str rs ->
  (ranges_inside bases shape rs <-> ~ some_dim starts_past_end bases shape rs).
Proof.
  induction bases as [|b bs IH]; intros [|e es] [|s ss] [|r rs] L HF H; simpl in *; try tauto; try lia.
  destruct H as [(H1 & H2 & _) H]. inversion HF; subst.
  specialize (IH es ss rs ltac:(lia) ltac:(auto) H). specialize (H2 eq_refl).
  assert (HR : range_inside b e r <-> ~ starts_past_end b e r).
  { unfold starts_past_end. destruct (ir_degenerate r) eqn:D.
    - rewrite range_inside_single by auto. intuition.
    - rewrite range_inside_iff by (auto; lia). intuition congruence. }
  rewrite HR, IH. tauto.
Qed.

(** exact condition: an accepted view stays inside its parent iff no range
    starts past the end of its dimension *)
Theorem c07_accepted_view_contained_iff : forall c a ig v,
  array_object c -> derived c a -> built ig -> make_view true a ig = Ok v ->
  (ranges_inside (nd_base a) (nd_ext a) (ig_ranges ig) <->
   ~ some_dim starts_past_end (nd_base a) (nd_ext a) (ig_ranges ig)).
Proof.
  intros c a ig v Hc Ha Hb E. pose proof (derived_ok c a Hc Ha) as Hok.
  destruct (view_made true a ig v Hok Hb E) as (L & -> & HF & L1 & L2).
  eapply ranges_inside_iff; eauto. apply Hok.
Qed.

(** then every element of the view is an element of the array *)
Theorem c07_contained_view_is_safe : forall c a ig v t p,
  array_object c -> derived c a -> built ig -> (0 < ig_dims ig)%nat -> make_view true a ig = Ok v ->
  ~ some_dim starts_past_end (nd_base a) (nd_ext a) (ig_ranges ig) ->
  length t = length (v_ext v) -> access_element true (v_nd v) t = Ok p ->
  (exists j, in_bounds (nd_base a) (nd_ext a) j /\ access_element true a j = Ok p) /\
  (exists k, 0 <= k < cr_num_elements c /\ p = padd (cr_data c) k).
Proof.
  intros c a ig v t p Hc Ha Hb Hd E HN Ht Hp.
  pose proof (proj2 (c07_accepted_view_contained_iff c a ig v Hc Ha Hb E) HN) as HI.
  assert (Hv : derived c (v_nd v)) by (apply d_view; eapply dv_make; eauto).
  destruct (c04_accepted_is_inside c (v_nd v) t p Hc Hv Ht (or_introl Hp)) as [HB HK].
  split; auto.
  destruct (c05_views_alias true true c a ig v Hc Ha Hb E) as (_ & _ & _ & H).
  destruct (H HI Hd t HB) as (H1 & q & E1 & E2). exists (source_index (nd_base a) (ig_ranges ig) t).
  split; auto. congruence.
Qed.

(** ranges with positive stride and plain indices (other than the two reserved
    values for open ends) never start past the end and are always safe *)
Theorem c07_forward_ranges_safe : forall c a ig v,
  array_object c -> derived c a -> built ig -> make_view true a ig = Ok v ->
  Forall (fun r => 0 < ir_stride r /\
                   (ir_degenerate r = true -> ir_finish r = ir_start r + 1 /\
                      ir_start r <> - max_index - 1 /\ ir_finish r <> max_index))
         (ig_ranges ig) ->
  ranges_inside (nd_base a) (nd_ext a) (ig_ranges ig).
Proof.
  intros c a ig v Hc Ha Hb E HF. pose proof (derived_ok c a Hc Ha) as Hok.
  destruct (view_made true a ig v Hok Hb E) as (L & -> & HD & L1 & L2).
  apply (c07_accepted_view_contained_iff c a ig _ Hc Ha Hb E).
  clear E L1 L2.
  destruct Hok as (A1 & A2 & A3 & A4 & A5 & _).
  generalize dependent (ig_ranges ig). revert A1 A2 A4 A5. clear.
  generalize (nd_base a) (nd_ext a) (nd_str a). clear.
  induction l as [|b bs IH]; intros [|e es] [|s ss] A1 A2 A4 A5 [|r rs] HF L HD; simpl in *; try tauto; try lia.
  inversion HF; inversion A4; inversion A5; subst. destruct HD as [(D1 & D2 & _) HD]. specialize (D2 eq_refl).
  intros [[HP HS]|HR].
  - destruct H1 as [P1 P2]. destruct HP as [HP|HP]; [|lia]. specialize (P2 HP). destruct P2 as (P2 & P3 & P4).
    destruct D2 as [_ D2]. destruct (Z.ltb_spec (ir_stride r) 0); [lia|].
    unfold range_start, range_finish in *.
    destruct (Z.eqb_spec (ir_start r) (- max_index - 1)); [unconst; lia|].
    destruct (Z.eqb_spec (ir_finish r) max_index); unconst; lia.
  - revert HR. apply (IH es ss); auto; lia.
Qed.

Definition ex7_arr : cref := CRef (Ptr 0 0) (so_from_c 1) [4] [1] [0] 0 0 4.
Example ex7_object : array_object ex7_arr.
Proof.
  eapply (ao_list true (Ptr 0 0) [4] (so_from_c 1)); [apply c02_named_orders_valid|layout_tac|vm_compute; reflexivity].
Qed.

(** the checks accept A[indices[range(4,-1,-1)]] on an array with extent 4; the
    view has 5 elements, the first of them one past the end of the storage *)
Theorem c07_view_escapes_parent_refuted : exists c ig v t p,
  array_object c /\ built ig /\ make_view true (cr_nd c) ig = Ok v /\
  in_bounds (v_ib v) (v_ext v) t /\
  access_element true (v_nd v) t = Ok p /\
  (forall k, 0 <= k < cr_num_elements c -> p <> padd (cr_data c) k).
Proof.
  exists ex7_arr, (IGen 1 1 [ir_make 4 (-1) (-1)]). eexists. exists [0], (Ptr 0 4).
  split; [apply ex7_object|].
  split; [eapply built_range; [apply built_none|vm_compute; reflexivity]|].
  split; [vm_compute; reflexivity|]. split; [simpl; lia|]. split; [vm_compute; reflexivity|].
  cbn. intros k Hk E. injection E as E. lia.
Qed.

Example ex_c07 : ~ some_dim starts_past_end (nd_base (cr_nd ex_arr)) (nd_ext (cr_nd ex_arr)) (ig_ranges ex_ig).
Proof.
  cbn. unfold starts_past_end. cbn. unfold range_start; cbn. lia.
Qed.

(** * C27 *)

Theorem c27_setters_commute : forall r s f d,
  ir_set_start (ir_set_finish r f) s = ir_set_finish (ir_set_start r s) f /\
  ir_set_stride (ir_set_start r s) d = ir_set_start (ir_set_stride r d) s /\
  ir_set_stride (ir_set_finish r f) d = ir_set_finish (ir_set_stride r d) f.
Proof. intros. repeat split. Qed.

(** start() and finish() turn any range, a single-index range too, into a slice
    with exactly the given bounds *)
Theorem c27_setters_make_slices : forall r s f d,
  ir_set_stride (ir_set_finish (ir_set_start r s) f) d = ir_make s f d /\
  ir_set_start r s = ir_make s (ir_finish r) (ir_stride r) /\
  ir_set_finish r f = ir_make (ir_start r) f (ir_stride r) /\
  ir_degenerate (ir_set_stride r d) = ir_degenerate r.
Proof. intros. repeat split. Qed.

Theorem c27_notations_equal : forall s f d, idx_min < s <= idx_max - 1 -> idx_min <= f < idx_max - 1 ->
  (* range().start(s).finish(f).stride(d) *)
  ir_set_stride (ir_set_finish (ir_set_start ir_default s) f) d = ir_make s f d /\
  (* s <= range().stride(d) < f *)
  ir_lt_right (ir_le_left s (ir_set_stride ir_default d)) f = ir_make s f d /\
  (* s-1 < range().stride(d) < f *)
  ir_lt_left (s - 1) (ir_lt_right (ir_set_stride ir_default d) f) = Ok (ir_make s f d) /\
  (* s <= range().stride(d) <= f-1, for f-1 representable *)
  (idx_min < f -> ir_le_right (ir_le_left s (ir_set_stride ir_default d)) (f - 1) = Ok (ir_make s f d)).
Proof.
  intros s f d Hs Hf. split; [reflexivity|]. split; [reflexivity|]. split.
  - unfold ir_lt_left. rewrite sadd_ok by (unconst; lia). cbn [obind].
    replace (s - 1 + 1) with s by lia. reflexivity.
  - intros Hf'. unfold ir_le_right. rewrite sadd_ok by (unconst; lia). cbn [obind].
    replace (f - 1 + 1) with f by lia. reflexivity.
Qed.

(** r.set_index_range(s, f, d) makes r the range the constructor would make,
    unless r was a single index: it stays one (index s), whereas assigning a new
    range to it, or calling start() or finish(), makes it a slice *)
Theorem c27_set_index_range : forall r s f d,
  (ir_degenerate r = false -> ir_set_index_range r s f d = ir_make s f d) /\
  (ir_degenerate r = true ->
     ir_set_index_range r s f d <> ir_make s f d /\ ir_degenerate (ir_set_index_range r s f d) = true /\
     ir_start (ir_set_index_range r s f d) = s /\
     ir_set_stride (ir_set_finish (ir_set_start r s) f) d = ir_make s f d).
Proof.
  intros [s0 f0 d0 g] s f d. cbn. split; intros ->; [reflexivity|]. split; [discriminate|]. auto.
Qed.

(** an unspecified end means the bound of the dimension: writing the bound out
    gives the same view *)
Definition spelled_out (b e : Z) (r : index_range) : index_range :=
  IRange (range_start r b) (range_finish r b e) (ir_stride r) (ir_degenerate r).
Fixpoint spell_out (bases shape : list Z) (rs : list index_range) : list index_range :=
  match bases, shape, rs with
  | b :: bs, e :: es, r :: rs' => spelled_out b e r :: spell_out bs es rs'
  | _, _, _ => rs
  end.

Lemma gav_step_spelled chk r e s b st : - max_index - 1 <= b -> 0 <= e -> b + e <= max_index ->
  gav_step chk (spelled_out b e r) e s b st = gav_step chk r e s b st.
Proof.
  intros H1 H2 H3. unfold gav_step. rewrite !get_start_eq, !get_finish_eq by auto. cbn [spelled_out ir_stride ir_degenerate].
  assert (E1 : range_start (spelled_out b e r) b = range_start r b).
  { unfold range_start, spelled_out. cbn [ir_start]. unfold range_start.
    destruct (Z.eqb_spec (ir_start r) (- max_index - 1)).
    - destruct (Z.eqb_spec b (- max_index - 1)); auto.
    - destruct (Z.eqb_spec (ir_start r) (- max_index - 1)); auto. lia. }
  assert (E2 : range_finish (spelled_out b e r) b e = range_finish r b e).
  { unfold range_finish, spelled_out. cbn [ir_finish]. unfold range_finish.
    destruct (Z.eqb_spec (ir_finish r) max_index).
    - destruct (Z.eqb_spec (b + e) max_index); auto.
    - destruct (Z.eqb_spec (ir_finish r) max_index); auto. lia. }
  rewrite E1, E2. reflexivity.
Qed.

Lemma gav_loop_spelled chk : forall bases shape str rs st,
  Forall (fun e => 0 <= e <= max_index) shape ->
  Forall2 (fun b e => - max_index - 1 <= b /\ b + e <= max_index) bases shape ->
  gav_loop chk (spell_out bases shape rs) shape str bases st = gav_loop chk rs shape str bases st.
Proof.
  induction bases as [|b bs IH]; intros [|e es] [|s ss] [|r rs] st HF HB; inversion HF; inversion HB; subst; simpl; auto.
  rewrite gav_step_spelled by lia.
  destruct (gav_step chk r e s b st); auto. cbn [obind]. auto.
Qed.

Theorem c27_open_ends_mean_bounds : forall chk c a num dims rs,
  array_object c -> derived c a ->
  make_view chk a (IGen num dims (spell_out (nd_base a) (nd_ext a) rs)) =
  make_view chk a (IGen num dims rs).
Proof.
  intros chk c a num dims rs Hc Ha. pose proof (derived_ok c a Hc Ha) as (A1 & A2 & A3 & A4 & A5 & _).
  unfold make_view, generate_array_view. cbn [ig_num ig_ranges ig_dims].
  rewrite gav_loop_spelled by auto. reflexivity.
Qed.

(** shifting a fully specified range shifts every selected index *)
Theorem c27_shift_selects_shifted : forall r k r' n i,
  ir_plus r k = Ok r' \/ ir_minus r (- k) = Ok r' ->
  (selected (ir_start r') (ir_finish r') (ir_stride r') n <->
   selected (ir_start r) (ir_finish r) (ir_stride r) n) /\
  (i = ir_start r + n * ir_stride r <-> i + k = ir_start r' + n * ir_stride r').
Proof.
  intros r k r' n i H.
  assert (E : ir_start r' = ir_start r + k /\ ir_finish r' = ir_finish r + k /\ ir_stride r' = ir_stride r).
  { destruct H as [H|H].
    - unfold ir_plus in H. oinv H. oinv H. injection H as <-. apply signed_inv in E, E0. simpl. intuition.
    - unfold ir_minus in H. oinv H. oinv H. injection H as <-. apply signed_inv in E, E0. simpl. intuition. }
  destruct E as (-> & -> & ->). unfold selected.
  destruct (0 <? ir_stride r); split; lia.
Qed.

Theorem c27_shift_roundtrip : forall r k r', ir_plus r k = Ok r' -> idx_min <= ir_start r <= idx_max ->
  idx_min <= ir_finish r <= idx_max -> ir_degenerate r = false -> ir_minus r' k = Ok r.
Proof.
  intros r k r' H Hs Hf Hd. unfold ir_plus in H. oinv H. oinv H. injection H as <-. apply signed_inv in E, E0.
  destruct E as [-> _], E0 as [-> _]. unfold ir_minus. cbn [ir_start ir_finish ir_stride ir_make].
  rewrite !ssub_ok by (unconst; lia). cbn [obind]. destruct r as [s f d g]. simpl in *. subst g.
  unfold ir_make. repeat f_equal; lia.
Qed.

(** shifting a range with an open end is not a shift: it overflows *)
Theorem c27_shift_open_range_refuted : ir_plus ir_default 1 = UB /\ ir_minus ir_default 1 = UB.
Proof. vm_compute. auto. Qed.

Theorem c27_nth_selected : forall r n v, ir_nth r n = Ok v -> v = ir_start r + n * ir_stride r.
Proof.
  intros r n v H. unfold ir_nth in H. oinv H. apply signed_inv in H, E. destruct H, E. subst. auto.
Qed.

Example ex_c27 : ir_plus (ir_make 2 7 3) 10 = Ok (ir_make 12 17 3) /\ ir_nth (ir_make 2 7 3) 1 = Ok 5.
Proof. vm_compute. auto. Qed.

(** * C28 *)

(** exact relation between index_range::size() and the extent of the view *)
Theorem c28_size_vs_view_extent : forall r n len idx,
  ir_start r <> - max_index - 1 -> ir_finish r <> max_index ->
  ir_size r idx = Ok n -> view_len (ir_start r) (ir_finish r) (ir_stride r) = Ok len ->
  n = (Z.quot (ir_finish r - ir_start r) (ir_stride r)) mod 2 ^ 64 /\
  (n = len <->
   0 <= Z.quot (ir_finish r - ir_start r) (ir_stride r) /\
   (Z.rem (ir_finish r - ir_start r) (ir_stride r) = 0 \/
    (ir_finish r - ir_start r) * ir_stride r <= 0)).
Proof.
  intros r n len idx H1 H2 HS HL.
  unfold ir_size in HS.
  destruct (Z.eqb_spec (ir_start r) from_start); [unfold from_start in *; unconst; lia|].
  destruct (Z.eqb_spec (ir_finish r) to_end); [unfold to_end in *; unconst; lia|].
  cbn [orb] in HS. oinv HS. oinv HS. injection HS as <-.
  apply signed_inv in E. destruct E as [-> HR1].
  unfold sdiv in E0. destruct (Z.eqb_spec (ir_stride r) 0) as [|Hne]; [discriminate|].
  apply signed_inv in E0. destruct E0 as [-> HR2].
  split; [reflexivity|].
  apply view_len_inv in HL. destruct HL as [_ ->].
  set (d := ir_finish r - ir_start r) in *. set (s := ir_stride r) in *.
  assert (HV : vlen (ir_start r) (ir_finish r) s =
    if Z.quot d s <? 0 then 0 else Z.quot (d + (s - (if 0 <? s then 1 else -1))) s) by reflexivity.
  rewrite HV. clear HV.
  destruct (Z.ltb_spec (Z.quot d s) 0) as [Hq|Hq].
  - split; [|lia]. intros H. unfold to_size in H.
    pose proof (Z.mod_small (Z.quot d s + two64) two64 ltac:(unconst; lia)) as E.
    rewrite <- Z.add_mod_idemp_r in E by (unconst; lia). rewrite Z.mod_same, Z.add_0_r in E by (unconst; lia).
    unconst; lia.
  - rewrite to_size_small by (unconst; lia).
    assert (HDR : d = s * Z.quot d s + Z.rem d s) by (apply Z.quot_rem'; auto).
    assert (Key : forall dd ss, 0 < ss -> 0 <= Z.quot dd ss ->
       (Z.quot dd ss = Z.quot (dd + (ss - 1)) ss <-> 0 <= Z.quot dd ss /\ (Z.rem dd ss = 0 \/ dd * ss <= 0))).
    { clear. intros d s Hs Hq.
      destruct (Z.le_gt_cases 0 d) as [Hd|Hd].
      - rewrite !quot_pos_eq by lia. rewrite Z.rem_mod_nonneg by lia.
        pose proof (Z.div_mod d s ltac:(lia)). pose proof (Z.mod_pos_bound d s Hs).
        pose proof (Z.div_mod (d + (s - 1)) s ltac:(lia)). pose proof (Z.mod_pos_bound (d + (s - 1)) s Hs).
        split.
        + intros E. rewrite quot_pos_eq in Hq by lia. split; [auto|]. left.
          rewrite <- E in H1. nia.
        + intros [_ H3].
          assert (H4 : d mod s = 0).
          { destruct H3 as [H3|H3]; [exact H3|]. assert (d = 0) by nia. subst d. apply Z.mod_0_l. lia. }
          apply (Z.div_unique_pos (d + (s - 1)) s (d / s) (s - 1)); lia.
      - assert (Hds : - s < d).
        { destruct (Z.le_gt_cases d (- s)) as [H|H]; [|lia]. pose proof (quot_neg_lt d s Hs H). lia. }
        rewrite (quot_neg_small d s Hs) by lia.
        rewrite (Z.quot_small (d + (s - 1)) s) by lia. split; [intros _; split; [lia|right; nia]|auto]. }
    destruct (Z.ltb_spec 0 s).
    + apply Key; auto.
    + assert (Hs : 0 < - s) by lia.
      specialize (Key (- d) (- s) Hs).
      rewrite Z.quot_opp_opp in Key by lia. rewrite Z.rem_opp_opp in Key by lia.
      replace (- d + (- s - 1)) with (- (d + (s - -1))) in Key by lia.
      rewrite Z.quot_opp_opp in Key by lia. specialize (Key Hq).
      rewrite Key. split; intros [K1 [K2|K2]]; split; auto; (left; lia) || (right; lia).
Qed.

Theorem c28_size_disagrees_refuted : exists r n len,
  ir_size r 5 = Ok n /\ view_len (ir_start r) (ir_finish r) (ir_stride r) = Ok len /\ n <> len.
Proof. exists (ir_make 0 5 2), 2, 3. vm_compute. intuition congruence. Qed.

(** a range in the wrong direction has size 2^64-something instead of 0 *)
Theorem c28_reverse_range_size_refuted :
  ir_size (ir_make 5 2 1) 5 = Ok (2 ^ 64 - 3) /\ view_len 5 2 1 = Ok 0.
Proof. vm_compute. auto. Qed.

(** * C29 *)

(** the argument of one indices[...] call: a range or a single index *)
Inductive ig_arg := ARange (r : index_range) | AIndex (k : Z).
Fixpoint ig_build (g : index_gen) (args : list ig_arg) : outcome index_gen :=
  match args with
  | [] => Ok g
  | ARange r :: rest => g' <- ig_at_range g r ;; ig_build g' rest
  | AIndex k :: rest => g' <- ig_at_index g k ;; ig_build g' rest
  end.
Definition arg_range (x : ig_arg) : index_range :=
  match x with ARange r => r | AIndex k => IRange k (k + 1) 1 true end.
Definition is_range (x : ig_arg) : bool := match x with ARange _ => true | AIndex _ => false end.

Lemma ig_build_gen : forall args g, ig_wf g ->
  Forall (fun x => match x with AIndex k => idx_min <= k < idx_max | _ => True end) args ->
  exists g', ig_build g args = Ok g' /\ ig_wf g' /\ ig_num g' = (ig_num g + length args)%nat /\
    ig_dims g' = (ig_dims g + length (filter is_range args))%nat /\
    ig_list g' = ig_list g ++ map arg_range args.
Proof.
  induction args as [|x args IH]; intros g Hwf HF.
  - exists g. simpl. rewrite app_nil_r, !Nat.add_0_r. auto.
  - inversion HF; subst. destruct x as [r|k].
    + cbn [ig_build]. unfold ig_at_range. rewrite index_gen_extend_eq by auto. cbn [obind].
      destruct (IH (IGen (S (ig_num g)) (S (ig_dims g)) (ig_list g ++ [r]))) as (g' & E & W & N & D & R); auto.
      { unfold ig_wf. cbn [ig_num ig_ranges]. rewrite app_length, length_ig_list by auto. simpl. lia. }
      exists g'. rewrite E, N, D, R. cbn [ig_num ig_dims ig_list ig_ranges]. simpl.
      rewrite <- app_assoc. simpl. repeat split; auto; lia.
    + cbn [ig_build]. unfold ig_at_index, ir_pos. rewrite sadd_ok by lia. cbn [obind].
      rewrite index_gen_extend_eq by auto. cbn [obind].
      destruct (IH (IGen (S (ig_num g)) (ig_dims g) (ig_list g ++ [IRange k (k + 1) 1 true]))) as (g' & E & W & N & D & R); auto.
      { unfold ig_wf. cbn [ig_num ig_ranges]. rewrite app_length, length_ig_list by auto. simpl. lia. }
      exists g'. rewrite E, N, D, R. cbn [ig_num ig_dims ig_list ig_ranges]. simpl.
      rewrite <- app_assoc. simpl. repeat split; auto; lia.
Qed.

Lemma ig_build_built : forall args g g', built g -> ig_build g args = Ok g' -> built g'.
Proof.
  induction args as [|[r|k] args IH]; intros g g' Hb H; simpl in H.
  - injection H as <-. auto.
  - oinv H. eapply IH; [|exact H]. eapply built_range; eauto.
  - oinv H. eapply IH; [|exact H]. eapply built_index; eauto.
Qed.

(** indices[x1]...[xN] records its arguments in order and counts the ranges *)
Theorem c29_generator_records_arguments : forall args, args <> [] ->
  Forall (fun x => match x with AIndex k => idx_min <= k < idx_max | _ => True end) args ->
  ig_build indices args = Ok (IGen (length args) (length (filter is_range args)) (map arg_range args)).
Proof.
  intros args Hne HF. destruct (ig_build_gen args indices) as (g & E & W & N & D & R); auto; [reflexivity|].
  rewrite E. f_equal. destruct g as [num dims rs]. cbn [ig_num ig_dims indices] in *. unfold ig_list in R. cbn [ig_num ig_ranges] in R.
  destruct num; [destruct args; [congruence|discriminate]|]. simpl in N, D, R. subst. f_equal. lia.
Qed.

Lemma length_gav_strides : forall rs str, length rs = length str ->
  length (gav_strides rs str) = length (filter (fun r => negb (ir_degenerate r)) rs).
Proof.
  induction rs as [|r rs IH]; intros [|s str] L; simpl in *; try lia.
  specialize (IH str ltac:(lia)). destruct (ir_degenerate r); simpl; lia.
Qed.

(** an accepted view has exactly as many dimensions as range arguments, and no
    range argument was degenerate *)
Theorem c29_view_dimensions : forall chk c a args ig v,
  array_object c -> derived c a -> args <> [] ->
  Forall (fun x => match x with AIndex k => idx_min <= k < idx_max | _ => True end) args ->
  ig_build indices args = Ok ig -> make_view chk a ig = Ok v ->
  length args = length (nd_ext a) /\
  length (v_ext v) = length (filter is_range args) /\
  Forall (fun x => match x with ARange r => ir_degenerate r = false | _ => True end) args.
Proof.
  intros chk c a args ig v Hc Ha Hne HF Hig E.
  pose proof (derived_ok c a Hc Ha) as Hok.
  assert (Hb : built ig) by (eapply ig_build_built; [apply built_none|eauto]).
  rewrite c29_generator_records_arguments in Hig by auto. injection Hig as <-.
  pose proof (make_view_num _ _ _ _ E) as N. cbn [ig_num] in N.
  destruct (view_made chk a _ v Hok Hb E) as (L & -> & HD & L1 & L2). cbn [ig_dims ig_ranges] in *.
  split; auto. split; [exact L1|].
  cbn [view_of v_str] in L2. rewrite length_gav_strides in L2.
  2:{ rewrite map_length, N. symmetry. apply Hok. }
  clear - L2.
  assert (HL : forall l, (length (filter (fun r => negb (ir_degenerate r)) (map arg_range l)) <= length (filter is_range l))%nat).
  { induction l as [|[r|k] l IH]; simpl; auto. destruct (ir_degenerate r); simpl; lia. }
  induction args as [|[r|k] args IH]; simpl in *; constructor; auto.
  - destruct (ir_degenerate r) eqn:D; auto. simpl in L2. specialize (HL args). lia.
  - apply IH. destruct (ir_degenerate r) eqn:D; simpl in L2; [|lia]. specialize (HL args). lia.
Qed.

(** a degenerate range object passed where a range is expected is rejected *)
Theorem c29_degenerate_range_argument_refuted : exists c ig,
  array_object c /\ built ig /\ ig_dims ig = 1%nat /\ ig_num ig = 1%nat /\
  ig_at_range indices (IRange 2 3 1 true) = Ok ig /\
  make_view true (cr_nd c) ig = Abort /\ make_view false (cr_nd c) ig = UB.
Proof.
  exists ex7_arr, (IGen 1 1 [IRange 2 3 1 true]). split; [apply ex7_object|].
  split; [eapply built_range; [apply built_none|vm_compute; reflexivity]|].
  split; [reflexivity|]. split; [reflexivity|]. split; [vm_compute; reflexivity|]. vm_compute. auto.
Qed.

Example ex_c29 : exists ig v, ig_build indices [AIndex 2; ARange (ir_make (-2) 1 2)] = Ok ig /\
  make_view true (cr_nd ex_arr) ig = Ok v /\ v_ext v = [2].
Proof. eexists. eexists. split; [vm_compute; reflexivity|]. split; vm_compute; reflexivity. Qed.
