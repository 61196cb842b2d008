(** ReachProofs.v -- every reachable object is well formed. *)

From Coq Require Import ZArith List Bool Permutation Lia.
From Verif Require Import Base StorageOrder Ranges Layout Access Objects Spec ViewSpec ReachSpec
  Facts LayoutProofs AccessProofs ViewProofs CopyProofs.
Import ListNotations.
Local Open Scope Z_scope.

(** * constructors *)

Lemma from_list_ok chk base shape so :
  order_ok (length shape) so -> layout_ok so (repeat 0 (length shape)) shape ->
  exists c, cref_from_list chk (length shape) base shape so = Ok c /\ cref_ok c /\
    cr_base c = base /\ cr_storage c = so /\ cr_ext c = shape /\ cr_ib c = repeat 0 (length shape).
Proof. intros Ho Hl. apply init_ok_len; auto. Qed.

Lemma er_sizes_ok : forall rs bases shape,
  length bases = length shape ->
  Forall (fun e => 0 <= e <= max_index) shape ->
  Forall2 (fun b e => - max_index - 1 <= b /\ b + e <= max_index) bases shape ->
  Forall2 (fun r be => er_start r = fst be /\ er_finish r = fst be + snd be) rs (combine bases shape) ->
  er_sizes rs = Ok shape /\ map er_start rs = bases.
Proof.
  induction rs as [|r rs IH]; intros [|b bases] [|e shape] L HE HB HR; simpl in *; inversion HR; subst; try discriminate; auto.
  inversion HE; inversion HB; subst. destruct H2 as [Hs Hf]. simpl in Hs, Hf.
  destruct (IH bases shape) as [E1 E2]; auto.
  unfold er_size. rewrite Hs, Hf. replace (b + e - b) with e by lia.
  rewrite ssub_ok; replace (b + e - b) with e by lia; [|unconst; lia].
  cbn [obind]. rewrite to_size_small by (unconst; lia). rewrite E1. cbn [obind].
  rewrite to_index_small by (unconst; lia). rewrite E2. auto.
Qed.

Lemma rep_lengths ord bases shape : representable ord bases shape -> length bases = length shape.
Proof. intros H. apply H. Qed.

Lemma from_gen_ok chk base bases shape g so :
  order_ok (length shape) so -> layout_ok so bases shape ->
  eg_num g = length shape ->
  Forall2 (fun r be => er_start r = fst be /\ er_finish r = fst be + snd be)
          (eg_ranges g) (combine bases shape) ->
  exists c, cref_from_gen chk base g so = Ok c /\ cref_ok c /\
    cr_base c = base /\ cr_storage c = so /\ cr_ext c = shape /\ cr_ib c = bases.
Proof.
  intros Ho Hl Hn HR. unfold cref_from_gen, init_from_extent_gen.
  destruct (er_sizes_ok (eg_ranges g) bases shape) as [E1 E2]; auto.
  - apply rep_lengths in Hl; auto.
  - apply rep_ext_bound in Hl; auto.
  - apply Hl.
  - rewrite E1, E2, Hn. cbn [obind]. apply init_ok_len; auto.
Qed.

Lemma from_shape_ok chk base bases shape so :
  order_ok (length shape) so -> layout_ok so bases shape ->
  exists c, cref_from_shape chk (length shape) base so bases shape = Ok c /\ cref_ok c /\
    cr_base c = base /\ cr_storage c = so /\ cr_ext c = shape /\ cr_ib c = bases.
Proof.
  intros Ho Hl. unfold cref_from_shape. pose proof (copy_n_all bases) as E.
  rewrite (rep_lengths _ _ _ Hl) in E. rewrite E. cbn [obind]. apply init_ok_len; auto.
Qed.

Lemma rep_zero ord n : (0 < n)%nat -> representable ord (repeat 0 n) (repeat 0 n).
Proof.
  intros Hn. unfold representable. rewrite !repeat_length.
  split; [auto|]. split; [auto|].
  split; [apply Forall_forall; intros x Hx; apply repeat_spec in Hx; lia|].
  split.
  - clear Hn. induction n as [|n IH]; simpl; constructor; auto. unconst; lia.
  - assert (weighted (repeat 0 n) (dim_steps ord (repeat 0 n)) = 0) as ->.
    { generalize (dim_steps ord (repeat 0 n)). clear. induction n; intros [|x l]; simpl; auto. }
    assert (prod (map (Z.max 1) (repeat 0 n)) = 1) as ->.
    { clear. induction n; simpl; auto. rewrite prod_cons, IHn. reflexivity. }
    unconst; lia.
Qed.

Lemma default_ok chk n base so :
  (0 < n)%nat -> order_ok n so ->
  exists c, cref_default chk n base so = Ok c /\ cref_ok c /\
    cr_base c = base /\ cr_storage c = so /\ cr_ext c = repeat 0 n /\ cr_ib c = repeat 0 n.
Proof.
  intros Hn Ho. unfold cref_default. apply init_ok_len; auto.
  - apply repeat_length.
  - apply rep_zero; auto.
Qed.

Lemma set_base_ok c p : cref_ok c -> cref_ok (cr_set_base c p).
Proof. intros H; exact H. Qed.

Lemma cref_ok_len c : cref_ok c -> length (cr_ib c) = length (cr_ext c) /\ length (cr_str c) = length (cr_ext c).
Proof.
  intros (Ho & Hr & Hs & _). split; [apply Hr|]. rewrite Hs. apply length_spec_strides.
Qed.

Lemma reindex_eq c bases : cref_ok c -> length bases = length (cr_ext c) ->
  layout_ok (cr_storage c) bases (cr_ext c) ->
  cr_reindex c bases =
    Ok (CRef (cr_base c) (cr_storage c) (cr_ext c) (cr_str c) bases
             (origin_of (cr_storage c) (cr_ext c) bases) (cr_directional_offset c) (cr_num c)).
Proof.
  intros (Ho & Hr & Hs & Hoo & Hn) L Hl. unfold cr_reindex. rewrite <- L, copy_n_all. cbn [obind].
  destruct (origin_offset_ok (cr_ext c) (cr_storage c) bases Ho Hl) as [_ E].
  unfold strides_of in Hs. rewrite Hs, E. reflexivity.
Qed.

Lemma reindex1_eq c b : cref_ok c ->
  cr_reindex1 c b = cr_reindex c (repeat b (length (cr_ext c))).
Proof.
  intros _. unfold cr_reindex1, cr_reindex.
  replace (copy_n (repeat b (length (cr_ext c))) (length (cr_ext c))) with (Ok (repeat b (length (cr_ext c)))); auto.
  symmetry. rewrite <- (repeat_length b (length (cr_ext c))) at 2. apply copy_n_all.
Qed.

Lemma reindexed_ok c bases : cref_ok c ->
  layout_ok (cr_storage c) bases (cr_ext c) ->
  cref_ok (CRef (cr_base c) (cr_storage c) (cr_ext c) (cr_str c) bases
             (origin_of (cr_storage c) (cr_ext c) bases) (cr_directional_offset c) (cr_num c)).
Proof. intros (Ho & Hr & Hs & Hoo & Hn) Hl. unfold cref_ok; simpl. auto. Qed.

Lemma reshape_eq chk c shape : cref_ok c -> length shape = length (cr_ext c) ->
  layout_ok (cr_storage c) (cr_ib c) shape -> prod shape = prod (cr_ext c) ->
  cr_reshape chk c shape =
    Ok (CRef (cr_base c) (cr_storage c) shape (strides_of (cr_storage c) shape) (cr_ib c)
             (origin_of (cr_storage c) shape (cr_ib c)) (cr_directional_offset c) (cr_num c)).
Proof.
  intros (Ho & Hr & Hs & Hoo & Hn) L Hl HP. unfold cr_reshape.
  rewrite map_to_size_id by (eapply rep_ext_bound; apply Hl).
  rewrite accumulate_mul_small.
  2:{ pose proof (rep_prod _ _ _ Hl). unconst; lia. }
  rewrite Hn, HP, Z.eqb_refl. replace (assertM chk (Ok true)) with (Ok tt) by (destruct chk; auto).
  cbn [obind]. rewrite copy_into_full by lia. cbn [obind].
  unfold so_valid in Ho. rewrite <- L in Ho.
  rewrite compute_strides_ok; auto.
  2:{ eapply rep_nonneg; apply Hl. }
  2:{ destruct Hl as (H1 & _ & H3 & _ & H5). pose proof (weighted_nonneg (so_ordering (cr_storage c)) (cr_ib c) shape H1 H3). unconst; lia. }
  cbn [obind]. destruct (origin_offset_ok shape (cr_storage c) (cr_ib c) Ho Hl) as [_ E].
  rewrite E. reflexivity.
Qed.

Lemma reshape_abort c shape : cref_ok c -> length shape = length (cr_ext c) ->
  Forall (fun e => 0 <= e) shape -> prod shape <= max_index ->
  prod shape <> prod (cr_ext c) -> Forall (fun e => e <= max_index) shape ->
  cr_reshape true c shape = Abort.
Proof.
  intros (Ho & Hr & Hs & Hoo & Hn) L H0 HP Hne Hm. unfold cr_reshape.
  rewrite map_to_size_id.
  2:{ rewrite Forall_forall in *. intros x Hx. split; auto. }
  rewrite accumulate_mul_small.
  2:{ pose proof (prod_nonneg _ H0). unconst; lia. }
  rewrite Hn. destruct (Z.eqb_spec (prod (cr_ext c)) (prod shape)); [lia|]. reflexivity.
Qed.

Lemma reshaped_ok c shape : cref_ok c -> length shape = length (cr_ext c) ->
  layout_ok (cr_storage c) (cr_ib c) shape -> prod shape = prod (cr_ext c) ->
  cref_ok (CRef (cr_base c) (cr_storage c) shape (strides_of (cr_storage c) shape) (cr_ib c)
             (origin_of (cr_storage c) shape (cr_ib c)) (cr_directional_offset c) (cr_num c)).
Proof.
  intros (Ho & Hr & Hs & Hoo & Hn) L Hl HP. unfold cref_ok; simpl.
  split; [rewrite L; auto|]. split; [auto|]. split; [auto|]. split; [auto|]. congruence.
Qed.

Lemma reshape_prod c shape c' : cref_ok c -> layout_ok (cr_storage c) (cr_ib c) shape ->
  cr_reshape true c shape = Ok c' -> prod shape = prod (cr_ext c).
Proof.
  intros (Ho & Hr & Hs & Hoo & Hn) Hl H. unfold cr_reshape in H.
  rewrite map_to_size_id in H by (eapply rep_ext_bound; apply Hl).
  rewrite accumulate_mul_small in H.
  2:{ pose proof (rep_prod _ _ _ Hl). unconst; lia. }
  oinv H. destruct v. apply assertM_inv in E; auto. injection E as E. apply Z.eqb_eq in E. congruence.
Qed.

Theorem array_object_ok c : array_object c -> cref_ok c.
Proof.
  induction 1 as [chk base shape so c Ho Hl H | chk base bases shape g so c Ho Hl Hn HR H
    | chk base bases shape so c Ho Hl H | chk n base so c Hn Ho H | c p H IH
    | c bases c' H IH L Hl E | c b c' H IH Hl E | c shape c' H IH L Hl E].
  - destruct (from_list_ok chk base shape so Ho Hl) as (c2 & E & Hok & _). congruence.
  - destruct (from_gen_ok chk base bases shape g so Ho Hl Hn HR) as (c2 & E & Hok & _). congruence.
  - destruct (from_shape_ok chk base bases shape so Ho Hl) as (c2 & E & Hok & _). congruence.
  - destruct (default_ok chk n base so Hn Ho) as (c2 & E & Hok & _). congruence.
  - exact IH.
  - rewrite reindex_eq in E; auto. injection E as <-. apply reindexed_ok; auto.
  - rewrite reindex1_eq, reindex_eq in E; auto; [|apply repeat_length].
    injection E as <-. apply reindexed_ok; auto.
  - pose proof (reshape_prod c shape c' IH Hl E) as HP.
    rewrite reshape_eq in E; auto. injection E as <-. apply reshaped_ok; auto.
Qed.

(** * derived objects *)

Lemma range_check_true_inv k b e : range_check true k b e = Ok tt -> 0 <= e <= max_index -> b <= k < b + e.
Proof.
  unfold range_check, assertM. intros H He. unfold ssub in H.
  destruct (signed (k - b)) as [d| |] eqn:E; cbn in H; try discriminate.
  apply signed_inv in E. destruct E as [-> R].
  destruct (Z.leb_spec 0 (k - b)); cbn in H; [|discriminate].
  rewrite to_size_small in H by (unconst; lia).
  destruct (Z.ltb_spec (k - b) e); cbn in H; [lia|discriminate].
Qed.

Lemma access_n_inv k a s : nd_ok a -> access_n true k a = Ok s ->
  exists b bs e es st ss,
    nd_base a = b :: bs /\ nd_ext a = e :: es /\ nd_str a = st :: ss /\ es <> [] /\
    b <= k < b + e /\ s = row a k.
Proof.
  intros Hok H.
  destruct (nd_ok_shape a Hok) as (b & bs & e & es & st & ss & Eb & Ee & Es & L1 & L2 & HA).
  unfold access_n in H. rewrite Eb, Ee, Es in H. destruct es as [|e2 es]; [discriminate|].
  oinv H. oinv H. injection H as <-.
  pose proof Hok as Hok2. unfold nd_ok in Hok2. rewrite Eb, Ee, Es in Hok2. apply addressable_cons in Hok2.
  destruct v. apply range_check_true_inv in E; [|tauto].
  exists b, bs, e, (e2 :: es), st, ss. repeat split; auto; try lia; try congruence.
  unfold smul in E0. apply signed_inv in E0. destruct E0 as [-> _].
  unfold row. rewrite Eb, Ee, Es. reflexivity.
Qed.

Lemma access_one_inv k a p : nd_ok a -> access_one true k a = Ok p ->
  in_bounds (nd_base a) (nd_ext a) [k] /\ p = addr a [k].
Proof.
  intros Hok H.
  destruct (nd_ok_shape a Hok) as (b & bs & e & es & st & ss & Eb & Ee & Es & L1 & L2 & HA).
  unfold access_one in H. rewrite Eb, Ee, Es in H.
  destruct es; [|discriminate]. destruct bs, ss; simpl in L1, L2; try lia.
  oinv H. oinv H. injection H as <-.
  pose proof Hok as Hok2. unfold nd_ok in Hok2. rewrite Eb, Ee, Es in Hok2. apply addressable_cons in Hok2.
  destruct v. apply range_check_true_inv in E; [|tauto].
  rewrite Eb, Ee. split; [simpl; auto|]. unfold addr. rewrite Es. cbn [dot].
  unfold smul in E0. apply signed_inv in E0. destruct E0 as [-> _]. f_equal; lia.
Qed.

(** accepted element accesses are in bounds *)
Lemma bracket_inv : forall idx a p, nd_ok a -> bracket true a idx = Ok p ->
  in_bounds (nd_base a) (nd_ext a) idx /\ p = addr a idx.
Proof.
  induction idx as [|i idx IH]; intros a p Hok H; [discriminate|].
  destruct idx as [|i2 idx].
  - apply access_one_inv; auto.
  - change (bracket true a (i :: i2 :: idx)) with (s <- access_n true i a ;; bracket true s (i2 :: idx)) in H.
    oinv H. destruct (access_n_inv i a v Hok E) as (b & bs & e & es & st & ss & Eb & Ee & Es & Hne & Hi & ->).
    apply IH in H.
    2:{ apply row_ok; auto. rewrite Ee; auto. }
    destruct H as [HB ->]. unfold row, addr in *. cbn [nd_base nd_ext nd_org nd_str] in *.
    rewrite Eb, Ee, Es in *. cbn [tl hd] in *. split; [simpl; auto|].
    rewrite padd_padd. f_equal.
Qed.

Lemma ae_checks_inv : forall ext bases idx, Forall (fun e => 0 <= e <= max_index) ext ->
  ae_checks true ext bases idx = Ok tt -> length idx = length ext -> in_bounds bases ext idx.
Proof.
  induction ext as [|e ext IH]; intros [|b bases] [|i idx] HF H L; simpl in *; try discriminate; auto.
  inversion HF; subst. oinv H. destruct v. apply range_check_true_inv in E; auto.
Qed.

Lemma access_element_inv a idx p : nd_ok a -> length idx = length (nd_ext a) ->
  access_element true a idx = Ok p ->
  in_bounds (nd_base a) (nd_ext a) idx /\ p = addr a idx.
Proof.
  intros Hok L H.
  assert (HB : in_bounds (nd_base a) (nd_ext a) idx).
  { unfold access_element in H. oinv H. destruct v. apply ae_checks_inv; auto. apply Hok. }
  split; auto. rewrite access_element_ok in H; auto. congruence.
Qed.

(** index generators *)
Lemma copy_into_prefix {A} : forall (d s : list A), (length s <= length d)%nat ->
  exists r, copy_into d s = Ok (s ++ r) /\ length (s ++ r) = length d.
Proof.
  induction d as [|x d IH]; intros [|y s] H; simpl in *; try lia.
  - exists []. auto.
  - exists (x :: d). auto.
  - destruct (IH s) as (r & E & L); [lia|]. exists r. rewrite E. simpl. auto.
Qed.

Lemma set_last_app {A} (x y : A) : forall l, set_last x (l ++ [y]) = Ok (l ++ [x]).
Proof.
  induction l as [|z l IH]; [reflexivity|]. simpl. destruct (l ++ [y]) eqn:E; [destruct l; discriminate|].
  rewrite IH. reflexivity.
Qed.

Definition ig_list (g : index_gen) : list index_range :=
  match ig_num g with O => [] | S _ => ig_ranges g end.

Lemma extend_list {A} (num : nat) (old : list A) (d r : A) :
  (match num with O => length old = 1%nat | S _ => length old = num end) ->
  (c <- copy_into (repeat d (S num)) old ;; set_last r c) =
  Ok ((match num with O => [] | S _ => old end) ++ [r]).
Proof.
  intros H. destruct num as [|n].
  - destruct old as [|x [|y old]]; simpl in H; try lia. reflexivity.
  - destruct (copy_into_prefix (repeat d (S (S n))) old) as (q & E & L).
    { rewrite repeat_length. lia. }
    rewrite E. cbn [obind]. rewrite app_length, repeat_length in L.
    destruct q as [|y [|z q]]; simpl in L; try lia. apply set_last_app.
Qed.

Definition ig_wf (g : index_gen) : Prop :=
  match ig_num g with O => length (ig_ranges g) = 1%nat | S _ => length (ig_ranges g) = ig_num g end.

Lemma index_gen_extend_eq g dims r : ig_wf g ->
  index_gen_extend g dims r = Ok (IGen (S (ig_num g)) dims (ig_list g ++ [r])).
Proof.
  intros H. unfold index_gen_extend.
  pose proof (extend_list (ig_num g) (ig_ranges g) ir_default r H) as E.
  unfold obind in *. destruct (copy_into _ _); try discriminate.
  rewrite E. reflexivity.
Qed.

Lemma length_ig_list g : ig_wf g -> length (ig_list g) = ig_num g.
Proof. unfold ig_wf, ig_list. destruct (ig_num g); auto. Qed.

Lemma built_wf g : built g -> ig_wf g.
Proof.
  induction 1 as [|g r g' H IH E|g k g' H IH E]; [reflexivity| |].
  - unfold ig_at_range in E. rewrite index_gen_extend_eq in E by auto. injection E as <-.
    unfold ig_wf. cbn [ig_num ig_ranges]. rewrite app_length, length_ig_list by auto. simpl. lia.
  - unfold ig_at_index in E. oinv E. rewrite index_gen_extend_eq in E by auto. injection E as <-.
    unfold ig_wf. cbn [ig_num ig_ranges]. rewrite app_length, length_ig_list by auto. simpl. lia.
Qed.

Lemma make_view_num chk a ig v : make_view chk a ig = Ok v -> ig_num ig = length (nd_ext a).
Proof.
  unfold make_view, generate_array_view. destruct (Nat.eqb_spec (ig_num ig) (length (nd_ext a))); auto. discriminate.
Qed.

Lemma built_ranges_length g a v chk : built g -> nd_ok a -> make_view chk a g = Ok v ->
  length (ig_ranges g) = ig_num g.
Proof.
  intros H Hok E. pose proof (built_wf g H) as W. unfold ig_wf in W.
  pose proof (make_view_num chk a g v E) as N. destruct Hok as (_ & _ & H3 & _).
  destruct (ig_num g); [lia|auto].
Qed.

Lemma view_made chk a ig v : nd_ok a -> built ig -> make_view chk a ig = Ok v ->
  length (ig_ranges ig) = length (nd_ext a) /\
  v = view_of a (ig_ranges ig) /\
  dims_facts chk (nd_base a) (nd_ext a) (nd_str a) (ig_ranges ig) /\
  length (v_ext v) = ig_dims ig /\ length (v_str v) = ig_dims ig.
Proof.
  intros Hok Hb E. pose proof (built_ranges_length ig a v chk Hb Hok E) as L.
  destruct (make_view_inv chk a ig v Hok L E) as (H1 & H2 & H3 & H4 & H5). repeat split; auto. lia.
Qed.

Lemma made_ok a ig v : nd_ok a -> built ig -> (0 < ig_dims ig)%nat -> make_view true a ig = Ok v ->
  ranges_inside (nd_base a) (nd_ext a) (ig_ranges ig) -> nd_ok (v_nd v).
Proof.
  intros Hok Hb Hd E HI.
  destruct (view_made true a ig v Hok Hb E) as (L & -> & HF & L1 & L2).
  apply (view_nd_ok true); auto.
  - apply (length_gav true); auto.
  - simpl in L1. lia.
Qed.

Definition view_ok (v : view) : Prop :=
  nd_ok (v_nd v) /\ v_origin_offset v = - dot (v_ib v) (v_str v) /\
  v_num v = accumulate_mul (v_ext v).

Lemma reach_wabs bases ext str : length bases = length ext -> length str = length ext ->
  wabs bases str <= reach bases ext str.
Proof.
  revert ext str; induction bases as [|b bases IH]; intros [|e ext] [|s str] L1 L2; simpl in *; try lia.
  specialize (IH ext str ltac:(lia) ltac:(lia)). nia.
Qed.

Lemma indexing_offset_ok bases ext str : addressable bases ext str ->
  indexing_offset str bases = Ok (- dot bases str).
Proof.
  intros (L1 & L2 & _ & _ & _ & _ & HR). unfold indexing_offset. rewrite idxoff_loop_ok.
  - f_equal.
  - congruence.
  - pose proof (reach_wabs bases ext str L1 L2). simpl. unconst. lia.
Qed.

Lemma v_reindex_eq v bases : length bases = length (v_ext v) -> addressable bases (v_ext v) (v_str v) ->
  v_reindex v bases = Ok (View (v_base v) (- dot bases (v_str v)) (v_num v) (v_ext v) (v_str v) bases).
Proof.
  intros L HA. unfold v_reindex. rewrite <- L, copy_n_all. cbn [obind].
  rewrite (indexing_offset_ok bases (v_ext v)) by auto. reflexivity.
Qed.

Lemma v_reindex1_eq v b : v_reindex1 v b = v_reindex v (repeat b (length (v_ext v))).
Proof.
  unfold v_reindex1, v_reindex.
  replace (copy_n (repeat b (length (v_ext v))) (length (v_ext v))) with (Ok (repeat b (length (v_ext v)))); auto.
  symmetry. rewrite <- (repeat_length b (length (v_ext v))) at 2. apply copy_n_all.
Qed.

Scheme derived_mind := Minimality for derived Sort Prop
  with derived_view_mind := Minimality for derived_view Sort Prop.
Combined Scheme derived_mutind from derived_mind, derived_view_mind.

(** every cell reachable through a derived object is a cell of the array *)
Definition inside (c : cref) (a : nd) : Prop :=
  nd_ok a /\
  (forall i, in_bounds (nd_base a) (nd_ext a) i ->
    exists j, in_bounds (cr_ib c) (cr_ext c) j /\ addr a i = addr (cr_nd c) j) /\
  (forall i i', in_bounds (nd_base a) (nd_ext a) i -> in_bounds (nd_base a) (nd_ext a) i' ->
    addr a i = addr a i' -> i = i').

Lemma dot_repeat_0 n str : dot (repeat 0 n) str = 0.
Proof. revert str; induction n; intros [|s str]; simpl; auto. Qed.

Lemma dot_sub : forall a b s, length a = length s -> length b = length s ->
  dot (map (fun p => fst p - snd p) (combine a b)) s = dot a s - dot b s.
Proof.
  induction a as [|x a IH]; intros [|y b] [|z s] L1 L2; simpl in *; try lia.
  rewrite IH by lia. lia.
Qed.

Definition tsub (a b : list Z) : list Z := map (fun p => fst p - snd p) (combine a b).

Lemma tsub_in_bounds : forall bases ext i, in_bounds bases ext i ->
  in_bounds (repeat 0 (length ext)) ext (tsub i bases).
Proof.
  induction bases as [|b bases IH]; intros [|e ext] [|k i] H; simpl in *; try contradiction; auto.
  destruct H as [H1 H2]. split; [lia|]. apply IH; auto.
Qed.

Lemma tsub_in_bounds_gen : forall bases' bases ext i, length bases' = length ext -> in_bounds bases ext i ->
  in_bounds bases' ext (map (fun p => fst p + snd p) (combine (tsub i bases) bases')).
Proof.
  induction bases' as [|b' bases' IH]; intros [|b bases] [|e ext] [|k i] L H; simpl in *; try contradiction; try lia; auto.
  destruct H as [H1 H2]. split; [lia|]. apply IH; auto.
Qed.

Lemma dot_add : forall a b s, length a = length s -> length b = length s ->
  dot (map (fun p => fst p + snd p) (combine a b)) s = dot a s + dot b s.
Proof.
  induction a as [|x a IH]; intros [|y b] [|z s] L1 L2; simpl in *; try lia.
  rewrite IH by lia. lia.
Qed.

Lemma length_tsub a b : length a = length b -> length (tsub a b) = length a.
Proof. intros L. unfold tsub. rewrite map_length, combine_length, L. lia. Qed.

(** address of an element of a view in terms of positions *)
Lemma view_addr_pos v i : v_origin_offset v = - dot (v_ib v) (v_str v) ->
  length i = length (v_str v) -> length (v_ib v) = length (v_str v) ->
  addr (v_nd v) i = padd (v_base v) (dot (tsub i (v_ib v)) (v_str v)).
Proof.
  intros HO L1 L2. unfold addr, v_nd, v_origin. cbn [nd_org nd_str]. rewrite padd_padd, HO.
  unfold tsub. rewrite dot_sub by auto. f_equal. lia.
Qed.

(** injectivity of addressing *)
Lemma cref_addr_inj c i j : cref_ok c -> in_bounds (cr_ib c) (cr_ext c) i -> in_bounds (cr_ib c) (cr_ext c) j ->
  addr (cr_nd c) i = addr (cr_nd c) j -> i = j.
Proof.
  intros Hc Hi Hj E.
  pose proof (in_bounds_length _ _ _ Hi) as [_ Li]. pose proof (in_bounds_length _ _ _ Hj) as [_ Lj].
  rewrite !cref_addr in E by auto. unfold padd in E. injection E as E.
  eapply position_inj; eauto; [apply Hc|]. unfold pos_of in E. lia.
Qed.

Lemma add_tsub_inj : forall bases' bases ext i i', length bases' = length ext ->
  in_bounds bases ext i -> in_bounds bases ext i' ->
  map (fun p => fst p + snd p) (combine (tsub i bases) bases') =
  map (fun p => fst p + snd p) (combine (tsub i' bases) bases') -> i = i'.
Proof.
  induction bases' as [|b' bases' IH]; intros [|b bases] [|e ext] [|k i] [|k' i'] L H H' E;
    simpl in *; try contradiction; try lia; auto.
  injection E as E1 E2. destruct H, H'. f_equal; [lia|]. apply (IH bases ext i i'); auto; lia.
Qed.

Lemma reindexed_view_inside c v bases : view_ok v -> inside c (v_nd v) ->
  length bases = length (v_ext v) -> addressable bases (v_ext v) (v_str v) ->
  let v' := View (v_base v) (- dot bases (v_str v)) (v_num v) (v_ext v) (v_str v) bases in
  view_ok v' /\ inside c (v_nd v').
Proof.
  intros [Hok [HO HN]] [_ [IH IJ]] L HA v'.
  pose proof Hok as HAv. unfold nd_ok in HAv. cbn [v_nd nd_base nd_ext nd_str] in HAv.
  destruct HAv as (A1 & A2 & _).
  assert (HV : nd_ok (v_nd v')) by exact HA.
  destruct HA as (B1 & B2 & HA).
  set (conv := fun i => map (fun p => fst p + snd p) (combine (tsub i bases) (v_ib v))).
  assert (CB : forall i, in_bounds bases (v_ext v) i -> in_bounds (v_ib v) (v_ext v) (conv i)).
  { intros i Hi. apply tsub_in_bounds_gen; auto. }
  assert (CA : forall i, in_bounds bases (v_ext v) i -> addr (v_nd v') i = addr (v_nd v) (conv i)).
  { intros i Hi. pose proof (in_bounds_length _ _ _ Hi) as [_ Li].
    pose proof (in_bounds_length _ _ _ (CB i Hi)) as [_ Li0].
    rewrite view_addr_pos; unfold v'; cbn [v_origin_offset v_ib v_str v_base]; auto; try congruence.
    unfold addr, v_nd, v_origin. cbn [nd_org nd_str]. rewrite padd_padd, HO. f_equal.
    unfold conv. rewrite dot_add; try congruence; [lia|]. rewrite length_tsub; congruence. }
  split; [split; [exact HV|split; [reflexivity|exact HN]]|].
  split; [exact HV|]. split.
  - intros i Hi. cbn [v_nd nd_base nd_ext v_ib v_ext v'] in *.
    destruct (IH (conv i) (CB i Hi)) as (j & Hj & Ej). exists j. split; auto. rewrite <- Ej. apply CA; auto.
  - intros i i' Hi Hi' E. cbn [v_nd nd_base nd_ext v_ib v_ext v'] in *.
    rewrite (CA i Hi), (CA i' Hi') in E.
    apply IJ in E; try apply CB; auto.
    eapply add_tsub_inj; [exact A1|exact Hi|exact Hi'|exact E].
Qed.

Lemma derived_inv c : cref_ok c ->
  (forall a, derived c a -> inside c a) /\
  (forall v, derived_view c v -> view_ok v /\ inside c (v_nd v)).
Proof.
  intros Hc.
  apply (derived_mutind c (fun a => inside c a) (fun v => view_ok v /\ inside c (v_nd v))).
  - split; [apply cref_addressable; auto|]. split.
    + intros i Hi. exists i. auto.
    + intros i i' Hi Hi' E. apply (cref_addr_inj c); auto.
  - intros a i s _ [Hok [IH IJ]] E.
    destruct (access_n_inv i a s Hok E) as (b & bs & e & es & st & ss & Eb & Ee & Es & Hne & Hi & ->).
    assert (RA : forall j, addr (row a i) j = addr a (i :: j)).
    { intros j. unfold addr, row. cbn [nd_org nd_str]. rewrite Es. cbn [hd tl dot]. rewrite padd_padd. auto. }
    assert (RB : forall j, in_bounds (nd_base (row a i)) (nd_ext (row a i)) j -> in_bounds (nd_base a) (nd_ext a) (i :: j)).
    { intros j Hj. unfold row in Hj. cbn [nd_base nd_ext] in Hj. rewrite Eb, Ee in *. cbn [tl] in Hj. simpl. auto. }
    split; [apply row_ok; auto; rewrite Ee; auto|]. split.
    + intros j Hj. destruct (IH (i :: j) (RB j Hj)) as (k & Hk & Ek).
      exists k. split; auto. rewrite RA. auto.
    + intros j j' Hj Hj' EJ. rewrite !RA in EJ. apply IJ in EJ; auto. congruence.
  - intros v _ [_ H]. exact H.
  - intros a ig v _ [Hok [IH IJ]] Hb Hd E HI.
    destruct (view_made true a ig v Hok Hb E) as (L & -> & HF & L1 & L2).
    assert (HV : nd_ok (v_nd (view_of a (ig_ranges ig)))).
    { apply (made_ok a ig _ Hok Hb Hd E HI). }
    split.
    + split; [exact HV|]. split; [|reflexivity].
      simpl. rewrite dot_repeat_0. reflexivity.
    + split; [exact HV|]. cbn [v_nd view_of nd_base nd_ext v_ib v_ext]. split.
      * intros t Ht.
        pose proof (source_index_in_bounds true _ _ _ _ t L HF HI Ht) as Hs.
        destruct (IH _ Hs) as (j & Hj & Ej). exists j. split; auto.
        rewrite <- Ej. apply (view_addr true); auto. apply in_bounds_length in Ht. tauto.
      * intros t t' Ht Ht' ET.
        pose proof (in_bounds_length _ _ _ Ht) as [_ Lt]. pose proof (in_bounds_length _ _ _ Ht') as [_ Lt'].
        pose proof (view_addr true a (ig_ranges ig) t Hok L HF Lt) as V1.
        pose proof (view_addr true a (ig_ranges ig) t' Hok L HF Lt') as V2.
        change (addr (v_nd (view_of a (ig_ranges ig))) t = addr (v_nd (view_of a (ig_ranges ig))) t') in ET.
        rewrite V1, V2 in ET.
        apply IJ in ET.
        2,3: apply (source_index_in_bounds true _ _ _ _ _ L HF HI); auto.
        eapply (source_index_inj true); eauto.
  - intros v bases v' _ [HV HI] L HA E.
    rewrite v_reindex_eq in E by auto. injection E as <-. apply reindexed_view_inside; auto.
  - intros v b v' _ [HV HI] HA E.
    rewrite v_reindex1_eq, v_reindex_eq in E; auto; [|apply repeat_length]. injection E as <-.
    apply reindexed_view_inside; auto. apply repeat_length.
Qed.

Lemma derived_ok c a : array_object c -> derived c a -> nd_ok a.
Proof. intros Hc Ha. apply (proj1 (derived_inv c (array_object_ok c Hc)) a Ha). Qed.
Lemma derived_view_ok c v : array_object c -> derived_view c v -> view_ok v.
Proof. intros Hc Ha. apply (proj2 (derived_inv c (array_object_ok c Hc)) v Ha). Qed.
Lemma derived_inside c a : array_object c -> derived c a ->
  forall i, in_bounds (nd_base a) (nd_ext a) i ->
    exists j, in_bounds (cr_ib c) (cr_ext c) j /\ addr a i = addr (cr_nd c) j.
Proof. intros Hc Ha. apply (proj1 (derived_inv c (array_object_ok c Hc)) a Ha). Qed.

Lemma derived_inj c a : array_object c -> derived c a ->
  forall i i', in_bounds (nd_base a) (nd_ext a) i -> in_bounds (nd_base a) (nd_ext a) i' ->
    addr a i = addr a i' -> i = i'.
Proof. intros Hc Ha. apply (proj1 (derived_inv c (array_object_ok c Hc)) a Ha). Qed.
