(** AccessProofs.v -- constructors of array references, element access,
    iterators. *)

From Coq Require Import ZArith List Bool Permutation Lia.
From Verif Require Import Base StorageOrder Ranges Layout Access Objects Spec Facts LayoutProofs.
Import ListNotations.
Local Open Scope Z_scope.

(** * Well-formed array references *)

Definition so_valid (n : nat) (so : storage_order) : Prop :=
  valid_order n (so_ordering so) (so_ascending so).
Definition so_rep (so : storage_order) (bases shape : list Z) : Prop :=
  representable (so_ordering so) bases shape.

Definition strides_of (so : storage_order) (ext : list Z) : list Z :=
  spec_strides (so_ordering so) (so_ascending so) ext.
Definition origin_of (so : storage_order) (ext bases : list Z) : Z :=
  spec_origin (so_ordering so) (so_ascending so) ext bases.
Definition pos_of (so : storage_order) (bases ext idx : list Z) : Z :=
  position (so_ordering so) (so_ascending so) bases ext idx.

Definition cref_ok (c : cref) : Prop :=
  so_valid (length (cr_ext c)) (cr_storage c) /\
  so_rep (cr_storage c) (cr_ib c) (cr_ext c) /\
  cr_str c = strides_of (cr_storage c) (cr_ext c) /\
  cr_origin_offset c = origin_of (cr_storage c) (cr_ext c) (cr_ib c) /\
  cr_num c = prod (cr_ext c).

Definition nd_ok (a : nd) : Prop := addressable (nd_base a) (nd_ext a) (nd_str a).
Definition addr (a : nd) (idx : list Z) : ptr := padd (nd_org a) (dot idx (nd_str a)).

Lemma padd_padd p a b : padd (padd p a) b = padd p (a + b).
Proof. unfold padd; simpl. f_equal. lia. Qed.
Lemma padd_0 p : padd p 0 = p.
Proof. destruct p; unfold padd; simpl. f_equal. lia. Qed.

(** * representable layouts *)

Lemma rep_ext_bound ord bases ext : representable ord bases ext -> Forall (fun e => 0 <= e <= max_index) ext.
Proof.
  intros (Hb & Hn & F & F2 & B). rewrite Forall_forall in *. intros e He. split; auto.
  pose proof (In_le_prod_max1 e ext He).
  assert (0 <= weighted bases (dim_steps ord ext)); [|lia].
  rewrite weighted_seq by (rewrite length_dim_steps; auto).
  assert (G : forall l, (forall d, In d l -> (d < length ext)%nat) ->
    0 <= sum (map (fun d => Z.abs (nth d bases 0) * nth d (dim_steps ord ext) 0) l)).
  { induction l as [|d l IH]; intros Hl; simpl; rewrite ?sum_cons; [unfold sum; simpl; lia|].
    rewrite nth_dim_steps by (apply Hl; left; auto).
    assert (0 <= dim_step ord ext d) by (apply dim_step_nonneg; apply Forall_forall; auto).
    specialize (IH (fun x Hx => Hl x (or_intror Hx))). nia. }
  apply G. intros d Hd. apply in_seq in Hd. lia.
Qed.

Lemma rep_nonneg ord bases ext : representable ord bases ext -> Forall (fun e => 0 <= e) ext.
Proof. intros (Hb & Hn & F & F2 & B); auto. Qed.

Lemma weighted_nonneg ord bases ext : length bases = length ext -> Forall (fun e => 0 <= e) ext ->
  0 <= weighted bases (dim_steps ord ext).
Proof.
  intros Hb F. rewrite <- (wabs_spec_strides ord (repeat true (length ext)) ext bases Hb F). apply wabs_nonneg.
Qed.

Lemma rep_prod ord bases ext : representable ord bases ext -> 0 <= prod ext <= max_index.
Proof.
  intros H. pose proof H as (Hb & Hn & F & F2 & B).
  pose proof (prod_nonneg _ F). pose proof (prod_le_max1 _ F).
  pose proof (weighted_nonneg ord bases ext Hb F). lia.
Qed.

Lemma map_to_size_id ext : Forall (fun e => 0 <= e <= max_index) ext -> map to_size ext = ext.
Proof.
  induction 1 as [|e ext He H IH]; simpl; auto. rewrite IH, to_size_small; auto. unconst; lia.
Qed.

(** * Constructors *)

Theorem init_ok chk base so bases ext :
  so_valid (length ext) so -> so_rep so bases ext ->
  exists dd, init_multi_array_ref chk (length ext) base so bases ext =
    Ok (CRef base so ext (strides_of so ext) bases (origin_of so ext bases) dd (prod ext)) /\
    cref_ok (CRef base so ext (strides_of so ext) bases (origin_of so ext bases) dd (prod ext)).
Proof.
  intros Hv Hr. unfold init_multi_array_ref. rewrite copy_n_all. cbn [obind].
  rewrite map_to_size_id by (eapply rep_ext_bound; eauto).
  pose proof (rep_prod _ _ _ Hr) as HP.
  rewrite accumulate_mul_small by (unconst; lia).
  pose proof Hr as (Hb & Hn & F & F2 & B).
  rewrite compute_strides_ok; auto.
  2: { pose proof (weighted_nonneg (so_ordering so) bases ext Hb F). unconst; lia. }
  cbn [obind].
  destruct (origin_offset_ok ext so bases Hv Hr) as [E1 E2].
  rewrite E2. cbn [obind]. rewrite E1. cbn [obind].
  eexists. split; [reflexivity|]. repeat split; simpl; auto; apply Hv.
Qed.

Lemma init_ok_len chk n base so bases ext :
  length ext = n -> so_valid n so -> so_rep so bases ext ->
  exists c, init_multi_array_ref chk n base so bases ext = Ok c /\ cref_ok c /\
    cr_base c = base /\ cr_storage c = so /\ cr_ext c = ext /\ cr_ib c = bases.
Proof.
  intros <- Hv Hr. destruct (init_ok chk base so bases ext Hv Hr) as (dd & E & H).
  eexists; split; [exact E|]. split; [exact H|]. auto.
Qed.

(** every constructed reference is addressable *)
Lemma spec_strides_index ord asc bases ext :
  valid_order (length ext) ord asc -> representable ord bases ext ->
  Forall index_value (spec_strides ord asc ext).
Proof.
  intros Hv (Hb & Hn & F & F2 & B).
  pose proof (weighted_nonneg ord bases ext Hb F).
  apply Forall_forall. intros s Hs. unfold spec_strides in Hs. apply in_map_iff in Hs.
  destruct Hs as (d & <- & Hd).
  pose proof (dim_step_nonneg ord ext d F). pose proof (dim_step_le_P1 ord ext d F) as HB.
  rewrite P1_perm in HB by apply Hv.
  unfold index_value, sgn. destruct (nth d asc true); lia.
Qed.

Theorem cref_addressable c : cref_ok c -> nd_ok (cr_nd c).
Proof.
  intros (Hv & Hr & Hs & _). unfold nd_ok, addressable; simpl.
  pose proof Hr as (Hb & Hn & F & F2 & B). rewrite Hs. unfold strides_of.
  repeat split; auto.
  - apply length_spec_strides.
  - eapply rep_ext_bound; eauto.
  - eapply spec_strides_index; eauto.
  - pose proof (reach_spec_strides (so_ordering (cr_storage c)) (so_ascending (cr_storage c)) (cr_ib c) (cr_ext c)).
    destruct Hv as [Hp Ha]. specialize (H Hp Ha Hb F). lia.
Qed.

Theorem cref_addr c idx : cref_ok c -> length idx = length (cr_ext c) ->
  addr (cr_nd c) idx = padd (cr_base c) (pos_of (cr_storage c) (cr_ib c) (cr_ext c) idx).
Proof.
  intros (Hv & Hr & Hs & Ho & _) Hl. unfold addr; simpl. unfold cr_origin.
  rewrite padd_padd. f_equal. rewrite Ho, Hs. unfold origin_of, strides_of, pos_of.
  apply position_eq; auto. apply Hr.
Qed.

(** * Element access on addressable objects *)

Lemma reach_nonneg bs es ss : 0 <= reach bs es ss.
Proof.
  revert es ss; induction bs as [|b bs IH]; intros [|e es] [|s ss]; simpl; try lia.
  specialize (IH es ss). nia.
Qed.

Lemma addressable_cons b bs e es s ss : addressable (b :: bs) (e :: es) (s :: ss) ->
  0 <= e <= max_index /\ - max_index - 1 <= b /\ b + e <= max_index /\ index_value s /\
  (Z.abs b + Z.max 0 (e - 1)) * Z.abs s + reach bs es ss <= max_index /\
  length bs = length es /\ length ss = length es /\
  (es <> [] -> addressable bs es ss).
Proof.
  intros (H1 & H2 & H3 & H4 & H5 & H6 & H7). simpl in *.
  inversion H4; subst. inversion H5; subst. inversion H6; subst.
  do 7 (split; [solve [auto|tauto|lia]|]).
  { intros Hne. unfold addressable. do 2 (split; [lia|]). split; [destruct es; simpl; [congruence|lia]|].
    do 3 (split; [auto|]). pose proof (Z.abs_nonneg b). pose proof (Z.abs_nonneg s).
    pose proof (Z.le_max_l 0 (e - 1)).
    assert (0 <= (Z.abs b + Z.max 0 (e - 1)) * Z.abs s) by (apply Z.mul_nonneg_nonneg; lia). lia. }
Qed.

Lemma range_check_in chk k b e : 0 <= e <= max_index -> b <= k < b + e ->
  range_check chk k b e = Ok tt.
Proof.
  intros He Hk. unfold range_check, assertM. destruct chk; auto.
  rewrite !ssub_ok by (unconst; lia). cbn [obind].
  destruct (Z.leb_spec 0 (k - b)); [|lia]. cbn [obind].
  rewrite to_size_small by (unconst; lia).
  destruct (Z.ltb_spec (k - b) e); [|lia]. auto.
Qed.
Lemma range_check_out k b e : 0 <= e <= max_index -> index_value (k - b) -> ~ (b <= k < b + e) ->
  range_check true k b e = Abort.
Proof.
  intros He Hv Hk. unfold range_check, assertM, index_value in *.
  rewrite !ssub_ok by (unconst; lia). cbn [obind].
  destruct (Z.leb_spec 0 (k - b)); cbn [obind]; auto.
  rewrite to_size_small by (unconst; lia).
  destruct (Z.ltb_spec (k - b) e); [lia|]. auto.
Qed.

Lemma mul_bound b e s k : b <= k < b + e -> Z.abs (k * s) <= (Z.abs b + Z.max 0 (e - 1)) * Z.abs s.
Proof.
  intros H. rewrite Z.abs_mul. apply Z.mul_le_mono_nonneg_r; lia.
Qed.

Theorem access_n_ok chk k a b bs e es s ss :
  nd_base a = b :: bs -> nd_ext a = e :: es -> nd_str a = s :: ss -> es <> [] ->
  nd_ok a -> b <= k < b + e ->
  access_n chk k a = Ok (ND (padd (nd_org a) (k * s)) es ss bs).
Proof.
  intros Eb Ee Es Hne Ha Hk. unfold nd_ok in Ha. rewrite Eb, Ee, Es in Ha.
  apply addressable_cons in Ha. destruct Ha as (He & Hb1 & Hb2 & Hs & HR & _).
  unfold access_n. rewrite Eb, Ee, Es. destruct es as [|e2 es]; [congruence|].
  rewrite range_check_in by auto. cbn [obind].
  pose proof (mul_bound b e s k Hk). pose proof (reach_nonneg bs (e2 :: es) ss).
  rewrite smul_ok by (unconst; lia). auto.
Qed.

Theorem access_one_ok chk k a b e s :
  nd_base a = [b] -> nd_ext a = [e] -> nd_str a = [s] ->
  nd_ok a -> b <= k < b + e ->
  access_one chk k a = Ok (padd (nd_org a) (k * s)).
Proof.
  intros Eb Ee Es Ha Hk. unfold nd_ok in Ha. rewrite Eb, Ee, Es in Ha.
  apply addressable_cons in Ha. destruct Ha as (He & Hb1 & Hb2 & Hs & HR & _).
  unfold access_one. rewrite Eb, Ee, Es.
  rewrite range_check_in by auto. cbn [obind].
  pose proof (mul_bound b e s k Hk). simpl in HR.
  rewrite smul_ok by (unconst; lia). auto.
Qed.

Lemma access_n_abort k a b bs e es s ss :
  nd_base a = b :: bs -> nd_ext a = e :: es -> nd_str a = s :: ss -> es <> [] ->
  nd_ok a -> index_value (k - b) -> ~ (b <= k < b + e) -> access_n true k a = Abort.
Proof.
  intros Eb Ee Es Hne Ha Hv Hk. unfold nd_ok in Ha. rewrite Eb, Ee, Es in Ha.
  apply addressable_cons in Ha. destruct Ha as (He & _).
  unfold access_n. rewrite Eb, Ee, Es. destruct es as [|e2 es]; [congruence|].
  rewrite range_check_out by auto. auto.
Qed.
Lemma access_one_abort k a b e s :
  nd_base a = [b] -> nd_ext a = [e] -> nd_str a = [s] ->
  nd_ok a -> index_value (k - b) -> ~ (b <= k < b + e) -> access_one true k a = Abort.
Proof.
  intros Eb Ee Es Ha Hv Hk. unfold nd_ok in Ha. rewrite Eb, Ee, Es in Ha.
  apply addressable_cons in Ha. destruct Ha as (He & _).
  unfold access_one. rewrite Eb, Ee, Es. rewrite range_check_out by auto. auto.
Qed.

(** rows of an addressable object *)
Lemma nd_ok_shape a : nd_ok a -> exists b bs e es s ss,
  nd_base a = b :: bs /\ nd_ext a = e :: es /\ nd_str a = s :: ss /\
  length bs = length es /\ length ss = length es /\ (es <> [] -> addressable bs es ss).
Proof.
  intros Ha. pose proof Ha as (H1 & H2 & H3 & _). unfold nd_ok in Ha.
  destruct (nd_base a) as [|b bs], (nd_ext a) as [|e es], (nd_str a) as [|s ss]; simpl in *; try lia.
  pose proof (addressable_cons _ _ _ _ _ _ Ha) as (_ & _ & _ & _ & _ & L1 & L2 & HA).
  exists b, bs, e, es, s, ss. do 5 (split; [solve [auto]|]). exact HA.
Qed.

Theorem bracket_ok chk : forall idx a, nd_ok a -> in_bounds (nd_base a) (nd_ext a) idx ->
  bracket chk a idx = Ok (addr a idx).
Proof.
  induction idx as [|k idx IH]; intros a Ha Hi.
  - destruct (nd_ok_shape a Ha) as (b & bs & e & es & s & ss & Eb & Ee & Es & _).
    rewrite Eb, Ee in Hi. destruct Hi.
  - destruct (nd_ok_shape a Ha) as (b & bs & e & es & s & ss & Eb & Ee & Es & L1 & L2 & HA).
    rewrite Eb, Ee in Hi. destruct Hi as [Hk Hi].
    destruct (in_bounds_length _ _ _ Hi) as [_ Hl].
    unfold addr. rewrite Es. simpl dot.
    destruct idx as [|k2 idx].
    + destruct es; simpl in Hl; [|lia]. destruct bs, ss; simpl in *; try lia.
      rewrite (access_one_ok chk k a b e s) by auto. do 2 f_equal. lia.
    + assert (Hne : es <> []) by (destruct es; simpl in *; [lia|congruence]).
      change (bracket chk a (k :: k2 :: idx)) with (r <- access_n chk k a ;; bracket chk r (k2 :: idx)).
      rewrite (access_n_ok chk k a b bs e es s ss) by auto. cbn [obind].
      rewrite IH; simpl; auto.
      * unfold addr; simpl. rewrite padd_padd. reflexivity.
      * apply HA; auto.
Qed.

Lemma ae_checks_in chk : forall ext bases idx, Forall (fun e => 0 <= e <= max_index) ext ->
  in_bounds bases ext idx -> ae_checks chk ext bases idx = Ok tt.
Proof.
  induction ext as [|e ext IH]; intros [|b bases] [|k idx] F H; simpl in *; try tauto; auto.
  inversion F; subst. destruct H as [Hk H]. rewrite range_check_in by auto. simpl. auto.
Qed.

Lemma ae_offset_ok : forall str bases ext idx off,
  in_bounds bases ext idx -> length str = length ext ->
  Z.abs off + reach bases ext str <= idx_max ->
  ae_offset str idx off = Ok (off + dot idx str).
Proof.
  induction str as [|s str IH]; intros [|b bases] [|e ext] [|k idx] off H L B; simpl in *; try tauto; try lia.
  - f_equal; lia.
  - destruct H as [Hk H]. pose proof (mul_bound b e s k Hk). pose proof (reach_nonneg bases ext str).
    rewrite smul_ok by (unconst; lia). cbn [obind]. rewrite sadd_ok by (unconst; lia). cbn [obind].
    rewrite (IH bases ext) by (auto; lia). f_equal. lia.
Qed.

Theorem access_element_ok chk a idx : nd_ok a -> in_bounds (nd_base a) (nd_ext a) idx ->
  access_element chk a idx = Ok (addr a idx).
Proof.
  intros (H1 & H2 & H3 & H4 & H5 & H6 & H7) Hi. unfold access_element.
  replace (if chk then ae_checks chk (nd_ext a) (nd_base a) idx else Ok tt) with (Ok tt).
  - cbn [obind]. rewrite (ae_offset_ok _ (nd_base a) (nd_ext a)); auto.
  - destruct chk; auto. symmetry; apply ae_checks_in; auto.
Qed.

Lemma in_bounds_dec bs es i : {in_bounds bs es i} + {~ in_bounds bs es i}.
Proof.
  revert es i; induction bs as [|b bs IH]; intros [|e es] [|k i]; simpl; auto.
  destruct (Z_le_dec b k), (Z_lt_dec k (b + e)), (IH es i); tauto.
Qed.

(** the differences index - base are representable *)
Definition index_diffs (bases idx : list Z) : Prop :=
  Forall2 (fun b k => index_value (k - b)) bases idx.

Lemma ae_checks_out : forall ext bases idx, Forall (fun e => 0 <= e <= max_index) ext ->
  index_diffs bases idx -> length bases = length ext ->
  ~ in_bounds bases ext idx -> ae_checks true ext bases idx = Abort.
Proof.
  unfold index_diffs.
  induction ext as [|e ext IH]; intros [|b bases] idx F D L H; simpl in *; try lia; inversion D; subst.
  - tauto.
  - inversion F; subst. rename y into k. rename l' into idx.
    destruct (Z_le_dec b k), (Z_lt_dec k (b + e));
      try (rewrite range_check_out by (auto; lia); reflexivity).
    rewrite range_check_in by (auto; lia). cbn [obind]. apply IH; auto.
Qed.

Theorem access_element_abort a idx : nd_ok a -> index_diffs (nd_base a) idx ->
  ~ in_bounds (nd_base a) (nd_ext a) idx -> access_element true a idx = Abort.
Proof.
  intros (H1 & H2 & H3 & H4 & H5 & H6 & H7) D Hi. unfold access_element.
  rewrite ae_checks_out; auto.
Qed.

Theorem bracket_abort : forall idx a, nd_ok a -> index_diffs (nd_base a) idx ->
  ~ in_bounds (nd_base a) (nd_ext a) idx -> bracket true a idx = Abort.
Proof.
  unfold index_diffs. induction idx as [|k idx IH]; intros a Ha D Hi;
    destruct (nd_ok_shape a Ha) as (b & bs & e & es & s & ss & Eb & Ee & Es & L1 & L2 & HA);
    rewrite Eb in D; inversion D; subst.
  rewrite Eb, Ee in Hi. cbn [in_bounds] in Hi.
  assert (Hl : length idx = length es) by (apply Forall2_length in H4; lia).
  destruct idx as [|k2 idx].
  - destruct es; simpl in Hl; [|lia]. destruct bs, ss; simpl in *; try lia.
    apply (access_one_abort k a b e s); auto.
  - assert (Hne : es <> []) by (destruct es; simpl in *; [lia|congruence]).
    change (bracket true a (k :: k2 :: idx)) with (r <- access_n true k a ;; bracket true r (k2 :: idx)).
    destruct (Z_le_dec b k), (Z_lt_dec k (b + e));
      try (rewrite (access_n_abort k a b bs e es s ss) by (auto; lia); reflexivity).
    rewrite (access_n_ok true k a b bs e es s ss) by (auto; lia). cbn [obind].
    apply IH; auto.
    + apply HA; auto.
Qed.
