(** LayoutProofs.v -- strides, origin offsets and storage positions. *)

From Coq Require Import ZArith List Bool Permutation Lia.
From Verif Require Import Base StorageOrder Ranges Layout Access Objects Spec Facts.
Import ListNotations.
Local Open Scope Z_scope.

(** * Closed forms *)

Definition sgn (asc : list bool) (d : nat) : Z := if nth d asc true then 1 else -1.

Definition spec_strides (ord : list nat) (asc : list bool) (ext : list Z) : list Z :=
  map (fun d => sgn asc d * dim_step ord ext d) (seq 0 (length ext)).

(** value subtracted from the index of dimension d to get its signed digit *)
Definition shift_of (asc : list bool) (bases ext : list Z) (d : nat) : Z :=
  nth d bases 0 + (if nth d asc true then 0 else nth d ext 0 - 1).

Definition spec_origin (ord : list nat) (asc : list bool) (ext bases : list Z) : Z :=
  - sum (map (fun d => shift_of asc bases ext d * (sgn asc d * dim_step ord ext d))
             (seq 0 (length ext))).

(** * dim_step *)

Lemma dim_step_nonneg ord ext d : Forall (fun e => 0 <= e) ext -> 0 <= dim_step ord ext d.
Proof.
  intros F. induction ord as [|x ord IH]; simpl; [lia|].
  destruct (Nat.eqb x d); [lia|]. apply Z.mul_nonneg_nonneg; auto.
  destruct (nth_in_or_default x ext 0) as [H|H]; [|rewrite H; lia].
  rewrite Forall_forall in F. apply F; auto.
Qed.

Lemma nth_nonneg l d : Forall (fun e => 0 <= e) l -> 0 <= nth d l 0.
Proof.
  intros F. destruct (nth_in_or_default d l 0) as [H|H]; [|rewrite H; lia].
  rewrite Forall_forall in F. apply F; auto.
Qed.

Definition P1 (ord : list nat) (ext : list Z) : Z := prod (map (fun d => Z.max 1 (nth d ext 0)) ord).

Lemma P1_cons x ord ext : P1 (x :: ord) ext = Z.max 1 (nth x ext 0) * P1 ord ext.
Proof. reflexivity. Qed.
Lemma P1_pos ord ext : 1 <= P1 ord ext.
Proof.
  unfold P1. rewrite <- (map_map (fun d => nth d ext 0) (Z.max 1)). apply prod_max1_pos.
Qed.
Lemma P1_perm ord ext : Permutation ord (seq 0 (length ext)) -> P1 ord ext = prod (map (Z.max 1) ext).
Proof.
  intros H. unfold P1. rewrite (prod_perm _ _ (Permutation_map _ H)).
  rewrite <- (map_map (fun d => nth d ext 0) (Z.max 1)), map_nth_seq. auto.
Qed.
Lemma dim_step_le_P1 ord ext d : Forall (fun e => 0 <= e) ext -> dim_step ord ext d <= P1 ord ext.
Proof.
  intros F. induction ord as [|x ord IH]; simpl; [unfold P1; simpl; unfold prod; simpl; lia|].
  rewrite P1_cons. pose proof (P1_pos ord ext). pose proof (dim_step_nonneg ord ext d F).
  pose proof (nth_nonneg ext x F).
  pose proof (Z.le_max_l 1 (nth x ext 0)). pose proof (Z.le_max_r 1 (nth x ext 0)).
  generalize dependent (Z.max 1 (nth x ext 0)). intros m Hm1 Hm2.
  destruct (Nat.eqb x d); nia.
Qed.

(** sums over an ordering, weighted by the steps of that ordering, are Horner
    evaluations *)
Fixpoint horner (ord : list nat) (ext : list Z) (f : nat -> Z) : Z :=
  match ord with
  | [] => 0
  | d :: r => f d + nth d ext 0 * horner r ext f
  end.

Lemma dim_step_cons_ne x ord ext d : x <> d ->
  dim_step (x :: ord) ext d = nth x ext 0 * dim_step ord ext d.
Proof. intros H. simpl. apply Nat.eqb_neq in H. rewrite H. auto. Qed.
Lemma dim_step_cons_eq x ord ext : dim_step (x :: ord) ext x = 1.
Proof. simpl. rewrite Nat.eqb_refl. auto. Qed.

Lemma sum_horner ord ext f : NoDup ord ->
  sum (map (fun d => f d * dim_step ord ext d) ord) = horner ord ext f.
Proof.
  induction 1 as [|x ord Hx Hn IH]; auto.
  cbn [map horner]. rewrite sum_cons, dim_step_cons_eq, <- IH.
  assert (E : map (fun d => f d * dim_step (x :: ord) ext d) ord =
              map (fun d => nth x ext 0 * (f d * dim_step ord ext d)) ord).
  { apply map_ext_in. intros d Hd. rewrite dim_step_cons_ne; [ring|]. intros ->; auto. }
  rewrite E. rewrite Z.mul_1_r. f_equal.
  apply (sum_map_mul (nth x ext 0) (fun d => f d * dim_step ord ext d)).
Qed.

Lemma horner_ext ord ext f g : (forall d, In d ord -> f d = g d) -> horner ord ext f = horner ord ext g.
Proof.
  induction ord as [|x ord IH]; intros H; simpl; auto.
  rewrite H by (left; auto). rewrite IH; auto. intros; apply H; right; auto.
Qed.
Lemma horner_mixed ord ext digs : horner ord ext (fun d => nth d digs 0) = mixed_radix ord ext digs.
Proof. induction ord as [|x ord IH]; simpl; auto. rewrite IH; auto. Qed.

Lemma perm_NoDup n ord : Permutation ord (seq 0 n) -> NoDup ord.
Proof. intros H. eapply Permutation_NoDup; [symmetry; exact H|apply seq_NoDup]. Qed.
Lemma perm_In n ord d : Permutation ord (seq 0 n) -> (In d ord <-> (d < n)%nat).
Proof.
  intros H. split; intros I.
  - eapply Permutation_in in I; [|exact H]. apply in_seq in I. lia.
  - eapply Permutation_in; [symmetry; exact H|]. apply in_seq. lia.
Qed.
Lemma perm_length n ord : Permutation ord (seq 0 n) -> length ord = n.
Proof. intros H. apply Permutation_length in H. rewrite seq_length in H. auto. Qed.

(** * compute_strides *)

Lemma cs_loop_ok chk so ext :
  length (so_ascending so) = length ext ->
  Forall (fun e => 0 <= e) ext ->
  forall ord st acc,
  NoDup ord -> (forall d, In d ord -> (d < length ext)%nat) ->
  length acc = length ext -> 0 <= st -> st * P1 ord ext <= idx_max ->
  exists acc', cs_loop chk ord so ext st acc = Ok acc' /\ length acc' = length ext /\
    (forall d, In d ord -> nth_error acc' d = Some (Some (sgn (so_ascending so) d * (st * dim_step ord ext d)))) /\
    (forall d, ~ In d ord -> nth_error acc' d = nth_error acc d).
Proof.
  intros Hasc Fext. induction ord as [|x ord IH]; intros st acc Hn Hlt Hacc Hst Hb.
  - exists acc. simpl. repeat split; auto; intros; tauto.
  - inversion Hn as [|x' l Hx Hn']; subst.
    assert (Hxl : (x < length ext)%nat) by (apply Hlt; left; auto).
    rewrite P1_cons in Hb.
    pose proof (P1_pos ord ext) as HP. pose proof (nth_nonneg ext x Fext) as Hex.
    assert (Hm : 1 <= Z.max 1 (nth x ext 0) /\ nth x ext 0 <= Z.max 1 (nth x ext 0)) by lia.
    set (m := Z.max 1 (nth x ext 0)) in *. clearbody m.
    assert (H1m : 1 <= m * P1 ord ext) by nia.
    assert (Hst_le : st <= idx_max).
    { apply Z.le_trans with (st * (m * P1 ord ext)); auto. nia. }
    assert (Hse : st * nth x ext 0 * P1 ord ext <= idx_max).
    { apply Z.le_trans with (st * (m * P1 ord ext)); auto.
      rewrite <- Z.mul_assoc. apply Z.mul_le_mono_nonneg_l; auto.
      apply Z.mul_le_mono_nonneg_r; lia. }
    assert (Hse1 : 0 <= st * nth x ext 0) by nia.
    cbn [cs_loop]. unfold so_asc_at, arr_get.
    rewrite (nth_error_nth' (so_ascending so) true) by lia.
    cbn [obind].
    assert (Hsm : smul st (if nth x (so_ascending so) true then 1 else -1) =
                  Ok (sgn (so_ascending so) x * st)).
    { unfold sgn. rewrite smul_ok; [f_equal; ring|].
      destruct (nth x (so_ascending so) true); unconst; lia. }
    rewrite Hsm. cbn [obind]. unfold arr_set.
    destruct (Nat.ltb_spec x (length acc)) as [Hl|Hl]; [|lia]. cbn [obind].
    rewrite (nth_error_nth' ext 0) by lia. cbn [obind].
    assert (Hnext : to_index (to_size st * nth x ext 0) = st * nth x ext 0).
    { rewrite to_size_small by (unconst; lia). apply to_index_small.
      assert (st * nth x ext 0 <= idx_max) by nia. unconst; lia. }
    rewrite Hnext.
    destruct (IH (st * nth x ext 0) (set_nth x (Some (sgn (so_ascending so) x * st)) acc))
      as (acc' & E & L & Hin & Hout); auto.
    + intros; apply Hlt; right; auto.
    + rewrite length_set_nth; auto.
    + exists acc'. split; auto. split; auto. split.
      * intros d [->|Hd].
        -- rewrite Hout by auto. rewrite nth_error_set_nth_eq by lia.
           rewrite dim_step_cons_eq. do 2 f_equal. ring.
        -- rewrite Hin by auto. rewrite dim_step_cons_ne; [do 2 f_equal; ring|].
           intros ->; auto.
      * intros d Hd. rewrite Hout by (intro; apply Hd; right; auto).
        apply nth_error_set_nth_ne. intros ->. apply Hd; left; auto.
Qed.

Lemma read_all_somes l : read_all (map Some l) = Ok l.
Proof. induction l as [|x l IH]; simpl; auto. rewrite IH; auto. Qed.

Lemma nth_error_map_seq {A} (f : nat -> A) n d : (d < n)%nat -> nth_error (map f (seq 0 n)) d = Some (f d).
Proof.
  intros H. rewrite nth_error_map, nth_error_nth' with (d := 0%nat) by (rewrite seq_length; auto).
  simpl. rewrite seq_nth; auto.
Qed.

Lemma nth_error_ext {A} (l1 l2 : list A) : (forall d, nth_error l1 d = nth_error l2 d) -> l1 = l2.
Proof.
  revert l2; induction l1 as [|x l1 IH]; intros [|y l2] H; auto.
  - specialize (H 0%nat). discriminate.
  - specialize (H 0%nat). discriminate.
  - pose proof (H 0%nat) as H0. simpl in H0. inversion H0; subst. f_equal.
    apply IH. intros d. apply (H (S d)).
Qed.

Theorem compute_strides_ok chk ext so :
  valid_order (length ext) (so_ordering so) (so_ascending so) ->
  Forall (fun e => 0 <= e) ext ->
  prod (map (Z.max 1) ext) <= idx_max ->
  compute_strides chk ext so = Ok (spec_strides (so_ordering so) (so_ascending so) ext).
Proof.
  intros [Hp Ha] F B. unfold compute_strides.
  destruct (cs_loop_ok chk so ext Ha F (so_ordering so) 1 (repeat None (length ext)))
    as (acc & E & L & Hin & _).
  - eapply perm_NoDup; eauto.
  - intros d. apply perm_In; auto.
  - apply repeat_length.
  - lia.
  - rewrite P1_perm by auto. lia.
  - rewrite E. cbn [obind].
    replace acc with (map Some (spec_strides (so_ordering so) (so_ascending so) ext)).
    + apply read_all_somes.
    + apply nth_error_ext. intros d. unfold spec_strides.
      destruct (Nat.lt_ge_cases d (length ext)) as [H|H].
      * rewrite Hin by (apply perm_In with (n := length ext); auto).
        rewrite map_map, nth_error_map_seq by auto. do 2 f_equal. ring.
      * transitivity (@None (option Z)); [|symmetry]; apply nth_error_None.
        -- rewrite !map_length, seq_length; auto.
        -- lia.
Qed.

(** * Offsets *)

Fixpoint desc_sum (asc : list bool) (ext str : list Z) : Z :=
  match asc, ext, str with
  | up :: asc', e :: ext', s :: str' =>
      (if up then 0 else (e - 1) * s) + desc_sum asc' ext' str'
  | _, _, _ => 0
  end.

Lemma desc_loop_mod asc : forall ext str off,
  length asc = length ext -> length str = length ext -> idx_min <= off <= idx_max ->
  desc_loop asc ext str off = Ok (to_index (off - desc_sum asc ext str)).
Proof.
  induction asc as [|up asc IH]; intros [|e ext] [|s str] off H1 H2 Ho; simpl in *; try lia.
  - rewrite Z.sub_0_r, to_index_small; auto.
  - destruct up.
    + rewrite IH by (auto; lia). do 2 f_equal.
    + rewrite IH by (try lia; apply to_index_range). f_equal. apply to_index_cong.
      rewrite <- Zminus_mod_idemp_l, to_index_mod, Zminus_mod_idemp_l.
      unfold to_size. assert (HN : two64 <> 0) by (unconst; lia).
      rewrite (Z.mod_eq off two64 HN), (Z.mod_eq (e - 1) two64 HN), (Z.mod_eq s two64 HN).
      rewrite (Z.mod_eq ((e - 1 - two64 * ((e - 1) / two64)) * (s - two64 * (s / two64))) two64 HN).
      generalize (off / two64) ((e - 1) / two64) (s / two64)
        ((e - 1 - two64 * ((e - 1) / two64)) * (s - two64 * (s / two64)) / two64).
      intros q1 q2 q3 q4.
      rewrite <- (Z_mod_plus_full (off - ((e - 1) * s + desc_sum asc ext str))
                    (- q1 + q4 + (e - 1) * q3 + q2 * s - two64 * q2 * q3) two64).
      f_equal. ring.
Qed.

Lemma all_asc_fold l b : fold_left andb l b = true <-> b = true /\ Forall (fun x => x = true) l.
Proof.
  revert b; induction l as [|x l IH]; intros b; simpl.
  - split; [intros ->; auto | tauto].
  - rewrite IH, andb_true_iff. split.
    + intros [[-> ->] H]; auto.
    + intros [-> H]; inversion H; subst; auto.
Qed.
Lemma desc_sum_all_asc asc : Forall (fun x => x = true) asc -> forall ext str, desc_sum asc ext str = 0.
Proof.
  induction 1 as [|x asc -> H IH]; intros [|e ext] [|s str]; simpl; auto.
Qed.

Lemma descending_offset_eq str ext so :
  length (so_ascending so) = length ext -> length str = length ext ->
  idx_min <= - desc_sum (so_ascending so) ext str <= idx_max ->
  descending_offset str ext so = Ok (- desc_sum (so_ascending so) ext str).
Proof.
  intros H1 H2 B. unfold descending_offset.
  destruct (all_dims_ascending so) eqn:E.
  - unfold all_dims_ascending in E. apply all_asc_fold in E. destruct E as [_ E].
    rewrite desc_sum_all_asc by auto. auto.
  - rewrite desc_loop_mod by (auto; unconst; lia). rewrite Z.sub_0_l, to_index_small; auto.
Qed.

Fixpoint wabs (x y : list Z) : Z :=
  match x, y with a :: x', b :: y' => Z.abs a * Z.abs b + wabs x' y' | _, _ => 0 end.
Lemma wabs_nonneg x y : 0 <= wabs x y.
Proof. revert y; induction x as [|a x IH]; intros [|b y]; simpl; try lia. specialize (IH y). nia. Qed.

Lemma abs_mul a b : Z.abs (a * b) = Z.abs a * Z.abs b.
Proof. apply Z.abs_mul. Qed.

Lemma idxoff_loop_ok str : forall bases off,
  length bases = length str ->
  Z.abs off + wabs bases str <= idx_max ->
  idxoff_loop str bases off = Ok (off - dot bases str).
Proof.
  induction str as [|s str IH]; intros [|b bases] off H B; simpl in *; try lia.
  - f_equal; lia.
  - pose proof (wabs_nonneg bases str). pose proof (abs_mul b s) as Hm.
    rewrite smul_ok by (rewrite Z.mul_comm; unconst; lia). simpl.
    rewrite (Z.mul_comm s b).
    rewrite ssub_ok by (unconst; lia). simpl.
    rewrite IH by lia. f_equal. lia.
Qed.

Lemma dot_bound a b : Z.abs (dot a b) <= wabs a b.
Proof.
  revert b; induction a as [|x a IH]; intros [|y b]; simpl; try lia.
  specialize (IH b). pose proof (abs_mul x y). lia.
Qed.

(** conversion of list recursions to sums over the ordering *)

Lemma length_spec_strides ord asc ext : length (spec_strides ord asc ext) = length ext.
Proof. unfold spec_strides. rewrite map_length, seq_length; auto. Qed.
Lemma nth_spec_strides ord asc ext d : (d < length ext)%nat ->
  nth d (spec_strides ord asc ext) 0 = sgn asc d * dim_step ord ext d.
Proof.
  intros H. unfold spec_strides.
  rewrite (nth_indep _ 0 ((fun d => sgn asc d * dim_step ord ext d) 0%nat)) by (rewrite map_length, seq_length; auto).
  rewrite (map_nth (fun d => sgn asc d * dim_step ord ext d)), seq_nth by auto. auto.
Qed.
Lemma sgn_abs asc d : Z.abs (sgn asc d) = 1.
Proof. unfold sgn. destruct (nth d asc true); auto. Qed.

Lemma sum_over_ord n ord (f : nat -> Z) : Permutation ord (seq 0 n) ->
  sum (map f (seq 0 n)) = sum (map f ord).
Proof. intros H. apply sum_perm. apply Permutation_map. symmetry; auto. Qed.

Lemma dot_spec_strides ord asc ext x : Permutation ord (seq 0 (length ext)) -> length x = length ext ->
  dot x (spec_strides ord asc ext) = horner ord ext (fun d => nth d x 0 * sgn asc d).
Proof.
  intros Hp Hl. rewrite dot_seq by (rewrite length_spec_strides; auto). rewrite Hl.
  rewrite (map_ext_in _ (fun d => nth d x 0 * sgn asc d * dim_step ord ext d)).
  - rewrite (sum_over_ord _ _ _ Hp). apply (sum_horner ord ext (fun d => nth d x 0 * sgn asc d)).
    eapply perm_NoDup; eauto.
  - intros d Hd. apply in_seq in Hd. rewrite nth_spec_strides by lia. ring.
Qed.

Lemma wabs_seq a b : length a = length b ->
  wabs a b = sum (map (fun d => Z.abs (nth d a 0) * Z.abs (nth d b 0)) (seq 0 (length a))).
Proof.
  revert b; induction a as [|x a IH]; intros [|y b] H; simpl in *; try lia; auto.
  rewrite sum_cons, <- seq_shift, map_map. rewrite IH by lia. reflexivity.
Qed.
Lemma weighted_seq a b : length a = length b ->
  weighted a b = sum (map (fun d => Z.abs (nth d a 0) * nth d b 0) (seq 0 (length a))).
Proof.
  revert b; induction a as [|x a IH]; intros [|y b] H; simpl in *; try lia; auto.
  rewrite sum_cons, <- seq_shift, map_map. rewrite IH by lia. reflexivity.
Qed.
Lemma length_dim_steps ord ext : length (dim_steps ord ext) = length ext.
Proof. unfold dim_steps. rewrite map_length, seq_length; auto. Qed.
Lemma nth_dim_steps ord ext d : (d < length ext)%nat -> nth d (dim_steps ord ext) 0 = dim_step ord ext d.
Proof.
  intros H. unfold dim_steps.
  rewrite (nth_indep _ 0 (dim_step ord ext 0%nat)) by (rewrite map_length, seq_length; auto).
  rewrite map_nth, seq_nth by auto. auto.
Qed.

Lemma wabs_spec_strides ord asc ext x : length x = length ext -> Forall (fun e => 0 <= e) ext ->
  wabs x (spec_strides ord asc ext) = weighted x (dim_steps ord ext).
Proof.
  intros Hl F. rewrite wabs_seq by (rewrite length_spec_strides; auto).
  rewrite weighted_seq by (rewrite length_dim_steps; auto). f_equal.
  apply map_ext_in. intros d Hd. apply in_seq in Hd.
  rewrite nth_spec_strides, nth_dim_steps by lia. rewrite Z.abs_mul, sgn_abs.
  rewrite (Z.abs_eq (dim_step ord ext d)) by (apply dim_step_nonneg; auto). ring.
Qed.

Lemma desc_sum_seq asc ext str : length asc = length ext -> length str = length ext ->
  desc_sum asc ext str =
  sum (map (fun d => (if nth d asc true then 0 else nth d ext 0 - 1) * nth d str 0) (seq 0 (length ext))).
Proof.
  revert ext str; induction asc as [|u asc IH]; intros [|e ext] [|s str] H1 H2; simpl in *; try lia; auto.
  rewrite sum_cons, <- seq_shift, map_map. rewrite IH by lia. simpl.
  destruct u; [rewrite Z.mul_0_l|]; reflexivity.
Qed.

Lemma desc_sum_horner ord asc ext : Permutation ord (seq 0 (length ext)) -> length asc = length ext ->
  - desc_sum asc ext (spec_strides ord asc ext) =
  horner ord ext (fun d => if nth d asc true then 0 else nth d ext 0 - 1).
Proof.
  intros Hp Ha. rewrite desc_sum_seq by (rewrite ?length_spec_strides; auto).
  rewrite (map_ext_in _ (fun d => - ((if nth d asc true then 0 else nth d ext 0 - 1) * dim_step ord ext d))).
  - rewrite (sum_over_ord _ _ _ Hp).
    rewrite <- (sum_horner ord ext (fun d => if nth d asc true then 0 else nth d ext 0 - 1)) by (eapply perm_NoDup; eauto).
    rewrite (sum_map_opp (fun d => (if nth d asc true then 0 else nth d ext 0 - 1) * dim_step ord ext d)). ring.
  - intros d Hd. apply in_seq in Hd. rewrite nth_spec_strides by lia. unfold sgn.
    destruct (nth d asc true); ring.
Qed.

Lemma horner_desc_bound ord asc ext : Forall (fun e => 0 <= e) ext ->
  - P1 ord ext <= horner ord ext (fun d => if nth d asc true then 0 else nth d ext 0 - 1) <= P1 ord ext - 1.
Proof.
  intros F. induction ord as [|x ord IH]; simpl; [unfold P1; simpl; unfold prod; simpl; lia|].
  rewrite P1_cons. pose proof (P1_pos ord ext). pose proof (nth_nonneg ext x F) as Hx.
  generalize dependent (horner ord ext (fun d => if nth d asc true then 0 else nth d ext 0 - 1)); intros h IH.
  destruct (Z.max_spec 1 (nth x ext 0)) as [[Hm ->]|[Hm ->]].
  - destruct (nth x asc true); nia.
  - assert (nth x ext 0 = 0 \/ nth x ext 0 = 1) as [E|E] by lia; rewrite E; destruct (nth x asc true); lia.
Qed.

Lemma reach_seq bases ext str : length bases = length ext -> length str = length ext ->
  reach bases ext str =
  wabs bases str + sum (map (fun d => Z.max 0 (nth d ext 0 - 1) * Z.abs (nth d str 0)) (seq 0 (length ext))).
Proof.
  revert bases str; induction ext as [|e ext IH]; intros [|b bases] [|s str] H1 H2; simpl in *; try lia.
  - reflexivity.
  - rewrite sum_cons, <- seq_shift, map_map, IH by lia. simpl. ring.
Qed.

Lemma reach_spec_strides ord asc bases ext : Permutation ord (seq 0 (length ext)) ->
  length asc = length ext -> length bases = length ext -> Forall (fun e => 0 <= e) ext ->
  reach bases ext (spec_strides ord asc ext) <=
  weighted bases (dim_steps ord ext) + prod (map (Z.max 1) ext) - 1.
Proof.
  intros Hp Ha Hb F. rewrite reach_seq by (rewrite ?length_spec_strides; auto).
  rewrite wabs_spec_strides by auto.
  rewrite (map_ext_in _ (fun d => Z.max 0 (nth d ext 0 - 1) * dim_step ord ext d)).
  - rewrite (sum_over_ord _ _ _ Hp).
    rewrite (sum_horner ord ext (fun d => Z.max 0 (nth d ext 0 - 1))) by (eapply perm_NoDup; eauto).
    rewrite <- (P1_perm ord) by auto.
    cut (horner ord ext (fun d => Z.max 0 (nth d ext 0 - 1)) <= P1 ord ext - 1); [lia|].
    clear - F. induction ord as [|x ord IH]; simpl; [unfold P1; simpl; unfold prod; simpl; lia|].
    rewrite P1_cons. pose proof (P1_pos ord ext). pose proof (nth_nonneg ext x F) as Hx.
    generalize dependent (horner ord ext (fun d => Z.max 0 (nth d ext 0 - 1))); intros h IH.
    destruct (Z.max_spec 1 (nth x ext 0)) as [[Hm ->]|[Hm ->]].
    + rewrite Z.max_r by lia. nia.
    + rewrite Z.max_l by lia. assert (nth x ext 0 = 0 \/ nth x ext 0 = 1) as [E|E] by lia; rewrite E; lia.
  - intros d Hd. apply in_seq in Hd. rewrite nth_spec_strides by lia.
    rewrite Z.abs_mul, sgn_abs. rewrite (Z.abs_eq (dim_step ord ext d)) by (apply dim_step_nonneg; auto). ring.
Qed.

(** * The origin offset *)

Lemma spec_origin_eq ord asc ext bases : length asc = length ext -> length bases = length ext ->
  spec_origin ord asc ext bases =
  - desc_sum asc ext (spec_strides ord asc ext) - dot bases (spec_strides ord asc ext).
Proof.
  intros Ha Hb. unfold spec_origin.
  rewrite desc_sum_seq by (rewrite ?length_spec_strides; auto).
  rewrite dot_seq by (rewrite length_spec_strides; auto). rewrite Hb.
  rewrite (map_ext_in _ (fun d => (if nth d asc true then 0 else nth d ext 0 - 1) * nth d (spec_strides ord asc ext) 0
                                  + nth d bases 0 * nth d (spec_strides ord asc ext) 0)).
  - rewrite sum_map_add. lia.
  - intros d Hd. apply in_seq in Hd. rewrite nth_spec_strides by lia. unfold shift_of. ring.
Qed.

Theorem origin_offset_ok ext so bases :
  valid_order (length ext) (so_ordering so) (so_ascending so) ->
  representable (so_ordering so) bases ext ->
  let str := spec_strides (so_ordering so) (so_ascending so) ext in
  descending_offset str ext so = Ok (- desc_sum (so_ascending so) ext str) /\
  origin_offset str ext so bases = Ok (spec_origin (so_ordering so) (so_ascending so) ext bases).
Proof.
  intros [Hp Ha] (Hb & Hn & F & F2 & B) str. rewrite max_index_eq in B.
  pose proof (horner_desc_bound (so_ordering so) (so_ascending so) ext F) as HD.
  rewrite <- desc_sum_horner in HD by auto. rewrite P1_perm in HD by auto. fold str in HD.
  pose proof (wabs_spec_strides (so_ordering so) (so_ascending so) ext bases Hb F) as HW. fold str in HW.
  pose proof (wabs_nonneg bases str) as HN.
  pose proof (prod_max1_pos ext) as HP.
  assert (L : length str = length ext) by apply length_spec_strides.
  assert (E : descending_offset str ext so = Ok (- desc_sum (so_ascending so) ext str)).
  { apply descending_offset_eq; auto. unconst; lia. }
  split; auto. unfold origin_offset. rewrite E. cbn [obind].
  unfold indexing_offset. rewrite idxoff_loop_ok; [|lia|simpl; lia]. cbn [obind].
  pose proof (dot_bound bases str) as HB.
  rewrite sadd_ok by (unconst; lia). f_equal.
  rewrite spec_origin_eq by auto. fold str. lia.
Qed.

(** * Storage positions *)

Lemma nth_digits asc bases ext idx d :
  length asc = length ext -> length bases = length ext -> length idx = length ext ->
  (d < length ext)%nat ->
  nth d (digits asc bases ext idx) 0 = digit (nth d asc true) (nth d bases 0) (nth d ext 0) (nth d idx 0).
Proof.
  revert bases ext idx d; induction asc as [|u asc IH]; intros [|b bases] [|e ext] [|i idx] d H1 H2 H3 H4;
    simpl in *; try lia.
  destruct d as [|d]; auto. apply IH; lia.
Qed.

Lemma horner_lin ord ext f g h :
  horner ord ext (fun d => f d - g d + h d) = horner ord ext f - horner ord ext g + horner ord ext h.
Proof. induction ord as [|x ord IH]; simpl; [reflexivity|]. rewrite IH. ring. Qed.

Theorem position_eq ord asc bases ext idx :
  valid_order (length ext) ord asc -> length bases = length ext -> length idx = length ext ->
  spec_origin ord asc ext bases + dot idx (spec_strides ord asc ext) = position ord asc bases ext idx.
Proof.
  intros [Hp Ha] Hb Hi. unfold position. rewrite <- horner_mixed.
  rewrite spec_origin_eq by auto.
  rewrite desc_sum_horner by auto. rewrite !dot_spec_strides by auto.
  assert (Hc : forall d, In d ord -> nth d (digits asc bases ext idx) 0 =
     (if nth d asc true then 0 else nth d ext 0 - 1) - nth d bases 0 * sgn asc d + nth d idx 0 * sgn asc d).
  { intros d Hd. apply (perm_In _ _ _ Hp) in Hd. rewrite nth_digits by auto.
    unfold digit, sgn. destruct (nth d asc true); ring. }
  rewrite (horner_ext _ _ _ _ Hc).
  rewrite (horner_lin ord ext (fun d => if nth d asc true then 0 else nth d ext 0 - 1)
             (fun d => nth d bases 0 * sgn asc d) (fun d => nth d idx 0 * sgn asc d)). ring.
Qed.

(** mixed-radix numbers are a bijection *)

Definition radices (ord : list nat) (ext : list Z) : Z := prod (map (fun d => nth d ext 0) ord).

Lemma radices_perm ord ext : Permutation ord (seq 0 (length ext)) -> radices ord ext = prod ext.
Proof.
  intros H. unfold radices. rewrite (prod_perm _ _ (Permutation_map _ H)), map_nth_seq. auto.
Qed.

Lemma horner_bound ord ext f : (forall d, In d ord -> 0 <= f d < nth d ext 0) ->
  0 <= horner ord ext f < radices ord ext.
Proof.
  unfold radices. induction ord as [|x ord IH]; intros H; cbn [map horner]; rewrite ?prod_cons; [unfold prod; simpl; lia|].
  pose proof (H x (or_introl eq_refl)) as Hx.
  specialize (IH (fun d Hd => H d (or_intror Hd))). nia.
Qed.

Lemma horner_inj ord ext f g :
  (forall d, In d ord -> 0 <= f d < nth d ext 0) -> (forall d, In d ord -> 0 <= g d < nth d ext 0) ->
  horner ord ext f = horner ord ext g -> forall d, In d ord -> f d = g d.
Proof.
  induction ord as [|x ord IH]; intros Hf Hg E d Hd; [easy|].
  simpl in E. pose proof (Hf x (or_introl eq_refl)) as Fx. pose proof (Hg x (or_introl eq_refl)) as Gx.
  destruct (Z.div_mod_unique (nth x ext 0) (horner ord ext f) (horner ord ext g) (f x) (g x)) as [E2 E1];
    [left; lia|left; lia|lia|].
  destruct Hd as [<-|Hd]; auto. apply IH; auto; intros; [apply Hf|apply Hg]; right; auto.
Qed.

Lemma horner_surj ord ext r : Forall (fun e => 0 <= e) ext -> NoDup ord -> 0 <= r < radices ord ext ->
  exists f, (forall d, In d ord -> 0 <= f d < nth d ext 0) /\ horner ord ext f = r.
Proof.
  intros F. unfold radices. revert r; induction ord as [|x ord IH]; intros r Hn H; cbn [map] in H; rewrite ?prod_cons in H.
  - exists (fun _ => 0). split; [easy|]. unfold prod in H; simpl in *; lia.
  - inversion Hn as [|x' l Hx Hn']; subst. pose proof (nth_nonneg ext x F) as Hex.
    assert (0 < nth x ext 0).
    { destruct (Z.eq_dec (nth x ext 0) 0) as [E|E]; [rewrite E in H; lia|lia]. }
    destruct (IH (r / nth x ext 0)) as (f & Hf & Ef); auto.
    { split; [apply Z.div_pos; lia|]. apply Z.div_lt_upper_bound; lia. }
    exists (fun d => if Nat.eqb d x then r mod nth x ext 0 else f d). split.
    + intros d Hd. destruct (Nat.eqb_spec d x) as [->|Hne].
      * apply Z.mod_pos_bound; auto.
      * apply Hf. destruct Hd as [->|]; congruence.
    + simpl. rewrite Nat.eqb_refl. rewrite (horner_ext _ _ _ f).
      * rewrite Ef. rewrite Z.add_comm. symmetry. apply Z.div_mod. lia.
      * intros d Hd. destruct (Nat.eqb_spec d x) as [->|]; auto. tauto.
Qed.

Lemma digit_range up b e i : 0 <= digit up b e i < e <-> b <= i < b + e.
Proof. unfold digit. destruct up; lia. Qed.

Lemma digits_in_range ord asc bases ext idx : valid_order (length ext) ord asc -> in_bounds bases ext idx ->
  forall d, In d ord -> 0 <= nth d (digits asc bases ext idx) 0 < nth d ext 0.
Proof.
  intros [Hp Ha] Hi d Hd. apply (perm_In _ _ _ Hp) in Hd.
  destruct (in_bounds_length _ _ _ Hi) as [Hb Hl].
  rewrite nth_digits by auto. apply digit_range.
  apply (proj1 (in_bounds_nth _ _ _ Hb Hl) Hi); auto.
Qed.

Theorem position_bound ord asc bases ext idx : valid_order (length ext) ord asc -> in_bounds bases ext idx ->
  0 <= position ord asc bases ext idx < prod ext.
Proof.
  intros Hv Hi. unfold position. rewrite <- horner_mixed.
  rewrite <- (radices_perm ord) by apply Hv. apply horner_bound.
  apply digits_in_range; auto.
Qed.

Lemma nth_eq_list (a b : list Z) : length a = length b -> (forall d, (d < length a)%nat -> nth d a 0 = nth d b 0) -> a = b.
Proof.
  revert b; induction a as [|x a IH]; intros [|y b] H E; simpl in *; try lia; auto. f_equal.
  - apply (E 0%nat); lia.
  - apply IH; [lia|]. intros d Hd. apply (E (S d)); lia.
Qed.

Theorem position_inj ord asc bases ext i j : valid_order (length ext) ord asc ->
  in_bounds bases ext i -> in_bounds bases ext j ->
  position ord asc bases ext i = position ord asc bases ext j -> i = j.
Proof.
  intros Hv Hi Hj E. destruct (in_bounds_length _ _ _ Hi) as [Hb Hli].
  destruct (in_bounds_length _ _ _ Hj) as [_ Hlj].
  unfold position in E. rewrite <- !horner_mixed in E.
  pose proof (horner_inj ord ext _ _ (digits_in_range _ _ _ _ _ Hv Hi) (digits_in_range _ _ _ _ _ Hv Hj) E) as H.
  destruct Hv as [Hp Ha].
  apply nth_eq_list; [lia|]. intros d Hd. rewrite Hli in Hd.
  specialize (H d (proj2 (perm_In _ _ _ Hp) Hd)). cbv beta in H. rewrite !nth_digits in H by auto.
  unfold digit in H. destruct (nth d asc true); lia.
Qed.

Lemma nth_map_seq (f : nat -> Z) n d : (d < n)%nat -> nth d (map f (seq 0 n)) 0 = f d.
Proof. intros H. apply nth_error_nth. apply nth_error_map_seq; auto. Qed.

Theorem position_surj ord asc bases ext r : valid_order (length ext) ord asc -> length bases = length ext ->
  Forall (fun e => 0 <= e) ext -> 0 <= r < prod ext ->
  exists i, in_bounds bases ext i /\ position ord asc bases ext i = r.
Proof.
  intros Hv Hb F Hr. pose proof Hv as [Hp Ha]. rewrite <- (radices_perm ord) in Hr by auto.
  destruct (horner_surj ord ext r F (perm_NoDup _ _ Hp) Hr) as (f & Hf & Ef).
  set (i := map (fun d => nth d bases 0 + (if nth d asc true then f d else nth d ext 0 - 1 - f d)) (seq 0 (length ext))).
  assert (Hli : length i = length ext) by (unfold i; rewrite map_length, seq_length; auto).
  assert (Hni : forall d, (d < length ext)%nat -> nth d i 0 =
      nth d bases 0 + (if nth d asc true then f d else nth d ext 0 - 1 - f d)).
  { intros d Hd. unfold i. apply nth_map_seq; auto. }
  exists i. split.
  - apply in_bounds_nth; auto. intros d Hd. rewrite Hni by auto.
    specialize (Hf d (proj2 (perm_In _ _ _ Hp) Hd)). destruct (nth d asc true); lia.
  - unfold position. rewrite <- horner_mixed, <- Ef. apply horner_ext.
    intros d Hd. apply (perm_In _ _ _ Hp) in Hd. rewrite nth_digits by auto. rewrite Hni by auto.
    unfold digit. destruct (nth d asc true); lia.
Qed.
