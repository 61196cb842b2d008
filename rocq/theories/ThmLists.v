(** ThmLists.v -- C47: the lists a caller passes: wrong lengths, unsigned values *)

From Coq Require Import ZArith List Bool Lia.
From Verif Require Import Base StorageOrder Ranges Layout Access Objects Memory Ops MultiArray
  Spec ViewSpec ReachSpec Facts LayoutProofs AccessProofs ViewProofs CopyProofs ReachProofs ThmAddressing.
Import ListNotations.
Local Open Scope Z_scope.

Lemma copy_n_longer {A} n (l extra : list A) : length l = n -> copy_n (l ++ extra) n = copy_n l n.
Proof. intros <-. rewrite !copy_n_firstn by (rewrite ?app_length; lia). rewrite firstn_app, Nat.sub_diag. simpl. rewrite app_nil_r. reflexivity. Qed.

Lemma ae_checks_longer chk extra : forall ext bases i, length i = length ext -> length bases = length ext ->
  ae_checks chk ext bases (i ++ extra) = ae_checks chk ext bases i.
Proof.
  induction ext as [|e ext IH]; intros [|b bases] [|k i] L1 L2; simpl in *; try lia; auto. rewrite IH by lia. reflexivity.
Qed.
Lemma ae_offset_longer extra : forall str i o, length i = length str -> ae_offset str (i ++ extra) o = ae_offset str i o.
Proof.
  induction str as [|s str IH]; intros [|k i] o L; simpl in *; try lia; auto.
  destruct (smul k s); simpl; auto. destruct (sadd o a); simpl; auto.
Qed.
Lemma signed_cases z : signed z = Ok z \/ signed z = UB.
Proof. unfold signed. destruct (in_index z); auto. Qed.
Lemma ae_offset_short : forall str i o, (length i < length str)%nat -> ae_offset str i o = UB.
Proof.
  induction str as [|s str IH]; intros [|k i] o L; simpl in *; try lia; auto.
  unfold smul. destruct (signed_cases (k * s)) as [-> | ->]; simpl; auto.
  unfold sadd. destruct (signed_cases (o + k * s)) as [-> | ->]; simpl; auto. apply IH. lia.
Qed.

(** a list longer than the number of dimensions: the entries beyond it are never
    looked at *)
Theorem c47_longer_lists : forall (T : Type) (dflt : T) chk c,
  array_object c ->
  (forall a i extra, derived c a -> length i = length (nd_ext a) ->
     access_element chk a (i ++ extra) = access_element chk a i) /\
  (forall b extra, length b = length (cr_ext c) -> cr_reindex c (b ++ extra) = cr_reindex c b) /\
  (forall v b extra, derived_view c v -> length b = length (v_ext v) -> v_reindex v (b ++ extra) = v_reindex v b) /\
  (forall n base shape extra so, length shape = n ->
     cref_from_list chk n base (shape ++ extra) so = cref_from_list chk n base shape so) /\
  (forall n shape extra so aid w, length shape = n ->
     ma_from_list dflt chk n (shape ++ extra) so aid w = ma_from_list dflt chk n shape so aid w) /\
  (forall m shape extra w, ma_ref m = c -> length shape = length (cr_ext c) ->
     ma_resize_list dflt chk m (shape ++ extra) w = ma_resize_list dflt chk m shape w) /\
  (forall n o a extra extra', length o = n -> length a = n ->
     general_storage_order n (o ++ extra) (a ++ extra') = general_storage_order n o a).
Proof.
  intros T dflt chk c Hc.
  assert (CL : forall n base shape extra so, length shape = n ->
     cref_from_list chk n base (shape ++ extra) so = cref_from_list chk n base shape so).
  { intros n base shape extra so L. unfold cref_from_list, init_multi_array_ref. rewrite copy_n_longer by auto. reflexivity. }
  split; [|split; [|split; [|split; [|split; [|split]]]]].
  - intros a i extra Ha L. pose proof (derived_ok c a Hc Ha) as (L1 & L2 & _). unfold access_element.
    rewrite ae_checks_longer, ae_offset_longer by congruence. reflexivity.
  - intros b extra L. unfold cr_reindex. rewrite copy_n_longer by auto. reflexivity.
  - intros v b extra _ L. unfold v_reindex. rewrite copy_n_longer by auto. reflexivity.
  - exact CL.
  - intros n shape extra so aid w L. unfold ma_from_list. rewrite CL by auto. reflexivity.
  - intros m shape extra w <- L. unfold ma_resize_list. rewrite copy_n_longer by auto. reflexivity.
  - intros n o a extra extra' L1 L2. unfold general_storage_order. rewrite !copy_n_longer by auto. reflexivity.
Qed.

(** a shorter list is read past its end: undefined behaviour (an index list may
    run into an assertion first, and is never accepted) *)
Theorem c47_shorter_lists : forall (T : Type) (dflt : T) chk c,
  array_object c ->
  (forall a i, derived c a -> (length i < length (nd_ext a))%nat ->
     access_element false a i = UB /\ (access_element true a i = UB \/ access_element true a i = Abort)) /\
  (forall b, (length b < length (cr_ext c))%nat -> cr_reindex c b = UB) /\
  (forall v b, derived_view c v -> (length b < length (v_ext v))%nat -> v_reindex v b = UB) /\
  (forall n base shape so, (length shape < n)%nat -> cref_from_list chk n base shape so = UB) /\
  (forall n shape so aid w, (length shape < n)%nat -> ma_from_list dflt chk n shape so aid w = Undef) /\
  (forall m shape w, ma_ref m = c -> (length shape < length (cr_ext c))%nat -> ma_resize_list dflt chk m shape w = Undef) /\
  (forall n o a, (length o < n)%nat \/ (length a < n)%nat -> general_storage_order n o a = UB).
Proof.
  intros T dflt chk c Hc.
  assert (CL : forall n base shape so, (length shape < n)%nat -> cref_from_list chk n base shape so = UB).
  { intros n base shape so L. unfold cref_from_list, init_multi_array_ref. rewrite copy_n_short by auto. reflexivity. }
  split; [|split; [|split; [|split; [|split; [|split]]]]].
  - intros a i Ha L. pose proof (derived_ok c a Hc Ha) as (L1 & L2 & _). split.
    + unfold access_element. cbn [obind]. rewrite ae_offset_short by congruence. reflexivity.
    + destruct (access_element true a i) as [p| |] eqn:E; auto. exfalso.
      unfold access_element in E. destruct (ae_checks true (nd_ext a) (nd_base a) i); cbn [obind] in E; try discriminate.
      rewrite ae_offset_short in E by congruence. discriminate.
  - intros b L. unfold cr_reindex. rewrite copy_n_short by auto. reflexivity.
  - intros v b _ L. unfold v_reindex. rewrite copy_n_short by auto. reflexivity.
  - exact CL.
  - intros n shape so aid w L. unfold ma_from_list. rewrite CL by auto. reflexivity.
  - intros m shape w <- L. unfold ma_resize_list. rewrite copy_n_short by auto. reflexivity.
  - intros n o a L. unfold general_storage_order. destruct (Nat.lt_ge_cases (length o) n) as [H|H]; [rewrite copy_n_short by auto; reflexivity|].
    rewrite copy_n_firstn by auto. cbn [obind]. rewrite copy_n_short; [reflexivity|]. destruct L; [lia|auto].
Qed.

Lemma check_u chk b e i : 0 <= e <= max_index -> - max_index - 1 <= b -> b + e <= max_index -> index_value i ->
  assertM chk (Ok (0 <=? to_size (to_size i - to_size b))) = Ok tt /\
  (to_size (to_size i - to_size b) <? e) = (b <=? i) && (i <? b + e).
Proof.
  intros H1 H2 H3 H4. assert (E : to_size (to_size i - to_size b) = to_size (i - b)) by (unfold to_size; rewrite <- Zminus_mod; reflexivity).
  rewrite E. clear E. pose proof (Z.mod_pos_bound (i - b) two64 eq_refl) as MB. fold (to_size (i - b)) in MB. split.
  - destruct chk; auto. cbn. destruct (Z.leb_spec 0 (to_size (i - b))); auto. lia.
  - unfold index_value in H4. unfold to_size in *.
    destruct (Z_lt_le_dec (i - b) 0) as [N|N].
    + assert (E : (i - b) mod two64 = i - b + two64).
      { symmetry. apply Zmod_unique with (-1); unfold two64 in *; unconst; lia. }
      rewrite E. transitivity false.
      * apply Z.ltb_ge. unfold two64. unconst. lia.
      * symmetry. apply andb_false_iff. left. apply Z.leb_gt. lia.
    + rewrite Z.mod_small by (unfold two64; unconst; lia).
      destruct (Z.ltb_spec (i - b) e), (Z.leb_spec b i), (Z.ltb_spec i (b + e)); simpl; auto; lia.
Qed.

Lemma to_index_small z : index_value z -> to_index z = z.
Proof. unfold index_value, to_index. intros H. rewrite Z.mod_small; unfold two64, two63 in *; unconst; lia. Qed.
Lemma to_index_mod a b : a mod two64 = b mod two64 -> to_index a = to_index b.
Proof. unfold to_index. intros H. rewrite Zplus_mod, H, <- Zplus_mod. reflexivity. Qed.
Lemma step_u o i s : to_index (to_size (to_size o + to_size (to_size i * to_size s))) = to_index (o + i * s).
Proof.
  apply to_index_mod. unfold to_size. rewrite !Zmod_mod. rewrite <- Zmult_mod, <- Zplus_mod. reflexivity.
Qed.
Lemma offset_u : forall str i o, length i = length str ->
  exists z, ae_offset_u str (map to_size i) o = Ok z /\ (str = [] /\ z = o \/ z = to_index (o + dot i str)).
Proof.
  induction str as [|s str IH]; intros [|k i] o L; simpl in *; try lia.
  - exists o. split; auto.
  - rewrite step_u. destruct (IH i (to_index (o + k * s))) as (z & E & [[-> ->]|D]); [lia| |].
    + exists (to_index (o + k * s)). split; auto. right. destruct i; simpl in *; [|lia]. f_equal. lia.
    + exists z. split; auto. right. rewrite D. apply to_index_mod. unfold to_index.
      rewrite Zplus_mod. rewrite Zminus_mod, Zmod_mod, <- Zminus_mod. rewrite <- Zplus_mod. f_equal. lia.
Qed.

Lemma dot_bound : forall str bases ext i, in_bounds bases ext i -> length str = length ext -> Z.abs (dot i str) <= reach bases ext str.
Proof.
  induction str as [|s str IH]; intros [|b bases] [|e ext] [|k i] H L; simpl in *; try tauto; try lia.
  destruct H as [Hk H]. pose proof (mul_bound b e s k Hk). specialize (IH bases ext i H ltac:(lia)). lia.
Qed.

(** index lists of unsigned values: index i passed as size_t(i) addresses the same
    element (also a negative i), and the checks reject exactly the indices outside *)
Theorem c47_unsigned_index_list : forall c a i, array_object c -> derived c a ->
  length i = length (nd_ext a) -> Forall index_value i ->
  (in_bounds (nd_base a) (nd_ext a) i ->
     forall chk, access_element_u chk a (map to_size i) = access_element chk a i) /\
  (~ in_bounds (nd_base a) (nd_ext a) i -> access_element_u true a (map to_size i) = Abort).
Proof.
  intros c a i Hc Ha L HV. pose proof (derived_ok c a Hc Ha) as Hok. pose proof Hok as (L1 & L2 & L3 & HE & HB & _).
  assert (CK : forall ext bases i, length i = length ext -> Forall index_value i -> Forall (fun e => 0 <= e <= max_index) ext ->
     Forall2 (fun b e => - max_index - 1 <= b /\ b + e <= max_index) bases ext ->
     (in_bounds bases ext i -> ae_checks_u true ext bases (map to_size i) = Ok tt) /\
     (~ in_bounds bases ext i -> ae_checks_u true ext bases (map to_size i) = Abort)).
  { clear. induction ext as [|e ext IH]; intros bases i L HV HE HB; inversion HB; subst.
    - destruct i; simpl in L; [|lia]. simpl. split; auto. intros H. destruct H; auto.
    - destruct i as [|k i]; simpl in L; [lia|]. inversion HV; subst. inversion HE; subst.
      destruct (check_u true x e k) as [C1 C2]; try tauto.
      cbn [map ae_checks_u]. rewrite C1, C2. cbn [obind assertM].
      destruct (IH l i ltac:(lia) ltac:(assumption) ltac:(assumption) ltac:(assumption)) as [I1 I2].
      cbn [in_bounds]. destruct ((x <=? k) && (k <? x + e)) eqn:E; cbn [assertM obind].
      + apply andb_prop in E. split; [intros [_ H]; apply I1; auto|]. intros H. apply I2. intros H'. apply H. split; auto. lia.
      + split; auto. intros [H _]. apply andb_false_iff in E. lia. }
  destruct (CK (nd_ext a) (nd_base a) i L HV HE HB) as [CI CO].
  destruct (offset_u (nd_str a) i 0 ltac:(congruence)) as (z & Ez & Dz). split.
  - intros Hi chk. rewrite access_element_ok by auto. unfold access_element_u. rewrite Ez.
    assert (Z : z = dot i (nd_str a)).
    { destruct Dz as [[E _]|D]; [rewrite E in L2; simpl in L2; lia|]. rewrite D, Z.add_0_l. apply to_index_small.
      pose proof (dot_bound (nd_str a) (nd_base a) (nd_ext a) i Hi ltac:(congruence)). destruct Hok as (_ & _ & _ & _ & _ & _ & HR).
      unfold index_value. unconst. lia. }
    rewrite Z. destruct chk; [rewrite (CI Hi)|]; reflexivity.
  - intros Hi. unfold access_element_u. rewrite (CO Hi). reflexivity.
Qed.

(** lists with one entry too many, one too few, and with the negative index -1 as
    the unsigned value 2^64 - 1 *)
Example ex_c47 :
  access_element true (cr_nd ex_arr) [2; -1; 7] = Ok (Ptr 7 3) /\ access_element true (cr_nd ex_arr) [2] = UB /\ access_element true (cr_nd ex_arr) [5] = Abort /\ access_element_u true (cr_nd ex_arr) [2; 18446744073709551615] = Ok (Ptr 7 3) /\ map to_size [2; -1] = [2; 18446744073709551615] /\ access_element_u true (cr_nd ex_arr) [2; 1] = Abort /\ in_bounds (nd_base (cr_nd ex_arr)) (nd_ext (cr_nd ex_arr)) [2; -1].
Proof. repeat (split; [vm_compute; reflexivity|]). simpl. lia. Qed.
