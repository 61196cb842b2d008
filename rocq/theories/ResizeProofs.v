(** ResizeProofs.v -- the corner views used by resize, and the four ways resize
    can end. *)

From Coq Require Import ZArith List Bool Lia.
From Verif Require Import Base StorageOrder Ranges Layout Access Objects Memory Ops MultiArray
  Spec ViewSpec ReachSpec IterSpec MemSpec OwnSpec
  Facts LayoutProofs AccessProofs ViewProofs MemoryProofs CopyProofs ReachProofs ThmAddressing ThmViews ThmGeometry ThmCopy OwnProofs.
Import ListNotations.
Local Open Scope Z_scope.

(** * the view of the first [mins] positions of every dimension *)

Lemma corner_view chk a mins : nd_ok a -> Forall2 (fun m e => 0 <= m <= e) mins (nd_ext a) ->
  exists rs v, populate_all (nd_base a) mins = Ok rs /\
    make_view chk a (IGen (length (nd_ext a)) (length (nd_ext a)) rs) = Ok v /\
    nd_ok (v_nd v) /\ v_ext v = mins /\ v_ib v = repeat 0 (length (nd_ext a)) /\
    forall k, length k = length (nd_ext a) -> addr (v_nd v) k = addr a (tadd (nd_base a) k).
Proof.
  intros Hok HM. pose proof Hok as (A1 & A2 & A3 & A4 & A5 & A6 & A7).
  set (n := length (nd_ext a)).
  set (rng := fun b m => ir_make b (b + m) 1).
  assert (VL : forall b e, 0 <= e -> vlen b (b + e) 1 = e).
  { intros b e He. unfold vlen. rewrite Z.quot_1_r. destruct (Z.ltb_spec (b + e - b) 0); [lia|].
    cbn [Z.ltb Z.compare]. rewrite Z.quot_1_r. change (1 - 1) with 0. lia. }
  assert (FIT : exists rs, populate_all (nd_base a) mins = Ok rs /\
                ranges_fit (nd_base a) (nd_ext a) (nd_str a) rs /\
                corner (nd_base a) rs (nd_str a) <= reach (nd_base a) (nd_ext a) (nd_str a) /\
                gav_lens (nd_base a) (nd_ext a) rs = mins /\
                gav_strides rs (nd_str a) = nd_str a /\
                ranges_inside (nd_base a) (nd_ext a) rs /\
                (forall k, length k = length (nd_ext a) -> source_index (nd_base a) rs k = tadd (nd_base a) k)).
  { clear Hok n A3 A7. revert mins HM A1 A2 A4 A5 A6. generalize (nd_base a) (nd_ext a) (nd_str a).
    induction l as [|b bs IH]; intros [|e es] [|s ss] mins HM A1 A2 A4 A5 A6; simpl in A1, A2; try lia.
    - inversion HM; subst. exists []. simpl. split; [auto|]. split; [auto|]. split; [lia|]. split; [auto|]. split; [auto|]. split; [auto|].
      intros [|x k]; simpl; auto.
    - inversion HM as [|m ? ms ? Hm HM']; subst. inversion A4; inversion A5; inversion A6; subst.
      destruct (IH es ss ms) as (rs & F0 & F1 & F2 & F3 & F4 & F5 & F6); auto.
      exists (rng b m :: rs).
      assert (RS : range_start (rng b m) b = b).
      { unfold range_start, rng. cbn [ir_make ir_start]. destruct (Z.eqb_spec b (- max_index - 1)); auto. }
      assert (RF : range_finish (rng b m) b e = b + m).
      { unfold range_finish, rng. cbn [ir_make ir_finish]. destruct (Z.eqb_spec (b + m) max_index); lia. }
      split.
      { cbn [populate_all]. rewrite F0. cbn [obind]. do 2 f_equal. unfold populate_index_ranges, rng. f_equal.
        unfold index_value in *. transitivity (to_index (b + m)); [|apply to_index_small; unconst; lia].
        unfold to_index, to_size. rewrite <- !Z.add_assoc, Zplus_mod_idemp_l. auto. }
      cbn [ranges_fit corner gav_lens gav_strides ranges_inside source_index reach].
      unfold range_fits, accepted. rewrite RS, RF.
      change (ir_stride (rng b m)) with 1. change (ir_degenerate (rng b m)) with false.
      change (1 <? 0) with false. cbv iota.
      split; [split; [|exact F1]|].
      { change (0 <? 1) with true. unfold index_value in *. split; [lia|]. split; [lia|]. split; [lia|]. split; [unconst; lia|].
        split; [unconst; lia|]. split; [lia|]. intros _. rewrite Z.mul_1_l. unconst; lia. }
      split; [nia|]. split; [rewrite F3, VL by lia; auto|]. split; [rewrite F4; f_equal; lia|].
      split; [split; [|exact F5]|].
      + apply selected_split; [|discriminate|reflexivity].
        rewrite RS, RF. change (ir_stride (rng b m)) with 1.
        rewrite VL by lia. intros; lia.
      + intros [|x k] Lk; simpl in Lk; [lia|]. cbn [tadd]. f_equal; [lia|]. apply F6. lia. }
  destruct FIT as (rs & F0 & F1 & F2 & F3 & F4 & F5 & F6).
  exists rs, (view_of a rs). split; [auto|]. split.
  { apply make_view_ok; cbn [ig_num ig_dims ig_ranges]; auto.
    - lia.
    - rewrite F4. auto. }
  assert (Lm : length mins = n) by (apply Forall2_length in HM; auto).
  assert (HD : dims_facts chk (nd_base a) (nd_ext a) (nd_str a) rs).
  { apply ranges_fit_facts; auto; [split; auto|lia]. }
  assert (LR : length rs = length (nd_ext a)) by (eapply ranges_fit_length; eauto).
  split; [|split; [|split]].
  - apply (view_nd_ok chk); auto.
    + rewrite F3, F4, A2. auto.
    + rewrite F3, Lm. auto.
  - cbn [view_of v_ext]. auto.
  - cbn [view_of v_ib]. rewrite F3, Lm. auto.
  - intros k Lk. rewrite (view_addr chk); auto; [rewrite F6 by auto; auto|]. rewrite F3, Lk. auto.
Qed.

Lemma min_extents_ok : forall l1 l2, length l1 = length l2 ->
  Forall (fun e => 0 <= e) l1 -> Forall (fun e => 0 <= e) l2 ->
  exists ms, min_extents l1 l2 = Ok ms /\ Forall2 (fun m e => 0 <= m <= e) ms l1 /\ Forall2 (fun m e => 0 <= m <= e) ms l2 /\
    forall k, in_bounds (repeat 0 (length ms)) ms k <->
      in_bounds (repeat 0 (length l1)) l1 k /\ in_bounds (repeat 0 (length l2)) l2 k.
Proof.
  induction l1 as [|x l1 IH]; intros [|y l2] L F1 F2; simpl in L; try lia.
  - exists []. split; [auto|]. split; [auto|]. split; [auto|]. intros k. simpl. destruct k; tauto.
  - inversion F1; inversion F2; subst. destruct (IH l2) as (ms & E & G1 & G2 & G3); auto.
    cbn [min_extents]. rewrite E. cbn [obind]. eexists. split; [reflexivity|].
    set (m := if y <? x then y else x).
    assert (Hm : 0 <= m /\ m <= x /\ m <= y /\ (m = x \/ m = y)) by (unfold m; destruct (Z.ltb_spec y x); lia).
    split; [constructor; [lia|auto]|]. split; [constructor; [lia|auto]|].
    intros [|k ks]; cbn [length repeat in_bounds]; [tauto|]. rewrite (G3 ks). split; intros H.
    + destruct H as (H & H' & H''). split; split; auto; lia.
    + destruct H as [[H H'] [H'' H''']]. split; auto. lia.
Qed.

(** * resize *)

Lemma bind_ext_res {T A B} (m m' : M T A) (f f' : A -> M T B) w :
  m w = m' w -> (forall a w', m' w = Done a w' -> f a w' = f' a w') -> bind m f w = bind m' f' w.
Proof. intros E H. unfold bind. rewrite E. destruct (m' w); auto. Qed.

Section Resize.
Context {T : Type}.
Variable dflt : T.

(** old and new addresses of the common positions *)
Definition resize_pairs (old new : cref) (mins : list Z) : list (ptr * ptr) :=
  map (fun k => (addr (cr_nd new) (tadd (cr_ib new) k), addr (cr_nd old) (tadd (cr_ib old) k))) (positions mins).

Lemma cr_set_base_eta c p : cr_base c = p -> cr_set_base c p = c.
Proof. intros <-. destruct c; reflexivity. Qed.

Lemma length_positions ms k : In k (positions ms) -> length k = length ms.
Proof. intros H. apply in_positions in H. apply in_bounds_length in H. tauto. Qed.

Lemma resize_eq_all chk a g c :
  cref_ok (ma_ref a) -> eg_num g = length (cr_ext (ma_ref a)) ->
  cref_from_gen chk null_ptr g (cr_storage (ma_ref a)) = Ok c -> cref_ok c ->
  length (cr_ext c) = length (cr_ext (ma_ref a)) ->
  exists mins, min_extents (cr_ext c) (cr_ext (ma_ref a)) = Ok mins /\
    Forall2 (fun m e => 0 <= m <= e) mins (cr_ext c) /\
    Forall2 (fun m e => 0 <= m <= e) mins (cr_ext (ma_ref a)) /\
    (forall k, in_bounds (repeat 0 (length mins)) mins k <->
      in_bounds (repeat 0 (length (cr_ext c))) (cr_ext c) k /\
      in_bounds (repeat 0 (length (cr_ext (ma_ref a)))) (cr_ext (ma_ref a)) k) /\
  forall (h : heap T) f,
  ma_resize dflt chk a g (World h f) =
  (new <~ allocate_space dflt c (ma_aid a) ;;
   _ <~ on_throw (copy_cells (resize_pairs (ma_ref a) (ma_ref new) mins)) (ma_destroy new) ;;
   _ <~ ma_destroy a ;; ret new) (World h f).
Proof.
  intros Ha Hg Ec Hc Hlen.
  destruct (min_extents_ok (cr_ext c) (cr_ext (ma_ref a))) as (mins & Em & M1 & M2 & M3); auto.
  { destruct Hc as (_ & Hr & _). eapply rep_nonneg; apply Hr. }
  { destruct Ha as (_ & Hr & _). eapply rep_nonneg; apply Hr. }
  exists mins. split; [auto|]. split; [auto|]. split; [auto|]. split; [auto|]. intros h f.
  unfold ma_resize. rewrite Hg, Nat.eqb_refl. unfold ma_from_gen. rewrite Ec.
  assert (NN : forall w, match allocate_space dflt c (ma_aid a) w with Done n _ => exists p, n = MA (cr_set_base c p) p (cr_num c) (ma_aid a) | _ => True end).
  { intros w. unfold allocate_space, bind. destruct (allocate _ _ w) as [p w1| | | |]; auto.
    destruct (alloc_construct_n _ _ _ w1); auto. exists p. reflexivity. }
  specialize (NN (World h f)).
  apply bind_ext_res; [reflexivity|]. intros new w1 E1. rewrite E1 in NN. destruct NN as [p ->].
  cbn [ma_ref]. set (nc := cr_set_base c p).
  assert (Hnc : cref_ok nc) by (apply set_base_ok; auto).
  destruct (corner_view chk (cr_nd nc) mins (cref_addressable _ Hnc) M1) as (rs1 & v1 & P1 & V1 & K1 & X1 & B1 & Ad1).
  destruct (corner_view chk (cr_nd (ma_ref a)) mins (cref_addressable _ Ha) M2) as (rs2 & v2 & P2 & V2 & K2 & X2 & B2 & Ad2).
  cbn [cr_nd nd_base nd_ext] in *. change (cr_ext nc) with (cr_ext c) in *. rewrite Hlen in V1, Ad1, B1.
  apply bind_ext_res.
  - unfold on_throw. rewrite Em. rewrite (bind_lift_ok mins) by auto. change (cr_ib nc) with (cr_ib c) in *.
    rewrite (bind_lift_ok rs1) by auto. rewrite (bind_lift_ok rs2) by auto.
    change (cr_ext (ma_ref a)) with (cr_ext (ma_ref a)) in V2.
    rewrite (bind_lift_ok v2) by exact V2. rewrite (bind_lift_ok v1) by exact V1.
    rewrite assign_nd_eq; auto.
    2:{ cbn [v_nd nd_ext]. congruence. }
    2:{ cbn [v_nd nd_ext]. rewrite X2. apply Forall2_length in M2. auto. }
    replace (combine (addrs (v_nd v1)) (addrs (v_nd v2))) with (resize_pairs (ma_ref a) nc mins); auto.
    rewrite copy_pairs; auto; [|cbn [v_nd nd_ext]; congruence].
    cbn [v_nd nd_ext nd_base]. rewrite X1, B1, B2. unfold resize_pairs.
    apply map_ext_in. intros k Hk. pose proof (length_positions _ _ Hk) as Lk.
    pose proof (Forall2_length _ _ _ M2) as LM.
    assert (Z0 : forall n k, length k = n -> tadd (repeat 0 n) k = k).
    { induction n as [|n IH]; intros [|x l] Hl; simpl in *; try lia; auto. f_equal. apply IH. lia. }
    rewrite !Z0 by congruence.
    rewrite Ad1, Ad2 by congruence. auto.
  - intros [] w2 E2. reflexivity.
Qed.

Lemma resize_eq chk a g c (h : heap T) f :
  cref_ok (ma_ref a) -> eg_num g = length (cr_ext (ma_ref a)) ->
  cref_from_gen chk null_ptr g (cr_storage (ma_ref a)) = Ok c -> cref_ok c ->
  length (cr_ext c) = length (cr_ext (ma_ref a)) ->
  exists mins, Forall2 (fun m e => 0 <= m <= e) mins (cr_ext c) /\
    Forall2 (fun m e => 0 <= m <= e) mins (cr_ext (ma_ref a)) /\
    (forall k, in_bounds (repeat 0 (length mins)) mins k <->
      in_bounds (repeat 0 (length (cr_ext c))) (cr_ext c) k /\
      in_bounds (repeat 0 (length (cr_ext (ma_ref a)))) (cr_ext (ma_ref a)) k) /\
  ma_resize dflt chk a g (World h f) =
  (new <~ allocate_space dflt c (ma_aid a) ;;
   _ <~ on_throw (copy_cells (resize_pairs (ma_ref a) (ma_ref new) mins)) (ma_destroy new) ;;
   _ <~ ma_destroy a ;; ret new) (World h f).
Proof.
  intros Ha Hg Ec Hc Hlen. destruct (resize_eq_all chk a g c Ha Hg Ec Hc Hlen) as (mins & _ & H1 & H2 & H3 & H4).
  exists mins. auto.
Qed.
End Resize.
