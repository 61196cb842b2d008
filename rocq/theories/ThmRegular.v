(** ThmRegular.v -- C54: the postcondition *this == x of copying *)

From Coq Require Import ZArith List Bool Permutation Sorted Lia.
From Verif Require Import Base StorageOrder Ranges Layout Access Objects Memory Ops MultiArray
  Spec ViewSpec ReachSpec IterSpec MemSpec CompareSpec OwnSpec OverlapSpec
  Facts LayoutProofs AccessProofs ViewProofs MemoryProofs CopyProofs ReachProofs ThmAddressing ThmViews ThmGeometry ThmIter ThmCopy ThmBulk
  CompareProofs ThmCompare OwnProofs ThmMultiArray ThmOverlap.
Import ListNotations.
Local Open Scope Z_scope.

Section Final.
Context {T : Type}.

(** no source is written later: destination and source end up with the same value *)
Lemma copy_sem_equal l : forall (m : @mem T), NoDup (map fst l) ->
  (forall l1 d s l2, l = l1 ++ (d, s) :: l2 -> ~ In s (map fst l2)) ->
  forall d s, In (d, s) l -> copy_sem l m d = copy_sem l m s.
Proof.
  intros m Hn Hw d s Hi. apply in_split in Hi. destruct Hi as (l1 & l2 & ->).
  specialize (Hw l1 d s l2 eq_refl). rewrite map_app in Hn. cbn [map fst] in Hn. apply NoDup_app_inv in Hn.
  destruct Hn as (_ & Hn & _). inversion Hn as [|? ? Hd Hn']; subst.
  unfold copy_sem. rewrite fold_left_app. fold (copy_sem l1 m). cbn [fold_left fst snd].
  change (copy_sem l2 (upd (copy_sem l1 m) d (copy_sem l1 m s)) d = copy_sem l2 (upd (copy_sem l1 m) d (copy_sem l1 m s)) s).
  rewrite (copy_sem_other l2 _ d) by auto. rewrite (copy_sem_other l2 _ s) by auto. unfold upd. rewrite ptr_eqb_refl. destruct (ptr_eqb d s); reflexivity.
Qed.

End Final.

Section Main.
Context {T : Type}.
Variables (c1 c2 : cref) (dst src : nd).
Hypothesis H1 : array_object c1.
Hypothesis Hd : derived c1 dst.
Hypothesis H2 : array_object c2.
Hypothesis Hs : derived c2 src.
Hypothesis He : nd_ext dst = nd_ext src.

Let Hok1 : nd_ok dst := derived_ok c1 dst H1 Hd.
Let Hok2 : nd_ok src := derived_ok c2 src H2 Hs.

Lemma written_last : read_first src dst ->
  forall l1 d s l2, pairs dst src = l1 ++ (d, s) :: l2 -> ~ In s (map fst l2).
Proof.
  intros Hr l1 d s l2 E Hin. apply map_eq_app in E. destruct E as (p1 & p2 & Ep & <- & E2).
  apply map_eq_cons in E2. destruct E2 as (i & p3 & -> & Ei & <-). injection Ei as <- <-.
  rewrite map_map in Hin. apply in_map_iff in Hin. destruct Hin as (j & Ej & Hj). cbn [fst pair_at] in Ej.
  destruct (sorted_split _ _ (positions_sorted (nd_ext dst)) _ _ _ Ep) as [HF _]. rewrite Forall_forall in HF.
  assert (Pi : position_in (nd_ext dst) i) by (apply position_in_positions; rewrite Ep; apply in_or_app; right; left; auto).
  assert (Pj : position_in (nd_ext dst) j) by (apply position_in_positions; rewrite Ep; apply in_or_app; right; right; auto).
  apply (Hr i j (addr src (tadd (nd_base src) i))); rewrite <- ?He; auto.
  - apply cell_at_ok; rewrite <- ?He; auto.
  - rewrite cell_at_ok by auto. f_equal. auto.
Qed.

Lemma compare_cells (eqT : T -> T -> bool) chk (h : heap T) : live h c1 -> live h c2 ->
  (forall k, position_in (nd_ext dst) k -> exists u v, hcell h (addr dst (tadd (nd_base dst) k)) = Some (Some u) /\
     hcell h (addr src (tadd (nd_base src) k)) = Some (Some v) /\ eqT u v = true) <->
  nd_eq eqT chk h (length (nd_ext dst)) dst src = Ok true.
Proof.
  intros L1 L2. destruct (c15_equality_is_positional T eqT h chk c1 c2 dst src H1 Hd H2 Hs L1 L2) as (r & E & _ & R); [congruence|].
  rewrite E. split.
  - intros H. f_equal. apply R. split; auto. intros k Hk. destruct (H k Hk) as (u & v & Hu & Hv & Huv). exists u, v.
    pose proof (in_dst c1 dst H1 Hd k Hk) as I1. pose proof (in_src c2 dst src H2 Hs He k Hk) as I2.
    rewrite !reads_iff by auto. auto.
  - intros Er. injection Er as ->. destruct (proj1 R eq_refl) as [_ V]. intros k Hk. destruct (V k Hk) as (u & v & Hu & Hv & Huv).
    pose proof (in_dst c1 dst H1 Hd k Hk) as I1. pose proof (in_src c2 dst src H2 Hs He k Hk) as I2.
    rewrite reads_iff in Hu, Hv by auto. exists u, v. auto.
Qed.

(** the heap after the copies is live again *)
Lemma copied_live (h h' : heap T) c : live h c1 -> live h c2 -> (forall q, hcell h' q = copy_sem (pairs dst src) (hcell h) q) ->
  live h c -> live h' c.
Proof.
  intros L1 L2 C Lc p Hp. apply element_at_init. unfold init. rewrite C.
  destruct (proj1 (element_at_init _ _) (Lc p Hp)) as [v Hv].
  apply (copy_sem_init (pairs dst src) (hcell h) p); [exists v; auto|].
  intros d s Hi. apply (pairs_init c1 c2 dst src H1 Hd H2 Hs He h L1 L2 d s Hi).
Qed.

Lemma read_last_equal (eqT : T -> T -> bool) chk prog (h : heap T) : (forall v, eqT v v = true) ->
  (forall w : world T, prog w = copy_cells (pairs dst src) w) -> live h c1 -> live h c2 -> read_first src dst ->
  then_equal eqT chk prog dst src h.
Proof.
  intros HR Ep L1 L2 Hr.
  destruct (copy_cells_done (pairs dst src) h None (pairs_init c1 c2 dst src H1 Hd H2 Hs He h L1 L2)) as (h' & E & F & C & B); auto.
  exists h'. split; [rewrite Ep; exact E|].
  pose proof (copied_live h h' c1 L1 L2 C L1) as L1'. pose proof (copied_live h h' c2 L1 L2 C L2) as L2'.
  apply compare_cells; auto. intros k Hk.
  assert (Hi : In (pair_at dst src k) (pairs dst src)) by (apply in_map; apply position_in_positions; auto).
  destruct (pairs_init c1 c2 dst src H1 Hd H2 Hs He h' L1' L2' _ _ Hi) as [[u Hu] [v Hv]]. exists u, v. split; auto. split; auto.
  rewrite C in Hu, Hv. rewrite (copy_sem_equal _ _ (pairs_fst c1 dst src H1 Hd) (written_last Hr) _ _ Hi) in Hu.
  rewrite Hu in Hv. injection Hv as ->. auto.
Qed.

Lemma aligned_iff : aligned dst src <-> read_first dst src /\ read_first src dst.
Proof.
  split.
  - intros Ha. split; intros i j p Pi Pj Hl Ei Ej; rewrite <- ?He in *.
    + rewrite (Ha i j p Pi Pj Ei Ej) in Hl. apply (lex_less_irrefl _ Hl).
    + rewrite (Ha j i p Pj Pi Ej Ei) in Hl. apply (lex_less_irrefl _ Hl).
  - intros [R1 R2] i j p Pi Pj Ei Ej. destruct (lex_total i j) as [H|[H|H]]; auto.
    + rewrite (position_length _ _ Pi), (position_length _ _ Pj). auto.
    + exfalso. apply (R1 i j p); auto.
    + exfalso. apply (R2 j i p); auto; rewrite <- He; auto.
Qed.

Lemma equal_aligned (eqT : T -> T -> bool) chk prog (x y : T) (h : heap T) : eqT x y = false ->
  (forall w : world T, prog w = copy_cells (pairs dst src) w) -> live h c1 -> live h c2 -> ordered (pairs dst src) ->
  (forall h2, live h2 c1 -> live h2 c2 -> then_equal eqT chk prog dst src h2) -> read_first src dst.
Proof.
  intros Exy Ep L1 L2 Ho Hall j i p Pj Pi Hl Ej Ei. rewrite <- He in Pj, Pi.
  rewrite cell_at_ok in Ei by auto. rewrite cell_at_ok in Ej by (auto; rewrite <- He; auto). injection Ei as Ei. 
  assert (Esj : addr src (tadd (nd_base src) j) = p) by (injection Ej; auto). clear Ej.
  assert (Edi : addr dst (tadd (nd_base dst) i) = p) by (rewrite <- Ei; reflexivity). clear Ei.
  assert (Hj : In (pair_at dst src j) (pairs dst src)) by (apply in_map; apply position_in_positions; auto).
  assert (Hi : In (pair_at dst src i) (pairs dst src)) by (apply in_map; apply position_in_positions; auto).
  assert (Nij : addr src (tadd (nd_base src) i) <> p).
  { intros E. rewrite <- Esj in E. pose proof (derived_inj c2 src H2 Hs _ _ (in_src c2 dst src H2 Hs He i Pi) (in_src c2 dst src H2 Hs He j Pj) E) as E2.
    assert (i = j) by (apply (tadd_inj (nd_base src)); auto; rewrite (position_length _ _ Pi) || rewrite (position_length _ _ Pj); rewrite He; symmetry; apply Hok2).
    subst. apply (lex_less_irrefl _ Hl). }
  destruct (pairs_init c1 c2 dst src H1 Hd H2 Hs He h L1 L2 _ _ Hj) as [_ [v0 Hv0]]. rewrite Esj in Hv0.
  destruct (pairs_init c1 c2 dst src H1 Hd H2 Hs He h L1 L2 _ _ Hi) as [_ [v1 Hv1]].
  assert (Hc0 : hcell (paint y h) p = Some (Some y)) by (rewrite hcell_paint, Hv0; reflexivity).
  destruct (hset_spec (paint y h) p (Some x) _ Hc0) as (h2 & _ & _ & C2 & _).
  assert (Lx : forall c, live h c -> live h2 c).
  { intros c Lc q Hq. apply element_at_init. destruct (proj1 (element_at_init _ _) (live_paint y h c Lc q Hq)) as [v Hv].
    unfold init. rewrite C2. destruct (ptr_eqb p q); eauto. }
  pose proof (Lx c1 L1) as M1. pose proof (Lx c2 L2) as M2.
  destruct (Hall h2 M1 M2) as (h' & Er & Hr). rewrite Ep in Er.
  destruct (copy_cells_done (pairs dst src) h2 None (pairs_init c1 c2 dst src H1 Hd H2 Hs He h2 M1 M2)) as (h3 & E3 & _ & C3 & _); auto.
  cbn [option_map] in E3. rewrite Er in E3. injection E3 as <-.
  pose proof (proj2 (compare_cells eqT chk h' (copied_live h2 h' c1 M1 M2 C3 M1) (copied_live h2 h' c2 M1 M2 C3 M2)) Hr) as Hr'. clear Hr. rename Hr' into Hr.
  destruct (Hr j Pj) as (u & v & Hu & Hv & Huv). rewrite Esj, <- Edi in Hv. rewrite C3 in Hu, Hv.
  pose proof (copy_sem_ordered _ (hcell h2) (pairs_fst c1 dst src H1 Hd) Ho _ _ Hj) as Fj.
  pose proof (copy_sem_ordered _ (hcell h2) (pairs_fst c1 dst src H1 Hd) Ho _ _ Hi) as Fi.
  rewrite Fj, Esj, C2, ptr_eqb_refl in Hu. rewrite Fi, C2 in Hv.
  destruct (ptr_eqb p (addr src (tadd (nd_base src) i))) eqn:E; [apply ptr_eqb_eq in E; congruence|].
  rewrite hcell_paint, Hv1 in Hv. cbn in Hv. congruence.
Qed.

End Main.

(** dst = src copies src's old values and leaves dst == src, for all contents,
    exactly if every cell the two share has the same position in both *)
Theorem c54_assignment_postcondition : forall (T : Type) (eqT : T -> T -> bool) (x y : T) (h : heap T) chk c1 c2 dst src,
  (forall v, eqT v v = true) -> eqT x y = false ->
  array_object c1 -> derived c1 dst -> array_object c2 -> derived c2 src -> nd_ext dst = nd_ext src ->
  live h c1 -> live h c2 ->
  let prog := assign_nd chk (length (nd_ext dst)) dst src in
  (aligned dst src <->
   forall h2 : heap T, live h2 c1 -> live h2 c2 ->
     copies prog dst src h2 /\ then_equal eqT chk prog dst src h2).
Proof.
  intros T eqT x y h chk c1 c2 dst src HR Exy H1 Hd H2 Hs He L1 L2 prog.
  assert (Hxy : x <> y) by (intros ->; rewrite HR in Exy; discriminate).
  pose proof (read_first_ordered c1 c2 dst src H1 Hd H2 Hs He) as R.
  pose proof (assign_pairs (T := T) c1 c2 dst src H1 Hd H2 Hs He chk) as Ep. fold prog in Ep.
  rewrite aligned_iff by auto. split.
  - intros [R1 R2] h2 M1 M2. split.
    + apply (ordered_copies c1 c2 dst src H1 Hd H2 Hs He h2 prog Ep M1 M2). apply R; auto.
    + apply (read_last_equal c1 c2 dst src H1 Hd H2 Hs He eqT chk prog h2 HR Ep M1 M2 R2).
  - intros Hall. assert (Ho : ordered (pairs dst src)).
    { apply (copies_ordered c1 c2 dst src H1 Hd H2 Hs He prog x y h Ep Hxy L1 L2). intros; apply Hall; auto. }
    split; [apply R; auto|].
    apply (equal_aligned c1 c2 dst src H1 Hd H2 Hs He eqT chk prog x y h Exy Ep L1 L2 Ho). intros; apply Hall; auto.
Qed.

(** for dst == src alone it is enough that no cell of src is overwritten after it
    has been read (then dst may have got values already assigned) *)
Theorem c54_equal_after_assignment : forall (T : Type) (eqT : T -> T -> bool) (h : heap T) chk c1 c2 dst src,
  (forall v, eqT v v = true) ->
  array_object c1 -> derived c1 dst -> array_object c2 -> derived c2 src -> nd_ext dst = nd_ext src ->
  live h c1 -> live h c2 -> read_first src dst ->
  then_equal eqT chk (assign_nd chk (length (nd_ext dst)) dst src) dst src h /\
  then_equal eqT chk (copy_array chk (length (nd_ext dst)) dst src) dst src h.
Proof.
  intros T eqT h chk c1 c2 dst src HR H1 Hd H2 Hs He L1 L2 Hr.
  split; apply (read_last_equal c1 c2 dst src H1 Hd H2 Hs He eqT chk _ h HR); auto.
  - apply (assign_pairs c1 c2); auto. - apply (copy_array_pairs c1 c2); auto.
Qed.

(** the documented postcondition *this == x fails for overlapping operands: a[0..2) = a[1..3) *)
Theorem c54_postcondition_refuted : exists (c : cref) (dst src : nd) (h h' : heap Z),
  array_object c /\ derived c dst /\ derived c src /\ nd_ext dst = nd_ext src /\ live h c /\
  assign_nd true (length (nd_ext dst)) dst src (World h None) = Done tt (World h' None) /\
  nd_eq Z.eqb true h' (length (nd_ext dst)) dst src = Ok false.
Proof.
  destruct (ex_block 0 1) as [u| |] eqn:Eu; try (vm_compute in Eu; discriminate).
  destruct (ex_block 1 0) as [l| |] eqn:El; try (vm_compute in El; discriminate).
  destruct (ex_block_ok 0 1 u ltac:(lia) ltac:(lia) Eu) as (Du & _ & Xu & _).
  destruct (ex_block_ok 1 0 l ltac:(lia) ltac:(lia) El) as (Dl & _ & Xl & _).
  exists ex_square, (v_nd u), (v_nd l), ex_square_heap. eexists. split; [apply ex_square_object|]. split; [auto|]. split; [auto|].
  split; [cbn; congruence|]. split; [apply ex_square_live|].
  vm_compute in Eu, El. injection Eu as <-. injection El as <-. split; vm_compute; reflexivity.
Qed.

(** copies compare equal to the original and not less in either direction *)
Theorem c54_copies_compare_equal : forall (T : Type) (dflt : T) (eqT : T -> T -> bool) (ltT : T -> T -> bool) chk (h : heap T) a vs,
  (forall v, eqT v v = true) -> (forall x y, eqT x y = true -> x = y) -> strict_weak (fun x y => ltT x y = true) ->
  owns h a vs ->
  let x := cr_nd (ma_ref a) in let n := length (nd_ext x) in
  exists a' h', ma_copy dflt a (World h None) = Done a' (World h' None) /\
    let x' := cr_nd (ma_ref a') in
    nd_eq eqT chk h' n x' x = Ok true /\ nd_eq eqT chk h' n x x' = Ok true /\
    nd_lt ltT chk h' n x' x = Ok false /\ nd_lt ltT chk h' n x x' = Ok false.
Proof.
  intros T dflt eqT ltT chk h a vs HR HE HL Ho x n.
  destruct (c13_copy_construction T dflt h a vs Ho) as (a' & h' & E & Ho' & Xe & _ & Xb & _ & _ & V & Bk & Ln & U).
  exists a', h'. split; [auto|]. intros x'. subst x x' n.
  assert (Hlt : (ma_block a < length h)%nat) by (destruct Ho as (_ & _ & _ & _ & _ & Hb); apply nth_error_Some; congruence).
  assert (Ho2 : owns h' a vs) by (apply (owns_other a vs h); auto; apply U; auto).
  pose proof (owns_live a vs h' Ho2) as L1. pose proof (owns_live a' vs h' Ho') as L2.
  assert (O1 : array_object (ma_ref a)) by apply Ho. assert (O2 : array_object (ma_ref a')) by apply Ho'.
  assert (EQ : forall r1 r2 o1 o2 (D1 : array_object r1) (D2 : array_object r2), owns h' o1 vs -> owns h' o2 vs -> ma_ref o1 = r1 -> ma_ref o2 = r2 ->
     cr_ext r1 = cr_ext r2 -> cr_ib r1 = cr_ib r2 -> cr_storage r1 = cr_storage r2 -> nd_eq eqT chk h' (length (cr_ext r1)) (cr_nd r1) (cr_nd r2) = Ok true).
  { intros r1 r2 o1 o2 D1 D2 W1 W2 <- <- X1 X2 X3.
    apply (compare_cells (ma_ref o1) (ma_ref o2) (cr_nd (ma_ref o1)) (cr_nd (ma_ref o2)) D1 (d_array _) D2 (d_array _) X1 eqT chk h');
      [eapply owns_live; eauto|eapply owns_live; eauto|].
    intros k Hk. pose proof (in_dst (ma_ref o1) (cr_nd (ma_ref o1)) D1 (d_array _) k Hk) as I1. cbn [cr_nd nd_base nd_ext] in *.
    pose proof (derived_ok _ _ D1 (d_array _)) as N1. pose proof (derived_ok _ _ D2 (d_array _)) as N2.
    assert (I2 : in_bounds (cr_ib (ma_ref o2)) (cr_ext (ma_ref o2)) (tadd (cr_ib (ma_ref o2)) k)) by (rewrite <- X1, <- X2; auto).
    destruct (proj1 (element_at_init _ _) (owns_live o1 vs h' W1 _ (derived_cell _ _ _ D1 (d_array _) I1))) as [v Hv].
    exists v, v. split; [exact Hv|]. split; [|apply HR].
    apply (reads_iff h' (cr_nd (ma_ref o1))) in Hv; auto. apply (owns_reads o1 vs) in Hv; auto.
    rewrite X1, X2, X3 in Hv. apply (proj2 (owns_reads o2 vs h' _ v W2 I2)) in Hv. apply reads_iff in Hv; auto. }
  assert (Xs : cr_storage (ma_ref a') = cr_storage (ma_ref a)).
  { destruct (c13_copy_construction T dflt h a vs Ho) as (a2 & h2 & E2 & _ & _ & _ & _ & Q & _). congruence. }
  assert (E1 : nd_eq eqT chk h' (length (nd_ext (cr_nd (ma_ref a)))) (cr_nd (ma_ref a')) (cr_nd (ma_ref a)) = Ok true).
  { cbn [cr_nd nd_ext]. rewrite <- Xe. apply (EQ _ _ a' a); auto. }
  assert (E2 : nd_eq eqT chk h' (length (nd_ext (cr_nd (ma_ref a)))) (cr_nd (ma_ref a)) (cr_nd (ma_ref a')) = Ok true).
  { cbn [cr_nd nd_ext]. apply (EQ _ _ a a'); auto. }
  split; [auto|]. split; [auto|].
  destruct (c17_equal_not_less T eqT ltT h' chk (ma_ref a) (ma_ref a') (cr_nd (ma_ref a)) (cr_nd (ma_ref a')) HL HE O1 (d_array _) O2 (d_array _) L1 L2) as [A B]; auto.
  cbn [cr_nd nd_ext]. congruence.
Qed.

(** an array constructed from any array, subarray or view compares equal to it *)
Theorem c54_converted_arrays_compare_equal : forall (T : Type) (dflt : T) (eqT : T -> T -> bool) chk (h : heap T) c x so aid,
  (forall v, eqT v v = true) ->
  array_object c -> derived c x -> live h c ->
  order_ok (length (nd_ext x)) so -> layout_ok so (nd_base x) (nd_ext x) ->
  exists a h', ma_convert dflt chk x so aid (World h None) = Done a (World h' None) /\
    nd_eq eqT chk h' (length (nd_ext x)) (cr_nd (ma_ref a)) x = Ok true.
Proof.
  intros T dflt eqT chk h c x so aid HR Hc Hx L Hso Hlo.
  destruct (c14_converting_construction T dflt chk h c x so aid Hc Hx L Hso Hlo) as (a & vs & h' & E & Ho & Xe & Xb & _ & _ & V & _ & Ln & U).
  exists a, h'. split; [auto|]. pose proof (derived_ok c x Hc Hx) as Hok.
  assert (L2 : live h' c).
  { intros p Hp. destruct (L p Hp) as [v Hv]. exists v. apply hread_init in Hv. apply hread_init. rewrite <- Hv.
    assert (Hb : (p_blk p < length h)%nat) by (apply hcell_inv in Hv; destruct Hv as (k & Hk & _); eapply hblock_lt; eauto).
    unfold hcell, hblock. rewrite (U _ Hb). reflexivity. }
  assert (O : array_object (ma_ref a)) by apply Ho. pose proof (derived_ok _ _ O (d_array _)) as Hok2.
  rewrite <- Xe.
  apply (compare_cells (ma_ref a) c (cr_nd (ma_ref a)) x O (d_array _) Hc Hx Xe eqT chk h'); auto; [eapply owns_live; eauto|].
  intros k Hk. cbn [cr_nd nd_ext] in Hk. rewrite Xe in Hk.
  assert (I : in_bounds (nd_base x) (nd_ext x) (tadd (nd_base x) k)) by (apply tadd_in_bounds; auto; apply Hok).
  destruct (proj1 (element_at_init _ _) (L _ (derived_cell _ _ _ Hc Hx I))) as [v Hv]. apply (reads_iff h x) in Hv; auto.
  destruct (V _ _ I Hv) as [V1 V2]. exists v, v. cbn [cr_nd nd_base]. rewrite Xb.
  apply reads_iff in V2; auto. apply (reads_iff h' (cr_nd (ma_ref a))) in V1; auto.
  cbn [cr_nd nd_base nd_ext]. rewrite Xe, Xb. auto.
Qed.

(** an array and the view of all of it share every cell, at the same positions;
    upper and lower block share one at different positions *)
Example ex_c54 : exists u l, ex_block 0 1 = Ok u /\ ex_block 1 0 = Ok l /\
  aligned (v_nd u) (v_nd u) /\ ~ aligned (v_nd u) (v_nd l) /\ read_first (v_nd u) (v_nd l) /\
  then_equal Z.eqb true (assign_nd true 2 (v_nd l) (v_nd u)) (v_nd l) (v_nd u) ex_square_heap.
Proof.
  destruct (ex_block 0 1) as [u| |] eqn:Eu; try (vm_compute in Eu; discriminate).
  destruct (ex_block 1 0) as [l| |] eqn:El; try (vm_compute in El; discriminate).
  destruct (ex_block_ok 0 1 u ltac:(lia) ltac:(lia) Eu) as (Du & Bu & Xu & _).
  destruct (ex_block_ok 1 0 l ltac:(lia) ltac:(lia) El) as (Dl & Bl & Xl & _).
  exists u, l. split; [auto|]. split; [auto|].
  assert (X : nd_ext (v_nd u) = nd_ext (v_nd l)) by (cbn; congruence).
  assert (R : read_first (v_nd u) (v_nd l)).
  { apply (c53_blocks ex_square (cr_nd ex_square) _ _ [0; 1] [1; 0] ex_square_object (d_array _) Du Dl); auto.
    right. intros H. inversion H; subst; lia. }
  split; [|split; [|split; [exact R|]]].
  - apply (aligned_iff (v_nd u) (v_nd u)); auto.
    assert (read_first (v_nd u) (v_nd u)); auto.
    apply (c53_blocks ex_square (cr_nd ex_square) _ _ [0; 1] [0; 1] ex_square_object (d_array _) Du Du); auto.
    right. apply lex_less_irrefl.
  - intros H. vm_compute in Eu, El. injection Eu as <-. injection El as <-.
    specialize (H [1; 0] [0; 1] (Ptr 0 4)). cbn in H. specialize (H ltac:(lia) ltac:(lia)).
    enough ([1; 0] = [0; 1]) by discriminate. apply H; vm_compute; reflexivity.
  - assert (L2 : 2%nat = length (nd_ext (v_nd l))) by (cbn; rewrite Xl; reflexivity). rewrite L2.
    apply (c54_equal_after_assignment Z Z.eqb ex_square_heap true ex_square ex_square); auto using Z.eqb_refl, ex_square_object, ex_square_live.
Qed.
