(** ThmBulk.v -- C12 (overlap), C20 (for_each), C21, C34, C37, C38 *)

From Coq Require Import ZArith List Bool Permutation Sorted Lia.
From Verif Require Import Base StorageOrder Ranges Layout Access Objects Memory Ops
  Spec ViewSpec ReachSpec IterSpec MemSpec
  Facts LayoutProofs AccessProofs ViewProofs MemoryProofs CopyProofs ReachProofs ThmAddressing ThmGeometry ThmIter ThmCopy.
Import ListNotations.
Local Open Scope Z_scope.

(** * C12: overlapping operands *)

Lemma in_addrs a p : nd_ok a -> In p (addrs a) <-> element_of a p.
Proof.
  intros Ha. pose proof Ha as (L & _). rewrite element_of_addr by auto. unfold addrs. rewrite in_map_iff. split.
  - intros (i & <- & Hi). exists i. split; auto. apply in_tuples; auto.
  - intros (i & Hi & ->). exists i. split; auto. apply in_tuples; auto.
Qed.

Lemma map_fst_combine {A B} : forall (l1 : list A) (l2 : list B), length l1 = length l2 -> map fst (combine l1 l2) = l1.
Proof. induction l1; intros [|y l2] H; simpl in *; try lia; f_equal; auto. Qed.

Lemma length_addrs a b : length (nd_base a) = length (nd_ext a) -> length (nd_base b) = length (nd_ext b) ->
  nd_ext a = nd_ext b -> length (addrs a) = length (addrs b).
Proof. intros La Lb E. unfold addrs. rewrite !map_length, E. apply length_tuples_bases; congruence. Qed.

(** dst = src, overlapping or not: it finishes, changes only cells of dst, and
    everything stays a constructed element *)
Theorem c12_only_the_destination_changes : forall (T : Type) (h : heap T) chk c1 c2 dst src,
  array_object c1 -> derived c1 dst -> array_object c2 -> derived c2 src -> nd_ext dst = nd_ext src ->
  live h c1 -> live h c2 ->
  exists h', assign_nd chk (length (nd_ext dst)) dst src (World h None) = Done tt (World h' None) /\
    (forall p, ~ element_of dst p -> same_at h h' p) /\
    (forall p, element_at h p -> element_at h' p).
Proof.
  intros T h chk c1 c2 dst src H1 Hd H2 Hs He Hl1 Hl2.
  pose proof (derived_ok c1 dst H1 Hd) as Hok1. pose proof (derived_ok c2 src H2 Hs) as Hok2.
  pose proof Hok1 as (L1 & _). pose proof Hok2 as (L2 & _).
  rewrite assign_nd_eq by (auto; congruence).
  assert (I : forall d s, In (d, s) (combine (addrs dst) (addrs src)) -> init h d /\ init h s).
  { intros d s H. pose proof (in_combine_l _ _ _ _ H) as Ha. pose proof (in_combine_r _ _ _ _ H) as Hb.
    rewrite in_addrs, element_of_addr in Ha, Hb by auto. destruct Ha as (i & Hi & ->), Hb as (j & Hj & ->).
    split; apply element_at_init; [apply Hl1|apply Hl2]; eapply derived_cell; eauto. }
  destruct (copy_cells_done _ h None I) as (h' & E & F & C & B); auto.
  exists h'. split; [exact E|]. split.
  - intros p Hp. unfold same_at. rewrite C. apply copy_sem_other.
    rewrite map_fst_combine by (apply length_addrs; auto). rewrite in_addrs; auto.
  - intros p Hp. apply element_at_init in Hp. apply element_at_init. unfold init. rewrite C.
    apply copy_sem_init; auto. intros d s H. apply (I d s H).
Qed.

(** 1-D array of 3 elements 10, 11, 12 *)
Definition ex_line : cref := CRef (Ptr 0 0) (SO [O] [true]) [3] [1] [0] 0 0 3.
Definition ex_line_heap : heap Z := [Some (Block 0 [Some 10; Some 11; Some 12])].
Example ex_line_object : array_object ex_line.
Proof.
  apply (ao_list true (Ptr 0 0) [3] (SO [O] [true])).
  - split; [simpl; auto|reflexivity].
  - split; [reflexivity|]. split; [simpl; lia|]. split; [repeat constructor; lia|].
    split; [repeat constructor; unconst; simpl; lia|]. vm_compute. congruence.
  - vm_compute. reflexivity.
Qed.
Definition ex_line_view (s f : Z) : outcome view :=
  g <- ig_at_range indices (ir_make s f 1) ;; make_view true (cr_nd ex_line) g.

(** overlapping operands: v = a[1..3) is assigned from w = a[0..2).  Afterwards v
    does not hold what w held before: 10 is smeared over the array *)
Theorem c12_overlap_refuted : exists (c : cref) (dst src : nd) (h h' : heap Z) k v,
  array_object c /\ derived c dst /\ derived c src /\ nd_ext dst = nd_ext src /\ live h c /\
  assign_nd true (length (nd_ext dst)) dst src (World h None) = Done tt (World h' None) /\
  in_bounds (repeat 0 (length (nd_ext dst))) (nd_ext dst) k /\
  reads h src (tadd (nd_base src) k) v /\ ~ reads h' dst (tadd (nd_base dst) k) v.
Proof.
  assert (D : forall s f v g, ig_at_range indices (ir_make s f 1) = Ok g -> make_view true (cr_nd ex_line) g = Ok v ->
    ranges_inside (nd_base (cr_nd ex_line)) (nd_ext (cr_nd ex_line)) (ig_ranges g) -> (0 < ig_dims g)%nat ->
    derived ex_line (v_nd v)).
  { intros s f v g Eg Ev Hr Hd. apply d_view. apply (dv_make ex_line (cr_nd ex_line) g); auto; [apply d_array|].
    eapply built_range; [apply built_none|exact Eg]. }
  assert (RI : forall s f k, 0 <= s -> f <= 3 -> 0 <= k ->
    (if 0 <? ir_stride (ir_make s f 1) then range_start (ir_make s f 1) 0 + k * ir_stride (ir_make s f 1) < range_finish (ir_make s f 1) 0 3
     else range_finish (ir_make s f 1) 0 3 < range_start (ir_make s f 1) 0 + k * ir_stride (ir_make s f 1)) ->
    0 <= range_start (ir_make s f 1) 0 + k * ir_stride (ir_make s f 1) < 0 + 3).
  { intros s f k Hs Hf Hk H. unfold range_start, range_finish, ir_make in *. cbn [ir_start ir_finish ir_stride Z.ltb Z.compare] in *.
    destruct (Z.eqb_spec s (- max_index - 1)); [unconst; lia|]. destruct (Z.eqb_spec f max_index); [unconst; lia|]. lia. }
  eexists ex_line, _, _, ex_line_heap, _, [1], 11.
  split; [apply ex_line_object|].
  split. { eapply (D 1 3); [vm_compute; reflexivity|vm_compute; reflexivity| |simpl; lia].
    split; [|exact I]. intros k [Hk1 Hk2]. apply (RI _ _ k); auto; cbn; lia. }
  split. { eapply (D 0 2); [vm_compute; reflexivity|vm_compute; reflexivity| |simpl; lia].
    split; [|exact I]. intros k [Hk1 Hk2]. apply (RI _ _ k); auto; cbn; lia. }
  split; [vm_compute; reflexivity|]. split.
  { intros p (k & Hk & ->). unfold cr_num_elements, ex_line in Hk. cbn [cr_num] in Hk.
    assert (k = 0 \/ k = 1 \/ k = 2) as Dk by lia. destruct Dk as [->|[->| ->]]; eexists; vm_compute; reflexivity. }
  split; [vm_compute; reflexivity|]. split; [simpl; lia|]. split; [vm_compute; reflexivity|].
  vm_compute. discriminate.
Qed.

(** * C20: for_each *)

Section ForEach.
Context {T : Type}.

Lemma apply_cells_done (f : T -> T) : forall l (h : heap T), NoDup l -> (forall p, In p l -> init h p) ->
  exists h', mseq (apply_cell f) l (World h None) = Done tt (World h' None) /\
    (forall p v, In p l -> hcell h p = Some (Some v) -> hcell h' p = Some (Some (f v))) /\
    (forall p, ~ In p l -> hcell h' p = hcell h p).
Proof.
  induction l as [|p l IH]; intros h Hn Hi.
  - exists h. split; [reflexivity|]. split; [intros ? ? []|auto].
  - inversion Hn as [|? ? Hp Hn']; subst. destruct (Hi p (or_introl eq_refl)) as [v Hv].
    destruct (store_spec h p (f v) None (ex_intro _ v Hv)) as (h1 & E1 & _ & C1).
    destruct (IH h1 Hn') as (h' & E & C & O).
    { intros q Hq. destruct (Hi q (or_intror Hq)) as [u Hu]. unfold init. rewrite C1. destruct (ptr_eqb p q); eauto. }
    exists h'. split; [|split].
    + cbn [mseq]. unfold apply_cell at 1. unfold bind at 1 2, load. cbn [w_heap].
      rewrite (proj2 (hread_init _ _ _) Hv). unfold lift. unfold bind at 1, tick. cbn [w_fuse]. rewrite E1. exact E.
    + intros q u [<-|Hq] Hu.
      * rewrite O by auto. rewrite C1, ptr_eqb_refl. rewrite Hv in Hu. injection Hu as ->. auto.
      * apply C; auto. rewrite C1. destruct (ptr_eqb p q) eqn:Eq; auto. apply ptr_eqb_eq in Eq. subst. tauto.
    + intros q Hq. simpl in Hq. rewrite O by tauto. rewrite C1. destruct (ptr_eqb p q) eqn:Eq; auto.
      apply ptr_eqb_eq in Eq. tauto.
Qed.
End ForEach.

Lemma nodup_addrs c a : array_object c -> derived c a -> NoDup (addrs a).
Proof.
  intros Hc Ha. pose proof (derived_ok c a Hc Ha) as (L & _). apply nodup_map_inj; [|apply nodup_tuples].
  intros i j Hi Hj. apply (derived_inj c a Hc Ha); apply in_tuples; auto.
Qed.

(** the nested traversal applying f to every element: each element is replaced
    by f of its old value, exactly once, and nothing else changes *)
Theorem c20_for_each : forall (T : Type) (h : heap T) chk f c a,
  array_object c -> derived c a -> live h c ->
  exists h', for_each chk f (length (nd_ext a)) a (World h None) = Done tt (World h' None) /\
    (forall i, in_bounds (nd_base a) (nd_ext a) i -> exists v, reads h a i v /\ reads h' a i (f v)) /\
    (forall p, ~ element_of a p -> same_at h h' p).
Proof.
  intros T h chk f c a Hc Ha Hl. pose proof (derived_ok c a Hc Ha) as Hok.
  destruct (apply_cells_done f (addrs a) h) as (h' & E & C & O).
  { eapply nodup_addrs; eauto. }
  { intros p Hp. apply in_addrs in Hp; auto. apply element_of_addr in Hp; auto. destruct Hp as (i & Hi & ->).
    apply element_at_init. apply Hl. apply (derived_cell c a); auto. }
  exists h'. split; [rewrite for_each_eq by auto; exact E|]. split.
  - intros i Hi. destruct (proj1 (element_at_init _ _) (Hl _ (derived_cell c a i Hc Ha Hi))) as [v Hv].
    exists v. rewrite !reads_iff by auto. split; [auto|]. apply C; auto. apply in_addrs; auto. apply element_of_addr; auto. eauto.
  - intros p Hp. apply O. rewrite in_addrs; auto.
Qed.

Example ex_c20 : exists h', for_each true (fun z => 2 * z) 2 (v_nd ex_view) (World ex_heap None) = Done tt (World h' None) /\
  derived ex_arr (v_nd ex_view) /\ reads h' (v_nd ex_view) [1; 0] 22 /\ reads h' (cr_nd ex_arr) [2; 0] 22 /\
  visit true 9 2 (v_nd ex_view) = Ok (addrs (v_nd ex_view)).
Proof.
  eexists. split; [vm_compute; reflexivity|]. split; [apply ex_view_derived|].
  split; [vm_compute; reflexivity|]. split; vm_compute; reflexivity.
Qed.

(** * C21 *)

Section Fill.
Context {T : Type}.

Lemma assign_loop_done (c : cref) : forall l k num (h : heap T), 0 <= k ->
  (forall j, 0 <= j < num -> init h (padd (cr_base c) j)) ->
  exists h', assign_loop (padd (cr_base c) k) l k num (World h None) = Done tt (World h' None) /\
    (forall j v, k <= j < num -> nth_error l (Z.to_nat (j - k)) = Some v -> hcell h' (padd (cr_base c) j) = Some (Some v)) /\
    (forall p, (forall j, k <= j < num -> j - k < Z.of_nat (length l) -> p <> padd (cr_base c) j) -> hcell h' p = hcell h p).
Proof.
  induction l as [|v l IH]; intros k num h Hk Hi.
  - exists h. split; [reflexivity|]. split; [|auto]. intros j u _ H. destruct (Z.to_nat (j - k)); discriminate.
  - cbn [assign_loop]. destruct (Z.ltb_spec k num) as [Hlt|Hge].
    + destruct (store_spec h (padd (cr_base c) k) v None (Hi k ltac:(lia))) as (h1 & E1 & _ & C1).
      unfold bind at 1, tick. cbn [w_fuse]. unfold bind at 1. rewrite E1. rewrite padd_padd.
      destruct (IH (k + 1) num h1) as (h' & E & C & O); [lia| |].
      { intros j Hj. destruct (Hi j Hj) as [u Hu]. unfold init. rewrite C1. destruct (ptr_eqb (padd (cr_base c) k) (padd (cr_base c) j)); eauto. }
      exists h'. split; [exact E|]. split.
      * intros j u Hj Hn. destruct (Z.eq_dec j k) as [->|Hne].
        { rewrite Z.sub_diag in Hn. injection Hn as <-. rewrite O, C1, ptr_eqb_refl; auto.
          intros j' Hj' _ Ep. injection Ep. lia. }
        { apply C; [lia|]. replace (Z.to_nat (j - k)) with (S (Z.to_nat (j - (k + 1)))) in Hn by lia. exact Hn. }
      * intros p Hp. rewrite O.
        { rewrite C1. destruct (ptr_eqb (padd (cr_base c) k) p) eqn:Ep; auto. apply ptr_eqb_eq in Ep.
          exfalso. apply (Hp k); auto; simpl; lia. }
        { intros j Hj Hl. apply Hp; simpl; lia. }
    + exists h. split; [reflexivity|]. split; [|auto]. intros; lia.
Qed.

Lemma assign_loop_app out : forall l1 l2 k num (w : world T), k + Z.of_nat (length l1) <= num ->
  assign_loop out (l1 ++ l2) k num w =
  bind (assign_loop out l1 k num) (fun _ => assign_loop (padd out (Z.of_nat (length l1))) l2 (k + Z.of_nat (length l1)) num) w.
Proof.
  intros l1; revert out; induction l1 as [|v l1 IH]; intros out l2 k num w H.
  - simpl. rewrite padd_0, Z.add_0_r. reflexivity.
  - cbn [assign_loop app length] in *. destruct (Z.ltb_spec k num); [|lia].
    rewrite !bind_assoc. apply bind_ext; auto. intros _ w1. rewrite !bind_assoc. apply bind_ext; auto. intros _ w2.
    rewrite IH by lia. apply bind_ext; auto. intros _ w3. rewrite padd_padd. f_equal; [f_equal|]; lia.
Qed.
End Fill.

(** the cell at storage position k is the element whose position is k *)
Lemma position_of_cell c k : array_object c -> 0 <= k < cr_num_elements c ->
  exists i, in_bounds (cr_ib c) (cr_ext c) i /\ addr (cr_nd c) i = padd (cr_data c) k /\
    position (so_ordering (cr_storage c)) (so_ascending (cr_storage c)) (cr_ib c) (cr_ext c) i = k.
Proof.
  intros Hc Hk. pose proof (proj2 (proj2 (c01_addressing_bijection true c Hc)) k Hk) as (i & Hi & E).
  exists i. split; auto. pose proof (c02_storage_order_layout true c i Hc Hi) as E2.
  rewrite access_element_ok in E by (auto; apply cref_addressable, array_object_ok; auto).
  split; [congruence|]. rewrite access_element_ok in E2 by (auto; apply cref_addressable, array_object_ok; auto).
  assert (padd (cr_data c) (position (so_ordering (cr_storage c)) (so_ascending (cr_storage c)) (cr_ib c) (cr_ext c) i) = padd (cr_data c) k) as EP by congruence.
  injection EP. lia.
Qed.

(** assign(first, last): the element at storage position k receives the k-th
    input value, for k < min(length, num_elements()); nothing else changes *)
Theorem c21_assign_fills_storage_order : forall (T : Type) (h : heap T) c l,
  array_object c -> live h c ->
  exists h', cr_assign c l (World h None) = Done tt (World h' None) /\
    (forall i, in_bounds (cr_ib c) (cr_ext c) i ->
       let k := position (so_ordering (cr_storage c)) (so_ascending (cr_storage c)) (cr_ib c) (cr_ext c) i in
       match nth_error l (Z.to_nat k) with
       | Some v => reads h' (cr_nd c) i v
       | None => forall v, reads h (cr_nd c) i v <-> reads h' (cr_nd c) i v
       end) /\
    (forall p, (forall k, 0 <= k < Z.min (Z.of_nat (length l)) (cr_num_elements c) -> p <> padd (cr_data c) k) ->
       same_at h h' p).
Proof.
  intros T h c l Hc Hl. pose proof (array_object_ok c Hc) as Hok. pose proof (cref_addressable c Hok) as Hnd.
  destruct (assign_loop_done c l 0 (cr_num c) h) as (h' & E & C & O); [lia| |].
  { intros j Hj. apply element_at_init. apply Hl. exists j. auto. }
  rewrite padd_0 in E. exists h'. split; [exact E|]. split.
  - intros i Hi k. pose proof (in_bounds_length _ _ _ Hi) as [_ Li].
    assert (Hk : 0 <= k < cr_num c).
    { pose proof Hok as (Ho & Hr & Hs & Hoo & Hn). rewrite Hn. apply position_bound; auto. }
    assert (Ea : addr (cr_nd c) i = padd (cr_base c) k) by (apply cref_addr; auto).
    destruct (nth_error l (Z.to_nat k)) as [v|] eqn:En.
    + apply reads_iff; auto. rewrite Ea. apply C; [lia|]. rewrite Z.sub_0_r. auto.
    + intros v. rewrite !reads_iff by auto. rewrite Ea, O; [tauto|].
      apply nth_error_None in En. intros j Hj Hj2 Ep. injection Ep. lia.
  - intros p Hp. apply O. intros j Hj Hlen. apply Hp. unfold cr_num_elements. lia.
Qed.

(** if the (n+1)-th element assignment throws, exactly the first n values have
    been stored *)
Theorem c21_assign_throws : forall (T : Type) (h : heap T) c l n,
  array_object c -> live h c -> (n < length l)%nat -> Z.of_nat n < cr_num_elements c ->
  exists h', cr_assign c l (World h (Some n)) = Thrown (World h' None) /\
    cr_assign c (firstn n l) (World h None) = Done tt (World h' None).
Proof.
  intros T h c l n Hc Hl Hn Hlt.
  destruct (assign_loop_done c (firstn n l) 0 (cr_num c) h) as (h' & E & C & O); [lia| |].
  { intros j Hj. apply element_at_init. apply Hl. exists j. auto. }
  rewrite padd_0 in E. exists h'. split; [|exact E].
  unfold cr_assign. rewrite <- (firstn_skipn n l). unfold cr_num_elements in Hlt.
  rewrite assign_loop_app by (rewrite firstn_length; lia).
  assert (F : forall m l out k num (h h' : heap T) f, assign_loop out l k num (World h None) = Done tt (World h' None) ->
    (length l <= m)%nat -> k + Z.of_nat (length l) <= num -> f = m -> 
    assign_loop out l k num (World h (Some f)) = Done tt (World h' (Some (m - length l)%nat))).
  { clear. induction m as [|m IH]; intros l out k num h h' f E Hle Hk ->.
    - destruct l; simpl in Hle; [|lia]. injection E as ->. reflexivity.
    - destruct l as [|v l]; [injection E as ->; reflexivity|]. cbn [assign_loop length] in *.
      destruct (Z.ltb_spec k num); [|lia]. unfold bind, tick in *. cbn [w_fuse w_heap] in *.
      unfold store in *. cbn [w_fuse w_heap] in *. destruct (hwrite h out v) as [h1| |]; try discriminate.
      rewrite (IH l (padd out 1) (k + 1) num h1 h' m); auto; lia. }
  unfold bind. rewrite (F n _ _ _ _ _ _ n E); try (rewrite ?firstn_length; lia). rewrite firstn_length, Nat.min_l, Nat.sub_diag by lia.
  destruct (skipn n l) as [|v r] eqn:Es.
  { pose proof (skipn_length n l) as Hs. rewrite Es in Hs. simpl in Hs. lia. }
  cbn [assign_loop]. destruct (Z.ltb_spec (0 + Z.of_nat n) (cr_num c)); [|lia]. reflexivity.
Qed.

Example ex_c21 : exists h', cr_assign ex_arr [1; 2; 3; 4] (World ex_heap None) = Done tt (World h' None) /\
  live ex_heap ex_arr /\ reads h' (cr_nd ex_arr) [2; 0] 2 /\ reads h' (cr_nd ex_arr) [1; -2] 14.
Proof. eexists. split; [vm_compute; reflexivity|]. split; [apply ex_live|]. split; vm_compute; reflexivity. Qed.

(** * C34 *)

Lemma row_facts chk c a k b e : array_object c -> derived c a -> (1 < length (nd_ext a))%nat ->
  hd_error (nd_base a) = Some b -> hd_error (nd_ext a) = Some e -> b <= k < b + e ->
  access_n chk k a = Ok (row a k) /\ nd_ok (row a k) /\ derived c (row a k) /\
  (forall t, addr (row a k) t = addr a (k :: t)) /\
  (forall t, in_bounds (nd_base (row a k)) (nd_ext (row a k)) t <-> in_bounds (nd_base a) (nd_ext a) (k :: t)).
Proof.
  intros Hc Ha Hn Hb He Hk. pose proof (derived_ok c a Hc Ha) as Hok.
  assert (E : forall chk, access_n chk k a = Ok (row a k)) by (intros; eapply access_n_row; eauto).
  split; [auto|]. split.
  { apply row_ok; auto. destruct (nd_ext a) as [|x [|y r]]; simpl in *; try lia; congruence. }
  split; [eapply d_sub; eauto|].
  destruct (nd_ok_shape a Hok) as (b' & bs & e' & es & s & ss & Eb & Ee & Es & _).
  rewrite Eb in Hb. rewrite Ee in He. injection Hb as ->. injection He as ->. split.
  - intros t. unfold addr, row. cbn [nd_org nd_str]. rewrite Es. cbn [hd tl dot]. rewrite padd_padd. auto.
  - intros t. unfold row. cbn [nd_base nd_ext]. rewrite Eb, Ee. cbn [tl in_bounds]. tauto.
Qed.

(** a[i] has the remaining shape and bases, and its element t is a's element (i,t) *)
Theorem c34_subarray_is_a_slice : forall chk c a i b e, array_object c -> derived c a ->
  (1 < length (nd_ext a))%nat -> hd_error (nd_base a) = Some b -> hd_error (nd_ext a) = Some e ->
  b <= i < b + e ->
  exists s, access_n chk i a = Ok s /\ derived c s /\
    nd_ext s = tl (nd_ext a) /\ nd_base s = tl (nd_base a) /\
    forall t, in_bounds (nd_base s) (nd_ext s) t ->
      in_bounds (nd_base a) (nd_ext a) (i :: t) /\
      exists p, access_element chk s t = Ok p /\ access_element chk a (i :: t) = Ok p.
Proof.
  intros chk c a i b e Hc Ha Hn Hb He Hi. pose proof (derived_ok c a Hc Ha) as Hok.
  destruct (row_facts chk c a i b e Hc Ha Hn Hb He Hi) as (E & Hro & Hd & EA & EB).
  exists (row a i). split; [auto|]. split; [auto|]. split; [reflexivity|]. split; [reflexivity|].
  intros t Ht. split; [apply EB; auto|]. exists (addr a (i :: t)).
  rewrite !access_element_ok; auto; [|apply EB; auto]. rewrite EA. auto.
Qed.

(** subarrays at different indices have no element in common, and together they
    have exactly the elements of a *)
Theorem c34_subarrays_partition : forall c a b e, array_object c -> derived c a ->
  (1 < length (nd_ext a))%nat -> hd_error (nd_base a) = Some b -> hd_error (nd_ext a) = Some e ->
  (forall i j s t, i <> j -> access_n true i a = Ok s -> access_n true j a = Ok t -> no_overlap s t) /\
  (forall p, element_of a p <-> exists i s, b <= i < b + e /\ access_n true i a = Ok s /\ element_of s p).
Proof.
  intros c a b e Hc Ha Hn Hb He. pose proof (derived_ok c a Hc Ha) as Hok.
  assert (HI : forall i s, access_n true i a = Ok s -> b <= i < b + e /\ s = row a i).
  { intros i s E.
    destruct (access_n_inv i a s Hok E) as (b2 & bs2 & e2 & es2 & s2 & ss2 & Eb2 & Ee2 & _ & _ & Hk & ->).
    rewrite Eb2 in Hb. rewrite Ee2 in He. injection Hb as ->. injection He as ->. auto. }
  split.
  - intros i j s t Hne E1 E2 p H1 H2. destruct (HI _ _ E1) as [Hi ->], (HI _ _ E2) as [Hj ->].
    destruct (row_facts true c a i b e Hc Ha Hn Hb He Hi) as (_ & Hro & Hd & EA & EB).
    destruct (row_facts true c a j b e Hc Ha Hn Hb He Hj) as (_ & Hro' & Hd' & EA' & EB').
    apply element_of_addr in H1; auto. apply element_of_addr in H2; auto.
    destruct H1 as (u & Hu & ->), H2 as (u' & Hu' & E). rewrite EA, EA' in E.
    apply EB in Hu. apply EB' in Hu'. apply (derived_inj c a Hc Ha) in E; auto. congruence.
  - intros p. rewrite element_of_addr by auto. split.
    + intros (i & Hi & ->). destruct i as [|i t].
      { destruct (nd_base a), (nd_ext a); simpl in *; try discriminate; tauto. }
      assert (Hk : b <= i < b + e).
      { destruct (nd_base a), (nd_ext a); simpl in *; try discriminate. injection Hb as ->. injection He as ->. tauto. }
      destruct (row_facts true c a i b e Hc Ha Hn Hb He Hk) as (E & Hro & Hd & EA & EB).
      exists i, (row a i). split; auto. split; auto. apply element_of_addr; auto.
      exists t. split; [apply EB; auto|]. auto.
    + intros (i & s & Hk & E & Hp). destruct (HI _ _ E) as [_ ->].
      destruct (row_facts true c a i b e Hc Ha Hn Hb He Hk) as (_ & Hro & Hd & EA & EB).
      apply element_of_addr in Hp; auto. destruct Hp as (t & Ht & ->). exists (i :: t). split; [apply EB; auto|auto].
Qed.

(** a[i] = src changes no element of a whose first index is not i *)
Theorem c34_row_assignment_is_local : forall (T : Type) (h : heap T) chk c c2 a i s src,
  array_object c -> derived c a -> (1 < length (nd_ext a))%nat -> access_n true i a = Ok s ->
  array_object c2 -> derived c2 src -> nd_ext s = nd_ext src -> live h c -> live h c2 ->
  exists h', assign_nd chk (length (nd_ext s)) s src (World h None) = Done tt (World h' None) /\
    forall j t v, j <> i -> in_bounds (nd_base a) (nd_ext a) (j :: t) ->
      (reads h a (j :: t) v <-> reads h' a (j :: t) v).
Proof.
  intros T h chk c c2 a i s src Hc Ha Hn E Hc2 Hs He Hl Hl2. pose proof (derived_ok c a Hc Ha) as Hok.
  assert (Hd : derived c s) by (eapply d_sub; eauto).
  destruct (c12_only_the_destination_changes T h chk c c2 s src Hc Hd Hc2 Hs He Hl Hl2) as (h' & E1 & O & _).
  exists h'. split; [auto|]. intros j t v Hne Hi. rewrite !reads_iff by auto. rewrite O; [tauto|].
  destruct (nd_ok_shape a Hok) as (b & bs & e & es & s' & ss & Eb & Ee & Es & _).
  assert (Hb : hd_error (nd_base a) = Some b) by (rewrite Eb; auto).
  assert (Hx : hd_error (nd_ext a) = Some e) by (rewrite Ee; auto).
  destruct (c34_subarrays_partition c a b e Hc Ha Hn Hb Hx) as [HD HC].
  assert (Hj : b <= j < b + e) by (rewrite Eb, Ee in Hi; simpl in Hi; tauto).
  destruct (row_facts true c a j b e Hc Ha Hn Hb Hx Hj) as (Ej & Hro & Hdj & EA & EB).
  intros Hp. apply (HD i j s (row a j) (fun H => Hne (eq_sym H)) E Ej _ Hp).
  apply element_of_addr; auto. exists t. split; [apply EB; auto|auto].
Qed.

Example ex_c34 : exists s h', access_n true 2 (cr_nd ex_arr) = Ok s /\ nd_ext s = [3] /\ nd_base s = [-2] /\
  assign_nd true 1 s (ND (Ptr 7 0) [3] [2] [0]) (World ex_heap None) = Done tt (World h' None) /\
  reads h' (cr_nd ex_arr) [1; 0] 10.
Proof. do 2 eexists. repeat (split; [vm_compute; reflexivity|]). vm_compute. reflexivity. Qed.

(** * C37 *)

Section Local.
Context {T : Type}.
Variable P : ptr -> Prop.

Definition safe {A} (m : M T A) : Prop := forall h f, (forall p, P p -> init h p) ->
  match m (World h f) with
  | Done _ w | Thrown w | Aborted w => forall p, P p -> init (w_heap w) p
  | Undef | OutOfFuel => False
  end.

Lemma local_ret {A} (a : A) : local (T := T) P (ret a).
Proof. intros h1 h2 f H. simpl. auto. Qed.
Lemma local_lift {A} (o : outcome A) : local (T := T) P (lift o).
Proof. intros h1 h2 f H. unfold lift. destruct o; simpl; auto. Qed.
Lemma local_tick : local (T := T) P tick.
Proof. intros h1 h2 f H. unfold tick. simpl. destruct f as [[|k]|]; simpl; auto. Qed.
Lemma local_load p : P p -> local (T := T) P (load p).
Proof.
  intros Hp h1 h2 f H. unfold load, hread. cbn [w_heap]. rewrite (H p Hp).
  destruct (hcell h2 p) as [[v|]|]; simpl; auto.
Qed.
Lemma local_store p v : P p -> local (T := T) P (store p v).
Proof.
  intros Hp h1 h2 f H. unfold store, hwrite. cbn [w_heap w_fuse]. pose proof (H p Hp) as E.
  destruct (hcell h2 p) as [[u|]|] eqn:E2; rewrite E; auto.
  destruct (hset_spec h1 p (Some v) _ E) as (h1' & S1 & _ & C1 & _).
  destruct (hset_spec h2 p (Some v) _ E2) as (h2' & S2 & _ & C2 & _).
  rewrite S1, S2. split; [auto|]. cbn [w_fuse w_heap]. split; [auto|]. split.
  - intros q Hq. rewrite C1, C2. destruct (ptr_eqb p q); auto.
  - intros q Hq. rewrite C1, C2. destruct (ptr_eqb p q) eqn:Eq; auto. apply ptr_eqb_eq in Eq. subst. tauto.
Qed.
Lemma local_bind {A B} (m : M T A) (k : A -> M T B) : local P m -> (forall a, local P (k a)) -> local P (bind m k).
Proof.
  intros Hm Hk h1 h2 f H. specialize (Hm h1 h2 f H). cbn zeta in Hm |- *. unfold bind.
  destruct (m (World h1 f)) as [a1 w1|w1|w1| |], (m (World h2 f)) as [a2 w2|w2|w2| |]; try tauto.
  destruct Hm as (<- & Ef & EP & EN). destruct w1 as [g1 f1], w2 as [g2 f2]. cbn [w_fuse w_heap] in *. subst f2.
  specialize (Hk a1 g1 g2 f1 EP). cbn zeta in *.
  assert (Aft : forall w1 w2 : world T,
     w_fuse w1 = w_fuse w2 /\ (forall p, P p -> hcell (w_heap w1) p = hcell (w_heap w2) p) /\
     (forall p, ~ P p -> hcell (w_heap w1) p = hcell g1 p /\ hcell (w_heap w2) p = hcell g2 p) ->
     w_fuse w1 = w_fuse w2 /\ (forall p, P p -> hcell (w_heap w1) p = hcell (w_heap w2) p) /\
     (forall p, ~ P p -> hcell (w_heap w1) p = hcell h1 p /\ hcell (w_heap w2) p = hcell h2 p)).
  { intros w1 w2 (A1 & A2 & A3). split; [auto|]. split; [auto|]. intros p Hp.
    destruct (A3 p Hp), (EN p Hp). split; congruence. }
  destruct (k a1 (World g1 f1)) as [b1 w1|w1|w1| |], (k a1 (World g2 f1)) as [b2 w2|w2|w2| |]; try tauto; auto.
  destruct Hk as [E Hk]. split; auto.
Qed.

Lemma safe_ret {A} (a : A) : safe (ret a).
Proof. intros h f H. auto. Qed.
Lemma safe_lift {A} (o : outcome A) : o <> UB -> safe (lift o).
Proof. intros Ho h f H. unfold lift. destruct o; auto. Qed.
Lemma safe_tick : safe tick.
Proof. intros h f H. unfold tick. simpl. destruct f as [[|k]|]; simpl; auto. Qed.
Lemma safe_load p : P p -> safe (load p).
Proof.
  intros Hp h f H. unfold load, hread. cbn [w_heap]. destruct (H p Hp) as [v Hv]. rewrite Hv. simpl. auto.
Qed.
Lemma safe_store p v : P p -> safe (store p v).
Proof.
  intros Hp h f H. destruct (store_spec h p v f (H p Hp)) as (h' & E & _ & C). rewrite E. intros q Hq. cbn [w_heap].
  unfold init. rewrite C. destruct (ptr_eqb p q); eauto. apply H; auto.
Qed.
Lemma safe_bind {A B} (m : M T A) (k : A -> M T B) : safe m -> (forall a, safe (k a)) -> safe (bind m k).
Proof.
  intros Hm Hk h f H. specialize (Hm h f H). unfold bind.
  destruct (m (World h f)) as [a w|w|w| |]; auto. destruct w as [g fu]. apply Hk. auto.
Qed.

Definition good {A} (m : M T A) : Prop := local P m /\ safe m.
Lemma good_ret {A} (a : A) : good (ret a). Proof. split; [apply local_ret|apply safe_ret]. Qed.
Lemma good_lift {A} (o : outcome A) : o <> UB -> good (lift o). Proof. split; [apply local_lift|apply safe_lift; auto]. Qed.
Lemma good_tick : good tick. Proof. split; [apply local_tick|apply safe_tick]. Qed.
Lemma good_load p : P p -> good (load p). Proof. split; [apply local_load|apply safe_load]; auto. Qed.
Lemma good_store p v : P p -> good (store p v). Proof. split; [apply local_store|apply safe_store]; auto. Qed.
Lemma good_bind {A B} (m : M T A) (k : A -> M T B) : good m -> (forall a, good (k a)) -> good (bind m k).
Proof. intros [L1 S1] H. split; [apply local_bind; auto; apply H|apply safe_bind; auto; apply H]. Qed.
Lemma good_ext {A} (m m' : M T A) : (forall w, m w = m' w) -> good m' -> good m.
Proof.
  intros E [L S]. split.
  - intros h1 h2 f H. rewrite !E. apply L; auto.
  - intros h f H. rewrite E. apply S; auto.
Qed.

Lemma good_elem_assign p q : P p -> P q -> good (elem_assign p q).
Proof.
  intros Hp Hq. unfold elem_assign. apply good_bind; [apply good_load; auto|intros v].
  apply good_bind; [apply good_tick|intros _]. apply good_store; auto.
Qed.
Lemma good_copy_cells l : (forall d s, In (d, s) l -> P d /\ P s) -> good (copy_cells l).
Proof.
  induction l as [|[d s] l IH]; intros H; [apply good_ret|]. cbn [copy_cells].
  destruct (H d s (or_introl eq_refl)). apply good_bind; [apply good_elem_assign; auto|intros _].
  apply IH. intros; apply H; right; auto.
Qed.
Lemma good_mseq {A} (f : A -> M T unit) l : (forall x, In x l -> good (f x)) -> good (mseq f l).
Proof.
  induction l as [|x l IH]; intros H; [apply good_ret|]. cbn [mseq].
  apply good_bind; [apply H; left; auto|intros _]. apply IH. intros; apply H; right; auto.
Qed.
Lemma good_apply_cell f p : P p -> good (apply_cell f p).
Proof.
  intros Hp. unfold apply_cell. apply good_bind; [apply good_load; auto|intros v].
  apply good_bind; [apply good_tick|intros _]. apply good_store; auto.
Qed.
Lemma good_fill base num : (forall k, 0 <= k < num -> P (padd base k)) -> forall l k, 0 <= k ->
  good (assign_loop (padd base k) l k num).
Proof.
  intros H. induction l as [|v l IH]; intros k Hk; [apply good_ret|]. cbn [assign_loop].
  destruct (Z.ltb_spec k num); [|apply good_ret].
  apply good_bind; [apply good_tick|intros _]. apply good_bind; [apply good_store; apply H; lia|intros _].
  rewrite padd_padd. apply IH. lia.
Qed.
End Local.

Lemma list_eqb_dec l1 l2 : {l1 = l2} + {l1 <> l2 :> list Z}.
Proof. apply list_eq_dec. apply Z.eq_dec. Qed.

Lemma good_buffer_op {T} c (m : M T unit) : array_object c -> buffer_op c m -> good (cell_of c) m.
Proof.
  intros Hc Hm. induction Hm as [chk a i v Ha Hu|chk a i v Ha Hu|chk dst src Hd Hs Hx|chk dst src Hd Hs Hx|chk f a Ha|l|m1 m2 H1 IH1 H2 IH2].
  - pose proof (derived_ok c a Hc Ha) as Hok. unfold set_element.
    destruct (in_bounds_dec (nd_base a) (nd_ext a) i) as [Hi|Hi].
    + rewrite access_element_ok by auto. apply good_ext with (m' := _ <~ tick ;; store (addr a i) v); [reflexivity|].
      apply good_bind; [apply good_tick|intros _]. apply good_store. eapply derived_cell; eauto.
    + destruct Hu as [Hu|(-> & Hlen & Hf)]; [tauto|].
      destruct (proj2 (c04_range_check_exact c a i Hc Ha Hlen Hf) Hi) as [-> _].
      apply good_ext with (m' := lift Abort); [reflexivity|]. apply good_lift. discriminate.
  - pose proof (derived_ok c a Hc Ha) as Hok. unfold set_bracket.
    destruct (in_bounds_dec (nd_base a) (nd_ext a) i) as [Hi|Hi].
    + rewrite bracket_ok by auto. apply good_ext with (m' := _ <~ tick ;; store (addr a i) v); [reflexivity|].
      apply good_bind; [apply good_tick|intros _]. apply good_store. eapply derived_cell; eauto.
    + destruct Hu as [Hu|(-> & Hlen & Hf)]; [tauto|].
      destruct (proj2 (c04_range_check_exact c a i Hc Ha Hlen Hf) Hi) as [_ ->].
      apply good_ext with (m' := lift Abort); [reflexivity|]. apply good_lift. discriminate.
  - pose proof (derived_ok c dst Hc Hd) as Hok1. pose proof (derived_ok c src Hc Hs) as Hok2.
    destruct (list_eqb_dec (nd_ext dst) (nd_ext src)) as [E|E].
    + apply good_ext with (m' := copy_cells (combine (addrs dst) (addrs src))).
      { intros w. apply assign_nd_eq; auto. congruence. }
      apply good_copy_cells. intros d s H. pose proof (in_combine_l _ _ _ _ H) as Ha. pose proof (in_combine_r _ _ _ _ H) as Hb.
      rewrite in_addrs, element_of_addr in Ha, Hb by auto. destruct Ha as (i & Hi & ->), Hb as (j & Hj & ->).
      split; eapply derived_cell; eauto.
    + destruct Hx as [->|Hx]; [|tauto].
      apply good_ext with (m' := lift Abort); [|apply good_lift; discriminate].
      intros w. apply (c12_shape_mismatch_aborts T w c c dst src); auto.
  - pose proof (derived_ok c dst Hc Hd) as Hok1. pose proof (derived_ok c src Hc Hs) as Hok2.
    destruct (list_eqb_dec (nd_ext dst) (nd_ext src)) as [E|E].
    + apply good_ext with (m' := copy_cells (combine (addrs dst) (addrs src))).
      { intros w. apply copy_array_eq; auto. congruence. }
      apply good_copy_cells. intros d s H. pose proof (in_combine_l _ _ _ _ H) as Ha. pose proof (in_combine_r _ _ _ _ H) as Hb.
      rewrite in_addrs, element_of_addr in Ha, Hb by auto. destruct Ha as (i & Hi & ->), Hb as (j & Hj & ->).
      split; eapply derived_cell; eauto.
    + destruct Hx as [->|Hx]; [|tauto].
      apply good_ext with (m' := lift Abort); [|apply good_lift; discriminate].
      intros w. apply (c12_shape_mismatch_aborts T w c c dst src); auto.
  - pose proof (derived_ok c a Hc Ha) as Hok.
    apply good_ext with (m' := mseq (apply_cell f) (addrs a)).
    { intros w. apply for_each_eq; auto. }
    apply good_mseq. intros p Hp. apply good_apply_cell. rewrite in_addrs, element_of_addr in Hp by auto.
    destruct Hp as (i & Hi & ->). eapply derived_cell; eauto.
  - unfold cr_assign. rewrite <- (padd_0 (cr_base c)). apply good_fill; [|lia].
    intros k Hk. exists k. auto.
  - apply good_bind; auto.
Qed.

(** any sequence of operations on a wrapped buffer, whatever its outcome and
    whichever element operation throws, depends only on the num_elements()
    cells starting at data() and changes no other slot *)
Theorem c37_operations_stay_in_the_buffer : forall (T : Type) c (m : M T unit),
  array_object c -> buffer_op c m -> local (cell_of c) m.
Proof. intros T c m Hc Hm. apply good_buffer_op; auto. Qed.

(** and it is free of undefined behaviour, keeping all cells constructed *)
Theorem c37_operations_are_safe : forall (T : Type) c (m : M T unit) h f,
  array_object c -> buffer_op c m -> live h c ->
  match m (World h f) with
  | Done _ w | Thrown w | Aborted w => live (w_heap w) c
  | Undef | OutOfFuel => False
  end.
Proof.
  intros T c m h f Hc Hm Hl. destruct (good_buffer_op c m Hc Hm) as [_ S].
  assert (I : forall p, cell_of c p -> init h p) by (intros; apply element_at_init; auto).
  specialize (S h f I). destruct (m (World h f)) as [a w|w|w| |]; auto; intros p Hp; apply element_at_init; auto.
Qed.

(** reindex and reshape leave the set of cells as it is (they have no access to
    memory at all) *)
Theorem c37_geometry_keeps_the_buffer : forall c c' bases shape,
  array_object c -> length bases = length (cr_ext c) -> layout_ok (cr_storage c) bases (cr_ext c) ->
  length shape = length (cr_ext c) -> layout_ok (cr_storage c) (cr_ib c) shape ->
  cr_reindex c bases = Ok c' \/ cr_reshape true c shape = Ok c' ->
  array_object c' /\ forall p, cell_of c' p <-> cell_of c p.
Proof.
  intros c c' bases shape Hc Lb Hb Ls Hs H.
  pose proof (array_object_ok c Hc) as Hok.
  destruct H as [H|H].
  - split; [apply (ao_reindex c bases); auto|]. intros p. unfold cell_of.
    rewrite reindex_eq in H by auto. injection H as <-. reflexivity.
  - split; [apply (ao_reshape c shape); auto|]. intros p. unfold cell_of.
    assert (E : cr_num_elements c' = cr_num_elements c /\ cr_data c' = cr_data c).
    { unfold cr_reshape in H. oinv H. oinv H. oinv H. oinv H. injection H as <-. auto. }
    destruct E as [-> ->]. reflexivity.
Qed.

Example ex_c37 : buffer_op ex_arr (T := Z)
  (_ <~ set_element true (v_nd ex_view) [1; 0] 5 ;; for_each true (fun z => z + 1) 2 (cr_nd ex_arr)).
Proof.
  apply bo_seq.
  - apply bo_set; [apply ex_view_derived|]. left. vm_compute. repeat split; congruence.
  - apply (bo_for_each ex_arr true (fun z => z + 1) (cr_nd ex_arr)). apply d_array.
Qed.

(** * C38 *)

(** dst = src where dst and src are the same elements position by position
    leaves memory as it is *)
Theorem c38_identity_assignment : forall (T : Type) (h : heap T) chk c1 c2 dst src,
  array_object c1 -> derived c1 dst -> array_object c2 -> derived c2 src -> nd_ext dst = nd_ext src -> live h c1 ->
  (forall k, in_bounds (repeat 0 (length (nd_ext dst))) (nd_ext dst) k ->
     access_element true dst (tadd (nd_base dst) k) = access_element true src (tadd (nd_base src) k)) ->
  assign_nd chk (length (nd_ext dst)) dst src (World h None) = Done tt (World h None) /\
  copy_array chk (length (nd_ext dst)) dst src (World h None) = Done tt (World h None).
Proof.
  intros T h chk c1 c2 dst src H1 Hd H2 Hs He Hl HA.
  pose proof (derived_ok c1 dst H1 Hd) as Hok1. pose proof (derived_ok c2 src H2 Hs) as Hok2.
  pose proof Hok1 as (L1 & _). pose proof Hok2 as (L2 & _).
  rewrite assign_nd_eq, copy_array_eq by (auto; congruence).
  assert (E : combine (addrs dst) (addrs src) = map (fun p => (p, p)) (map (fun k => addr dst (tadd (nd_base dst) k)) (positions (nd_ext dst)))).
  { rewrite copy_pairs by auto. rewrite map_map. apply map_ext_in. intros k Hk. apply in_positions in Hk.
    specialize (HA k Hk). rewrite !access_element_ok in HA by (auto; apply tadd_in_bounds; rewrite <- ?He; auto; congruence).
    injection HA. intros. f_equal. destruct (addr dst (tadd (nd_base dst) k)) eqn:E1, (addr src (tadd (nd_base src) k)) eqn:E2; simpl in *; congruence. }
  assert (I : copy_cells (combine (addrs dst) (addrs src)) (World h None) = Done tt (World h None)).
  { rewrite E. apply copy_cells_id. intros p Hp. apply in_map_iff in Hp. destruct Hp as (k & <- & Hk). apply in_positions in Hk.
    apply element_at_init. apply Hl. apply (derived_cell c1 dst); auto. apply tadd_in_bounds; auto. }
  auto.
Qed.

(** in particular x = x, through the copy assignment operator or the converting one *)
Theorem c38_self_assignment : forall (T : Type) (h : heap T) chk same c a,
  array_object c -> derived c a -> live h c ->
  assign_copy chk same (length (nd_ext a)) a a (World h None) = Done tt (World h None) /\
  assign_nd chk (length (nd_ext a)) a a (World h None) = Done tt (World h None).
Proof.
  intros T h chk same c a Hc Ha Hl.
  destruct (c38_identity_assignment T h chk c c a a) as [E _]; auto.
  split; [|auto]. destruct same; [reflexivity|exact E].
Qed.

Example ex_c38 : assign_nd true 2 (v_nd ex_view) (v_nd ex_view) (World ex_heap None) = Done tt (World ex_heap None).
Proof. vm_compute. reflexivity. Qed.
