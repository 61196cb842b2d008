(** ThmCopy.v -- C08, C12, C20 (for_each), C21, C34, C37, C38 *)

From Coq Require Import ZArith List Bool Permutation Sorted Lia.
From Verif Require Import Base StorageOrder Ranges Layout Access Objects Memory Ops
  Spec ViewSpec ReachSpec IterSpec MemSpec
  Facts LayoutProofs AccessProofs ViewProofs MemoryProofs CopyProofs ReachProofs ThmAddressing ThmGeometry ThmIter.
Import ListNotations.
Local Open Scope Z_scope.

(** * cells of an array *)

Lemma element_at_init {T} (h : heap T) p : element_at h p <-> init h p.
Proof.
  unfold element_at, init. split; intros [v H]; exists v; apply hread_init; auto.
Qed.

Lemma cref_cell c j : cref_ok c -> in_bounds (cr_ib c) (cr_ext c) j -> cell_of c (addr (cr_nd c) j).
Proof.
  intros Hc Hj. pose proof (in_bounds_length _ _ _ Hj) as [_ Lj].
  rewrite cref_addr by auto. exists (pos_of (cr_storage c) (cr_ib c) (cr_ext c) j).
  split; [|reflexivity]. destruct Hc as (Ho & Hr & Hs & Hoo & Hn). unfold cr_num_elements. rewrite Hn.
  unfold pos_of. apply position_bound; auto.
Qed.

Lemma derived_cell c a i : array_object c -> derived c a -> in_bounds (nd_base a) (nd_ext a) i -> cell_of c (addr a i).
Proof.
  intros Hc Ha Hi. destruct (derived_inside c a Hc Ha i Hi) as (j & Hj & ->).
  apply cref_cell; auto. apply array_object_ok; auto.
Qed.

Lemma element_of_addr a p : nd_ok a -> element_of a p <-> exists i, in_bounds (nd_base a) (nd_ext a) i /\ p = addr a i.
Proof.
  intros Ha. unfold element_of. split; intros (i & Hi & E); exists i; split; auto.
  - rewrite access_element_ok in E by auto. injection E as <-. auto.
  - rewrite E. apply access_element_ok; auto.
Qed.

(** * C08 *)

Section Write.
Context {T : Type}.

Lemma store_spec (h : heap T) p v f : init h p -> exists h', store p v (World h f) = Done tt (World h' f) /\
  same_frame h h' /\ (forall q, hcell h' q = if ptr_eqb p q then Some (Some v) else hcell h q).
Proof.
  intros [u Hu]. destruct (hset_spec h p (Some v) _ Hu) as (h' & E & F & C & B).
  exists h'. unfold store, hwrite. cbn [w_heap w_fuse]. rewrite Hu, E. auto.
Qed.

Lemma get_element_eq chk (h : heap T) f a i : nd_ok a -> in_bounds (nd_base a) (nd_ext a) i ->
  get_element chk a i (World h f) = load (addr a i) (World h f).
Proof. intros Ha Hi. unfold get_element. rewrite access_element_ok by auto. reflexivity. Qed.

Lemma reads_iff (h : heap T) a i v : nd_ok a -> in_bounds (nd_base a) (nd_ext a) i ->
  reads h a i v <-> hcell h (addr a i) = Some (Some v).
Proof.
  intros Ha Hi. unfold reads. rewrite get_element_eq by auto. unfold load, lift, hread. cbn [w_heap].
  destruct (hcell h (addr a i)) as [[u|]|]; split; intros H; try discriminate; inversion H; auto.
Qed.

End Write.

(** Writing v to element i of a (an array, subarray or view of c), by either
    notation: that element then reads v through every array-like object that
    can reach it, every other element of every object reads as before, and no
    slot other than that element changes *)
Theorem c08_write_hits_the_aliased_element : forall (T : Type) (h : heap T) chk c a i v,
  array_object c -> derived c a -> live h c -> in_bounds (nd_base a) (nd_ext a) i ->
  exists h' p, access_element chk a i = Ok p /\ cell_of c p /\
    set_element chk a i v (World h None) = Done tt (World h' None) /\
    set_bracket chk a i v (World h None) = Done tt (World h' None) /\
    (forall q, q <> p -> same_at h h' q) /\
    forall c' a' j, array_object c' -> derived c' a' -> in_bounds (nd_base a') (nd_ext a') j ->
      (access_element chk a' j = Ok p -> reads h' a' j v) /\
      (access_element chk a' j <> Ok p -> forall u, reads h a' j u <-> reads h' a' j u).
Proof.
  intros T h chk c a i v Hc Ha Hl Hi. pose proof (derived_ok c a Hc Ha) as Hok.
  pose proof (derived_cell c a i Hc Ha Hi) as Hcell.
  destruct (store_spec h (addr a i) v None (proj1 (element_at_init _ _) (Hl _ Hcell))) as (h' & E & F & C).
  exists h', (addr a i). split; [apply access_element_ok; auto|]. split; [auto|].
  split; [unfold set_element; rewrite access_element_ok by auto; exact E|].
  split; [unfold set_bracket; rewrite bracket_ok by auto; exact E|].
  split.
  { intros q Hq. unfold same_at. rewrite C. destruct (ptr_eqb (addr a i) q) eqn:Eq; auto.
    apply ptr_eqb_eq in Eq. congruence. }
  intros c' a' j Hc' Ha' Hj. pose proof (derived_ok c' a' Hc' Ha') as Hok'.
  rewrite access_element_ok by auto. split.
  - intros Ep. assert (Ep' : addr a' j = addr a i) by congruence. apply reads_iff; auto. rewrite C, Ep', ptr_eqb_refl. auto.
  - intros Hne u. rewrite !reads_iff by auto. rewrite C.
    destruct (ptr_eqb (addr a i) (addr a' j)) eqn:Eq; [|tauto]. apply ptr_eqb_eq in Eq. congruence.
Qed.

(** an element write that throws changes nothing *)
Theorem c08_throwing_write_changes_nothing : forall (T : Type) (h : heap T) chk c a i v,
  array_object c -> derived c a -> in_bounds (nd_base a) (nd_ext a) i ->
  set_element chk a i v (World h (Some O)) = Thrown (World h None).
Proof.
  intros T h chk c a i v Hc Ha Hi. unfold set_element.
  rewrite access_element_ok by (auto; eapply derived_ok; eauto). reflexivity.
Qed.

(** a heap for the example array: block 7 holds 10..15 *)
Definition ex_heap : heap Z :=
  repeat None 7 ++ [Some (Block 0 (map (fun k => Some (10 + Z.of_nat k)) (seq 0 6)))].
Example ex_live : live ex_heap ex_arr.
Proof.
  intros p (k & Hk & ->). unfold cr_num_elements, ex_arr in Hk. cbn [cr_num] in Hk.
  exists (10 + k). unfold cr_data, ex_arr, hread, hcell, hblock, ex_heap, padd. cbn -[Z.add Z.ltb Z.to_nat nth_error].
  destruct (Z.ltb_spec (0 + k) 0); [lia|].
  assert (k = 0 \/ k = 1 \/ k = 2 \/ k = 3 \/ k = 4 \/ k = 5) as D by lia.
  destruct D as [->|[->|[->|[->|[->| ->]]]]]; reflexivity.
Qed.
(** writing through the example view changes the array *)
Example ex_c08 : exists h', set_element true (v_nd ex_view) [1; 0] 99 (World ex_heap None) = Done tt (World h' None) /\
  reads h' (cr_nd ex_arr) [2; 0] 99 /\ reads ex_heap (cr_nd ex_arr) [2; 0] 11 /\ reads h' (cr_nd ex_arr) [1; 0] 10.
Proof. eexists. split; [vm_compute; reflexivity|]. repeat split; vm_compute; reflexivity. Qed.

(** * C12 *)

Lemma tuples_shift : forall bs es, length bs = length es ->
  tuples bs es = map (tadd bs) (positions es).
Proof.
  unfold positions. induction bs as [|b bs IH]; intros [|e es] L; simpl in L; try lia; [reflexivity|].
  cbn [tuples length repeat]. rewrite (IH es) by lia.
  rewrite flat_map_concat_map, (flat_map_concat_map _ (zseq 0 _)), List.concat_map, !map_map.
  unfold zseq. rewrite !map_map. f_equal. apply map_ext. intros k. rewrite !map_map. apply map_ext. intros t.
  cbn [tadd]. reflexivity.
Qed.

Lemma copy_pairs dst src : nd_ok dst -> nd_ok src -> nd_ext dst = nd_ext src ->
  combine (addrs dst) (addrs src) =
  map (fun k => (addr dst (tadd (nd_base dst) k), addr src (tadd (nd_base src) k))) (positions (nd_ext dst)).
Proof.
  intros (L1 & _) (L2 & _) E. unfold addrs. rewrite !tuples_shift by auto. rewrite E.
  induction (positions (nd_ext src)) as [|k l IH]; simpl; auto. f_equal. auto.
Qed.

Lemma in_positions es k : In k (positions es) <-> in_bounds (repeat 0 (length es)) es k.
Proof. unfold positions. apply in_tuples. apply repeat_length. Qed.

Section Assign.
Context {T : Type}.

Lemma assign_in_order_eq chk dst src : nd_ok dst -> nd_ok src -> nd_ext dst = nd_ext src ->
  forall ks (w : world T), (forall k, In k ks -> in_bounds (repeat 0 (length (nd_ext dst))) (nd_ext dst) k) ->
  assign_in_order chk dst src ks w =
  copy_cells (map (fun k => (addr dst (tadd (nd_base dst) k), addr src (tadd (nd_base src) k))) ks) w.
Proof.
  intros Hd Hs He. pose proof Hd as (L1 & _). pose proof Hs as (L2 & _).
  induction ks as [|k ks IH]; intros w Hk; [reflexivity|]. cbn [assign_in_order map copy_cells].
  assert (B : in_bounds (repeat 0 (length (nd_ext dst))) (nd_ext dst) k) by (apply Hk; left; auto).
  unfold get_element, set_element.
  rewrite access_element_ok by (auto; apply tadd_in_bounds; rewrite <- ?He; auto; congruence).
  rewrite access_element_ok by (auto; apply tadd_in_bounds; auto).
  unfold elem_assign, bind, lift.
  destruct (load (addr src (tadd (nd_base src) k)) w) as [v w1|w1|w1| |]; auto.
  destruct (tick w1) as [? w2|w2|w2| |]; auto.
  destruct (store _ v w2) as [? w3|w3|w3| |]; auto. apply IH. intros; apply Hk; right; auto.
Qed.

Lemma assign_positions chk dst src (w : world T) : nd_ok dst -> nd_ok src -> nd_ext dst = nd_ext src ->
  assign_nd chk (length (nd_ext dst)) dst src w = assign_in_order chk dst src (positions (nd_ext dst)) w.
Proof.
  intros Hd Hs He. rewrite assign_nd_eq by (auto; congruence). rewrite copy_pairs by auto.
  symmetry. apply assign_in_order_eq; auto. intros k Hk. apply in_positions; auto.
Qed.

End Assign.

(** Assignment is the element assignments dst(k) = src(k) in lexicographic
    order -- for every state of memory, also for overlapping operands and when
    an element assignment throws *)
Theorem c12_assignment_is_elementwise : forall (T : Type) (w : world T) chk c1 c2 dst src,
  array_object c1 -> derived c1 dst -> array_object c2 -> derived c2 src -> nd_ext dst = nd_ext src ->
  assign_nd chk (length (nd_ext dst)) dst src w = assign_in_order chk dst src (positions (nd_ext dst)) w /\
  copy_array chk (length (nd_ext dst)) dst src w = assign_in_order chk dst src (positions (nd_ext dst)) w.
Proof.
  intros T w chk c1 c2 dst src H1 Hd H2 Hs He.
  pose proof (derived_ok c1 dst H1 Hd) as Hok1. pose proof (derived_ok c2 src H2 Hs) as Hok2.
  split; [apply assign_positions; auto|].
  rewrite copy_array_eq by (auto; congruence). rewrite <- assign_positions by auto.
  symmetry. apply assign_nd_eq; auto. congruence.
Qed.

(** different shapes are rejected before anything is modified *)
Theorem c12_shape_mismatch_aborts : forall (T : Type) (w : world T) c1 c2 dst src,
  array_object c1 -> derived c1 dst -> array_object c2 -> derived c2 src -> nd_ext dst <> nd_ext src ->
  assign_nd true (length (nd_ext dst)) dst src w = Aborted w /\
  copy_array true (length (nd_ext dst)) dst src w = Aborted w.
Proof.
  intros T w c1 c2 dst src H1 Hd H2 Hs He.
  pose proof (derived_ok c1 dst H1 Hd) as (_ & _ & L & _).
  destruct (length (nd_ext dst)) as [|n]; [lia|]. split; [apply assign_nd_abort; congruence|].
  unfold copy_array. rewrite list_eqb_neq by congruence. reflexivity.
Qed.

Lemma derived_addr_nodup c a ks : array_object c -> derived c a ->
  (forall k, In k ks -> in_bounds (repeat 0 (length (nd_ext a))) (nd_ext a) k) -> NoDup ks ->
  NoDup (map (fun k => addr a (tadd (nd_base a) k)) ks).
Proof.
  intros Hc Ha Hk Hn. pose proof (derived_ok c a Hc Ha) as (L1 & _).
  apply nodup_map_inj; auto. intros x y Hx Hy E.
  pose proof (Hk x Hx) as Bx. pose proof (Hk y Hy) as By.
  apply (derived_inj c a Hc Ha) in E; try (apply tadd_in_bounds; auto).
  pose proof (in_bounds_length _ _ _ Bx) as [_ Lx]. pose proof (in_bounds_length _ _ _ By) as [_ Ly].
  assert (length x = length (nd_base a)) by lia. assert (length y = length (nd_base a)) by lia.
  clear - E H H0. revert x y E H H0. induction (nd_base a) as [|b l IH]; intros [|x xs] [|y ys] E H H0;
    simpl in *; try lia; auto. injection E as E1 E2. f_equal; [lia|]. apply IH; auto.
Qed.

Lemma nodup_positions es : NoDup (positions es).
Proof. apply nodup_tuples. Qed.

Section NoOverlap.
Context {T : Type}.

(** effect of the first part of an assignment *)
Lemma assign_prefix_effect chk c1 c2 dst src (h : heap T) ks :
  array_object c1 -> derived c1 dst -> array_object c2 -> derived c2 src -> nd_ext dst = nd_ext src ->
  live h c1 -> live h c2 -> no_overlap dst src ->
  (forall k, In k ks -> in_bounds (repeat 0 (length (nd_ext dst))) (nd_ext dst) k) -> NoDup ks ->
  exists h', assign_in_order chk dst src ks (World h None) = Done tt (World h' None) /\
    same_frame h h' /\
    (forall k, In k ks -> hcell h' (addr dst (tadd (nd_base dst) k)) = hcell h (addr src (tadd (nd_base src) k))) /\
    (forall p, ~ In p (map (fun k => addr dst (tadd (nd_base dst) k)) ks) -> hcell h' p = hcell h p).
Proof.
  intros H1 Hd H2 Hs He Hl1 Hl2 Hno Hk Hn.
  pose proof (derived_ok c1 dst H1 Hd) as Hok1. pose proof (derived_ok c2 src H2 Hs) as Hok2.
  pose proof Hok1 as (L1 & _). pose proof Hok2 as (L2 & _).
  rewrite assign_in_order_eq by auto.
  set (pairs := map (fun k => (addr dst (tadd (nd_base dst) k), addr src (tadd (nd_base src) k))) ks).
  assert (HP : forall d s, In (d, s) pairs -> exists k, In k ks /\ d = addr dst (tadd (nd_base dst) k) /\ s = addr src (tadd (nd_base src) k)).
  { intros d s H. unfold pairs in H. apply in_map_iff in H. destruct H as (k & E & H). injection E as <- <-. exists k. auto. }
  destruct (copy_cells_done pairs h None) as (h' & E & F & C & B); auto.
  { intros d s H. apply HP in H. destruct H as (k & Hi & -> & ->). specialize (Hk k Hi). split; apply element_at_init.
    - apply Hl1. apply (derived_cell c1 dst); auto. apply tadd_in_bounds; auto.
    - apply Hl2. apply (derived_cell c2 src); auto. apply tadd_in_bounds; rewrite <- ?He; auto; congruence. }
  exists h'. cbn [option_map] in E. split; [exact E|]. split; [auto|].
  assert (MF : map fst pairs = map (fun k => addr dst (tadd (nd_base dst) k)) ks).
  { unfold pairs. rewrite map_map. reflexivity. }
  split.
  - intros k Hi. rewrite C.
    apply copy_sem_disjoint with (s := addr src (tadd (nd_base src) k)).
    + rewrite MF. apply (derived_addr_nodup c1); auto.
    + intros d s H. left. apply HP in H. destruct H as (k' & Hi' & -> & ->). rewrite MF. intros H.
      apply in_map_iff in H. destruct H as (k2 & E2 & Hi2).
      apply (Hno (addr src (tadd (nd_base src) k'))).
      * apply element_of_addr; auto. eexists. split; [|symmetry; exact E2]. apply tadd_in_bounds; auto.
      * apply element_of_addr; auto. eexists. split; [|reflexivity]. apply tadd_in_bounds; rewrite <- ?He; auto; congruence.
    + unfold pairs. apply in_map_iff. exists k. auto.
  - intros p Hp. rewrite C. apply copy_sem_other. rewrite MF. auto.
Qed.

Lemma live_frame (h h' : heap T) c a b : live h c ->
  (forall p, (exists v, hcell h p = Some (Some v)) -> ~ a p -> hcell h' p = hcell h p) ->
  (forall p, a p -> init h' p) -> (forall p, b p -> a p \/ ~ a p) -> (forall p, cell_of c p -> b p) -> live h' c.
Proof.
  intros Hl H1 H2 H3 H4 p Hp. apply element_at_init. destruct (H3 p (H4 p Hp)) as [Ha|Ha]; auto.
  destruct (proj1 (element_at_init _ _) (Hl p Hp)) as [v Hv]. exists v. rewrite H1; eauto.
Qed.

End NoOverlap.

(** dst = src for operands without common cells: afterwards dst reads at every
    position what src read there before, src reads as before, and no slot
    outside dst changes *)
Theorem c12_deep_copy : forall (T : Type) (h : heap T) chk c1 c2 dst src,
  array_object c1 -> derived c1 dst -> array_object c2 -> derived c2 src -> nd_ext dst = nd_ext src ->
  live h c1 -> live h c2 -> no_overlap dst src ->
  exists h', assign_nd chk (length (nd_ext dst)) dst src (World h None) = Done tt (World h' None) /\
    (forall k, in_bounds (repeat 0 (length (nd_ext dst))) (nd_ext dst) k ->
       exists v, reads h src (tadd (nd_base src) k) v /\
                 reads h' src (tadd (nd_base src) k) v /\ reads h' dst (tadd (nd_base dst) k) v) /\
    (forall p, ~ element_of dst p -> same_at h h' p) /\
    live h' c1 /\ live h' c2.
Proof.
  intros T h chk c1 c2 dst src H1 Hd H2 Hs He Hl1 Hl2 Hno.
  pose proof (derived_ok c1 dst H1 Hd) as Hok1. pose proof (derived_ok c2 src H2 Hs) as Hok2.
  pose proof Hok1 as (L1 & _). pose proof Hok2 as (L2 & _).
  destruct (assign_prefix_effect chk c1 c2 dst src h (positions (nd_ext dst)) H1 Hd H2 Hs He Hl1 Hl2 Hno)
    as (h' & E & F & C & O).
  { intros k Hk. apply in_positions; auto. }
  { apply nodup_positions. }
  assert (EO : forall p, In p (map (fun k => addr dst (tadd (nd_base dst) k)) (positions (nd_ext dst))) <-> element_of dst p).
  { intros p. rewrite element_of_addr by auto. rewrite in_map_iff. split.
    - intros (k & <- & Hk). apply in_positions in Hk. eexists. split; [|reflexivity]. apply tadd_in_bounds; auto.
    - intros (i & Hi & ->). destruct (tadd_surj _ _ _ Hi) as (k & Hk & ->). exists k. split; auto. apply in_positions; auto. }
  assert (V : forall k, in_bounds (repeat 0 (length (nd_ext dst))) (nd_ext dst) k ->
     exists v, hcell h (addr src (tadd (nd_base src) k)) = Some (Some v) /\
       hcell h' (addr src (tadd (nd_base src) k)) = Some (Some v) /\ hcell h' (addr dst (tadd (nd_base dst) k)) = Some (Some v)).
  { intros k Hk. assert (Bs : in_bounds (nd_base src) (nd_ext src) (tadd (nd_base src) k)) by (apply tadd_in_bounds; rewrite <- ?He; auto; congruence).
    destruct (proj1 (element_at_init _ _) (Hl2 _ (derived_cell c2 src _ H2 Hs Bs))) as [v Hv]. exists v. split; [auto|].
    rewrite C by (apply in_positions; auto). rewrite O; auto. intros Hin. apply EO in Hin.
    apply (Hno _ Hin). apply element_of_addr; auto. eexists; eauto. }
  exists h'. split; [rewrite assign_positions by auto; exact E|]. split; [|split; [|split]].
  - intros k Hk. destruct (V k Hk) as (v & V1 & V2 & V3). exists v.
    rewrite !reads_iff; auto; apply tadd_in_bounds; auto; rewrite <- He; auto.
  - intros p Hp. apply O. rewrite EO. auto.
  - intros p Hp. apply element_at_init. 
    destruct (in_dec ptr_eq_dec p (map (fun k => addr dst (tadd (nd_base dst) k)) (positions (nd_ext dst)))) as [Hi|Hi].
    + apply in_map_iff in Hi. destruct Hi as (k & <- & Hk). apply in_positions in Hk.
      destruct (V k Hk) as (v & _ & _ & V3). exists v; auto.
    + unfold init. rewrite O by auto. apply element_at_init. apply Hl1; auto.
  - intros p Hp. apply element_at_init. 
    destruct (in_dec ptr_eq_dec p (map (fun k => addr dst (tadd (nd_base dst) k)) (positions (nd_ext dst)))) as [Hi|Hi].
    + apply in_map_iff in Hi. destruct Hi as (k & <- & Hk). apply in_positions in Hk.
      destruct (V k Hk) as (v & _ & _ & V3). exists v; auto.
    + unfold init. rewrite O by auto. apply element_at_init. apply Hl2; auto.
Qed.

(** if the (k+1)-th element assignment throws, exactly the first k have been done *)
Theorem c12_throwing_assignment : forall (T : Type) (h : heap T) chk c1 c2 dst src k,
  array_object c1 -> derived c1 dst -> array_object c2 -> derived c2 src -> nd_ext dst = nd_ext src ->
  live h c1 -> live h c2 -> no_overlap dst src -> (k < length (positions (nd_ext dst)))%nat ->
  exists h', assign_nd chk (length (nd_ext dst)) dst src (World h (Some k)) = Thrown (World h' None) /\
    (forall j, In j (firstn k (positions (nd_ext dst))) -> exists v,
       reads h src (tadd (nd_base src) j) v /\ reads h' dst (tadd (nd_base dst) j) v) /\
    (forall j, In j (skipn k (positions (nd_ext dst))) -> exists v,
       reads h dst (tadd (nd_base dst) j) v /\ reads h' dst (tadd (nd_base dst) j) v) /\
    (forall p, ~ element_of dst p -> same_at h h' p).
Proof.
  intros T h chk c1 c2 dst src k H1 Hd H2 Hs He Hl1 Hl2 Hno Hk.
  pose proof (derived_ok c1 dst H1 Hd) as Hok1. pose proof (derived_ok c2 src H2 Hs) as Hok2.
  pose proof Hok1 as (L1 & _). pose proof Hok2 as (L2 & _).
  set (ps := positions (nd_ext dst)) in *.
  assert (Hps : forall j, In j ps -> in_bounds (repeat 0 (length (nd_ext dst))) (nd_ext dst) j) by (intros j; apply in_positions).
  assert (Hnd : NoDup (firstn k ps ++ skipn k ps)) by (rewrite firstn_skipn; apply nodup_positions).
  assert (F1 : forall j, In j (firstn k ps) -> In j ps) by (intros j Hj; rewrite <- (firstn_skipn k ps); apply in_or_app; auto).
  assert (F2 : forall j, In j (skipn k ps) -> In j ps) by (intros j Hj; rewrite <- (firstn_skipn k ps); apply in_or_app; auto).
  destruct (assign_prefix_effect chk c1 c2 dst src h (firstn k ps) H1 Hd H2 Hs He Hl1 Hl2 Hno)
    as (h' & E & F & C & O); auto.
  { apply NoDup_app_inv in Hnd. tauto. }
  set (pair := fun j => (addr dst (tadd (nd_base dst) j), addr src (tadd (nd_base src) j))).
  destruct (copy_cells_thrown (map pair ps) h k) as (h2 & E2 & _ & C2 & _).
  { intros d s H. apply in_map_iff in H. destruct H as (j & Ej & Hj). injection Ej as <- <-. specialize (Hps j Hj).
    split; apply element_at_init.
    - apply Hl1. apply (derived_cell c1 dst); auto. apply tadd_in_bounds; auto.
    - apply Hl2. apply (derived_cell c2 src); auto. apply tadd_in_bounds; rewrite <- ?He; auto; congruence. }
  { rewrite map_length. auto. }
  assert (EC : forall q, hcell h2 q = hcell h' q).
  { intros q. rewrite C2. rewrite assign_in_order_eq in E by auto.
    destruct (copy_cells_done (map pair (firstn k ps)) h None) as (h3 & E3 & _ & C3 & _); auto.
    { intros d s H. apply in_map_iff in H. destruct H as (j & Ej & Hj). injection Ej as <- <-. specialize (Hps j (F1 j Hj)).
      split; apply element_at_init.
      - apply Hl1. apply (derived_cell c1 dst); auto. apply tadd_in_bounds; auto.
      - apply Hl2. apply (derived_cell c2 src); auto. apply tadd_in_bounds; rewrite <- ?He; auto; congruence. }
    unfold pair in E3. rewrite E in E3. injection E3 as <-. rewrite C3, firstn_map. reflexivity. }
  exists h2. split.
  { rewrite assign_nd_eq by (auto; congruence). rewrite copy_pairs by auto. exact E2. }
  split; [|split].
  - intros j Hj. pose proof (Hps j (F1 j Hj)) as B.
    assert (Bs : in_bounds (nd_base src) (nd_ext src) (tadd (nd_base src) j)) by (apply tadd_in_bounds; rewrite <- ?He; auto; congruence).
    destruct (proj1 (element_at_init _ _) (Hl2 _ (derived_cell c2 src _ H2 Hs Bs))) as [v Hv]. exists v.
    rewrite !reads_iff; auto; [|apply tadd_in_bounds; auto]. split; [auto|]. rewrite EC, C by auto. auto.
  - intros j Hj. pose proof (Hps j (F2 j Hj)) as B.
    assert (Bd : in_bounds (nd_base dst) (nd_ext dst) (tadd (nd_base dst) j)) by (apply tadd_in_bounds; auto).
    destruct (proj1 (element_at_init _ _) (Hl1 _ (derived_cell c1 dst _ H1 Hd Bd))) as [v Hv]. exists v.
    rewrite !reads_iff; auto. split; [auto|]. rewrite EC, O; auto. intros Hi. apply in_map_iff in Hi.
    destruct Hi as (j' & Ej & Hj').
    assert (NoDup (map (fun k => addr dst (tadd (nd_base dst) k)) ps)) as ND by (apply (derived_addr_nodup c1); auto; apply nodup_positions).
    rewrite <- (firstn_skipn k ps), map_app in ND.
    apply NoDup_app_inv in ND. destruct ND as (_ & _ & ND). apply (ND (addr dst (tadd (nd_base dst) j))).
    + rewrite <- Ej. apply in_map_iff. eauto.
    + apply in_map_iff. eauto.
  - intros p Hp. unfold same_at. rewrite EC. apply O. intros Hi. apply in_map_iff in Hi. destruct Hi as (j & <- & Hj).
    apply Hp. apply element_of_addr; auto. eexists. split; [|reflexivity]. apply tadd_in_bounds; auto.
Qed.
