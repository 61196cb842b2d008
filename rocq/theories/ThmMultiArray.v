(** ThmMultiArray.v -- C11 (resize), C13, C14 (copy / converting construction),
    C24, C25 (exceptions) *)

From Coq Require Import ZArith List Bool Lia.
From Verif Require Import Base StorageOrder Ranges Layout Access Objects Memory Ops MultiArray
  Spec ViewSpec ReachSpec IterSpec MemSpec OwnSpec
  Facts LayoutProofs AccessProofs ViewProofs MemoryProofs CopyProofs ReachProofs
  ThmAddressing ThmViews ThmGeometry ThmIter ThmCopy ThmBulk OwnProofs ResizeProofs.
Import ListNotations.
Local Open Scope Z_scope.

Lemma enough_dec f n : {enough f n} + {~ enough f n}.
Proof. destruct f as [k|]; simpl; [destruct (le_dec n k); auto|auto]. Qed.

Lemma tadd_inj : forall bs x y, length x = length bs -> length y = length bs -> tadd bs x = tadd bs y -> x = y.
Proof.
  induction bs as [|b bs IH]; intros [|x xs] [|y ys] H1 H2 E; simpl in *; try lia; auto.
  injection E as E1 E2. f_equal; [lia|]. apply IH; auto.
Qed.

Section Fill.
Context {T : Type}.

Lemma hcell_app_l (h : heap T) x p : (p_blk p < length h)%nat -> hcell (h ++ [x]) p = hcell h p.
Proof. intros H. unfold hcell, hblock. rewrite nth_error_app1 by auto. auto. Qed.
Lemma init_lt (h : heap T) p : init h p -> (p_blk p < length h)%nat.
Proof. intros [v H]. destruct (hcell_inv _ _ _ H) as (k & Hk & _). apply hblock_lt in Hk. auto. Qed.

(** elements copied from older blocks into the newest one *)
Lemma fill_new aid (ds : list T) l (h : heap T) f :
  (forall d s, In (d, s) l -> p_blk d = length h /\ 0 <= p_off d < Z.of_nat (length ds) /\ init h s) ->
  let h0 := h ++ [Some (Block aid (map Some ds))] in
  (enough f (length l) -> exists vs, length vs = length ds /\
     copy_cells l (World h0 f) = Done tt (World (h ++ [Some (Block aid (map Some vs))]) (spend f (length l))) /\
     forall q, hcell (h ++ [Some (Block aid (map Some vs))]) q = copy_sem l (hcell h0) q) /\
  (~ enough f (length l) -> exists vs, length vs = length ds /\
     copy_cells l (World h0 f) = Thrown (World (h ++ [Some (Block aid (map Some vs))]) None)).
Proof.
  intros Hl h0.
  assert (E0 : nth_error h0 (length h) = Some (Some (Block aid (map Some ds)))) by apply nth_app_last.
  assert (HI : forall d s, In (d, s) l -> init h0 d /\ init h0 s).
  { intros d s H. destruct (Hl d s H) as (H1 & H2 & H3). split.
    - unfold init. destruct d as [b o]. cbn [p_blk p_off] in *. subst b. rewrite (hcell_block _ _ _ _ E0) by lia.
      cbn [b_cells]. rewrite nth_error_map. destruct (nth_error ds (Z.to_nat o)) as [v|] eqn:E; [exists v; auto|].
      apply nth_error_None in E. lia.
    - pose proof (init_lt _ _ H3). unfold init, h0. rewrite hcell_app_l by auto. auto. }
  assert (SH : forall h', same_frame h0 h' -> (forall p, init h0 p -> init h' p) ->
    (forall b, (forall d s, In (d, s) l -> p_blk d <> b) -> nth_error h' b = nth_error h0 b) ->
    exists vs, length vs = length ds /\ h' = h ++ [Some (Block aid (map Some vs))]).
  { intros h' [L F] Hi Ho. specialize (F (length h)). rewrite (hblock_nth _ _ _ E0) in F.
    destruct (hblock h' (length h)) as [[al cs]|] eqn:E; [|tauto]. cbn [b_alloc b_cells] in F. destruct F as [<- F].
    apply nth_error_hblock in E. rewrite map_length in F.
    assert (X : forall l : list (cell T), (forall k, (k < length l)%nat -> exists v, nth_error l k = Some (Some v)) -> exists vs', l = map Some vs').
    { clear. induction l as [|c l IH]; intros Hl; [exists []; auto|].
      destruct (Hl O) as [v Hv]; [simpl; lia|]. simpl in Hv. injection Hv as ->.
      destruct IH as [vs' ->]; [|exists (v :: vs'); auto]. intros k Hk. apply (Hl (S k)). simpl; lia. }
    destruct (X cs) as [vs' ->].
    { intros k Hk. destruct (Hi (Ptr (length h) (Z.of_nat k))) as [v Hv].
      - unfold init. rewrite (hcell_block _ _ _ _ E0) by lia. cbn [b_cells]. rewrite Nat2Z.id, nth_error_map.
        destruct (nth_error ds k) as [v|] eqn:Ev; [exists v; auto|]. apply nth_error_None in Ev. lia.
      - exists v. rewrite (hcell_block _ _ _ _ E) in Hv by lia. cbn [b_cells] in Hv. rewrite Nat2Z.id in Hv. auto. }
    rewrite map_length in F. exists vs'. split; [auto|].
    apply nth_error_ext. intros b. destruct (Nat.eq_dec b (length h)) as [->|Hb].
    - rewrite nth_app_last. auto.
    - rewrite Ho.
      + unfold h0. destruct (le_lt_dec (length h) b).
        * rewrite !nth_error_app2 by lia. destruct (b - length h)%nat as [|[|m]] eqn:Em; [lia|reflexivity|reflexivity].
        * rewrite !nth_error_app1 by auto. auto.
      + intros d s H. destruct (Hl d s H) as (H1 & _). congruence. }
  assert (PI : forall l' h', (forall d s, In (d, s) l' -> In (d, s) l) ->
    (forall q, hcell h' q = copy_sem l' (hcell h0) q) -> forall p, init h0 p -> init h' p).
  { intros l' h' Hsub C p Hp. unfold init. rewrite C. apply (copy_sem_init l' (hcell h0)); auto.
    intros d s H. apply Hsub in H. apply (HI d s H). }
  split; intros Hf.
  - destruct (copy_cells_done l h0 f HI Hf) as (h' & E & F & C & B).
    destruct (SH h' F) as (vs & Lv & ->); [apply (PI l); auto|auto|].
    exists vs. split; [auto|]. split; [exact E|exact C].
  - destruct f as [k|]; simpl in Hf; [|tauto].
    destruct (copy_cells_thrown l h0 k HI ltac:(lia)) as (h' & E & F & C & B).
    destruct (SH h' F) as (vs & Lv & ->); [|auto|exists vs; auto].
    apply (PI (firstn k l)); auto. intros d s H. rewrite <- (firstn_skipn k l). apply in_or_app. auto.
Qed.

Variable dflt : T.

Lemma new_num c : array_object c -> 0 <= cr_num c <= max_index.
Proof.
  intros Hc. destruct (array_object_ok c Hc) as (_ & Hr & _ & _ & ->). eapply rep_prod; apply Hr.
Qed.

Lemma new_owns c aid (h : heap T) vs : array_object c -> length vs = Z.to_nat (cr_num c) ->
  owns (h ++ [Some (Block aid (map Some vs))]) (new_ma c aid (length h)) vs.
Proof.
  intros Hc Lv. pose proof (new_num c Hc). unfold owns, new_ma. cbn [ma_ref ma_base ma_alloc_elems ma_aid].
  split; [apply ao_set_base; auto|]. split; [reflexivity|]. split; [reflexivity|]. split; [reflexivity|].
  split; [unfold cr_num_elements, cr_set_base; cbn [cr_num]; lia|].
  unfold ma_block. cbn [ma_base p_blk]. apply nth_app_last.
Qed.

(** a freshly allocated array filled from older storage *)
Lemma build_new c aid (h : heap T) ks (src : list Z -> ptr) f : array_object c ->
  NoDup ks -> (forall k, In k ks -> in_bounds (repeat 0 (length (cr_ext c))) (cr_ext c) k /\ init h (src k)) ->
  let new := new_ma c aid (length h) in
  let l := map (fun k => (addr (cr_nd (ma_ref new)) (tadd (cr_ib c) k), src k)) ks in
  let h0 := h ++ [Some (Block aid (map Some (repeat dflt (Z.to_nat (cr_num c)))))] in
  (enough f (length ks) -> exists vs, let h1 := h ++ [Some (Block aid (map Some vs))] in
     copy_cells l (World h0 f) = Done tt (World h1 (spend f (length ks))) /\
     owns h1 new vs /\
     (forall k v, In k ks -> hcell h (src k) = Some (Some v) -> reads h1 (cr_nd (ma_ref new)) (tadd (cr_ib c) k) v) /\
     (forall k, in_bounds (repeat 0 (length (cr_ext c))) (cr_ext c) k -> ~ In k ks ->
        reads h1 (cr_nd (ma_ref new)) (tadd (cr_ib c) k) dflt)) /\
  (~ enough f (length ks) -> exists vs, length vs = Z.to_nat (cr_num c) /\
     copy_cells l (World h0 f) = Thrown (World (h ++ [Some (Block aid (map Some vs))]) None)).
Proof.
  intros Hc Hn Hk new l h0.
  assert (Hc' : array_object (ma_ref new)) by (apply ao_set_base; auto).
  pose proof (array_object_ok _ Hc') as Hok. pose proof (cref_addressable _ Hok) as Hnd.
  pose proof (cref_ok_len _ Hok) as [Lb _]. change (length (cr_ib c) = length (cr_ext c)) in Lb.
  assert (Ll : length l = length ks) by (unfold l; apply map_length).
  assert (CELL : forall k, in_bounds (repeat 0 (length (cr_ext c))) (cr_ext c) k ->
     exists o, addr (cr_nd (ma_ref new)) (tadd (cr_ib c) k) = Ptr (length h) o /\ 0 <= o < cr_num c).
  { intros k Hb. destruct (cref_cell (ma_ref new) (tadd (cr_ib c) k) Hok) as (o & Ho & E).
    - apply tadd_in_bounds; auto.
    - exists o. split; [rewrite E; unfold new, new_ma, cr_data, padd; cbn; f_equal; lia|exact Ho]. }
  destruct (fill_new aid (repeat dflt (Z.to_nat (cr_num c))) l h f) as [D TH].
  { intros d s H. unfold l in H. apply in_map_iff in H. destruct H as (k & E & Hi).
    destruct (Hk k Hi) as [Hb Hs]. destruct (CELL k Hb) as (o & Eo & Ho).
    rewrite Eo in E. assert (d = Ptr (length h) o) by congruence. assert (s = src k) by congruence. subst d s. cbn [p_blk p_off].
    rewrite repeat_length. split; [auto|]. split; [lia|auto]. }
  rewrite repeat_length in D, TH. rewrite Ll in D, TH. fold h0 in D, TH. split; [|exact TH].
  intros Hf. destruct (D Hf) as (vs & Lv & E & C). exists vs. cbv zeta. split; [exact E|].
  split; [apply new_owns; auto|].
  assert (MF : map fst l = map (fun k => addr (cr_nd (ma_ref new)) (tadd (cr_ib c) k)) ks) by (unfold l; rewrite map_map; auto).
  assert (ND : NoDup (map fst l)).
  { rewrite MF. apply (derived_addr_nodup (ma_ref new) (cr_nd (ma_ref new))); auto; [constructor|]. intros k Hi. apply (Hk k Hi). }
  split.
  - intros k v Hi Hv. apply reads_iff; auto; [apply tadd_in_bounds; auto; apply (Hk k Hi)|].
    rewrite C. assert (LT : (p_blk (src k) < length h)%nat) by (apply init_lt; exists v; auto).
    rewrite (copy_sem_disjoint l (hcell h0)) with (s := src k); auto.
    + unfold h0. rewrite hcell_app_l by auto. auto.
    + intros d s H. left. rewrite MF. intros H2. apply in_map_iff in H2. destruct H2 as (k2 & E2 & Hi2).
      unfold l in H. apply in_map_iff in H. destruct H as (k1 & E1 & Hi1). assert (Es1 : s = src k1) by congruence. rewrite Es1 in E2.
      destruct (Hk k1 Hi1) as [_ Hs1]. apply init_lt in Hs1.
      destruct (CELL k2) as (o & Eo & _); [apply (Hk k2 Hi2)|]. rewrite Eo in E2. rewrite <- E2 in Hs1. cbn [p_blk] in Hs1. lia.
    + unfold l. apply in_map_iff. exists k. auto.
  - intros k Hb Hni. apply reads_iff; auto; [apply tadd_in_bounds; auto|].
    rewrite C. destruct (CELL k Hb) as (o & Eo & Ho).
    rewrite copy_sem_other.
    + rewrite Eo. unfold h0. rewrite (hcell_block _ _ _ _ (nth_app_last _ _)) by lia. cbn [b_cells].
      rewrite nth_error_map. rewrite (nth_error_nth' _ dflt) by (rewrite repeat_length; lia). rewrite nth_repeat. auto.
    + rewrite MF. intros H. apply in_map_iff in H. destruct H as (k2 & E2 & Hi2).
      destruct (Hk k2 Hi2) as [Hb2 _].
      apply (cref_addr_inj (ma_ref new)) in E2; auto; try (apply tadd_in_bounds; auto).
      assert (k2 = k); [|congruence].
      pose proof (in_bounds_length _ _ _ Hb) as [_ Lk]. pose proof (in_bounds_length _ _ _ Hb2) as [_ Lk2].
      apply (tadd_inj (cr_ib c)); auto; congruence.
Qed.

End Fill.

(** * how each operation can end *)

Section Outcomes.
Context {T : Type}.
Variable dflt : T.

Lemma set_nth_app_l {A} (x y : A) : forall l b, (b < length l)%nat -> set_nth b x (l ++ [y]) = set_nth b x l ++ [y].
Proof. induction l as [|z l IH]; intros [|b] H; simpl in *; try lia; auto. f_equal. apply IH. lia. Qed.

Lemma owns_lt a vs (h : heap T) : owns h a vs -> (ma_block a < length h)%nat.
Proof. intros (_ & _ & _ & _ & _ & E). apply nth_error_Some. rewrite E. discriminate. Qed.

Lemma reads_same_block (h h' : heap T) a i v : nd_ok a -> in_bounds (nd_base a) (nd_ext a) i ->
  same_block h h' (p_blk (nd_org a)) -> reads h a i v <-> reads h' a i v.
Proof.
  intros Ha Hi S. rewrite !reads_iff by auto. unfold hcell, hblock. unfold same_block in S.
  change (p_blk (addr a i)) with (p_blk (nd_org a)). rewrite S. tauto.
Qed.

Lemma allocate_space_cases c aid (h : heap T) f : array_object c ->
  (exists k, f = Some k /\ (k < 1 + Z.to_nat (cr_num c))%nat /\
     (k = O /\ allocate_space dflt c aid (World h f) = Thrown (World h None) \/
      (0 < k)%nat /\ allocate_space dflt c aid (World h f) = Thrown (World (h ++ [Some (Block aid (repeat None (Z.to_nat (cr_num c))))]) None))) \/
  (enough f (1 + Z.to_nat (cr_num c)) /\
   allocate_space dflt c aid (World h f) = Done (new_ma c aid (length h))
    (World (h ++ [Some (Block aid (map Some (repeat dflt (Z.to_nat (cr_num c)))))]) (spend f (1 + Z.to_nat (cr_num c))))).
Proof.
  intros Hc. rewrite allocate_space_eq by (apply new_num; auto). destruct f as [[|k]|].
  - left. exists O. split; [auto|]. split; [lia|auto].
  - replace (S k - 1)%nat with k by lia. destruct (Nat.ltb_spec k (Z.to_nat (cr_num c))).
    + left. exists (S k). split; [auto|]. split; [lia|]. right. split; [lia|auto].
    + right. split; [simpl; lia|auto].
  - right. split; [simpl; auto|auto].
Qed.

Lemma app_untouched (h : heap T) x : untouched h (h ++ [x]).
Proof. intros b Hb. unfold same_block. apply nth_error_app1. auto. Qed.

(** resize: thrown (three states the heap can be left in), or done *)
Lemma resize_outcomes chk a vs g bases shape (h : heap T) f :
  owns h a vs -> length shape = length (cr_ext (ma_ref a)) ->
  layout_ok (cr_storage (ma_ref a)) bases shape ->
  eg_num g = length shape -> ranges_are (eg_ranges g) bases shape ->
  (exists k h', f = Some k /\ ma_resize dflt chk a g (World h f) = Thrown (World h' None) /\
     let n := Z.to_nat (prod shape) in
     (k = O /\ h' = h \/
      (0 < k <= n)%nat /\ h' = h ++ [Some (Block (ma_aid a) (repeat None n))] \/
      (n < k)%nat /\ h' = h ++ [None])) \/
  (exists c vs' f', let a' := new_ma c (ma_aid a) (length h) in
     let h' := set_nth (ma_block a) None h ++ [Some (Block (ma_aid a) (map Some vs'))] in
     ma_resize dflt chk a g (World h f) = Done a' (World h' f') /\ (f = None -> f' = None) /\
     owns h' a' vs' /\ cr_ext c = shape /\ cr_ib c = bases /\ cr_storage c = cr_storage (ma_ref a) /\
     (forall k v, in_bounds (repeat 0 (length shape)) shape k ->
        in_bounds (repeat 0 (length shape)) (cr_ext (ma_ref a)) k ->
        reads h (cr_nd (ma_ref a)) (tadd (cr_ib (ma_ref a)) k) v -> reads h' (cr_nd (ma_ref a')) (tadd bases k) v) /\
     (forall k, in_bounds (repeat 0 (length shape)) shape k ->
        ~ in_bounds (repeat 0 (length shape)) (cr_ext (ma_ref a)) k ->
        reads h' (cr_nd (ma_ref a')) (tadd bases k) dflt)).
Proof.
  intros Ho Hlen Hl Hg HR. pose proof Ho as (Ha & Hdata & _). pose proof (array_object_ok _ Ha) as Hok.
  assert (Hso : order_ok (length shape) (cr_storage (ma_ref a))) by (rewrite Hlen; apply Hok).
  destruct (from_gen_ok chk null_ptr bases shape g (cr_storage (ma_ref a)) Hso Hl Hg HR) as (c & Ec & Hcok & Eb & Es & Ee & Ei).
  assert (Hc : array_object c) by (eapply (ao_gen chk null_ptr bases shape g); eauto).
  destruct (resize_eq dflt chk a g c h f Hok) as (mins & M1 & M2 & M3 & E); auto; [congruence|congruence|].
  assert (HN : Z.to_nat (prod shape) = Z.to_nat (cr_num c)).
  { pose proof Hcok as (_ & _ & _ & _ & ->). rewrite Ee. auto. }
  rewrite E. clear E. rewrite HN. set (N := Z.to_nat (cr_num c)) in *.
  destruct (allocate_space_cases c (ma_aid a) h f Hc) as [(k & Ef & Hk & [[K0 E]|[K0 E]])|[Hf E]].
  - left. exists k, h. split; [auto|]. unfold bind at 1. rewrite E. auto.
  - left. exists k. eexists. split; [auto|]. unfold bind at 1. rewrite E. split; [reflexivity|]. right. left. split; [fold N in Hk; lia|reflexivity].
  - fold N in E, Hf. rename E into EA.
    set (new := new_ma c (ma_aid a) (length h)).
    assert (HB : forall k, In k (positions mins) -> in_bounds (repeat 0 (length (cr_ext c))) (cr_ext c) k /\
       in_bounds (repeat 0 (length (cr_ext (ma_ref a)))) (cr_ext (ma_ref a)) k).
    { intros k Hk. apply in_positions in Hk. apply M3; auto. }
    assert (Lib : length (cr_ib (ma_ref a)) = length (cr_ext (ma_ref a))) by (apply cref_ok_len; auto).
    destruct (build_new dflt c (ma_aid a) h (positions mins) (fun k => addr (cr_nd (ma_ref a)) (tadd (cr_ib (ma_ref a)) k))
       (spend f (1 + N)) Hc (nodup_positions mins)) as [BD BT].
    { intros k Hk. destruct (HB k Hk) as [H1 H2]. split; auto. apply element_at_init. apply (owns_live a vs h Ho).
      apply cref_cell; auto. apply tadd_in_bounds; auto. }
    fold N new in BD, BT.
    assert (PP : resize_pairs (ma_ref a) (ma_ref new) mins =
      map (fun k => (addr (cr_nd (ma_ref new)) (tadd (cr_ib c) k), addr (cr_nd (ma_ref a)) (tadd (cr_ib (ma_ref a)) k))) (positions mins)) by reflexivity.
    destruct (enough_dec (spend f (1 + N)) (length (positions mins))) as [Hf2|Hf2].
    + right. destruct (BD Hf2) as (vs' & E & HO & R1 & R2). clear BD BT.
      exists c, vs'. eexists. cbv zeta. fold new.
      pose proof (owns_lt a vs h Ho) as Hlt.
      assert (HO2 : owns (h ++ [Some (Block (ma_aid a) (map Some vs'))]) a vs).
      { apply (owns_other a vs h); auto. apply app_untouched; auto. }
      split.
      { unfold bind, on_throw. rewrite EA. fold new. rewrite PP, E. rewrite (owns_destroy a vs) by exact HO2. unfold ret.
        rewrite set_nth_app_l by auto. reflexivity. }
      assert (SB : same_block (h ++ [Some (Block (ma_aid a) (map Some vs'))])
                (set_nth (ma_block a) None h ++ [Some (Block (ma_aid a) (map Some vs'))]) (length h)).
      { unfold same_block. rewrite nth_app_last.
        replace (length h) with (length (set_nth (ma_block a) None h)) by apply length_set_nth. apply nth_app_last. }
      assert (Hnew : cref_ok (ma_ref new)) by (apply set_base_ok; auto).
      split; [intros ->; auto|].
      split; [apply (owns_other new vs' _ _ HO); exact SB|].
      split; [auto|]. split; [auto|]. split; [auto|].
      assert (Lb : length bases = length shape) by (apply rep_lengths in Hl; auto).
      split.
      * intros k v B1 B2 Rv. rewrite <- Ei. apply (reads_same_block (h ++ [Some (Block (ma_aid a) (map Some vs'))])).
        { apply cref_addressable; auto. }
        { cbn [cr_nd nd_base nd_ext]. change (cr_ib (ma_ref new)) with (cr_ib c). change (cr_ext (ma_ref new)) with (cr_ext c).
          rewrite Ei, Ee. apply tadd_in_bounds; auto. }
        { exact SB. }
        apply R1.
        { apply in_positions. apply M3. rewrite Ee, <- Hlen. auto. }
        { apply reads_iff; auto; [apply cref_addressable; auto|]. apply tadd_in_bounds; auto. cbn [cr_nd nd_ext]. rewrite <- Hlen. auto. }
      * intros k B1 B2. rewrite <- Ei. apply (reads_same_block (h ++ [Some (Block (ma_aid a) (map Some vs'))])).
        { apply cref_addressable; auto. }
        { cbn [cr_nd nd_base nd_ext]. change (cr_ib (ma_ref new)) with (cr_ib c). change (cr_ext (ma_ref new)) with (cr_ext c).
          rewrite Ei, Ee. apply tadd_in_bounds; auto. }
        { exact SB. }
        apply R2; [rewrite Ee; auto|]. intros Hin. apply B2. apply HB in Hin. rewrite Hlen. tauto.
    + left. destruct (BT Hf2) as (vs' & Lv & E). clear BD BT.
      destruct f as [k|]; [|simpl in Hf2; tauto]. exists k, (h ++ [None]). split; [auto|]. split; [|right; right; split; [simpl in Hf; lia|auto]].
      unfold bind, on_throw. rewrite EA. fold new. rewrite PP, E.
      rewrite (owns_destroy new vs') by (apply new_owns; auto).
      unfold ma_block. cbn [new new_ma ma_base p_blk]. rewrite set_nth_app_last. auto.
Qed.

End Outcomes.

(** * C11 *)

(** resize to bases/shape: succeeds (when nothing throws), keeps storage order
    and allocator, keeps the value of every position inside both shapes, value-
    initialises every other position, and changes no other array's storage; the
    old storage is released *)
Theorem c11_resize_preserves_common_block : forall (T : Type) (dflt : T) chk (h : heap T) a vs g bases shape,
  owns h a vs -> length shape = length (cr_ext (ma_ref a)) ->
  layout_ok (cr_storage (ma_ref a)) bases shape ->
  eg_num g = length shape -> ranges_are (eg_ranges g) bases shape ->
  exists a' vs' h', ma_resize dflt chk a g (World h None) = Done a' (World h' None) /\
    owns h' a' vs' /\
    cr_ext (ma_ref a') = shape /\ cr_ib (ma_ref a') = bases /\
    cr_storage (ma_ref a') = cr_storage (ma_ref a) /\ ma_aid a' = ma_aid a /\
    (forall k v, in_bounds (repeat 0 (length shape)) shape k ->
       in_bounds (repeat 0 (length shape)) (cr_ext (ma_ref a)) k ->
       reads h (cr_nd (ma_ref a)) (tadd (cr_ib (ma_ref a)) k) v ->
       reads h' (cr_nd (ma_ref a')) (tadd bases k) v) /\
    (forall k, in_bounds (repeat 0 (length shape)) shape k ->
       ~ in_bounds (repeat 0 (length shape)) (cr_ext (ma_ref a)) k ->
       reads h' (cr_nd (ma_ref a')) (tadd bases k) dflt) /\
    ma_block a' = length h /\ length h' = S (length h) /\ nth_error h' (ma_block a) = Some None /\
    (forall b, (b < length h)%nat -> b <> ma_block a -> same_block h h' b).
Proof.
  intros T dflt chk h a vs g bases shape Ho Hlen Hl Hg HR.
  destruct (resize_outcomes dflt chk a vs g bases shape h None Ho Hlen Hl Hg HR) as [(k & h' & E & _)|(c & vs' & f' & E & Hf & HO & E1 & E2 & E3 & R1 & R2)];
    [discriminate|].
  rewrite (Hf eq_refl) in E. eexists _, vs', _. split; [exact E|]. split; [exact HO|].
  split; [exact E1|]. split; [exact E2|]. split; [exact E3|]. split; [reflexivity|]. split; [exact R1|]. split; [exact R2|].
  pose proof (owns_lt a vs h Ho) as Hlt.
  split; [reflexivity|]. split; [rewrite app_length, length_set_nth; simpl; lia|].
  split; [rewrite nth_error_app1 by (rewrite length_set_nth; auto); apply nth_error_set_nth_eq; auto|].
  intros b Hb Hne. unfold same_block. rewrite nth_error_app1 by (rewrite length_set_nth; auto). apply nth_error_set_nth_ne; auto.
Qed.

(** resize from a list of extents: the same with all index bases zero (the old
    index bases are not kept) *)
Theorem c11_resize_list : forall (T : Type) (dflt : T) chk a (w : world T) shape,
  length shape = length (cr_ext (ma_ref a)) -> Forall (fun e => 0 <= e <= max_index) shape ->
  exists g, ma_resize_list dflt chk a shape w = ma_resize dflt chk a g w /\
    eg_num g = length shape /\ ranges_are (eg_ranges g) (repeat 0 (length shape)) shape.
Proof.
  intros T dflt chk a w shape L F. unfold ma_resize_list. rewrite <- L, copy_n_all.
  exists (EGen (length shape) (map (fun e => ERange 0 (to_index e)) shape)). split; [reflexivity|]. split; [reflexivity|].
  cbn [eg_ranges]. clear L. unfold ranges_are. induction F as [|e es He F IH]; simpl; constructor; auto.
  cbn [er_start er_finish fst snd]. rewrite to_index_small by (unconst; lia). split; auto.
Qed.

(** * C24 *)

(** whatever throws during resize (allocation, element construction or element
    assignment, at any point), every block that existed before -- the array's
    own and every other array's -- is bit for bit as before; if nothing throws
    the call completes *)
Theorem c24_resize_strong_guarantee : forall (T : Type) (dflt : T) chk (h : heap T) a vs g bases shape k,
  owns h a vs -> length shape = length (cr_ext (ma_ref a)) ->
  layout_ok (cr_storage (ma_ref a)) bases shape ->
  eg_num g = length shape -> ranges_are (eg_ranges g) bases shape ->
  match ma_resize dflt chk a g (World h (Some k)) with
  | Thrown w => untouched h (w_heap w) /\ owns (w_heap w) a vs
  | Done a' w => exists vs', owns (w_heap w) a' vs' /\ cr_ext (ma_ref a') = shape
  | _ => False
  end.
Proof.
  intros T dflt chk h a vs g bases shape k Ho Hlen Hl Hg HR.
  destruct (resize_outcomes dflt chk a vs g bases shape h (Some k) Ho Hlen Hl Hg HR) as [(k' & h' & _ & E & Hh)|(c & vs' & f' & E & _ & HO & E1 & _)]; rewrite E.
  - cbn [w_heap].
    assert (U : untouched h h').
    { destruct Hh as [[_ ->]|[[_ ->]|[_ ->]]]; [intros b _; reflexivity|apply app_untouched|apply app_untouched]. }
    split; auto. apply (owns_other a vs h); auto. apply U. apply (owns_lt a vs); auto.
  - eauto.
Qed.

(** what a throwing resize leaves behind besides: nothing when the allocation
    threw; a raw block, never returned, when an element constructor threw; nothing
    (the new block has been returned) when an element assignment threw *)
Theorem c24_resize_leftover : forall (T : Type) (dflt : T) chk (h : heap T) a vs g bases shape k w,
  owns h a vs -> length shape = length (cr_ext (ma_ref a)) ->
  layout_ok (cr_storage (ma_ref a)) bases shape ->
  eg_num g = length shape -> ranges_are (eg_ranges g) bases shape ->
  ma_resize dflt chk a g (World h (Some k)) = Thrown w ->
  let n := Z.to_nat (prod shape) in
  k = O /\ w_heap w = h \/
  (0 < k <= n)%nat /\ w_heap w = h ++ [Some (Block (ma_aid a) (repeat None n))] \/
  (n < k)%nat /\ w_heap w = h ++ [None].
Proof.
  intros T dflt chk h a vs g bases shape k w Ho Hlen Hl Hg HR E0.
  destruct (resize_outcomes dflt chk a vs g bases shape h (Some k) Ho Hlen Hl Hg HR) as [(k' & h' & Ek & E & Hh)|(c & vs' & f' & E & _)]; rewrite E in E0.
  - injection E0 as <-. injection Ek as <-. cbn [w_heap]. exact Hh.
  - discriminate.
Qed.

Example ex_c11_ranges : eg_build extents [EFromTo 5 8; EFromTo 0 1] = Ok (EGen 2 [ERange 5 8; ERange 0 1]) /\
  ranges_are (eg_ranges (EGen 2 [ERange 5 8; ERange 0 1])) [5; 0] [3; 1].
Proof. split; [vm_compute; reflexivity|]. repeat constructor. Qed.

(** * copy construction *)

Section Copy.
Context {T : Type}.
Variable dflt : T.

Lemma copy_n_elems_eq : forall n first result (w : world T),
  copy_n_elems first n result w = copy_cells (map (fun i => (padd result i, padd first i)) (zseq 0 n)) w.
Proof.
  assert (G : forall n j first result (w : world T),
    copy_n_elems (padd first j) n (padd result j) w = copy_cells (map (fun i => (padd result i, padd first i)) (zseq j n)) w).
  { induction n as [|n IH]; intros j first result w; [reflexivity|].
    cbn [copy_n_elems]. unfold zseq. cbn [seq map copy_cells]. rewrite Z.add_0_r. apply bind_ext; [reflexivity|].
    intros [] w'. rewrite !padd_padd. rewrite IH. unfold zseq. rewrite <- seq_shift, !map_map.
    f_equal. apply map_ext. intros i. do 2 f_equal; lia. }
  intros n first result w. rewrite <- (G n 0). rewrite !padd_0. auto.
Qed.

Lemma copy_exact a vs (h : heap T) f : owns h a vs ->
  (exists k h', f = Some k /\ (k < 1 + length vs + length vs)%nat /\ ma_copy dflt a (World h f) = Thrown (World h' None) /\
     (k = O /\ h' = h \/
      (0 < k <= length vs)%nat /\ h' = h ++ [Some (Block (ma_aid a) (repeat None (length vs)))] \/
      (length vs < k)%nat /\ exists vs', length vs' = length vs /\ h' = h ++ [Some (Block (ma_aid a) (map Some vs'))])) \/
  (enough f (1 + length vs + length vs) /\
   let f' := spend f (1 + length vs + length vs) in
   let a' := new_ma (ma_ref a) (ma_aid a) (length h) in
   let h' := h ++ [Some (Block (ma_aid a) (map Some vs))] in
   ma_copy dflt a (World h f) = Done a' (World h' f') /\ owns h' a' vs).
Proof.
  intros Ho. pose proof Ho as (Ha & Hdata & Hoff & Hal & Hlen & Hblk). unfold cr_num_elements in Hlen.
  assert (HN : Z.to_nat (cr_num (ma_ref a)) = length vs) by lia.
  unfold ma_copy.
  destruct (allocate_space_cases dflt (ma_ref a) (ma_aid a) h f Ha) as [(k & Ef & Hk & [[K0 E]|[K0 E]])|[Hf EA]].
  - left. exists k, h. split; [auto|]. split; [lia|]. unfold bind at 1. rewrite E. auto.
  - left. exists k. eexists. split; [auto|]. split; [rewrite HN in Hk; lia|]. unfold bind at 1. rewrite E. split; [reflexivity|]. right. left. rewrite HN in *. split; [lia|reflexivity].
  - rewrite HN in EA, Hf.
    set (new := new_ma (ma_ref a) (ma_aid a) (length h)) in *.
    set (l := map (fun i => (padd (ma_base new) i, padd (ma_base a) i)) (zseq 0 (length vs))).
    assert (Ll : length l = length vs) by (unfold l; rewrite map_length; unfold zseq; rewrite map_length, seq_length; auto).
    assert (Hin : forall d s, In (d, s) l -> exists i, 0 <= i < Z.of_nat (length vs) /\ d = Ptr (length h) i /\ s = padd (cr_data (ma_ref a)) i).
    { intros d s H. unfold l in H. apply in_map_iff in H. destruct H as (i & E & Hi). apply in_zseq in Hi.
      exists i. split; [lia|]. rewrite Hdata. split; [|congruence]. assert (d = padd (ma_base new) i) as -> by congruence.
      unfold new, new_ma, padd. cbn [ma_base p_blk p_off]. auto. }
    destruct (fill_new (ma_aid a) (repeat dflt (length vs)) l h (spend f (1 + length vs))) as [FD FT].
    { intros d s H. destruct (Hin d s H) as (i & Hi & -> & ->). cbn [p_blk p_off]. rewrite repeat_length.
      split; [auto|]. split; [auto|]. apply element_at_init. apply (owns_live a vs h Ho). exists i. split; [unfold cr_num_elements; lia|auto]. }
    rewrite repeat_length, Ll in FD, FT.
    assert (EC : forall w : world T, copy_n_elems (ma_base a) (Z.to_nat (cr_num (ma_ref a))) (ma_base new) w = copy_cells l w).
    { intros w. rewrite copy_n_elems_eq, HN. reflexivity. }
    destruct (enough_dec (spend f (1 + length vs)) (length vs)) as [Hf2|Hf2].
    + right. destruct (FD Hf2) as (vs' & Lv & E & C).
      assert (vs' = vs).
      { assert (M : map Some vs' = map Some vs).
        { apply nth_error_ext. intros i. destruct (lt_dec i (length vs)) as [Hi|Hi].
          - transitivity (hcell (h ++ [Some (Block (ma_aid a) (map Some vs'))]) (Ptr (length h) (Z.of_nat i))).
            { rewrite (hcell_block _ _ _ _ (nth_app_last _ _)) by lia. cbn [b_cells]. rewrite Nat2Z.id. auto. }
            rewrite C. rewrite (copy_sem_disjoint l) with (s := padd (cr_data (ma_ref a)) (Z.of_nat i)).
            + rewrite hcell_app_l.
              * rewrite (owns_cell a vs) by (auto; lia). rewrite Nat2Z.id. auto.
              * rewrite Hdata. apply (owns_lt a vs h Ho).
            + unfold l. rewrite map_map. cbn [fst]. apply nodup_map_inj; [|apply nodup_zseq].
              intros x y _ _ Exy. unfold padd in Exy. injection Exy as Exy. lia.
            + intros d s H. left. intros H2. destruct (Hin d s H) as (i1 & _ & _ & ->).
              apply in_map_iff in H2. destruct H2 as ([d2 s2] & E2 & H2). cbn [fst] in E2. subst d2.
              destruct (Hin _ _ H2) as (i2 & _ & E2 & _). rewrite Hdata in E2. apply (f_equal p_blk) in E2.
              cbn [padd p_blk] in E2. pose proof (owns_lt a vs h Ho). unfold ma_block in *. lia.
            + unfold l. apply in_map_iff. exists (Z.of_nat i). split; [|apply in_zseq; lia].
              rewrite Hdata. unfold new, new_ma, padd. cbn [ma_base p_blk p_off]. auto.
          - transitivity (@None (option T)); [apply nth_error_None; rewrite map_length; lia|symmetry; apply nth_error_None; rewrite map_length; lia]. }
        clear - M. revert vs M. induction vs' as [|x l IH]; intros [|y vs] M; simpl in *; try discriminate; auto.
        injection M as -> M. f_equal. apply IH; auto. }
      subst vs'. split; [rewrite enough_app; auto|]. cbv zeta. split.
      { unfold bind. rewrite EA, EC, E. unfold ret. rewrite spend_spend. reflexivity. }
      apply new_owns; auto.
    + left. destruct f as [k|]; [|simpl in Hf2; tauto]. destruct (FT Hf2) as (vs' & Lv & E).
      exists k. eexists. split; [auto|]. split; [simpl in Hf, Hf2; lia|]. unfold bind. rewrite EA, EC, E. split; [reflexivity|].
      right. right. split; [simpl in Hf; lia|]. exists vs'. split; auto.
Qed.

Lemma copy_outcomes a vs (h : heap T) f : owns h a vs ->
  (exists k h', f = Some k /\ ma_copy dflt a (World h f) = Thrown (World h' None) /\
     (k = O /\ h' = h \/
      (0 < k <= length vs)%nat /\ h' = h ++ [Some (Block (ma_aid a) (repeat None (length vs)))] \/
      (length vs < k)%nat /\ exists vs', length vs' = length vs /\ h' = h ++ [Some (Block (ma_aid a) (map Some vs'))])) \/
  (exists f', (f = None -> f' = None) /\
   let a' := new_ma (ma_ref a) (ma_aid a) (length h) in
   let h' := h ++ [Some (Block (ma_aid a) (map Some vs))] in
   ma_copy dflt a (World h f) = Done a' (World h' f') /\ owns h' a' vs).
Proof.
  intros Ho. destruct (copy_exact a vs h f Ho) as [(k & h' & E & _ & X)|(_ & E)].
  - left. exists k, h'. auto.
  - right. eexists. split; [|exact E]. intros ->. reflexivity.
Qed.

(** converting construction *)
Lemma convert_outcomes chk c x so aid (h : heap T) f :
  array_object c -> derived c x -> live h c ->
  order_ok (length (nd_ext x)) so -> layout_ok so (nd_base x) (nd_ext x) ->
  (exists k h', f = Some k /\ ma_convert dflt chk x so aid (World h f) = Thrown (World h' None) /\
     let n := Z.to_nat (prod (nd_ext x)) in
     (k = O /\ h' = h \/
      (0 < k <= n)%nat /\ h' = h ++ [Some (Block aid (repeat None n))] \/
      (n < k)%nat /\ exists vs', length vs' = n /\ h' = h ++ [Some (Block aid (map Some vs'))])) \/
  (exists c' vs f', (f = None -> f' = None) /\
   let a' := new_ma c' aid (length h) in
   let h' := h ++ [Some (Block aid (map Some vs))] in
   ma_convert dflt chk x so aid (World h f) = Done a' (World h' f') /\ owns h' a' vs /\
   cr_ext c' = nd_ext x /\ cr_ib c' = nd_base x /\ cr_storage c' = so /\
   forall i v, in_bounds (nd_base x) (nd_ext x) i -> reads h x i v -> reads h' (cr_nd (ma_ref a')) i v).
Proof.
  intros Hc Hx Hl Hso Hlay. pose proof (derived_ok c x Hc Hx) as Hxok.
  destruct (from_shape_ok chk null_ptr (nd_base x) (nd_ext x) so Hso Hlay) as (c' & Ec & Hcok & Eb & Es & Ee & Ei).
  assert (Hc' : array_object c') by (eapply ao_shape; eauto).
  assert (HNx : Z.to_nat (cr_num c') = Z.to_nat (prod (nd_ext x))).
  { destruct Hcok as (_ & _ & _ & _ & ->). rewrite Ee. auto. }
  unfold ma_convert. rewrite Ec. cbv zeta.
  assert (LB : forall {A B} (a : A) (g : A -> M T B) w, bind (lift (Ok a)) g w = g a w) by reflexivity.
  rewrite !LB. clear LB.
  destruct (allocate_space_cases dflt c' aid h f Hc') as [(k & Ef & Hk & [[K0 E]|[K0 E]])|[Hf EA]].
  - left. exists k, h. split; [auto|]. unfold bind at 1. rewrite E. auto.
  - left. exists k. eexists. split; [auto|]. unfold bind at 1. rewrite E. split; [reflexivity|]. right. left. rewrite <- HNx. split; [lia|reflexivity].
  - set (N := Z.to_nat (cr_num c')) in *. set (new := new_ma c' aid (length h)) in *.
    assert (Hnew : nd_ok (cr_nd (ma_ref new))) by (apply cref_addressable, set_base_ok; auto).
    assert (Lx : length (nd_base x) = length (nd_ext x)) by apply Hxok.
    destruct (build_new dflt c' aid h (positions (nd_ext x)) (fun k => addr x (tadd (nd_base x) k)) (spend f (1 + N)) Hc' (nodup_positions _)) as [BD BT].
    { intros k Hk. apply in_positions in Hk. rewrite Ee. split; auto. apply element_at_init, Hl, (derived_cell c x); auto.
      apply tadd_in_bounds; auto. }
    fold N new in BD, BT.
    assert (EC : forall w : world T, std_copy_nd chk (length (nd_ext x)) (cr_nd (ma_ref new)) x w =
      copy_cells (map (fun k => (addr (cr_nd (ma_ref new)) (tadd (cr_ib c') k), addr x (tadd (nd_base x) k))) (positions (nd_ext x))) w).
    { intros w. rewrite std_copy_nd_eq by (auto; exact Ee). rewrite copy_pairs by (auto; exact Ee).
      cbn [cr_nd nd_ext nd_base]. change (cr_ext (ma_ref new)) with (cr_ext c'). rewrite Ee. reflexivity. }
    destruct (enough_dec (spend f (1 + N)) (length (positions (nd_ext x)))) as [Hf2|Hf2].
    + right. destruct (BD Hf2) as (vs & E & HO & R1 & _). exists c', vs. eexists. split; [|cbv zeta; split].
      2:{ unfold bind. rewrite EA. rewrite EC, E. unfold ret. reflexivity. }
      { intros ->. reflexivity. }
      split; [exact HO|]. split; [auto|]. split; [auto|]. split; [auto|].
      intros i v Hi Hv. assert (In i (tuples (nd_base x) (nd_ext x))) as Hi2 by (apply in_tuples; auto).
      rewrite tuples_shift in Hi2 by auto. apply in_map_iff in Hi2. destruct Hi2 as (k & <- & Hk).
      fold new. rewrite <- Ei at 1. apply R1; auto. apply reads_iff; auto.
    + left. destruct f as [k|]; [|simpl in Hf2; tauto]. destruct (BT Hf2) as (vs' & Lv & E).
      exists k. eexists. split; [auto|]. unfold bind. rewrite EA, EC, E. split; [reflexivity|].
      right. right. rewrite <- HNx. split; [simpl in Hf; lia|]. exists vs'. split; auto.
Qed.

End Copy.

(** * C13 *)

(** copy construction: a fresh block, equal geometry and allocator, equal
    elements; nothing that existed changes *)
Theorem c13_copy_construction : forall (T : Type) (dflt : T) (h : heap T) a vs,
  owns h a vs ->
  exists a' h', ma_copy dflt a (World h None) = Done a' (World h' None) /\
    owns h' a' vs /\
    cr_ext (ma_ref a') = cr_ext (ma_ref a) /\ cr_str (ma_ref a') = cr_str (ma_ref a) /\
    cr_ib (ma_ref a') = cr_ib (ma_ref a) /\ cr_storage (ma_ref a') = cr_storage (ma_ref a) /\
    ma_aid a' = ma_aid a /\
    (forall i v, in_bounds (cr_ib (ma_ref a)) (cr_ext (ma_ref a)) i ->
       reads h (cr_nd (ma_ref a)) i v <-> reads h' (cr_nd (ma_ref a')) i v) /\
    ma_block a' = length h /\ length h' = S (length h) /\ untouched h h'.
Proof.
  intros T dflt h a vs Ho.
  destruct (copy_outcomes dflt a vs h None Ho) as [(k & h' & E & _)|(f' & Hf & E & HO)]; [discriminate|].
  rewrite (Hf eq_refl) in E. eexists _, _. split; [exact E|]. split; [exact HO|].
  do 5 (split; [reflexivity|]).
  split.
  { intros i v Hi. rewrite (owns_reads a vs h) by auto. rewrite (owns_reads _ _ _ i v HO) by exact Hi. reflexivity. }
  split; [reflexivity|]. split; [rewrite app_length; simpl; lia|]. apply app_untouched.
Qed.

(** arrays that own different blocks are independent: no operation on one
    (element writes through it, its subarrays or views, assignment, copy_array,
    for_each, assign) changes what any element of the other reads *)
Theorem c13_copies_are_independent : forall (T : Type) (h : heap T) a va b vb m f,
  owns h a va -> owns h b vb -> ma_block a <> ma_block b -> buffer_op (ma_ref a) m ->
  match m (World h f) with
  | Done _ w | Thrown w | Aborted w =>
      forall i v, in_bounds (cr_ib (ma_ref b)) (cr_ext (ma_ref b)) i ->
        reads h (cr_nd (ma_ref b)) i v <-> reads (w_heap w) (cr_nd (ma_ref b)) i v
  | Undef | OutOfFuel => False
  end.
Proof.
  intros T h a va b vb m f Ha Hb Hne Hm.
  pose proof Ha as (Hao & Hda & _). pose proof Hb as (Hbo & Hdb & _).
  pose proof (c37_operations_are_safe T (ma_ref a) m h f Hao Hm (owns_live a va h Ha)) as S.
  pose proof (c37_operations_stay_in_the_buffer T (ma_ref a) m Hao Hm h h f ltac:(auto)) as L. cbv zeta in L.
  assert (K : forall h', (forall p, ~ cell_of (ma_ref a) p -> hcell h' p = hcell h p) ->
     forall i v, in_bounds (cr_ib (ma_ref b)) (cr_ext (ma_ref b)) i ->
        reads h (cr_nd (ma_ref b)) i v <-> reads h' (cr_nd (ma_ref b)) i v).
  { intros h' H i v Hi. pose proof (cref_addressable _ (array_object_ok _ Hbo)) as Hnd.
    rewrite !reads_iff by auto. rewrite H; [tauto|].
    intros (o & _ & E). apply (f_equal p_blk) in E. change (p_blk (cr_data (ma_ref b)) = p_blk (cr_data (ma_ref a))) in E.
    rewrite Hda, Hdb in E. unfold ma_block in Hne. congruence. }
  destruct (m (World h f)) as [u w|w|w| |]; auto; apply K; intros p Hp; apply L; auto.
Qed.

(** * C14 *)

(** converting construction from any array, subarray or view x, with any storage
    order: x's shape and index bases, equal elements at equal indices, fresh
    storage from the given allocator *)
Theorem c14_converting_construction : forall (T : Type) (dflt : T) chk (h : heap T) c x so aid,
  array_object c -> derived c x -> live h c ->
  order_ok (length (nd_ext x)) so -> layout_ok so (nd_base x) (nd_ext x) ->
  exists a vs h', ma_convert dflt chk x so aid (World h None) = Done a (World h' None) /\
    owns h' a vs /\
    cr_ext (ma_ref a) = nd_ext x /\ cr_ib (ma_ref a) = nd_base x /\ cr_storage (ma_ref a) = so /\
    ma_aid a = aid /\
    (forall i v, in_bounds (nd_base x) (nd_ext x) i ->
       reads h x i v -> reads h' (cr_nd (ma_ref a)) i v /\ reads h' x i v) /\
    ma_block a = length h /\ length h' = S (length h) /\ untouched h h'.
Proof.
  intros T dflt chk h c x so aid Hc Hx Hl Hso Hlay.
  destruct (convert_outcomes dflt chk c x so aid h None Hc Hx Hl Hso Hlay) as [(k & h' & E & _)|(c' & vs & f' & Hf & E & HO & E1 & E2 & E3 & R)];
    [discriminate|].
  rewrite (Hf eq_refl) in E. eexists _, vs, _. split; [exact E|]. split; [exact HO|].
  split; [exact E1|]. split; [exact E2|]. split; [exact E3|]. split; [reflexivity|].
  split.
  { intros i v Hi Hv. split; [apply R; auto|]. pose proof (derived_ok c x Hc Hx) as Hxo.
    apply reads_iff in Hv; auto. apply reads_iff; auto. rewrite hcell_app_l; auto. apply init_lt. exists v. auto. }
  split; [reflexivity|]. split; [rewrite app_length; simpl; lia|]. apply app_untouched.
Qed.

(** the default storage order of the converting constructors is C order, for
    which the array is laid out row by row *)
Theorem c14_default_order_is_row_major : forall (T : Type) (dflt : T) chk (h : heap T) c x aid,
  array_object c -> derived c x -> live h c -> layout_ok (so_from_c (length (nd_ext x))) (nd_base x) (nd_ext x) ->
  exists a vs h', ma_convert dflt chk x (so_from_c (length (nd_ext x))) aid (World h None) = Done a (World h' None) /\
    owns h' a vs /\
    forall i v, in_bounds (nd_base x) (nd_ext x) i -> reads h x i v ->
      nth_error vs (Z.to_nat (row_major (nd_base x) (nd_ext x) i)) = Some v.
Proof.
  intros T dflt chk h c x aid Hc Hx Hl Hlay.
  destruct (c14_converting_construction T dflt chk h c x _ aid Hc Hx Hl (proj1 (c02_named_orders_valid _)) Hlay)
    as (a & vs & h' & E & HO & E1 & E2 & E3 & _ & R & _).
  exists a, vs, h'. split; [auto|]. split; [auto|]. intros i v Hi Hv. destruct (R i v Hi Hv) as [Rv _].
  assert (Hi' : in_bounds (cr_ib (ma_ref a)) (cr_ext (ma_ref a)) i) by (rewrite E1, E2; auto).
  pose proof HO as (Hao & _).
  pose proof (c02_c_order_is_row_major true (ma_ref a) i Hao ltac:(rewrite E1; auto) Hi') as A.
  rewrite access_element_ok in A by (auto; apply cref_addressable, array_object_ok; auto).
  apply reads_iff in Rv; auto; [|apply cref_addressable, array_object_ok; auto].
  assert (addr (cr_nd (ma_ref a)) i = padd (cr_data (ma_ref a)) (row_major (nd_base x) (nd_ext x) i)) as A2 by (rewrite <- E1, <- E2; congruence).
  rewrite A2 in Rv.
  assert (0 <= row_major (nd_base x) (nd_ext x) i).
  { clear - Hi. revert Hi. generalize (nd_base x) (nd_ext x). intros l l0; revert l0 i.
    induction l as [|b bs IH]; intros [|e es] [|k ks] H; simpl in *; try tauto; try lia.
    destruct H as [H1 H2]. pose proof (IH es ks H2).
    assert (0 <= prod es).
    { clear - H2. revert es ks H2. induction bs as [|b bs IH]; intros [|e es] [|k ks] H; simpl in *; try tauto; unfold prod; simpl; try lia.
      destruct H as [H1 H2]. specialize (IH es ks H2). unfold prod in IH. nia. }
    nia. }
  rewrite (owns_cell a vs h') in Rv by auto.
  rewrite nth_error_map in Rv. destruct (nth_error vs _); simpl in Rv; congruence.
Qed.

(** * C25 *)

(** every constructor call, with an exception at any point or none: either it
    completes with a new array in one fresh block, or the exception propagates
    and the heap is as before except that, if the exception came after the
    allocation, the new block is still there and nobody owns it; no existing
    block changes in either case *)
Theorem c25_constructor_outcomes : forall (T : Type) (dflt : T) (h : heap T) aid m f,
  constructor dflt h aid m ->
  match m (World h f) with
  | Done a w => exists vs, owns (w_heap w) a vs /\ ma_aid a = aid /\ ma_block a = length h /\
                  length (w_heap w) = S (length h) /\ untouched h (w_heap w)
  | Thrown w => f <> None /\ untouched h (w_heap w) /\
                (f = Some O /\ w_heap w = h \/
                 f <> Some O /\ exists cells, w_heap w = h ++ [Some (Block aid cells)])
  | _ => False
  end.
Proof.
  intros T dflt h aid m f Hm.
  assert (AS : forall c, array_object c ->
    match allocate_space dflt c aid (World h f) with
    | Done a w => exists vs, owns (w_heap w) a vs /\ ma_aid a = aid /\ ma_block a = length h /\
                    length (w_heap w) = S (length h) /\ untouched h (w_heap w)
    | Thrown w => f <> None /\ untouched h (w_heap w) /\
                  (f = Some O /\ w_heap w = h \/
                   f <> Some O /\ exists cells, w_heap w = h ++ [Some (Block aid cells)])
    | _ => False
    end).
  { intros c Hc. destruct (allocate_space_cases dflt c aid h f Hc) as [(k & Ef & Hk & [[K0 E]|[K0 E]])|[Hf E]]; rewrite E; cbn [w_heap].
    - split; [congruence|]. split; [intros b _; reflexivity|]. left. split; congruence.
    - split; [congruence|]. split; [apply app_untouched|]. right. split; [intros F; rewrite F in Ef; injection Ef as <-; lia|eauto].
    - eexists. split; [apply new_owns; [auto|apply repeat_length]|]. split; [reflexivity|]. split; [reflexivity|].
      split; [rewrite app_length; simpl; lia|apply app_untouched]. }
  destruct Hm.
  - unfold ma_default. rewrite (bind_lift_ok (so_from_c n)) by apply c02_conversions_agree.
    destruct (default_ok chk n null_ptr (so_from_c n) H (proj1 (c02_named_orders_valid n))) as (c & E & _).
    rewrite (bind_lift_ok c) by auto. apply AS. eapply (ao_default chk n null_ptr); eauto. apply c02_named_orders_valid.
  - unfold ma_from_list. destruct (from_list_ok chk null_ptr shape so H H0) as (c & E & _).
    rewrite (bind_lift_ok c) by auto. apply AS. eapply (ao_list chk null_ptr shape so); eauto.
  - unfold ma_from_gen. destruct (from_gen_ok chk null_ptr bases shape g so H H0 H1 H2) as (c & E & _).
    rewrite (bind_lift_ok c) by auto. apply AS. eapply (ao_gen chk null_ptr bases shape g so); eauto.
  - destruct (copy_outcomes dflt a vs h f H) as [(k & h' & Ef & E & Hh)|(f' & _ & E & HO)]; rewrite E; cbn [w_heap].
    + split; [congruence|]. destruct Hh as [[K ->]|[[K ->]|(K & vs' & _ & ->)]].
      * split; [intros b _; reflexivity|]. left. split; congruence.
      * split; [apply app_untouched|]. right. split; [intros F; rewrite F in Ef; injection Ef as <-; lia|eauto].
      * split; [apply app_untouched|]. right. split; [intros F; rewrite F in Ef; injection Ef as <-; lia|eauto].
    + exists vs. split; [exact HO|]. split; [reflexivity|]. split; [reflexivity|]. split; [rewrite app_length; simpl; lia|apply app_untouched].
  - destruct (convert_outcomes dflt chk c x so aid h f H H0 H1 H2 H3) as [(k & h' & Ef & E & Hh)|(c' & vs & f' & _ & E & HO & _)]; rewrite E; cbn [w_heap].
    + split; [congruence|]. destruct Hh as [[K ->]|[[K ->]|(K & vs' & _ & ->)]].
      * split; [intros b _; reflexivity|]. left. split; congruence.
      * split; [apply app_untouched|]. right. split; [intros F; rewrite F in Ef; injection Ef as <-; lia|eauto].
      * split; [apply app_untouched|]. right. split; [intros F; rewrite F in Ef; injection Ef as <-; lia|eauto].
    + exists vs. split; [exact HO|]. split; [reflexivity|]. split; [reflexivity|]. split; [rewrite app_length; simpl; lia|apply app_untouched].
Qed.

(** the memory is not released: whenever allocation succeeds and the constructor
    throws later, the block it obtained stays outstanding *)
Theorem c25_release_refuted : forall (T : Type) (dflt : T) (h : heap T) aid m k w,
  constructor dflt h aid m -> m (World h (Some k)) = Thrown w -> (0 < k)%nat ->
  outstanding (w_heap w) (length h).
Proof.
  intros T dflt h aid m k w Hm E Hk. pose proof (c25_constructor_outcomes T dflt h aid m (Some k) Hm) as C.
  rewrite E in C. destruct C as (_ & _ & [[F _]|[_ [cells ->]]]); [injection F as ->; lia|].
  eexists. apply nth_app_last.
Qed.

(** the copy constructor: if the exception comes from an element assignment
    (after all elements have been value-initialised), the leaked block is full of
    constructed elements whose destructors never run; if it comes from an element
    constructor, the elements constructed so far have been destroyed and only raw
    memory leaks *)
Theorem c25_copy_leaks_elements : forall (T : Type) (dflt : T) (h : heap T) a vs k w,
  owns h a vs -> ma_copy dflt a (World h (Some k)) = Thrown w ->
  ((length vs < k)%nat -> exists vs', length vs' = length vs /\
     w_heap w = h ++ [Some (Block (ma_aid a) (map Some vs'))]) /\
  ((0 < k <= length vs)%nat -> w_heap w = h ++ [Some (Block (ma_aid a) (repeat None (length vs)))]) /\
  (k = O -> w_heap w = h).
Proof.
  intros T dflt h a vs k w Ho E.
  destruct (copy_outcomes dflt a vs h (Some k) Ho) as [(k' & h' & Ef & E2 & Hh)|(f' & _ & E2 & HO)]; rewrite E2 in E; [|discriminate].
  injection E as <-. injection Ef as <-. cbn [w_heap].
  destruct Hh as [[-> ->]|[[K ->]|(K & vs' & L & ->)]].
  - split; [lia|]. split; [lia|auto].
  - split; [lia|]. split; [auto|lia].
  - split; [eauto|]. split; lia.
Qed.

(** * the hypotheses can be met: a 2x3 array with bases (1,-2), the storage order
      of [ex_so], elements 10..15 in storage order, block 1 of a heap whose block 0
      was freed, allocator 9 *)
Definition ex_ma : multi_array :=
  MA (cr_set_base ex_arr (Ptr 1 0)) (Ptr 1 0) 6 9.
Definition ex_heap : heap Z := [None; Some (Block 9 (map Some [10; 11; 12; 13; 14; 15]))].

Example ex_owned : owns ex_heap ex_ma [10; 11; 12; 13; 14; 15].
Proof.
  split; [apply ao_set_base, ex_arr_object|]. repeat split.
Qed.

(** resizing it to extents[range(5,8)][range(0,2)] (3x2): the 2x2 common block is
    kept, the new row is value-initialised, the old block is freed *)
Example ex_c11_resize :
  layout_ok (cr_storage (ma_ref ex_ma)) [5; 0] [3; 2] /\
  ranges_are (eg_ranges (EGen 2 [ERange 5 8; ERange 0 2])) [5; 0] [3; 2] /\
  ma_resize 0 true ex_ma (EGen 2 [ERange 5 8; ERange 0 2]) (World ex_heap None) =
  Done (MA (CRef (Ptr 2 0) ex_so [3; 2] [1; -3] [5; 0] (-2) 3 6) (Ptr 2 0) 6 9)
       (World [None; None; Some (Block 9 (map Some [12; 13; 0; 14; 15; 0]))] None).
Proof. split; [layout_tac|]. split; [repeat constructor|]. vm_compute. reflexivity. Qed.

(** the same resize with the element constructor throwing at the third element,
    and with the second element assignment throwing: the array is intact *)
Example ex_c24_resize_throws :
  ma_resize 0 true ex_ma (EGen 2 [ERange 5 8; ERange 0 2]) (World ex_heap (Some 3%nat)) =
  Thrown (World (ex_heap ++ [Some (Block 9 (repeat None 6))]) None) /\
  ma_resize 0 true ex_ma (EGen 2 [ERange 5 8; ERange 0 2]) (World ex_heap (Some 8%nat)) =
  Thrown (World (ex_heap ++ [None]) None).
Proof. split; vm_compute; reflexivity. Qed.

(** copying it *)
Example ex_c13_copy :
  ma_copy 0 ex_ma (World ex_heap None) =
  Done (MA (cr_set_base ex_arr (Ptr 2 0)) (Ptr 2 0) 6 9)
       (World (ex_heap ++ [Some (Block 9 (map Some [10; 11; 12; 13; 14; 15]))]) None).
Proof. vm_compute. reflexivity. Qed.

(** two arrays in different blocks, and an operation on the first *)
Example ex_c13_independent :
  owns (ex_heap ++ [Some (Block 9 (map Some [10; 11; 12; 13; 14; 15]))]) ex_ma [10; 11; 12; 13; 14; 15] /\
  owns (ex_heap ++ [Some (Block 9 (map Some [10; 11; 12; 13; 14; 15]))])
       (MA (cr_set_base ex_arr (Ptr 2 0)) (Ptr 2 0) 6 9) [10; 11; 12; 13; 14; 15] /\
  ma_block ex_ma <> ma_block (MA (cr_set_base ex_arr (Ptr 2 0)) (Ptr 2 0) 6 9).
Proof.
  split; [split; [apply ao_set_base, ex_arr_object|]; repeat split|].
  split; [split; [apply ao_set_base, ex_arr_object|]; repeat split|]. vm_compute. congruence.
Qed.

(** converting its view [range(1,3)][range(0,-3,-2)] into a Fortran-order array *)
Example ex_c14_convert :
  derived (ma_ref ex_ma) (v_nd (View (Ptr 1 0) 0 4 [2; 2] [1; 4] [0; 0])) /\
  live ex_heap (ma_ref ex_ma) /\
  order_ok 2 (so_from_fortran 2) /\ layout_ok (so_from_fortran 2) [0; 0] [2; 2] /\
  ma_convert 0 true (v_nd (View (Ptr 1 0) 0 4 [2; 2] [1; 4] [0; 0])) (so_from_fortran 2) 3 (World ex_heap None) =
  Done (MA (CRef (Ptr 2 0) (so_from_fortran 2) [2; 2] [1; 2] [0; 0] 0 0 4) (Ptr 2 0) 4 3)
       (World (ex_heap ++ [Some (Block 3 (map Some [10; 11; 14; 15]))]) None).
Proof.
  split.
  { apply d_view. eapply (dv_make _ (cr_nd (ma_ref ex_ma)) ex_ig);
      [apply d_array|apply ex_ig_built|cbv; lia|vm_compute; reflexivity|apply ex_view_inside]. }
  split; [apply (owns_live _ _ _ ex_owned)|].
  split; [apply c02_named_orders_valid|]. split; [layout_tac|]. vm_compute. reflexivity.
Qed.

(** constructor calls, one of them throwing *)
Example ex_c25_constructors :
  constructor 0 ex_heap 4 (ma_from_list 0 true 2 [2; 3] (so_from_c 2) 4) /\
  constructor 0 ex_heap 9 (ma_copy 0 ex_ma) /\
  ma_from_list 0 true 2 [2; 3] (so_from_c 2) 4 (World ex_heap (Some 4%nat)) =
    Thrown (World (ex_heap ++ [Some (Block 4 (repeat None 6))]) None) /\
  ma_copy 0 ex_ma (World ex_heap (Some 9%nat)) =
    Thrown (World (ex_heap ++ [Some (Block 9 (map Some [10; 11; 0; 0; 0; 0]))]) None).
Proof.
  split; [apply (k_list 0 ex_heap true [2; 3]); [apply c02_named_orders_valid|layout_tac]|].
  split; [apply (k_copy 0 ex_heap ex_ma _ ex_owned)|]. split; vm_compute; reflexivity.
Qed.
