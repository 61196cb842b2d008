(** HistoryProofs.v -- every library call follows the abstract machine. *)

From Coq Require Import Lia Permutation.
From Verif Require Import Base StorageOrder Ranges Layout Access Objects Memory Ops MultiArray Spec Facts
  LayoutProofs AccessProofs ViewSpec ViewProofs MemoryProofs CopyProofs ReachSpec ReachProofs IterSpec MemSpec ThmIter
  CompareSpec OwnSpec ThmAddressing ThmViews ThmGeometry ThmCopy ThmBulk CompareProofs ThmCompare OwnProofs ResizeProofs ThmMultiArray
  History HistorySpec.

Lemma in_bounds_split : forall bases ext i, in_bounds bases ext i ->
  exists k, in_bounds (repeat 0 (length ext)) ext k /\ i = tadd bases k.
Proof.
  induction bases as [|b bases IH]; intros [|e ext] [|i is] H; cbn [in_bounds] in H; try tauto.
  - exists []. split; [exact I|auto].
  - destruct H as [H1 H2]. destruct (IH ext is H2) as (k & Hk & ->). exists ((i - b) :: k).
    split; [cbn [length repeat in_bounds]; split; [lia|auto]|cbn [tadd]; f_equal; lia].
Qed.
Lemma in_bounds_join : forall bases ext k, length bases = length ext -> in_bounds (repeat 0 (length ext)) ext k ->
  in_bounds bases ext (tadd bases k).
Proof.
  induction bases as [|b bases IH]; intros [|e ext] [|i is] L H; cbn [length repeat in_bounds tadd] in *; try tauto; try lia.
  destruct H as [H1 H2]. split; [lia|]. apply IH; auto.
Qed.

Lemma ext_nonneg a : nd_ok a -> Forall (fun e => 0 <= e) (nd_ext a).
Proof. intros (_ & _ & _ & F & _). eapply Forall_impl; [|exact F]. simpl. intros; lia. Qed.

(** * expressions *)

Definition sub_arg (s : subscript) : ig_arg :=
  match s with At i => AIndex i | Slice lo hi st => ARange (slice_range lo hi st) end.

Lemma indices_of_build : forall subs g, indices_of g subs = ig_build g (map sub_arg subs).
Proof.
  induction subs as [|[i|lo hi s] subs IH]; intros g; simpl; auto.
  - destruct (ig_at_index g i); simpl; auto.
  - destruct (ig_at_range g _); simpl; auto.
Qed.

Lemma slice_range_eq lo hi s : slice_range lo hi s =
  IRange (match lo with Some x => x | None => - max_index - 1 end)
         (match hi with Some x => x | None => max_index end) s false.
Proof. unfold slice_range. destruct lo, hi; reflexivity. Qed.

Lemma slices_facts : forall bs es ss subs vs ws g, slices bs es ss subs vs ws g ->
  length ss = length es -> bounds_ok bs es -> Forall (fun s => Z.abs s <= max_index) ss ->
  reach bs es ss <= max_index ->
  let rs := map arg_range (map sub_arg subs) in
  ranges_fit bs es ss rs /\ ranges_inside bs es rs /\ corner bs rs ss <= reach bs es ss /\
  gav_lens bs es rs = vs /\ length (filter is_range (map sub_arg subs)) = length vs /\
  gav_strides rs ss = ws /\ Forall (fun s => Z.abs s <= max_index) ws /\
  Forall (fun x => match x with AIndex k => idx_min <= k < idx_max | _ => True end) (map sub_arg subs) /\
  (forall t, length t = length vs -> source_index bs rs t = g t).
Proof.
  induction 1 as [|b bs e es s ss i subs vs ws m Hi Hmax H IH|b bs e es s ss lo hi stride subs len vs ws m start finish Hs0 Hsa Hsb Hst Hfp Hfn Hb Hiv Hlen Hsel H IH];
    intros Ls BO Fs HR rs.
  - simpl. repeat split; auto; try lia. intros [|? ?]; [auto|discriminate].
  - destruct BO as [F1 F2]. inversion F1; subst. inversion F2; subst. inversion Fs; subst.
    cbn [reach] in HR. pose proof (reach_nonneg bs es ss) as RN.
    assert (0 <= (Z.abs b + Z.max 0 (e - 1)) * Z.abs s) by (apply Z.mul_nonneg_nonneg; lia).
    assert (BO' : bounds_ok bs es) by (split; auto).
    destruct (IH ltac:(simpl in Ls; lia) BO' ltac:(assumption) ltac:(lia)) as (A1 & A2 & A3 & A4 & A5 & A6 & A7 & A8 & A9).
    unfold rs; clear rs. cbn [map sub_arg arg_range ranges_fit ranges_inside corner reach gav_lens gav_strides ir_degenerate filter is_range].
    assert (RS : range_start (IRange i (i + 1) 1 true) b = i).
    { unfold range_start. cbn [ir_start]. destruct (Z.eqb_spec i (- max_index - 1)); auto. lia. }
    assert (RF : i + 1 <= range_finish (IRange i (i + 1) 1 true) b e <= b + e).
    { unfold range_finish. cbn [ir_finish]. destruct (Z.eqb_spec (i + 1) max_index); lia. }
    split; [split; [|auto]|].
    { unfold range_fits, accepted, index_value. cbn [ir_stride ir_degenerate]. rewrite RS.
      change (1 <? 0) with false. change (0 <? 1) with true. cbv zeta.
      repeat split; try discriminate; unconst; lia. }
    split; [split; [|auto]|].
    { unfold range_inside. cbn [ir_degenerate]. rewrite RS. lia. }
    split.
    { rewrite RS. pose proof (Z.mul_le_mono_nonneg_r (Z.abs i) (Z.abs b + Z.max 0 (e - 1)) (Z.abs s) ltac:(lia) ltac:(lia)). lia. }
    split; [auto|]. split; [auto|]. split; [auto|]. split; [auto|]. split; [constructor; [unconst; lia|auto]|].
    intros t Ht. cbn [source_index ir_degenerate]. rewrite RS. f_equal. apply A9; auto.
  - destruct BO as [F1 F2]. inversion F1; subst. inversion F2; subst. inversion Fs; subst.
    cbn [reach] in HR. pose proof (reach_nonneg bs es ss) as RN.
    assert (0 <= (Z.abs b + Z.max 0 (e - 1)) * Z.abs s) by (apply Z.mul_nonneg_nonneg; lia).
    assert (BO' : bounds_ok bs es) by (split; auto).
    destruct (IH ltac:(simpl in Ls; lia) BO' ltac:(assumption) ltac:(lia)) as (A1 & A2 & A3 & A4 & A5 & A6 & A7 & A8 & A9).
    unfold rs; clear rs. cbn [map sub_arg arg_range]. rewrite slice_range_eq.
    cbn [ranges_fit ranges_inside corner reach gav_lens gav_strides ir_degenerate filter is_range].
    set (r := IRange _ _ stride false).
    assert (RS : range_start r b = start).
    { unfold range_start, start, r. cbn [ir_start]. destruct lo as [x|]; [|rewrite Z.eqb_refl; auto].
      destruct (Z.eqb_spec x (- max_index - 1)); auto. subst start. lia. }
    assert (RF : range_finish r b e = finish).
    { unfold range_finish, finish, r. cbn [ir_finish]. destruct hi as [x|]; [|rewrite Z.eqb_refl; auto].
      destruct (Z.eqb_spec x max_index); auto. subst finish. lia. }
    assert (RFt : range_fits b e s r).
    { unfold range_fits, accepted, index_value in *. rewrite RS, RF. unfold r. cbn [ir_stride ir_degenerate]. cbv zeta.
      split; [auto|]. split.
      { destruct (Z.ltb_spec stride 0); unconst; lia. }
      split; [auto|]. split.
      { unconst. lia. }
      split.
      { destruct (Z.ltb_spec 0 stride); unconst; lia. }
      split; [unconst; lia|]. intros _. unconst. lia. }
    split; [split; auto|].
    split; [split; [|auto]|].
    { pose proof RFt as (_ & HA & _). apply range_inside_iff; [lia|exact Hs0|reflexivity|exact HA|].
      rewrite RS. unfold r. cbn [ir_stride]. lia. }
    split.
    { rewrite RS. pose proof (Z.mul_le_mono_nonneg_r (Z.abs start) (Z.abs b + Z.max 0 (e - 1)) (Z.abs s) ltac:(lia) ltac:(lia)). lia. }
    rewrite RS, RF. unfold r at 1. cbn [ir_stride].
    assert (EL : vlen start finish stride = len).
    { pose proof (vlen_nonneg start finish stride Hs0). symmetry.
      pose proof (range_fits_len b e s r ltac:(lia) ltac:(lia) ltac:(lia) RFt) as VL. rewrite RS, RF in VL. unfold r in VL. cbn [ir_stride] in VL.
      apply (c06_extent_unique start finish stride _ len VL); auto. }
    split; [congruence|]. split; [simpl; lia|].
    split; [unfold r; cbn [ir_stride]; congruence|]. split; [constructor; auto|].
    split; [constructor; auto|]. intros [|k t] Ht; [discriminate|]. cbn [source_index ir_degenerate]. unfold r at 1. cbn [ir_degenerate ir_stride].
    rewrite RS. unfold r. cbn [ir_stride]. f_equal. apply A9. simpl in Ht. lia.
Qed.

Lemma array_strides c : array_object c -> Forall (fun s => Z.abs s <= max_index) (cr_str c).
Proof.
  intros Hc. destruct (array_object_ok c Hc) as (Hv & Hr & -> & _). unfold strides_of.
  pose proof Hr as (Hb & Hn & F & F2 & B). pose proof (weighted_nonneg (so_ordering (cr_storage c)) _ _ Hb F).
  apply Forall_forall. intros s Hs. unfold spec_strides in Hs. apply in_map_iff in Hs. destruct Hs as (d & <- & Hd).
  pose proof (dim_step_nonneg (so_ordering (cr_storage c)) (cr_ext c) d F).
  pose proof (dim_step_le_P1 (so_ordering (cr_storage c)) (cr_ext c) d F) as HB.
  rewrite P1_perm in HB by apply Hv. unfold sgn. destruct (nth d _ true); lia.
Qed.

Section HistoryProofs.
Context {T : Type}.

(** variable x's object m is the array a *)
Definition repr (h : heap T) (a : arr) (m : multi_array) : Prop :=
  owns h m (a_elems a) /\ cr_ext (ma_ref m) = a_shape a /\ cr_ib (ma_ref m) = a_bases a /\
  cr_storage (ma_ref m) = a_order a /\ ma_aid m = a_alloc a.

Definition relA (st : list (option arr)) (vars : list (option multi_array)) (h : heap T) : Prop :=
  (forall x, match nth_error st x, nth_error vars x with
             | Some (Some a), Some (Some m) => repr h a m
             | Some None, Some None => True
             | None, None => True
             | _, _ => False
             end) /\
  (forall x y m1 m2, nth_error vars x = Some (Some m1) -> nth_error vars y = Some (Some m2) -> x <> y ->
     ma_block m1 <> ma_block m2).

Lemma relA_var st en h x a : relA st en h -> nth_error st x = Some (Some a) ->
  exists m, nth_error en x = Some (Some m) /\ repr h a m.
Proof.
  intros [H _] E. specialize (H x). rewrite E in H. destruct (nth_error en x) as [[m|]|]; try tauto. exists m; auto.
Qed.

Lemma relA_var_inv st en h x m : relA st en h -> nth_error en x = Some (Some m) ->
  exists a, nth_error st x = Some (Some a) /\ repr h a m.
Proof.
  intros [H _] E. specialize (H x). rewrite E in H. destruct (nth_error st x) as [[a|]|]; try tauto. exists a; auto.
Qed.

Lemma relA_length st en h : relA st en h -> length st = length en.
Proof.
  intros [H _].
  destruct (Nat.lt_trichotomy (length st) (length en)) as [L|[L|L]]; auto; exfalso.
  - specialize (H (length st)). rewrite (proj2 (nth_error_None st (length st))) in H by lia.
    destruct (nth_error en (length st)) eqn:E; [tauto|]. apply nth_error_None in E. lia.
  - specialize (H (length en)). rewrite (proj2 (nth_error_None en (length en))) in H by lia.
    destruct (nth_error st (length en)) as [[|]|] eqn:E; try tauto. apply nth_error_None in E. lia.
Qed.

(** array c (a multi_array, or a ref into it, or a multi_array as it was before it
    was reindexed or reshaped) uses the memory of m *)
Definition lies_at (off : Z) (c : cref) (m : multi_array) : Prop :=
  0 <= off /\ cr_data c = Ptr (ma_block m) off /\ off + cr_num_elements c <= cr_num_elements (ma_ref m).
Definition lies_in (c : cref) (m : multi_array) : Prop := exists off, lies_at off c m.

(** the model object d, obtained from c, is the place p *)
Definition stands (vars : list (option multi_array)) (c : cref) (d : nd) (p : place) : Prop :=
  exists m, nth_error vars (pl_var p) = Some (Some m) /\ array_object c /\ lies_in c m /\ derived c d /\
    nd_base d = pl_bases p /\ nd_ext d = pl_shape p /\ nd_str d = pl_strides p /\
    Forall (fun s => Z.abs s <= max_index) (nd_str d) /\
    (forall i, in_bounds (pl_bases p) (pl_shape p) i ->
       addr d i = Ptr (ma_block m) (Z.of_nat (pl_cell p i)) /\ Z.of_nat (pl_cell p i) < cr_num_elements (ma_ref m)).
Definition stands_for (vars : list (option multi_array)) (d : nd) (p : place) : Prop := exists c, stands vars c d p.

Definition hrel (vars : list (option multi_array)) (d : handle) (n : named_place) : Prop :=
  match d, n with
  | HView v, AView p => exists c, derived_view c v /\ stands vars c (v_nd v) p
  | HRef c, ARef x off bases shape so =>
      exists m, nth_error vars x = Some (Some m) /\ array_object c /\ lies_at off c m /\
        cr_ib c = bases /\ cr_ext c = shape /\ cr_storage c = so
  | _, _ => False
  end.

Definition relH (st : @state T) (en : env) : Prop :=
  length (s_named st) = length (e_handles en) /\
  forall k n, named_is st k n -> exists d, nth_error (e_handles en) k = Some d /\ hrel (e_vars en) d n.

Definition related (st : @state T) (en : env) (h : heap T) : Prop :=
  relA (s_arrays st) (e_vars en) h /\ relH st en.

Lemma arranged_stands vars x m off c : nth_error vars x = Some (Some m) -> array_object c -> lies_at off c m ->
  stands vars c (cr_nd c) (arranged_from x off (cr_ib c) (cr_ext c) (cr_storage c)).
Proof.
  intros Em Hc HL. pose proof (array_object_ok c Hc) as Hok.
  exists m. unfold arranged_from. cbn [pl_var pl_bases pl_shape pl_strides pl_cell].
  split; [auto|]. split; [auto|]. split; [exists off; auto|]. split; [constructor|]. split; [auto|]. split; [auto|].
  split; [apply (proj1 (proj2 (proj2 Hok)))|]. split; [apply array_strides; auto|].
  intros i Hi. rewrite cref_addr by (auto; apply in_bounds_length in Hi; tauto).
  assert (PB : 0 <= pos_of (cr_storage c) (cr_ib c) (cr_ext c) i < prod (cr_ext c)).
  { destruct Hok as (Hv & _). unfold pos_of. apply position_bound; auto. }
  assert (EN : cr_num_elements c = prod (cr_ext c)) by (apply c26_fits_64_bits; auto).
  destruct HL as (H0 & HL & HN). unfold cr_data in HL. rewrite HL. unfold pos_of in *.
  rewrite Z2Nat.id by lia. split; [unfold padd; cbn [p_blk p_off]; f_equal; lia|lia].
Qed.

Lemma self_lies (h : heap T) m vs : owns h m vs -> lies_at 0 (ma_ref m) m.
Proof.
  intros (_ & Hd & Ho & _). unfold lies_at, ma_block. rewrite Hd. destruct (ma_base m) as [bb oo]; cbn [p_off p_blk] in *. subst. split; [lia|]. split; [auto|lia].
Qed.

Lemma lies_live (h : heap T) m vs c : owns h m vs -> lies_in c m -> live h c.
Proof.
  intros Ho (off & H0 & E & HN) q (k & Hk & ->). pose proof (owns_live _ _ _ Ho) as HL. pose proof (self_lies _ _ _ Ho) as (_ & E' & _).
  apply HL. exists (off + k). split; [lia|]. rewrite E, E'. unfold padd. cbn [p_blk p_off]. f_equal.
Qed.

(** evaluated objects *)
Definition obj_ok (c : cref) (o : obj) : Prop :=
  match o with OArr c' => c' = c | OView v => derived_view c v | OSub _ => True end.

Lemma row_stands vars chk c d x b bs n ns s ss m i : stands vars c d (Place x (b :: bs) (n :: ns) (s :: ss) m) ->
  ns <> [] -> b <= i < b + n ->
  access_n chk i d = Ok (row d i) /\ stands vars c (row d i) (Place x bs ns ss (fun t => m (i :: t))).
Proof.
  intros (mm & Em & Hc & HL & Hd & Eb & Ee & Es & Fs & Ei) Hne Hi. cbn [pl_var pl_bases pl_shape pl_strides pl_cell] in *.
  assert (Ln : (1 < length (nd_ext d))%nat) by (rewrite Ee; destruct ns; simpl; [congruence|lia]).
  destruct (row_facts chk c d i b n Hc Hd Ln) as (E & Hro & Hdr & EA & EB); auto; try (rewrite ?Eb, ?Ee; reflexivity).
  split; [auto|]. exists mm. cbn [pl_var pl_bases pl_shape pl_strides pl_cell].
  repeat (split; [assumption|]). split; [unfold row; cbn [nd_base]; rewrite Eb; auto|].
  split; [unfold row; cbn [nd_ext]; rewrite Ee; auto|]. split; [unfold row; cbn [nd_str]; rewrite Es; auto|].
  split; [unfold row; cbn [nd_str]; destruct Fs; simpl; auto|].
  intros t Ht. rewrite EA. apply Ei. simpl. auto.
Qed.

Lemma view_stands vars chk c d x bs ns ss m subs vs ws g : stands vars c d (Place x bs ns ss m) ->
  slices bs ns ss subs vs ws g -> vs <> [] ->
  exists ig v, indices_of indices subs = Ok ig /\ make_view chk d ig = Ok v /\ derived_view c v /\
    stands vars c (v_nd v) (Place x (repeat 0 (length vs)) vs ws (fun t => m (g t))).
Proof.
  intros (mm & Em & Hc & HL & Hd & Eb & Ee & Es & Fs & Ei) HS Hne. cbn [pl_var pl_bases pl_shape pl_strides pl_cell] in *.
  pose proof (derived_ok _ _ Hc Hd) as Hok. pose proof Hok as (L1 & L2 & L3 & F1 & F2 & F3 & F4).
  rewrite Eb, Ee, Es in *.
  destruct (slices_facts _ _ _ _ _ _ _ HS) as (A1 & A2 & A3 & A4 & A5 & A6 & A6' & A7 & A8); auto; [split; auto|].
  cbv zeta in *. set (args := map sub_arg subs) in *. set (rs := map arg_range args) in *.
  assert (Hargs : args <> []).
  { intros E0. unfold rs in A1. rewrite E0 in A1. destruct bs; [simpl in L1; lia|]. destruct ns, ss; simpl in A1; tauto. }
  pose proof (c29_generator_records_arguments args Hargs A7) as EI.
  set (ig := IGen (length args) (length (filter is_range args)) rs) in *.
  pose proof (ranges_fit_length _ _ _ _ A1) as Lr.
  assert (Hnum : ig_num ig = length (nd_ext d)).
  { unfold ig. cbn [ig_num]. rewrite Ee, <- Lr. unfold rs. rewrite map_length. auto. }
  assert (Hdf : forall ck, dims_facts ck bs ns ss rs).
  { intros ck. apply ranges_fit_facts; auto; [split; auto|lia]. }
  assert (Hdims : length (gav_strides rs ss) = ig_dims ig).
  { unfold ig. cbn [ig_dims]. rewrite A5, <- A4. apply (length_gav true); auto. }
  assert (EV : forall ck, make_view ck d ig = Ok (view_of d rs)).
  { intros ck. apply make_view_ok; auto; unfold ig; cbn [ig_ranges]; rewrite ?Eb, ?Ee, ?Es; auto. lia. }
  assert (Hdims2 : (0 < ig_dims ig)%nat).
  { unfold ig. cbn [ig_dims]. rewrite A5. destruct vs; simpl; [congruence|lia]. }
  assert (HDV : derived_view c (view_of d rs)).
  { apply (dv_make _ d ig); auto.
    - eapply ig_build_built; [apply built_none|exact EI].
    - unfold ig. cbn [ig_ranges]. rewrite Eb, Ee. auto. }
  exists ig, (view_of d rs). split; [rewrite indices_of_build; exact EI|]. split; [auto|]. split; [auto|].
  exists mm. cbn [pl_var pl_bases pl_shape pl_strides pl_cell]. repeat (split; [assumption|]).
  split; [apply d_view; auto|].
  unfold view_of, v_nd. cbn [nd_base nd_ext nd_str v_ib v_ext v_str]. rewrite Eb, Ee, Es, A4, A6.
  split; [auto|]. split; [auto|]. split; [auto|]. split; [auto|].
  intros t Ht. assert (Lt : length t = length vs) by (apply in_bounds_length in Ht; tauto).
  assert (SI : in_bounds bs ns (source_index bs rs t)).
  { eapply (source_index_in_bounds true); eauto. rewrite A4. auto. }
  rewrite (A8 t Lt) in SI. destruct (Ei _ SI) as [EA HA]. split; [|auto].
  rewrite <- EA, <- (A8 t Lt).
  pose proof (view_addr true d rs t Hok) as VA. unfold view_of, v_nd in VA. rewrite Eb, Ee, Es, A4, A6 in VA.
  apply VA; auto.
Qed.

Lemma ri_inc_n_at a : forall k j, idx_min <= j - Z.of_nat k -> j <= idx_max ->
  ri_inc_n k (RIter (it_at a j)) = Ok (RIter (it_at a (j - Z.of_nat k))).
Proof.
  induction k as [|k IH]; intros j H1 H2; cbn [ri_inc_n].
  - replace (j - Z.of_nat 0) with j by lia. auto.
  - unfold ri_inc at 1. cbn [ri_base]. unfold it_dec. cbn [it_idx it_at]. rewrite ssub_ok by (unconst; lia). cbn [obind].
    change (it_with_idx (it_at a j) (j - 1)) with (it_at a (j - 1)). rewrite IH by lia. do 3 f_equal. lia.
Qed.

Lemma denotes_eval st en (h : heap T) chk e p : related st en h -> denotes st e p ->
  exists o c, eval chk en e = Ok o /\ stands (e_vars en) c (obj_nd o) p /\ obj_ok c o.
Proof.
  intros [HR HH]. induction 1 as [x a Ha|k n Hn|e i x b bs n ns s ss m H IH Hne Hi|e subs x bs ns ss m vs ws g H IH HS Hne
    |e k x b bs n ns s ss m H IH Hne Hi|e k x b bs n ns s ss m H IH Hne Hi].
  - destruct (relA_var _ _ h x a HR Ha) as (m & Em & (Ho & E1 & E2 & E3 & E4)).
    exists (OArr (ma_ref m)), (ma_ref m). cbn [eval]. unfold var. rewrite Em. cbn [obind]. split; [auto|].
    rewrite <- E1, <- E2, <- E3. split; [|reflexivity]. apply (arranged_stands _ _ m 0); auto; [apply Ho|eapply self_lies; eauto].
  - destruct HH as [_ HH]. destruct (HH k n Hn) as (d & Ed & Hd). cbn [eval]. unfold named. rewrite Ed. cbn [obind].
    destruct d as [v|c], n as [p|x off bases shape so]; cbn [hrel] in Hd; try tauto.
    + destruct Hd as (c & Hdv & Hs). exists (OView v), c. split; [reflexivity|]. split; [exact Hs|exact Hdv].
    + destruct Hd as (m & Em & Hc & Hl & <- & <- & <-). exists (OArr c), c. split; [reflexivity|]. split; [|reflexivity].
      cbn [place_of obj_nd handle_obj]. apply (arranged_stands _ _ m off); auto.
  - destruct IH as (o & c & Ed & Hs & _). cbn [eval]. rewrite Ed. cbn [obind].
    destruct (row_stands _ chk _ _ _ _ _ _ _ _ _ _ i Hs Hne Hi) as [E Hr]. rewrite E. cbn [obind].
    exists (OSub (row (obj_nd o) i)), c. split; [auto|]. split; [auto|exact I].
  - destruct IH as (o & c & Ed & Hs & _). cbn [eval]. rewrite Ed. cbn [obind].
    destruct (view_stands _ chk _ _ _ _ _ _ _ _ _ _ _ Hs HS Hne) as (ig & v & -> & E & Hv & Hr). cbn [obind]. rewrite E. cbn [obind].
    exists (OView v), c. split; [auto|]. split; auto.
  - destruct IH as (o & c & Ed & Hs & _). cbn [eval]. rewrite Ed. cbn [obind].
    pose proof Hs as (mm & Em & Hc & HL & Hd & Eb & Ee & _). cbn [pl_bases pl_shape] in Eb, Ee.
    pose proof (derived_ok _ _ Hc Hd) as Hok. destruct (dims_at _ Hok) as (b' & bs' & e' & es' & Eb' & Ee' & He & Hb & Hbe & E1 & E2).
    assert (b' = b /\ e' = n) as [-> ->] by (split; congruence).
    destruct (c18_dereference chk c (obj_nd o) k _ b Hc Hd E1) as (it & EI & ED & _); [rewrite Eb; auto|unfold index_value; lia|].
    rewrite E1. cbn [obind]. rewrite EI. cbn [obind]. rewrite ED.
    destruct (row_stands _ chk _ _ _ _ _ _ _ _ _ _ (b + k) Hs Hne ltac:(lia)) as [E Hr]. rewrite E. cbn [obind].
    exists (OSub (row (obj_nd o) (b + k))), c. split; [auto|]. split; [auto|exact I].
  - destruct IH as (o & c & Ed & Hs & _). cbn [eval]. rewrite Ed. cbn [obind].
    pose proof Hs as (mm & Em & Hc & HL & Hd & Eb & Ee & _). cbn [pl_bases pl_shape] in Eb, Ee.
    pose proof (derived_ok _ _ Hc Hd) as Hok. destruct (dims_at _ Hok) as (b' & bs' & e' & es' & Eb' & Ee' & He & Hb & Hbe & E1 & E2).
    assert (b' = b /\ e' = n) as [-> ->] by (split; congruence).
    unfold nd_rbegin. rewrite E2. cbn [obind]. rewrite ri_inc_n_at by (unconst; lia). cbn [obind].
    replace (b + n - Z.of_nat k) with (b + n - 1 - Z.of_nat k + 1) by lia.
    rewrite ri_deref_n_at by (unconst; lia).
    destruct (row_stands _ chk _ _ _ _ _ _ _ _ _ _ (b + n - 1 - Z.of_nat k) Hs Hne ltac:(lia)) as [E Hr]. rewrite E. cbn [obind].
    exists (OSub (row (obj_nd o) (b + n - 1 - Z.of_nat k))), c. split; [auto|]. split; [auto|exact I].
Qed.

Lemma denotes_nd st en (h : heap T) chk e p : related st en h -> denotes st e p ->
  exists d, eval_nd chk en e = Ok d /\ stands_for (e_vars en) d p.
Proof.
  intros HR HD. destruct (denotes_eval st en h chk e p HR HD) as (o & c & E & Hs & _).
  exists (obj_nd o). unfold eval_nd. rewrite E. split; [auto|exists c; auto].
Qed.


(** * names survive as long as their array keeps its memory *)

Definition keeps_at (vars vars' : list (option multi_array)) (x : nat) : Prop :=
  forall m, nth_error vars x = Some (Some m) ->
    exists m', nth_error vars' x = Some (Some m') /\ ma_block m' = ma_block m /\
      cr_num_elements (ma_ref m') = cr_num_elements (ma_ref m).

Lemma keeps_refl vars x : keeps_at vars vars x.
Proof. intros m E. exists m. auto. Qed.

Lemma lies_keep off c m m' : lies_at off c m -> ma_block m' = ma_block m ->
  cr_num_elements (ma_ref m') = cr_num_elements (ma_ref m) -> lies_at off c m'.
Proof. intros Hl E1 E2. unfold lies_at in *. rewrite E1, E2. auto. Qed.

Lemma stands_keep vars vars' c d p : stands vars c d p -> keeps_at vars vars' (pl_var p) -> stands vars' c d p.
Proof.
  intros (m & Em & Hc & [off HL] & H) K. destruct (K m Em) as (m' & Em' & E1 & E2). exists m'. rewrite E1, E2.
  split; [auto|]. split; [auto|]. split; [exists off; eapply lies_keep; eauto|exact H].
Qed.

Lemma hrel_keep vars vars' d n : hrel vars d n -> keeps_at vars vars' (owner n) -> hrel vars' d n.
Proof.
  destruct d as [v|c], n as [p|x off bases shape so]; cbn [hrel owner place_of]; try tauto.
  - intros (c & H & Hs) K. exists c. split; [auto|]. eapply stands_keep; eauto.
  - cbn [pl_var arranged_from]. intros (m & Em & Hc & HL & H) K. destruct (K m Em) as (m' & Em' & E1 & E2). exists m'.
    split; [auto|]. split; [auto|]. split; [eapply lies_keep; eauto|auto].
Qed.

Lemma relH_keep (st st' : @state T) en en' : relH st en -> s_named st' = s_named st -> e_handles en' = e_handles en ->
  (forall k n, named_is st k n -> keeps_at (e_vars en) (e_vars en') (owner n)) -> relH st' en'.
Proof.
  intros [L H] E1 E2 K. unfold relH, named_is in *. rewrite E1, E2. split; [auto|].
  intros k n Hn. destruct (H k n Hn) as (d & Ed & Hd). exists d. split; [auto|]. eapply hrel_keep; eauto.
Qed.

Lemma orphan_named (st : @state T) x k n : named_is (orphan st x) k n -> named_is st k n /\ owner n <> x.
Proof.
  unfold named_is, orphan. cbn [s_named]. rewrite nth_error_map. destruct (nth_error (s_named st) k) as [[n'|]|]; cbn [option_map]; try discriminate.
  destruct (Nat.eqb_spec (owner n') x); intros H; [discriminate|]. injection H as ->. auto.
Qed.

Lemma relH_orphan (st st' : @state T) en en' x : relH st en -> s_named st' = s_named st -> e_handles en' = e_handles en ->
  (forall k n, named_is st k n -> owner n <> x -> keeps_at (e_vars en) (e_vars en') (owner n)) -> relH (orphan st' x) en'.
Proof.
  intros [L H] E1 E2 K. split; [unfold orphan; cbn [s_named]; rewrite map_length; congruence|].
  intros k n Hn. apply orphan_named in Hn. destruct Hn as [Hn Hne]. unfold named_is in Hn. rewrite E1 in Hn.
  destruct (H k n Hn) as (d & Ed & Hd). exists d. split; [congruence|]. eapply hrel_keep; eauto.
Qed.

(** * element reads and writes *)

Definition still (h h' : heap T) : Prop :=
  length h' = length h /\ forall b, outstanding h' b <-> outstanding h b.
Lemma still_refl h : still h h. Proof. split; [auto|tauto]. Qed.
Lemma still_trans h1 h2 h3 : still h1 h2 -> still h2 h3 -> still h1 h3.
Proof. intros [A B] [C D]. split; [congruence|]. intros b. rewrite D. auto. Qed.

Lemma repr_hcell h a m k : repr h a m -> hcell h (Ptr (ma_block m) (Z.of_nat k)) = option_map Some (nth_error (a_elems a) k).
Proof.
  intros ((Hc & Hd & Ho & Ha & Hl & Hb) & _). rewrite (hcell_block _ _ _ _ Hb) by lia. cbn [b_cells].
  rewrite Nat2Z.id. apply nth_error_map.
Qed.

Lemma still_set (h : heap T) b k k' : nth_error h b = Some (Some k) -> still h (set_nth b (Some k') h).
Proof.
  intros E. split; [apply length_set_nth|]. intros b'. unfold outstanding. destruct (Nat.eq_dec b b') as [<-|Hne].
  - rewrite nth_error_set_nth_eq by (apply nth_error_Some; congruence). split; eauto.
  - rewrite nth_error_set_nth_ne by auto. tauto.
Qed.

Lemma related_set st en h x a m vs' : related st en h ->
  array_is st x a -> nth_error (e_vars en) x = Some (Some m) -> length vs' = length (a_elems a) ->
  let h' := set_nth (ma_block m) (Some (Block (ma_aid m) (map Some vs'))) h in
  related (set_array st x (Arr (a_shape a) (a_bases a) (a_order a) (a_alloc a) vs')) en h' /\ still h h'.
Proof.
  intros [HR HH] Ea Em Lv h'. destruct (relA_var _ _ _ _ _ HR Ea) as (m' & Em' & Hr).
  rewrite Em in Em'. injection Em' as <-.
  pose proof Hr as ((Hc & Hd & Ho & Ha & Hl & Hb) & E1 & E2 & E3 & E4).
  split; [|eapply still_set; eauto]. split; [|apply (relH_keep st _ en); auto; intros; apply keeps_refl].
  destruct HR as [R1 R2]. split; [|auto]. intros y. unfold set_array. cbn [s_arrays]. destruct (Nat.eq_dec x y) as [<-|Hne].
  - rewrite nth_error_set_nth_eq by (apply nth_error_Some; unfold array_is in Ea; congruence). rewrite Em.
    unfold repr. cbn [a_elems a_shape a_bases a_order a_alloc]. split; [|auto].
    unfold owns. repeat (split; [assumption|]). split; [lia|].
    unfold h'. apply nth_error_set_nth_eq. apply nth_error_Some. congruence.
  - rewrite nth_error_set_nth_ne by auto. specialize (R1 y). destruct (nth_error (s_arrays st) y) as [[a2|]|]; auto.
    destruct (nth_error (e_vars en) y) as [[m2|]|] eqn:Em2; auto. destruct R1 as (Ow & R1). split; [|auto].
    eapply owns_other; eauto. unfold same_block, h'. apply nth_error_set_nth_ne.
    apply (R2 x y m m2); auto.
Qed.

(** what standing for a place means for the elements *)
Lemma stands_owner st en h d p : related st en h -> stands_for (e_vars en) d p ->
  exists c m a, nth_error (e_vars en) (pl_var p) = Some (Some m) /\ array_is st (pl_var p) a /\ repr h a m /\
    array_object c /\ derived c d /\ live h c /\ nd_ok d /\ nd_base d = pl_bases p /\ nd_ext d = pl_shape p /\
    (forall i, in_bounds (pl_bases p) (pl_shape p) i ->
       addr d i = Ptr (ma_block m) (Z.of_nat (pl_cell p i)) /\ (pl_cell p i < length (a_elems a))%nat).
Proof.
  intros [HR HH] (c & m & Em & Hc & HL & Hd & Eb & Ee & _ & _ & Ei).
  destruct (relA_var_inv _ _ _ _ _ HR Em) as (a & Ea & Hr). exists c, m, a.
  pose proof (proj1 Hr) as Ho. pose proof Ho as (_ & _ & _ & _ & Hl & _).
  split; [auto|]. split; [auto|]. split; [auto|]. split; [auto|]. split; [auto|].
  split; [eapply lies_live; eauto|]. split; [eapply derived_ok; eauto|]. split; [auto|]. split; [auto|].
  intros i Hi. destruct (Ei i Hi) as [EA HB]. split; [auto|]. lia.
Qed.

Lemma array_fun (st : @state T) x a a' : array_is st x a -> array_is st x a' -> a = a'.
Proof. unfold array_is. congruence. Qed.

Lemma look_get st en h d p i v chk f : related st en h -> stands_for (e_vars en) d p -> look st p i v ->
  get_element chk d i (World h f) = Done v (World h f).
Proof.
  intros HR HS (Hi & a & Ea & Hv).
  destruct (stands_owner _ _ _ _ _ HR HS) as (c & m & a' & Em & Ea' & Hr & Hc & Hd & HL & Hok & Eb & Ee & Ei).
  rewrite <- (array_fun _ _ _ _ Ea Ea') in *.
  rewrite get_element_eq by (rewrite ?Eb, ?Ee; auto).
  destruct (Ei i Hi) as [-> _].
  unfold load. cbn [w_heap]. unfold hread. rewrite (repr_hcell _ _ _ _ Hr), Hv. reflexivity.
Qed.

Lemma get_look st en h d p i : related st en h -> stands_for (e_vars en) d p ->
  in_bounds (pl_bases p) (pl_shape p) i -> exists v, look st p i v /\ reads h d i v.
Proof.
  intros HR HS Hi.
  destruct (stands_owner _ _ _ _ _ HR HS) as (c & m & a & Em & Ea & Hr & Hc & Hd & HL & Hok & Eb & Ee & Ei).
  destruct (Ei i Hi) as [_ HP].
  destruct (nth_error (a_elems a) (pl_cell p i)) as [v|] eqn:Ev; [|apply nth_error_None in Ev; lia].
  assert (HK : look st p i v) by (split; [auto|exists a; auto]).
  exists v. split; [auto|]. unfold reads. eapply look_get; eauto.
Qed.

Lemma look_fun st p i u v : @look T st p i u -> look st p i v -> u = v.
Proof. intros (_ & a & Ea & Hu) (_ & a' & Ea' & Hv). rewrite <- (array_fun _ _ _ _ Ea Ea') in Hv. congruence. Qed.

Lemma look_reads st en h d p i v : related st en h -> stands_for (e_vars en) d p ->
  in_bounds (pl_bases p) (pl_shape p) i -> (look st p i v <-> reads h d i v).
Proof.
  intros HR HS Hi. destruct (get_look _ _ _ _ _ _ HR HS Hi) as (u & HL & Hu). unfold reads in *. split; intros H.
  - eapply look_get; eauto.
  - rewrite H in Hu. congruence.
Qed.

Lemma store_owned (h : heap T) m vs k v f : owns h m vs -> (k < length vs)%nat ->
  store (Ptr (ma_block m) (Z.of_nat k)) v (World h f) =
  Done tt (World (set_nth (ma_block m) (Some (Block (ma_aid m) (map Some (set_nth k v vs)))) h) f).
Proof.
  intros (Hc & Hd & Ho & Ha & Hl & Hb) Hk. unfold store, hwrite. cbn [w_heap w_fuse].
  rewrite (hcell_block _ _ _ _ Hb) by lia. cbn [b_cells]. rewrite Nat2Z.id, nth_error_map.
  destruct (nth_error vs k) as [u|] eqn:Eu; [|apply nth_error_None in Eu; lia]. cbn [option_map].
  unfold hset. rewrite (hcell_block _ _ _ _ Hb) by lia. cbn [b_cells p_blk p_off]. rewrite Nat2Z.id, nth_error_map, Eu.
  cbn [option_map]. rewrite (hblock_nth _ _ _ Hb). cbn [b_cells b_alloc]. do 6 f_equal.
  clear. revert k. induction vs as [|w vs IH]; intros [|k]; simpl; auto. f_equal. auto.
Qed.

Lemma put_set st en h d p i v st1 chk f : related st en h -> stands_for (e_vars en) d p -> put st p i v st1 ->
  (f = Some O /\ set_element chk d i v (World h f) = Thrown (World h None)) \/
  (exists h' f', set_element chk d i v (World h f) = Done tt (World h' f') /\
     related st1 en h' /\ still h h' /\ f = option_map S f').
Proof.
  intros HR HS (Hi & a & Ea & ->).
  destruct (stands_owner _ _ _ _ _ HR HS) as (c & m & a' & Em & Ea' & Hr & Hc & Hd & HL & Hok & Eb & Ee & Ei).
  rewrite <- (array_fun _ _ _ _ Ea Ea') in *. clear a' Ea'.
  destruct (Ei i Hi) as [EA HP]. pose proof (proj1 Hr) as Ho.
  assert (EQ : set_element chk d i v (World h f) =
    (_ <~ tick ;; store (Ptr (ma_block m) (Z.of_nat (pl_cell p i))) v) (World h f)).
  { unfold set_element. rewrite access_element_ok by (rewrite ?Eb, ?Ee; auto).
    unfold lift, bind at 1. rewrite EA. reflexivity. }
  rewrite EQ. unfold bind.
  destruct (related_set st en h (pl_var p) a m (set_nth (pl_cell p i) v (a_elems a)) HR Ea Em) as [A B]; [apply length_set_nth|].
  destruct f as [[|f]|].
  - left. split; auto.
  - right. unfold tick. cbn [w_fuse w_heap]. rewrite (store_owned _ _ _ _ _ _ Ho HP).
    do 2 eexists. split; [reflexivity|]. split; [exact A|]. split; [exact B|reflexivity].
  - right. unfold tick. cbn [w_fuse w_heap]. rewrite (store_owned _ _ _ _ _ _ Ho HP).
    do 2 eexists. split; [reflexivity|]. split; [exact A|]. split; [exact B|reflexivity].
Qed.

Lemma bracket_same st en h d p i w chk : related st en h -> stands_for (e_vars en) d p -> in_bounds (pl_bases p) (pl_shape p) i ->
  get_bracket chk d i w = get_element chk d i w /\ forall v : T, set_bracket chk d i v w = set_element chk d i v w.
Proof.
  intros HR HS Hi.
  destruct (stands_owner _ _ _ _ _ HR HS) as (c & m & a & Em & Ea & Hr & Hc & Hd & HL & Hok & Eb & Ee & Ei).
  unfold get_bracket, get_element, set_bracket, set_element.
  rewrite bracket_ok, access_element_ok by (rewrite ?Eb, ?Ee; auto). auto.
Qed.

(** * element-wise operations *)

Lemma copies_run dst src d s en chk : stands_for (e_vars en) d dst -> stands_for (e_vars en) s src -> forall ks st st' h f,
  copies dst src ks st st' -> related st en h ->
  (exists h' f', assign_in_order chk d s ks (World h f) = Done tt (World h' f') /\
     related st' en h' /\ still h h' /\ (f = None -> f' = None)) \/
  (exists h' n st1, f = Some n /\ assign_in_order chk d s ks (World h f) = Thrown (World h' None) /\
     copies dst src (firstn n ks) st st1 /\ related st1 en h' /\ still h h').
Proof.
  intros HD HSr. induction ks as [|k ks IH]; intros st st' h f HC HR.
  - inversion HC; subst. left. exists h, f. split; [reflexivity|]. split; [auto|]. split; [apply still_refl|auto].
  - inversion HC as [|? ? ? st1 ? v HL HP HC']; subst. cbn [assign_in_order].
    destruct (stands_owner _ _ _ _ _ HR HD) as (? & ? & ? & _ & _ & _ & _ & _ & _ & _ & Ebd & _).
    destruct (stands_owner _ _ _ _ _ HR HSr) as (? & ? & ? & _ & _ & _ & _ & _ & _ & _ & Ebs & _).
    assert (EQ : (v0 <~ get_element chk s (tadd (nd_base s) k) ;;
                  _ <~ set_element chk d (tadd (nd_base d) k) v0 ;; assign_in_order chk d s ks) (World h f) =
                 (_ <~ set_element chk d (tadd (pl_bases dst) k) v ;; assign_in_order chk d s ks) (World h f)).
    { rewrite Ebs, Ebd. unfold bind at 1. rewrite (look_get _ _ _ _ _ _ _ chk f HR HSr HL). reflexivity. }
    rewrite EQ. unfold bind.
    destruct (put_set _ _ _ _ _ _ _ _ chk f HR HD HP) as [[-> ->]|(h1 & f1 & -> & HR1 & HS1 & Hf)].
    + right. exists h, O, st. split; [reflexivity|]. split; [auto|]. split; [constructor|]. split; [auto|apply still_refl].
    + destruct (IH st1 st' h1 f1 HC' HR1) as [(h2 & f2 & E & HR2 & HS2 & Hf2)|(h2 & n & st2 & Hf2 & E & HC2 & HR2 & HS2)].
      * left. exists h2, f2. split; [auto|]. split; [auto|]. split; [eapply still_trans; eauto|]. intros ->. destruct f1; [discriminate|auto].
      * right. exists h2, (S n), st2. split; [rewrite Hf, Hf2; reflexivity|]. split; [auto|].
        split; [cbn [firstn]; econstructor; eauto|]. split; [auto|eapply still_trans; eauto].
Qed.

Lemma mapped_run p fn d en : stands_for (e_vars en) d p -> forall is st st' h f,
  mapped p fn is st st' -> related st en h ->
  (exists h' f', mseq (apply_cell fn) (map (addr d) is) (World h f) = Done tt (World h' f') /\
     related st' en h' /\ still h h' /\ (f = None -> f' = None)) \/
  (exists h' n st1, f = Some n /\ mseq (apply_cell fn) (map (addr d) is) (World h f) = Thrown (World h' None) /\
     mapped p fn (firstn n is) st st1 /\ related st1 en h' /\ still h h').
Proof.
  intros HD. induction is as [|k ks IH]; intros st st' h f HC HR.
  - inversion HC; subst. left. exists h, f. split; [reflexivity|]. split; [auto|]. split; [apply still_refl|auto].
  - inversion HC as [|? ? ? st1 ? v HL HP HC']; subst. cbn [map mseq].
    destruct (stands_owner _ _ _ _ _ HR HD) as (? & ? & ? & _ & _ & _ & _ & _ & _ & Hok & Ebd & Eed & _).
    assert (Hk : in_bounds (nd_base d) (nd_ext d) k) by (rewrite Ebd, Eed; apply HP).
    assert (EQ : apply_cell fn (addr d k) (World h f) =
      (v0 <~ get_element true d k ;; set_element true d k (fn v0)) (World h f)).
    { unfold apply_cell, get_element, set_element. rewrite access_element_ok by auto. reflexivity. }
    assert (EQ2 : (_ <~ apply_cell fn (addr d k) ;; mseq (apply_cell fn) (map (addr d) ks)) (World h f) =
       (_ <~ set_element true d k (fn v) ;; mseq (apply_cell fn) (map (addr d) ks)) (World h f)).
    { unfold bind at 1. rewrite EQ. unfold bind at 1. rewrite (look_get _ _ _ _ _ _ _ true f HR HD HL). reflexivity. }
    rewrite EQ2. unfold bind.
    destruct (put_set _ _ _ _ _ _ _ _ true f HR HD HP) as [[-> ->]|(h1 & f1 & -> & HR1 & HS1 & Hf)].
    + right. exists h, O, st. split; [reflexivity|]. split; [auto|]. split; [constructor|]. split; [auto|apply still_refl].
    + destruct (IH st1 st' h1 f1 HC' HR1) as [(h2 & f2 & E & HR2 & HS2 & Hf2)|(h2 & n & st2 & Hf2 & E & HC2 & HR2 & HS2)].
      * left. exists h2, f2. split; [auto|]. split; [auto|]. split; [eapply still_trans; eauto|]. intros ->. destruct f1; [discriminate|auto].
      * right. exists h2, (S n), st2. split; [rewrite Hf, Hf2; reflexivity|]. split; [auto|].
        split; [cbn [firstn]; econstructor; eauto|]. split; [auto|eapply still_trans; eauto].
Qed.


(** * assign(first, last) *)

(** positions k.. of the first n receive l *)
Definition fillk (n k : nat) (l vs : list T) : list T :=
  firstn k vs ++ firstn (n - k) l ++ skipn (Nat.min n (k + length l)) vs.

Lemma fillk_cons n k v l vs : (k < n)%nat -> (n <= length vs)%nat -> fillk n (S k) l (set_nth k v vs) = fillk n k (v :: l) vs.
Proof.
  revert n k. induction vs as [|u vs IH]; intros [|n] [|k] Hk Hn; simpl in Hn; try lia.
  - unfold fillk. simpl. rewrite Nat.sub_0_r. auto.
  - specialize (IH n k ltac:(lia) ltac:(lia)). unfold fillk in *. cbn [set_nth firstn length app Nat.add Nat.sub Nat.min skipn] in *.
    f_equal. exact IH.
Qed.
Lemma fillk_end n l vs : (n <= length vs)%nat -> fillk n n l vs = vs.
Proof. intros Hn. unfold fillk. rewrite Nat.sub_diag, Nat.min_l by lia. simpl. apply firstn_skipn. Qed.
Lemma fillk_nil n k vs : (k <= n)%nat -> fillk n k [] vs = vs.
Proof. intros. unfold fillk. rewrite firstn_nil. simpl. rewrite Nat.add_0_r, Nat.min_r by lia. apply firstn_skipn. Qed.
Lemma length_fillk n k l vs : (k <= n)%nat -> (n <= length vs)%nat -> length (fillk n k l vs) = length vs.
Proof. intros. unfold fillk. rewrite !app_length, !firstn_length, skipn_length. lia. Qed.

Lemma owns_set (h : heap T) m vs vs' : owns h m vs -> length vs' = length vs ->
  owns (set_nth (ma_block m) (Some (Block (ma_aid m) (map Some vs'))) h) m vs'.
Proof.
  intros (Hc & Hd & Ho & Ha & Hl & Hb) L. unfold owns. repeat (split; [assumption|]). split; [lia|].
  apply nth_error_set_nth_eq. apply nth_error_Some. congruence.
Qed.

Lemma fill_run m n o : forall l k vs (h : heap T) f, owns h m vs -> (k <= n)%nat -> (n <= length vs)%nat ->
  let res l' := set_nth (ma_block m) (Some (Block (ma_aid m) (map Some (fillk n k l' vs)))) h in
  (exists f', assign_loop (Ptr (ma_block m) (Z.of_nat k)) l (Z.of_nat k - o) (Z.of_nat n - o) (World h f) =
     Done tt (World (res l) f') /\ (f = None -> f' = None)) \/
  (exists j, f = Some j /\ assign_loop (Ptr (ma_block m) (Z.of_nat k)) l (Z.of_nat k - o) (Z.of_nat n - o) (World h f) =
     Thrown (World (res (firstn j l)) None)).
Proof.
  induction l as [|v l IH]; intros k vs h f Ho Hk Hn res; pose proof Ho as (_ & _ & _ & _ & _ & Hb).
  - left. exists f. split; [|auto]. simpl. unfold ret, res. rewrite fillk_nil, set_nth_same by auto. auto.
  - cbn [assign_loop]. destruct (Z.ltb_spec (Z.of_nat k - o) (Z.of_nat n - o)) as [Hlt|Hge].
    + assert (Hk' : (k < length vs)%nat) by lia.
      assert (THR : f = Some O \/ exists f1, tick (World h f) = Done tt (World h f1) /\ f = option_map S f1).
      { destruct f as [[|f]|]; [left; auto|right; exists (Some f); split; reflexivity|right; exists None; split; reflexivity]. }
      destruct THR as [->|(f1 & ET & Hf1)].
      * right. exists O. split; [reflexivity|]. unfold bind, tick. cbn [w_fuse w_heap firstn].
        unfold res. rewrite fillk_nil, set_nth_same by auto. auto.
      * set (vs1 := set_nth k v vs). set (h1 := set_nth (ma_block m) (Some (Block (ma_aid m) (map Some vs1))) h).
        assert (L1 : length vs1 = length vs) by apply length_set_nth.
        assert (O1 : owns h1 m vs1) by (apply owns_set with (vs := vs); auto).
        assert (EQ : (_ <~ tick ;; _ <~ store (Ptr (ma_block m) (Z.of_nat k)) v ;;
                      assign_loop (padd (Ptr (ma_block m) (Z.of_nat k)) 1) l (Z.of_nat k - o + 1) (Z.of_nat n - o)) (World h f) =
                     assign_loop (Ptr (ma_block m) (Z.of_nat (S k))) l (Z.of_nat (S k) - o) (Z.of_nat n - o) (World h1 f1)).
        { unfold bind at 1. rewrite ET. unfold bind at 1. rewrite (store_owned _ _ _ _ _ _ Ho Hk').
          unfold padd. cbn [p_blk p_off]. replace (Z.of_nat k + 1) with (Z.of_nat (S k)) by lia.
          replace (Z.of_nat k - o + 1) with (Z.of_nat (S k) - o) by lia. reflexivity. }
        rewrite EQ.
        assert (ER : forall l', set_nth (ma_block m) (Some (Block (ma_aid m) (map Some (fillk n (S k) l' vs1)))) h1 = res (v :: l')).
        { intros l'. unfold h1. rewrite set_nth_set_nth. unfold vs1. rewrite fillk_cons by lia. auto. }
        destruct (IH (S k) vs1 h1 f1 O1 ltac:(lia) ltac:(lia)) as [(f2 & E & Hf3)|(j & Hf3 & E)].
        { left. exists f2. rewrite E, ER. split; auto. intros ->. destruct f1; [discriminate|auto]. }
        { right. exists (S j). rewrite E, ER. split; [rewrite Hf1, Hf3; reflexivity|auto]. }
    + left. exists f. split; [|auto]. assert (k = n) by lia. subst k.
      unfold ret, res. rewrite fillk_end, set_nth_same by auto. auto.
Qed.

Lemma fill_array st en h x a m off c l f : related st en h -> array_is st x a -> nth_error (e_vars en) x = Some (Some m) ->
  lies_at off c m -> 0 <= cr_num_elements c -> let n := Z.to_nat (cr_num_elements c) in
  (exists h' f', cr_assign c l (World h f) = Done tt (World h' f') /\
     related (set_array st x (filled_from a (Z.to_nat off) n l)) en h' /\ still h h' /\ (f = None -> f' = None)) \/
  (exists h' j, f = Some j /\ cr_assign c l (World h f) = Thrown (World h' None) /\
     related (set_array st x (filled_from a (Z.to_nat off) n (firstn j l))) en h' /\ still h h').
Proof.
  intros HR Ha Em (HO & HD & HN) H0 n. destruct (relA_var _ _ _ _ _ (proj1 HR) Ha) as (m' & Em' & Hr). rewrite Em in Em'. injection Em' as <-.
  pose proof (proj1 Hr) as Ho. pose proof Ho as (_ & _ & _ & _ & Hl & _).
  assert (EA : cr_assign c l = assign_loop (Ptr (ma_block m) (Z.of_nat (Z.to_nat off))) l (Z.of_nat (Z.to_nat off) - off) (Z.of_nat (Z.to_nat off + n) - off)).
  { unfold cr_assign. unfold n. rewrite Nat2Z.inj_add, !Z2Nat.id by auto. unfold cr_data in HD. rewrite HD, Z.sub_diag.
    replace (off + cr_num_elements c - off) with (cr_num_elements c) by lia. reflexivity. }
  rewrite EA.
  assert (Ln : (Z.to_nat off + n <= length (a_elems a))%nat) by lia.
  assert (RS : forall l', let h' := set_nth (ma_block m) (Some (Block (ma_aid m) (map Some (fillk (Z.to_nat off + n) (Z.to_nat off) l' (a_elems a))))) h in
    related (set_array st x (filled_from a (Z.to_nat off) n l')) en h' /\ still h h').
  { intros l'. assert (FK : filled_from a (Z.to_nat off) n l' = Arr (a_shape a) (a_bases a) (a_order a) (a_alloc a) (fillk (Z.to_nat off + n) (Z.to_nat off) l' (a_elems a))).
    { unfold filled_from, fillk. replace (Z.to_nat off + n - Z.to_nat off)%nat with n by lia. rewrite Nat.add_min_distr_l. reflexivity. }
    rewrite FK. apply related_set; auto. apply length_fillk; lia. }
  destruct (fill_run m (Z.to_nat off + n) off l (Z.to_nat off) (a_elems a) h f Ho ltac:(lia) ltac:(lia)) as [(f' & -> & Hf)|(j & Hf & ->)].
  - left. destruct (RS l). do 2 eexists. split; [reflexivity|]. auto.
  - right. destruct (RS (firstn j l)). eexists _, j. split; [auto|]. split; [reflexivity|]. auto.
Qed.

(** * new variables *)

Lemma owns_app (h : heap T) m vs x : owns h m vs -> owns (h ++ [x]) m vs.
Proof. intros H. apply (owns_other m vs h); auto. apply app_untouched. eapply owns_lt; eauto. Qed.

Lemma related_app st en h x : related st en h -> related st en (h ++ [x]).
Proof.
  intros [[R1 R2] HH]. split; [|auto]. split; [|auto]. intros y. specialize (R1 y).
  destruct (nth_error (s_arrays st) y) as [[a|]|], (nth_error (e_vars en) y) as [[m|]|]; auto. destruct R1 as [O R1]. split; [apply owns_app; auto|auto].
Qed.

Lemma related_fresh st en h x m : related st en h -> nth_error (e_vars en) x = Some (Some m) -> (ma_block m < length h)%nat.
Proof. intros HR E. destruct (relA_var_inv _ _ _ _ _ (proj1 HR) E) as (a & _ & (O & _)). eapply owns_lt; eauto. Qed.

Lemma keeps_app vars v x : keeps_at vars (vars ++ v) x.
Proof. intros m E. exists m. split; [|auto]. rewrite nth_error_app1; auto. apply nth_error_Some. congruence. Qed.

Lemma related_new st en h x a m : related st en h -> repr (h ++ [x]) a m -> ma_block m = length h ->
  related (add_array st a) (declare en m) (h ++ [x]).
Proof.
  intros HR Hm Eb. pose proof (relA_length _ _ _ (proj1 HR)) as L. pose proof (related_app _ _ _ x HR) as [[R1 R2] HH].
  unfold declare. split; [split|].
  - intros y. cbn [add_array s_arrays e_vars]. destruct (Nat.lt_trichotomy y (length (s_arrays st))) as [Hy|[->|Hy]].
    + rewrite !nth_error_app1 by lia. apply R1.
    + rewrite nth_app_last. rewrite L, nth_app_last. auto.
    + rewrite !(proj2 (nth_error_None _ _)) by (rewrite app_length; simpl; lia). auto.
  - cbn [e_vars]. intros y z m1 m2 H1 H2 Hne.
    assert (C : forall y m0, nth_error (e_vars en ++ [Some m]) y = Some (Some m0) -> (y = length (e_vars en) /\ m0 = m) \/ nth_error (e_vars en) y = Some (Some m0)).
    { intros y0 m0 H. destruct (Nat.lt_trichotomy y0 (length (e_vars en))) as [Hy|[->|Hy]].
      - rewrite nth_error_app1 in H by lia. auto.
      - rewrite nth_app_last in H. left. split; congruence.
      - rewrite (proj2 (nth_error_None _ _)) in H by (rewrite app_length; simpl; lia). discriminate. }
    apply C in H1. apply C in H2. destruct H1 as [[-> ->]|H1], H2 as [[-> ->]|H2].
    + congruence.
    + pose proof (related_fresh _ _ _ _ _ HR H2). lia.
    + pose proof (related_fresh _ _ _ _ _ HR H1). lia.
    + eauto.
  - apply (relH_keep st _ en); auto. intros. apply keeps_app.
Qed.

Lemma leaked_new st en h k m b : related st en h -> ma_block m = length h ->
  leaked (declare en m) (h ++ [Some k]) b <-> leaked en h b.
Proof.
  intros HR Eb. split.
  2:{ intros [[k' Hk] HL]. assert (b < length h)%nat by (apply nth_error_Some; congruence). split.
      - exists k'. rewrite nth_error_app1 by auto. auto.
      - intros y m0 Hy. unfold declare in Hy. cbn [e_vars] in Hy.
        destruct (Nat.lt_ge_cases y (length (e_vars en))); [rewrite nth_error_app1 in Hy by auto; eauto|].
        rewrite nth_error_app2 in Hy by auto. destruct (y - length (e_vars en))%nat as [|j]; cbn [nth_error] in Hy.
        + assert (m0 = m) by congruence. subst m0. lia.
        + destruct j; discriminate. }
  intros [[k' Hk] HL]. unfold declare in HL. cbn [e_vars] in HL.
  assert (Hb : b <> length h). { intros ->. apply (HL (length (e_vars en)) m); [apply nth_app_last|auto]. }
  assert (b < length h)%nat.
  { assert (b < length (h ++ [Some k]))%nat by (apply nth_error_Some; congruence). rewrite app_length in H. simpl in H. lia. }
  split; [exists k'; rewrite nth_error_app1 in Hk by lia; auto|].
  intros y m0 Hy. apply (HL y m0). rewrite nth_error_app1; auto. apply nth_error_Some. congruence.
Qed.

Lemma leaked_app st en (h : heap T) k b : related st en h ->
  leaked en (h ++ [Some k]) b <-> leaked en h b \/ b = length h.
Proof.
  intros HR. split.
  - intros [[k' Hk] HL].
    assert (b < length (h ++ [Some k]))%nat by (apply nth_error_Some; congruence). rewrite app_length in H. simpl in H.
    destruct (Nat.eq_dec b (length h)); [right; auto|left]. split; [exists k'; rewrite nth_error_app1 in Hk by lia; auto|auto].
  - intros [[[k' Hk] HL]| ->].
    + split; [|auto]. exists k'. rewrite nth_error_app1; [auto|]. apply nth_error_Some. congruence.
    + split; [exists k; apply nth_app_last|]. intros y m0 Hy. pose proof (related_fresh _ _ _ _ _ HR Hy). lia.
Qed.
Lemma leaked_app_none en (h : heap T) b : leaked en (h ++ [None]) b <-> leaked en h b.
Proof.
  split; intros [[k Hk] HL]; (split; [|auto]); exists k.
  - assert (b < length (h ++ [None]))%nat by (apply nth_error_Some; congruence). rewrite app_length in H. simpl in H.
    destruct (Nat.eq_dec b (length h)) as [->|]; [rewrite nth_app_last in Hk; discriminate|]. rewrite nth_error_app1 in Hk by lia. auto.
  - rewrite nth_error_app1; [auto|]. apply nth_error_Some. congruence.
Qed.

Lemma leaked_still en (h h' : heap T) b : still h h' -> leaked en h' b <-> leaked en h b.
Proof. intros [_ H]. unfold leaked. rewrite H. tauto. Qed.

(** the elements are determined by what the array holds *)
Lemma elems_unique (a : arr) (vs : list T) : well_formed a -> Z.of_nat (length vs) = prod (a_shape a) ->
  (forall i, in_bounds (a_bases a) (a_shape a) i -> nth_error vs (a_pos a i) = nth_error (a_elems a) (a_pos a i)) ->
  vs = a_elems a.
Proof.
  intros (Ho & Hl & Hn) Lv H. apply nth_error_ext. intros k.
  destruct (Nat.lt_ge_cases k (length vs)) as [Hk|Hk].
  - destruct (position_surj (so_ordering (a_order a)) (so_ascending (a_order a)) (a_bases a) (a_shape a) (Z.of_nat k)) as (i & Hi & Ei).
    + exact Ho.
    + apply Hl.
    + eapply rep_nonneg; apply Hl.
    + lia.
    + specialize (H i Hi). unfold a_pos in H. rewrite Ei, Nat2Z.id in H. auto.
  - rewrite !(proj2 (nth_error_None _ _)) by lia. auto.
Qed.

Lemma reads_elems h a m i v : repr h a m -> in_bounds (a_bases a) (a_shape a) i ->
  reads h (cr_nd (ma_ref m)) i v <-> nth_error (a_elems a) (a_pos a i) = Some v.
Proof.
  intros (Ho & E1 & E2 & E3 & E4) Hi. rewrite <- E1, <- E2 in Hi. rewrite (owns_reads _ _ _ _ _ Ho Hi).
  unfold a_pos, pos_of. rewrite E1, E2, E3. tauto.
Qed.

(** * replacing a variable *)

Lemma relA_replace st en h h' x a a' m m' : relA st en h ->
  nth_error st x = Some (Some a) -> nth_error en x = Some (Some m) ->
  repr h' a' m' ->
  (forall y m0, y <> x -> nth_error en y = Some (Some m0) ->
     same_block h h' (ma_block m0) /\ ma_block m0 <> ma_block m') ->
  relA (set_nth x (Some a') st) (set_nth x (Some m') en) h'.
Proof.
  intros HR Ea Em Hr HO. pose proof HR as [R1 R2].
  assert (Lx : (x < length st)%nat) by (apply nth_error_Some; congruence).
  assert (Lx' : (x < length en)%nat) by (apply nth_error_Some; congruence).
  split.
  - intros y. destruct (Nat.eq_dec x y) as [<-|Hne].
    + rewrite !nth_error_set_nth_eq by auto. auto.
    + rewrite !nth_error_set_nth_ne by auto. specialize (R1 y).
      destruct (nth_error st y) as [[b|]|] eqn:Ey, (nth_error en y) as [[m0|]|] eqn:Ey'; auto.
      destruct R1 as [O R1]. split; [|auto]. apply (owns_other m0 (a_elems b) h); auto. apply (HO y m0); auto.
  - intros y z m1 m2 H1 H2 Hne. destruct (Nat.eq_dec x y) as [<-|Hy], (Nat.eq_dec x z) as [<-|Hz].
    + congruence.
    + rewrite nth_error_set_nth_eq in H1 by auto. injection H1 as <-. rewrite nth_error_set_nth_ne in H2 by auto.
      apply not_eq_sym. apply (HO z m2); auto.
    + rewrite nth_error_set_nth_eq in H2 by auto. injection H2 as <-. rewrite nth_error_set_nth_ne in H1 by auto.
      apply (HO y m1); auto.
    + rewrite nth_error_set_nth_ne in H1, H2 by auto. eauto.
Qed.

Lemma keeps_set vars x v y : y <> x -> keeps_at vars (set_nth x v vars) y.
Proof. intros Hne m E. exists m. rewrite nth_error_set_nth_ne by auto. auto. Qed.

(** a new value in the same memory: names keep working *)
Lemma related_replace st en h x a a' m m' : related st en h ->
  array_is st x a -> nth_error (e_vars en) x = Some (Some m) ->
  repr h a' m' -> ma_block m' = ma_block m -> cr_num_elements (ma_ref m') = cr_num_elements (ma_ref m) ->
  related (set_array st x a') (update en x m') h.
Proof.
  intros [HR HH] Ea Em Hr E1 E2. split.
  - apply (relA_replace _ _ h h x a a' m m'); auto. intros y m0 Hne Hy. split; [reflexivity|].
    rewrite E1. apply (proj2 HR y x); auto.
  - apply (relH_keep st _ en); auto. intros k n _. cbn [update e_vars]. destruct (Nat.eq_dec (owner n) x) as [->|Hne].
    + intros m0 E. assert (m0 = m) by congruence. subst m0. exists m'.
      split; [apply nth_error_set_nth_eq; apply nth_error_Some; congruence|auto].
    + apply keeps_set; auto.
Qed.

(** new memory: names die *)
Lemma related_renew st en h h' x a a' m m' : related st en h ->
  array_is st x a -> nth_error (e_vars en) x = Some (Some m) ->
  repr h' a' m' ->
  (forall y m0, y <> x -> nth_error (e_vars en) y = Some (Some m0) ->
     same_block h h' (ma_block m0) /\ ma_block m0 <> ma_block m') ->
  related (orphan (set_array st x a') x) (update en x m') h'.
Proof.
  intros [HR HH] Ea Em Hr HO. split.
  - apply (relA_replace _ _ h h' x a a' m m'); auto.
  - apply (relH_orphan st _ en); auto. intros. apply keeps_set; auto.
Qed.

Lemma related_destroy st en h x a m : related st en h ->
  array_is st x a -> nth_error (e_vars en) x = Some (Some m) ->
  related (orphan (remove_array st x) x) (Env (set_nth x None (e_vars en)) (e_handles en)) (set_nth (ma_block m) None h).
Proof.
  intros [[R1 R2] HH] Ea Em. unfold array_is in Ea.
  assert (Lx : (x < length (s_arrays st))%nat) by (apply nth_error_Some; congruence).
  assert (Lx' : (x < length (e_vars en))%nat) by (apply nth_error_Some; congruence).
  split; [split|].
  - intros y. cbn [orphan remove_array s_arrays e_vars]. destruct (Nat.eq_dec x y) as [<-|Hne].
    + rewrite !nth_error_set_nth_eq by auto. auto.
    + rewrite !nth_error_set_nth_ne by auto. specialize (R1 y).
      destruct (nth_error (s_arrays st) y) as [[b|]|] eqn:Ey, (nth_error (e_vars en) y) as [[m0|]|] eqn:Ey'; auto.
      destruct R1 as [O R1]. split; [|auto]. apply (owns_other m0 (a_elems b) h); auto.
      unfold same_block. apply nth_error_set_nth_ne. apply (R2 x y); auto.
  - cbn [e_vars]. intros y z m1 m2 H1 H2 Hne. destruct (Nat.eq_dec x y) as [<-|Hy], (Nat.eq_dec x z) as [<-|Hz].
    + congruence.
    + rewrite nth_error_set_nth_eq in H1 by auto. discriminate.
    + rewrite nth_error_set_nth_eq in H2 by auto. discriminate.
    + rewrite nth_error_set_nth_ne in H1, H2 by auto. eauto.
  - apply (relH_orphan st _ en); auto. intros. apply keeps_set; auto.
Qed.

Lemma leaked_destroy en (h : heap T) x m b : nth_error (e_vars en) x = Some (Some m) ->
  leaked (Env (set_nth x None (e_vars en)) (e_handles en)) (set_nth (ma_block m) None h) b <-> leaked en h b.
Proof.
  intros Em. split.
  2:{ intros [[k Hk] HL]. split.
      - exists k. rewrite nth_error_set_nth_ne; [auto|]. apply (HL x m). auto.
      - cbn [e_vars]. intros y m0 Hy. destruct (Nat.eq_dec x y) as [<-|Hne].
        + rewrite nth_error_set_nth_eq in Hy by (apply nth_error_Some; congruence). discriminate.
        + rewrite nth_error_set_nth_ne in Hy by auto. eauto. }
  intros [[k Hk] HL]. cbn [e_vars] in HL. destruct (Nat.eq_dec (ma_block m) b) as [<-|Hb].
  - destruct (Nat.lt_ge_cases (ma_block m) (length h)).
    + rewrite nth_error_set_nth_eq in Hk by auto. discriminate.
    + rewrite (proj2 (nth_error_None _ _)) in Hk by (rewrite length_set_nth; auto). discriminate.
  - rewrite nth_error_set_nth_ne in Hk by auto. split; [exists k; auto|].
    intros y m0 Hy. destruct (Nat.eq_dec x y) as [<-|Hne]; [congruence|].
    apply (HL y m0). rewrite nth_error_set_nth_ne by auto. auto.
Qed.

Lemma leaked_update en (h : heap T) x m m' b : nth_error (e_vars en) x = Some (Some m) -> ma_block m' = ma_block m ->
  leaked (update en x m') h b <-> leaked en h b.
Proof.
  intros Em E. assert (Lx : (x < length (e_vars en))%nat) by (apply nth_error_Some; congruence). split.
  2:{ intros [O HL]. split; [auto|]. unfold update. cbn [e_vars]. intros y m0 Hy. destruct (Nat.eq_dec x y) as [<-|Hne].
      - rewrite nth_error_set_nth_eq in Hy by auto. assert (m0 = m') by congruence. subst m0. rewrite E. eauto.
      - rewrite nth_error_set_nth_ne in Hy by auto. eauto. }
  intros [O HL]. split; [auto|]. unfold update in HL. cbn [e_vars] in HL.
  intros y m0 Hy. destruct (Nat.eq_dec x y) as [<-|Hne].
  - assert (m0 = m) by congruence. subst m0. rewrite <- E. apply (HL x m'). apply nth_error_set_nth_eq; auto.
  - apply (HL y m0). rewrite nth_error_set_nth_ne by auto. auto.
Qed.

(** names *)
Lemma related_name st en h d n : related st en h -> hrel (e_vars en) d n -> related (add_named st n) (name en d) h.
Proof.
  intros [HR [L HH]] Hd. split; [exact HR|]. unfold add_named, name, relH, named_is. cbn [s_named e_handles e_vars].
  split; [rewrite !app_length; simpl; lia|]. intros k n0 Hk.
  destruct (Nat.lt_trichotomy k (length (s_named st))) as [Hlt|[->|Hgt]].
  - rewrite nth_error_app1 in Hk by auto. rewrite nth_error_app1 by lia. apply HH. exact Hk.
  - rewrite nth_app_last in Hk. injection Hk as <-. exists d. rewrite L, nth_app_last. auto.
  - rewrite (proj2 (nth_error_None _ _)) in Hk by (rewrite app_length; simpl; lia). discriminate.
Qed.
Lemma related_rename st en h k d n n0 : related st en h -> named_is st k n0 -> hrel (e_vars en) d n ->
  related (set_named st k n) (rename en k d) h.
Proof.
  intros [HR [L HH]] Hk Hd. split; [exact HR|]. unfold set_named, rename, relH, named_is in *. cbn [s_named e_handles e_vars].
  assert (Lk : (k < length (s_named st))%nat) by (apply nth_error_Some; congruence).
  split; [rewrite !length_set_nth; auto|]. intros k' n' Hk'. destruct (Nat.eq_dec k k') as [<-|Hne].
  - rewrite nth_error_set_nth_eq in Hk' by auto. injection Hk' as <-. exists d. rewrite nth_error_set_nth_eq by lia. auto.
  - rewrite nth_error_set_nth_ne in Hk' by auto. rewrite nth_error_set_nth_ne by auto. apply HH. exact Hk'.
Qed.

Lemma set_array_same (st : @state T) x a : array_is st x a -> set_array st x a = st.
Proof. intros E. unfold set_array. rewrite set_nth_same by auto. destruct st; auto. Qed.

Lemma copied_self p st st' : @copied T p p st st' -> st' = st.
Proof.
  intros [_ H]. induction H as [|k ks st st1 st2 v HL HP HC IH]; auto. rewrite IH.
  destruct HL as (_ & a & Ea & Hv), HP as (_ & a' & Ea' & ->). rewrite <- (array_fun _ _ _ _ Ea Ea').
  transitivity (set_array st (pl_var p) a); [|apply set_array_same; auto].
  f_equal. unfold a_set. rewrite set_nth_same by auto. destruct a; reflexivity.
Qed.

Lemma extents_of_build : forall rs g, extents_of g rs = eg_build g (map (fun r => EFromTo (fst r) (snd r)) rs).
Proof.
  induction rs as [|[b f] rs IH]; intros g; cbn [extents_of eg_build map fst snd]; auto.
  destruct (eg_at_range g (ERange b f)); simpl; auto.
Qed.

Lemma extents_of_ok rs : rs <> [] -> exists g, extents_of extents rs = Ok g /\ eg_num g = length (ranges_shape rs) /\
  ranges_are (eg_ranges g) (ranges_bases rs) (ranges_shape rs).
Proof.
  intros Hne. rewrite extents_of_build, c35_generator_records_arguments by (destruct rs; simpl; congruence).
  eexists. split; [reflexivity|]. cbn [eg_num eg_ranges]. unfold ranges_shape, ranges_bases. rewrite !map_length.
  split; [auto|]. unfold ranges_are. clear Hne. induction rs as [|[b f] rs IH]; simpl; constructor; auto.
  simpl. split; [auto|lia].
Qed.

Lemma layout_ne so bases shape : layout_ok so bases shape -> shape <> [].
Proof. intros (H & H2 & _) ->. simpl in *. lia. Qed.

Variable dflt : T.
Variable eqT : T -> T -> bool.
Variable ltT : T -> T -> bool.

Definition follows (st : @state T) (en : env) (h : heap T) (f : option nat) (c : @command T) (o : @output T) (st' : state)
    (r : res T (env * @output T)) : Prop :=
  match r with
  | Done (en', o') w =>
      o' = o /\ related st' en' (w_heap w) /\ (f = None -> w_fuse w = None) /\
      (forall b, leaked en' (w_heap w) b <-> leaked en h b)
  | Thrown w =>
      w_fuse w = None /\
      (exists k st'', f = Some k /\ interrupted st k c st'' /\ related st'' en (w_heap w) /\
         forall b, leaked en (w_heap w) b <-> leaked en h b \/ loses k c = true /\ b = length h)
  | _ => False
  end.

Lemma make_new st en h f c0 co aid a c : related st en h ->
  array_object c0 -> co = allocate_space dflt c0 aid -> (forall k, loses k c = (1 <=? k)%nat) -> (forall k, interrupted st k c st) ->
  a = blank dflt (cr_ext c0) (cr_ib c0) (cr_storage c0) aid ->
  follows st en h f c ONone (add_array st a) ((a0 <~ co ;; ret (declare en a0, ONone)) (World h f)).
Proof.
  intros HR Hc -> Hal Hin ->. pose proof (new_num c0 Hc) as Hn. pose proof (array_object_ok c0 Hc) as (_ & _ & _ & _ & En).
  unfold bind. destruct (allocate_space_cases dflt c0 aid h f Hc) as [(k & -> & _ & [[K E]|[K E]])|[_ E]]; rewrite E.
  - cbn [follows w_fuse w_heap]. split; [auto|]. exists k, st. split; [auto|]. split; [auto|]. split; [auto|].
    intros b. rewrite Hal, K. simpl. intuition discriminate.
  - cbn [follows w_fuse w_heap]. split; [auto|]. exists k, st. split; [auto|]. split; [auto|]. split; [apply related_app; auto|].
    intros b. rewrite (leaked_app st) by auto. rewrite Hal. destruct (Nat.leb_spec 1 k); [tauto|lia].
  - unfold ret. cbn [follows w_fuse w_heap]. split; [auto|]. split.
    + apply related_new; auto. split.
      * unfold blank. cbn [a_elems]. rewrite En. apply new_owns; auto. rewrite repeat_length. congruence.
      * unfold new_ma, cr_set_base. cbn. auto.
    + split; [intros ->; auto|]. intros b. apply (leaked_new st); auto.
Qed.

(** element-wise operations that keep every block *)
Lemma after_done st en (h h' : heap T) f f' c st' : related st' en h' -> still h h' -> (f = None -> f' = None) ->
  follows st en h f c ONone st' (Done (en, ONone) (World h' f')).
Proof.
  intros HR HS Hf. cbn [follows w_fuse w_heap]. split; [auto|]. split; [auto|]. split; [auto|].
  intros b. apply leaked_still; auto.
Qed.
Lemma after_thrown st en (h h' : heap T) f k c o st' st'' : interrupted st k c st'' -> related st'' en h' -> still h h' -> f = Some k ->
  loses k c = false ->
  follows st en h f c o st' (Thrown (World h' None)).
Proof.
  intros HI HR HS Hf Hl. cbn [follows w_fuse w_heap]. split; [auto|]. exists k, st''. split; [auto|]. split; [auto|]. split; [auto|].
  intros b. rewrite (leaked_still en h h') by auto. rewrite Hl. intuition discriminate.
Qed.

Lemma copied_sound st en (h : heap T) f c d s pd ps st' chk m : related st en h ->
  stands_for (e_vars en) d pd -> stands_for (e_vars en) s ps -> copied pd ps st st' ->
  (forall n st'', copies pd ps (firstn n (all_positions (pl_shape pd))) st st'' -> interrupted st n c st'') ->
  (forall n, loses n c = false) ->
  m (World h f) = assign_in_order chk d s (positions (nd_ext d)) (World h f) ->
  follows st en h f c ONone st' ((_ <~ m ;; ret (en, ONone)) (World h f)).
Proof.
  intros HR Hd Hs [Hsh HC] HI Hlo E. unfold bind. rewrite E.
  assert (EP : positions (nd_ext d) = all_positions (pl_shape pd)).
  { destruct (stands_owner _ _ _ _ _ HR Hd) as (? & ? & ? & _ & _ & _ & _ & _ & _ & _ & _ & Ee & _). rewrite Ee. reflexivity. }
  rewrite EP.
  destruct (copies_run pd ps d s en chk Hd Hs _ st st' h f HC HR) as
    [(h' & f' & E' & HR' & HS & Hf)|(h' & n & st1 & Hf & E' & HC' & HR' & HS)]; rewrite E'.
  - apply after_done; auto.
  - eapply after_thrown; eauto.
Qed.

Lemma stands_same en d s pd ps : stands_for (e_vars en) d pd -> stands_for (e_vars en) s ps -> pl_shape pd = pl_shape ps -> nd_ext d = nd_ext s.
Proof. intros (c & m & _ & _ & _ & _ & _ & E & _) (c' & m' & _ & _ & _ & _ & _ & E' & _). congruence. Qed.

Lemma assign_both st en (h : heap T) f c d s pd ps st' chk : related st en h ->
  stands_for (e_vars en) d pd -> stands_for (e_vars en) s ps -> copied pd ps st st' ->
  (forall n st'', copies pd ps (firstn n (all_positions (pl_shape pd))) st st'' -> interrupted st n c st'') ->
  (forall n, loses n c = false) ->
  follows st en h f c ONone st' ((_ <~ assign_nd chk (length (nd_ext d)) d s ;; ret (en, ONone)) (World h f)) /\
  follows st en h f c ONone st' ((_ <~ copy_array chk (length (nd_ext d)) d s ;; ret (en, ONone)) (World h f)).
Proof.
  intros HR Hd Hs HC HI Hlo. pose proof Hd as (cd & md & _ & Hcd & _ & Hdd & _). pose proof Hs as (cs & ms & _ & Hcs & _ & Hds & _).
  destruct (c12_assignment_is_elementwise T (World h f) chk _ _ d s Hcd Hdd Hcs Hds) as [EA EC].
  { eapply stands_same; eauto. apply HC. }
  split; eapply (copied_sound st en h f c d s pd ps st' chk); eauto.
Qed.

Lemma var_eval (en : env) x m : nth_error (e_vars en) x = Some (Some m) -> var en x = Ok m.
Proof. intros E. unfold var. rewrite E. auto. Qed.


Lemma named_eval st (en : env) (h : heap T) k n : related st en h -> named_is st k n ->
  exists d, named en k = Ok d /\ hrel (e_vars en) d n.
Proof. intros [_ [_ HH]] Hn. destruct (HH k n Hn) as (d & E & Hd). exists d. unfold named. rewrite E. auto. Qed.

(** a result that changes names or geometry only *)
Lemma after_pure st en en' (h : heap T) f c o st' : related st' en' h ->
  (forall b, leaked en' h b <-> leaked en h b) ->
  follows st en h f c o st' (Done (en', o) (World h f)).
Proof. intros HR HL. cbn [follows w_fuse w_heap]. auto. Qed.

Lemma leaked_names en (h : heap T) hs b : leaked (Env (e_vars en) hs) h b <-> leaked en h b.
Proof. reflexivity. Qed.

(** refs *)
Lemma ref_hrel st en (h : heap T) x a m c off bases shape so : related st en h -> array_is st x a ->
  nth_error (e_vars en) x = Some (Some m) -> array_object c -> 0 <= off -> cr_base c = padd (cr_data (ma_ref m)) off ->
  cr_storage c = so -> cr_ext c = shape -> cr_ib c = bases -> off + prod shape <= prod (a_shape a) ->
  hrel (e_vars en) (HRef c) (ARef x off bases shape so).
Proof.
  intros HR Ha Em Hc H0 E1 E2 E3 E4 HP. cbn [hrel]. exists m. split; [auto|]. split; [auto|].
  destruct (relA_var _ _ _ _ _ (proj1 HR) Ha) as (m' & Em' & Hr). rewrite Em in Em'. injection Em' as <-.
  destruct Hr as (Ho & X1 & _). pose proof (self_lies _ _ _ Ho) as (_ & D & _).
  split; [|auto]. split; [auto|]. split; [unfold cr_data at 1; rewrite E1, D; unfold padd; cbn [p_blk p_off]; f_equal; lia|].
  pose proof (array_object_ok c Hc) as (_ & _ & _ & _ & N1). pose proof (array_object_ok _ (proj1 Ho)) as (_ & _ & _ & _ & N2).
  unfold cr_num_elements. rewrite N1, N2, E3, X1. auto.
Qed.

(** reindexed views *)
Lemma rebase_in : forall old new ext i, length old = length ext -> in_bounds new ext i -> in_bounds old ext (rebase old new i).
Proof.
  induction old as [|o old IH]; intros [|n new] [|e ext] [|k i] L H; simpl in *; try tauto; try lia.
  destruct H as [H1 H2]. split; [lia|]. apply IH; auto.
Qed.
Lemma rebase_tsub : forall old new i, length old = length i -> length new = length i -> tsub (rebase old new i) old = tsub i new.
Proof.
  induction old as [|o old IH]; intros [|n new] [|k i] L1 L2; simpl in *; try lia; auto.
  unfold tsub in *. simpl. f_equal; [lia|]. apply IH; lia.
Qed.

Lemma view_reindexed vars v p c bases : derived_view c v -> stands vars c (v_nd v) p ->
  addressable bases (pl_shape p) (pl_strides p) ->
  exists v', v_reindex v bases = Ok v' /\
    hrel vars (HView v') (AView (Place (pl_var p) bases (pl_shape p) (pl_strides p) (fun i => pl_cell p (rebase (pl_bases p) bases i)))).
Proof.
  intros Hv (m & Em & Hc & HL & Hd & Eb & Ee & Es & Fs & Ei) HA.
  cbn [v_nd nd_base nd_ext nd_str] in Eb, Ee, Es. rewrite <- Ee, <- Es in HA.
  assert (L : length bases = length (v_ext v)) by apply HA.
  pose proof (v_reindex_eq v bases L HA) as EQ. eexists. split; [exact EQ|].
  set (v' := View _ _ _ _ _ _) in *. pose proof (dv_reindex c v bases v' Hv L HA EQ) as Hv'.
  cbn [hrel]. exists c. split; [auto|]. exists m. cbn [pl_var pl_bases pl_shape pl_strides pl_cell].
  repeat (split; [assumption|]). split; [apply d_view; auto|]. split; [reflexivity|]. split; [exact Ee|]. split; [exact Es|].
  split; [exact Fs|]. intros i Hi.
  destruct (derived_view_ok c v Hc Hv) as (Hok & HO & _). unfold nd_ok in Hok. cbn [v_nd nd_base nd_ext nd_str] in Hok.
  destruct Hok as (L1 & L2 & _).
  assert (Li : length i = length (v_ext v)) by (apply in_bounds_length in Hi; rewrite Ee; tauto).
  assert (HB : in_bounds (pl_bases p) (pl_shape p) (rebase (pl_bases p) bases i)) by (apply rebase_in; [rewrite <- Eb, <- Ee; auto|auto]).
  destruct (Ei _ HB) as [EA HN]. split; [|auto]. rewrite <- EA.
  assert (LR : length (rebase (pl_bases p) bases i) = length (v_ext v)) by (apply in_bounds_length in HB; rewrite Ee; tauto).
  rewrite !view_addr_pos; try (cbn [v' v_str v_ib]; congruence).
  - cbn [v' v_base v_ib v_str]. rewrite Eb, rebase_tsub by (rewrite ?Li, <- ?Eb; congruence). auto.
  - reflexivity.
Qed.

(** queries *)
Lemma ask_sound vars o p c q : stands vars c (obj_nd o) p -> obj_ok c o -> answer q o = Ok (@tells T p q).
Proof.
  intros (m & Em & Hc & HL & Hd & Eb & Ee & Es & _) Hob.
  destruct (c33_subarray_and_view_sizes c Hc) as [HS HV].
  destruct q; cbn [answer tells]; rewrite <- ?Eb, <- ?Ee, <- ?Es; auto.
  - destruct o as [c'|v|a]; cbn [obj_ok obj_nd] in *.
    + subst c'. destruct (c33_array_sizes c Hc) as (_ & _ & _ & e & es & E1 & E2 & E3). rewrite E2. cbn [cr_nd nd_ext]. rewrite E1. reflexivity.
    + destruct (HV v Hob) as (_ & e & es & E1 & E2 & E3). rewrite E2. cbn [v_nd nd_ext]. rewrite E1. reflexivity.
    + destruct (HS a Hd) as (_ & _ & e & es & E1 & E2 & E3). rewrite E2, E1. reflexivity.
  - destruct o as [c'|v|a]; cbn [obj_ok obj_nd] in *.
    + subst c'. destruct (c33_array_sizes c Hc) as (-> & _). reflexivity.
    + destruct (HV v Hob) as (-> & _). reflexivity.
    + destruct (HS a Hd) as (-> & _). reflexivity.
  - destruct o as [c'|v|a]; cbn [obj_ok obj_nd] in *.
    + subst c'. destruct (c33_array_sizes c Hc) as (_ & _ & _ & e & es & E1 & E2 & E3). rewrite E3. cbn [cr_nd nd_ext]. rewrite E1. reflexivity.
    + destruct (HV v Hob) as (_ & e & es & E1 & E2 & E3). rewrite E3. cbn [v_nd nd_ext]. rewrite E1. reflexivity.
    + destruct (HS a Hd) as (_ & _ & e & es & E1 & E2 & E3). rewrite E3, E1. reflexivity.
Qed.

(** comparisons *)
Lemma contents_place st en (h : heap T) d p n t : related st en h -> stands_for (e_vars en) d p ->
  (place_contents st p n t <-> contents h d n t).
Proof.
  intros HR HS. destruct (stands_owner _ _ _ _ _ HR HS) as (c & m & a & _ & _ & _ & Hc & Hd & _ & Hok & Eb & Ee & _).
  assert (Lb : length (pl_bases p) = length (pl_shape p)) by (rewrite <- Eb, <- Ee; apply Hok).
  unfold place_contents, contents. rewrite Eb, Ee. split; intros (L & Hsh & Hk); (split; [auto|]); (split; [auto|]).
  - rewrite L. intros k Hin. destruct (Hk k Hin) as (v & He & Hv). exists v. split; [auto|].
    apply (look_reads st en h d p); auto. apply Hv.
  - intros k Hin. destruct (Hk k ltac:(rewrite L; exact Hin)) as (v & He & Hv). exists v. split; [auto|].
    apply (look_reads st en h d p); auto. apply in_bounds_join; auto. rewrite L. auto.
Qed.

Lemma equal_sound st en (h : heap T) x y pa pb chk : related st en h -> stands_for (e_vars en) x pa -> stands_for (e_vars en) y pb ->
  length (pl_shape pa) = length (pl_shape pb) ->
  exists r, nd_eq eqT chk h (length (nd_ext x)) x y = Ok r /\ nd_neq eqT chk h (length (nd_ext x)) x y = Ok (negb r) /\
    (r = true <-> equal_places eqT st pa pb).
Proof.
  intros HR Hx Hy L.
  destruct (stands_owner _ _ _ _ _ HR Hx) as (cx & mx & ax & _ & _ & _ & Hcx & Hdx & HLx & Hokx & Ebx & Eex & _).
  destruct (stands_owner _ _ _ _ _ HR Hy) as (cy & my & ay & _ & _ & _ & Hcy & Hdy & HLy & Hoky & Eby & Eey & _).
  destruct (c15_equality_is_positional T eqT h chk _ _ x y Hcx Hdx Hcy Hdy HLx HLy ltac:(congruence)) as (r & E & EN & Hr).
  exists r. split; [auto|]. split; [auto|]. rewrite Hr, Ebx, Eex, Eby, Eey. unfold equal_places.
  split; intros [H1 H2]; (split; [auto|]); intros k Hk; destruct (H2 k Hk) as (u & v & Hu & Hv & Huv); exists u, v.
  - assert (in_bounds (pl_bases pa) (pl_shape pa) (tadd (pl_bases pa) k)).
    { apply in_bounds_join; auto. rewrite <- Ebx, <- Eex. apply Hokx. }
    assert (in_bounds (pl_bases pb) (pl_shape pb) (tadd (pl_bases pb) k)).
    { apply in_bounds_join; [rewrite <- Eby, <- Eey; apply Hoky|]. rewrite <- H1. auto. }
    rewrite !(look_reads st en h) by eauto. auto.
  - rewrite !(look_reads st en h) in * by (eauto; apply Hu || apply Hv). auto.
Qed.

Definition less_places (st : @state T) p q : Prop :=
  exists n tp tq, place_contents st p n tp /\ place_contents st q n tq /\ tensor_lt ltT n tp tq.

Lemma less_sound st en (h : heap T) x y pa pb chk : related st en h -> stands_for (e_vars en) x pa -> stands_for (e_vars en) y pb ->
  length (pl_shape pa) = length (pl_shape pb) -> forall n, n = length (nd_ext x) ->
  exists r s, nd_lt ltT chk h n x y = Ok r /\ (r = true <-> less_places st pa pb) /\ (s = true <-> less_places st pb pa) /\
    nd_gt ltT chk h n x y = Ok s /\ nd_le ltT chk h n x y = Ok (negb s) /\ nd_ge ltT chk h n x y = Ok (negb r).
Proof.
  intros HR Hx Hy L n Hn0.
  destruct (stands_owner _ _ _ _ _ HR Hx) as (cx & mx & ax & _ & _ & _ & Hcx & Hdx & HLx & Hokx & Ebx & Eex & _).
  destruct (stands_owner _ _ _ _ _ HR Hy) as (cy & my & ay & _ & _ & _ & Hcy & Hdy & HLy & Hoky & Eby & Eey & _).
  destruct (c16_less_is_nested_lexicographic T ltT h chk _ _ x y Hcx Hdx Hcy Hdy HLx HLy ltac:(congruence))
    as (ta & tb & r & s & C1 & C2 & E1 & Hr & E2 & Hs & E3 & E4 & E5). revert ta tb C1 C2 E1 Hr E2 Hs E3 E4 E5. rewrite <- Hn0. intros ta tb C1 C2 E1 Hr E2 Hs E3 E4 E5.
  assert (G : forall d e pd pe (td te : tensor T n), stands_for (e_vars en) d pd -> stands_for (e_vars en) e pe -> nd_ok d -> nd_ok e ->
    contents h d n td -> contents h e n te -> (tensor_lt ltT n td te <-> less_places st pd pe)).
  { intros d e pd pe td te Hd He Od Oe Cd Ce. split.
    - intros H. exists n, td, te. rewrite !(contents_place st en h) by eauto. auto.
    - intros (n' & tp & tq & P1 & P2 & P3). rewrite (contents_place st en h d pd) in P1 by eauto. rewrite (contents_place st en h e pe) in P2 by eauto.
      assert (n' = n) by (transitivity (length (nd_ext d)); [symmetry; apply P1|apply Cd]). subst n'.
      rewrite (c16_contents_unique T h d _ td tp (ext_nonneg _ Od) Cd P1), (c16_contents_unique T h e _ te tq (ext_nonneg _ Oe) Ce P2). auto. }
  exists r, s. split; [auto|]. split; [rewrite Hr; apply (G x y); auto|]. split; [rewrite Hs; apply (G y x); auto|]. auto.
Qed.

Lemma compare_sound st en (h : heap T) x y pa pb chk op r : related st en h -> stands_for (e_vars en) x pa -> stands_for (e_vars en) y pb ->
  length (pl_shape pa) = length (pl_shape pb) -> (r = true <-> compares eqT ltT st op pa pb) ->
  compare eqT ltT op chk h x y = Ok r.
Proof.
  intros HR Hx Hy L Hr.
  destruct (equal_sound st en h x y pa pb chk HR Hx Hy L) as (e & E1 & E2 & He).
  destruct (less_sound st en h x y pa pb chk HR Hx Hy L _ eq_refl) as (l & g & E3 & Hl & Hg & E4 & E5 & E6).
  fold (less_places st pa pb) in *.
  assert (NB : forall a b : bool, (a = true <-> b = true) -> a = b) by (intros [] []; intuition congruence).
  assert (NN : forall (b : bool) P, (b = true <-> P) -> (negb b = true <-> ~ P)).
  { intros b P H. destruct b; simpl; intuition congruence. }
  destruct op; cbn [compare compares] in *.
  - rewrite E1. f_equal. apply NB. rewrite He, Hr. tauto.
  - rewrite E2. f_equal. apply NB. rewrite (NN _ _ He), Hr. tauto.
  - rewrite E3. f_equal. apply NB. rewrite Hl, Hr. tauto.
  - rewrite E4. f_equal. apply NB. rewrite Hg, Hr. tauto.
  - rewrite E5. f_equal. apply NB. rewrite (NN _ _ Hg), Hr. tauto.
  - rewrite E6. f_equal. apply NB. rewrite (NN _ _ Hl), Hr. tauto.
Qed.

(** resize *)
Lemma resize_sound st en (h : heap T) f c x a a' m g rs chk : related st en h -> array_is st x a ->
  nth_error (e_vars en) x = Some (Some m) -> resized dflt a rs a' ->
  eg_num g = length (ranges_shape rs) -> ranges_are (eg_ranges g) (ranges_bases rs) (ranges_shape rs) ->
  (forall k, loses k c = ((1 <=? k) && (k <=? Z.to_nat (prod (ranges_shape rs))))%nat) -> (forall k, interrupted st k c st) ->
  follows st en h f c ONone (orphan (set_array st x a') x)
    ((a0 <~ ma_resize dflt chk m g ;; ret (update en x a0, ONone)) (World h f)).
Proof.
  intros HR Ha Em (L & E1 & E2 & E3 & E4 & HW & HC) Hn Hg Hal Hint.
  destruct (relA_var _ _ _ _ _ (proj1 HR) Ha) as (m0 & Em0 & Hr). rewrite Em in Em0. injection Em0 as <-.
  pose proof Hr as (Ho & X1 & X2 & X3 & X4).
  pose proof HW as (HWo & HWl & HWn). rewrite E1, E2, E3 in HWl. rewrite E1 in HWn. rewrite <- X3 in HWl.
  assert (LS : length (ranges_shape rs) = length rs) by apply map_length.
  unfold bind. destruct (resize_outcomes dflt chk m _ g (ranges_bases rs) (ranges_shape rs) h f Ho) as
    [(k & h' & -> & E & HH)|(c0 & vs' & f' & E & Hf & Ho' & Y1 & Y2 & Y3 & Y4 & Y5)]; auto; [congruence|rewrite E..].
  - cbn [follows w_fuse w_heap]. split; [auto|]. exists k, st. split; [auto|]. split; [auto|]. rewrite Hal.
    destruct HH as [[K ->]|[[K ->]|[K ->]]].
    + split; [auto|]. intros b. rewrite K. simpl. intuition discriminate.
    + split; [apply related_app; auto|]. intros b. rewrite (leaked_app st) by auto.
      destruct (Nat.leb_spec 1 k); [|lia]. destruct (Nat.leb_spec k (Z.to_nat (prod (ranges_shape rs)))); [|lia]. simpl. tauto.
    + split; [apply related_app; auto|]. intros b. rewrite leaked_app_none.
      destruct (Nat.leb_spec k (Z.to_nat (prod (ranges_shape rs)))); [lia|]. rewrite andb_false_r. intuition discriminate.
  - unfold ret. cbn [follows w_fuse w_heap]. split; [auto|].
    set (m' := new_ma c0 (ma_aid m) (length h)) in *.
    set (h' := set_nth (ma_block m) None h ++ [Some (Block (ma_aid m) (map Some vs'))]) in *.
    assert (Hlt : (ma_block m < length h)%nat) by (eapply owns_lt; eauto).
    assert (Eblk : ma_block m' = length h) by reflexivity.
    split.
    + apply (related_renew st en h h' x a a' m); auto.
      { assert (EV : vs' = a_elems a').
        { apply elems_unique; auto.
          - pose proof Ho' as (Hao & _ & _ & _ & Hlv & _). rewrite Hlv. unfold cr_num_elements.
            destruct (array_object_ok _ Hao) as (_ & _ & _ & _ & ->). unfold m', new_ma, cr_set_base. cbn [ma_ref cr_ext]. congruence.
          - intros i Hi. destruct (in_bounds_split _ _ _ Hi) as (k & Hk & Ei). subst i. rewrite E1, LS in Hk.
            rewrite <- E1 in Hk. destruct (HC k Hk) as [HC1 HC2]. rewrite E1 in Hk.
            assert (Lb : length (ranges_bases rs) = length (ranges_shape rs)) by (unfold ranges_bases, ranges_shape; rewrite !map_length; auto).
            assert (HI' : in_bounds (cr_ib (ma_ref m')) (cr_ext (ma_ref m')) (tadd (a_bases a') k)).
            { unfold m', new_ma, cr_set_base. cbn [ma_ref cr_ext cr_ib]. rewrite Y1, Y2. rewrite <- E1, <- E2. auto. }
            assert (EP : forall v, reads h' (cr_nd (ma_ref m')) (tadd (ranges_bases rs) k) v -> nth_error vs' (a_pos a' (tadd (a_bases a') k)) = Some v).
            { intros v Hv. rewrite <- E2 in Hv. rewrite (owns_reads _ _ _ _ _ Ho' HI') in Hv.
              unfold m', new_ma, cr_set_base in Hv. cbn [ma_ref cr_ext cr_ib cr_storage] in Hv. rewrite Y1, Y2, Y3 in Hv.
              rewrite E2 in Hv. unfold a_pos. rewrite E1, E2, E3, <- X3. exact Hv. }
            destruct (in_bounds_dec (repeat 0 (length rs)) (a_shape a) k) as [Hin|Hout].
            + destruct (HC1 Hin) as (v & [Hi1 Hv1] & [_ Hv2]). rewrite Hv2. apply EP.
              apply Y4; rewrite ?LS; [auto|rewrite X1; auto|]. rewrite X2. apply (reads_elems _ _ _ _ _ Hr); auto.
            + destruct (HC2 Hout) as [_ Hv2]. rewrite Hv2. apply EP. apply Y5; rewrite ?LS; [auto|rewrite X1; auto]. }
        subst vs'. split; [exact Ho'|]. unfold m', new_ma, cr_set_base. cbn [ma_ref cr_ext cr_ib cr_storage ma_aid].
        rewrite Y1, Y2, Y3, E1, E2, E3, E4. auto. }
      { intros y m0 Hne Hy. pose proof (related_fresh _ _ _ _ _ HR Hy).
        assert (ma_block m <> ma_block m0) by (apply (proj2 (proj1 HR) x y); auto).
        split; [|lia]. unfold same_block, h'. rewrite nth_error_app1 by (rewrite length_set_nth; auto).
        apply nth_error_set_nth_ne. auto. }
    + split; [auto|]. intros b. assert (Lx : (x < length (e_vars en))%nat) by (apply nth_error_Some; congruence). split.
      2:{ intros [[k Hk] HL]. assert (b < length h)%nat by (apply nth_error_Some; congruence). split.
          - exists k. unfold h'. rewrite nth_error_app1 by (rewrite length_set_nth; auto).
            rewrite nth_error_set_nth_ne; [auto|]. eauto.
          - unfold update. cbn [e_vars]. intros y m0 Hy. destruct (Nat.eq_dec x y) as [<-|Hne].
            + rewrite nth_error_set_nth_eq in Hy by auto. assert (m0 = m') by congruence. subst m0. lia.
            + rewrite nth_error_set_nth_ne in Hy by auto. eauto. }
      intros [[k Hk] HL]. unfold update in HL. cbn [e_vars] in HL.
      assert (Hb : b <> length h).
      { intros ->. apply (HL x m'); [apply nth_error_set_nth_eq; auto|auto]. }
      unfold h' in Hk. assert (b < length h)%nat.
      { assert (b < length (set_nth (ma_block m) None h ++ [Some (Block (ma_aid m) (map Some vs'))]))%nat by (apply nth_error_Some; congruence).
        rewrite app_length, length_set_nth in H. simpl in H. lia. }
      rewrite nth_error_app1 in Hk by (rewrite length_set_nth; auto).
      assert (Hbm : ma_block m <> b). { intros <-. rewrite nth_error_set_nth_eq in Hk by auto. discriminate. }
      rewrite nth_error_set_nth_ne in Hk by auto. split; [exists k; auto|].
      intros y m0 Hy. destruct (Nat.eq_dec x y) as [<-|Hne]; [congruence|].
      apply (HL y m0). rewrite nth_error_set_nth_ne by auto. auto.
Qed.

Lemma zero_shape shape : ranges_shape (from_zero shape) = shape.
Proof. unfold ranges_shape, from_zero. rewrite map_map. cbn [fst snd]. rewrite <- map_id. apply map_ext. intros; lia. Qed.
Lemma zero_bases shape : ranges_bases (from_zero shape) = repeat 0 (length shape).
Proof. unfold ranges_bases, from_zero. rewrite map_map. cbn [fst]. induction shape; simpl; f_equal; auto. Qed.

(** reindex and reshape of a variable *)
Lemma reindexed_var st en (h : heap T) x a m bases : related st en h -> array_is st x a ->
  nth_error (e_vars en) x = Some (Some m) -> length bases = length (a_shape a) ->
  let a' := Arr (a_shape a) bases (a_order a) (a_alloc a) (a_elems a) in well_formed a' ->
  exists m', ma_reindex m bases = Ok m' /\ related (set_array st x a') (update en x m') h /\ ma_block m' = ma_block m.
Proof.
  intros HR Ha Em L a' HW. destruct (relA_var _ _ _ _ _ (proj1 HR) Ha) as (m0 & Em0 & Hr). rewrite Em in Em0. injection Em0 as <-.
  pose proof Hr as (Ho & E1 & E2 & E3 & E4).
  pose proof Ho as (Hao & Hd0 & Hoff & Hal & Hln & Hblk). destruct HW as (HWo & HWl & HWn). cbn [a' a_shape a_bases a_order a_elems] in *.
  rewrite <- E1, <- E3 in HWl. rewrite <- E1 in L.
  pose proof (reindex_eq (ma_ref m) bases (array_object_ok _ Hao) L HWl) as EQ.
  unfold ma_reindex. rewrite EQ. cbn [obind]. set (c' := CRef _ _ _ _ _ _ _ _) in *. exists (ma_with_ref m c').
  split; [auto|]. split; [|reflexivity].
  apply (related_replace st en h x a a' m); auto.
  split; [|split; [exact E1|split; [reflexivity|split; [exact E3|exact E4]]]].
  unfold owns, ma_with_ref. cbn [ma_ref ma_base ma_alloc_elems ma_aid].
  split; [eapply ao_reindex; eauto|]. auto.
Qed.

Lemma reshaped_var st en (h : heap T) x a m shape chk : related st en h -> array_is st x a ->
  nth_error (e_vars en) x = Some (Some m) -> length shape = length (a_shape a) ->
  let a' := Arr shape (a_bases a) (a_order a) (a_alloc a) (a_elems a) in well_formed a' ->
  exists m', ma_reshape chk m shape = Ok m' /\ related (set_array st x a') (update en x m') h /\ ma_block m' = ma_block m.
Proof.
  intros HR Ha Em L a' HW. destruct (relA_var _ _ _ _ _ (proj1 HR) Ha) as (m0 & Em0 & Hr). rewrite Em in Em0. injection Em0 as <-.
  pose proof Hr as (Ho & E1 & E2 & E3 & E4).
  pose proof Ho as (Hao & Hd0 & Hoff & Hal & Hln & Hblk). destruct HW as (HWo & HWl & HWn). cbn [a' a_shape a_bases a_order a_elems] in *.
  rewrite <- E2, <- E3 in HWl. rewrite <- E1 in L. pose proof (array_object_ok _ Hao) as Hok.
  assert (HP : prod shape = prod (cr_ext (ma_ref m))).
  { unfold cr_num_elements in Hln. destruct Hok as (_ & _ & _ & _ & En). congruence. }
  pose proof (reshape_eq chk (ma_ref m) shape Hok L HWl HP) as EQ.
  pose proof (reshape_eq true (ma_ref m) shape Hok L HWl HP) as EQ'.
  unfold ma_reshape. rewrite EQ. cbn [obind]. set (c' := CRef _ _ _ _ _ _ _ _) in *. exists (ma_with_ref m c').
  split; [auto|]. split; [|reflexivity].
  apply (related_replace st en h x a a' m); auto.
  split; [|split; [reflexivity|split; [exact E2|split; [exact E3|exact E4]]]].
  unfold owns, ma_with_ref. cbn [ma_ref ma_base ma_alloc_elems ma_aid].
  split; [eapply ao_reshape; eauto|]. auto.
Qed.

Lemma cr_shallow_same c : cr_shallow_copy c = c.
Proof. destruct c; reflexivity. Qed.
Lemma v_shallow_same v : v_shallow_copy v = v.
Proof. destruct v; reflexivity. Qed.

Lemma exec_sound st en (h : heap T) c o st' chk f : related st en h -> step dflt eqT ltT st c o st' ->
  follows st en h f c o st' (exec dflt eqT ltT chk en c (World h f)).
Proof.
  intros HR HS. destruct HS as
    [n aid Hn|shape so aid HW|rs so aid HW|y a Ha|e so aid p a Hp E1 E2 E3 E4 HW HC|e subs p Hp
    |x off shape so a Ha Hoff Ho Hl HP|x off rs so a Ha Hoff Ho Hl HP|x a Ha|k n Hk|x a Ha
    |dst src pd ps st' Hd Hs HC|x y px py st' Hd Hs HC|dst src pd ps st' Hd Hs HC
    |e i p v Hp HL|e i v p st' Hp HP|e i p v Hp HL|e i v p st' Hp HP
    |x l a Ha|k l x off bases shape so a Hk Ha|e fn p st' Hp HM
    |x bases a Ha L a' HW|x b a Ha a' HW|x shape a Ha L a' HW
    |k bases p Hk HA|k bases x off bases0 shape so Hk HA|k b p Hk bases HA|k b x off bases0 shape so Hk HA|k shape x off bases shape0 so Hk L HA HP
    |x rs a a' Ha Hrs|x shape a a' Ha Hrs|op a b pa pb r Ha Hb L Hr|q e p Hp].
  - (* NewDefault *)
    cbn [exec]. unfold ma_default. destruct (c02_conversions_agree n) as [EC _].
    destruct (c02_named_orders_valid n) as [HV _].
    destruct (default_ok chk n null_ptr (so_from_c n) Hn HV) as (c & Ec & _ & _ & H1 & H2 & H3).
    apply (make_new _ _ _ _ c _ aid); auto.
    + eapply ao_default; eauto.
    + rewrite EC. unfold bind, lift. rewrite Ec. reflexivity.
    + constructor.
    + rewrite H1, H2, H3. auto.
  - (* NewList *)
    cbn [exec]. unfold ma_from_list. destruct HW as (Ho & Hl & _). cbn [blank a_shape a_bases a_order] in Ho, Hl.
    destruct (from_list_ok chk null_ptr shape so Ho Hl) as (c & Ec & _ & _ & H1 & H2 & H3).
    apply (make_new _ _ _ _ c _ aid); auto.
    + eapply ao_list; eauto.
    + rewrite Ec. reflexivity.
    + constructor.
    + rewrite H1, H2, H3. auto.
  - (* NewRanges *)
    destruct HW as (Ho & Hl & _). cbn [blank a_shape a_bases a_order] in Ho, Hl.
    destruct (extents_of_ok rs) as (g & Eg & Hn & Hg).
    { intros ->. apply layout_ne in Hl. apply Hl. reflexivity. }
    cbn [exec]. unfold ma_from_gen, lift. rewrite Eg.
    destruct (from_gen_ok chk null_ptr _ _ g so Ho Hl Hn Hg) as (c & Ec & _ & _ & H1 & H2 & H3).
    apply (make_new _ _ _ _ c _ aid); auto.
    + eapply (ao_gen chk null_ptr _ _ g); eauto.
    + rewrite Ec. reflexivity.
    + constructor.
    + rewrite H1, H2, H3. auto.
  - (* NewCopy *)
    destruct (relA_var _ _ _ _ _ (proj1 HR) Ha) as (m & Em & Hr). pose proof Hr as (Ho & E1 & E2 & E3 & E4).
    cbn [exec]. unfold lift. rewrite (var_eval _ _ _ Em).
    change (follows st en h f (NewCopy y) ONone (add_array st a) ((a0 <~ ma_copy dflt m ;; ret (declare en a0, ONone)) (World h f))).
    unfold bind. destruct (copy_outcomes dflt m _ h f Ho) as [(k & h' & -> & E & HH)|(f' & Hf & E & Ho')]; rewrite E.
    + cbn [follows w_fuse w_heap]. split; [auto|].
      exists k, st. split; [auto|]. split; [constructor|]. cbn [loses]. destruct HH as [[K ->]|HH].
      { split; [auto|]. intros b. rewrite K. simpl. intuition discriminate. }
      assert (HX : (1 <= k)%nat /\ exists x, h' = h ++ [Some x]).
      { destruct HH as [[K ->]|(K & vs' & _ & ->)]; (split; [lia|eauto]). }
      destruct HX as [K [x ->]]. split; [apply related_app; auto|]. intros b. rewrite (leaked_app st) by auto.
      destruct (Nat.leb_spec 1 k); [tauto|lia].
    + unfold ret. cbn [follows w_fuse w_heap]. split; [auto|]. split.
      * apply related_new; auto. split; [exact Ho'|]. unfold new_ma, cr_set_base. cbn [ma_ref cr_ext cr_ib cr_storage ma_aid]. auto.
      * split; [auto|]. intros b. apply (leaked_new st); auto.
  - (* NewFrom *)
    destruct (denotes_nd st en h chk e p HR Hp) as (d & Ed & Hd).
    destruct (stands_owner _ _ _ _ _ HR Hd) as (cm & m & am & Em & Eam & Hrm & Hcm & Hdm & HLv & _ & Eb & Ee & Ei).
    cbn [exec]. unfold lift. rewrite Ed.
    change (follows st en h f (NewFrom e so aid) ONone (add_array st a) ((a0 <~ ma_convert dflt chk d so aid ;; ret (declare en a0, ONone)) (World h f))).
    pose proof HW as (Ho & Hl & Hn). rewrite E1, E2, E3 in *.
    unfold bind. destruct (convert_outcomes dflt chk cm d so aid h f Hcm Hdm HLv) as
      [(k & h' & -> & E & HH)|(c' & vs & f' & Hf & E & Ho' & X1 & X2 & X3 & X4)]; rewrite ?Ee, ?Eb in *; auto; rewrite E.
    + cbn [follows w_fuse w_heap]. split; [auto|].
      exists k, st. split; [auto|]. split; [constructor|]. cbn [loses]. destruct HH as [[K ->]|HH].
      { split; [auto|]. intros b. rewrite K. simpl. intuition discriminate. }
      assert (HX : (1 <= k)%nat /\ exists x, h' = h ++ [Some x]).
      { destruct HH as [[K ->]|(K & vs' & _ & ->)]; (split; [lia|eauto]). }
      destruct HX as [K [x ->]]. split; [apply related_app; auto|]. intros b. rewrite (leaked_app st) by auto.
      destruct (Nat.leb_spec 1 k); [tauto|lia].
    + unfold ret. cbn [follows w_fuse w_heap]. split; [auto|]. split.
      * apply related_new; auto.
        assert (EV : vs = a_elems a).
        { apply elems_unique; auto.
          - pose proof Ho' as (Hao & _ & _ & _ & Hlv & _). rewrite Hlv. unfold cr_num_elements.
            destruct (array_object_ok _ Hao) as (_ & _ & _ & _ & ->). unfold new_ma, cr_set_base. cbn [ma_ref cr_ext]. congruence.
          - rewrite E1, E2. intros i Hi. destruct (HC i Hi) as (v & Hlk & _ & Hv). rewrite Hv.
            assert (HRd : reads h d i v) by (apply (look_reads st en h d p); auto).
            specialize (X4 i v Hi HRd). rewrite (owns_reads _ _ _ _ _ Ho') in X4.
            + unfold new_ma, cr_set_base in X4. cbn [ma_ref cr_ext cr_ib cr_storage] in X4.
              rewrite X1, X2, X3 in X4. unfold a_pos. rewrite E1, E2, E3. exact X4.
            + unfold new_ma, cr_set_base. cbn [ma_ref cr_ext cr_ib]. rewrite X1, X2. auto. }
        subst vs. split; [exact Ho'|]. unfold new_ma, cr_set_base. cbn [ma_ref cr_ext cr_ib cr_storage ma_aid].
        rewrite X1, X2, X3, E1, E2, E3, E4. auto.
      * split; [auto|]. intros b. apply (leaked_new st); auto.
  - (* NewView *)
    inversion Hp as [| | |e0 subs0 x bs ns ss m vs ws g H HSl Hne X1 X2| |]; subst.
    destruct (denotes_nd st en h chk e _ HR H) as (d & Ed & c & Hs).
    destruct (view_stands _ chk _ _ _ _ _ _ _ _ _ _ _ Hs HSl Hne) as (ig & v & E1 & E2 & Hv & Hvs).
    cbn [exec]. unfold lift. rewrite Ed, E1.
    change (follows st en h f (NewView e subs) ONone (add_named st (AView (Place x (repeat 0 (length vs)) vs ws (fun t => m (g t)))))
      ((v <~ lift (make_view chk d ig) ;; ret (name en (HView v), ONone)) (World h f))).
    unfold lift. rewrite E2. unfold bind, ret. apply after_pure; [|reflexivity].
    apply related_name; auto. cbn [hrel]. exists c. auto.
  - (* NewRefList *)
    destruct (relA_var _ _ _ _ _ (proj1 HR) Ha) as (m & Em & Hr).
    destruct (from_list_ok chk (padd (cr_data (ma_ref m)) off) shape so Ho Hl) as (c & Ec & _ & H0 & H1 & H2 & H3).
    cbn [exec]. unfold lift. rewrite (var_eval _ _ _ Em). unfold bind at 1. rewrite Ec. unfold bind, ret.
    apply after_pure; [|reflexivity]. apply related_name; auto.
    apply (ref_hrel st en h x a m c off); auto. eapply ao_list; eauto.
  - (* NewRefRanges *)
    destruct (relA_var _ _ _ _ _ (proj1 HR) Ha) as (m & Em & Hr).
    destruct (extents_of_ok rs) as (g & Eg & Hn & Hg).
    { intros ->. apply layout_ne in Hl. apply Hl. reflexivity. }
    assert (LS : length (ranges_shape rs) = length rs) by apply map_length. rewrite <- LS in Ho.
    destruct (from_gen_ok chk (padd (cr_data (ma_ref m)) off) _ _ g so Ho Hl Hn Hg) as (c & Ec & _ & H0 & H1 & H2 & H3).
    cbn [exec]. unfold lift. rewrite (var_eval _ _ _ Em). unfold bind at 1. rewrite Eg. unfold bind at 1. rewrite Ec. unfold bind, ret.
    apply after_pure; [|reflexivity]. apply related_name; auto.
    apply (ref_hrel st en h x a m c off); auto. eapply (ao_gen chk (padd (cr_data (ma_ref m)) off) _ _ g); eauto.
  - (* NewRefOf *)
    destruct (relA_var _ _ _ _ _ (proj1 HR) Ha) as (m & Em & Hr). pose proof Hr as (Ho & E1 & E2 & E3 & E4).
    cbn [exec]. unfold lift. rewrite (var_eval _ _ _ Em). unfold bind, ret.
    apply after_pure; [|reflexivity]. apply related_name; auto. rewrite cr_shallow_same.
    cbn [hrel]. exists m. split; [auto|]. split; [apply Ho|]. split; [eapply self_lies; eauto|]. auto.
  - (* NewAlias *)
    destruct (named_eval st en h _ _ HR Hk) as (d & Ed & Hd).
    cbn [exec]. unfold lift. rewrite Ed. unfold bind, ret.
    apply after_pure; [|reflexivity]. apply related_name; auto.
    destruct d; rewrite ?cr_shallow_same, ?v_shallow_same; exact Hd.
  - (* Destroy *)
    destruct (relA_var _ _ _ _ _ (proj1 HR) Ha) as (m & Em & Hr).
    cbn [exec]. unfold lift. rewrite (var_eval _ _ _ Em).
    set (en' := Env (set_nth x None (e_vars en)) (e_handles en)).
    assert (EQ : (_ <~ ma_destroy m ;; ret (en', @ONone T)) (World h f) =
      Done (en', ONone) (World (set_nth (ma_block m) None h) f)).
    { unfold bind. rewrite (owns_destroy _ _ _ _ (proj1 Hr)). reflexivity. }
    change (follows st en h f (Destroy x) ONone (orphan (remove_array st x) x) ((_ <~ ma_destroy m ;; ret (en', ONone)) (World h f))).
    rewrite EQ. cbn [follows w_fuse w_heap]. split; [auto|]. split; [eapply related_destroy; eauto|]. split; [auto|].
    intros b. apply leaked_destroy; auto.
  - (* Assign *)
    destruct (denotes_nd st en h chk _ _ HR Hs) as (s & Es & Hss).
    destruct (denotes_nd st en h chk _ _ HR Hd) as (d & Ed & Hdd).
    cbn [exec]. unfold lift. rewrite Es, Ed.
    change (follows st en h f (Assign dst src) ONone st' ((_ <~ assign_nd chk (length (nd_ext d)) d s ;; ret (en, ONone)) (World h f))).
    apply (assign_both st en h f _ d s pd ps st' chk HR Hdd Hss HC); [|reflexivity]. intros n st''. apply i_assign; auto.
  - (* AssignVar *)
    destruct (denotes_nd st en h chk _ _ HR Hs) as (s & Es & Hss).
    destruct (denotes_nd st en h chk _ _ HR Hd) as (d & Ed & Hdd).
    unfold eval_nd in Es, Ed. cbn [eval] in Es, Ed. cbn [exec]. unfold lift.
    destruct (var en x) as [mx| |] eqn:Ex; try discriminate. destruct (var en y) as [my| |] eqn:Ey; try discriminate.
    cbn [obind] in Es, Ed. injection Es as <-. injection Ed as <-.
    change (follows st en h f (AssignVar x y) ONone st' ((_ <~ ma_assign chk (Nat.eqb x y) mx my ;; ret (en, ONone)) (World h f))).
    unfold ma_assign. destruct (Nat.eqb_spec x y) as [->|Hxy].
    + assert (px = py).
      { clear - Hd Hs. inversion Hd; inversion Hs; subst. unfold array_is in *. congruence. }
      subst py. apply copied_self in HC. subst st'. apply after_done; auto. apply still_refl.
    + unfold ma_assign_from. apply (assign_both st en h f _ _ _ px py st' chk HR Hdd Hss HC); [|reflexivity].
      intros n st''. apply i_assign_var; auto.
  - (* CopyArray *)
    destruct (denotes_nd st en h chk _ _ HR Hs) as (s & Es & Hss).
    destruct (denotes_nd st en h chk _ _ HR Hd) as (d & Ed & Hdd).
    cbn [exec]. unfold lift. rewrite Es, Ed.
    change (follows st en h f (CopyArray dst src) ONone st' ((_ <~ copy_array chk (length (nd_ext d)) d s ;; ret (en, ONone)) (World h f))).
    apply (assign_both st en h f _ d s pd ps st' chk HR Hdd Hss HC); [|reflexivity]. intros n st''. apply i_copy_array; auto.
  - (* Get *)
    destruct (denotes_nd st en h chk _ _ HR Hp) as (d & Ed & Hdd).
    cbn [exec]. unfold lift. rewrite Ed.
    change (follows st en h f (Get e i) (OVal v) st ((v <~ get_element chk d i ;; ret (en, OVal v)) (World h f))).
    unfold bind. rewrite (look_get _ _ _ _ _ _ _ chk f HR Hdd HL). apply after_pure; [auto|reflexivity].
  - (* Set *)
    destruct (denotes_nd st en h chk _ _ HR Hp) as (d & Ed & Hdd).
    cbn [exec]. unfold lift. rewrite Ed.
    change (follows st en h f (Set_ e i v) ONone st' ((_ <~ set_element chk d i v ;; ret (en, ONone)) (World h f))).
    unfold bind. destruct (put_set _ _ _ _ _ _ _ _ chk f HR Hdd HP) as [[-> ->]|(h' & f' & -> & HR' & HS & Hf)].
    + apply (after_thrown st en h h _ O _ _ _ st); auto; [constructor|apply still_refl].
    + apply after_done; auto. intros ->. destruct f'; [discriminate|auto].
  - (* GetB *)
    destruct (denotes_nd st en h chk _ _ HR Hp) as (d & Ed & Hdd).
    cbn [exec]. unfold lift. rewrite Ed.
    change (follows st en h f (GetB e i) (OVal v) st ((v <~ get_bracket chk d i ;; ret (en, OVal v)) (World h f))).
    unfold bind. rewrite (proj1 (bracket_same _ _ _ _ _ _ _ chk HR Hdd (proj1 HL))).
    rewrite (look_get _ _ _ _ _ _ _ chk f HR Hdd HL). apply after_pure; [auto|reflexivity].
  - (* SetB *)
    destruct (denotes_nd st en h chk _ _ HR Hp) as (d & Ed & Hdd).
    cbn [exec]. unfold lift. rewrite Ed.
    change (follows st en h f (SetB e i v) ONone st' ((_ <~ set_bracket chk d i v ;; ret (en, ONone)) (World h f))).
    unfold bind. rewrite (proj2 (bracket_same _ _ _ _ _ _ _ chk HR Hdd (proj1 HP))).
    destruct (put_set _ _ _ _ _ _ _ _ chk f HR Hdd HP) as [[-> ->]|(h' & f' & -> & HR' & HS & Hf)].
    + apply (after_thrown st en h h _ O _ _ _ st); auto; [constructor|apply still_refl].
    + apply after_done; auto. intros ->. destruct f'; [discriminate|auto].
  - (* Fill *)
    destruct (relA_var _ _ _ _ _ (proj1 HR) Ha) as (m & Em & Hr). pose proof (proj1 Hr) as Ho.
    cbn [exec]. unfold lift. rewrite (var_eval _ _ _ Em).
    change (follows st en h f (Fill x l) ONone (set_array st x (filled a (length (a_elems a)) l)) ((_ <~ cr_assign (ma_ref m) l ;; ret (en, ONone)) (World h f))).
    pose proof Ho as (_ & _ & _ & _ & Hln & _).
    assert (EN : Z.to_nat (cr_num_elements (ma_ref m)) = length (a_elems a)) by lia.
    unfold bind. destruct (fill_array st en h x a m 0 (ma_ref m) l f HR Ha Em (self_lies _ _ _ Ho) ltac:(lia)) as
      [(h' & f' & -> & HR' & HS & Hf)|(h' & j & Hf & -> & HR' & HS)]; rewrite EN in HR'.
    + apply after_done; auto.
    + eapply after_thrown; [|exact HR'|eauto|eauto|reflexivity]. constructor; auto.
  - (* FillRef *)
    destruct (named_eval st en h _ _ HR Hk) as (d & Ed & Hd). destruct d as [v|c]; cbn [hrel] in Hd; [tauto|].
    destruct Hd as (m & Em & Hc & HL & E1 & E2 & E3).
    cbn [exec]. unfold lift. rewrite Ed.
    change (follows st en h f (FillRef k l) ONone (set_array st x (filled_from a (Z.to_nat off) (Z.to_nat (prod shape)) l)) ((_ <~ cr_assign c l ;; ret (en, ONone)) (World h f))).
    pose proof (array_object_ok c Hc) as (_ & Hrp & _ & _ & EN).
    assert (EN' : cr_num_elements c = prod shape) by (unfold cr_num_elements; congruence).
    assert (H0 : 0 <= cr_num_elements c) by (rewrite EN', <- E2; apply prod_nonneg; eapply rep_nonneg; apply Hrp).
    unfold bind. destruct (fill_array st en h x a m off c l f HR Ha Em HL H0) as
      [(h' & f' & -> & HR' & HS & Hf)|(h' & j & Hf & -> & HR' & HS)]; rewrite EN' in HR'.
    + apply after_done; auto.
    + eapply after_thrown; eauto. econstructor; eauto.
  - (* ForEach *)
    destruct (denotes_nd st en h chk _ _ HR Hp) as (d & Ed & Hdd).
    cbn [exec]. unfold lift. rewrite Ed.
    change (follows st en h f (ForEach e fn) ONone st' ((_ <~ for_each chk fn (length (nd_ext d)) d ;; ret (en, ONone)) (World h f))).
    destruct (stands_owner _ _ _ _ _ HR Hdd) as (? & ? & ? & _ & _ & _ & _ & _ & _ & Hok & Eb & Ee & _).
    unfold bind. rewrite for_each_eq by auto. unfold addrs. rewrite Eb, Ee.
    destruct (mapped_run p fn d en Hdd _ st st' h f HM HR) as
      [(h' & f' & -> & HR' & HS & Hf)|(h' & n & st1 & Hf & -> & HC' & HR' & HS)].
    + apply after_done; auto.
    + eapply after_thrown; eauto. econstructor; eauto.
  - (* Reindex *)
    destruct (relA_var _ _ _ _ _ (proj1 HR) Ha) as (m & Em & Hr).
    destruct (reindexed_var st en h x a m bases HR Ha Em L HW) as (m' & E & HR' & Hb).
    cbn [exec]. unfold lift. rewrite (var_eval _ _ _ Em). unfold bind at 1. rewrite E. unfold bind, ret.
    apply after_pure; auto. intros b. apply (leaked_update en h x m); auto.
  - (* ReindexAll *)
    destruct (relA_var _ _ _ _ _ (proj1 HR) Ha) as (m & Em & Hr).
    destruct (reindexed_var st en h x a m _ HR Ha Em (repeat_length b _) HW) as (m' & E & HR' & Hb).
    assert (EQ : ma_reindex1 m b = Ok m').
    { unfold ma_reindex1. rewrite c09_reindex_scalar by apply Hr. replace (cr_ext (ma_ref m)) with (a_shape a) by (symmetry; apply Hr). exact E. }
    cbn [exec]. unfold lift. rewrite (var_eval _ _ _ Em). unfold bind at 1. rewrite EQ. unfold bind, ret.
    apply after_pure; auto. intros b0. apply (leaked_update en h x m); auto.
  - (* Reshape *)
    destruct (relA_var _ _ _ _ _ (proj1 HR) Ha) as (m & Em & Hr).
    destruct (reshaped_var st en h x a m shape chk HR Ha Em L HW) as (m' & E & HR' & Hb).
    cbn [exec]. unfold lift. rewrite (var_eval _ _ _ Em). unfold bind at 1. rewrite E. unfold bind, ret.
    apply after_pure; auto. intros b. apply (leaked_update en h x m); auto.
  - (* ReindexNamed, view *)
    destruct (named_eval st en h _ _ HR Hk) as (d & Ed & Hd). destruct d as [v|c]; cbn [hrel] in Hd; [|tauto].
    destruct Hd as (c & Hv & Hs). destruct (view_reindexed _ _ _ _ bases Hv Hs HA) as (v' & E & Hv').
    cbn [exec]. unfold lift. rewrite Ed. unfold bind at 1. rewrite E. unfold bind, ret.
    apply after_pure; [|reflexivity]. eapply related_rename; eauto.
  - (* ReindexNamed, ref *)
    destruct (named_eval st en h _ _ HR Hk) as (d & Ed & Hd). destruct d as [v|c]; cbn [hrel] in Hd; [tauto|].
    destruct Hd as (m & Em & Hc & HL & E1 & E2 & E3). subst bases0 shape so.
    assert (L : length bases = length (cr_ext c)) by (apply rep_lengths in HA; auto).
    pose proof (reindex_eq c bases (array_object_ok _ Hc) L HA) as EQ. set (c' := CRef _ _ _ _ _ _ _ _) in EQ.
    cbn [exec]. unfold lift. rewrite Ed. unfold bind at 1. rewrite EQ. unfold bind, ret.
    apply after_pure; [|reflexivity]. eapply related_rename; eauto. cbn [hrel]. exists m. split; [auto|].
    split; [eapply ao_reindex; eauto|]. split; [exact HL|]. split; reflexivity || (split; reflexivity).
  - (* ReindexNamedAll, view *)
    destruct (named_eval st en h _ _ HR Hk) as (d & Ed & Hd). destruct d as [v|c]; cbn [hrel] in Hd; [|tauto].
    destruct Hd as (c & Hv & Hs). destruct (view_reindexed _ _ _ _ bases Hv Hs HA) as (v' & E & Hv').
    assert (EQ : v_reindex1 v b = Ok v').
    { rewrite <- E. unfold bases. rewrite c09_reindex_view_scalar. destruct Hs as (_ & _ & _ & _ & _ & _ & <- & _). reflexivity. }
    cbn [exec]. unfold lift. rewrite Ed. unfold bind at 1. rewrite EQ. unfold bind, ret.
    apply after_pure; [|reflexivity]. eapply related_rename; eauto.
  - (* ReindexNamedAll, ref *)
    destruct (named_eval st en h _ _ HR Hk) as (d & Ed & Hd). destruct d as [v|c]; cbn [hrel] in Hd; [tauto|].
    destruct Hd as (m & Em & Hc & HL & E1 & E2 & E3). subst bases0 shape so.
    assert (L : length (repeat b (length (cr_ext c))) = length (cr_ext c)) by apply repeat_length.
    pose proof (reindex_eq c _ (array_object_ok _ Hc) L HA) as EQ. set (c' := CRef _ _ _ _ _ _ _ _) in EQ.
    rewrite <- c09_reindex_scalar in EQ by auto.
    cbn [exec]. unfold lift. rewrite Ed. unfold bind at 1. rewrite EQ. unfold bind, ret.
    apply after_pure; [|reflexivity]. eapply related_rename; eauto. cbn [hrel]. exists m. split; [auto|].
    split; [eapply ao_reindex1; eauto|]. split; [exact HL|]. split; reflexivity || (split; reflexivity).
  - (* ReshapeRef *)
    destruct (named_eval st en h _ _ HR Hk) as (d & Ed & Hd). destruct d as [v|c]; cbn [hrel] in Hd; [tauto|].
    destruct Hd as (m & Em & Hc & HL & E1 & E2 & E3). subst bases shape0 so.
    pose proof (reshape_eq chk c shape (array_object_ok _ Hc) L HA HP) as EQ.
    pose proof (reshape_eq true c shape (array_object_ok _ Hc) L HA HP) as EQ'. set (c' := CRef _ _ _ _ _ _ _ _) in EQ, EQ'.
    cbn [exec]. unfold lift. rewrite Ed. unfold bind at 1. rewrite EQ. unfold bind, ret.
    apply after_pure; [|reflexivity]. eapply related_rename; eauto. cbn [hrel]. exists m. split; [auto|].
    split; [eapply ao_reshape; eauto|]. split; [exact HL|]. split; reflexivity || (split; reflexivity).
  - (* Resize *)
    destruct (relA_var _ _ _ _ _ (proj1 HR) Ha) as (m & Em & Hr).
    destruct (extents_of_ok rs) as (g & Eg & Hn & Hg).
    { intros ->. destruct Hrs as (_ & E1 & _ & _ & _ & (_ & Hl & _) & _). apply layout_ne in Hl. rewrite E1 in Hl. apply Hl. reflexivity. }
    cbn [exec]. unfold lift. rewrite (var_eval _ _ _ Em), Eg.
    change (follows st en h f (Resize x rs) ONone (orphan (set_array st x a') x)
      ((a0 <~ ma_resize dflt chk m g ;; ret (update en x a0, ONone)) (World h f))).
    apply (resize_sound st en h f _ x a a' m g rs); auto. constructor.
  - (* ResizeList *)
    destruct (relA_var _ _ _ _ _ (proj1 HR) Ha) as (m & Em & Hr).
    pose proof Hrs as (L & E1 & E2 & E3 & E4 & (HWo & HWl & _) & _). rewrite zero_shape in E1. rewrite E1 in HWl.
    assert (HF : Forall (fun e => 0 <= e <= max_index) shape) by (eapply rep_ext_bound; apply HWl).
    assert (Ln : length shape = length (cr_ext (ma_ref m))).
    { pose proof Hr as (_ & -> & _). unfold from_zero in L. rewrite map_length in L. auto. }
    set (g := EGen (length (cr_ext (ma_ref m))) (map (fun e => ERange 0 e) shape)).
    assert (EQ : ma_resize_list dflt chk m shape (World h f) = ma_resize dflt chk m g (World h f)).
    { unfold ma_resize_list. rewrite <- Ln at 1. rewrite copy_n_all. unfold lift, bind at 1. f_equal. unfold g. f_equal.
      apply map_ext_in. intros e He. rewrite Forall_forall in HF. specialize (HF e He). rewrite to_index_small by (unconst; lia). auto. }
    cbn [exec]. unfold lift. rewrite (var_eval _ _ _ Em).
    assert (EQ2 : (a0 <~ ma_resize_list dflt chk m shape ;; ret (update en x a0, @ONone T)) (World h f) =
      (a0 <~ ma_resize dflt chk m g ;; ret (update en x a0, ONone)) (World h f)).
    { unfold bind. rewrite EQ. auto. }
    change (follows st en h f (ResizeList x shape) ONone (orphan (set_array st x a') x)
      ((a0 <~ ma_resize_list dflt chk m shape ;; ret (update en x a0, ONone)) (World h f))).
    rewrite EQ2.
    apply (resize_sound st en h f _ x a a' m g (from_zero shape)); auto.
    + rewrite zero_shape. unfold g. cbn [eg_num]. auto.
    + rewrite zero_shape, zero_bases. unfold g, ranges_are. cbn [eg_ranges]. clear. induction shape as [|e shape IH]; simpl; constructor; auto.
    + intros k. rewrite zero_shape. reflexivity.
    + constructor.
  - (* Compare *)
    destruct (denotes_nd st en h chk _ _ HR Ha) as (x & Ex & Hx).
    destruct (denotes_nd st en h chk _ _ HR Hb) as (y & Ey & Hy).
    cbn [exec]. unfold lift. rewrite Ex, Ey. unfold bind at 1. unfold bind at 1. cbn [w_heap].
    rewrite (compare_sound st en h x y pa pb chk op r) by auto. unfold bind, ret. apply after_pure; [auto|reflexivity].
  - (* Ask *)
    destruct (denotes_eval st en h chk _ _ HR Hp) as (o & c & Eo & Hs & Hok).
    cbn [exec]. unfold lift. rewrite Eo. unfold bind at 1. rewrite (ask_sound _ _ _ _ q Hs Hok). unfold bind, ret.
    apply after_pure; [auto|reflexivity].
Qed.
End HistoryProofs.
