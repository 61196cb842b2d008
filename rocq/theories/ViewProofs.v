(** ViewProofs.v -- generate_array_view *)

From Coq Require Import ZArith List Bool Permutation Lia.
From Verif Require Import Base StorageOrder Ranges Layout Access Objects Spec ViewSpec Facts LayoutProofs AccessProofs.
Import ListNotations.
Local Open Scope Z_scope.

(** * inversion of outcome binds *)
Lemma obind_inv {A B} (o : outcome A) (f : A -> outcome B) r :
  (x <- o ;; f x) = Ok r -> exists a, o = Ok a /\ f a = Ok r.
Proof. destruct o; simpl; try discriminate. eauto. Qed.
Ltac oinv H := let a := fresh "v" in let E := fresh "E" in
  apply obind_inv in H; destruct H as (a & E & H).

Lemma assertM_inv chk e : assertM chk e = Ok tt -> chk = true -> e = Ok true.
Proof.
  unfold assertM. intros H ->. oinv H. destruct v; [auto|discriminate].
Qed.

(** * the length of a range *)
Definition vlen (start finish stride : Z) : Z :=
  let d := finish - start in
  if Z.quot d stride <? 0 then 0
  else Z.quot (d + (stride - (if 0 <? stride then 1 else -1))) stride.

Lemma quot_pos_eq a b : 0 < b -> 0 <= a -> Z.quot a b = a / b.
Proof. intros; apply Z.quot_div_nonneg; auto. Qed.
Lemma quot_neg_small a b : 0 < b -> - b < a < 0 -> Z.quot a b = 0.
Proof.
  intros Hb Ha. apply Z.quot_small_iff; lia.
Qed.
Lemma quot_neg_lt a b : 0 < b -> a <= - b -> Z.quot a b < 0.
Proof.
  intros Hb Ha. replace a with (- (- a)) by lia. rewrite Z.quot_opp_l by lia.
  rewrite quot_pos_eq by lia. assert (1 <= (- a) / b); [|lia]. apply Z.div_le_lower_bound; lia.
Qed.

Lemma vlen_pos start finish stride k : 0 < stride ->
  (0 <= k < vlen start finish stride <-> 0 <= k /\ start + k * stride < finish).
Proof.
  intros Hs. unfold vlen. set (d := finish - start).
  destruct (Z.ltb_spec 0 stride) as [_|]; [|lia].
  destruct (Z.ltb_spec (Z.quot d stride) 0) as [Hq|Hq].
  - assert (d < 0). { destruct (Z_lt_dec d 0); auto. pose proof (Z.quot_pos d stride). lia. }
    unfold d in *. split; [lia|]. nia.
  - destruct (Z_le_dec d (- stride)) as [Hd|Hd]; [pose proof (quot_neg_lt d stride Hs Hd); lia|].
    destruct (Z_lt_dec (d + (stride - 1)) 0) as [Hn|Hn].
    + assert (d + (stride - 1) = - 1 \/ d + (stride - 1) < -1) as [E|E] by lia.
      * lia.
      * lia.
    + rewrite quot_pos_eq by lia.
      pose proof (Z.div_mod (d + (stride - 1)) stride ltac:(lia)) as E.
      pose proof (Z.mod_pos_bound (d + (stride - 1)) stride Hs) as Hm.
      set (q := (d + (stride - 1)) / stride) in *. clearbody q. unfold d in *. nia.
Qed.

Lemma vlen_opp start finish stride : stride < 0 ->
  vlen start finish stride = vlen (- start) (- finish) (- stride).
Proof.
  intros Hs. unfold vlen.
  destruct (Z.ltb_spec 0 stride) as [|_]; [lia|]. destruct (Z.ltb_spec 0 (- stride)) as [_|]; [|lia].
  assert (E : Z.quot (- finish - - start) (- stride) = Z.quot (finish - start) stride).
  { replace (- finish - - start) with (- (finish - start)) by lia. rewrite Z.quot_opp_opp by lia. auto. }
  rewrite E. destruct (Z.quot (finish - start) stride <? 0); auto.
  replace (- finish - - start + (- stride - 1)) with (- (finish - start + (stride - -1))) by lia.
  rewrite Z.quot_opp_opp by lia. auto.
Qed.

Theorem vlen_selected start finish stride k : stride <> 0 ->
  (0 <= k < vlen start finish stride <-> selected start finish stride k).
Proof.
  intros Hs. unfold selected. destruct (Z.ltb_spec 0 stride) as [H|H].
  - apply vlen_pos; auto.
  - rewrite vlen_opp by lia. rewrite vlen_pos by lia. split; intros [A B]; split; auto; lia.
Qed.

Lemma vlen_nonneg start finish stride : stride <> 0 -> 0 <= vlen start finish stride.
Proof.
  assert (P : forall a b c, 0 < c -> 0 <= vlen a b c).
  { intros a b c Hc. unfold vlen. destruct (Z.ltb_spec (Z.quot (b - a) c) 0); [lia|].
    destruct (Z.ltb_spec 0 c); [|lia].
    destruct (Z_le_dec (b - a) (- c)) as [Hd|Hd]; [pose proof (quot_neg_lt (b - a) c Hc Hd); lia|].
    apply Z.quot_pos; lia. }
  intros Hs. destruct (Z_lt_dec 0 stride); [apply P; auto|]. rewrite vlen_opp by lia. apply P; lia.
Qed.

Lemma view_len_inv start finish stride len : view_len start finish stride = Ok len ->
  stride <> 0 /\ len = vlen start finish stride.
Proof.
  unfold view_len, vlen. intros H. oinv H. apply signed_inv in E. destruct E as [-> _].
  oinv H. unfold sdiv in E. destruct (Z.eqb_spec stride 0) as [|Hs]; [discriminate|].
  apply signed_inv in E. destruct E as [-> _]. split; auto.
  destruct (Z.quot (finish - start) stride <? 0); [congruence|].
  oinv H. apply signed_inv in E. destruct E as [-> _].
  oinv H. apply signed_inv in E. destruct E as [-> _].
  unfold sdiv in H. destruct (Z.eqb_spec stride 0); [discriminate|].
  apply signed_inv in H. destruct H as [-> _]. auto.
Qed.

Lemma quot_abs_le a b : b <> 0 -> Z.abs (Z.quot a b) <= Z.abs a.
Proof.
  intros H. rewrite <- Z.quot_abs by auto.
  rewrite Z.quot_div_nonneg by lia. apply Z.div_le_upper_bound; nia.
Qed.

Lemma view_len_ok start finish stride : stride <> 0 ->
  index_value (finish - start) -> index_value (finish - start + (stride - (if 0 <? stride then 1 else -1))) ->
  index_value (stride - (if 0 <? stride then 1 else -1)) ->
  (stride = -1 -> - max_index <= finish - start) ->
  view_len start finish stride = Ok (vlen start finish stride).
Proof.
  intros Hs H1 H2 H3 H4. unfold index_value in *. unfold view_len, vlen.
  rewrite ssub_ok by (unconst; lia). cbn [obind].
  assert (Q : forall a, index_value a -> (stride = -1 -> - max_index <= a) -> sdiv a stride = Ok (Z.quot a stride)).
  { intros a Ha H5. unfold index_value in Ha. apply sdiv_ok; auto.
    pose proof (quot_abs_le a stride Hs) as HB.
    destruct (Z.eq_dec a (- max_index - 1)) as [->|Hne]; [|unconst; lia].
    destruct (Z.eq_dec stride (-1)) as [->|H6]; [lia|].
    destruct (Z.eq_dec stride 1) as [->|H7]; [rewrite Z.quot_1_r; unconst; lia|].
    assert (Z.abs (Z.quot (- max_index - 1) stride) <= max_index); [|unconst; lia].
    rewrite <- Z.quot_abs by auto. rewrite Z.quot_div_nonneg by (unconst; lia).
    assert (Z.abs (- max_index - 1) / Z.abs stride <= Z.abs (- max_index - 1) / 2).
    { apply Z.div_le_compat_l; lia. }
    assert (Z.abs (- max_index - 1) / 2 <= max_index) by (vm_compute; congruence). lia. }
  rewrite Q by (auto; unfold index_value; lia). cbn [obind].
  destruct (Z.ltb_spec (Z.quot (finish - start) stride) 0) as [|Hq]; auto.
  rewrite ssub_ok by (unconst; lia). cbn [obind]. rewrite sadd_ok by (unconst; lia). cbn [obind].
  apply Q; auto. intros ->. simpl in *. specialize (H4 eq_refl). lia.
Qed.

(** * closed forms of the loop *)

Fixpoint gav_origin (bases : list Z) (rs : list index_range) (str : list Z) : Z :=
  match bases, rs, str with
  | b :: bs, r :: rs', s :: ss => range_start r b * s + gav_origin bs rs' ss
  | _, _, _ => 0
  end.
Fixpoint gav_strides (rs : list index_range) (str : list Z) : list Z :=
  match rs, str with
  | r :: rs', s :: ss =>
      if ir_degenerate r then gav_strides rs' ss else ir_stride r * s :: gav_strides rs' ss
  | _, _ => []
  end.
Fixpoint gav_lens (bases ext : list Z) (rs : list index_range) : list Z :=
  match bases, ext, rs with
  | b :: bs, e :: es, r :: rs' =>
      if ir_degenerate r then gav_lens bs es rs'
      else vlen (range_start r b) (range_finish r b e) (ir_stride r) :: gav_lens bs es rs'
  | _, _, _ => []
  end.

(** what the assertions establish for one dimension *)
Definition accepted (b e : Z) (r : index_range) : Prop :=
  let adj := if ir_stride r <? 0 then 1 else 0 in
  b <= range_start r b <= b + e /\ b - adj <= range_finish r b e <= b + e - adj.

Definition dim_facts (chk : bool) (b e s : Z) (r : index_range) : Prop :=
  ir_stride r <> 0 /\ (chk = true -> accepted b e r) /\
  index_value (range_start r b * s) /\
  (ir_degenerate r = false -> index_value (ir_stride r * s)) /\
  view_len (range_start r b) (range_finish r b e) (ir_stride r) =
    Ok (vlen (range_start r b) (range_finish r b e) (ir_stride r)).

Fixpoint dims_facts (chk : bool) (bases ext str : list Z) (rs : list index_range) : Prop :=
  match bases, ext, str, rs with
  | [], [], [], _ => True
  | b :: bs, e :: es, s :: ss, r :: rs' => dim_facts chk b e s r /\ dims_facts chk bs es ss rs'
  | _, _, _, _ => False
  end.

Lemma get_start_eq r b : ir_get_start r b = range_start r b.
Proof. reflexivity. Qed.
Lemma default_finish_eq b e : - max_index - 1 <= b -> 0 <= e -> b + e <= max_index ->
  to_index (to_size b + e) = b + e.
Proof.
  intros H1 H2 H3. rewrite <- (to_index_small (b + e)) by (unconst; lia). apply to_index_cong.
  unfold to_size. rewrite Zplus_mod_idemp_l. auto.
Qed.
Lemma get_finish_eq r b e : - max_index - 1 <= b -> 0 <= e -> b + e <= max_index ->
  ir_get_finish r (to_index (to_size b + e)) = range_finish r b e.
Proof. intros. rewrite default_finish_eq by auto. reflexivity. Qed.

Lemma start_ok_inv b e start : 0 <= e <= max_index -> start_ok b e start = Ok true -> b <= start <= b + e.
Proof.
  intros He. unfold start_ok. destruct (Z.leb_spec b start); [|discriminate]. intros H1.
  oinv H1. apply signed_inv in E. destruct E as [-> _].
  rewrite to_index_small in H1 by (unconst; lia). inversion H1 as [H2].
  apply orb_true_iff in H2. rewrite andb_true_iff, Z.leb_le, !Z.eqb_eq in H2. lia.
Qed.
Lemma start_ok_ok b e start : 0 <= e <= max_index -> - max_index - 1 <= b -> b + e <= max_index ->
  start_ok b e start = Ok ((b <=? start) && (start <=? b + e)).
Proof.
  intros He H1 H2. unfold start_ok. destruct (Z.leb_spec b start); auto.
  rewrite (to_index_small e) by (unconst; lia). rewrite sadd_ok by (unconst; lia). cbn [obind andb].
  f_equal. destruct (Z.leb_spec start (b + e)); auto. simpl.
  destruct (Z.eqb_spec start b), (Z.eqb_spec e 0); auto. lia.
Qed.
Lemma finish_ok_inv b e f s : 0 <= e <= max_index -> finish_ok b e f s = Ok true ->
  let adj := if s <? 0 then 1 else 0 in b - adj <= f <= b + e - adj.
Proof.
  intros He. unfold finish_ok. set (adj := if s <? 0 then 1 else 0). cbv zeta. intros H.
  oinv H. apply signed_inv in E. destruct E as [-> _].
  destruct (Z.leb_spec (b - adj) f); [|discriminate].
  oinv H. apply signed_inv in E. destruct E as [-> _]. oinv H. apply signed_inv in E. destruct E as [-> _].
  rewrite to_index_small in H by (unconst; lia). inversion H as [H2]. apply Z.leb_le in H2. lia.
Qed.
Lemma finish_ok_ok b e f s : 0 <= e <= max_index -> - max_index - 1 <= b -> b + e <= max_index ->
  (s < 0 -> - max_index <= b) ->
  finish_ok b e f s = let adj := if s <? 0 then 1 else 0 in Ok ((b - adj <=? f) && (f <=? b + e - adj)).
Proof.
  intros He H1 H2 H3. unfold finish_ok. set (adj := if s <? 0 then 1 else 0). cbv zeta.
  assert (Ha : adj = 1 /\ s < 0 \/ adj = 0).
  { unfold adj. destruct (Z.ltb_spec s 0); lia. }
  clearbody adj.
  rewrite ssub_ok by (unconst; lia). cbn [obind].
  destruct (Z.leb_spec (b - adj) f); auto.
  rewrite (to_index_small e) by (unconst; lia). rewrite sadd_ok by (unconst; lia). cbn [obind andb].
  rewrite ssub_ok by (unconst; lia). reflexivity.
Qed.

Definition partial_list (pre : list Z) (m : nat) : list (option Z) := map Some pre ++ repeat None m.

Lemma arr_set_partial chk pre m v l : arr_set chk (partial_list pre m) (length pre) (Some v) = Ok l ->
  exists m', m = S m' /\ l = partial_list (pre ++ [v]) m'.
Proof.
  unfold arr_set, partial_list. rewrite app_length, map_length, repeat_length.
  destruct (Nat.ltb_spec (length pre) (length pre + m)) as [H|H]; [|destruct chk; discriminate].
  intros E. inversion E as [E']. destruct m as [|m]; [lia|]. exists m. split; auto.
  clear. induction pre as [|x pre IH]; simpl in *; auto. f_equal. auto.
Qed.
Lemma arr_set_partial_ok chk pre m v :
  arr_set chk (partial_list pre (S m)) (length pre) (Some v) = Ok (partial_list (pre ++ [v]) m).
Proof.
  unfold arr_set, partial_list. rewrite app_length, map_length, repeat_length.
  destruct (Nat.ltb_spec (length pre) (length pre + S m)) as [H|H]; [|lia]. f_equal.
  clear. induction pre as [|x pre IH]; simpl in *; auto. f_equal. auto.
Qed.

Definition bounds_ok (bases ext : list Z) : Prop :=
  Forall (fun e => 0 <= e <= max_index) ext /\
  Forall2 (fun b e => - max_index - 1 <= b /\ b + e <= max_index) bases ext.

Lemma gav_loop_inv chk : forall ext str bases rs off ps pe m st',
  bounds_ok bases ext ->
  length ps = length pe ->
  gav_loop chk rs ext str bases (GS off (length ps) (partial_list ps m) (partial_list pe m)) = Ok st' ->
  exists m',
    st' = GS (off + gav_origin bases rs str) (length ps + length (gav_strides rs str))
             (partial_list (ps ++ gav_strides rs str) m')
             (partial_list (pe ++ gav_lens bases ext rs) m') /\
    (m = m' + length (gav_strides rs str))%nat /\
    length (gav_lens bases ext rs) = length (gav_strides rs str) /\
    dims_facts chk bases ext str rs /\ (length rs >= length ext)%nat.
Proof.
  induction ext as [|e es IH]; intros [|s ss] [|b bs] rs off ps pe m st' [F1 F2] L H;
    cbn [gav_loop] in H; try discriminate; try (destruct rs; discriminate).
  - assert (st' = GS off (length ps) (partial_list ps m) (partial_list pe m)) by (destruct rs; inversion H; auto).
    subst st'. exists m.
    assert (Eg : gav_strides rs [] = []) by (destruct rs; auto). rewrite Eg.
    cbn [gav_origin gav_lens dims_facts length]. rewrite !app_nil_r, Z.add_0_r, Nat.add_0_r.
    repeat split; auto; try lia.
  - destruct rs as [|r rs]; [discriminate|].
    inversion F1; subst. inversion F2; subst.
    oinv H. unfold gav_step in E. rewrite get_finish_eq, get_start_eq in E by lia.
    cbn [gs_off gs_dim gs_str gs_ext] in E.
    oinv E. oinv E. oinv E. oinv E. oinv E. oinv E.
    destruct v0, v2, v3.
    apply view_len_inv in E1 as E1'. destruct E1' as [Hs ->].
    apply signed_inv in E4. destruct E4 as [-> R4]. apply signed_inv in E5. destruct E5 as [-> _].
    assert (DF : (ir_degenerate r = false -> index_value (ir_stride r * s)) -> dim_facts chk b e s r).
    { intros Hd. split; [auto|]. split; [|split; [unfold index_value; unconst; lia|split; auto]].
      intros Hc. split.
      - apply start_ok_inv; [auto|]. apply assertM_inv with (chk := chk); auto.
      - apply (finish_ok_inv b e _ (ir_stride r)); [auto|]. apply assertM_inv with (chk := chk); auto. }
    cbn [gav_origin gav_strides gav_lens dims_facts].
    destruct (ir_degenerate r) eqn:Hd.
    + inversion E; subst v.
      apply IH in H; [|split; auto|auto]. destruct H as (m' & -> & Hm & Hl & HD & HL).
      exists m'. repeat split; auto; try (apply DF; congruence); try (simpl; lia); f_equal; lia.
    + oinv E. apply signed_inv in E4. destruct E4 as [-> R5].
      oinv E. apply arr_set_partial in E4. destruct E4 as (m1 & -> & ->).
      oinv E. rewrite L in E4. apply arr_set_partial in E4. destruct E4 as (m2 & Em & ->).
      inversion Em; subst m2. inversion E; subst v.
      replace (S (length ps)) with (length (ps ++ [ir_stride r * s])) in H by (rewrite app_length; simpl; lia).
      apply IH in H; [|split; auto|rewrite !app_length; simpl; lia].
      destruct H as (m' & -> & Hm & Hl & HD & HL).
      exists m'. split; [|split; [simpl; lia|split; [simpl; lia|split; [split; [|exact HD]|simpl; lia]]]].
      * rewrite app_length, <- !app_assoc. cbn [length app]. f_equal; lia.
      * apply DF. intros _. unfold index_value. unconst; lia.
Qed.

(** * views *)

Definition view_of (a : nd) (rs : list index_range) : view :=
  let lens := gav_lens (nd_base a) (nd_ext a) rs in
  View (padd (nd_org a) (gav_origin (nd_base a) rs (nd_str a))) 0
       (accumulate_mul lens) lens (gav_strides rs (nd_str a)) (repeat 0 (length lens)).

Lemma read_all_partial l : forall m x, read_all (partial_list l m) = Ok x -> m = O /\ x = l.
Proof.
  induction l as [|y l IH]; intros m x H; simpl in H.
  - destruct m; simpl in H; [inversion H; auto|discriminate].
  - oinv H. apply IH in E. destruct E as [-> ->]. inversion H; auto.
Qed.

Lemma signed_range z r : signed z = Ok r -> idx_min <= r <= idx_max.
Proof. intros H. apply signed_inv in H. destruct H as [-> H]; auto. Qed.

Lemma view_len_range a b c l : view_len a b c = Ok l -> 0 <= l <= max_index.
Proof.
  intros H. pose proof (view_len_inv _ _ _ _ H) as [Hs E]. pose proof (vlen_nonneg a b c Hs). subst l.
  split; auto. unfold view_len in H. oinv H. oinv H. destruct (v0 <? 0).
  - inversion H as [H']. unconst; lia.
  - oinv H. oinv H. unfold sdiv in H. destruct (c =? 0); [discriminate|]. apply signed_range in H. unconst; lia.
Qed.

Lemma gav_lens_range chk : forall bases ext str rs, dims_facts chk bases ext str rs ->
  Forall (fun l => 0 <= l <= max_index) (gav_lens bases ext rs).
Proof.
  induction bases as [|b bs IH]; intros [|e es] [|s ss] [|r rs] H; simpl in *; try tauto; auto.
  destruct H as [H1 H2]. destruct (ir_degenerate r); [eapply IH; eauto|].
  constructor; [|eapply IH; eauto]. destruct H1 as (_ & _ & _ & _ & E). eapply view_len_range; eauto.
Qed.

Theorem make_view_inv chk a ig v : nd_ok a -> length (ig_ranges ig) = ig_num ig ->
  make_view chk a ig = Ok v ->
  ig_num ig = length (nd_ext a) /\
  v = view_of a (ig_ranges ig) /\
  dims_facts chk (nd_base a) (nd_ext a) (nd_str a) (ig_ranges ig) /\
  length (v_ext v) = ig_dims ig /\ length (v_str v) = ig_dims ig.
Proof.
  intros (H1 & H2 & H3 & H4 & H5 & H6 & H7) Hl H. unfold make_view in H. oinv H.
  destruct v0 as [[p ext] str]. unfold generate_array_view in E.
  destruct (Nat.eqb_spec (ig_num ig) (length (nd_ext a))) as [En|]; [|discriminate].
  split; auto. oinv E.
  destruct (gav_loop_inv chk (nd_ext a) (nd_str a) (nd_base a) (ig_ranges ig) 0 [] [] (ig_dims ig) v0)
    as (m & -> & Em & El & HD & HL); auto.
  { split; auto. }
  oinv E. cbn [gs_ext gs_str gs_off] in E. oinv E. apply read_all_partial in E2. destruct E2 as [-> ->].
  oinv E. apply read_all_partial in E2. destruct E2 as [_ ->]. inversion E; subst p ext str. clear E.
  simpl app in H. unfold view_make in H.
  assert (Ed : ig_dims ig = length (gav_strides (ig_ranges ig) (nd_str a))) by lia.
  rewrite Ed in H. rewrite <- El in H at 1. rewrite !copy_n_all in H. cbn [obind] in H.
  inversion H as [H8]. rewrite map_to_size_id by (eapply gav_lens_range; eauto).
  cbn [v_ext v_str].
  split; [|split; [exact HD|split; lia]].
  unfold view_of. rewrite El. reflexivity.
Qed.

Lemma view_shape_lens chk : forall bases ext str rs, length rs = length ext ->
  dims_facts chk bases ext str rs ->
  view_shape bases ext rs (gav_lens bases ext rs).
Proof.
  induction bases as [|b bs IH]; intros [|e es] [|s ss] [|r rs] L H; simpl in *; try tauto; try lia.
  - constructor.
  - destruct H as [(Hs & _) H2]. destruct (ir_degenerate r) eqn:Hd.
    + apply vs_single; auto. eapply IH; eauto.
    + apply vs_range; auto.
      * apply vlen_nonneg; auto.
      * intros k. rewrite <- vlen_selected by auto. tauto.
      * eapply IH; eauto.
Qed.

(** when is a range accepted by the assertions contained in the dimension? *)
Theorem range_inside_iff b e r : 0 <= e -> ir_stride r <> 0 -> ir_degenerate r = false -> accepted b e r ->
  (range_inside b e r <-> ~ (ir_stride r < 0 /\ range_start r b = b + e)).
Proof.
  intros He Hs Hd [A1 A2]. unfold range_inside. rewrite Hd. unfold selected.
  destruct (Z.ltb_spec (ir_stride r) 0); destruct (Z.ltb_spec 0 (ir_stride r)); try lia.
  - split.
    + intros H' [_ E]. specialize (H' 0). rewrite E in H'. simpl in H'. lia.
    + intros H' k [Hk Hk2]. nia.
  - split; [intros _ [? ?]; lia|]. intros _ k [Hk Hk2]. nia.
Qed.
Lemma range_inside_single b e r : ir_degenerate r = true -> accepted b e r ->
  (range_inside b e r <-> range_start r b <> b + e).
Proof. intros Hd [A1 A2]. unfold range_inside. rewrite Hd. lia. Qed.

Lemma ranges_inside_length bs es rs : ranges_inside bs es rs -> length bs = length es /\ length rs = length es.
Proof.
  revert es rs; induction bs as [|b bs IH]; intros [|e es] [|r rs]; simpl; try tauto.
  intros [_ H]. apply IH in H. lia.
Qed.

Lemma view_reach chk : forall bases ext str rs, length rs = length ext ->
  dims_facts chk bases ext str rs -> ranges_inside bases ext rs ->
  reach (repeat 0 (length (gav_lens bases ext rs))) (gav_lens bases ext rs) (gav_strides rs str)
  <= reach bases ext str.
Proof.
  induction bases as [|b bs IH]; intros [|e es] [|s ss] [|r rs] L H HI; simpl in *; try tauto; try lia.
  destruct H as [(Hs & _) H2]. destruct HI as [HI HI2]. specialize (IH es ss rs ltac:(lia) H2 HI2).
  assert (0 <= (Z.abs b + Z.max 0 (e - 1)) * Z.abs s) by (apply Z.mul_nonneg_nonneg; lia).
  destruct (ir_degenerate r) eqn:Hd.
  - lia.
  - cbn [length repeat reach].
    unfold range_inside in HI. rewrite Hd in HI.
    set (st := range_start r b) in *. set (fi := range_finish r b e) in *. set (sd := ir_stride r) in *.
    pose proof (vlen_nonneg st fi sd Hs) as Hn.
    pose proof (vlen_selected st fi sd 0 Hs) as S0.
    pose proof (vlen_selected st fi sd (vlen st fi sd - 1) Hs) as S1.
    set (l := vlen st fi sd) in *.
    assert (Hle : (Z.abs 0 + Z.max 0 (l - 1)) * Z.abs (sd * s) <= (Z.abs b + Z.max 0 (e - 1)) * Z.abs s).
    { destruct (Z_le_dec l 1) as [Hl|Hl].
      - rewrite Z.max_l by lia. simpl Z.abs at 1. rewrite Z.add_0_r, Z.mul_0_l. auto.
      - pose proof (HI 0 (proj1 S0 ltac:(lia))) as B0. pose proof (HI (l - 1) (proj1 S1 ltac:(lia))) as B1.
        rewrite Z.abs_mul. rewrite (Z.max_r 0 (l - 1)) by lia. simpl Z.abs at 1. rewrite Z.add_0_l, Z.mul_assoc.
        apply Z.mul_le_mono_nonneg_r; [lia|].
        assert (Z.abs ((l - 1) * sd) <= e - 1) by nia. rewrite Z.abs_mul in H0.
        rewrite (Z.abs_eq (l - 1)) in H0 by lia. lia. }
    lia.
Qed.

Lemma gav_strides_index chk : forall bases ext str rs, length rs = length ext ->
  dims_facts chk bases ext str rs -> Forall index_value (gav_strides rs str).
Proof.
  induction bases as [|b bs IH]; intros [|e es] [|s ss] [|r rs] L H; simpl in *; try tauto; try lia; auto.
  destruct H as [(Hs & _ & _ & Hi & _) H2]. specialize (IH es ss rs ltac:(lia) H2).
  destruct (ir_degenerate r); auto.
Qed.

Lemma Forall2_repeat_0 (R : Z -> Z -> Prop) l : Forall (R 0) l -> Forall2 R (repeat 0 (length l)) l.
Proof. induction 1; simpl; constructor; auto. Qed.

Theorem view_nd_ok chk a rs :
  nd_ok a -> length rs = length (nd_ext a) ->
  dims_facts chk (nd_base a) (nd_ext a) (nd_str a) rs ->
  ranges_inside (nd_base a) (nd_ext a) rs ->
  length (gav_strides rs (nd_str a)) = length (gav_lens (nd_base a) (nd_ext a) rs) ->
  (0 < length (gav_lens (nd_base a) (nd_ext a) rs))%nat ->
  nd_ok (v_nd (view_of a rs)).
Proof.
  intros (H1 & H2 & H3 & H4 & H5 & H6 & H7) L HD HI Hls H0. unfold nd_ok, addressable, view_of, v_nd.
  cbn [nd_base nd_ext nd_str v_ext v_str v_ib].
  rewrite repeat_length. pose proof (gav_lens_range chk _ _ _ _ HD) as HR.
  repeat split; auto.
  - apply Forall2_repeat_0. eapply Forall_impl; [|exact HR]. simpl. unconst; lia.
  - eapply gav_strides_index; eauto.
  - pose proof (view_reach chk _ _ _ _ L HD HI). lia.
Qed.

(** * aliasing *)

Lemma source_index_in_bounds chk : forall bases ext str rs t, length rs = length ext ->
  dims_facts chk bases ext str rs -> ranges_inside bases ext rs ->
  in_bounds (repeat 0 (length (gav_lens bases ext rs))) (gav_lens bases ext rs) t ->
  in_bounds bases ext (source_index bases rs t).
Proof.
  induction bases as [|b bs IH]; intros [|e es] [|s ss] [|r rs] t L H HI Ht; simpl in *; try tauto; try lia.
  destruct H as [(Hs & _) H2]. destruct HI as [HI HI2].
  destruct (ir_degenerate r) eqn:Hd; simpl.
  - unfold range_inside in HI. rewrite Hd in HI. split; auto. eapply IH; eauto.
  - destruct t as [|k t]; simpl in Ht; [tauto|]. destruct Ht as [Hk Ht].
    unfold range_inside in HI. rewrite Hd in HI. split.
    + apply HI. apply vlen_selected; auto.
    + eapply IH; eauto.
Qed.

Lemma source_index_dot : forall (bases ext str : list Z) rs t,
  length bases = length ext -> length str = length ext -> length rs = length ext ->
  length t = length (gav_strides rs str) ->
  gav_origin bases rs str + dot t (gav_strides rs str) = dot (source_index bases rs t) str.
Proof.
  induction bases as [|b bs IH]; intros [|e es] [|s ss] [|r rs] t L1 L2 L3 Lt; simpl in *; try lia.
  - destruct t; simpl in *; lia.
  - destruct (ir_degenerate r) eqn:Hd; simpl in *.
    + rewrite <- (IH es) by lia. lia.
    + destruct t as [|k t]; simpl in *; [lia|]. rewrite <- (IH es) by lia. lia.
Qed.

Lemma length_gav chk : forall bases ext str rs, length rs = length ext -> dims_facts chk bases ext str rs ->
  length (gav_strides rs str) = length (gav_lens bases ext rs).
Proof.
  induction bases as [|b bs IH]; intros [|e es] [|s ss] [|r rs] L H; simpl in *; try tauto; try lia.
  assert (length (gav_strides rs ss) = length (gav_lens bs es rs)) by (apply IH; try lia; tauto).
  destruct (ir_degenerate r); simpl; lia.
Qed.

Theorem view_addr chk a rs t :
  nd_ok a -> length rs = length (nd_ext a) ->
  dims_facts chk (nd_base a) (nd_ext a) (nd_str a) rs ->
  length t = length (gav_lens (nd_base a) (nd_ext a) rs) ->
  addr (v_nd (view_of a rs)) t = addr a (source_index (nd_base a) rs t).
Proof.
  intros (H1 & H2 & H3 & _) L HD Lt. unfold addr, v_nd, view_of, v_origin. simpl.
  rewrite !padd_padd. f_equal. rewrite ?Z.add_0_r, ?Z.add_0_l.
  apply source_index_dot with (ext := nd_ext a); auto.
  rewrite Lt. symmetry. eapply length_gav; eauto.
Qed.

Lemma source_index_inj chk : forall bases ext str rs t u, length rs = length ext ->
  dims_facts chk bases ext str rs ->
  length t = length (gav_lens bases ext rs) -> length u = length (gav_lens bases ext rs) ->
  source_index bases rs t = source_index bases rs u -> t = u.
Proof.
  induction bases as [|b bs IH]; intros [|e es] [|s ss] [|r rs] t u L H Lt Lu E; simpl in *; try tauto; try lia.
  - destruct t, u; simpl in *; auto; lia.
  - destruct H as [(Hs & _) H2]. destruct (ir_degenerate r) eqn:Hd.
    + inversion E. eapply IH; eauto.
    + destruct t as [|k t], u as [|j u]; simpl in *; try lia.
      inversion E as [[E1 E2]]. f_equal.
      * nia.
      * eapply IH; eauto.
Qed.

Lemma length_source_index : forall (bases : list Z) rs (t : list Z) m,
  length rs = length bases ->
  length t = m -> m = length (filter (fun r => negb (ir_degenerate r)) rs) ->
  length (source_index bases rs t) = length bases.
Proof.
  induction bases as [|b bs IH]; intros [|r rs] t m L Lt Hm; simpl in *; try lia; auto.
  destruct (ir_degenerate r); simpl in *.
  - f_equal. eapply IH; eauto.
  - destruct t as [|k t]; simpl in *; [lia|]. f_equal. eapply IH; eauto; lia.
Qed.

(** * when does view generation succeed? *)

Definition range_fits (b e s : Z) (r : index_range) : Prop :=
  ir_stride r <> 0 /\ accepted b e r /\
  (ir_stride r < 0 -> - max_index <= b) /\
  index_value (ir_stride r) /\
  index_value (range_finish r b e - range_start r b + (ir_stride r - (if 0 <? ir_stride r then 1 else -1))) /\
  (ir_stride r = -1 -> - max_index <= range_finish r b e - range_start r b) /\
  (ir_degenerate r = false -> index_value (ir_stride r * s)).

Fixpoint ranges_fit (bases ext str : list Z) (rs : list index_range) : Prop :=
  match bases, ext, str, rs with
  | [], [], [], [] => True
  | b :: bs, e :: es, s :: ss, r :: rs' => range_fits b e s r /\ ranges_fit bs es ss rs'
  | _, _, _, _ => False
  end.

(** the displacement of the starting corner *)
Fixpoint corner (bases : list Z) (rs : list index_range) (str : list Z) : Z :=
  match bases, rs, str with
  | b :: bs, r :: rs', s :: ss => Z.abs (range_start r b) * Z.abs s + corner bs rs' ss
  | _, _, _ => 0
  end.
Lemma corner_nonneg bs rs ss : 0 <= corner bs rs ss.
Proof.
  revert rs ss; induction bs as [|b bs IH]; intros [|r rs] [|s ss]; simpl; try lia.
  specialize (IH rs ss). nia.
Qed.

Lemma range_fits_len b e s r : 0 <= e <= max_index -> - max_index - 1 <= b -> b + e <= max_index ->
  range_fits b e s r ->
  view_len (range_start r b) (range_finish r b e) (ir_stride r) =
    Ok (vlen (range_start r b) (range_finish r b e) (ir_stride r)).
Proof.
  intros He Hb1 Hb2 (Hs & [A1 A2] & Hb & Hi & Hv & Hm & _). unfold index_value in *.
  assert (Hd : index_value (range_finish r b e - range_start r b)).
  { unfold index_value. destruct (Z.ltb_spec (ir_stride r) 0); unconst; lia. }
  apply view_len_ok; auto; unfold index_value in *;
    destruct (Z.ltb_spec 0 (ir_stride r)); unconst; try lia.
Qed.

Lemma gav_loop_ok chk : forall bases ext str rs off ps pe m,
  bounds_ok bases ext -> ranges_fit bases ext str rs ->
  length ps = length pe ->
  (m >= length (gav_strides rs str))%nat ->
  Z.abs off + corner bases rs str <= max_index ->
  gav_loop chk rs ext str bases (GS off (length ps) (partial_list ps m) (partial_list pe m)) =
  Ok (GS (off + gav_origin bases rs str) (length ps + length (gav_strides rs str))
         (partial_list (ps ++ gav_strides rs str) (m - length (gav_strides rs str)))
         (partial_list (pe ++ gav_lens bases ext rs) (m - length (gav_strides rs str)))).
Proof.
  induction bases as [|b bs IH]; intros [|e es] [|s ss] [|r rs] off ps pe m [F1 F2] HF L Hm HB;
    cbn [ranges_fit] in HF; try tauto.
  - cbn. rewrite !app_nil_r, Z.add_0_r, Nat.add_0_r, Nat.sub_0_r. auto.
  - inversion F1; subst. inversion F2; subst. destruct HF as [HF HF2].
    cbn [corner] in HB. pose proof (corner_nonneg bs rs ss) as HC.
    cbn [gav_loop]. unfold gav_step. rewrite get_finish_eq, get_start_eq by lia.
    cbn [gs_off gs_dim gs_str gs_ext].
    pose proof (range_fits_len b e s r ltac:(lia) ltac:(lia) ltac:(lia) HF) as HL.
    destruct HF as (Hs & [A1 A2] & Hb & Hi & Hv & Hm1 & Hst).
    assert (EA : forall o, o = Ok true -> assertM chk o = Ok tt).
    { intros o ->. unfold assertM. destruct chk; auto. }
    rewrite EA by (destruct (Z.eqb_spec (ir_stride r) 0); [tauto|auto]).
    cbn [obind]. rewrite HL. cbn [obind].
    rewrite EA.
    2: { rewrite start_ok_ok by lia. f_equal. apply andb_true_iff. rewrite !Z.leb_le. lia. }
    cbn [obind]. rewrite EA.
    2: { rewrite finish_ok_ok by lia. cbv zeta. f_equal. apply andb_true_iff. rewrite !Z.leb_le. lia. }
    cbn [obind]. pose proof (abs_mul (range_start r b) s) as Hab.
    rewrite smul_ok by (unconst; lia). cbn [obind]. rewrite sadd_ok by (unconst; lia). cbn [obind].
    cbn [gav_origin gav_strides gav_lens].
    cbn [gav_strides] in Hm.
    destruct (ir_degenerate r) eqn:Hd.
    + cbn [obind]. rewrite IH; auto; [|split; auto|lia]. do 2 f_equal. lia.
    + specialize (Hst eq_refl). unfold index_value in Hst. rewrite smul_ok by (unconst; lia). cbn [obind].
      cbn [length] in Hm. destruct m as [|m]; [lia|].
      rewrite arr_set_partial_ok. cbn [obind]. rewrite L, arr_set_partial_ok. cbn [obind].
      replace (S (length pe)) with (length (ps ++ [ir_stride r * s])) by (rewrite app_length; simpl; lia).
      rewrite IH; auto; [|split; auto|rewrite !app_length; simpl; lia|lia|lia].
      rewrite app_length, <- !app_assoc. cbn [length app].
      do 2 f_equal; try lia.
Qed.

Lemma read_all_partial_ok l : read_all (partial_list l 0) = Ok l.
Proof. unfold partial_list. simpl. rewrite app_nil_r. apply read_all_somes. Qed.

Lemma ranges_fit_facts chk : forall bases ext str rs, bounds_ok bases ext -> ranges_fit bases ext str rs ->
  corner bases rs str <= max_index ->
  dims_facts chk bases ext str rs.
Proof.
  induction bases as [|b bs IH]; intros [|e es] [|s ss] [|r rs] [F1 F2] HF HB;
    cbn [ranges_fit dims_facts] in *; try tauto.
  inversion F1; subst. inversion F2; subst. destruct HF as [HF HF2].
  cbn [corner] in HB. pose proof (corner_nonneg bs rs ss) as HC.
  pose proof (abs_mul (range_start r b) s) as Hab.
  assert (0 <= Z.abs (range_start r b) * Z.abs s) by nia.
  split; [|apply IH; auto; [split; auto|lia]].
  pose proof (range_fits_len b e s r ltac:(lia) ltac:(lia) ltac:(lia) HF) as HL.
  destruct HF as (Hs & HA & Hb & Hi & Hv & Hm1 & Hst).
  unfold dim_facts. split; [auto|]. split; [auto|]. split; [unfold index_value; unconst; lia|]. auto.
Qed.

Lemma ranges_fit_length : forall bases ext str rs, ranges_fit bases ext str rs -> length rs = length ext.
Proof.
  induction bases as [|b bs IH]; intros [|e es] [|s ss] [|r rs] HF; simpl in *; try tauto.
  f_equal. eapply IH. apply HF.
Qed.

Theorem make_view_ok chk a ig : nd_ok a -> ig_num ig = length (nd_ext a) ->
  ranges_fit (nd_base a) (nd_ext a) (nd_str a) (ig_ranges ig) ->
  corner (nd_base a) (ig_ranges ig) (nd_str a) <= max_index ->
  length (gav_strides (ig_ranges ig) (nd_str a)) = ig_dims ig ->
  make_view chk a ig = Ok (view_of a (ig_ranges ig)).
Proof.
  intros (H1 & H2 & H3 & H4 & H5 & H6 & H7) En HF HC Hd.
  pose proof (ranges_fit_facts chk _ _ _ _ (conj H4 H5) HF HC) as HD.
  pose proof (ranges_fit_length _ _ _ _ HF) as L.
  pose proof (length_gav chk _ _ _ _ L HD) as LG.
  unfold make_view, generate_array_view. rewrite En, Nat.eqb_refl.
  change (GS 0 0 (repeat None (ig_dims ig)) (repeat None (ig_dims ig))) with
      (GS 0 (length (@nil Z)) (partial_list [] (ig_dims ig)) (partial_list [] (ig_dims ig))).
  rewrite gav_loop_ok; auto; [|split; auto|lia].
  cbn [obind gs_dim gs_ext gs_str gs_off length]. rewrite Nat.add_0_l, Hd, Nat.eqb_refl, Nat.sub_diag.
  replace (assertM chk (Ok true)) with (Ok tt) by (destruct chk; auto). cbn [obind app].
  rewrite !read_all_partial_ok. cbn [obind].
  unfold view_make. rewrite <- Hd, LG. rewrite copy_n_all. cbn [obind]. rewrite <- LG, copy_n_all. cbn [obind].
  rewrite map_to_size_id by (eapply gav_lens_range; eauto).
  unfold view_of. rewrite LG, Z.add_0_l. reflexivity.
Qed.
