(** StrictProofs.v -- operations on objects whose rows all lie in their block
    compute no pointer outside of it. *)

From Coq Require Import Lia.
From Verif Require Import Base StorageOrder Ranges Layout Access Objects Memory Ops MultiArray Spec Facts
  LayoutProofs AccessProofs ViewSpec ViewProofs MemoryProofs CopyProofs ReachSpec ReachProofs IterSpec MemSpec ThmIter
  CompareSpec OwnSpec ThmAddressing ThmViews ThmGeometry ThmCopy ThmBulk CompareProofs ThmCompare OwnProofs ResizeProofs ThmMultiArray
  History HistorySpec Strict StrictSpec.

Lemma formed_iff room p : formed room p = Ok tt <-> within room p.
Proof.
  unfold formed, within. destruct (Z.leb_spec 0 (p_off p)), (Z.leb_spec (p_off p) (room (p_blk p))); simpl; split; intros; try discriminate; try lia; auto.
Qed.
Lemma formed_not room p : ~ within room p -> formed room p = UB.
Proof.
  unfold formed, within. destruct (Z.leb_spec 0 (p_off p)), (Z.leb_spec (p_off p) (room (p_blk p))); simpl; intros; auto; lia.
Qed.

(** every pointer computed by walking through the rows of a *)
Definition walkable (room : nat -> Z) (a : nd) : Prop :=
  forall m t, in_bounds (firstn m (nd_base a)) (firstn m (nd_ext a)) t ->
    within room (padd (nd_org a) (dot t (nd_str a))).

Lemma walkable_org room a : walkable room a -> within room (nd_org a).
Proof. intros H. specialize (H O [] I). cbn [dot] in H. rewrite padd_0 in H. auto. Qed.

Lemma geometry_ok room o : walkable room (obj_nd o) -> strict_geometry room o = Ok (obj_nd o).
Proof. intros H. apply walkable_org in H. apply formed_iff in H. destruct o; cbn [strict_geometry]; rewrite ?H; auto. Qed.

Lemma walkable_row room a i b bs e es s ss : nd_base a = b :: bs -> nd_ext a = e :: es -> nd_str a = s :: ss ->
  b <= i < b + e -> walkable room a -> walkable room (row a i).
Proof.
  intros Eb Ee Es Hi H m t Ht. cbn [row nd_base nd_ext nd_str nd_org] in *. rewrite Eb, Ee, Es in *. cbn [tl hd] in *.
  rewrite padd_padd. specialize (H (S m) (i :: t)). rewrite Eb, Ee, Es in H. cbn [firstn in_bounds dot] in H. apply H. auto.
Qed.

Lemma strict_access_n_ok room chk a i b bs e es s ss : nd_ok a -> nd_base a = b :: bs -> nd_ext a = e :: es -> nd_str a = s :: ss ->
  es <> [] -> b <= i < b + e -> walkable room a -> strict_access_n room chk i a = Ok (row a i) /\ access_n chk i a = Ok (row a i).
Proof.
  intros Ha Eb Ee Es Hne Hi H. unfold strict_access_n.
  assert (E : access_n chk i a = Ok (row a i)).
  { rewrite (access_n_ok chk i a b bs e es s ss) by auto. unfold row. rewrite Eb, Ee, Es. auto. }
  rewrite E. cbn [obind]. split; [|auto]. rewrite (proj2 (formed_iff room (nd_org (row a i)))); auto.
  apply walkable_org. eapply walkable_row; eauto.
Qed.
Lemma strict_access_one_ok room chk a i b e s : nd_ok a -> nd_base a = [b] -> nd_ext a = [e] -> nd_str a = [s] ->
  b <= i < b + e -> walkable room a -> strict_access_one room chk i a = access_one chk i a.
Proof.
  intros Ha Eb Ee Es Hi H. unfold strict_access_one. rewrite (access_one_ok chk i a b e s) by auto. cbn [obind].
  rewrite (proj2 (formed_iff room _)); auto. specialize (H 1%nat [i]). rewrite Eb, Ee, Es in H. cbn [firstn in_bounds dot] in H.
  rewrite Z.add_0_r in H. apply H. auto.
Qed.

Section Loops.
Context {T : Type}.

Lemma it_inc_cases a k : it_inc (it_at a k) = Ok (it_at a (k + 1)) \/ it_inc (it_at a k) = UB.
Proof. unfold it_inc, sadd, signed. cbn [it_at it_idx]. destruct (in_index (k + 1)); auto. Qed.

Lemma copy_loop_cong (f g : iter -> iter -> M T unit) src dst : forall fuel k l j w,
  (forall i i' w, k <= i < l -> i' = j + (i - k) -> f (it_at src i) (it_at dst i') w = g (it_at src i) (it_at dst i') w) -> k <= l ->
  copy_loop f fuel (it_at src k) (it_at src l) (it_at dst j) w = copy_loop g fuel (it_at src k) (it_at src l) (it_at dst j) w.
Proof.
  induction fuel as [|fuel IH]; intros k l j w H L; cbn [copy_loop]; rewrite it_equal_at; destruct (Z.eqb_spec k l); auto.
  unfold bind at 1 4. rewrite H by lia. destruct (g (it_at src k) (it_at dst j) w); auto.
  destruct (it_inc_cases src k) as [E|E]; rewrite E; unfold bind at 1 3, lift at 1 3; auto.
  destruct (it_inc_cases dst j) as [E2|E2]; rewrite E2; unfold bind at 1 2, lift at 1 2; auto.
  apply IH; [|lia]. intros i i' w' Hi Ei. apply H; lia.
Qed.

Lemma each_loop_cong (f g : iter -> M T unit) a : forall fuel k l w,
  (forall i w, k <= i < l -> f (it_at a i) w = g (it_at a i) w) -> k <= l ->
  each_loop f fuel (it_at a k) (it_at a l) w = each_loop g fuel (it_at a k) (it_at a l) w.
Proof.
  induction fuel as [|fuel IH]; intros k l w H L; cbn [each_loop]; rewrite it_equal_at; destruct (Z.eqb_spec k l); auto.
  unfold bind at 1 3. rewrite H by lia. destruct (g (it_at a k) w); auto.
  destruct (it_inc_cases a k) as [E|E]; rewrite E; unfold bind at 1 2, lift at 1 2; auto.
  apply IH; [|lia]. intros i w' Hi. apply H; lia.
Qed.

Lemma equal_loop_cong (f g : iter -> iter -> outcome bool) a b : forall fuel k l j,
  (forall i i', k <= i < l -> i' = j + (i - k) -> f (it_at a i) (it_at b i') = g (it_at a i) (it_at b i')) -> k <= l ->
  equal_loop f fuel (it_at a k) (it_at a l) (it_at b j) = equal_loop g fuel (it_at a k) (it_at a l) (it_at b j).
Proof.
  induction fuel as [|fuel IH]; intros k l j H L; cbn [equal_loop]; rewrite it_equal_at; destruct (Z.eqb_spec k l); auto.
  rewrite (H k j) by lia. destruct (g (it_at a k) (it_at b j)) as [[|]| |]; cbn [obind]; auto.
  destruct (it_inc_cases a k) as [E|E]; rewrite E; cbn [obind]; auto.
  destruct (it_inc_cases b j) as [E2|E2]; rewrite E2; cbn [obind]; auto.
  apply IH; [|lia]. intros i i' Hi Ei. apply H; lia.
Qed.

Lemma lex_loop_cong (f g : iter -> iter -> outcome bool) a b : forall fuel k l j m,
  (forall i i', k <= i < l -> j <= i' < m -> f (it_at a i) (it_at b i') = g (it_at a i) (it_at b i')) ->
  (forall i i', k <= i < l -> j <= i' < m -> f (it_at b i') (it_at a i) = g (it_at b i') (it_at a i)) -> k <= l -> j <= m ->
  lex_loop f fuel (it_at a k) (it_at a l) (it_at b j) (it_at b m) = lex_loop g fuel (it_at a k) (it_at a l) (it_at b j) (it_at b m).
Proof.
  induction fuel as [|fuel IH]; intros k l j m H H' L L'; cbn [lex_loop]; rewrite !it_equal_at; destruct (Z.eqb_spec k l), (Z.eqb_spec j m); auto.
  rewrite H by lia. destruct (g (it_at a k) (it_at b j)) as [[|]| |]; cbn [obind]; auto.
  rewrite H' by lia. destruct (g (it_at b j) (it_at a k)) as [[|]| |]; cbn [obind]; auto.
  destruct (it_inc_cases a k) as [E|E]; rewrite E; cbn [obind]; auto.
  destruct (it_inc_cases b j) as [E2|E2]; rewrite E2; cbn [obind]; auto.
  apply IH; try lia; intros i i' Hi Hi'; [apply H|apply H']; lia.
Qed.

Variable room : nat -> Z.

Lemma ends_at a b bs e es s ss : nd_ok a -> nd_base a = b :: bs -> nd_ext a = e :: es -> nd_str a = s :: ss ->
  nd_begin a = Ok (it_at a b) /\ nd_end a = Ok (it_at a (b + e)) /\ 0 <= e.
Proof.
  intros Ha Eb Ee Es. pose proof Ha as H. unfold nd_ok in H. rewrite Eb, Ee, Es in H.
  apply addressable_cons in H. destruct H as (He & Hb1 & Hb2 & _).
  split; [apply (nd_begin_at a b bs Eb)|]. split; [apply (nd_end_at a b bs e es Eb Ee); unconst; lia|lia].
Qed.

Lemma strict_copy_rows_ok (rec : obj -> obj -> M T unit) rec' chk k dst src w :
  let d := obj_nd dst in let s := obj_nd src in
  nd_ok d -> nd_ok s -> nd_ext d = nd_ext s -> length (nd_ext s) = S k -> walkable room d -> walkable room s ->
  (k <> O -> forall i j w, nd_ok (row d i) -> nd_ok (row s j) -> walkable room (row d i) -> walkable room (row s j) ->
     rec (OSub (row d i)) (OSub (row s j)) w = rec' (row d i) (row s j) w) ->
  strict_copy_rows room rec chk k dst src w = copy_rows rec' chk k d s w.
Proof.
  intros d s Hd Hs Hext Hlen Wd Ws Hrec. unfold strict_copy_rows, copy_rows.
  rewrite (bind_lift_ok s), (bind_lift_ok d) by (apply geometry_ok; auto).
  destruct (nd_ok_shape s Hs) as (b & bs & e & es & st & ss & Eb & Ee & Es & L1 & L2 & HA).
  destruct (nd_ok_shape d Hd) as (b' & bs' & e' & es' & st' & ss' & Eb' & Ee' & Es' & L1' & L2' & HA').
  rewrite Ee', Ee in Hext. injection Hext as -> ->.
  destruct (ends_at s b bs e es st ss Hs Eb Ee Es) as (B & E & He).
  destruct (ends_at d b' bs' e es st' ss' Hd Eb' Ee' Es') as (B' & _ & _).
  rewrite !(bind_lift_ok _ _ _ _ B), !(bind_lift_ok _ _ _ _ E), !(bind_lift_ok _ _ _ _ B'). apply copy_loop_cong; [|lia].
  intros i i' w' Hi Ei. rewrite Ee in Hlen. cbn [length] in Hlen.
  unfold strict_deref_n, strict_deref_one, it_deref_n, it_deref_one. rewrite !it_nd_at. cbn [it_at it_idx].
  destruct k as [|k].
  - destruct es; [|discriminate]. destruct bs; [|discriminate]. destruct ss; [|discriminate]. destruct bs'; [|discriminate]. destruct ss'; [|discriminate].
    rewrite (strict_access_one_ok room chk s i b e st), (strict_access_one_ok room chk d i' b' e st') by (auto; lia). auto.
  - assert (Hne : es <> []) by (destruct es; [discriminate|congruence]).
    destruct (strict_access_n_ok room chk s i b bs e es st ss) as [A1 A2]; auto; try lia.
    destruct (strict_access_n_ok room chk d i' b' bs' e es st' ss') as [A3 A4]; auto; try lia.
    rewrite !(bind_lift_ok _ _ _ _ A1), !(bind_lift_ok _ _ _ _ A2), !(bind_lift_ok _ _ _ _ A3), !(bind_lift_ok _ _ _ _ A4).
    apply Hrec; auto; try (apply row_ok; auto; rewrite ?Ee, ?Ee'; auto);
      try (eapply walkable_row; eauto; lia).
Qed.

Lemma strict_assign_ok chk : forall n dst src w, let d := obj_nd dst in let s := obj_nd src in
  nd_ok d -> nd_ok s -> nd_ext d = nd_ext s -> length (nd_ext s) = n -> walkable room d -> walkable room s ->
  strict_assign (T := T) room chk n dst src w = assign_nd chk n d s w.
Proof.
  induction n as [|n IH]; intros dst src w d s Hd Hs Hext Hlen Wd Ws; [auto|]. cbn [strict_assign assign_nd].
  apply bind_ext; [auto|]. intros _ w'. apply strict_copy_rows_ok; auto. intros Hn i j w2 Hi Hj Wi Wj.
  apply (IH (OSub (row d i)) (OSub (row s j))); cbn [obj_nd]; auto.
  - cbn [row nd_ext]. fold d s. now rewrite Hext.
  - cbn [row nd_ext]. fold s. destruct (nd_ext s); simpl in *; lia.
Qed.
Lemma strict_dispatch_ok chk : forall n dst src w, let d := obj_nd dst in let s := obj_nd src in
  nd_ok d -> nd_ok s -> nd_ext d = nd_ext s -> length (nd_ext s) = n -> walkable room d -> walkable room s ->
  strict_copy_dispatch (T := T) room chk n dst src w = copy_dispatch chk n d s w.
Proof.
  induction n as [|n IH]; intros dst src w d s Hd Hs Hext Hlen Wd Ws; [auto|]. cbn [strict_copy_dispatch copy_dispatch].
  apply strict_copy_rows_ok; auto. intros Hn i j w2 Hi Hj Wi Wj.
  apply (IH (OSub (row d i)) (OSub (row s j))); cbn [obj_nd]; auto.
  - cbn [row nd_ext]. fold d s. now rewrite Hext.
  - cbn [row nd_ext]. fold s. destruct (nd_ext s); simpl in *; lia.
Qed.
Lemma strict_std_copy_ok chk n dst src w : let d := obj_nd dst in let s := obj_nd src in
  nd_ok d -> nd_ok s -> nd_ext d = nd_ext s -> length (nd_ext s) = n -> walkable room d -> walkable room s ->
  strict_std_copy (T := T) room chk n dst src w = std_copy_nd chk n d s w.
Proof.
  intros d s Hd Hs Hext Hlen Wd Ws. destruct n as [|n]; [auto|]. cbn [strict_std_copy std_copy_nd].
  apply strict_copy_rows_ok; auto. intros Hn i j w2 Hi Hj Wi Wj.
  apply (strict_assign_ok chk n (OSub (row d i)) (OSub (row s j))); cbn [obj_nd]; auto.
  - cbn [row nd_ext]. fold d s. now rewrite Hext.
  - cbn [row nd_ext]. fold s. destruct (nd_ext s); simpl in *; lia.
Qed.
Lemma strict_copy_array_ok chk n dst src w : let d := obj_nd dst in let s := obj_nd src in
  nd_ok d -> nd_ok s -> nd_ext d = nd_ext s -> length (nd_ext s) = n -> walkable room d -> walkable room s ->
  strict_copy_array (T := T) room chk n dst src w = copy_array chk n d s w.
Proof.
  intros d s Hd Hs Hext Hlen Wd Ws. unfold strict_copy_array, copy_array. apply bind_ext; [auto|]. intros _ w'. apply strict_dispatch_ok; auto.
Qed.

Lemma strict_for_each_ok chk f : forall n o w, let a := obj_nd o in
  nd_ok a -> length (nd_ext a) = n -> walkable room a ->
  strict_for_each (T := T) room chk f n o w = for_each chk f n a w.
Proof.
  induction n as [|n IH]; intros o w a Ha Hlen W; [auto|]. cbn [strict_for_each for_each].
  rewrite (bind_lift_ok a) by (apply geometry_ok; auto).
  destruct (nd_ok_shape a Ha) as (b & bs & e & es & st & ss & Eb & Ee & Es & L1 & L2 & HA).
  destruct (ends_at a b bs e es st ss Ha Eb Ee Es) as (B & E & He).
  rewrite !(bind_lift_ok _ _ _ _ B), !(bind_lift_ok _ _ _ _ E). apply each_loop_cong; [|lia].
  intros i w' Hi. rewrite Ee in Hlen. cbn [length] in Hlen.
  unfold strict_deref_n, strict_deref_one, it_deref_n, it_deref_one. rewrite !it_nd_at. cbn [it_at it_idx].
  destruct n as [|n].
  - destruct es; [|discriminate]. destruct bs; [|discriminate]. destruct ss; [|discriminate].
    rewrite (strict_access_one_ok room chk a i b e st) by (auto; lia). auto.
  - assert (Hne : es <> []) by (destruct es; [discriminate|congruence]).
    destruct (strict_access_n_ok room chk a i b bs e es st ss) as [A1 A2]; auto; try lia.
    rewrite !(bind_lift_ok _ _ _ _ A1), !(bind_lift_ok _ _ _ _ A2). apply (IH (OSub (row a i))); cbn [obj_nd].
    + apply row_ok; auto. rewrite Ee. auto.
    + cbn [row nd_ext]. rewrite Ee. simpl. lia.
    + eapply walkable_row; eauto; lia.
Qed.

Variable eqT : T -> T -> bool.
Variable ltT : T -> T -> bool.

Lemma strict_eq_ok chk h : forall n oa ob, let a := obj_nd oa in let b := obj_nd ob in
  nd_ok a -> nd_ok b -> length (nd_ext a) = n -> length (nd_ext b) = n -> walkable room a -> walkable room b ->
  strict_eq room eqT chk h n oa ob = nd_eq eqT chk h n a b.
Proof.
  induction n as [|n IH]; intros oa ob a b Ha Hb La Lb Wa Wb; [auto|]. cbn [strict_eq nd_eq]. fold a b.
  destruct (list_eqb (nd_ext a) (nd_ext b)) eqn:EE; [|auto]. apply list_eqb_eq in EE.
  rewrite (geometry_ok room oa), (geometry_ok room ob) by auto. fold a b. cbn [obind].
  destruct (nd_ok_shape a Ha) as (ba & bsa & e & es & sa & ssa & Eba & Eea & Esa & L1 & L2 & HA).
  destruct (nd_ok_shape b Hb) as (bb & bsb & e' & es' & sb & ssb & Ebb & Eeb & Esb & L1' & L2' & HA').
  rewrite Eea, Eeb in EE. injection EE as <- <-.
  destruct (ends_at a ba bsa e es sa ssa Ha Eba Eea Esa) as (B & E & He).
  destruct (ends_at b bb bsb e es sb ssb Hb Ebb Eeb Esb) as (B' & _ & _).
  rewrite B, E, B'. cbn [obind]. apply equal_loop_cong; [|lia]. intros i i' Hi Ei.
  rewrite Eea in La. cbn [length] in La.
  unfold strict_deref_n, strict_deref_one, it_deref_n, it_deref_one. rewrite !it_nd_at. cbn [it_at it_idx].
  destruct n as [|n].
  - destruct es; [|discriminate]. destruct bsa; [|discriminate]. destruct ssa; [|discriminate]. destruct bsb; [|discriminate]. destruct ssb; [|discriminate].
    rewrite (strict_access_one_ok room chk a i ba e sa), (strict_access_one_ok room chk b i' bb e sb) by (auto; lia). auto.
  - assert (Hne : es <> []) by (destruct es; [discriminate|congruence]).
    destruct (strict_access_n_ok room chk a i ba bsa e es sa ssa) as [A1 A2]; auto; try lia.
    destruct (strict_access_n_ok room chk b i' bb bsb e es sb ssb) as [A3 A4]; auto; try lia.
    rewrite A1, A2, A3, A4. cbn [obind]. apply (IH (OSub (row a i)) (OSub (row b i'))); cbn [obj_nd];
      try (apply row_ok; auto; rewrite ?Eea, ?Eeb; auto); try (eapply walkable_row; eauto; lia);
      cbn [row nd_ext]; rewrite ?Eea, ?Eeb; simpl; lia.
Qed.

Lemma strict_lt_ok chk h : forall n oa ob, let a := obj_nd oa in let b := obj_nd ob in
  nd_ok a -> nd_ok b -> length (nd_ext a) = n -> length (nd_ext b) = n -> walkable room a -> walkable room b ->
  strict_lt room ltT chk h n oa ob = nd_lt ltT chk h n a b.
Proof.
  induction n as [|n IH]; intros oa ob a b Ha Hb La Lb Wa Wb; [auto|]. cbn [strict_lt nd_lt].
  rewrite (geometry_ok room oa), (geometry_ok room ob) by auto. fold a b. cbn [obind].
  destruct (nd_ok_shape a Ha) as (ba & bsa & e & es & sa & ssa & Eba & Eea & Esa & L1 & L2 & HA).
  destruct (nd_ok_shape b Hb) as (bb & bsb & e' & es' & sb & ssb & Ebb & Eeb & Esb & L1' & L2' & HA').
  destruct (ends_at a ba bsa e es sa ssa Ha Eba Eea Esa) as (B & E & He).
  destruct (ends_at b bb bsb e' es' sb ssb Hb Ebb Eeb Esb) as (B' & E' & He').
  rewrite B, E, B', E'. cbn [obind]. rewrite Eea in La. rewrite Eeb in Lb. cbn [length] in La, Lb.
  apply lex_loop_cong; try lia; intros i i' Hi Hi';
  unfold strict_deref_n, strict_deref_one, it_deref_n, it_deref_one; rewrite !it_nd_at; cbn [it_at it_idx];
  (destruct n as [|n];
  [ destruct es; [|discriminate]; destruct bsa; [|discriminate]; destruct ssa; [|discriminate]; destruct es'; [|discriminate]; destruct bsb; [|discriminate]; destruct ssb; [|discriminate];
    rewrite (strict_access_one_ok room chk a i ba e sa), (strict_access_one_ok room chk b i' bb e' sb) by (auto; lia); auto
  | assert (Hne : es <> []) by (destruct es; [discriminate|congruence]);
    assert (Hne' : es' <> []) by (destruct es'; [discriminate|congruence]);
    destruct (strict_access_n_ok room chk a i ba bsa e es sa ssa) as [A1 A2]; auto; try lia;
    destruct (strict_access_n_ok room chk b i' bb bsb e' es' sb ssb) as [A3 A4]; auto; try lia;
    rewrite A1, A2, A3, A4; cbn [obind] ]).
  - apply (IH (OSub (row a i)) (OSub (row b i'))); cbn [obj_nd];
      try (apply row_ok; auto; rewrite ?Eea, ?Eeb; auto); try (eapply walkable_row; eauto; lia);
      cbn [row nd_ext]; rewrite ?Eea, ?Eeb; simpl; lia.
  - apply (IH (OSub (row b i')) (OSub (row a i))); cbn [obj_nd];
      try (apply row_ok; auto; rewrite ?Eea, ?Eeb; auto); try (eapply walkable_row; eauto; lia);
      cbn [row nd_ext]; rewrite ?Eea, ?Eeb; simpl; lia.
Qed.

Lemma strict_compare_ok op chk h oa ob : let a := obj_nd oa in let b := obj_nd ob in
  nd_ok a -> nd_ok b -> length (nd_ext a) = length (nd_ext b) -> walkable room a -> walkable room b ->
  strict_compare room eqT ltT op chk h oa ob = compare eqT ltT op chk h a b.
Proof.
  intros a b Ha Hb L Wa Wb. unfold strict_compare, compare, nd_neq, nd_gt, nd_le, nd_ge, nd_gt. fold a.
  destruct op; rewrite ?strict_eq_ok, ?strict_lt_ok by auto; auto.
Qed.

End Loops.
