(** ThmParts.v -- C63: multi_array_refs that wrap part of a buffer,
    multi_array_ref r(x.data() + off, shape, so). *)

From Coq Require Import ZArith List Bool Lia.
From Verif Require Import Base StorageOrder Ranges Layout Access Objects Memory Ops MultiArray History
  Spec Facts LayoutProofs ReachSpec HistorySpec AliasSpec AccessProofs ReachProofs MemoryProofs CopyProofs ThmCopy
  OwnSpec OwnProofs ThmAddressing ThmMultiArray HistoryProofs ThmHistory ThmAlias.
Import ListNotations.
Local Open Scope Z_scope.

(** * which elements an expression can reach *)

Lemma slices_in : forall bs es ss subs vs ws m, slices bs es ss subs vs ws m ->
  forall t, in_bounds (repeat 0 (length vs)) vs t -> in_bounds bs es (m t).
Proof.
  induction 1 as [|b bs e es s ss i subs vs ws m Hi Hmax H IH|b bs e es s ss lo hi stride subs len vs ws m start finish Hs0 Hsa Hsb Hst Hfp Hfn Hb Hiv Hlen Hsel H IH];
    intros t Ht.
  - exact Ht.
  - cbn [in_bounds]. split; auto.
  - destruct t as [|k t]; cbn [length repeat in_bounds] in Ht; [tauto|]. destruct Ht as [Hk Ht].
    cbn [in_bounds]. split; [|auto]. assert (Hs : selected start finish stride k) by (apply Hsel; lia).
    destruct Hs as [_ Hs]. destruct (Z.ltb_spec 0 stride) as [HP|HP].
    + specialize (Hfp HP). nia.
    + assert (HN : stride < 0) by lia. specialize (Hfn HN). nia.
Qed.

Lemma through_in {T} (st : @state T) r n e p : denotes st e p -> through r e -> named_is st r n ->
  pl_var p = owner n /\ forall i, in_bounds (pl_bases p) (pl_shape p) i ->
    exists i', in_bounds (pl_bases (place_of n)) (pl_shape (place_of n)) i' /\ pl_cell p i = pl_cell (place_of n) i'.
Proof.
  intros HD. induction HD as [x a Ha|k n' Hn'|e i x b bs m ns s ss g H IH Hne Hi|e subs x bs ns ss m vs ws g H IH HS Hne
    |e k x b bs m ns s ss g H IH Hne Hi|e k x b bs m ns s ss g H IH Hne Hi]; cbn [through]; intros HT Hn; try tauto.
  - subst k. assert (n' = n) by (unfold named_is in *; congruence). subst n'. split; [reflexivity|]. intros i Hi. exists i. auto.
  - destruct (IH HT Hn) as [E1 E2]. split; [exact E1|]. intros t Ht. apply E2. cbn [pl_bases pl_shape in_bounds] in *. auto.
  - destruct (IH HT Hn) as [E1 E2]. split; [exact E1|]. intros t Ht. apply E2. cbn [pl_bases pl_shape] in *. eapply slices_in; eauto.
  - destruct (IH HT Hn) as [E1 E2]. split; [exact E1|]. intros t Ht. apply E2. cbn [pl_bases pl_shape in_bounds] in *. split; [lia|auto].
  - destruct (IH HT Hn) as [E1 E2]. split; [exact E1|]. intros t Ht. apply E2. cbn [pl_bases pl_shape in_bounds] in *. split; [lia|auto].
Qed.

(** a ref in a reachable state *)
Lemma ref_geometry {T} (st : @state T) en h r x off b s so : related st en h -> named_is st r (ARef x off b s so) ->
  0 <= off /\ order_ok (length s) so /\ layout_ok so b s /\ exists a, array_is st x a /\ off + prod s <= Z.of_nat (length (a_elems a)).
Proof.
  intros HR Hn. destruct (named_eval st en h r _ HR Hn) as ([v|c] & _ & Hd); cbn [hrel] in Hd; [tauto|].
  destruct Hd as (m & Em & Hc & (H0 & _ & HL) & <- & <- & <-). pose proof (array_object_ok c Hc) as (Ho & Hr & _ & _ & En).
  destruct (relA_var_inv _ _ _ _ _ (proj1 HR) Em) as (a & Ea & (Hw & _)).
  split; [auto|]. split; [auto|]. split; [auto|]. exists a. split; [auto|].
  destruct Hw as (_ & _ & _ & _ & Hl & _). unfold cr_num_elements in HL at 1. rewrite En in HL. lia.
Qed.

Lemma ref_cells {T} (st : @state T) en h r x off b s so i : related st en h -> named_is st r (ARef x off b s so) ->
  in_bounds b s i ->
  let k := position (so_ordering so) (so_ascending so) b s i in
  0 <= k < prod s /\ Z.of_nat (pl_cell (place_of (ARef x off b s so)) i) = off + k.
Proof.
  intros HR Hn Hi k. destruct (ref_geometry _ _ _ _ _ _ _ _ _ HR Hn) as (H0 & Ho & _).
  assert (HB : 0 <= k < prod s) by (apply position_bound; auto). split; [auto|].
  cbn [place_of arranged_from pl_cell]. fold k. rewrite Z2Nat.id; lia.
Qed.

(** * nothing outside the wrapped part changes *)

Definition spared {T} (x : nat) (lo hi : Z) (st st' : @state T) : Prop :=
  (forall y, y <> x -> nth_error (s_arrays st') y = nth_error (s_arrays st) y) /\
  forall a, array_is st x a -> exists a', array_is st' x a' /\
    a_shape a' = a_shape a /\ a_bases a' = a_bases a /\ a_order a' = a_order a /\ a_alloc a' = a_alloc a /\
    forall k, ~ lo <= Z.of_nat k < hi -> nth_error (a_elems a') k = nth_error (a_elems a) k.

Lemma spared_same {T} x lo hi (st st' : @state T) : s_arrays st' = s_arrays st -> spared x lo hi st st'.
Proof. intros E. split; [intros; congruence|]. intros a Ha. exists a. unfold array_is in *. rewrite E. auto 10. Qed.

Lemma spared_trans {T} x lo hi (st st1 st2 : @state T) : spared x lo hi st st1 -> spared x lo hi st1 st2 -> spared x lo hi st st2.
Proof.
  intros [A1 B1] [A2 B2]. split; [intros y Hy; rewrite A2, A1; auto|].
  intros a Ha. destruct (B1 a Ha) as (a1 & Ha1 & E1 & E2 & E3 & E4 & E5). destruct (B2 a1 Ha1) as (a2 & Ha2 & F1 & F2 & F3 & F4 & F5).
  exists a2. split; [auto|]. split; [congruence|]. split; [congruence|]. split; [congruence|]. split; [congruence|].
  intros k Hk. rewrite F5, E5; auto.
Qed.

Lemma spared_put {T} x lo hi (st : @state T) p i v st' : put st p i v st' -> pl_var p = x ->
  (forall i, in_bounds (pl_bases p) (pl_shape p) i -> lo <= Z.of_nat (pl_cell p i) < hi) -> spared x lo hi st st' /\ s_named st' = s_named st.
Proof.
  intros (Hi & a & Ha & ->) Hx HC. subst x. specialize (HC i Hi).
  assert (LA : (pl_var p < length (s_arrays st))%nat) by (apply nth_error_Some; unfold array_is in Ha; congruence).
  split; [|reflexivity]. split.
  - intros y Hy. unfold set_array. cbn [s_arrays]. apply nth_error_set_nth_ne. auto.
  - intros a0 Ha0. assert (a0 = a) by (unfold array_is in *; congruence). subst a0.
    exists (a_set a (pl_cell p i) v). split; [unfold array_is, set_array; cbn [s_arrays]; apply nth_error_set_nth_eq; auto|].
    cbn [a_set a_shape a_bases a_order a_alloc a_elems]. repeat (split; [reflexivity|]).
    intros k Hk. apply nth_error_set_nth_ne. intros E. apply Hk. rewrite <- ?E in HC. rewrite ?E in HC. exact HC.
Qed.

Lemma spared_copies {T} x lo hi (pd ps : place) : pl_var pd = x ->
  (forall i, in_bounds (pl_bases pd) (pl_shape pd) i -> lo <= Z.of_nat (pl_cell pd i) < hi) ->
  forall ks (st st' : @state T), copies pd ps ks st st' -> spared x lo hi st st' /\ s_named st' = s_named st.
Proof.
  intros Hx HC ks st st'. induction 1 as [st|k ks st st1 st2 v HL HP H IH]; [split; [apply spared_same|]; reflexivity|].
  destruct (spared_put x lo hi _ _ _ _ _ HP Hx HC) as [A B]. destruct IH as [C D]. split; [eapply spared_trans; eauto|congruence].
Qed.

Lemma spared_mapped {T} x lo hi (p : place) (f : T -> T) : pl_var p = x ->
  (forall i, in_bounds (pl_bases p) (pl_shape p) i -> lo <= Z.of_nat (pl_cell p i) < hi) ->
  forall ks (st st' : @state T), mapped p f ks st st' -> spared x lo hi st st' /\ s_named st' = s_named st.
Proof.
  intros Hx HC ks st st'. induction 1 as [st|k ks st st1 st2 v HL HP H IH]; [split; [apply spared_same|]; reflexivity|].
  destruct (spared_put x lo hi _ _ _ _ _ HP Hx HC) as [A B]. destruct IH as [C D]. split; [eapply spared_trans; eauto|congruence].
Qed.

Lemma spared_fill {T} x off n (st : @state T) a l : array_is st x a -> 0 <= off -> 0 <= n -> off + n <= Z.of_nat (length (a_elems a)) ->
  spared x off (off + n) st (set_array st x (filled_from a (Z.to_nat off) (Z.to_nat n) l)).
Proof.
  intros Ha H0 Hn HL.
  assert (LA : (x < length (s_arrays st))%nat) by (apply nth_error_Some; unfold array_is in Ha; congruence).
  split.
  - intros y Hy. unfold set_array. cbn [s_arrays]. apply nth_error_set_nth_ne. auto.
  - intros a0 Ha0. assert (a0 = a) by (unfold array_is in *; congruence). subst a0.
    exists (filled_from a (Z.to_nat off) (Z.to_nat n) l). split; [unfold array_is, set_array; cbn [s_arrays]; apply nth_error_set_nth_eq; auto|].
    cbn [filled_from a_shape a_bases a_order a_alloc a_elems]. repeat (split; [reflexivity|]).
    intros k Hk. set (o := Z.to_nat off). set (es := a_elems a) in *.
    assert (L1 : length (firstn o es) = o) by (rewrite firstn_length; unfold o; lia).
    assert (L2 : length (firstn (Z.to_nat n) l) = Nat.min (Z.to_nat n) (length l)) by apply firstn_length.
    destruct (Nat.lt_ge_cases k o) as [Hlt|Hge].
    + rewrite nth_error_app1 by lia. rewrite <- (firstn_skipn o es) at 2. rewrite nth_error_app1 by lia. reflexivity.
    + assert (HK : off + n <= Z.of_nat k) by (unfold o in Hge; lia).
      assert (HK' : (o + Z.to_nat n <= k)%nat) by (unfold o; lia).
      rewrite nth_error_app2 by lia. rewrite L1. rewrite nth_error_app2 by lia.
      rewrite L2. set (d := (o + Nat.min (Z.to_nat n) (length l))%nat).
      assert (Hd : (d <= k)%nat) by (unfold d; lia).
      rewrite <- (firstn_skipn d es) at 2. assert (L3 : length (firstn d es) = d) by (rewrite firstn_length; unfold d; unfold o in L1 |- *; lia).
      rewrite nth_error_app2 by lia. rewrite L3. f_equal. unfold d. lia.
Qed.

Section Parts.
Context {T : Type}.
Variable dflt : T.
Variable eqT : T -> T -> bool.
Variable ltT : T -> T -> bool.

Lemma through_part (st : @state T) en h r x off b s so e p : related st en h -> named_is st r (ARef x off b s so) ->
  denotes st e p -> through r e -> pl_var p = x /\
  forall i, in_bounds (pl_bases p) (pl_shape p) i -> off <= Z.of_nat (pl_cell p i) < off + prod s.
Proof.
  intros HR Hn HD HT. destruct (through_in st r _ e p HD HT Hn) as [E1 E2]. split; [exact E1|].
  intros i Hi. destruct (E2 i Hi) as (i' & Hi' & ->). destruct (ref_cells _ _ _ _ _ _ _ _ _ i' HR Hn Hi') as [A ->]. lia.
Qed.

Lemma step_spares st en h r x off b s so c o st' : related st en h -> named_is st r (ARef x off b s so) ->
  step dflt eqT ltT st c o st' -> only_through r c ->
  spared x off (off + prod s) st st' /\ exists b' s', named_is st' r (ARef x off b' s' so) /\ prod s' = prod s.
Proof.
  intros HR Hn HS HT.
  assert (Keep : forall st1 : @state T, s_named st1 = s_named st -> exists b' s', named_is st1 r (ARef x off b' s' so) /\ prod s' = prod s).
  { intros st1 E. exists b, s. split; [|reflexivity]. unfold named_is in *. rewrite E. exact Hn. }
  assert (Rn : (r < length (s_named st))%nat) by (apply nth_error_Some; unfold named_is in Hn; congruence).
  assert (Same : forall n, named_is st r n -> n = ARef x off b s so) by (intros n Hk; unfold named_is in *; congruence).
  destruct HS as
    [n aid Hn0|shape so0 aid HW|rs so0 aid HW|y a Ha|e so0 aid p a Hp E1 E2 E3 E4 HW HC|e subs p Hp
    |y off0 shape so0 a Ha Hoff Ho Hl HP|y off0 rs so0 a Ha Hoff Ho Hl HP|y a Ha|k n Hk|y a Ha
    |dst src pd ps st' Hd Hs HC|x0 y px py st' Hd Hs HC|dst src pd ps st' Hd Hs HC
    |e i p v Hp HL|e i v p st' Hp HP|e i p v Hp HL|e i v p st' Hp HP
    |y l a Ha|k l y off0 bases shape so0 a Hk Ha|e fn p st' Hp HM
    |y bases a Ha L a' HW|y b0 a Ha a' HW|y shape a Ha L a' HW
    |k bases p Hk HA|k bases y off0 bases0 shape so0 Hk HA|k b0 p Hk bases HA|k b0 y off0 bases0 shape so0 Hk HA|k shape y off0 bases shape0 so0 Hk L HA HP
    |y rs a a' Ha Hrs|y shape a a' Ha Hrs|op a0 b0 pa pb r0 Ha Hb L Hr|q e p Hp]; cbn [only_through] in HT; try tauto.
  - split; [apply spared_same; reflexivity|]. exists b, s. split; [apply named_before; auto|auto].
  - split; [apply spared_same; reflexivity|]. exists b, s. split; [apply named_before; auto|auto].
  - destruct (through_part _ _ _ _ _ _ _ _ _ _ _ HR Hn Hd HT) as [V B].
    destruct (spared_copies _ _ _ pd ps V B _ _ _ (proj2 HC)) as [X Y]. auto.
  - destruct (through_part _ _ _ _ _ _ _ _ _ _ _ HR Hn Hd HT) as [V B].
    destruct (spared_copies _ _ _ pd ps V B _ _ _ (proj2 HC)) as [X Y]. auto.
  - split; [apply spared_same; reflexivity|auto].
  - destruct (through_part _ _ _ _ _ _ _ _ _ _ _ HR Hn Hp HT) as [V B]. destruct (spared_put _ _ _ _ _ _ _ _ HP V B) as [X Y]. auto.
  - split; [apply spared_same; reflexivity|auto].
  - destruct (through_part _ _ _ _ _ _ _ _ _ _ _ HR Hn Hp HT) as [V B]. destruct (spared_put _ _ _ _ _ _ _ _ HP V B) as [X Y]. auto.
  - subst k. pose proof (Same _ Hk) as E. injection E as -> -> -> -> ->. split; [|auto].
    destruct (ref_geometry _ _ _ _ _ _ _ _ _ HR Hn) as (H0 & _ & Hl & a1 & Ha1 & HL).
    assert (a1 = a) by (unfold array_is in *; congruence). subst a1.
    apply spared_fill; auto. apply prod_nonneg. eapply rep_nonneg. exact Hl.
  - destruct (through_part _ _ _ _ _ _ _ _ _ _ _ HR Hn Hp HT) as [V B]. destruct (spared_mapped _ _ _ _ _ V B _ _ _ HM) as [X Y]. auto.
  - subst k. pose proof (Same _ Hk). discriminate.
  - subst k. pose proof (Same _ Hk) as E. injection E as -> -> -> -> ->. split; [apply spared_same; reflexivity|].
    exists bases, s. split; [|auto]. unfold named_is, set_named. cbn [s_named]. apply nth_error_set_nth_eq. auto.
  - subst k. pose proof (Same _ Hk). discriminate.
  - subst k. pose proof (Same _ Hk) as E. injection E as -> -> -> -> ->. split; [apply spared_same; reflexivity|].
    eexists _, s. split; [|reflexivity]. unfold named_is, set_named. cbn [s_named]. apply nth_error_set_nth_eq. auto.
  - subst k. pose proof (Same _ Hk) as E. injection E as -> -> -> -> ->. split; [apply spared_same; reflexivity|].
    exists b, shape. split; [|auto]. unfold named_is, set_named. cbn [s_named]. apply nth_error_set_nth_eq. auto.
  - split; [apply spared_same; reflexivity|auto].
  - split; [apply spared_same; reflexivity|auto].
Qed.

Lemma steps_spare r x off so : forall q st os st', steps dflt eqT ltT st q os st' -> forall en h b s,
  related st en h -> named_is st r (ARef x off b s so) -> (forall c, In c q -> only_through r c) ->
  spared x off (off + prod s) st st'.
Proof.
  intros q st os st'. induction 1 as [|st c o st1 q os st2 Hst Hsts IHs]; intros en h b s HR Hn HQ; [apply spared_same; reflexivity|].
  destruct (step_spares st en h r x off b s so c o st1 HR Hn Hst (HQ c (or_introl eq_refl))) as (A & b' & s' & Hn' & E).
  assert (H1 : steps dflt eqT ltT st [c] [o] st1) by (econstructor; [exact Hst|constructor]).
  destruct (run_sound dflt eqT ltT true [c] st [o] st1 en h HR H1) as (en1 & h1 & _ & HR1 & _).
  eapply spared_trans; [exact A|]. rewrite <- E. eapply IHs; eauto. intros c' Hc'. apply HQ. right. auto.
Qed.
End Parts.

Lemma look_spared {T} (st st' : @state T) x lo hi p j u : spared x lo hi st st' -> look st p j u ->
  (pl_var p <> x \/ ~ lo <= Z.of_nat (pl_cell p j) < hi) -> look st' p j u.
Proof.
  intros [A B] (Hj & a & Ha & E) Hout. split; [auto|]. destruct (Nat.eq_dec (pl_var p) x) as [Ex|Hne].
  - rewrite Ex in *. destruct (B a Ha) as (a' & Ha' & _ & _ & _ & _ & F). exists a'. split; [auto|]. rewrite F; [auto|]. tauto.
  - exists a. split; [|auto]. unfold array_is in *. rewrite A; auto.
Qed.

(** * the theorems *)

(** two multi_array_refs over the same buffer share element i of the one with
    element j of the other exactly if both lie the same number of elements from the
    start of the buffer: a write through the first is read through the second then,
    and only then *)
Theorem c63_refs_share_by_position : forall (T : Type) (dflt : T) eqT ltT chk p os st r1 x off1 b1 s1 so1 r2 y off2 b2 s2 so2 i j v,
  steps dflt eqT ltT empty_state p os st ->
  named_is st r1 (ARef x off1 b1 s1 so1) -> named_is st r2 (ARef y off2 b2 s2 so2) ->
  in_bounds b1 s1 i -> in_bounds b2 s2 j ->
  let at1 := off1 + position (so_ordering so1) (so_ascending so1) b1 s1 i in
  let at2 := off2 + position (so_ordering so2) (so_ascending so2) b2 s2 j in
  (x = y /\ at1 = at2 ->
     gives dflt eqT ltT chk (p ++ [Set_ (Named r1) i v; Get (Named r2) j]) (os ++ [ONone; OVal v])) /\
  (x <> y \/ at1 <> at2 -> exists u,
     gives dflt eqT ltT chk (p ++ [Get (Named r2) j]) (os ++ [OVal u]) /\
     gives dflt eqT ltT chk (p ++ [Set_ (Named r1) i v; Get (Named r2) j]) (os ++ [ONone; OVal u])).
Proof.
  intros T dflt eqT ltT chk p os st r1 x off1 b1 s1 so1 r2 y off2 b2 s2 so2 i j v HS H1 H2 Hi Hj at1 at2.
  destruct (steps_related dflt eqT ltT p os st HS) as (en & h & HR).
  destruct (ref_cells _ _ _ _ _ _ _ _ _ i HR H1 Hi) as [A1 C1]. destruct (ref_cells _ _ _ _ _ _ _ _ _ j HR H2 Hj) as [A2 C2].
  pose proof (dn_named st r1 _ H1) as D1. pose proof (dn_named st r2 _ H2) as D2.
  destruct (c60_writes_are_seen T dflt eqT ltT chk p os st _ _ i v _ _ j HS D1 D2 Hi Hj) as [X Y]. split.
  - intros [E1 E2]. apply X. split; [exact E1|]. apply Nat2Z.inj. rewrite C1, C2. exact E2.
  - intros HN. apply Y. intros [E1 E2]. cbn [place_of arranged_from pl_var] in E1.
    assert (E3 : at1 = at2) by (unfold at1, at2; rewrite <- C1, <- C2, E2; reflexivity). tauto.
Qed.

(** a multi_array_ref of n elements made off elements into the storage of x stands
    for exactly the elements off .. off+n-1 of that storage, each once *)
Theorem c63_part_exact : forall (T : Type) (dflt : T) eqT ltT chk p os st r x off b s so a j,
  steps dflt eqT ltT empty_state p os st -> named_is st r (ARef x off b s so) -> array_is st x a ->
  in_bounds (a_bases a) (a_shape a) j ->
  let k := position (so_ordering (a_order a)) (so_ascending (a_order a)) (a_bases a) (a_shape a) j in
  (off <= k < off + prod s ->
     exists i, in_bounds b s i /\
       (forall v, gives dflt eqT ltT chk (p ++ [Set_ (Named r) i v; Get (Var x) j]) (os ++ [ONone; OVal v])) /\
       (forall v, gives dflt eqT ltT chk (p ++ [Set_ (Var x) j v; Get (Named r) i]) (os ++ [ONone; OVal v])) /\
       forall i', in_bounds b s i' -> i' <> i -> exists u, gives dflt eqT ltT chk (p ++ [Get (Var x) j]) (os ++ [OVal u]) /\
         forall v, gives dflt eqT ltT chk (p ++ [Set_ (Named r) i' v; Get (Var x) j]) (os ++ [ONone; OVal u])) /\
  (~ off <= k < off + prod s ->
     exists u, gives dflt eqT ltT chk (p ++ [Get (Var x) j]) (os ++ [OVal u]) /\
     forall i v, in_bounds b s i -> gives dflt eqT ltT chk (p ++ [Set_ (Named r) i v; Get (Var x) j]) (os ++ [ONone; OVal u])).
Proof.
  intros T dflt eqT ltT chk p os st r x off b s so a j HS Hr Hx Hj k.
  destruct (steps_related dflt eqT ltT p os st HS) as (en & h & HR).
  destruct (ref_geometry _ _ _ _ _ _ _ _ _ HR Hr) as (H0 & Ho & Hl & _).
  destruct (relA_var _ _ _ _ _ (proj1 HR) Hx) as (m & Em & (Hw & G1 & G2 & G3 & _)).
  pose proof (array_object_ok _ (proj1 Hw)) as (Hov & _). rewrite G1, G3 in Hov.
  assert (Hk : 0 <= k < prod (a_shape a)) by (apply position_bound; auto).
  pose proof (dn_named st r _ Hr) as D1. pose proof (dn_var st x a Hx) as D2.
  destruct (denotes_nd st en h true _ _ HR D2) as (d2 & _ & Hd2).
  destruct (get_look st en h d2 _ j HR Hd2 Hj) as (u & HL & _).
  assert (Hu : gives dflt eqT ltT chk (p ++ [Get (Var x) j]) (os ++ [OVal u])).
  { eapply steps_gives, steps_app; [eauto|]. econstructor; [eapply s_get; eauto|constructor]. }
  assert (CJ : Z.of_nat (pl_cell (arranged x (a_bases a) (a_shape a) (a_order a)) j) = k).
  { cbn [arranged pl_cell]. fold k. rewrite Z2Nat.id; lia. }
  assert (OTHER : forall i', in_bounds b s i' -> off + position (so_ordering so) (so_ascending so) b s i' <> k ->
    forall v, gives dflt eqT ltT chk (p ++ [Set_ (Named r) i' v; Get (Var x) j]) (os ++ [ONone; OVal u])).
  { intros i' Hi' HN v. destruct (ref_cells _ _ _ _ _ _ _ _ _ i' HR Hr Hi') as [_ C1].
    destruct (write_read dflt eqT ltT st en h _ _ i' v _ _ j HR D1 D2 Hi' Hj) as (u' & st' & HL' & _ & B).
    assert (u' = u) by (eapply look_fun; eauto). subst u'.
    eapply steps_gives, steps_app; [eauto|]. apply B. intros [_ E]. apply HN. rewrite <- C1, E. exact CJ. }
  split.
  - intros Hin. destruct (position_surj (so_ordering so) (so_ascending so) b s (k - off)) as (i & Hi & Ei); auto.
    { pose proof (rep_lengths _ _ _ Hl). auto. } { eapply rep_nonneg. exact Hl. } { lia. }
    exists i. split; [auto|]. destruct (ref_cells _ _ _ _ _ _ _ _ _ i HR Hr Hi) as [_ C1].
    assert (SE : pl_cell (place_of (ARef x off b s so)) i = pl_cell (arranged x (a_bases a) (a_shape a) (a_order a)) j).
    { apply Nat2Z.inj. rewrite C1, CJ. lia. }
    split; [|split].
    + intros v. apply (c60_writes_are_seen T dflt eqT ltT chk p os st _ _ i v _ _ j HS D1 D2 Hi Hj). split; [reflexivity|exact SE].
    + intros v. apply (c60_writes_are_seen T dflt eqT ltT chk p os st _ _ j v _ _ i HS D2 D1 Hj Hi). split; [reflexivity|symmetry; exact SE].
    + intros i' Hi' Hne. exists u. split; [auto|]. intros v. apply OTHER; auto.
      intros E. apply Hne. apply (position_inj (so_ordering so) (so_ascending so) b s); auto. rewrite Ei. lia.
  - intros Hout. exists u. split; [auto|]. intros i v Hi. apply OTHER; auto.
    destruct (ref_cells _ _ _ _ _ _ _ _ _ i HR Hr Hi) as [C0 _]. lia.
Qed.

(** whatever is done through one ref (writes, assign, =, for_each through it, its
    rows and views, reindex and reshape of it), all an expression that starts from a
    ref to another part of the buffer (or to another buffer) sees stays the same *)
Theorem c63_disjoint_parts_are_independent : forall (T : Type) (dflt : T) eqT ltT chk p os st r1 x off1 b1 s1 so1 r2 y off2 b2 s2 so2 q os' st' e e_place j,
  steps dflt eqT ltT empty_state p os st ->
  named_is st r1 (ARef x off1 b1 s1 so1) -> named_is st r2 (ARef y off2 b2 s2 so2) -> r1 <> r2 ->
  x <> y \/ off1 + prod s1 <= off2 \/ off2 + prod s2 <= off1 ->
  steps dflt eqT ltT st q os' st' -> (forall c, In c q -> only_through r1 c) ->
  through r2 e -> denotes st e e_place -> in_bounds (pl_bases e_place) (pl_shape e_place) j ->
  exists u, gives dflt eqT ltT chk (p ++ [Get e j]) (os ++ [OVal u]) /\
            gives dflt eqT ltT chk (p ++ q ++ [Get e j]) (os ++ os' ++ [OVal u]).
Proof.
  intros T dflt eqT ltT chk p os st r1 x off1 b1 s1 so1 r2 y off2 b2 s2 so2 q os' st' e ep j HS H1 H2 Hne HD HQ HT He Hden Hj.
  destruct (steps_related dflt eqT ltT p os st HS) as (en & h & HR).
  pose proof (steps_spare dflt eqT ltT r1 x off1 so1 q st os' st' HQ en h b1 s1 HR H1 HT) as HSp.
  destruct (denotes_nd st en h true _ _ HR Hden) as (d & _ & Hd). destruct (get_look st en h d ep j HR Hd Hj) as (u & HL & _).
  destruct (through_part st en h r2 y off2 b2 s2 so2 e ep HR H2 Hden He) as [V B]. specialize (B j Hj).
  assert (HL' : look st' ep j u).
  { eapply look_spared; eauto. rewrite V. destruct (Nat.eq_dec y x) as [->|Hxy]; [right; lia|left; auto]. }
  assert (K : named_is st' r2 (ARef y off2 b2 s2 so2)).
  { eapply steps_keep_name; [exact HQ|exact H2|]. intros c Hc. specialize (HT c Hc).
    destruct c; cbn [only_through ends regeometrizes] in *; try tauto; split; try tauto; congruence. }
  assert (HD' : denotes st' e ep).
  { clear - Hden He H2 K. induction Hden; cbn [through] in He; try tauto.
    - subst h. assert (n = ARef y off2 b2 s2 so2) by (unfold named_is in *; congruence). subst n. constructor. exact K.
    - econstructor; eauto. - econstructor; eauto. - econstructor; eauto. - econstructor; eauto. }
  exists u. split.
  - eapply steps_gives, steps_app; [eauto|]. econstructor; [eapply s_get; eauto|constructor].
  - eapply steps_gives, steps_app; [eauto|]. eapply steps_app; [eauto|]. econstructor; [eapply s_get; eauto|constructor].
Qed.

(** the library cannot know how long the buffer is: a ref that is longer than the
    rest of the buffer is made without complaint, in checked builds too, and
    reading an element of it beyond the buffer is undefined behaviour although the
    index is in range *)
Theorem c63_overlong_ref_refuted : forall (T : Type) (dflt : T) eqT ltT chk p os st x a off shape so i,
  steps dflt eqT ltT empty_state p os st -> array_is st x a ->
  order_ok (length shape) so -> layout_ok so (repeat 0 (length shape)) shape ->
  in_bounds (repeat 0 (length shape)) shape i ->
  ~ 0 <= off + position (so_ordering so) (so_ascending so) (repeat 0 (length shape)) shape i < prod (a_shape a) ->
  let r := length (s_named st) in
  gives dflt eqT ltT chk (p ++ [NewRefList x off shape so]) (os ++ [ONone]) /\
  run dflt eqT ltT chk (Env [] []) (p ++ [NewRefList x off shape so; Get (Named r) i]) (World [] None) = Undef.
Proof.
  intros T dflt eqT ltT chk p os st x a off shape so i HS Hx Ho Hl Hi Hout r.
  destruct (run_sound dflt eqT ltT chk p empty_state os st (Env [] []) [] related_nil HS) as (en & h & E & HR & _).
  destruct (relA_var _ _ _ _ _ (proj1 HR) Hx) as (m & Em & (Hw & G1 & G2 & G3 & _)).
  destruct (from_list_ok chk (padd (cr_data (ma_ref m)) off) shape so Ho Hl) as (c & Ec & Hok & E0 & E1 & E2 & E3).
  assert (EX : forall w, exec dflt eqT ltT chk en (NewRefList x off shape so) w = Done (name en (HRef c), ONone) w).
  { intros w. cbn [exec]. rewrite (bind_lift_ok _ _ _ _ (var_eval _ _ _ Em)). rewrite (bind_lift_ok _ _ _ _ Ec). reflexivity. }
  split.
  - exists (name en (HRef c)), h. rewrite (run_app _ _ _ _ _ _ _ _ _ _ _ E). cbn [run]. unfold bind at 1. rewrite EX. reflexivity.
  - rewrite (run_app _ _ _ _ _ _ _ _ _ _ _ E). cbn [run]. unfold bind at 1. rewrite EX. cbn [fst snd].
    unfold bind at 1. unfold bind at 1.
    assert (EV : eval_nd chk (name en (HRef c)) (Named r) = Ok (cr_nd c)).
    { unfold eval_nd. cbn [eval]. unfold named, name. cbn [e_handles]. unfold r.
      rewrite (proj1 (proj2 HR)). rewrite nth_error_app2, Nat.sub_diag by lia. reflexivity. }
    cbn [exec]. rewrite (bind_lift_ok _ _ _ _ EV). unfold bind at 1.
    assert (Hnd : nd_ok (cr_nd c)) by (apply cref_addressable; exact Hok).
    rewrite get_element_eq by (auto; cbn [cr_nd nd_base nd_ext]; rewrite E2, E3; auto).
    rewrite cref_addr by (auto; rewrite E2; apply in_bounds_length in Hi; tauto).
    unfold load. cbn [w_heap]. pose proof (self_lies _ _ _ Hw) as (_ & Ed & _).
    rewrite E0, Ed, padd_padd. unfold padd. cbn [p_blk p_off].
    unfold pos_of. rewrite E1, E2, E3. set (k := off + _) in *.
    unfold hread, hcell. cbn [p_blk p_off]. destruct Hw as (Hao & _ & _ & _ & HL & Hb). unfold hblock. rewrite Hb. cbn [b_cells].
    assert (HN : Z.of_nat (length (a_elems a)) = prod (a_shape a)).
    { rewrite HL. unfold cr_num_elements. rewrite (proj2 (proj2 (proj2 (proj2 (array_object_ok _ Hao))))), G1. reflexivity. }
    replace (0 + k) with k by lia. destruct (Z.ltb_spec k 0) as [Hneg|Hpos]; [reflexivity|].
    rewrite (proj2 (nth_error_None _ _)); [reflexivity|]. rewrite map_length. lia.
Qed.

(** * a concrete case: a buffer of six elements, wrapped by two vectors of two and
      four elements and by one of three elements that overlaps both *)
Definition ex_parts_p : list (@command Z) :=
  [ NewList [2; 3] (so_from_c 2) 7; NewRefList 0 0 [2] (so_from_c 1); NewRefList 0 2 [4] (so_from_c 1); NewRefList 0 1 [3] (so_from_c 1) ].
Definition ex_parts_st (l : list Z) : @state Z :=
  St [Some (Arr [2; 3] [0; 0] (so_from_c 2) 7%nat l)]
     [Some (ARef 0 0 [0] [2] (so_from_c 1)); Some (ARef 0 2 [0] [4] (so_from_c 1)); Some (ARef 0 1 [0] [3] (so_from_c 1))].

Lemma ex_vector_ok n : n = 2 \/ n = 3 \/ n = 4 -> layout_ok (so_from_c 1) [0] [n].
Proof. intros [-> | [-> | ->]]; change (so_from_c 1) with (SO [0%nat] [true]); layout_tac. Qed.

Example ex_c63_before : steps 0 Z.eqb Z.ltb empty_state ex_parts_p [ONone; ONone; ONone; ONone] (ex_parts_st [0; 0; 0; 0; 0; 0]).
Proof.
  unfold ex_parts_p.
  eapply ss_cons; [apply s_list; apply ex_well_formed|].
  change (add_array _ _) with (ex_st [0; 0; 0; 0; 0; 0]).
  eapply ss_cons; [eapply s_ref_list; [reflexivity|lia|apply (proj1 (c02_named_orders_valid 1))|apply ex_vector_ok; lia|vm_compute; congruence]|].
  eapply ss_cons; [eapply s_ref_list; [reflexivity|lia|apply (proj1 (c02_named_orders_valid 1))|apply ex_vector_ok; lia|vm_compute; congruence]|].
  eapply ss_cons; [eapply s_ref_list; [reflexivity|lia|apply (proj1 (c02_named_orders_valid 1))|apply ex_vector_ok; lia|vm_compute; congruence]|].
  apply ss_nil.
Qed.

Example ex_c63 :
  named_is (ex_parts_st [0; 0; 0; 0; 0; 0]) 0 (ARef 0 0 [0] [2] (so_from_c 1)) /\
  named_is (ex_parts_st [0; 0; 0; 0; 0; 0]) 1 (ARef 0 2 [0] [4] (so_from_c 1)) /\
  (0 + prod [2] <= 2) /\
  steps 0 Z.eqb Z.ltb (ex_parts_st [0; 0; 0; 0; 0; 0]) [FillRef 0 [5; 6; 7]; ReindexNamed 0 [3]] [ONone; ONone]
    (St [Some (Arr [2; 3] [0; 0] (so_from_c 2) 7%nat [5; 6; 0; 0; 0; 0])]
     [Some (ARef 0 0 [3] [2] (so_from_c 1)); Some (ARef 0 2 [0] [4] (so_from_c 1)); Some (ARef 0 1 [0] [3] (so_from_c 1))]) /\
  (forall c, In c [@FillRef Z 0 [5; 6; 7]; ReindexNamed 0 [3]] -> only_through 0 c) /\
  through 1 (Named 1) /\
  denotes (ex_parts_st [0; 0; 0; 0; 0; 0]) (Named 1) (place_of (ARef 0 2 [0] [4] (so_from_c 1))).
Proof.
  split; [reflexivity|]. split; [reflexivity|]. split; [vm_compute; congruence|]. split; [|split; [|split; [reflexivity|apply dn_named; reflexivity]]].
  - eapply ss_cons; [eapply s_fill_ref; reflexivity|].
    eapply ss_cons; [eapply s_reindex_ref; [reflexivity|]|apply ss_nil].
    change (so_from_c 1) with (SO [0%nat] [true]). layout_tac.
  - intros c [<-|[<-|[]]]; reflexivity.
Qed.

(** the same computed by the model: three values given to a ref of two elements, a
    write through the overlapping ref; and a ref that is too long *)
Example ex_c63_run :
  (exists en h, run 0 Z.eqb Z.ltb true (Env [] []) (ex_parts_p ++
     [ FillRef 1 [1; 2; 3; 4; 5]; FillRef 0 [5; 6; 7]; Set_ (Named 2) [1] 9; Get (Named 1) [0]; Get (Named 0) [1]; Get (Var 0) [0; 2];
       ForEach (Named 2) (fun v => v + 10); Get (Named 0) [0]; Get (Named 0) [1]; Get (Named 1) [1]; Get (Named 1) [2] ]) (World [] None) =
   Done (en, [ONone; ONone; ONone; ONone; ONone; ONone; ONone; OVal 9; OVal 6; OVal 9; ONone; OVal 5; OVal 16; OVal 12; OVal 3]) (World h None)) /\
  run 0 Z.eqb Z.ltb true (Env [] []) [NewList [2; 3] (so_from_c 2) 7; NewRefList 0 4 [3] (so_from_c 1); Get (Named 0) [2]] (World [] None) = Undef.
Proof. split; [do 2 eexists; vm_compute; reflexivity|vm_compute; reflexivity]. Qed.
