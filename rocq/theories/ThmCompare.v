(** ThmCompare.v -- C15, C16, C17 *)

From Coq Require Import ZArith List Bool Lia.
From Verif Require Import Base StorageOrder Ranges Layout Access Objects Memory Ops
  Spec ViewSpec ReachSpec IterSpec MemSpec CompareSpec
  Facts LayoutProofs AccessProofs ViewProofs MemoryProofs CopyProofs ReachProofs ThmAddressing ThmGeometry ThmIter ThmCopy ThmBulk
  CompareProofs.
Import ListNotations.
Local Open Scope Z_scope.

Lemma derived_contents {T} (h : heap T) c a : array_object c -> derived c a -> live h c ->
  exists t, contents h a (length (nd_ext a)) t.
Proof.
  intros Hc Ha Hl. pose proof (derived_ok c a Hc Ha) as Hok. apply contents_exist; auto.
  intros i Hi. apply element_at_init. apply Hl. apply (derived_cell c a); auto.
Qed.

Lemma reads_fun {T} (h : heap T) a i u v : reads h a i u -> reads h a i v -> u = v.
Proof. unfold reads. congruence. Qed.

(** * C15 *)

(** a == b iff the shapes agree and elements at equal positions (distances from
    the index bases) are equal; storage orders, index bases and kinds of array
    do not enter.  != is the negation. *)
Theorem c15_equality_is_positional : forall (T : Type) (eqT : T -> T -> bool) (h : heap T) chk c1 c2 a b,
  array_object c1 -> derived c1 a -> array_object c2 -> derived c2 b -> live h c1 -> live h c2 ->
  length (nd_ext a) = length (nd_ext b) ->
  exists r, nd_eq eqT chk h (length (nd_ext a)) a b = Ok r /\
    nd_neq eqT chk h (length (nd_ext a)) a b = Ok (negb r) /\
    (r = true <->
     nd_ext a = nd_ext b /\
     forall k, in_bounds (repeat 0 (length (nd_ext a))) (nd_ext a) k ->
       exists u v, reads h a (tadd (nd_base a) k) u /\ reads h b (tadd (nd_base b) k) v /\ eqT u v = true).
Proof.
  intros T eqT h chk c1 c2 a b H1 Ha H2 Hb L1 L2 L.
  pose proof (derived_ok c1 a H1 Ha) as Hoka. pose proof (derived_ok c2 b H2 Hb) as Hokb.
  destruct (derived_contents h c1 a H1 Ha L1) as [ta Hta]. destruct (derived_contents h c2 b H2 Hb L2) as [tb Htb].
  revert ta Hta tb Htb. rewrite <- L. intros ta Hta tb Htb.
  pose proof (nd_eq_eq eqT eqT chk h _ a b ta tb Hoka Hokb Hta Htb) as E.
  exists (list_eqb (nd_ext a) (nd_ext b) && tensor_eqb eqT (length (nd_ext a)) ta tb).
  split; [auto|]. split; [unfold nd_neq; rewrite E; reflexivity|].
  destruct Hta as (_ & Sa & Ca), Htb as (_ & Sb & Cb).
  destruct (list_eqb_dec (nd_ext a) (nd_ext b)) as [Ex|Ex].
  - rewrite <- Ex in Sb, Cb. rewrite <- Ex. rewrite list_eqb_refl, andb_true_l.
    rewrite (tensor_eqb_entries eqT _ ta tb (nd_ext a)) by auto. split.
    + intros H. split; auto. intros k Hk. destruct (Ca k Hk) as (u & Eu & Ru), (Cb k Hk) as (v & Ev & Rv).
      exists u, v. split; auto. split; auto. eapply H; eauto.
    + intros [_ H] k Hk x y Hx Hy. destruct (H k Hk) as (u & v & Ru & Rv & Euv).
      destruct (Ca k Hk) as (u' & Eu & Ru'), (Cb k Hk) as (v' & Ev & Rv').
      pose proof (reads_fun _ _ _ _ _ Ru Ru'). pose proof (reads_fun _ _ _ _ _ Rv Rv'). congruence.
  - rewrite list_eqb_neq by auto. simpl. split; [discriminate|]. intros [H _]. tauto.
Qed.

(** == is reflexive, symmetric and transitive if the element == is *)
Theorem c15_equality_is_an_equivalence : forall (T : Type) (eqT : T -> T -> bool) (h : heap T) chk c1 c2 c3 a b d,
  array_object c1 -> derived c1 a -> array_object c2 -> derived c2 b -> array_object c3 -> derived c3 d ->
  live h c1 -> live h c2 -> live h c3 ->
  let n := length (nd_ext a) in length (nd_ext b) = n -> length (nd_ext d) = n ->
  ((forall x, eqT x x = true) -> nd_eq eqT chk h n a a = Ok true) /\
  ((forall x y, eqT x y = true -> eqT y x = true) ->
   nd_eq eqT chk h n a b = Ok true -> nd_eq eqT chk h n b a = Ok true) /\
  ((forall x y z, eqT x y = true -> eqT y z = true -> eqT x z = true) ->
   nd_eq eqT chk h n a b = Ok true -> nd_eq eqT chk h n b d = Ok true -> nd_eq eqT chk h n a d = Ok true).
Proof.
  intros T eqT h chk c1 c2 c3 a b d H1 Ha H2 Hb H3 Hd L1 L2 L3 n Lb Ld.
  assert (POS : forall c1 c2 a b, array_object c1 -> derived c1 a -> array_object c2 -> derived c2 b -> live h c1 -> live h c2 ->
    length (nd_ext a) = n -> length (nd_ext b) = n ->
    (nd_eq eqT chk h n a b = Ok true <-> nd_ext a = nd_ext b /\
     forall k, in_bounds (repeat 0 (length (nd_ext a))) (nd_ext a) k ->
       exists u v, reads h a (tadd (nd_base a) k) u /\ reads h b (tadd (nd_base b) k) v /\ eqT u v = true)).
  { intros e1 e2 x y K1 Kx K2 Ky M1 M2 Lx Ly.
    destruct (c15_equality_is_positional T eqT h chk e1 e2 x y K1 Kx K2 Ky M1 M2) as (r & E & _ & R); [congruence|].
    rewrite Lx in E. rewrite E. rewrite <- R. split; [congruence|intros ->; auto]. }
  split; [|split].
  - intros Hr. apply (POS c1 c1); auto. split; auto. intros k Hk.
    destruct (derived_contents h c1 a H1 Ha L1) as (t & _ & _ & C). destruct (C k Hk) as (v & _ & Hv). exists v, v. auto.
  - intros Hs E. apply (POS c1 c2) in E; auto. apply (POS c2 c1); auto. destruct E as [Ex E]. split; auto.
    rewrite <- Ex. intros k Hk. destruct (E k Hk) as (u & v & Hu & Hv & Huv). exists v, u. auto.
  - intros Ht E1 E2. apply (POS c1 c2) in E1; auto. apply (POS c2 c3) in E2; auto. apply (POS c1 c3); auto.
    destruct E1 as [Ex1 E1], E2 as [Ex2 E2]. split; [congruence|]. intros k Hk.
    destruct (E1 k Hk) as (u & v & Hu & Hv & Huv). rewrite Ex1 in Hk. destruct (E2 k Hk) as (v' & w & Hv' & Hw & Hvw).
    exists u, w. split; auto. split; auto. pose proof (reads_fun _ _ _ _ _ Hv Hv'). subst v'. eauto.
Qed.

(** an array equals its own full-range view (zero bases), not the row-major reading of the same buffer *)
Example ex_c15 : nd_eq Z.eqb true ex_heap 2 (cr_nd ex_arr) (ND (Ptr 7 4) [2; 3] [1; -2] [0; 0]) = Ok true /\
  nd_eq Z.eqb true ex_heap 2 (cr_nd ex_arr) (ND (Ptr 7 0) [2; 3] [3; 1] [0; 0]) = Ok false /\ live ex_heap ex_arr.
Proof. split; [vm_compute; reflexivity|]. split; [vm_compute; reflexivity|]. apply ex_live. Qed.

(** * C16 *)

(** a < b compares the contents as nested lists, lexicographically at every
    level; >, <= and >= are derived from < *)
Theorem c16_less_is_nested_lexicographic : forall (T : Type) (ltT : T -> T -> bool) (h : heap T) chk c1 c2 a b,
  array_object c1 -> derived c1 a -> array_object c2 -> derived c2 b -> live h c1 -> live h c2 ->
  let n := length (nd_ext a) in length (nd_ext b) = n ->
  exists ta tb r s, contents h a n ta /\ contents h b n tb /\
    nd_lt ltT chk h n a b = Ok r /\ (r = true <-> tensor_lt ltT n ta tb) /\
    nd_lt ltT chk h n b a = Ok s /\ (s = true <-> tensor_lt ltT n tb ta) /\
    nd_gt ltT chk h n a b = Ok s /\ nd_le ltT chk h n a b = Ok (negb s) /\ nd_ge ltT chk h n a b = Ok (negb r).
Proof.
  intros T ltT h chk c1 c2 a b H1 Ha H2 Hb L1 L2 n L.
  pose proof (derived_ok c1 a H1 Ha) as Hoka. pose proof (derived_ok c2 b H2 Hb) as Hokb.
  destruct (derived_contents h c1 a H1 Ha L1) as [ta Hta]. destruct (derived_contents h c2 b H2 Hb L2) as [tb Htb].
  revert ta Hta tb Htb. fold n. rewrite L. intros ta Hta tb Htb.
  pose proof (nd_lt_eq ltT ltT chk h n a b ta tb Hoka Hokb Hta Htb) as E1.
  pose proof (nd_lt_eq ltT ltT chk h n b a tb ta Hokb Hoka Htb Hta) as E2.
  exists ta, tb, (tensor_ltb ltT n ta tb), (tensor_ltb ltT n tb ta).
  split; [auto|]. split; [auto|]. split; [auto|]. split; [apply (tensor_ltb_lt ltT ltT)|]. split; [auto|]. split; [apply (tensor_ltb_lt ltT ltT)|].
  split; [exact E2|]. split.
  - unfold nd_le, nd_gt. rewrite E2. reflexivity.
  - unfold nd_ge. rewrite E1. reflexivity.
Qed.

(** the contents of an array are unique, so the previous theorem determines < *)
Theorem c16_contents_unique : forall (T : Type) (h : heap T) a n t u,
  Forall (fun e => 0 <= e) (nd_ext a) -> contents h a n t -> contents h a n u -> t = u.
Proof.
  intros T h a n t u F (L & S1 & C1) (_ & S2 & C2).
  assert (H : forall k, in_bounds (repeat 0 (length (nd_ext a))) (nd_ext a) k -> entry n t k = entry n u k).
  { intros k Hk. destruct (C1 k Hk) as (x & Ex & Rx), (C2 k Hk) as (y & Ey & Ry).
    pose proof (reads_fun _ _ _ _ _ Rx Ry). congruence. }
  clear C1 C2. revert t u L S1 S2 H F. generalize (nd_ext a) as es. clear a h.
  induction n as [|n IH]; intros [|e es] t u L S1 S2 H F; simpl in L; try lia.
  - specialize (H [] I). cbn [entry] in H. congruence.
  - cbn [shaped] in S1, S2. destruct S1 as [L1 F1], S2 as [L2 F2].
    change (Z.of_nat (@length (tensor T n) t) = e) in L1. change (Z.of_nat (@length (tensor T n) u) = e) in L2.
    inversion F as [|? ? He Fe]; subst.
    apply (nth_error_ext (A := tensor T n)). intros i.
    destruct (@nth_error (tensor T n) t i) as [x|] eqn:Ex, (@nth_error (tensor T n) u i) as [y|] eqn:Ey; auto.
    + f_equal. rewrite Forall_forall in F1, F2. apply (IH es); eauto using nth_error_In.
      intros k Hk. assert (i < @length (tensor T n) t)%nat by (apply nth_error_Some; rewrite Ex; discriminate).
      specialize (H (Z.of_nat i :: k)). cbn [length repeat in_bounds entry] in H. rewrite Nat2Z.id in H.
      change (0 <= Z.of_nat i < 0 + Z.of_nat (@length (tensor T n) t) /\ in_bounds (repeat 0 (length es)) es k ->
        match @nth_error (tensor T n) t i with Some r => entry n r k | None => None end =
        match @nth_error (tensor T n) u i with Some r => entry n r k | None => None end) in H.
      rewrite Ex, Ey in H. apply H. split; [lia|auto].
    + apply nth_error_None in Ey. assert (i < @length (tensor T n) t)%nat by (apply nth_error_Some; rewrite Ex; discriminate). lia.
    + apply nth_error_None in Ex. assert (i < @length (tensor T n) u)%nat by (apply nth_error_Some; rewrite Ey; discriminate). lia.
Qed.

Lemma swo_bool {T} (ltT : T -> T -> bool) : strict_weak (fun x y => ltT x y = true) -> swo ltT.
Proof.
  intros (H1 & H2 & H3). assert (N : forall x y, ltT x y = false <-> ~ ltT x y = true).
  { intros x y. destruct (ltT x y); split; congruence. }
  split; [|split].
  - intros x. apply N. auto.
  - auto.
  - intros x y z. rewrite !N. apply H3.
Qed.

(** if the element < is a strict weak order, so is < on arrays of any shapes;
    <= is then total and transitive *)
Theorem c16_order_laws : forall (T : Type) (ltT : T -> T -> bool) (h : heap T) chk c1 c2 c3 a b d,
  strict_weak (fun x y => ltT x y = true) ->
  array_object c1 -> derived c1 a -> array_object c2 -> derived c2 b -> array_object c3 -> derived c3 d ->
  live h c1 -> live h c2 -> live h c3 ->
  let n := length (nd_ext a) in length (nd_ext b) = n -> length (nd_ext d) = n ->
  nd_lt ltT chk h n a a = Ok false /\
  (nd_lt ltT chk h n a b = Ok true -> nd_lt ltT chk h n b a = Ok false) /\
  (nd_lt ltT chk h n a b = Ok true -> nd_lt ltT chk h n b d = Ok true -> nd_lt ltT chk h n a d = Ok true) /\
  (nd_lt ltT chk h n a b = Ok false -> nd_lt ltT chk h n b a = Ok false ->
   nd_lt ltT chk h n b d = Ok false -> nd_lt ltT chk h n d b = Ok false ->
   nd_lt ltT chk h n a d = Ok false /\ nd_lt ltT chk h n d a = Ok false) /\
  (nd_le ltT chk h n a b = Ok true \/ nd_le ltT chk h n b a = Ok true) /\
  (nd_le ltT chk h n a b = Ok true -> nd_le ltT chk h n b d = Ok true -> nd_le ltT chk h n a d = Ok true).
Proof.
  intros T ltT h chk c1 c2 c3 a b d Hs H1 Ha H2 Hb H3 Hd L1 L2 L3 n Lb Ld.
  pose proof (derived_ok c1 a H1 Ha) as Hoka. pose proof (derived_ok c2 b H2 Hb) as Hokb. pose proof (derived_ok c3 d H3 Hd) as Hokd.
  destruct (derived_contents h c1 a H1 Ha L1) as [ta Hta]. destruct (derived_contents h c2 b H2 Hb L2) as [tb Htb].
  destruct (derived_contents h c3 d H3 Hd L3) as [td Htd].
  revert ta Hta tb Htb td Htd. fold n. rewrite Lb, Ld. intros ta Hta tb Htb td Htd.
  apply swo_bool in Hs. pose proof (swo_tensor ltT n Hs) as Sn. pose proof Sn as (I & Tr & Eq).
  rewrite (nd_lt_eq ltT ltT chk h n a a ta ta), (nd_lt_eq ltT ltT chk h n a b ta tb), (nd_lt_eq ltT ltT chk h n b a tb ta),
    (nd_lt_eq ltT ltT chk h n b d tb td), (nd_lt_eq ltT ltT chk h n d b td tb), (nd_lt_eq ltT ltT chk h n a d ta td), (nd_lt_eq ltT ltT chk h n d a td ta) by auto.
  unfold nd_le, nd_gt.
  rewrite (nd_lt_eq ltT ltT chk h n b a tb ta), (nd_lt_eq ltT ltT chk h n a b ta tb), (nd_lt_eq ltT ltT chk h n d b td tb), (nd_lt_eq ltT ltT chk h n d a td ta) by auto.
  cbn [obind].
  split; [rewrite I; auto|]. split.
  { intros E. injection E as E. rewrite (swo_asym _ Sn _ _ E). auto. }
  split.
  { intros E1 E2. injection E1 as E1. injection E2 as E2. rewrite (Tr _ _ _ E1 E2). auto. }
  split.
  { intros E1 E2 E3 E4. injection E1 as E1. injection E2 as E2. injection E3 as E3. injection E4 as E4.
    destruct (Eq ta tb td) as [F1 F2]; auto. rewrite F1, F2. auto. }
  split.
  { destruct (tensor_ltb ltT n tb ta) eqn:E1; [right|left; auto]. rewrite (swo_asym _ Sn _ _ E1). auto. }
  intros E1 E2. assert (F1 : tensor_ltb ltT n tb ta = false) by (destruct (tensor_ltb ltT n tb ta); simpl in *; congruence).
  assert (F2 : tensor_ltb ltT n td tb = false) by (destruct (tensor_ltb ltT n td tb); simpl in *; congruence).
  assert (F3 : tensor_ltb ltT n td ta = false); [|rewrite F3; auto].
  destruct (tensor_ltb ltT n td ta) eqn:F3; auto.
  destruct (tensor_ltb ltT n ta tb) eqn:F4.
  - rewrite (Tr td ta tb) in F2; auto.
  - destruct (swo_equiv_lt _ Sn ta tb td) as [_ E]; auto. congruence.
Qed.

(** the ordering of integers is a strict total order; a 2x3 array compared with
    one of its views *)
Example ex_c16 : strict_total (fun x y => Z.ltb x y = true) /\
  nd_lt Z.ltb true ex_heap 2 (v_nd ex_view) (cr_nd ex_arr) = Ok true.
Proof.
  split; [|vm_compute; reflexivity].
  assert (forall x y, Z.ltb x y = true <-> x < y) by (intros; rewrite Z.ltb_lt; tauto).
  split; [split; [|split]|]; intros *; rewrite ?H; lia.
Qed.

(** * C17 *)

(** with a strict total element order and element == being equality, if no
    extent of a except possibly the last is zero: a == b iff neither is less *)
Theorem c17_trichotomy : forall (T : Type) (eqT ltT : T -> T -> bool) (h : heap T) chk c1 c2 a b,
  strict_total (fun x y => ltT x y = true) -> (forall x y, eqT x y = true <-> x = y) ->
  array_object c1 -> derived c1 a -> array_object c2 -> derived c2 b -> live h c1 -> live h c2 ->
  let n := length (nd_ext a) in length (nd_ext b) = n ->
  Forall (fun e => 0 < e) (removelast (nd_ext a)) ->
  (nd_eq eqT chk h n a b = Ok true <->
   nd_lt ltT chk h n a b = Ok false /\ nd_lt ltT chk h n b a = Ok false).
Proof.
  intros T eqT ltT h chk c1 c2 a b [Hs Ht] HE H1 Ha H2 Hb L1 L2 n Lb Hpos.
  pose proof (derived_ok c1 a H1 Ha) as Hoka. pose proof (derived_ok c2 b H2 Hb) as Hokb.
  destruct (derived_contents h c1 a H1 Ha L1) as [ta Hta]. destruct (derived_contents h c2 b H2 Hb L2) as [tb Htb].
  revert ta Hta tb Htb. fold n. rewrite Lb. intros ta Hta tb Htb.
  rewrite (nd_eq_eq eqT eqT chk h n a b ta tb), (nd_lt_eq ltT ltT chk h n a b ta tb), (nd_lt_eq ltT ltT chk h n b a tb ta) by auto.
  apply swo_bool in Hs. pose proof (swo_tensor ltT n Hs) as (I & _ & _).
  assert (Ht' : forall x y, ltT x y = false -> ltT y x = false -> x = y).
  { intros x y E1 E2. apply Ht; congruence. }
  assert (EQ : forall m (t u : tensor T m), (forall es, shaped m t es -> shaped m u es -> length es = m -> tensor_eqb eqT m t u = true <-> t = u)).
  { clear - HE. induction m as [|m IH]; intros t u es St Su L; [apply HE|].
    destruct es as [|e es]; [discriminate|]. cbn [shaped] in St, Su. destruct St as [Lt Ft], Su as [Lu Fu].
    cbn [tensor_eqb]. simpl in L. injection L as L.
    change (Z.of_nat (@length (tensor T m) t) = e) in Lt. change (Z.of_nat (@length (tensor T m) u) = e) in Lu.
    assert (Lm : @length (tensor T m) t = @length (tensor T m) u) by lia. clear Lt Lu.
    change (list (tensor T m)) in t, u. revert u Lm Ft Fu.
    induction t as [|x t IHt]; intros [|y u] Lm Ft Fu; simpl in Lm; try lia; cbn [alleqb]; [tauto|].
    apply Forall_cons_iff in Ft, Fu. destruct Ft as [F1 F2], Fu as [F3 F4]. pose proof (IH x y es) as Exy. pose proof (IHt u) as Etu.
    destruct (tensor_eqb eqT m x y) eqn:Eb.
    - rewrite Etu by (auto; lia). assert (x = y) by (apply Exy; auto). subst. split; congruence.
    - split; [discriminate|]. intros E. injection E as E1 E2. assert (false = true) by (apply Exy; auto). discriminate. }
  assert (SH : forall m (t : tensor T m) es es', shaped m t es -> shaped m t es' -> length es = m -> length es' = m ->
     Forall (fun e => 0 < e) (removelast es) -> es = es').
  { clear. induction m as [|m IH]; intros t [|e es] [|e' es'] S1 S2 M1 M2 F; simpl in M1, M2; try lia; auto.
    cbn [shaped] in S1, S2. destruct S1 as [A1 A2], S2 as [B1 B2].
    change (Z.of_nat (@length (tensor T m) t) = e) in A1. change (Z.of_nat (@length (tensor T m) t) = e') in B1.
    assert (e = e') by lia. subst e'. assert (es = es'); [|congruence]. destruct es as [|e2 es].
    - destruct es'; simpl in *; [auto|lia].
    - change (removelast (e :: e2 :: es)) with (e :: removelast (e2 :: es)) in F. inversion F as [|? ? F1 F2]; subst.
      destruct t as [|r t]; [simpl in F1; lia|]. apply Forall_cons_iff in A2, B2. apply (IH r); tauto || lia. }
  destruct Hta as (La' & Sa & _), Htb as (Lb' & Sb & _). split.
  - intros E. injection E as E. apply andb_true_iff in E. destruct E as [E1 E2].
    destruct (list_eqb_dec (nd_ext a) (nd_ext b)) as [Ex|Ex]; [|rewrite list_eqb_neq in E1 by auto; discriminate].
    rewrite <- Ex in Sb. apply (EQ n ta tb (nd_ext a)) in E2; auto. subst tb. rewrite I. auto.
  - intros [E1 E2]. injection E1 as E1. injection E2 as E2.
    assert (ta = tb) by (apply (total_tensor ltT n Ht'); auto). subst tb.
    rewrite <- (SH n ta (nd_ext a) (nd_ext b)); auto. rewrite list_eqb_refl. simpl. f_equal.
    apply (EQ n ta ta (nd_ext a)); auto.
Qed.

(** in general a == b still implies that neither is less *)
Theorem c17_equal_not_less : forall (T : Type) (eqT ltT : T -> T -> bool) (h : heap T) chk c1 c2 a b,
  strict_weak (fun x y => ltT x y = true) -> (forall x y, eqT x y = true -> x = y) ->
  array_object c1 -> derived c1 a -> array_object c2 -> derived c2 b -> live h c1 -> live h c2 ->
  let n := length (nd_ext a) in length (nd_ext b) = n ->
  nd_eq eqT chk h n a b = Ok true ->
  nd_lt ltT chk h n a b = Ok false /\ nd_lt ltT chk h n b a = Ok false.
Proof.
  intros T eqT ltT h chk c1 c2 a b Hs HE H1 Ha H2 Hb L1 L2 n Lb Eq.
  destruct (c15_equality_is_positional T eqT h chk c1 c2 a b H1 Ha H2 Hb L1 L2) as (r & Er & _ & R); [fold n; congruence|].
  fold n in Er. rewrite Eq in Er. injection Er as <-. destruct (proj1 R eq_refl) as [Ex V]. clear R.
  pose proof (derived_ok c1 a H1 Ha) as Hoka. pose proof (derived_ok c2 b H2 Hb) as Hokb.
  destruct (derived_contents h c1 a H1 Ha L1) as [ta Hta]. revert ta Hta. fold n. intros ta Hta.
  assert (Htb : contents h b n ta).
  { destruct Hta as (A1 & A2 & A3). unfold contents. rewrite <- Ex. split; [auto|]. split; [auto|].
    intros k Hk. destruct (A3 k Hk) as (v & Ev & Rv). exists v. split; auto.
    destruct (V k Hk) as (x & y & Rx & Ry & Exy). apply HE in Exy. subst y.
    pose proof (reads_fun _ _ _ _ _ Rx Rv). congruence. }
  rewrite (nd_lt_eq ltT ltT chk h n a b ta ta), (nd_lt_eq ltT ltT chk h n b a ta ta) by auto.
  apply swo_bool in Hs. destruct (swo_tensor ltT n Hs) as (I & _). rewrite I. auto.
Qed.

(** empty arrays of different shapes: 0x3 and 0x5 are neither less, greater nor equal *)
Definition ex_empty (k : Z) : cref := CRef (Ptr 0 0) (SO [1%nat; O] [true; true]) [0; k] [k; 1] [0; 0] 0 0 0.
Theorem c17_trichotomy_refuted : exists c1 c2 (h : heap Z),
  array_object c1 /\ array_object c2 /\ live h c1 /\ live h c2 /\
  nd_lt Z.ltb true h 2 (cr_nd c1) (cr_nd c2) = Ok false /\
  nd_lt Z.ltb true h 2 (cr_nd c2) (cr_nd c1) = Ok false /\
  nd_eq Z.eqb true h 2 (cr_nd c1) (cr_nd c2) = Ok false.
Proof.
  assert (A : forall k, k = 3 \/ k = 5 -> cref_from_list true 2 (Ptr 0 0) [0; k] (SO [1%nat; O] [true; true]) = Ok (ex_empty k) -> array_object (ex_empty k)).
  { intros k Hk E. apply (ao_list true (Ptr 0 0) [0; k] (SO [1%nat; O] [true; true])); auto.
    - split; [|reflexivity]. simpl. constructor.
    - split; [reflexivity|]. split; [simpl; lia|]. split; [repeat constructor; lia|].
      destruct Hk as [-> | ->]; (split; [repeat constructor; vm_compute; discriminate|vm_compute; discriminate]). }
  exists (ex_empty 3), (ex_empty 5), [Some (Block 0 [])].
  split; [apply A; [auto|vm_compute; reflexivity]|]. split; [apply A; [auto|vm_compute; reflexivity]|].
  split; [intros p (k & Hk & _); unfold cr_num_elements in Hk; simpl in Hk; lia|].
  split; [intros p (k & Hk & _); unfold cr_num_elements in Hk; simpl in Hk; lia|].
  repeat split; vm_compute; reflexivity.
Qed.

Example ex_c17 : Forall (fun e => 0 < e) (removelast (nd_ext (cr_nd ex_arr))) /\
  nd_eq Z.eqb true ex_heap 2 (cr_nd ex_arr) (cr_nd ex_arr) = Ok true.
Proof. split; [repeat constructor|vm_compute; reflexivity]. Qed.
