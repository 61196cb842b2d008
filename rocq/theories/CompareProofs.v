(** CompareProofs.v -- comparison of arrays is comparison of nested lists *)

From Coq Require Import ZArith List Bool Lia.
From Verif Require Import Base StorageOrder Ranges Layout Access Objects Memory Ops
  Spec ViewSpec ReachSpec IterSpec MemSpec CompareSpec
  Facts LayoutProofs AccessProofs ViewProofs MemoryProofs CopyProofs ReachProofs ThmAddressing ThmGeometry ThmIter ThmCopy ThmBulk.
Import ListNotations.
Local Open Scope Z_scope.

(** * lists *)

Fixpoint lexb {A} (lt : A -> A -> bool) (l m : list A) : bool :=
  match l, m with
  | [], [] => false
  | [], _ :: _ => true
  | _ :: _, [] => false
  | x :: l', y :: m' => if lt x y then true else if lt y x then false else lexb lt l' m'
  end.
Fixpoint alleqb {A} (eq : A -> A -> bool) (l m : list A) : bool :=
  match l, m with
  | [], _ => true
  | x :: l', y :: m' => if eq x y then alleqb eq l' m' else false
  | _ :: _, [] => false
  end.

Lemma lexb_lex {A} (ltb : A -> A -> bool) (lt : A -> A -> Prop) : (forall x y, ltb x y = true <-> lt x y) ->
  forall l m, lexb ltb l m = true <-> lex lt l m.
Proof.
  intros Hlt. assert (Hn : forall x y, ltb x y = false <-> ~ lt x y).
  { intros x y. rewrite <- Hlt. destruct (ltb x y); split; congruence. }
  induction l as [|x l IH]; intros [|y m]; simpl.
  - split; [discriminate|]. intros (k & H1 & H2 & _ & [[_ H]|(x & y & E & _)]); simpl in *; [lia|destruct k; discriminate].
  - split; [|auto]. intros _. exists O. simpl. repeat split; try lia; try (left; lia). all: intros; lia.
  - split; [discriminate|]. intros (k & H1 & H2 & _ & [[E H]|(u & v & _ & E & _)]); simpl in *; [lia|destruct k; discriminate].
  - destruct (ltb x y) eqn:E1.
    { split; auto. intros _. exists O. simpl. split; [lia|]. split; [lia|]. split; [intros; lia|].
      right. exists x, y. split; auto. split; auto. apply Hlt; auto. }
    destruct (ltb y x) eqn:E2.
    { split; [discriminate|]. intros (k & H1 & H2 & H3 & H4). destruct k as [|k].
      - destruct H4 as [[E _]|(u & v & Eu & Ev & Hu)]; [discriminate|]. injection Eu as ->. injection Ev as ->.
        apply Hlt in Hu. congruence.
      - destruct (H3 O x y) as [_ Hc]; [lia|auto|auto|]. apply Hlt in E2. tauto. }
    rewrite IH. split.
    + intros (k & H1 & H2 & H3 & H4). exists (S k). simpl. split; [lia|]. split; [lia|]. split.
      * intros [|j] u v Hj Eu Ev; simpl in *.
        { injection Eu as <-. injection Ev as <-. split; apply Hn; auto. }
        { apply (H3 j); auto. lia. }
      * destruct H4 as [[E H4]|H4]; [left; lia|right; auto].
    + intros (k & H1 & H2 & H3 & H4). destruct k as [|k].
      * destruct H4 as [[E _]|(u & v & Eu & Ev & Hu)]; [discriminate|]. injection Eu as ->. injection Ev as ->.
        apply Hlt in Hu. congruence.
      * exists k. simpl in *. split; [lia|]. split; [lia|]. split.
        { intros j u v Hj Eu Ev. apply (H3 (S j)); auto. lia. }
        { destruct H4 as [[E H4]|H4]; [left; lia|right; auto]. }
Qed.

Section Swo.
Context {A : Type}.
Variable lt : A -> A -> bool.
Definition swo : Prop := (forall x, lt x x = false) /\
  (forall x y z, lt x y = true -> lt y z = true -> lt x z = true) /\
  (forall x y z, lt x y = false -> lt y x = false -> lt y z = false -> lt z y = false -> lt x z = false /\ lt z x = false).

Lemma swo_asym : swo -> forall x y, lt x y = true -> lt y x = false.
Proof. intros (H1 & H2 & _) x y H. destruct (lt y x) eqn:E; auto. rewrite <- (H1 x). apply eq_sym, (H2 x y x); auto. Qed.
Lemma swo_equiv_lt : swo -> forall x y z, lt x y = false -> lt y x = false -> lt x z = lt y z /\ lt z x = lt z y.
Proof.
  intros Hs x y z E1 E2. pose proof Hs as (H1 & H2 & H3).
  assert (F : forall x y z, lt x y = false -> lt y x = false -> lt x z = true -> lt y z = true).
  { clear x y z E1 E2. intros x y z E1 E2 E. destruct (lt y z) eqn:E3; auto.
    destruct (lt z y) eqn:E4.
    - rewrite (H2 x z y) in E1; auto.
    - destruct (H3 x y z); auto. congruence. }
  assert (G : forall x y z, lt x y = false -> lt y x = false -> lt z x = true -> lt z y = true).
  { clear x y z E1 E2 F. intros x y z E1 E2 E. destruct (lt z y) eqn:E3; auto.
    destruct (lt y z) eqn:E4.
    - rewrite (H2 y z x) in E2; auto.
    - destruct (H3 x y z); auto. congruence. }
  split.
  - destruct (lt x z) eqn:A1, (lt y z) eqn:A2; auto.
    + rewrite (F x y z) in A2; auto.
    + rewrite (F y x z) in A1; auto.
  - destruct (lt z x) eqn:A1, (lt z y) eqn:A2; auto.
    + rewrite (G x y z) in A2; auto.
    + rewrite (G y x z) in A1; auto.
Qed.
End Swo.

Lemma swo_lexb {A} (lt : A -> A -> bool) : swo lt -> swo (lexb lt).
Proof.
  intros Hs. pose proof Hs as (H1 & H2 & H3). split; [|split].
  - induction x as [|x l IH]; simpl; auto. rewrite H1. auto.
  - induction x as [|x l IH]; intros [|y m] [|z r]; simpl; try discriminate; auto.
    destruct (lt x y) eqn:Exy.
    + intros _. destruct (lt y z) eqn:Eyz.
      * rewrite (H2 x y z) by auto. auto.
      * destruct (lt z y) eqn:Ezy; [discriminate|]. destruct (swo_equiv_lt lt Hs y z x) as [_ E]; auto.
        rewrite <- E, Exy. auto.
    + destruct (lt y x) eqn:Eyx; [discriminate|]. destruct (swo_equiv_lt lt Hs x y z) as [E E']; auto.
      rewrite E, E'. intros Hl. destruct (lt y z); auto. destruct (lt z y); [discriminate|]. apply IH; auto.
  - induction x as [|x l IH]; intros [|y m] [|z r]; simpl; try discriminate; auto.
    destruct (lt x y) eqn:Exy; [discriminate|]. destruct (lt y x) eqn:Eyx; [discriminate|].
    destruct (swo_equiv_lt lt Hs x y z) as [E E']; auto. rewrite E, E'.
    intros Hl Hm. destruct (lt y z) eqn:Eyz; [discriminate|]. destruct (lt z y) eqn:Ezy; [discriminate|].
    apply IH; auto.
Qed.

Lemma total_lexb {A} (lt : A -> A -> bool) : (forall x y, lt x y = false -> lt y x = false -> x = y) ->
  forall l m, lexb lt l m = false -> lexb lt m l = false -> l = m.
Proof.
  intros H. induction l as [|x l IH]; intros [|y m]; simpl; try discriminate; auto.
  destruct (lt x y) eqn:E1; [discriminate|]. destruct (lt y x) eqn:E2; [discriminate|].
  intros H1 H2. rewrite (H x y), (IH m); auto.
Qed.

(** * tensors *)

Section Tensors.
Context {T : Type}.
Variable eqT ltT : T -> T -> bool.

Fixpoint tensor_ltb (n : nat) : tensor T n -> tensor T n -> bool :=
  match n with O => ltT | S k => lexb (tensor_ltb k) end.
Fixpoint tensor_eqb (n : nat) : tensor T n -> tensor T n -> bool :=
  match n with O => eqT | S k => alleqb (tensor_eqb k) end.

Lemma tensor_ltb_lt n : forall t u, tensor_ltb n t u = true <-> tensor_lt ltT n t u.
Proof. induction n as [|n IH]; intros t u; simpl; [tauto|]. apply lexb_lex. auto. Qed.

Lemma swo_tensor n : swo ltT -> swo (tensor_ltb n).
Proof. intros H. induction n as [|n IH]; simpl; auto. apply swo_lexb; auto. Qed.
Lemma total_tensor n : (forall x y, ltT x y = false -> ltT y x = false -> x = y) ->
  forall t u, tensor_ltb n t u = false -> tensor_ltb n u t = false -> t = u.
Proof. intros H. induction n as [|n IH]; simpl; auto. apply total_lexb; auto. Qed.

(** rows of contents *)
Lemma contents_row (h : heap T) a n t : nd_ok a -> contents h a (S (S n)) t ->
  forall b e k r, hd_error (nd_base a) = Some b -> hd_error (nd_ext a) = Some e ->
  nth_error t k = Some r -> contents h (row a (b + Z.of_nat k)) (S n) r.
Proof.
  intros Ha (Hn & Hs & Hc) b e k r Hb He Hr.
  destruct (nd_ok_shape a Ha) as (b' & bs & e' & es & s & ss & Eb & Ee & Es & L1 & L2 & _).
  rewrite Eb in Hb. rewrite Ee in He. injection Hb as ->. injection He as ->.
  rewrite Ee in Hs, Hc. cbn [shaped] in Hs. destruct Hs as [Hl Hf].
  assert (Hk : (k < length t)%nat) by (apply nth_error_Some; congruence).
  assert (Hsr : shaped (S n) r es).
  { rewrite Forall_forall in Hf. apply Hf. eapply nth_error_In; eauto. }
  assert (Hne : es <> []) by (cbn [shaped] in Hsr; destruct es; [tauto|congruence]).
  split; [|split].
  - unfold row. cbn [nd_ext]. rewrite Ee in *. simpl in *. lia.
  - unfold row. cbn [nd_ext]. rewrite Ee. exact Hsr.
  - unfold row at 1 2. cbn [nd_ext]. rewrite Ee. cbn [tl]. intros ks Hks.
    destruct (Hc (Z.of_nat k :: ks)) as (v & Ev & Hv).
    { cbn [length repeat in_bounds]. split; [lia|auto]. }
    exists v. cbn [entry] in Ev. rewrite Nat2Z.id, Hr in Ev. split; [exact Ev|].
    assert (Hro : nd_ok (row a (b + Z.of_nat k))) by (apply row_ok; auto; rewrite Ee; auto).
    assert (B1 : in_bounds (nd_base a) (nd_ext a) (tadd (nd_base a) (Z.of_nat k :: ks))).
    { apply tadd_in_bounds; [|rewrite Eb, Ee; simpl; lia]. rewrite Ee. cbn [length repeat in_bounds]. split; [lia|auto]. }
    rewrite Eb in B1 at 2. cbn [tadd] in B1. rewrite Eb in B1 at 1. rewrite Ee in B1. cbn [in_bounds] in B1.
    apply reads_iff; auto.
    { unfold row. cbn [nd_base nd_ext]. rewrite Eb, Ee. cbn [tl]. tauto. }
    apply reads_iff in Hv; auto.
    2:{ rewrite Eb, Ee. cbn [tadd in_bounds]. tauto. }
    rewrite <- Hv. f_equal. rewrite Eb. cbn [tadd]. unfold addr, row. cbn [nd_org nd_str nd_base]. rewrite Es, Eb.
    cbn [hd tl dot]. rewrite padd_padd. reflexivity.
Qed.

Lemma contents_elem (h : heap T) a t : nd_ok a -> contents h a 1 t ->
  forall b e s k v, nd_base a = [b] -> nd_ext a = [e] -> nd_str a = [s] -> nth_error t k = Some v ->
  hread h (padd (nd_org a) ((b + Z.of_nat k) * s)) = Ok v.
Proof.
  intros Ha (Hn & Hs & Hc) b e s k v Eb Ee Es Hv. rewrite Ee in Hs. cbn [shaped] in Hs. destruct Hs as [Hl _].
  assert (Hk : (k < length t)%nat) by (apply nth_error_Some; congruence).
  destruct (Hc [Z.of_nat k]) as (u & Eu & Hu).
  { rewrite Ee. simpl. lia. }
  cbn [entry] in Eu. rewrite Nat2Z.id, Hv in Eu. injection Eu as <-.
  rewrite Eb in Hu. cbn [tadd] in Hu. apply reads_iff in Hu; auto.
  2:{ rewrite Eb, Ee. simpl. lia. }
  apply hread_init. rewrite <- Hu. f_equal. unfold addr. rewrite Es. cbn [dot]. f_equal. lia.
Qed.

(** * the loops *)

Lemma equal_loop_eq {A} (body : iter -> iter -> outcome bool) (eqb : A -> A -> bool) a b : forall m l j k fuel,
  length l = length m -> (length l <= fuel)%nat ->
  idx_min <= j -> j + Z.of_nat (length l) <= idx_max -> idx_min <= k -> k + Z.of_nat (length l) <= idx_max ->
  (forall i x y, nth_error l i = Some x -> nth_error m i = Some y ->
     body (it_at a (j + Z.of_nat i)) (it_at b (k + Z.of_nat i)) = Ok (eqb x y)) ->
  equal_loop body fuel (it_at a j) (it_at a (j + Z.of_nat (length l))) (it_at b k) = Ok (alleqb eqb l m).
Proof.
  induction m as [|y m IH]; intros [|x l] j k fuel L Hf H1 H2 H3 H4 Hb; simpl in L; try lia.
  - simpl length. destruct fuel; simpl; rewrite it_equal_at; destruct (Z.eqb_spec j (j + 0)); auto; lia.
  - cbn [length] in *. destruct fuel as [|fuel]; [lia|]. cbn [equal_loop alleqb]. rewrite it_equal_at.
    destruct (Z.eqb_spec j (j + Z.of_nat (S (length l)))); [lia|].
    pose proof (Hb O x y eq_refl eq_refl) as E0. simpl Z.of_nat in E0. rewrite !Z.add_0_r in E0. rewrite E0. cbn [obind].
    destruct (eqb x y); auto. rewrite (it_inc_at a j), (it_inc_at b k) by lia. cbn [obind].
    replace (j + Z.of_nat (S (length l))) with ((j + 1) + Z.of_nat (length l)) by lia.
    apply IH; try lia. intros i u v Hu Hv. specialize (Hb (S i) u v Hu Hv).
    replace (j + 1 + Z.of_nat i) with (j + Z.of_nat (S i)) by lia.
    replace (k + 1 + Z.of_nat i) with (k + Z.of_nat (S i)) by lia. auto.
Qed.

Lemma lex_loop_eq {A} (less : iter -> iter -> outcome bool) (ltb : A -> A -> bool) a b : forall l m j k fuel,
  (length l <= fuel)%nat ->
  idx_min <= j -> j + Z.of_nat (length l) <= idx_max -> idx_min <= k -> k + Z.of_nat (length m) <= idx_max ->
  (forall i x y, nth_error l i = Some x -> nth_error m i = Some y ->
     less (it_at a (j + Z.of_nat i)) (it_at b (k + Z.of_nat i)) = Ok (ltb x y) /\
     less (it_at b (k + Z.of_nat i)) (it_at a (j + Z.of_nat i)) = Ok (ltb y x)) ->
  lex_loop less fuel (it_at a j) (it_at a (j + Z.of_nat (length l))) (it_at b k) (it_at b (k + Z.of_nat (length m)))
  = Ok (lexb ltb l m).
Proof.
  induction l as [|x l IH]; intros m j k fuel Hf H1 H2 H3 H4 Hb.
  - assert (E : forall f, lex_loop less f (it_at a j) (it_at a (j + Z.of_nat 0)) (it_at b k) (it_at b (k + Z.of_nat (length m)))
      = Ok (negb (k =? k + Z.of_nat (length m)))).
    { intros [|f]; cbn [lex_loop]; rewrite !it_equal_at; destruct (Z.eqb_spec j (j + Z.of_nat 0)); auto; lia. }
    simpl length. rewrite E. destruct (Z.eqb_spec k (k + Z.of_nat (length m))); destruct m; simpl in *; auto; lia.
  - cbn [length] in *. destruct fuel as [|fuel]; [lia|]. cbn [lex_loop]. rewrite !it_equal_at.
    destruct (Z.eqb_spec j (j + Z.of_nat (S (length l)))); [lia|].
    destruct m as [|y m].
    { simpl. destruct (Z.eqb_spec k (k + 0)); auto; lia. }
    cbn [length] in *. destruct (Z.eqb_spec k (k + Z.of_nat (S (length m)))); [lia|]. cbn [lexb].
    pose proof (Hb O x y eq_refl eq_refl) as [E0 E1]. simpl Z.of_nat in E0, E1. rewrite !Z.add_0_r in E0, E1.
    rewrite E0. cbn [obind]. destruct (ltb x y); auto. rewrite E1. cbn [obind]. destruct (ltb y x); auto.
    rewrite (it_inc_at a j), (it_inc_at b k) by lia. cbn [obind].
    replace (j + Z.of_nat (S (length l))) with ((j + 1) + Z.of_nat (length l)) by lia.
    replace (k + Z.of_nat (S (length m))) with ((k + 1) + Z.of_nat (length m)) by lia.
    apply IH; try lia. intros i u v Hu Hv. specialize (Hb (S i) u v Hu Hv).
    replace (j + 1 + Z.of_nat i) with (j + Z.of_nat (S i)) by lia.
    replace (k + 1 + Z.of_nat i) with (k + Z.of_nat (S i)) by lia. auto.
Qed.

(** * operator== and operator< *)

Lemma nd_eq_eq chk (h : heap T) : forall n a b ta tb, nd_ok a -> nd_ok b ->
  contents h a n ta -> contents h b n tb ->
  nd_eq eqT chk h n a b = Ok (list_eqb (nd_ext a) (nd_ext b) && tensor_eqb n ta tb).
Proof.
  induction n as [|n IH]; intros a b ta tb Ha Hb Hca Hcb.
  { destruct Hca as [Hl _]. pose proof Ha as (_ & _ & H & _). lia. }
  cbn [nd_eq]. destruct (list_eqb (nd_ext a) (nd_ext b)) eqn:El; [|reflexivity]. rewrite andb_true_l.
  assert (Ex : nd_ext a = nd_ext b).
  { destruct (list_eqb_dec (nd_ext a) (nd_ext b)) as [|Hne]; auto. rewrite list_eqb_neq in El by auto. discriminate. }
  destruct (dims_at a Ha) as (ba & bas & ea & eas & Eba & Eea & Hea & Hba & Hbea & Fa & Ga).
  destruct (dims_at b Hb) as (bb & bbs & eb & ebs & Ebb & Eeb & Heb & Hbb & Hbeb & Fb & Gb).
  rewrite Fa, Ga, Fb. cbn [obind].
  pose proof Hca as (Lna & Hsa & _). pose proof Hcb as (Lnb & Hsb & _).
  rewrite Eea in Hsa, Lna. rewrite Eeb in Hsb, Lnb. cbn [shaped] in Hsa, Hsb. destruct Hsa as [Hla _], Hsb as [Hlb _].
  change (Z.of_nat (@length (tensor T n) ta) = ea) in Hla. change (Z.of_nat (@length (tensor T n) tb) = eb) in Hlb.
  rewrite Eea, Eeb in Ex. injection Ex as Ex1 Ex2.
  unfold loop_fuel, it_at at 1 2. cbn [it_idx]. replace (ba + ea - ba) with ea by lia.
  rewrite <- Hla.
  apply (equal_loop_eq _ (tensor_eqb n) a b tb ta); try (unconst; lia).
  intros i x y Hx Hy.
  assert (Hi : (i < @length (tensor T n) ta)%nat) by (apply nth_error_Some; rewrite Hx; discriminate).
  destruct n as [|n].
  - destruct (nd_ok_shape a Ha) as (b1 & bs1 & e1 & es1 & s1 & ss1 & E1 & E2 & Es1 & L1 & L1' & _).
    destruct (nd_ok_shape b Hb) as (b2 & bs2 & e2 & es2 & s2 & ss2 & E3 & E4 & Es2 & L2 & L2' & _).
    rewrite Eba in E1. rewrite Eea in E2. rewrite Ebb in E3. rewrite Eeb in E4.
    injection E1 as <- <-. injection E2 as <- <-. injection E3 as <- <-. injection E4 as <- <-.
    destruct eas; [|discriminate]. destruct ebs; [|discriminate].
    destruct bas, bbs, ss1, ss2; simpl in L1, L1', L2, L2'; try lia.
    unfold it_deref_one. rewrite !it_nd_at. cbn [it_idx it_at].
    rewrite (access_one_ok chk _ a ba ea s1) by (auto; lia). rewrite (access_one_ok chk _ b bb eb s2) by (auto; lia).
    cbn [obind].
    rewrite (contents_elem h a ta Ha Hca ba ea s1 i x) by auto.
    rewrite (contents_elem h b tb Hb Hcb bb eb s2 i y) by auto. reflexivity.
  - unfold it_deref_n. rewrite !it_nd_at. cbn [it_idx it_at].
    assert (1 < length (nd_ext a))%nat by (rewrite Eea; simpl in *; lia).
    assert (1 < length (nd_ext b))%nat by (rewrite Eeb; simpl in *; lia).
    rewrite (access_n_row chk a _ Ha) with (b := ba) (e := ea); auto; [|rewrite Eba; auto|rewrite Eea; auto|lia].
    rewrite (access_n_row chk b _ Hb) with (b := bb) (e := eb); auto; [|rewrite Ebb; auto|rewrite Eeb; auto|lia].
    cbn [obind].
    rewrite (IH _ _ x y).
    + unfold row. cbn [nd_ext]. rewrite Eea, Eeb. cbn [tl]. rewrite Ex2, list_eqb_refl. reflexivity.
    + apply row_ok; auto. rewrite Eea. simpl in *. destruct eas; simpl in *; [lia|congruence].
    + apply row_ok; auto. rewrite Eeb. simpl in *. destruct ebs; simpl in *; [lia|congruence].
    + apply (contents_row h a n ta Ha Hca ba ea); auto; rewrite ?Eba, ?Eea; auto.
    + apply (contents_row h b n tb Hb Hcb bb eb); auto; rewrite ?Ebb, ?Eeb; auto.
Qed.

Lemma nd_lt_eq chk (h : heap T) : forall n a b ta tb, nd_ok a -> nd_ok b ->
  contents h a n ta -> contents h b n tb ->
  nd_lt ltT chk h n a b = Ok (tensor_ltb n ta tb).
Proof.
  induction n as [|n IH]; intros a b ta tb Ha Hb Hca Hcb.
  { destruct Hca as [Hl _]. pose proof Ha as (_ & _ & H & _). lia. }
  cbn [nd_lt].
  destruct (dims_at a Ha) as (ba & bas & ea & eas & Eba & Eea & Hea & Hba & Hbea & Fa & Ga).
  destruct (dims_at b Hb) as (bb & bbs & eb & ebs & Ebb & Eeb & Heb & Hbb & Hbeb & Fb & Gb).
  rewrite Fa, Ga, Fb, Gb. cbn [obind].
  pose proof Hca as (Lna & Hsa & _). pose proof Hcb as (Lnb & Hsb & _).
  rewrite Eea in Hsa, Lna. rewrite Eeb in Hsb, Lnb. cbn [shaped] in Hsa, Hsb. destruct Hsa as [Hla _], Hsb as [Hlb _].
  change (Z.of_nat (@length (tensor T n) ta) = ea) in Hla. change (Z.of_nat (@length (tensor T n) tb) = eb) in Hlb.
  unfold loop_fuel, it_at at 1 2. cbn [it_idx]. replace (ba + ea - ba) with ea by lia.
  rewrite <- Hla, <- Hlb.
  apply (lex_loop_eq _ (tensor_ltb n) a b ta tb); try (unconst; lia).
  intros i x y Hx Hy.
  assert (Hi : (i < @length (tensor T n) ta)%nat) by (apply nth_error_Some; rewrite Hx; discriminate).
  assert (Hj : (i < @length (tensor T n) tb)%nat) by (apply nth_error_Some; rewrite Hy; discriminate).
  destruct n as [|n].
  - destruct (nd_ok_shape a Ha) as (b1 & bs1 & e1 & es1 & s1 & ss1 & E1 & E2 & Es1 & L1 & L1' & _).
    destruct (nd_ok_shape b Hb) as (b2 & bs2 & e2 & es2 & s2 & ss2 & E3 & E4 & Es2 & L2 & L2' & _).
    rewrite Eba in E1. rewrite Eea in E2. rewrite Ebb in E3. rewrite Eeb in E4.
    injection E1 as <- <-. injection E2 as <- <-. injection E3 as <- <-. injection E4 as <- <-.
    destruct eas; [|discriminate]. destruct ebs; [|discriminate].
    destruct bas, bbs, ss1, ss2; simpl in L1, L1', L2, L2'; try lia.
    unfold it_deref_one. rewrite !it_nd_at. cbn [it_idx it_at].
    rewrite (access_one_ok chk _ a ba ea s1) by (auto; lia). rewrite (access_one_ok chk _ b bb eb s2) by (auto; lia).
    cbn [obind].
    rewrite (contents_elem h a ta Ha Hca ba ea s1 i x) by auto.
    rewrite (contents_elem h b tb Hb Hcb bb eb s2 i y) by auto. split; reflexivity.
  - unfold it_deref_n. rewrite !it_nd_at. cbn [it_idx it_at].
    assert (1 < length (nd_ext a))%nat by (rewrite Eea; simpl in *; lia).
    assert (1 < length (nd_ext b))%nat by (rewrite Eeb; simpl in *; lia).
    rewrite (access_n_row chk a _ Ha) with (b := ba) (e := ea); auto; [|rewrite Eba; auto|rewrite Eea; auto|lia].
    rewrite (access_n_row chk b _ Hb) with (b := bb) (e := eb); auto; [|rewrite Ebb; auto|rewrite Eeb; auto|lia].
    cbn [obind].
    assert (nd_ok (row a (ba + Z.of_nat i))) by (apply row_ok; auto; rewrite Eea; simpl in *; destruct eas; simpl in *; [lia|congruence]).
    assert (nd_ok (row b (bb + Z.of_nat i))) by (apply row_ok; auto; rewrite Eeb; simpl in *; destruct ebs; simpl in *; [lia|congruence]).
    assert (contents h (row a (ba + Z.of_nat i)) (S n) x) by (apply (contents_row h a n ta Ha Hca ba ea); auto; rewrite ?Eba, ?Eea; auto).
    assert (contents h (row b (bb + Z.of_nat i)) (S n) y) by (apply (contents_row h b n tb Hb Hcb bb eb); auto; rewrite ?Ebb, ?Eeb; auto).
    split; apply IH; auto.
Qed.

End Tensors.

(** contents exist *)
Lemma list_choice {A B} (P : A -> B -> Prop) l : (forall x, In x l -> exists y, P x y) -> exists m, Forall2 P l m.
Proof.
  induction l as [|x l IH]; intros H; [exists []; constructor|].
  destruct (H x (or_introl eq_refl)) as [y Hy]. destruct IH as [m Hm]; [intros; apply H; right; auto|].
  exists (y :: m). constructor; auto.
Qed.
Lemma Forall2_nth {A B} (P : A -> B -> Prop) l m : Forall2 P l m -> forall i x, nth_error l i = Some x ->
  exists y, nth_error m i = Some y /\ P x y.
Proof.
  induction 1 as [|x y l m H HF IH]; intros [|i] u Hu; simpl in *; try discriminate; eauto.
  injection Hu as <-. eauto.
Qed.

Lemma tensor_choice {T} n : forall es (R : list Z -> T -> Prop), length es = n -> Forall (fun e => 0 <= e) es ->
  (forall k, in_bounds (repeat 0 (length es)) es k -> exists v, R k v) ->
  exists t : tensor T n, shaped n t es /\
    forall k, in_bounds (repeat 0 (length es)) es k -> exists v, entry n t k = Some v /\ R k v.
Proof.
  induction n as [|n IH]; intros [|e es] R L F H; simpl in L; try lia.
  - destruct (H []) as [v Hv]; [simpl; auto|]. exists v. split; [reflexivity|].
    intros [|? ?] B; [|destruct B]. exists v. split; auto.
  - inversion F as [|? ? He Fe]; subst.
    destruct (list_choice (fun i (r : tensor T n) => shaped n r es /\
      forall k, in_bounds (repeat 0 (length es)) es k -> exists v, entry n r k = Some v /\ R (i :: k) v) (zseq 0 (Z.to_nat e)))
      as [m Hm].
    { intros i Hi. apply in_zseq in Hi. apply (IH es (fun k => R (i :: k))); auto.
      intros k Hk. apply H. cbn [length repeat in_bounds]. split; [lia|auto]. }
    exists m. split.
    + cbn [shaped]. split.
      * apply Forall2_length in Hm. rewrite length_zseq in Hm. change (Z.of_nat (@length (tensor T n) m) = e). lia.
      * clear - Hm. induction Hm; constructor; tauto.
    + intros [|i k] B; cbn [length repeat in_bounds] in B; [tauto|]. destruct B as [B1 B2].
      destruct (Forall2_nth _ _ _ Hm (Z.to_nat i) i) as (r & Er & _ & Hr).
      { unfold zseq. rewrite nth_error_map. rewrite nth_error_nth' with (d := O) by (rewrite seq_length; lia).
        cbn [option_map]. rewrite seq_nth by lia. f_equal. lia. }
      destruct (Hr k B2) as (v & Ev & Rv). exists v. split; auto. cbn [entry].
      change (match @nth_error (tensor T n) m (Z.to_nat i) with Some r => entry n r k | None => None end = Some v). rewrite Er. auto.
Qed.

Lemma contents_exist {T} (h : heap T) a : nd_ok a -> (forall i, in_bounds (nd_base a) (nd_ext a) i -> init h (addr a i)) ->
  exists t, contents h a (length (nd_ext a)) t.
Proof.
  intros Ha Hi. pose proof Ha as (L & _ & _ & F & _).
  destruct (tensor_choice (length (nd_ext a)) (nd_ext a) (fun k v => reads h a (tadd (nd_base a) k) v)) as (t & Ht & He); auto.
  - rewrite Forall_forall in *. intros x Hx. apply F in Hx. lia.
  - intros k Hk. assert (B : in_bounds (nd_base a) (nd_ext a) (tadd (nd_base a) k)) by (apply tadd_in_bounds; auto).
    destruct (Hi _ B) as [v Hv]. exists v. apply reads_iff; auto.
  - exists t. split; auto.
Qed.

(** tensors of a shape are determined by their entries *)
Lemma tensor_eqb_entries {T} (eqT : T -> T -> bool) n : forall (t u : tensor T n) es, length es = n -> shaped n t es -> shaped n u es ->
  (tensor_eqb eqT n t u = true <->
   forall k, in_bounds (repeat 0 (length es)) es k -> forall x y, entry n t k = Some x -> entry n u k = Some y -> eqT x y = true).
Proof.
  induction n as [|n IH]; intros t u es L Ht Hu.
  - destruct es; [|discriminate]. cbn [tensor_eqb entry]. split.
    + intros E [|? ?] B x y; [|destruct B]. intros Ex Ey. injection Ex as <-. injection Ey as <-. auto.
    + intros H. apply (H []); simpl; auto.
  - destruct es as [|e es]; [discriminate|]. cbn [shaped] in Ht, Hu. destruct Ht as [Lt Ft], Hu as [Lu Fu].
    change (Z.of_nat (@length (tensor T n) t) = e) in Lt. change (Z.of_nat (@length (tensor T n) u) = e) in Lu.
    simpl in L. injection L as L. cbn [tensor_eqb].
    assert (AE : forall (l m : list (tensor T n)), length l = length m -> Forall (fun r => shaped n r es) l -> Forall (fun r => shaped n r es) m ->
      (alleqb (tensor_eqb eqT n) l m = true <-> forall i x y, nth_error l i = Some x -> nth_error m i = Some y -> tensor_eqb eqT n x y = true)).
    { clear. induction l as [|x l IHl]; intros [|y m] Hl F1 F2; simpl in Hl; try lia; simpl.
      - split; auto. intros _ [|i]; discriminate.
      - inversion F1; inversion F2; subst. destruct (tensor_eqb eqT n x y) eqn:E.
        + rewrite IHl by auto. split.
          * intros H [|i] u v Hu Hv; simpl in *; [injection Hu as <-; injection Hv as <-; auto|eauto].
          * intros H i u v Hu Hv. apply (H (S i)); auto.
        + split; [discriminate|]. intros H. rewrite (H O x y) in E; auto. }
    rewrite AE by (auto; lia). clear AE. rewrite Forall_forall in Ft, Fu. split.
    + intros H [|i k] B x y Ex Ey; cbn [length repeat in_bounds] in B; [tauto|]. destruct B as [B1 B2]. cbn [entry] in Ex, Ey.
      destruct (nth_error t (Z.to_nat i)) as [r|] eqn:Er; [|discriminate].
      destruct (nth_error u (Z.to_nat i)) as [q|] eqn:Eq; [|discriminate].
      pose proof (H _ _ _ Er Eq) as E. rewrite IH with (es := es) in E; eauto using nth_error_In.
    + intros H i x y Ex Ey. rewrite IH with (es := es); eauto using nth_error_In.
      intros k B a b Ea Eb. assert (i < @length (tensor T n) t)%nat by (apply nth_error_Some; rewrite Ex; discriminate).
      apply (H (Z.of_nat i :: k)); cbn [length repeat in_bounds entry]; rewrite ?Nat2Z.id.
      * split; [lia|auto].
      * change (match @nth_error (tensor T n) t i with Some r => entry n r k | None => None end = Some a). rewrite Ex. auto.
      * change (match @nth_error (tensor T n) u i with Some r => entry n r k | None => None end = Some b). rewrite Ey. auto.
Qed.
