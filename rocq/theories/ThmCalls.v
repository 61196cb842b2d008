(** ThmCalls.v -- C57: what comparisons ask of the element type *)

From Coq Require Import ZArith List Bool Lia.
From Verif Require Import Base StorageOrder Ranges Layout Access Objects Memory Ops History Calls
  Spec ViewSpec ReachSpec IterSpec MemSpec CompareSpec CallSpec
  Facts LayoutProofs AccessProofs ViewProofs MemoryProofs CopyProofs ReachProofs ThmAddressing ThmGeometry ThmIter ThmCopy ThmBulk
  CompareProofs ThmCompare.
Import ListNotations.
Local Open Scope Z_scope.

Local Definition nocmp {T : Type} : T -> T -> bool := fun _ _ => true.

Section Lists.
Context {T : Type}.
Variable op : user_op T.
Notation talk := (talk T).
Notation ask := (ask T op).

(** the two algorithms on lists *)
Fixpoint l_equal {A} (body : A -> A -> talk bool) (l m : list A) : talk bool :=
  match l, m with
  | [], _ => say T true
  | x :: l', y :: m' => andthen T (body x y) (fun b => if b then l_equal body l' m' else say T false)
  | _ :: _, [] => say T false
  end.
Fixpoint l_lex {A} (less : A -> A -> talk bool) (l m : list A) : talk bool :=
  match l, m with
  | [], [] => say T false
  | [], _ :: _ => say T true
  | _ :: _, [] => say T false
  | x :: l', y :: m' =>
      andthen T (less x y) (fun b => if b then say T true else
      andthen T (less y x) (fun c => if c then say T false else l_lex less l' m'))
  end.
Fixpoint t_equal (n : nat) : tensor T n -> tensor T n -> talk bool :=
  match n with O => ask | S k => l_equal (t_equal k) end.
Fixpoint t_lex (n : nat) : tensor T n -> tensor T n -> talk bool :=
  match n with O => ask | S k => l_lex (t_lex k) end.

(** nothing but answers and exceptions *)
Lemma ask_ok u v q : exists c, ask u v q = Ok c.
Proof. unfold Calls.ask. destruct (op q u v); eauto. Qed.
Lemma t_equal_ok n : forall t u q, exists c, t_equal n t u q = Ok c.
Proof.
  induction n as [|n IH]; [apply ask_ok|]. cbn [t_equal].
  intros t. change (list (tensor T n)) in t. induction t as [|x l IHl]; intros [|y m] q; cbn [l_equal]; try (unfold say; eauto).
  unfold andthen. destruct (IH x y q) as [c ->]. cbn [obind]. destruct c as [[|] q'|q']; eauto.
Qed.
Lemma t_lex_ok n : forall t u q, exists c, t_lex n t u q = Ok c.
Proof.
  induction n as [|n IH]; [apply ask_ok|]. cbn [t_lex].
  intros t. change (list (tensor T n)) in t. induction t as [|x l IHl]; intros [|y m] q; cbn [l_lex]; try (unfold say; eauto).
  unfold andthen. destruct (IH x y q) as [c ->]. cbn [obind]. destruct c as [[|] q'|q']; eauto; unfold say; eauto.
  destruct (IH y x q') as [c ->]. cbn [obind]. destruct c as [[|] q''|q'']; eauto.
Qed.

(** * from iterators to lists *)

Lemma ask_equal_eq {A} (body : iter -> iter -> talk bool) (eqb : A -> A -> talk bool) a b : forall m l j k fuel q,
  length l = length m -> (length l <= fuel)%nat ->
  idx_min <= j -> j + Z.of_nat (length l) <= idx_max -> idx_min <= k -> k + Z.of_nat (length l) <= idx_max ->
  (forall i x y q, nth_error l i = Some x -> nth_error m i = Some y ->
     body (it_at a (j + Z.of_nat i)) (it_at b (k + Z.of_nat i)) q = eqb x y q) ->
  ask_equal T body fuel (it_at a j) (it_at a (j + Z.of_nat (length l))) (it_at b k) q = l_equal eqb l m q.
Proof.
  induction m as [|y m IH]; intros [|x l] j k fuel q L Hf H1 H2 H3 H4 Hb; simpl in L; try lia.
  - simpl length. destruct fuel; simpl; rewrite it_equal_at; destruct (Z.eqb_spec j (j + 0)); auto; lia.
  - cbn [length] in *. destruct fuel as [|fuel]; [lia|]. cbn [ask_equal l_equal]. rewrite it_equal_at.
    destruct (Z.eqb_spec j (j + Z.of_nat (S (length l)))); [lia|].
    pose proof (Hb O x y q eq_refl eq_refl) as E0. simpl Z.of_nat in E0. rewrite !Z.add_0_r in E0.
    unfold andthen at 1 4. rewrite E0. destruct (eqb x y q) as [[[|] q'|q']| |]; cbn [obind]; auto.
    unfold andthen, silently. rewrite (it_inc_at a j), (it_inc_at b k) by lia. cbn [obind].
    replace (j + Z.of_nat (S (length l))) with ((j + 1) + Z.of_nat (length l)) by lia.
    apply IH; try lia. intros i u v q2 Hu Hv. specialize (Hb (S i) u v q2 Hu Hv).
    replace (j + 1 + Z.of_nat i) with (j + Z.of_nat (S i)) by lia.
    replace (k + 1 + Z.of_nat i) with (k + Z.of_nat (S i)) by lia. auto.
Qed.

Lemma ask_lex_eq {A} (less : iter -> iter -> talk bool) (ltb : A -> A -> talk bool) a b : forall l m j k fuel q,
  (length l <= fuel)%nat ->
  idx_min <= j -> j + Z.of_nat (length l) <= idx_max -> idx_min <= k -> k + Z.of_nat (length m) <= idx_max ->
  (forall i x y q, nth_error l i = Some x -> nth_error m i = Some y ->
     less (it_at a (j + Z.of_nat i)) (it_at b (k + Z.of_nat i)) q = ltb x y q /\
     less (it_at b (k + Z.of_nat i)) (it_at a (j + Z.of_nat i)) q = ltb y x q) ->
  ask_lex T less fuel (it_at a j) (it_at a (j + Z.of_nat (length l))) (it_at b k) (it_at b (k + Z.of_nat (length m))) q
  = l_lex ltb l m q.
Proof.
  induction l as [|x l IH]; intros m j k fuel q Hf H1 H2 H3 H4 Hb.
  - assert (E : forall f, ask_lex T less f (it_at a j) (it_at a (j + Z.of_nat 0)) (it_at b k) (it_at b (k + Z.of_nat (length m))) q
      = say T (negb (k =? k + Z.of_nat (length m))) q).
    { intros [|f]; cbn [ask_lex]; rewrite !it_equal_at; destruct (Z.eqb_spec j (j + Z.of_nat 0)); auto; lia. }
    simpl length. rewrite E. destruct (Z.eqb_spec k (k + Z.of_nat (length m))); destruct m; simpl in *; auto; lia.
  - cbn [length] in *. destruct fuel as [|fuel]; [lia|]. cbn [ask_lex]. rewrite !it_equal_at.
    destruct (Z.eqb_spec j (j + Z.of_nat (S (length l)))); [lia|].
    destruct m as [|y m].
    { simpl. destruct (Z.eqb_spec k (k + 0)); auto; lia. }
    cbn [length] in *. destruct (Z.eqb_spec k (k + Z.of_nat (S (length m)))); [lia|]. cbn [l_lex].
    pose proof (fun q => proj1 (Hb O x y q eq_refl eq_refl)) as E0. pose proof (fun q => proj2 (Hb O x y q eq_refl eq_refl)) as E1.
    simpl Z.of_nat in E0, E1. rewrite !Z.add_0_r in E0, E1.
    unfold andthen at 1 5. rewrite E0. destruct (ltb x y q) as [[[|] q'|q']| |]; cbn [obind]; auto.
    unfold andthen at 1 4. rewrite E1. destruct (ltb y x q') as [[[|] q''|q'']| |]; cbn [obind]; auto.
    unfold andthen, silently. rewrite (it_inc_at a j), (it_inc_at b k) by lia. cbn [obind].
    replace (j + Z.of_nat (S (length l))) with ((j + 1) + Z.of_nat (length l)) by lia.
    replace (k + Z.of_nat (S (length m))) with ((k + 1) + Z.of_nat (length m)) by lia.
    apply IH; try lia. intros i u v q2 Hu Hv. specialize (Hb (S i) u v q2 Hu Hv).
    replace (j + 1 + Z.of_nat i) with (j + Z.of_nat (S i)) by lia.
    replace (k + 1 + Z.of_nat i) with (k + Z.of_nat (S i)) by lia. auto.
Qed.

Lemma ask_eq_eq chk (h : heap T) : forall n a b ta tb q, nd_ok a -> nd_ok b ->
  contents h a n ta -> contents h b n tb ->
  ask_eq T op chk h n a b q = if list_eqb (nd_ext a) (nd_ext b) then t_equal n ta tb q else Ok (Gave false q).
Proof.
  induction n as [|n IH]; intros a b ta tb q Ha Hb Hca Hcb.
  { destruct Hca as [Hl _]. pose proof Ha as (_ & _ & H & _). lia. }
  cbn [ask_eq]. destruct (list_eqb (nd_ext a) (nd_ext b)) eqn:El; [|reflexivity].
  assert (Ex : nd_ext a = nd_ext b).
  { destruct (list_eqb_dec (nd_ext a) (nd_ext b)) as [|Hne]; auto. rewrite list_eqb_neq in El by auto. discriminate. }
  destruct (dims_at a Ha) as (ba & bas & ea & eas & Eba & Eea & Hea & Hba & Hbea & Fa & Ga).
  destruct (dims_at b Hb) as (bb & bbs & eb & ebs & Ebb & Eeb & Heb & Hbb & Hbeb & Fb & Gb).
  rewrite Fa, Ga, Fb. unfold andthen at 1 2 3. unfold silently at 1 2 3. cbn [obind].
  pose proof Hca as (Lna & Hsa & _). pose proof Hcb as (Lnb & Hsb & _).
  rewrite Eea in Hsa, Lna. rewrite Eeb in Hsb, Lnb. cbn [shaped] in Hsa, Hsb. destruct Hsa as [Hla _], Hsb as [Hlb _].
  change (Z.of_nat (@length (tensor T n) ta) = ea) in Hla. change (Z.of_nat (@length (tensor T n) tb) = eb) in Hlb.
  rewrite Eea, Eeb in Ex. injection Ex as Ex1 Ex2.
  unfold loop_fuel, it_at at 1 2. cbn [it_idx]. replace (ba + ea - ba) with ea by lia.
  rewrite <- Hla.
  apply (ask_equal_eq _ (t_equal n) a b tb ta); try (unconst; lia).
  intros i x y q2 Hx Hy.
  assert (Hi : (i < @length (tensor T n) ta)%nat) by (apply nth_error_Some; rewrite Hx; discriminate).
  destruct n as [|n].
  - destruct (nd_ok_shape a Ha) as (b1 & bs1 & e1 & es1 & s1 & ss1 & E1 & E2 & Es1 & L1 & L1' & _).
    destruct (nd_ok_shape b Hb) as (b2 & bs2 & e2 & es2 & s2 & ss2 & E3 & E4 & Es2 & L2 & L2' & _).
    rewrite Eba in E1. rewrite Eea in E2. rewrite Ebb in E3. rewrite Eeb in E4.
    injection E1 as <- <-. injection E2 as <- <-. injection E3 as <- <-. injection E4 as <- <-.
    destruct eas; [|discriminate]. destruct ebs; [|discriminate].
    destruct bas, bbs, ss1, ss2; simpl in L1, L1', L2, L2'; try lia.
    unfold it_deref_one. rewrite !it_nd_at. cbn [it_idx it_at].
    rewrite (access_one_ok chk _ a ba ea s1) by (auto; lia). rewrite (access_one_ok chk _ b bb eb s2) by (auto; lia).
    unfold andthen, silently. cbn [obind].
    rewrite (contents_elem h a ta Ha Hca ba ea s1 i x) by auto.
    rewrite (contents_elem h b tb Hb Hcb bb eb s2 i y) by auto. reflexivity.
  - unfold it_deref_n. rewrite !it_nd_at. cbn [it_idx it_at].
    assert (1 < length (nd_ext a))%nat by (rewrite Eea; simpl in *; lia).
    assert (1 < length (nd_ext b))%nat by (rewrite Eeb; simpl in *; lia).
    rewrite (access_n_row chk a _ Ha) with (b := ba) (e := ea); auto; [|rewrite Eba; auto|rewrite Eea; auto|lia].
    rewrite (access_n_row chk b _ Hb) with (b := bb) (e := eb); auto; [|rewrite Ebb; auto|rewrite Eeb; auto|lia].
    unfold andthen, silently. cbn [obind].
    rewrite (IH _ _ x y).
    + unfold row. cbn [nd_ext]. rewrite Eea, Eeb. cbn [tl]. rewrite Ex2, list_eqb_refl. reflexivity.
    + apply row_ok; auto. rewrite Eea. simpl in *. destruct eas; simpl in *; [lia|congruence].
    + apply row_ok; auto. rewrite Eeb. simpl in *. destruct ebs; simpl in *; [lia|congruence].
    + apply (contents_row nocmp nocmp h a n ta Ha Hca ba ea); auto; rewrite ?Eba, ?Eea; auto.
    + apply (contents_row nocmp nocmp h b n tb Hb Hcb bb eb); auto; rewrite ?Ebb, ?Eeb; auto.
Qed.

Lemma ask_lt_eq chk (h : heap T) : forall n a b ta tb q, nd_ok a -> nd_ok b ->
  contents h a n ta -> contents h b n tb -> ask_lt T op chk h n a b q = t_lex n ta tb q.
Proof.
  induction n as [|n IH]; intros a b ta tb q Ha Hb Hca Hcb.
  { destruct Hca as [Hl _]. pose proof Ha as (_ & _ & H & _). lia. }
  cbn [ask_lt].
  destruct (dims_at a Ha) as (ba & bas & ea & eas & Eba & Eea & Hea & Hba & Hbea & Fa & Ga).
  destruct (dims_at b Hb) as (bb & bbs & eb & ebs & Ebb & Eeb & Heb & Hbb & Hbeb & Fb & Gb).
  rewrite Fa, Ga, Fb, Gb. unfold andthen at 1 2 3 4. unfold silently at 1 2 3 4. cbn [obind].
  pose proof Hca as (Lna & Hsa & _). pose proof Hcb as (Lnb & Hsb & _).
  rewrite Eea in Hsa, Lna. rewrite Eeb in Hsb, Lnb. cbn [shaped] in Hsa, Hsb. destruct Hsa as [Hla _], Hsb as [Hlb _].
  change (Z.of_nat (@length (tensor T n) ta) = ea) in Hla. change (Z.of_nat (@length (tensor T n) tb) = eb) in Hlb.
  unfold loop_fuel, it_at at 1 2. cbn [it_idx]. replace (ba + ea - ba) with ea by lia.
  rewrite <- Hla, <- Hlb.
  apply (ask_lex_eq _ (t_lex n) a b ta tb); try (unconst; lia).
  intros i x y q2 Hx Hy.
  assert (Hi : (i < @length (tensor T n) ta)%nat) by (apply nth_error_Some; rewrite Hx; discriminate).
  assert (Hj : (i < @length (tensor T n) tb)%nat) by (apply nth_error_Some; rewrite Hy; discriminate).
  destruct n as [|n].
  - destruct (nd_ok_shape a Ha) as (b1 & bs1 & e1 & es1 & s1 & ss1 & E1 & E2 & Es1 & L1 & L1' & _).
    destruct (nd_ok_shape b Hb) as (b2 & bs2 & e2 & es2 & s2 & ss2 & E3 & E4 & Es2 & L2 & L2' & _).
    rewrite Eba in E1. rewrite Eea in E2. rewrite Ebb in E3. rewrite Eeb in E4.
    injection E1 as <- <-. injection E2 as <- <-. injection E3 as <- <-. injection E4 as <- <-.
    destruct eas; [|discriminate]. destruct ebs; [|discriminate].
    destruct bas, bbs, ss1, ss2; simpl in L1, L1', L2, L2'; try lia.
    unfold it_deref_one. rewrite !it_nd_at. cbn [it_idx it_at].
    rewrite (access_one_ok chk _ a ba ea s1) by (auto; lia). rewrite (access_one_ok chk _ b bb eb s2) by (auto; lia).
    unfold andthen, silently. cbn [obind].
    rewrite (contents_elem h a ta Ha Hca ba ea s1 i x) by auto.
    rewrite (contents_elem h b tb Hb Hcb bb eb s2 i y) by auto. split; reflexivity.
  - unfold it_deref_n. rewrite !it_nd_at. cbn [it_idx it_at].
    assert (1 < length (nd_ext a))%nat by (rewrite Eea; simpl in *; lia).
    assert (1 < length (nd_ext b))%nat by (rewrite Eeb; simpl in *; lia).
    rewrite (access_n_row chk a _ Ha) with (b := ba) (e := ea); auto; [|rewrite Eba; auto|rewrite Eea; auto|lia].
    rewrite (access_n_row chk b _ Hb) with (b := bb) (e := eb); auto; [|rewrite Ebb; auto|rewrite Eeb; auto|lia].
    unfold andthen, silently. cbn [obind].
    assert (nd_ok (row a (ba + Z.of_nat i))) by (apply row_ok; auto; rewrite Eea; simpl in *; destruct eas; simpl in *; [lia|congruence]).
    assert (nd_ok (row b (bb + Z.of_nat i))) by (apply row_ok; auto; rewrite Eeb; simpl in *; destruct ebs; simpl in *; [lia|congruence]).
    assert (contents h (row a (ba + Z.of_nat i)) (S n) x) by (apply (contents_row nocmp nocmp h a n ta Ha Hca ba ea); auto; rewrite ?Eba, ?Eea; auto).
    assert (contents h (row b (bb + Z.of_nat i)) (S n) y) by (apply (contents_row nocmp nocmp h b n tb Hb Hcb bb eb); auto; rewrite ?Ebb, ?Eeb; auto).
    split; apply IH; auto.
Qed.

(** * equality on lists is one list of questions *)

Fixpoint ask_all (Q : list (T * T)) : talk bool :=
  match Q with
  | [] => say T true
  | (u, v) :: Q' => andthen T (ask u v) (fun b => if b then ask_all Q' else say T false)
  end.

Lemma ask_all_app Q1 Q2 q :
  ask_all (Q1 ++ Q2) q = andthen T (ask_all Q1) (fun b => if b then ask_all Q2 else say T false) q.
Proof.
  revert q. induction Q1 as [|[u v] Q1 IH]; intros q; [reflexivity|]. cbn [app ask_all].
  unfold andthen at 1 2 3. destruct (ask u v q) as [[[|] q'|q']| |]; cbn [obind]; auto. rewrite IH. reflexivity.
Qed.

Lemma length_in_order n : forall (t : tensor T n) es, shaped n t es -> Z.of_nat (length (in_order n t)) = prod es.
Proof.
  induction n as [|n IH]; intros t es H; cbn [shaped] in H.
  - subst. reflexivity.
  - destruct es as [|e es]; [tauto|]. destruct H as [He F]. cbn [in_order prod].
    change (list (tensor T n)) in t. change (Z.of_nat (@length (tensor T n) t) = e) in He. subst e. induction t as [|x l IHl].
    + reflexivity.
    + apply Forall_cons_iff in F. destruct F as [Fx Fl]. cbn [flat_map]. rewrite app_length, Nat2Z.inj_add, (IH x es Fx), (IHl Fl).
      rewrite !prod_cons. transitivity ((Z.of_nat (length l) + 1) * prod es); [ring|].
      apply (f_equal (fun z => z * prod es)). simpl length. lia.
Qed.

Lemma combine_app {A B} (l1 l2 : list A) (m1 m2 : list B) : length l1 = length m1 ->
  combine (l1 ++ l2) (m1 ++ m2) = combine l1 m1 ++ combine l2 m2.
Proof. revert m1. induction l1 as [|x l1 IH]; intros [|y m1] L; simpl in L; try lia; [reflexivity|]. simpl. rewrite IH by lia. reflexivity. Qed.

Lemma t_equal_all n : forall (t u : tensor T n) es q, shaped n t es -> shaped n u es ->
  t_equal n t u q = ask_all (combine (in_order n t) (in_order n u)) q.
Proof.
  induction n as [|n IH]; intros t u es q Ht Hu.
  - cbn [t_equal in_order combine ask_all]. unfold andthen. destruct (ask t u q) as [[[|] q'|q']| |]; reflexivity.
  - cbn [shaped] in Ht, Hu. destruct es as [|e es]; [tauto|]. destruct Ht as [Lt Ft], Hu as [Lu Fu]. cbn [t_equal in_order].
    change (list (tensor T n)) in t, u.
    assert (L : length t = length u) by (apply Nat2Z.inj; transitivity e; auto). clear Lt Lu.
    revert u q L Ft Fu. induction t as [|x t IHt]; intros [|y u] q L Ft Fu; simpl in L; try lia; [reflexivity|].
    apply Forall_cons_iff in Ft, Fu. destruct Ft as [F1 F2], Fu as [F3 F4]. cbn [l_equal flat_map].
    pose proof (length_in_order n x es F1). pose proof (length_in_order n y es F3).
    rewrite combine_app by lia. rewrite ask_all_app. unfold andthen. rewrite (IH x y es q F1 F3).
    destruct (ask_all (combine (in_order n x) (in_order n y)) q) as [[[|] q'|q']| |]; cbn [obind]; auto.
Qed.

Lemma ask_all_until Q : forall Q' pre c, Q = pre ++ Q' ->
  (forall j, (j < length pre)%nat -> replied op Q j (Says true)) ->
  ask_all Q' pre = Ok c -> until_no op Q c.
Proof.
  induction Q' as [|[u v] Q' IH]; intros pre c E H A.
  - injection A as <-. rewrite app_nil_r in E. subst. apply un_all. auto.
  - assert (N : nth_error Q (length pre) = Some (u, v)).
    { subst Q. rewrite nth_error_app2, Nat.sub_diag by lia. reflexivity. }
    assert (F : firstn (length pre) Q = pre).
    { subst Q. rewrite firstn_app, Nat.sub_diag, firstn_O, app_nil_r, firstn_all. reflexivity. }
    assert (F1 : firstn (S (length pre)) Q = pre ++ [(u, v)]).
    { subst Q. replace (pre ++ (u, v) :: Q') with ((pre ++ [(u, v)]) ++ Q') by (rewrite <- app_assoc; reflexivity).
      replace (S (length pre)) with (length (pre ++ [(u, v)])) by (rewrite app_length; simpl; lia).
      rewrite firstn_app, Nat.sub_diag, firstn_O, app_nil_r, firstn_all. reflexivity. }
    assert (R : forall r, op pre u v = r -> replied op Q (length pre) r).
    { intros r Hr. exists u, v. rewrite F. auto. }
    cbn [ask_all] in A. unfold andthen, Calls.ask in A. destruct (op pre u v) as [[|]|] eqn:Eo; cbn [obind] in A.
    + apply (IH (pre ++ [(u, v)])); auto.
      * subst Q. rewrite <- app_assoc. reflexivity.
      * intros j Hj. rewrite app_length in Hj. simpl in Hj. destruct (Nat.eq_dec j (length pre)) as [->|]; [auto|apply H; lia].
    + injection A as <-. rewrite <- F1. apply un_no; auto.
    + injection A as <-. rewrite <- F1. apply un_throw; auto.
Qed.

Lemma until_no_fun Q c1 c2 : until_no op Q c1 -> until_no op Q c2 -> c1 = c2.
Proof.
  assert (D : forall k r1 r2, replied op Q k r1 -> replied op Q k r2 -> r1 = r2).
  { intros k r1 r2 (u & v & E1 & E2) (u' & v' & E3 & E4). rewrite E1 in E3. injection E3 as <- <-. congruence. }
  assert (L : forall k r, replied op Q k r -> (k < length Q)%nat).
  { intros k r (u & v & E & _). apply nth_error_Some. congruence. }
  intros H1 H2. destruct H1 as [A|k A B|k A B], H2 as [A'|k' A' B'|k' A' B']; auto;
    try (exfalso; match goal with
      | A : (forall k, (k < length Q)%nat -> _), B : replied op Q ?k ?r |- _ => specialize (A k (L k r B)); specialize (D k _ _ A B); discriminate end);
    destruct (Nat.lt_trichotomy k k') as [H|[H|H]]; subst; auto;
    try (exfalso; match goal with
      | A : (forall k, (k < ?b)%nat -> _), B : replied op Q ?k ?r |- _ =>
          let Hk := fresh in assert (Hk : (k < b)%nat) by lia; specialize (A k Hk); specialize (D k _ _ A B); discriminate end);
    exfalso; specialize (D _ _ _ B B'); discriminate.
Qed.

(** * order on lists *)

Lemma t_lex_asks n : forall t u q c, t_lex n t u q = Ok c <-> less_asks op n t u q c.
Proof.
  induction n as [|n IH]; intros t u q c; cbn [t_lex less_asks].
  - unfold Calls.ask, one_question. destruct (op q t u); split; congruence.
  - change (list (tensor T n)) in t, u. split.
    + revert u q. induction t as [|x t IHt]; intros [|y u] q E; cbn [l_lex] in E.
      * injection E as <-. constructor.
      * injection E as <-. constructor.
      * injection E as <-. constructor.
      * unfold andthen at 1 in E. destruct (t_lex n x y q) as [c1| |] eqn:E1; cbn [obind] in E; try discriminate. apply IH in E1.
        destruct c1 as [[|] q1|q1]; [injection E as <-; eapply la_less; eauto| |injection E as <-; eapply la_throw1; eauto].
        unfold andthen in E. destruct (t_lex n y x q1) as [c2| |] eqn:E2; cbn [obind] in E; try discriminate. apply IH in E2.
        destruct c2 as [[|] q2|q2]; [injection E as <-; eapply la_greater; eauto| |injection E as <-; eapply la_throw2; eauto].
        eapply la_next; eauto.
    + induction 1; cbn [l_lex]; auto; unfold andthen at 1;
        match goal with H : less_asks op n _ _ _ _ |- _ => apply IH in H; rewrite H end; cbn [obind]; auto;
        unfold andthen; match goal with H : less_asks op n _ _ _ _ |- _ => apply IH in H; rewrite H end; cbn [obind]; auto.
Qed.

Lemma less_asks_fun n t u q c1 c2 : less_asks op n t u q c1 -> less_asks op n t u q c2 -> c1 = c2.
Proof. intros H1 H2. apply t_lex_asks in H1, H2. congruence. Qed.

(** * how many questions, and which *)

Lemma lex_asks_bound {A} (less : A -> A -> asked T -> closing T bool -> Prop) (P : A -> A -> T * T -> Prop) (B : Z) (ok : A -> Prop) (ok' : A -> Prop) :
  0 <= B -> (forall x y p, P y x p -> P x y p) ->
  (forall x y q c, (ok x /\ ok' y) \/ (ok' x /\ ok y) -> less x y q c ->
     exists ext, questions c = q ++ ext /\ Z.of_nat (length ext) <= B /\ Forall (P x y) ext) ->
  forall l m q c, lex_asks less l m q c -> Forall ok l -> Forall ok' m ->
    exists ext, questions c = q ++ ext /\ Z.of_nat (length ext) <= 2 * B * Z.min (Z.of_nat (length l)) (Z.of_nat (length m)) /\
      Forall (fun p => exists j x y, nth_error l j = Some x /\ nth_error m j = Some y /\ P x y p) ext.
Proof.
  intros HB Sym Hless. induction 1; intros Fl Fm.
  1,2,3: exists []; rewrite app_nil_r; split; [reflexivity|]; split; [cbn [length]; nia|constructor].
  all: apply Forall_cons_iff in Fl, Fm; destruct Fl as [Ox Ol], Fm as [Oy Om].
  all: destruct (Hless x y _ _ (or_introl (conj Ox Oy)) H) as (e1 & E1 & L1 & F1); cbn [questions] in E1; subst q1.
  1,2: exists e1; split; [reflexivity|]; split; [cbn [length]; nia|];
    revert F1; apply Forall_impl; intros p Hp; exists O, x, y; auto.
  all: destruct (Hless y x _ _ (or_intror (conj Oy Ox)) H0) as (e2 & E2 & L2 & F2); cbn [questions] in E2; subst q2.
  1,2: exists (e1 ++ e2); split; [cbn [questions]; rewrite app_assoc; reflexivity|]; split; [rewrite app_length; cbn [length]; nia|];
    apply Forall_app; split; [revert F1|revert F2]; apply Forall_impl; intros p Hp; exists O, x, y; auto.
  destruct (IHlex_asks Ol Om) as (e3 & E3 & L3 & F3).
  exists ((e1 ++ e2) ++ e3). split; [rewrite E3, !app_assoc; reflexivity|]. split.
  - rewrite !app_length. cbn [length]. nia.
  - apply Forall_app. split; [apply Forall_app; split; [revert F1|revert F2]; apply Forall_impl; intros p Hp; exists O, x, y; auto|].
    revert F3. apply Forall_impl. intros p (j & x' & y' & Hj). exists (S j), x', y'. exact Hj.
Qed.

Definition paired_at n (t u : tensor T n) es fs (p : T * T) : Prop :=
  exists k, in_bounds (repeat 0 n) es k /\ in_bounds (repeat 0 n) fs k /\
    ((entry n t k = Some (fst p) /\ entry n u k = Some (snd p)) \/
     (entry n t k = Some (snd p) /\ entry n u k = Some (fst p))).

Lemma smaller_comm es fs : smaller es fs = smaller fs es.
Proof.
  unfold smaller. revert fs. induction es as [|e es IH]; intros [|f fs]; auto. simpl. rewrite IH, Z.min_comm. reflexivity.
Qed.
Lemma prod_smaller_nonneg es fs : Forall (fun e => 0 <= e) es -> Forall (fun e => 0 <= e) fs -> 0 <= prod (smaller es fs).
Proof.
  unfold smaller. intros F. revert fs. induction F as [|e es He F IH]; intros [|f fs] G; try (unfold prod; simpl; lia).
  apply Forall_cons_iff in G. destruct G as [Hf G]. cbn [combine map]. rewrite prod_cons. cbn [fst snd]. specialize (IH fs G). nia.
Qed.

Lemma less_asks_bound n : forall (t u : tensor T n) es fs q c, shaped n t es -> shaped n u fs ->
  Forall (fun e => 0 <= e) es -> Forall (fun e => 0 <= e) fs ->
  less_asks op n t u q c ->
  exists ext, questions c = q ++ ext /\ Z.of_nat (length ext) <= 2 ^ Z.of_nat n * prod (smaller es fs) /\
    Forall (paired_at n t u es fs) ext.
Proof.
  induction n as [|n IH]; intros t u es fs q c Ht Hu Fe Ff H.
  - cbn [shaped] in Ht, Hu. subst es fs. cbn [less_asks] in H. unfold one_question in H.
    exists [(t, u)]. split; [destruct (op q t u); subst; reflexivity|]. split; [unfold prod; simpl; lia|].
    constructor; [|constructor]. exists []. cbn [repeat in_bounds entry fst snd]. auto.
  - cbn [shaped] in Ht, Hu. destruct es as [|e es]; [tauto|]. destruct fs as [|f fs]; [tauto|].
    destruct Ht as [Lt Ft], Hu as [Lu Fu]. cbn [less_asks] in H. change (list (tensor T n)) in t, u.
    change (Z.of_nat (@length (tensor T n) t) = e) in Lt. change (Z.of_nat (@length (tensor T n) u) = f) in Lu.
    apply Forall_cons_iff in Fe, Ff. destruct Fe as [He Fe], Ff as [Hf Ff].
    pose proof (prod_smaller_nonneg es fs Fe Ff) as P0.
    set (B := 2 ^ Z.of_nat n * prod (smaller es fs)). assert (0 < 2 ^ Z.of_nat n) by (apply Z.pow_pos_nonneg; lia).
    destruct (lex_asks_bound (less_asks op n)
      (fun x y p => exists k, in_bounds (repeat 0 n) es k /\ in_bounds (repeat 0 n) fs k /\
         ((entry n x k = Some (fst p) /\ entry n y k = Some (snd p)) \/ (entry n x k = Some (snd p) /\ entry n y k = Some (fst p))))
      B (fun r => shaped n r es) (fun r => shaped n r fs)) with (l := t) (m := u) (q := q) (c := c) as (ext & E & L & F); auto.
    + unfold B. nia.
    + intros x y p (k & K1 & K2 & K3). exists k. tauto.
    + intros x y q' c' [[Hx Hy]|[Hx Hy]] Hl.
      * apply (IH x y es fs q' c'); auto.
      * destruct (IH x y fs es q' c' Hx Hy Ff Fe Hl) as (ext & E1 & E2 & E3). exists ext. rewrite smaller_comm in E2. split; auto. split; auto.
        revert E3. apply Forall_impl. intros p (k & K1 & K2 & K3). exists k. tauto.
    + exists ext. split; auto. split.
      * unfold smaller in *. cbn [combine map]. rewrite prod_cons. cbn [fst snd]. rewrite Nat2Z.inj_succ, Z.pow_succ_r by lia.
        fold (smaller es fs) in *. subst e f. unfold B in L. lia.
      * revert F. apply Forall_impl. intros p (j & x & y & Hx & Hy & k & K1 & K2 & K3).
        assert (Jx : (j < @length (tensor T n) t)%nat) by (apply nth_error_Some; rewrite Hx; discriminate).
        assert (Jy : (j < @length (tensor T n) u)%nat) by (apply nth_error_Some; rewrite Hy; discriminate).
        exists (Z.of_nat j :: k). cbn [repeat in_bounds]. split; [split; [lia|auto]|]. split; [split; [lia|auto]|].
        cbn [entry]. rewrite Nat2Z.id.
        change ((match @nth_error (tensor T n) t j with Some r => entry n r k | None => None end = Some (fst p) /\
                 match @nth_error (tensor T n) u j with Some r => entry n r k | None => None end = Some (snd p)) \/
                (match @nth_error (tensor T n) t j with Some r => entry n r k | None => None end = Some (snd p) /\
                 match @nth_error (tensor T n) u j with Some r => entry n r k | None => None end = Some (fst p))).
        rewrite Hx, Hy. exact K3.
Qed.

(** every answer no, equal shapes: every question is asked *)
Lemma less_asks_all_no n : forall (t u : tensor T n) es q c, shaped n t es -> shaped n u es ->
  (forall q u v, op q u v = Says false) -> less_asks op n t u q c ->
  exists ext, c = Gave false (q ++ ext) /\ Z.of_nat (length ext) = 2 ^ Z.of_nat n * prod es.
Proof.
  induction n as [|n IH]; intros t u es q c Ht Hu No H.
  - cbn [shaped] in Ht. subst. cbn [less_asks] in H. unfold one_question in H. rewrite No in H. subst. exists [(t, u)]. split; auto.
  - cbn [shaped] in Ht, Hu. destruct es as [|e es]; [tauto|].
    destruct Ht as [Lt Ft], Hu as [Lu Fu]. cbn [less_asks] in H. change (list (tensor T n)) in t, u.
    change (Z.of_nat (@length (tensor T n) t) = e) in Lt. change (Z.of_nat (@length (tensor T n) u) = e) in Lu.
    assert (0 < 2 ^ Z.of_nat n) by (apply Z.pow_pos_nonneg; lia).
    assert (L : length t = length u) by lia. rewrite Nat2Z.inj_succ, Z.pow_succ_r, prod_cons by lia. subst e. clear Lu.
    induction H as [q|y m q|x l q|x l y m q q1 Hxy|x l y m q q1 Hxy|x l y m q q1 q2 Hxy Hyx|x l y m q q1 q2 Hxy Hyx|x l y m q q1 q2 c Hxy Hyx Hl IHl];
      try discriminate.
    1:{ exists []. rewrite app_nil_r. split; auto. simpl length. lia. }
    all: apply Forall_cons_iff in Ft, Fu; destruct Ft as [F1 F2], Fu as [F3 F4].
    all: destruct (IH x y es _ _ F1 F3 No Hxy) as (e1 & E1 & L1); try discriminate; injection E1 as E1; subst q1.
    all: destruct (IH y x es _ _ F3 F1 No Hyx) as (e2 & E2 & L2); try discriminate; injection E2 as E2; subst q2.
    simpl in L. destruct (IHl F2 F4) as (e3 & E3 & L3); [lia|]. exists ((e1 ++ e2) ++ e3).
    split; [rewrite E3, !app_assoc; reflexivity|]. rewrite !app_length. simpl length. lia.
Qed.
End Lists.

Lemma andthen_opposite {T} (m : talk T bool) q c : m q = Ok c ->
  andthen T m (fun r => say T (negb r)) q = Ok (opposite c).
Proof. intros E. unfold andthen. rewrite E. destruct c; reflexivity. Qed.

(** * C57 *)

(** a == b asks the element operator about the pairs at equal positions, in
    lexicographic order of position, until the first answer other than yes;
    nothing if the shapes differ; != does the same.  So at most num_elements()
    calls, whatever the operator does. *)
Theorem c57_equality_calls : forall (T : Type) (op : user_op T) (h : heap T) chk c1 c2 a b,
  array_object c1 -> derived c1 a -> array_object c2 -> derived c2 b -> live h c1 -> live h c2 ->
  let n := length (nd_ext a) in length (nd_ext b) = n ->
  exists ta tb c, contents h a n ta /\ contents h b n tb /\
    ask_compare T op CEq chk h a b [] = Ok c /\ ask_compare T op CNe chk h a b [] = Ok (opposite c) /\
    (nd_ext a <> nd_ext b -> c = Gave false []) /\
    (nd_ext a = nd_ext b -> until_no op (combine (in_order n ta) (in_order n tb)) c) /\
    Z.of_nat (length (in_order n ta)) = prod (nd_ext a) /\
    Z.of_nat (length (questions c)) <= prod (nd_ext a).
Proof.
  intros T op h chk c1 c2 a b H1 Ha H2 Hb L1 L2 n L.
  pose proof (derived_ok c1 a H1 Ha) as Hoka. pose proof (derived_ok c2 b H2 Hb) as Hokb.
  destruct (derived_contents h c1 a H1 Ha L1) as [ta Hta]. destruct (derived_contents h c2 b H2 Hb L2) as [tb Htb].
  revert ta Hta tb Htb. fold n. rewrite L. intros ta Hta tb Htb.
  pose proof (ask_eq_eq op chk h n a b ta tb [] Hoka Hokb Hta Htb) as E.
  pose proof Hta as (_ & Sa & _). pose proof Htb as (_ & Sb & _).
  destruct (t_equal_ok op n ta tb []) as [c Hc].
  assert (P : 0 <= prod (nd_ext a)).
  { rewrite <- (length_in_order n ta _ Sa). lia. }
  exists ta, tb, (if list_eqb (nd_ext a) (nd_ext b) then c else Gave false []).
  assert (E' : ask_eq T op chk h n a b [] = Ok (if list_eqb (nd_ext a) (nd_ext b) then c else Gave false [])).
  { rewrite E. destruct (list_eqb _ _); auto. }
  split; [auto|]. split; [auto|]. split; [exact E'|]. split; [apply andthen_opposite; exact E'|].
  destruct (list_eqb_dec (nd_ext a) (nd_ext b)) as [Ex|Ex].
  - rewrite <- Ex in *. rewrite list_eqb_refl in *. split; [congruence|].
    assert (U : until_no op (combine (in_order n ta) (in_order n tb)) c).
    { rewrite (t_equal_all op n ta tb (nd_ext a)) in Hc by auto. eapply (ask_all_until op _ _ []); [reflexivity| |exact Hc]. intros j Hj. simpl in Hj. lia. }
    split; [auto|]. pose proof (length_in_order n ta _ Sa) as La. split; [exact La|].
    assert (length (combine (in_order n ta) (in_order n tb)) <= length (in_order n ta))%nat by (rewrite combine_length; lia).
    destruct U as [A|k A B|k A B]; cbn [questions]; rewrite ?firstn_length; lia.
  - rewrite list_eqb_neq in * by auto. split; [auto|]. split; [congruence|].
    split; [apply length_in_order; auto|]. simpl. exact P.
Qed.

(** a < b compares nested lists, asking both ways at every place until one answer
    is yes; > exchanges the operands, <= and >= negate > and < *)
Theorem c57_order_calls : forall (T : Type) (op : user_op T) (h : heap T) chk c1 c2 a b,
  array_object c1 -> derived c1 a -> array_object c2 -> derived c2 b -> live h c1 -> live h c2 ->
  let n := length (nd_ext a) in length (nd_ext b) = n ->
  exists ta tb c d, contents h a n ta /\ contents h b n tb /\
    less_asks op n ta tb [] c /\ less_asks op n tb ta [] d /\
    ask_compare T op CLt chk h a b [] = Ok c /\ ask_compare T op CGt chk h a b [] = Ok d /\
    ask_compare T op CLe chk h a b [] = Ok (opposite d) /\ ask_compare T op CGe chk h a b [] = Ok (opposite c).
Proof.
  intros T op h chk c1 c2 a b H1 Ha H2 Hb L1 L2 n L.
  pose proof (derived_ok c1 a H1 Ha) as Hoka. pose proof (derived_ok c2 b H2 Hb) as Hokb.
  destruct (derived_contents h c1 a H1 Ha L1) as [ta Hta]. destruct (derived_contents h c2 b H2 Hb L2) as [tb Htb].
  revert ta Hta tb Htb. fold n. rewrite L. intros ta Hta tb Htb.
  destruct (t_lex_ok op n ta tb []) as [c Hc]. destruct (t_lex_ok op n tb ta []) as [d Hd].
  pose proof (ask_lt_eq op chk h n a b ta tb [] Hoka Hokb Hta Htb) as E1. rewrite Hc in E1.
  pose proof (ask_lt_eq op chk h n b a tb ta [] Hokb Hoka Htb Hta) as E2. rewrite Hd in E2.
  exists ta, tb, c, d. split; [auto|]. split; [auto|]. split; [apply t_lex_asks; auto|]. split; [apply t_lex_asks; auto|].
  split; [exact E1|]. split; [exact E2|]. split; apply andthen_opposite; auto.
Qed.

(** the specifications used above leave no choice *)
Theorem c57_calls_determined : forall (T : Type) (op : user_op T),
  (forall Q c c', until_no op Q c -> until_no op Q c' -> c = c') /\
  (forall n t u q c c', less_asks op n t u q c -> less_asks op n t u q c' -> c = c').
Proof. intros T op. split; [apply until_no_fun|apply less_asks_fun]. Qed.

(** whatever the operator answers, an order comparison makes at most
    2^NumDims calls per position common to both arrays, each about two elements
    at the same position; if all answers are no and the shapes agree, exactly
    2^NumDims * num_elements() calls *)
Theorem c57_order_call_count : forall (T : Type) (op : user_op T) (h : heap T) chk c1 c2 a b r c,
  array_object c1 -> derived c1 a -> array_object c2 -> derived c2 b -> live h c1 -> live h c2 ->
  let n := length (nd_ext a) in length (nd_ext b) = n ->
  r = CLt \/ r = CGt \/ r = CLe \/ r = CGe ->
  ask_compare T op r chk h a b [] = Ok c ->
  Z.of_nat (length (questions c)) <= 2 ^ Z.of_nat n * prod (smaller (nd_ext a) (nd_ext b)) /\
  Forall (fun p => exists k u v, in_bounds (repeat 0 n) (nd_ext a) k /\ in_bounds (repeat 0 n) (nd_ext b) k /\
            reads h a (tadd (nd_base a) k) u /\ reads h b (tadd (nd_base b) k) v /\ (p = (u, v) \/ p = (v, u))) (questions c) /\
  (nd_ext a = nd_ext b -> (forall q u v, op q u v = Says false) ->
   Z.of_nat (length (questions c)) = 2 ^ Z.of_nat n * prod (nd_ext a)).
Proof.
  intros T op h chk c1 c2 a b r c H1 Ha H2 Hb L1 L2 n L Hr Hc.
  destruct (c57_order_calls T op h chk c1 c2 a b H1 Ha H2 Hb L1 L2 L) as (ta & tb & x & y & Hta & Htb & Hx & Hy & E1 & E2 & E3 & E4).
  fold n in ta, tb, Hta, Htb, Hx, Hy.
  pose proof (derived_ok c1 a H1 Ha) as (_ & _ & _ & Na & _). pose proof (derived_ok c2 b H2 Hb) as (_ & _ & _ & Nb & _).
  assert (Fa : Forall (fun e => 0 <= e) (nd_ext a)) by (revert Na; apply Forall_impl; intros; lia).
  assert (Fb : Forall (fun e => 0 <= e) (nd_ext b)) by (revert Nb; apply Forall_impl; intros; lia).
  pose proof Hta as (_ & Sa & Ca). pose proof Htb as (_ & Sb & Cb).
  assert (QO : forall c : closing T bool, questions (opposite c) = questions c) by (intros []; reflexivity).
  assert (Qc : questions c = questions x \/ questions c = questions y).
  { destruct Hr as [-> | [-> | [-> | ->]]]; [rewrite E1 in Hc|rewrite E2 in Hc|rewrite E3 in Hc|rewrite E4 in Hc]; injection Hc as <-; rewrite ?QO; auto. }
  destruct (less_asks_bound op n ta tb _ _ _ _ Sa Sb Fa Fb Hx) as (ex & Q1 & B1 & F1).
  destruct (less_asks_bound op n tb ta _ _ _ _ Sb Sa Fb Fa Hy) as (ey & Q2 & B2 & F2). rewrite smaller_comm in B2.
  simpl in Q1, Q2. split; [destruct Qc as [-> | ->]; congruence|]. split.
  - assert (G : forall k x, in_bounds (repeat 0 n) (nd_ext a) k -> entry n ta k = Some x -> reads h a (tadd (nd_base a) k) x).
    { intros k v Hk Ev. destruct (Ca k Hk) as (w & Ew & Rw). congruence. }
    assert (G' : forall k x, in_bounds (repeat 0 n) (nd_ext b) k -> entry n tb k = Some x -> reads h b (tadd (nd_base b) k) x).
    { intros k v Hk Ev. destruct (Cb k) as (w & Ew & Rw); [rewrite L; auto|]. congruence. }
    destruct Qc as [-> | ->]; [rewrite Q1; revert F1|rewrite Q2; revert F2]; apply Forall_impl;
      intros [u v] (k & K1 & K2 & [[K3 K4]|[K3 K4]]); cbn [fst snd] in *.
    1,4: exists k, u, v; auto 10.
    all: exists k, v, u; auto 10.
  - intros Ex No. rewrite <- Ex in Sb.
    destruct (less_asks_all_no op n ta tb _ _ _ Sa Sb No Hx) as (e1 & -> & A1).
    destruct (less_asks_all_no op n tb ta _ _ _ Sb Sa No Hy) as (e2 & -> & A2).
    destruct Qc as [-> | ->]; auto.
Qed.

(** only shapes and contents matter: arrays of equal shape and contents make the
    same calls, whatever their storage orders, index bases, strides and kinds *)
Theorem c57_layout_makes_no_difference : forall (T : Type) (op : user_op T) (h h' : heap T) chk chk' c1 c2 c1' c2' a b a' b' r,
  array_object c1 -> derived c1 a -> array_object c2 -> derived c2 b -> live h c1 -> live h c2 ->
  array_object c1' -> derived c1' a' -> array_object c2' -> derived c2' b' -> live h' c1' -> live h' c2' ->
  let n := length (nd_ext a) in length (nd_ext b) = n ->
  nd_ext a' = nd_ext a -> nd_ext b' = nd_ext b ->
  (forall t, contents h a n t -> contents h' a' n t) -> (forall t, contents h b n t -> contents h' b' n t) ->
  ask_compare T op r chk h a b [] = ask_compare T op r chk' h' a' b' [].
Proof.
  intros T op h h' chk chk' c1 c2 c1' c2' a b a' b' r H1 Ha H2 Hb L1 L2 H1' Ha' H2' Hb' L1' L2' n L Ea Eb Ca Cb.
  pose proof (derived_ok c1 a H1 Ha) as Oa. pose proof (derived_ok c2 b H2 Hb) as Ob.
  pose proof (derived_ok c1' a' H1' Ha') as Oa'. pose proof (derived_ok c2' b' H2' Hb') as Ob'.
  destruct (derived_contents h c1 a H1 Ha L1) as [ta Hta]. destruct (derived_contents h c2 b H2 Hb L2) as [tb Htb].
  revert ta Hta tb Htb. fold n. rewrite L. intros ta Hta tb Htb.
  pose proof (Ca _ Hta) as Hta'. pose proof (Cb _ Htb) as Htb'.
  unfold ask_compare. rewrite Ea. fold n.
  assert (Q : ask_eq T op chk h n a b [] = ask_eq T op chk' h' n a' b' []).
  { rewrite (ask_eq_eq op chk h n a b ta tb), (ask_eq_eq op chk' h' n a' b' ta tb) by auto. rewrite Ea, Eb. reflexivity. }
  assert (R : ask_lt T op chk h n a b [] = ask_lt T op chk' h' n a' b' []).
  { rewrite (ask_lt_eq op chk h n a b ta tb), (ask_lt_eq op chk' h' n a' b' ta tb) by auto. reflexivity. }
  assert (W : ask_lt T op chk h n b a [] = ask_lt T op chk' h' n b' a' []).
  { rewrite (ask_lt_eq op chk h n b a tb ta), (ask_lt_eq op chk' h' n b' a' tb ta) by auto. reflexivity. }
  destruct r; unfold andthen; rewrite ?Q, ?R, ?W; reflexivity.
Qed.

Section Pure.
Context {T : Type}.
Variable f : T -> T -> bool.
Let op : user_op T := fun _ u v => Says (f u v).

Lemma follows_andthen {A} (m : talk T A) (o : outcome A) (g : A -> talk T bool) (k : A -> outcome bool) q :
  (match m q, o with Ok (Gave r _), Ok r' => r = r' | Abort, Abort => True | UB, UB => True | _, _ => False end) ->
  (forall a q, same_answer (g a q) (k a)) -> same_answer (andthen T m g q) (obind o k).
Proof.
  unfold andthen. destruct (m q) as [[x q'|q']| |], o as [y| |]; try tauto. intros ->. cbn [obind]. auto.
Qed.
Lemma follows_silently {A} (o : outcome A) (g : A -> talk T bool) (k : A -> outcome bool) q :
  (forall a q, same_answer (g a q) (k a)) -> same_answer (andthen T (silently T o) g q) (obind o k).
Proof. intros H. apply follows_andthen; auto. unfold silently. destruct o; cbn [obind]; auto. Qed.
Lemma follows_say b q : same_answer (say T b q) (Ok b).
Proof. reflexivity. Qed.

Lemma ask_equal_pure body body' : (forall x y q, same_answer (body x y q) (body' x y)) ->
  forall fuel f1 l1 f2 q, same_answer (ask_equal T body fuel f1 l1 f2 q) (equal_loop body' fuel f1 l1 f2).
Proof.
  intros H. induction fuel as [|fuel IH]; intros f1 l1 f2 q; cbn [ask_equal equal_loop]; destruct (it_equal f1 l1); try exact I; try reflexivity.
  apply follows_andthen; [apply H|]. intros [|] q'; [|reflexivity].
  apply follows_silently. intros a q2. apply follows_silently. intros b q3. apply IH.
Qed.
Lemma ask_lex_pure less less' : (forall x y q, same_answer (less x y q) (less' x y)) ->
  forall fuel f1 l1 f2 l2 q, same_answer (ask_lex T less fuel f1 l1 f2 l2 q) (lex_loop less' fuel f1 l1 f2 l2).
Proof.
  intros H. induction fuel as [|fuel IH]; intros f1 l1 f2 l2 q; cbn [ask_lex lex_loop]; destruct (it_equal f1 l1); try reflexivity; destruct (it_equal f2 l2); try exact I; try reflexivity.
  apply follows_andthen; [apply H|]. intros [|] q'; [reflexivity|].
  apply follows_andthen; [apply H|]. intros [|] q''; [reflexivity|].
  apply follows_silently. intros a q2. apply follows_silently. intros b q3. apply IH.
Qed.
Lemma ask_eq_pure chk h n : forall a b q, same_answer (ask_eq T op chk h n a b q) (nd_eq f chk h n a b).
Proof.
  induction n as [|n IH]; intros a b q; [exact I|]. cbn [ask_eq nd_eq]. destruct (list_eqb _ _); [|reflexivity].
  do 3 (apply follows_silently; intros ? ?). apply ask_equal_pure. intros x y q'. destruct n as [|n].
  - do 4 (apply follows_silently; intros ? ?). reflexivity.
  - do 2 (apply follows_silently; intros ? ?). apply IH.
Qed.
Lemma ask_lt_pure chk h n : forall a b q, same_answer (ask_lt T op chk h n a b q) (nd_lt f chk h n a b).
Proof.
  induction n as [|n IH]; intros a b q; [exact I|]. cbn [ask_lt nd_lt].
  do 4 (apply follows_silently; intros ? ?). apply ask_lex_pure. intros x y q'. destruct n as [|n].
  - do 4 (apply follows_silently; intros ? ?). reflexivity.
  - do 2 (apply follows_silently; intros ? ?). apply IH.
Qed.
End Pure.

(** an operator that is a function, and does not throw: the result is the one of
    the comparisons of C15-C17, for all arguments *)
Theorem c57_lawful_operators : forall (T : Type) (eqT ltT : T -> T -> bool) (h : heap T) chk r a b q,
  let op : user_op T := fun _ u v => Says (match r with CEq | CNe => eqT u v | _ => ltT u v end) in
  same_answer (ask_compare T op r chk h a b q) (compare eqT ltT r chk h a b).
Proof.
  intros T eqT ltT h chk r a b q op. unfold op, ask_compare, compare. destruct r.
  - apply ask_eq_pure.
  - apply follows_andthen; [apply (ask_eq_pure eqT)|reflexivity].
  - apply ask_lt_pure.
  - apply (ask_lt_pure ltT).
  - apply follows_andthen; [apply (ask_lt_pure ltT)|reflexivity].
  - apply follows_andthen; [apply (ask_lt_pure ltT)|reflexivity].
Qed.

(** a 2x3 array compared with itself: 6 calls for ==, 2^2*6 for <; with an
    operator that throws on its third call, three calls *)
Example ex_c57 :
  (match ask_compare Z (fun _ u v => Says (Z.eqb u v)) CEq true ex_heap (cr_nd ex_arr) (cr_nd ex_arr) [] with
   | Ok (Gave true q) => length q = 6%nat | _ => False end) /\
  (match ask_compare Z (fun _ u v => Says (Z.ltb u v)) CLt true ex_heap (cr_nd ex_arr) (cr_nd ex_arr) [] with
   | Ok (Gave false q) => length q = 24%nat | _ => False end) /\
  (match ask_compare Z (fun q u v => if Nat.eqb (length q) 2 then Throws else Says (Z.eqb u v)) CNe true ex_heap (cr_nd ex_arr) (cr_nd ex_arr) [] with
   | Ok (Broke q) => length q = 3%nat | _ => False end) /\
  array_object ex_arr /\ derived ex_arr (cr_nd ex_arr) /\ live ex_heap ex_arr.
Proof.
  split; [vm_compute; reflexivity|]. split; [vm_compute; reflexivity|]. split; [vm_compute; reflexivity|].
  split; [apply ex_arr_object|]. split; [constructor|apply ex_live].
Qed.
