(** AlgProofs.v -- generic algorithms on array iterators behave as on plain
    sequences (proofs for C46) *)

From Coq Require Import ZArith List Bool Lia.
From Verif Require Import Base StorageOrder Ranges Layout Access Objects Memory Ops MultiArray Algorithms
  Spec ViewSpec ReachSpec IterSpec MemSpec CompareSpec OwnSpec SeqSpec
  Facts LayoutProofs AccessProofs ViewProofs MemoryProofs CopyProofs ReachProofs
  ThmAddressing ThmViews ThmGeometry ThmIter ThmCopy ThmBulk CompareProofs ThmCompare OwnProofs ResizeProofs ThmMultiArray.
Import ListNotations.
Local Open Scope Z_scope.

(** * Lists *)

Lemma nth_error_firstn_lt {A} : forall (l : list A) k i, (i < k)%nat -> nth_error (firstn k l) i = nth_error l i.
Proof. induction l as [|x l IH]; intros [|k] [|i] H; simpl; auto; try lia. apply IH. lia. Qed.
Lemma nth_error_skipn_add {A} : forall k (l : list A) i, nth_error (skipn k l) i = nth_error l (k + i).
Proof. induction k as [|k IH]; intros [|x l] i; simpl; auto. destruct i; auto. Qed.
Lemma nth_error_list_ext {A} : forall l m : list A, (forall i, nth_error l i = nth_error m i) -> l = m.
Proof.
  induction l as [|x l IH]; intros [|y m] H; auto; try (specialize (H O); discriminate).
  pose proof (H O) as H0. injection H0 as ->. f_equal. apply IH. intros i. apply (H (S i)).
Qed.

Lemma valid_index_in_bounds : forall bs es i, valid_index bs es i = true -> in_bounds bs es i.
Proof.
  induction bs as [|b bs IH]; intros [|e es] [|k ks] H; simpl in *; try discriminate; auto.
  apply andb_prop in H. destruct H as [H1 H2]. apply andb_prop in H1. split; [lia|auto].
Qed.

Lemma shape_eqb_eq : forall a b, shape_eqb a b = true <-> a = b.
Proof.
  induction a as [|x a IH]; intros [|y b]; simpl; split; intros H; try discriminate; auto.
  - apply andb_prop in H. destruct H as [H1 H2]. apply Z.eqb_eq in H1. apply IH in H2. congruence.
  - injection H as -> ->. rewrite Z.eqb_refl. apply IH; auto.
Qed.
Lemma shape_eqb_list_eqb : forall a b, shape_eqb a b = list_eqb a b.
Proof.
  intros a b. destruct (shape_eqb a b) eqn:E.
  - apply shape_eqb_eq in E. subst. rewrite list_eqb_refl. auto.
  - symmetry. apply list_eqb_neq. intros ->. assert (shape_eqb b b = true) by (apply shape_eqb_eq; auto). congruence.
Qed.

Lemma length_tuples_nat : forall bs es, length bs = length es -> Forall (fun e => 0 <= e) es ->
  length (tuples bs es) = Z.to_nat (prod es).
Proof.
  induction bs as [|b bs IH]; intros [|e es] L F; simpl in L; try lia; [reflexivity|].
  inversion F as [|x y F1 F2]; subst. cbn [tuples].
  assert (H : forall l : list Z, length (flat_map (fun k => map (cons k) (tuples bs es)) l) = (length l * length (tuples bs es))%nat).
  { induction l as [|x l IHl]; simpl; auto. rewrite app_length, map_length, IHl. auto. }
  rewrite H. unfold zseq. rewrite map_length, seq_length, IH by auto.
  change (prod (e :: es)) with (e * prod es). rewrite Z2Nat.inj_mul; auto.
  clear - F2. induction F2; unfold prod; simpl; try lia. unfold prod in IHF2. nia.
Qed.

Lemma prod_nonneg : forall es, Forall (fun e => 0 <= e) es -> 0 <= prod es.
Proof. induction 1; unfold prod; simpl; try lia. unfold prod in IHForall. nia. Qed.

Lemma in_bounds_nonneg : forall bs es i, in_bounds bs es i -> Forall (fun e => 0 <= e) es.
Proof. induction bs as [|b bs IH]; intros [|e es] [|k ks] H; simpl in *; try tauto; constructor; [lia|eapply IH; apply H]. Qed.

Lemma row_major_nonneg : forall bs es i, in_bounds bs es i -> 0 <= row_major bs es i < prod es.
Proof.
  induction bs as [|b bs IH]; intros [|e es] [|k ks] H; simpl in *; try tauto; unfold prod; simpl; try lia.
  destruct H as [H1 H2]. pose proof (IH es ks H2). unfold prod in *. nia.
Qed.

(** tuple i is number [rank i] in the enumeration *)
Lemma nth_tuples : forall bs es i, in_bounds bs es i -> nth_error (tuples bs es) (rank bs es i) = Some i.
Proof.
  induction bs as [|b bs IH]; intros [|e es] [|k ks] H; simpl in H; try tauto; try reflexivity.
  destruct H as [H1 H2]. cbn [tuples]. unfold rank. cbn [row_major].
  pose proof (row_major_nonneg bs es ks H2) as R. pose proof (in_bounds_nonneg _ _ _ H2) as NN.
  pose proof (in_bounds_length _ _ _ H2) as [L _].
  assert (LT : length (tuples bs es) = Z.to_nat (prod es)) by (apply length_tuples_nat; auto).
  assert (G : forall n b0 j, (j < n)%nat -> forall r, (r < length (tuples bs es))%nat ->
     nth_error (flat_map (fun k => map (cons k) (tuples bs es)) (zseq b0 n)) (j * length (tuples bs es) + r) =
     option_map (cons (b0 + Z.of_nat j)) (nth_error (tuples bs es) r)).
  { induction n as [|n IHn]; intros b0 j Hj r Hr; [lia|]. rewrite zseq_S. cbn [flat_map].
    destruct j as [|j].
    - simpl. rewrite nth_error_app1 by (rewrite map_length; auto). rewrite nth_error_map. rewrite Z.add_0_r. reflexivity.
    - rewrite nth_error_app2 by (rewrite map_length; simpl; lia). rewrite map_length.
      replace (S j * length (tuples bs es) + r - length (tuples bs es))%nat with (j * length (tuples bs es) + r)%nat by (simpl; lia).
      rewrite IHn by lia. f_equal. f_equal. lia. }
  replace (Z.to_nat ((k - b) * prod es + row_major bs es ks))
    with (Z.to_nat (k - b) * length (tuples bs es) + Z.to_nat (row_major bs es ks))%nat.
  - rewrite G by lia. unfold rank in IH. rewrite IH by auto. simpl. do 2 f_equal. lia.
  - rewrite LT. pose proof (prod_nonneg es NN). rewrite Z2Nat.inj_add, Z2Nat.inj_mul by nia. auto.
Qed.

(** * Values of cells *)

Section Alg.
Context {T : Type}.
Variable dflt : T.
Variable eqT : T -> T -> bool.
Variable ltT : T -> T -> bool.

Definition vals (h : heap T) (ps : list ptr) (r : list T) : Prop :=
  map (hcell h) ps = map (fun v => Some (Some v)) r.

Lemma vals_length h ps r : vals h ps r -> length ps = length r.
Proof. intros H. apply (f_equal (@length _)) in H. rewrite !map_length in H. auto. Qed.
Lemma vals_nth h ps r k v : vals h ps r -> nth_error r k = Some v ->
  exists p, nth_error ps k = Some p /\ hcell h p = Some (Some v).
Proof.
  intros H Hk. assert (E : nth_error (map (hcell h) ps) k = Some (Some (Some v))).
  { rewrite H, nth_error_map, Hk. auto. }
  rewrite nth_error_map in E. destruct (nth_error ps k) as [p|]; [|discriminate]. exists p. split; auto. simpl in E. congruence.
Qed.
Lemma vals_in h ps r p : vals h ps r -> In p ps -> exists v, hcell h p = Some (Some v).
Proof.
  intros H Hi. apply In_nth_error in Hi. destruct Hi as [k Hk].
  assert (E : nth_error (map (hcell h) ps) k = Some (hcell h p)) by (rewrite nth_error_map, Hk; auto).
  rewrite H, nth_error_map in E. destruct (nth_error r k) as [v|]; simpl in E; [|discriminate]. exists v. congruence.
Qed.
Lemma vals_inj h ps r r' : vals h ps r -> vals h ps r' -> r = r'.
Proof.
  unfold vals. intros H1 H2. rewrite H1 in H2. revert r' H2. clear. induction r as [|x r IH]; intros [|y r'] H; simpl in H; try discriminate; auto.
  injection H as -> H. f_equal. auto.
Qed.
Lemma vals_same h h' ps r : vals h ps r -> (forall p, In p ps -> hcell h' p = hcell h p) -> vals h' ps r.
Proof. unfold vals. intros H E. rewrite <- H. apply map_ext_in. auto. Qed.

(** * Nested and flat contents *)

Fixpoint flatten (n : nat) : tensor T n -> list T :=
  match n with O => fun v => [v] | S k => fun l => flat_map (flatten k) l end.

Lemma entry_flatten : forall n t es, shaped n t es ->
  map (entry n t) (positions es) = map Some (flatten n t).
Proof.
  induction n as [|n IH]; intros t es H.
  - simpl in H. subst es. reflexivity.
  - destruct es as [|e es]; simpl in H; [tauto|]. destruct H as [He F]. unfold positions. cbn [repeat length tuples].
    fold (positions es). rewrite <- He, Nat2Z.id. cbn [flatten]. clear He.
    assert (G : forall (l pre : list (tensor T n)), Forall (fun r => shaped n r es) l ->
      map (entry (S n) (pre ++ l)) (flat_map (fun k => map (cons k) (positions es)) (zseq (Z.of_nat (length pre)) (length l))) =
      map Some (flat_map (flatten n) l)).
    { induction l as [|x l IHl]; intros pre Fl; [reflexivity|]. inversion Fl as [|y z F1 F2]; subst.
      simpl length. rewrite zseq_S. cbn [flat_map]. rewrite !map_app. f_equal.
      - rewrite map_map. rewrite <- (IH x es F1). apply map_ext. intros k. cbn [entry].
        rewrite Nat2Z.id, nth_error_app2, Nat.sub_diag by lia. reflexivity.
      - specialize (IHl (pre ++ [x]) F2). rewrite <- app_assoc in IHl. rewrite app_length in IHl. simpl in IHl.
        replace (Z.of_nat (length pre) + 1) with (Z.of_nat (length pre + 1)) by lia. exact IHl. }
    apply (G t [] F).
Qed.

Lemma contents_vals (h : heap T) a n t : nd_ok a -> contents h a n t -> vals h (addrs a) (flatten n t).
Proof.
  intros Ha (Hn & Hs & Hc). pose proof Ha as (L & _). unfold vals.
  pose proof (entry_flatten n t (nd_ext a) Hs) as E.
  unfold addrs. rewrite tuples_shift by auto. rewrite !map_map.
  transitivity (map (fun o => match o with Some v => Some (Some v) | None => None end) (map Some (flatten n t))).
  2:{ rewrite map_map. auto. }
  rewrite <- E, map_map. apply map_ext_in. intros k Hk. apply in_positions in Hk.
  destruct (Hc k Hk) as (v & -> & R). apply reads_iff in R; auto. apply tadd_in_bounds; auto.
Qed.

Lemma all_equal_app : forall l1 l2 l1' l2', length l1 = length l2 ->
  all_equal eqT (l1 ++ l1') (l2 ++ l2') = all_equal eqT l1 l2 && all_equal eqT l1' l2'.
Proof. induction l1 as [|x l1 IH]; intros [|y l2] l1' l2' H; simpl in *; try lia; auto. rewrite IH by lia. apply andb_assoc. Qed.
Lemma first_less_app : forall l1 l2 l1' l2', length l1 = length l2 ->
  first_less ltT (l1 ++ l1') (l2 ++ l2') = if first_less ltT l1 l2 then true else if first_less ltT l2 l1 then false else first_less ltT l1' l2'.
Proof.
  induction l1 as [|x l1 IH]; intros [|y l2] l1' l2' H; simpl in *; try lia; auto.
  rewrite IH by lia. destruct (ltT x y), (ltT y x); auto.
Qed.

Lemma flatten_length : forall n t u es, shaped n t es -> shaped n u es -> length (flatten n t) = length (flatten n u).
Proof.
  intros n t u es H1 H2. apply entry_flatten in H1. apply entry_flatten in H2.
  apply (f_equal (@length _)) in H1. apply (f_equal (@length _)) in H2. rewrite !map_length in *. congruence.
Qed.

Lemma flatten_eqb : forall n t u es, shaped n t es -> shaped n u es ->
  all_equal eqT (flatten n t) (flatten n u) = tensor_eqb eqT n t u.
Proof.
  induction n as [|n IH]; intros t u es H1 H2; [simpl; apply andb_true_r|].
  destruct es as [|e es]; simpl in H1, H2; [tauto|]. destruct H1 as [L1 F1], H2 as [L2 F2].
  cbn [tensor_eqb flatten]. assert (L : @length (tensor T n) t = @length (tensor T n) u) by (apply Nat2Z.inj; exact (eq_trans L1 (eq_sym L2))). clear L1 L2.
  revert u L F2. induction F1 as [|x t Hx F1 IHt]; intros [|y u] L F2; simpl in L; try lia; [reflexivity|].
  inversion F2 as [|z w Hy F2']; subst. cbn [flat_map alleqb]. rewrite all_equal_app by (eapply flatten_length; eauto).
  rewrite (IH x y es Hx Hy), IHt by (auto; lia). destruct (tensor_eqb eqT n x y); auto.
Qed.
Lemma flatten_ltb : forall n t u es, shaped n t es -> shaped n u es ->
  first_less ltT (flatten n t) (flatten n u) = tensor_ltb ltT n t u.
Proof.
  induction n as [|n IH]; intros t u es H1 H2; [simpl; destruct (ltT t u), (ltT u t); auto|].
  destruct es as [|e es]; simpl in H1, H2; [tauto|]. destruct H1 as [L1 F1], H2 as [L2 F2].
  cbn [tensor_ltb flatten]. assert (L : @length (tensor T n) t = @length (tensor T n) u) by (apply Nat2Z.inj; exact (eq_trans L1 (eq_sym L2))). clear L1 L2.
  revert u L F2. induction F1 as [|x t Hx F1 IHt]; intros [|y u] L F2; simpl in L; try lia; [reflexivity|].
  inversion F2 as [|z w Hy F2']; subst. cbn [flat_map lexb]. rewrite first_less_app by (eapply flatten_length; eauto).
  rewrite (IH x y es Hx Hy), (IH y x es Hy Hx), IHt by (auto; lia). destruct (tensor_ltb ltT n x y), (tensor_ltb ltT n y x); auto.
Qed.

Lemma vals_contents (h : heap T) a r n : nd_ok a -> vals h (addrs a) r -> length (nd_ext a) = n ->
  exists t, contents h a n t /\ flatten n t = r.
Proof.
  intros Ha Hv <-. destruct (contents_exist h a Ha) as (t & Ht).
  - intros i Hi. apply (vals_in h (addrs a) r); auto. apply in_addrs; auto. apply element_of_addr; auto. eauto.
  - exists t. split; auto. eapply vals_inj; eauto. apply contents_vals; auto.
Qed.

Lemma nd_eq_flat chk (h : heap T) a b u v : nd_ok a -> nd_ok b -> length (nd_ext a) = length (nd_ext b) ->
  vals h (addrs a) u -> vals h (addrs b) v ->
  nd_eq eqT chk h (length (nd_ext a)) a b = Ok (shape_eqb (nd_ext a) (nd_ext b) && all_equal eqT u v).
Proof.
  intros Ha Hb L Hu Hv. destruct (vals_contents h a u _ Ha Hu eq_refl) as (ta & Ca & <-). destruct (vals_contents h b v _ Hb Hv (eq_sym L)) as (tb & Cb & <-).
  rewrite (nd_eq_eq eqT ltT chk h _ a b ta tb) by auto. rewrite <- shape_eqb_list_eqb.
  destruct (shape_eqb (nd_ext a) (nd_ext b)) eqn:E; auto. cbn [andb]. apply shape_eqb_eq in E.
  f_equal. symmetry. apply (flatten_eqb _ ta tb (nd_ext a)); [apply Ca|]. destruct Cb as (_ & Cs & _). rewrite <- E in Cs. exact Cs.
Qed.
Lemma nd_lt_flat chk (h : heap T) a b u v : nd_ok a -> nd_ok b -> nd_ext a = nd_ext b ->
  vals h (addrs a) u -> vals h (addrs b) v ->
  nd_lt ltT chk h (length (nd_ext a)) a b = Ok (first_less ltT u v).
Proof.
  intros Ha Hb E Hu Hv. destruct (vals_contents h a u _ Ha Hu eq_refl) as (ta & Ca & <-).
  destruct (vals_contents h b v (length (nd_ext a)) Hb Hv) as (tb & Cb & <-); [congruence|].
  rewrite (nd_lt_eq eqT ltT chk h _ a b ta tb) by auto.
  f_equal. symmetry. apply (flatten_ltb _ ta tb (nd_ext a)); [apply Ca|]. destruct Cb as (_ & Cs & _). rewrite <- E in Cs. exact Cs.
Qed.

(** * Slots and their cells *)

Definition slot_addrs (l : list nd) (ts : list multi_array) (s : slot) : option (list ptr) :=
  match s with
  | SRow j p =>
      match nth_error l j with
      | Some a => match nd_base a, nd_ext a with
                  | b :: _, e :: _ => if (0 <=? p) && (p <? e) then Some (row_addrs a (b + p)) else None
                  | _, _ => None
                  end
      | None => None
      end
  | SSaved t => match nth_error ts t with Some m => Some (addrs (cr_nd (ma_ref m))) | None => None end
  end.

Record geo (l : list nd) (ts : list multi_array) : Prop := {
  g_ok : forall j a, nth_error l j = Some a -> nd_ok a /\ NoDup (addrs a) /\ rows_fit a;
  g_sep : separate l;
  g_ts : forall t m, nth_error ts t = Some m -> array_object (ma_ref m) /\ cr_data (ma_ref m) = ma_base m;
  g_blk : forall t m j a q, nth_error ts t = Some m -> nth_error l j = Some a -> In q (addrs a) -> p_blk q <> ma_block m;
  g_nodup : NoDup (map ma_block ts)
}.

Lemma flat_map_nodup {A B} (f : A -> list B) l : NoDup (flat_map f l) -> forall x, In x l -> NoDup (f x).
Proof.
  induction l as [|y l IH]; intros H x Hx; simpl in *; [tauto|].
  destruct Hx as [<-|Hx]; [apply NoDup_app_inv in H; apply H|apply IH; auto; apply NoDup_app_inv in H; apply H].
Qed.
Lemma nodup_app_disj {A} (l1 l2 : list A) : NoDup (l1 ++ l2) -> forall q, In q l1 -> ~ In q l2.
Proof.
  induction l1 as [|x l1 IH]; intros H q Hq H2; simpl in *; [tauto|]. inversion H as [|y z Hn Hd]; subst.
  destruct Hq as [<-|Hq]; [apply Hn; apply in_or_app; auto|]. apply (IH Hd q Hq H2).
Qed.
Lemma flat_map_disj {A B} (f : A -> list B) l : NoDup (flat_map f l) ->
  forall x y, In x l -> In y l -> x <> y -> forall q, In q (f x) -> ~ In q (f y).
Proof.
  induction l as [|z l IH]; intros H x y Hx Hy Hne q Hq Hq2; simpl in *; [tauto|].
  pose proof (nodup_app_disj _ _ H) as D.
  destruct Hx as [<-|Hx], Hy as [<-|Hy]; try tauto.
  - apply (D q Hq). apply in_flat_map. eauto.
  - apply (D q Hq2). apply in_flat_map. eauto.
  - apply (IH (proj1 (proj2 (NoDup_app_inv _ _ H))) x y Hx Hy Hne q Hq Hq2).
Qed.

Lemma row_slot l ts j p ps : slot_addrs l ts (SRow j p) = Some ps -> exists a b bs e es,
  nth_error l j = Some a /\ nd_base a = b :: bs /\ nd_ext a = e :: es /\ 0 <= p < e /\ ps = row_addrs a (b + p).
Proof.
  cbn [slot_addrs]. destruct (nth_error l j) as [a|]; [|discriminate].
  destruct (nd_base a) as [|b bs] eqn:Eb; [discriminate|]. destruct (nd_ext a) as [|e es] eqn:Ee; [discriminate|].
  destruct ((0 <=? p) && (p <? e)) eqn:Hp; [|discriminate]. intros H. apply andb_prop in Hp.
  exists a, b, bs, e, es. repeat (split; [solve [auto | lia]|]). congruence.
Qed.
Lemma in_zseq_p b e p : 0 <= p < e -> In (b + p) (zseq b (Z.to_nat e)).
Proof. intros H. apply in_zseq. lia. Qed.

Lemma slot_in_array l ts j p ps a : slot_addrs l ts (SRow j p) = Some ps -> nth_error l j = Some a ->
  forall q, In q ps -> In q (addrs a).
Proof.
  intros H Ha q Hq. destruct (row_slot _ _ _ _ _ H) as (a' & b & bs & e & es & Ha' & Eb & Ee & Hp & ->).
  rewrite Ha in Ha'. injection Ha' as <-. rewrite (addrs_rows a b bs e es Eb Ee). apply in_flat_map. exists (b + p). split; auto.
  apply in_zseq_p; auto.
Qed.

Lemma slots_nodup l ts s ps : geo l ts -> slot_addrs l ts s = Some ps -> NoDup ps.
Proof.
  intros G H. destruct s as [j p|t].
  - destruct (row_slot _ _ _ _ _ H) as (a & b & bs & e & es & Ha & Eb & Ee & Hp & ->).
    destruct (g_ok _ _ G j a Ha) as (_ & N & _). rewrite (addrs_rows a b bs e es Eb Ee) in N.
    apply (flat_map_nodup _ _ N). apply in_zseq_p; auto.
  - cbn [slot_addrs] in H. destruct (nth_error ts t) as [m|] eqn:Em; [|discriminate]. injection H as <-.
    destruct (g_ts _ _ G t m Em) as [Ho _]. apply (nodup_addrs (ma_ref m)); [auto|constructor].
Qed.

Lemma saved_block l ts t m : geo l ts -> nth_error ts t = Some m -> forall q, In q (addrs (cr_nd (ma_ref m))) -> p_blk q = ma_block m.
Proof.
  intros G Hm q Hq. destruct (g_ts _ _ G t m Hm) as [_ Hd]. unfold ma_block. rewrite <- Hd.
  unfold addrs in Hq. apply in_map_iff in Hq. destruct Hq as (i & <- & _). reflexivity.
Qed.

Lemma slots_disjoint l ts s1 s2 ps1 ps2 : geo l ts -> s1 <> s2 ->
  slot_addrs l ts s1 = Some ps1 -> slot_addrs l ts s2 = Some ps2 -> forall q, In q ps1 -> ~ In q ps2.
Proof.
  intros G Hne H1 H2 q Q1 Q2. destruct s1 as [j p|t], s2 as [j' p'|t'].
  - destruct (row_slot _ _ _ _ _ H1) as (a & b & bs & e & es & Ha & Eb & Ee & Hp & E1).
    destruct (row_slot _ _ _ _ _ H2) as (a' & b' & bs' & e' & es' & Ha' & Eb' & Ee' & Hp' & E2).
    destruct (Nat.eq_dec j j') as [<-|Hj].
    + rewrite Ha in Ha'. injection Ha' as <-. rewrite Eb in Eb'. injection Eb' as <- <-. rewrite Ee in Ee'. injection Ee' as <- <-.
      destruct (g_ok _ _ G j a Ha) as (_ & N & _). rewrite (addrs_rows a b bs e es Eb Ee) in N.
      subst ps1 ps2. apply (flat_map_disj _ _ N (b + p) (b + p') (in_zseq_p _ _ _ Hp) (in_zseq_p _ _ _ Hp')) with (q := q); auto.
      intros E. apply Hne. f_equal. lia.
    + apply (slot_in_array l ts j p ps1 a H1 Ha) in Q1. apply (slot_in_array l ts j' p' ps2 a' H2 Ha') in Q2.
      destruct (g_ok _ _ G j a Ha) as (O & _). destruct (g_ok _ _ G j' a' Ha') as (O' & _).
      apply (g_sep _ _ G j j' a a' Hj Ha Ha' q); apply in_addrs; auto.
  - destruct (row_slot _ _ _ _ _ H1) as (a & b & bs & e & es & Ha & _).
    apply (slot_in_array l ts j p ps1 a H1 Ha) in Q1. cbn [slot_addrs] in H2. destruct (nth_error ts t') as [m|] eqn:Em; [|discriminate].
    injection H2 as <-. apply (saved_block l ts t' m G Em) in Q2. apply (g_blk _ _ G t' m j a q Em Ha Q1 Q2).
  - destruct (row_slot _ _ _ _ _ H2) as (a & b & bs & e & es & Ha & _).
    apply (slot_in_array l ts j' p' ps2 a H2 Ha) in Q2. cbn [slot_addrs] in H1. destruct (nth_error ts t) as [m|] eqn:Em; [|discriminate].
    injection H1 as <-. apply (saved_block l ts t m G Em) in Q1. apply (g_blk _ _ G t m j' a q Em Ha Q2 Q1).
  - cbn [slot_addrs] in H1, H2. destruct (nth_error ts t) as [m|] eqn:Em; [|discriminate]. destruct (nth_error ts t') as [m'|] eqn:Em'; [|discriminate].
    injection H1 as <-. injection H2 as <-. apply (saved_block l ts t m G Em) in Q1. apply (saved_block l ts t' m' G Em') in Q2.
    apply Hne. f_equal. apply (proj1 (NoDup_nth_error (map ma_block ts)) (g_nodup _ _ G)).
    + rewrite map_length. apply nth_error_Some. rewrite Em. discriminate.
    + rewrite !nth_error_map, Em, Em'. simpl. congruence.
Qed.

(** * The state of an algorithm *)

Record models (h : heap T) (l : list nd) (ts : list multi_array) (st : seqs T) : Prop := {
  m_geo : geo l ts;
  m_arr : forall j, match nth_error l j, nth_error (ss_arrays st) j with
                    | Some a, Some q => exists b, nd_base a = b :: q_bases q /\ nd_ext a = q_len q :: q_shape q
                    | None, None => True
                    | _, _ => False
                    end;
  m_ts : forall t, match nth_error ts t, nth_error (ss_saved st) t with
                   | Some m, Some v => v_bases v = cr_ib (ma_ref m) /\ v_shape v = cr_ext (ma_ref m) /\ exists vs, owns h m vs
                   | None, None => True
                   | _, _ => False
                   end;
  m_val : forall s ps, slot_addrs l ts s = Some ps ->
            exists bases shape r, slot_get st s = Some (bases, shape, r) /\ vals h ps r
}.

Definition nonneg (s : slot) : Prop := match s with SRow _ p => 0 <= p | SSaved _ => True end.
Lemma slot_addrs_nonneg l ts s ps : slot_addrs l ts s = Some ps -> nonneg s.
Proof.
  intros H. destruct s as [j p|t]; [|exact I]. destruct (row_slot _ _ _ _ _ H) as (a & b & bs & e & es & _ & _ & _ & Hp & _).
  cbn [nonneg]. lia.
Qed.

Lemma slot_get_put_eq (st : seqs T) s bs sh r r' : slot_get st s = Some (bs, sh, r) ->
  slot_get (slot_put st s r') s = Some (bs, sh, r').
Proof.
  destruct s as [j p|t]; cbn [slot_get slot_put].
  - destruct (nth_error (ss_arrays st) j) as [q|] eqn:Ej; [|discriminate].
    destruct (nth_error (q_rows q) (Z.to_nat p)) as [r0|] eqn:Er; [|discriminate]. intros H. injection H as <- <- <-.
    cbn [ss_arrays]. rewrite nth_error_set_nth_eq by (apply nth_error_Some; congruence). cbn [q_rows q_bases q_shape].
    rewrite nth_error_set_nth_eq by (apply nth_error_Some; congruence). auto.
  - destruct (nth_error (ss_saved st) t) as [v|] eqn:Et; [|discriminate]. intros H. injection H as <- <- <-.
    cbn [ss_saved]. rewrite nth_error_set_nth_eq by (apply nth_error_Some; congruence). auto.
Qed.
Lemma slot_get_put_ne (st : seqs T) s s' r' : nonneg s -> nonneg s' -> s <> s' ->
  slot_get (slot_put st s r') s' = slot_get st s'.
Proof.
  intros N N' Hne. destruct s as [j p|t], s' as [j' p'|t']; cbn [slot_get slot_put nonneg] in *.
  - destruct (nth_error (ss_arrays st) j) as [q|] eqn:Ej; auto. cbn [ss_arrays].
    destruct (Nat.eq_dec j j') as [<-|Hj].
    + rewrite nth_error_set_nth_eq by (apply nth_error_Some; congruence). cbn [q_rows q_bases q_shape]. rewrite Ej.
      rewrite nth_error_set_nth_ne; auto. intros E. apply Hne. f_equal. lia.
    + rewrite nth_error_set_nth_ne by auto. auto.
  - destruct (nth_error (ss_arrays st) j); auto.
  - destruct (nth_error (ss_saved st) t); auto.
  - destruct (nth_error (ss_saved st) t) as [v|] eqn:Et; auto. cbn [ss_saved]. rewrite nth_error_set_nth_ne by congruence. auto.
Qed.

Lemma slot_eq_dec (s s' : slot) : {s = s'} + {s <> s'}.
Proof. decide equality; try apply Nat.eq_dec. apply Z.eq_dec. Qed.
Lemma in_ptr_dec (p : ptr) l : {In p l} + {~ In p l}.
Proof. apply in_dec. apply ptr_eq_dec. Qed.

(** one slot gets new elements *)
Lemma models_put h h' l ts st s ps bs sh r r' : models h l ts st ->
  slot_addrs l ts s = Some ps -> slot_get st s = Some (bs, sh, r) -> length r' = length r ->
  same_frame h h' -> vals h' ps r' -> (forall q, ~ In q ps -> hcell h' q = hcell h q) ->
  models h' l ts (slot_put st s r').
Proof.
  intros M Hs Hg L F V O. assert (I : forall p, init h p -> init h' p).
  { intros p Hp. destruct (in_ptr_dec p ps) as [Hi|Hn]; [eapply vals_in; eauto|]. unfold init. rewrite O by auto. exact Hp. }
  constructor.
  - apply M.
  - intros j. pose proof (m_arr _ _ _ _ M j) as Mj. destruct s as [j0 p|t]; cbn [slot_put].
    + cbn [slot_get] in Hg. destruct (nth_error (ss_arrays st) j0) as [q|] eqn:Ej; [|discriminate]. cbn [ss_arrays].
      destruct (Nat.eq_dec j0 j) as [<-|Hj].
      * rewrite nth_error_set_nth_eq by (apply nth_error_Some; congruence). rewrite Ej in Mj.
        destruct (nth_error l j0) as [a|]; auto. destruct Mj as (b & E1 & E2). exists b. cbn [q_bases q_shape]. split; auto.
        rewrite E2. f_equal. unfold q_len. cbn [q_rows]. rewrite length_set_nth. auto.
      * rewrite nth_error_set_nth_ne by auto. auto.
    + destruct (nth_error (ss_saved st) t); auto.
  - intros t. pose proof (m_ts _ _ _ _ M t) as Mt.
    assert (Own : forall m, (exists vs, owns h m vs) -> exists vs, owns h' m vs).
    { intros m [vs Hv]. eapply owns_frame; eauto. }
    destruct s as [j0 p|t0]; cbn [slot_put].
    + destruct (nth_error (ss_arrays st) j0); cbn [ss_saved]; destruct (nth_error ts t), (nth_error (ss_saved st) t); auto; intuition.
    + cbn [slot_get] in Hg. destruct (nth_error (ss_saved st) t0) as [v|] eqn:Et; [|discriminate]. cbn [ss_saved].
      destruct (Nat.eq_dec t0 t) as [<-|Ht].
      * rewrite nth_error_set_nth_eq by (apply nth_error_Some; congruence). rewrite Et in Mt.
        destruct (nth_error ts t0); auto. cbn [v_bases v_shape]. intuition.
      * rewrite nth_error_set_nth_ne by auto. destruct (nth_error ts t), (nth_error (ss_saved st) t); auto. intuition.
  - intros s2 ps2 H2. destruct (slot_eq_dec s s2) as [<-|Hne].
    + rewrite Hs in H2. injection H2 as <-. exists bs, sh, r'. split; auto. eapply slot_get_put_eq; eauto.
    + destruct (m_val _ _ _ _ M s2 ps2 H2) as (bs2 & sh2 & r2 & G2 & V2). exists bs2, sh2, r2. split.
      * rewrite slot_get_put_ne; auto; eapply slot_addrs_nonneg; eauto.
      * eapply vals_same; eauto. intros p Hp. apply O. apply (slots_disjoint l ts s2 s ps2 ps (m_geo _ _ _ _ M)); auto.
Qed.

(** what an algorithm does to the rest of memory *)
Record outside (l : list nd) (ts : list multi_array) (h h' : heap T) : Prop := {
  o_len : (length h <= length h')%nat;
  o_blocks : forall b, (b < length h)%nat ->
    match hblock h b, hblock h' b with
    | Some k, Some k' => b_alloc k = b_alloc k' /\ length (b_cells k) = length (b_cells k')
    | None, None => True
    | _, _ => False
    end;
  o_cells : forall q, (p_blk q < length h)%nat -> (forall j a, nth_error l j = Some a -> ~ In q (addrs a)) ->
    (forall t m, nth_error ts t = Some m -> p_blk q <> ma_block m) -> hcell h' q = hcell h q
}.
Lemma outside_refl l ts h : outside l ts h h.
Proof. constructor; auto. intros b _. destruct (hblock h b); auto. Qed.
Lemma outside_trans l ts h1 h2 h3 : outside l ts h1 h2 -> outside l ts h2 h3 -> outside l ts h1 h3.
Proof.
  intros A B. pose proof (o_len _ _ _ _ A) as LA. pose proof (o_len _ _ _ _ B). constructor; [lia| |].
  - intros b Hb. pose proof (o_blocks _ _ _ _ A b Hb) as X. pose proof (o_blocks _ _ _ _ B b ltac:(lia)) as Y.
    destruct (hblock h1 b), (hblock h2 b), (hblock h3 b); try tauto. intuition congruence.
  - intros q H1 H2 H3. rewrite (o_cells _ _ _ _ B) by (auto; lia). apply (o_cells _ _ _ _ A); auto.
Qed.
Lemma outside_put l ts h h' s ps : geo l ts -> slot_addrs l ts s = Some ps -> same_frame h h' ->
  (forall q, ~ In q ps -> hcell h' q = hcell h q) -> outside l ts h h'.
Proof.
  intros G Hs [L F] O. constructor; [lia|intros b _; apply F|].
  intros q _ H2 H3. apply O. intros Hq. destruct s as [j p|t].
  - destruct (row_slot _ _ _ _ _ Hs) as (a & b & bs & e & es & Ha & _). apply (H2 j a Ha). eapply slot_in_array; eauto.
  - cbn [slot_addrs] in Hs. destruct (nth_error ts t) as [m|] eqn:Em; [|discriminate]. injection Hs as <-.
    apply (H3 t m Em). eapply saved_block; eauto.
Qed.

(** * Iterators *)

Definition cur_rel (l : list nd) (c : cur) (cu : cursor) : Prop :=
  exists a b bs e es, nth_error l (c_seq c) = Some a /\ nd_base a = b :: bs /\ nd_ext a = e :: es /\ 0 <= c_pos c <= e /\
    cu = if c_rev c then CRev (RIter (it_at a (b + c_pos c))) else CFwd (it_at a (b + c_pos c)).

Lemma it_advance_at a k n : idx_min <= k + n <= idx_max -> it_advance (it_at a k) n = Ok (it_at a (k + n)).
Proof. intros H. unfold it_advance. cbn [it_idx it_at]. rewrite sadd_ok by auto. reflexivity. Qed.
Lemma it_dec_at a k : idx_min <= k - 1 <= idx_max -> it_dec (it_at a k) = Ok (it_at a (k - 1)).
Proof. intros H. unfold it_dec. cbn [it_idx it_at]. rewrite ssub_ok by auto. reflexivity. Qed.

Lemma nd_limits a b bs e es : nd_ok a -> nd_base a = b :: bs -> nd_ext a = e :: es ->
  0 <= e <= max_index /\ - max_index - 1 <= b /\ b + e <= max_index.
Proof.
  intros Ha Eb Ee. destruct (dims_at a Ha) as (b' & bs' & e' & es' & Eb' & Ee' & H1 & H2 & H3 & _).
  rewrite Eb in Eb'. rewrite Ee in Ee'. injection Eb' as <- <-. injection Ee' as <- <-. auto.
Qed.

Lemma move_ok h l ts st c cu n d : models h l ts st -> cur_rel l c cu -> cur_move st c n = Some d ->
  (exists cu', cu_advance cu n = Ok cu' /\ cur_rel l d cu') /\
  (n = 1 -> exists cu', cu_inc cu = Ok cu' /\ cur_rel l d cu') /\
  (n = -1 -> exists cu', cu_dec cu = Ok cu' /\ cur_rel l d cu').
Proof.
  intros M (a & b & bs & e & es & Ha & Eb & Ee & Hp & ->) Hm. unfold cur_move in Hm.
  destruct (g_ok _ _ (m_geo _ _ _ _ M) _ _ Ha) as (Hok & _). destruct (nd_limits a b bs e es Hok Eb Ee) as (L1 & L2 & L3).
  pose proof (m_arr _ _ _ _ M (c_seq c)) as Mj. rewrite Ha in Mj.
  destruct (nth_error (ss_arrays st) (c_seq c)) as [q|]; [|tauto]. destruct Mj as (b' & _ & Ee'). rewrite Ee in Ee'. injection Ee' as Eq _.
  destruct (c_rev c) eqn:Er.
  - destruct ((0 <=? c_pos c - n) && (c_pos c - n <=? q_len q)) eqn:Hb; [|discriminate]. apply andb_prop in Hb. injection Hm as <-.
    assert (R : forall k, k = b + (c_pos c - n) -> cur_rel l (Cur (c_seq c) true (c_pos c - n)) (CRev (RIter (it_at a k)))).
    { intros k ->. exists a, b, bs, e, es. cbn [c_seq c_rev c_pos]. repeat (split; [solve [auto | lia]|]). auto. }
    split; [|split].
    + eexists. split; [|apply (R (b + c_pos c + - n)); lia]. cbn [cu_advance]. unfold ri_advance. cbn [ri_base].
      rewrite ssub_ok by (unconst; lia). cbn [obind]. rewrite it_advance_at by (unconst; lia). cbn [obind]. do 3 f_equal.
    + intros ->. eexists. split; [|apply (R (b + c_pos c - 1)); lia]. cbn [cu_inc]. unfold ri_inc. cbn [ri_base].
      rewrite it_dec_at by (unconst; lia). reflexivity.
    + intros ->. eexists. split; [|apply (R (b + c_pos c + 1)); lia]. cbn [cu_dec]. unfold ri_dec. cbn [ri_base].
      rewrite it_inc_at by (unconst; lia). reflexivity.
  - destruct ((0 <=? c_pos c + n) && (c_pos c + n <=? q_len q)) eqn:Hb; [|discriminate]. apply andb_prop in Hb. injection Hm as <-.
    assert (R : forall k, k = b + (c_pos c + n) -> cur_rel l (Cur (c_seq c) false (c_pos c + n)) (CFwd (it_at a k))).
    { intros k ->. exists a, b, bs, e, es. cbn [c_seq c_rev c_pos]. repeat (split; [solve [auto | lia]|]). auto. }
    split; [|split].
    + eexists. split; [|apply (R (b + c_pos c + n)); lia]. cbn [cu_advance]. rewrite it_advance_at by (unconst; lia). reflexivity.
    + intros ->. eexists. split; [|apply (R (b + c_pos c + 1)); lia]. cbn [cu_inc]. rewrite it_inc_at by (unconst; lia). reflexivity.
    + intros ->. eexists. split; [|apply (R (b + c_pos c - 1)); lia]. cbn [cu_dec]. rewrite it_dec_at by (unconst; lia). reflexivity.
Qed.

Lemma distance_ok h l ts st c cu d du n : models h l ts st -> cur_rel l c cu -> cur_rel l d du -> cur_distance c d = Some n ->
  cu_distance cu du = Ok n /\ cu_equal cu du = Ok (n =? 0) /\ cu_less cu du = Ok (0 <? n).
Proof.
  intros M (a & b & bs & e & es & Ha & Eb & Ee & Hp & ->) (a' & b' & bs' & e' & es' & Ha' & Eb' & Ee' & Hp' & ->) H.
  unfold cur_distance in H. destruct (Nat.eqb_spec (c_seq c) (c_seq d)) as [E|]; [|discriminate].
  rewrite <- E, Ha in Ha'. injection Ha' as <-. rewrite Eb in Eb'. injection Eb' as <- <-. rewrite Ee in Ee'. injection Ee' as <- <-.
  destruct (g_ok _ _ (m_geo _ _ _ _ M) _ _ Ha) as (Hok & _). destruct (nd_limits a b bs e es Hok Eb Ee) as (L1 & L2 & L3).
  destruct (c_rev c), (c_rev d); try discriminate H; injection H as <-;
    cbn [cu_distance cu_equal cu_less]; unfold ri_distance, ri_equal, ri_less, ri_distance, it_less, it_distance;
    cbn [ri_base it_idx it_at]; rewrite it_equal_at; rewrite !ssub_ok by (unconst; lia); cbn [obind].
  - split; [f_equal; lia|]. split; f_equal; [destruct (Z.eqb_spec (b + c_pos c) (b + c_pos d)), (Z.eqb_spec (c_pos c - c_pos d) 0); auto; lia|].
    destruct (Z.ltb_spec (b + c_pos d - (b + c_pos c)) 0), (Z.ltb_spec 0 (c_pos c - c_pos d)); auto; lia.
  - split; [f_equal; lia|]. split; f_equal; [destruct (Z.eqb_spec (b + c_pos c) (b + c_pos d)), (Z.eqb_spec (c_pos d - c_pos c) 0); auto; lia|].
    destruct (Z.ltb_spec (b + c_pos c - (b + c_pos d)) 0), (Z.ltb_spec 0 (c_pos d - c_pos c)); auto; lia.
Qed.

(** * What a place refers to *)

Definition tg_ok (tg : target) (bases shape : list Z) (ps : list ptr) : Prop :=
  (bases = [] /\ shape = [] /\ exists q, tg = TgElem q /\ ps = [q]) \/
  (exists x, tg = TgRow x /\ nd_ok x /\ nd_base x = bases /\ nd_ext x = shape /\ ps = addrs x).

Lemma deref_ok chk a b bs e es p : nd_ok a -> nd_base a = b :: bs -> nd_ext a = e :: es -> 0 <= p < e ->
  exists tg, it_target chk (it_at a (b + p)) = Ok tg /\ tg_ok tg bs es (row_addrs a (b + p)) /\
    (idx_min <= b + p + 1 <= idx_max -> ri_target chk (RIter (it_at a (b + p + 1))) = Ok tg).
Proof.
  intros Ha Eb Ee Hp. destruct (nd_ok_shape a Ha) as (b1 & bs1 & e1 & es1 & s & ss & E1 & E2 & Es & LL1 & LL2 & _).
  rewrite Eb in E1. rewrite Ee in E2. injection E1 as <- <-. injection E2 as <- <-.
  destruct (nd_limits a b bs e es Ha Eb Ee) as (L1 & L2 & L3).
  unfold it_target, ri_target. cbn [ri_base]. cbn [it_ext it_at]. rewrite Ee. destruct es as [|e2 es].
  - destruct bs, ss; simpl in LL1, LL2; try lia.
    exists (TgElem (padd (nd_org a) ((b + p) * s))).
    assert (X : access_one chk (b + p) a = Ok (padd (nd_org a) ((b + p) * s))) by (eapply access_one_ok; eauto; lia).
    split; [|split].
    + unfold it_deref_one. rewrite it_nd_at. cbn [it_idx it_at]. rewrite X. reflexivity.
    + left. split; auto. split; auto. eexists. split; [reflexivity|]. unfold row_addrs. rewrite Eb, Ee. cbn [tl tuples map].
      unfold addr. rewrite Es. cbn [dot]. do 2 f_equal. lia.
    + intros Hi. rewrite ri_deref_one_at by (unconst; lia). rewrite X. reflexivity.
  - exists (TgRow (row a (b + p))).
    assert (X : access_n chk (b + p) a = Ok (row a (b + p))).
    { apply (access_n_row chk a (b + p) Ha) with (b := b) (e := e); try (rewrite ?Eb, ?Ee; simpl; auto; lia). }
    split; [|split].
    + unfold it_deref_n. rewrite it_nd_at. cbn [it_idx it_at]. rewrite X. reflexivity.
    + right. eexists. split; [reflexivity|]. split; [apply row_ok; auto; rewrite Ee; simpl; congruence|].
      unfold row at 1 2. cbn [nd_base nd_ext]. rewrite Eb, Ee. split; auto. split; auto. apply row_addrs_eq; auto.
    + intros Hi. rewrite ri_deref_n_at by (unconst; lia). rewrite X. reflexivity.
Qed.

Lemma place_ok h l ts st env vars chk p s : models h l ts st -> Forall2 (cur_rel l) env vars ->
  place_slot st env p = Some s -> exists tg ps bases shape r,
    place_target chk vars ts p = Ok tg /\ slot_addrs l ts s = Some ps /\ slot_get st s = Some (bases, shape, r) /\
    vals h ps r /\ tg_ok tg bases shape ps /\
    match s with
    | SRow j _ => exists a, nth_error l j = Some a /\ bases = tl (nd_base a) /\ shape = tl (nd_ext a)
    | SSaved t => p = PTemp t
    end.
Proof.
  intros M FV Hp. destruct p as [x n|t]; cbn [place_slot place_target] in *.
  - destruct (nth_error env x) as [c|] eqn:Ex; [|discriminate].
    destruct (Forall2_nth _ _ _ FV _ _ Ex) as (cu & Ecu & (a & b & bs & e & es & Ha & Eb & Ee & Hc & ->)). rewrite Ecu.
    destruct (g_ok _ _ (m_geo _ _ _ _ M) _ _ Ha) as (Hok & _). destruct (nd_limits a b bs e es Hok Eb Ee) as (L1 & L2 & L3).
    pose proof (m_arr _ _ _ _ M (c_seq c)) as Mj. rewrite Ha in Mj.
    destruct (nth_error (ss_arrays st) (c_seq c)) as [q|] eqn:Eq; [|tauto]. destruct Mj as (b' & Eb' & Ee'). rewrite Ee in Ee'. rewrite Eb in Eb'. injection Ee' as El Esh. injection Eb' as <- Ebs.
    remember (if c_rev c then c_pos c - n - 1 else c_pos c + n) as r0.
    destruct ((0 <=? r0) && (r0 <? q_len q)) eqn:Hr; [|discriminate]. injection Hp as <-. apply andb_prop in Hr.
    assert (Hs : slot_addrs l ts (SRow (c_seq c) r0) = Some (row_addrs a (b + r0))).
    { cbn [slot_addrs]. rewrite Ha, Eb, Ee. destruct ((0 <=? r0) && (r0 <? e)) eqn:Z; auto. apply andb_false_iff in Z. lia. }
    destruct (m_val _ _ _ _ M _ _ Hs) as (bases & shape & r & Hg & Hv).
    pose proof Hg as Hg2. cbn [slot_get] in Hg2. rewrite Eq in Hg2. destruct (nth_error (q_rows q) (Z.to_nat r0)); [|discriminate]. injection Hg2 as <- <- <-.
    destruct (deref_ok chk a b bs e es r0 Hok Eb Ee ltac:(lia)) as (tg & T1 & T2 & T3).
    exists tg, (row_addrs a (b + r0)), (q_bases q), (q_shape q), l0. split; [|split; [auto|split; [auto|split; [auto|split]]]].
    + destruct (c_rev c); cbn [cu_target].
      * unfold ri_advance. cbn [ri_base]. rewrite ssub_ok by (unconst; lia). cbn [obind]. rewrite it_advance_at by (unconst; lia). cbn [obind].
        rewrite <- T3 by (unconst; lia). do 3 f_equal. lia.
      * rewrite it_advance_at by (unconst; lia). cbn [obind]. rewrite <- T1. do 2 f_equal. lia.
    + rewrite <- Esh, <- Ebs. exact T2.
    + exists a. rewrite Eb, Ee. cbn [tl]. auto.
  - destruct (t <? length (ss_saved st))%nat eqn:Ht; [|discriminate]. injection Hp as <-. apply Nat.ltb_lt in Ht.
    pose proof (m_ts _ _ _ _ M t) as Mt. destruct (nth_error ts t) as [m|] eqn:Em.
    + destruct (nth_error (ss_saved st) t) as [v|] eqn:Ev; [|tauto]. destruct Mt as (E1 & E2 & vs & O).
      assert (Hs : slot_addrs l ts (SSaved t) = Some (addrs (cr_nd (ma_ref m)))) by (cbn [slot_addrs]; rewrite Em; auto).
      destruct (m_val _ _ _ _ M _ _ Hs) as (bases & shape & r & Hg & Hv). pose proof Hg as Hg2. cbn [slot_get] in Hg2. rewrite Ev in Hg2. injection Hg2 as <- <- <-.
      eexists _, _, _, _, _. split; [reflexivity|]. split; [exact Hs|]. split; [exact Hg|]. split; [exact Hv|]. split; auto.
      right. eexists. split; [reflexivity|]. split; [apply cref_addressable, array_object_ok, (g_ts _ _ (m_geo _ _ _ _ M) t m Em)|].
      cbn [cr_nd nd_base nd_ext]. auto.
    + destruct (nth_error (ss_saved st) t) eqn:Ev; [tauto|]. apply nth_error_None in Ev. lia.
Qed.


(** * Operations on places *)

Lemma nd_shape_nonneg x : nd_ok x -> Forall (fun e => 0 <= e) (nd_ext x).
Proof. intros (_ & _ & _ & F & _). rewrite Forall_forall in *. intros e He. apply F in He. lia. Qed.
Lemma length_addrs x : nd_ok x -> length (addrs x) = Z.to_nat (prod (nd_ext x)).
Proof.
  intros Hx. pose proof Hx as (L & _). unfold addrs. rewrite map_length. apply length_tuples_nat; auto.
  apply nd_shape_nonneg; auto.
Qed.
Lemma tg_length tg bs sh ps : tg_ok tg bs sh ps -> length ps = Z.to_nat (prod sh).
Proof.
  intros [(-> & -> & q & _ & ->)|(x & _ & Hx & _ & <- & ->)]; [reflexivity|]. apply length_addrs; auto.
Qed.

(** element i of a place *)
Lemma tg_elem chk tg bs sh ps i : tg_ok tg bs sh ps -> valid_index bs sh i = true -> exists p,
  nth_error ps (rank bs sh i) = Some p /\
  (forall w : world T, tg_read chk tg i w = load p w) /\
  (forall v (w : world T), tg_write chk tg i v w = bind tick (fun _ => store p v) w).
Proof.
  intros H Hi. apply valid_index_in_bounds in Hi. destruct H as [(-> & -> & q & -> & ->)|(x & -> & Hx & <- & <- & ->)].
  - destruct i; [|simpl in Hi; tauto]. exists q. repeat split; auto.
  - exists (addr x i). split; [|split].
    + unfold addrs. rewrite nth_error_map, nth_tuples by auto. reflexivity.
    + intros w. cbn [tg_read]. unfold get_element. rewrite access_element_ok by auto. destruct i; reflexivity.
    + intros v w. cbn [tg_write]. unfold set_element. rewrite access_element_ok by auto. destruct i; reflexivity.
Qed.

Lemma vals_set_nth h h' ps r k p v : vals h ps r -> NoDup ps -> nth_error ps k = Some p ->
  (forall q, hcell h' q = if ptr_eqb p q then Some (Some v) else hcell h q) ->
  vals h' ps (set_nth k v r).
Proof.
  intros V N Hk C. unfold vals in *. revert r k V Hk N. induction ps as [|q ps IH]; intros r k V Hk N; [destruct k; discriminate|].
  destruct r as [|x r]; [discriminate|]. cbn [map] in V. injection V as V1 V2. inversion N as [|y z N1 N2]; subst.
  destruct k as [|k].
  - cbn in Hk. injection Hk as ->. cbn [set_nth map]. f_equal; [rewrite C, ptr_eqb_refl; auto|].
    rewrite <- V2. apply map_ext_in. intros q Hq. rewrite C. destruct (ptr_eqb p q) eqn:E; auto. apply ptr_eqb_eq in E. congruence.
  - cbn in Hk. cbn [set_nth map]. f_equal; [|apply IH; auto].
    rewrite C. destruct (ptr_eqb p q) eqn:E; auto. apply ptr_eqb_eq in E. subst q. exfalso. apply N1. eapply nth_error_In; eauto.
Qed.

Lemma tg_assign_cells chk d s b1 b2 sh pd psrc (w : world T) : tg_ok d b1 sh pd -> tg_ok s b2 sh psrc ->
  tg_assign chk d s w = copy_cells (combine pd psrc) w.
Proof.
  intros [(-> & -> & q & -> & ->)|(x & -> & Hx & <- & E & ->)] [(-> & E2 & q2 & -> & ->)|(y & -> & Hy & <- & E2 & ->)].
  - cbn [tg_assign combine copy_cells]. unfold bind. destruct (elem_assign q q2 w); auto. destruct a. reflexivity.
  - exfalso. pose proof Hy as (_ & _ & H & _). rewrite E2 in H. simpl in H. lia.
  - exfalso. pose proof Hx as (_ & _ & H & _). rewrite E, E2 in H. simpl in H. lia.
  - cbn [tg_assign]. apply assign_nd_eq; auto; congruence.
Qed.

(** copying a list of cells, up to element k *)
Lemma vals_copied (h h' : heap T) pd psrc old new k : NoDup pd -> length pd = length psrc ->
  (psrc = pd \/ forall q, In q psrc -> ~ In q pd) -> vals h pd old -> vals h psrc new ->
  (forall q, hcell h' q = copy_sem (firstn k (combine pd psrc)) (hcell h) q) ->
  vals h' pd (firstn k new ++ skipn k old).
Proof.
  intros N L D Vd Vs C.
  assert (G : forall i p, nth_error pd i = Some p -> hcell h' p = hcell h (if (i <? k)%nat then nth i psrc p else p)).
  { intros i p Hi. rewrite C. destruct (Nat.ltb_spec i k) as [Hk|Hk].
    - assert (Hj : (i < length pd)%nat) by (apply nth_error_Some; congruence).
      apply copy_sem_disjoint.
      + rewrite <- firstn_map, map_fst_combine by auto. rewrite <- (firstn_skipn k pd) in N. apply NoDup_app_inv in N. apply N.
      + intros d s Hin. assert (In (d, s) (combine pd psrc)) as Hin2 by (rewrite <- (firstn_skipn k (combine pd psrc)); apply in_or_app; auto).
        destruct D as [->|D].
        * right. clear - Hin2. revert Hin2. induction pd as [|x pd IH]; simpl; [tauto|]. intros [E|E]; [congruence|auto].
        * left. rewrite <- firstn_map, map_fst_combine by auto. intros HH. apply (D s); [eapply in_combine_r; eauto|].
          rewrite <- (firstn_skipn k pd). apply in_or_app; auto.
      + assert (E : nth_error (combine pd psrc) i = Some (p, nth i psrc p)).
        { clear - Hi L. revert psrc i L Hi. induction pd as [|x pd IH]; intros [|y psrc] [|i] L Hi; simpl in *; try discriminate.
          - congruence.
          - apply IH; auto. }
        apply nth_error_In with (n := i). rewrite <- (firstn_skipn k (combine pd psrc)) in E. rewrite nth_error_app1 in E; auto.
        rewrite firstn_length, combine_length. lia.
    - apply copy_sem_other. rewrite <- firstn_map, map_fst_combine by auto. intros Hin.
      rewrite <- (firstn_skipn k pd) in N. apply NoDup_app_inv in N. destruct N as (_ & _ & N). apply (N p Hin).
      assert (E : nth_error (firstn k pd ++ skipn k pd) i = Some p) by (rewrite firstn_skipn; auto).
      rewrite nth_error_app2 in E by (rewrite firstn_length; lia). eapply nth_error_In; eauto. }
  unfold vals. apply nth_error_list_ext. intros i. rewrite !nth_error_map.
  pose proof (vals_length _ _ _ Vd) as Ld. pose proof (vals_length _ _ _ Vs) as Ls.
  destruct (nth_error pd i) as [p|] eqn:Ep.
  - assert (Hj : (i < length pd)%nat) by (apply nth_error_Some; congruence). cbn [option_map]. rewrite (G i p Ep).
    destruct (Nat.ltb_spec i k) as [Hk|Hk].
    + rewrite nth_error_app1 by (rewrite firstn_length; lia). rewrite nth_error_firstn_lt by auto.
      destruct (nth_error new i) as [v|] eqn:Ev; [|apply nth_error_None in Ev; lia].
      destruct (vals_nth h psrc new i v Vs Ev) as (q & Eq & Hq). rewrite (nth_error_nth _ _ p Eq), Hq. reflexivity.
    + rewrite nth_error_app2 by (rewrite firstn_length; lia). rewrite firstn_length, nth_error_skipn_add.
      replace (k + (i - Nat.min k (length new)))%nat with i by lia.
      destruct (nth_error old i) as [v|] eqn:Ev; [|apply nth_error_None in Ev; lia].
      destruct (vals_nth h pd old i v Vd Ev) as (q & Eq & Hq). assert (q = p) by congruence. subst q. rewrite Hq. reflexivity.
  - apply nth_error_None in Ep. cbn [option_map]. symmetry.
    assert (E : nth_error (firstn k new ++ skipn k old) i = None); [|rewrite E; auto].
    apply nth_error_None. rewrite app_length, firstn_length, skipn_length. lia.
Qed.

Lemma tg_equal_ok chk s t b1 b2 sh1 sh2 p1 p2 h f u v : tg_ok s b1 sh1 p1 -> tg_ok t b2 sh2 p2 -> length sh1 = length sh2 ->
  vals h p1 u -> vals h p2 v ->
  tg_equal eqT chk s t (World h f) = Done (shape_eqb sh1 sh2 && all_equal eqT u v) (World h f).
Proof.
  intros [(-> & -> & q & -> & ->)|(x & -> & Hx & <- & <- & ->)] [(-> & -> & q2 & -> & ->)|(y & -> & Hy & <- & <- & ->)] L Vu Vv.
  - destruct u as [|a [|]]; try discriminate Vu. destruct v as [|c [|]]; try discriminate Vv. injection Vu as Vu. injection Vv as Vv.
    cbn [tg_equal]. unfold bind, load, lift, hread. cbn [w_heap]. rewrite Vu. cbn [w_heap]. rewrite Vv. unfold ret. simpl. rewrite andb_true_r. reflexivity.
  - exfalso. pose proof Hy as (_ & _ & H & _). simpl in L. lia.
  - exfalso. pose proof Hx as (_ & _ & H & _). simpl in L. lia.
  - cbn [tg_equal]. cbn [w_heap]. rewrite (nd_eq_flat chk h x y u v) by auto. reflexivity.
Qed.
Lemma tg_less_ok chk s t b1 b2 sh p1 p2 h f u v : tg_ok s b1 sh p1 -> tg_ok t b2 sh p2 ->
  vals h p1 u -> vals h p2 v ->
  tg_less ltT chk s t (World h f) = Done (first_less ltT u v) (World h f).
Proof.
  intros [(-> & -> & q & -> & ->)|(x & -> & Hx & <- & <- & ->)] [(-> & E2 & q2 & -> & ->)|(y & -> & Hy & <- & E2 & ->)] Vu Vv.
  - destruct u as [|a [|]]; try discriminate Vu. destruct v as [|c [|]]; try discriminate Vv. injection Vu as Vu. injection Vv as Vv.
    cbn [tg_less]. unfold bind, load, lift, hread. cbn [w_heap]. rewrite Vu. cbn [w_heap]. rewrite Vv. unfold ret. simpl.
    destruct (ltT a c), (ltT c a); reflexivity.
  - exfalso. pose proof Hy as (_ & _ & H & _). rewrite E2 in H. simpl in H. lia.
  - exfalso. pose proof Hx as (_ & _ & H & _). rewrite E2 in H. simpl in H. lia.
  - cbn [tg_less]. cbn [w_heap]. rewrite (nd_lt_flat chk h x y u v) by auto. reflexivity.
Qed.

(** * Saving a row *)

Lemma save_ok chk x (h : heap T) f r : nd_ok x -> vals h (addrs x) r ->
  layout_ok (so_from_c (length (nd_ext x))) (nd_base x) (nd_ext x) ->
  (enough f (1 + length r + length r) -> exists m vs, let h1 := h ++ [Some (Block 0 (map Some vs))] in
     tg_save dflt chk (TgRow x) (World h f) = Done m (World h1 (spend f (1 + length r + length r))) /\
     owns h1 m vs /\ cr_ext (ma_ref m) = nd_ext x /\ cr_ib (ma_ref m) = nd_base x /\ ma_block m = length h /\
     vals h1 (addrs (cr_nd (ma_ref m))) r) /\
  (~ enough f (1 + length r + length r) -> exists h',
     tg_save dflt chk (TgRow x) (World h f) = Thrown (World h' None) /\ (h' = h \/ exists b, h' = h ++ [b])).
Proof.
  intros Hxok Hv Hlay. pose proof (proj1 (c02_named_orders_valid (length (nd_ext x)))) as Hso.
  set (so := so_from_c (length (nd_ext x))) in *.
  destruct (from_shape_ok chk null_ptr (nd_base x) (nd_ext x) so Hso Hlay) as (c' & Ec & Hcok & Eb & Es & Ee & Ei).
  assert (Hc' : array_object c') by (eapply ao_shape; eauto).
  pose proof (vals_length _ _ _ Hv) as Lr. pose proof (length_addrs x Hxok) as La.
  assert (HN : Z.to_nat (cr_num c') = length r).
  { destruct Hcok as (_ & _ & _ & _ & ->). rewrite Ee, <- Lr, La. auto. }
  assert (Lx : length (nd_base x) = length (nd_ext x)) by apply Hxok.
  assert (LP : length (positions (nd_ext x)) = length r).
  { rewrite <- Lr. unfold addrs. rewrite tuples_shift, !map_length by auto. auto. }
  cbn [tg_save]. rewrite (proj1 (c02_conversions_agree (length (nd_ext x)))). fold so.
  assert (LB : forall {A B} (a : A) (g : A -> M T B) w, bind (lift (Ok a)) g w = g a w) by reflexivity.
  rewrite !LB. unfold ma_convert. rewrite Ec. cbv zeta. rewrite !LB. clear LB.
  destruct (allocate_space_cases dflt c' 0 h f Hc') as [(k & Ef & Hk & [[K0 E]|[K0 E]])|[Hf EA]].
  - subst f. split; [intros Hf; simpl in Hf; lia|]. intros _. exists h. unfold bind at 1. rewrite E. auto.
  - subst f. split; [intros Hf; simpl in Hf; lia|]. intros _. eexists. unfold bind at 1. rewrite E. split; [reflexivity|]. right. eauto.
  - rewrite HN in Hf, EA.
    set (new := new_ma c' 0 (length h)) in *.
    assert (Hnew : nd_ok (cr_nd (ma_ref new))) by (apply cref_addressable, set_base_ok; auto).
    destruct (build_new dflt c' 0 h (positions (nd_ext x)) (fun k => addr x (tadd (nd_base x) k)) (spend f (1 + length r)) Hc' (nodup_positions _)) as [BD BT].
    { intros k Hk. apply in_positions in Hk. rewrite Ee. split; auto. apply (vals_in h (addrs x) r); auto. apply in_addrs; auto.
      apply element_of_addr; auto. eexists. split; [apply tadd_in_bounds; eauto|auto]. }
    fold new in BD, BT. rewrite HN in BD, BT. rewrite LP in BD, BT.
    assert (EC : forall w : world T, std_copy_nd chk (length (nd_ext x)) (cr_nd (ma_ref new)) x w =
      copy_cells (map (fun k => (addr (cr_nd (ma_ref new)) (tadd (cr_ib c') k), addr x (tadd (nd_base x) k))) (positions (nd_ext x))) w).
    { intros w. rewrite std_copy_nd_eq by (auto; exact Ee). rewrite copy_pairs by (auto; exact Ee).
      cbn [cr_nd nd_ext nd_base]. change (cr_ext (ma_ref new)) with (cr_ext c'). rewrite Ee. reflexivity. }
    unfold bind. rewrite EA, EC.
    assert (EN : enough f (1 + length r + length r) <-> enough (spend f (1 + length r)) (length r)).
    { rewrite enough_app. tauto. }
    split; intros Hf2; rewrite EN in Hf2.
    + destruct (BD Hf2) as (vs & E & HO & R1 & _). exists new, vs. cbv zeta. split; [rewrite E; unfold ret; rewrite spend_spend; reflexivity|].
      split; [exact HO|]. split; [exact Ee|]. split; [exact Ei|]. split; [reflexivity|].
      unfold vals. rewrite <- Hv. unfold addrs. cbn [cr_nd nd_base nd_ext]. change (cr_ib (ma_ref new)) with (cr_ib c'). change (cr_ext (ma_ref new)) with (cr_ext c').
      rewrite Ei, Ee. rewrite tuples_shift by auto. rewrite !map_map. apply map_ext_in. intros k Hk.
      pose proof Hk as Hk2. apply in_positions in Hk2. assert (B : in_bounds (nd_base x) (nd_ext x) (tadd (nd_base x) k)) by (apply tadd_in_bounds; auto).
      destruct (vals_in h (addrs x) r (addr x (tadd (nd_base x) k)) Hv) as [v Hvv].
      { apply in_addrs; auto. apply element_of_addr; eauto. }
      specialize (R1 k v Hk Hvv). apply reads_iff in R1; auto.
      * rewrite Hvv. rewrite <- Ei at 1. exact R1.
      * cbn [cr_nd nd_base nd_ext]. change (cr_ib (ma_ref new)) with (cr_ib c'). change (cr_ext (ma_ref new)) with (cr_ext c'). rewrite Ei, Ee. auto.
    + destruct (BT Hf2) as (vs & _ & E). eexists. rewrite E. split; [reflexivity|]. right. eauto.
Qed.


(** * Entering and leaving a block with a local variable *)

Lemma slot_addrs_app l ts m s ps : slot_addrs l ts s = Some ps -> slot_addrs l (ts ++ [m]) s = Some ps.
Proof.
  destruct s as [j p|t]; auto. cbn [slot_addrs]. destruct (nth_error ts t) as [x|] eqn:E; [|discriminate].
  rewrite nth_error_app1 by (apply nth_error_Some; congruence). rewrite E. auto.
Qed.
Lemma slot_addrs_app_inv l ts m s ps : slot_addrs l (ts ++ [m]) s = Some ps ->
  slot_addrs l ts s = Some ps \/ s = SSaved (length ts) /\ ps = addrs (cr_nd (ma_ref m)).
Proof.
  destruct s as [j p|t]; auto. cbn [slot_addrs]. destruct (Nat.lt_trichotomy t (length ts)) as [H|[->|H]].
  - rewrite nth_error_app1 by auto. auto.
  - rewrite nth_error_app2, Nat.sub_diag by auto. cbn. intros E. injection E as <-. auto.
  - rewrite nth_error_app2 by lia. destruct (t - length ts)%nat as [|[|]] eqn:E; try lia; discriminate.
Qed.
Lemma nth_snoc {A} (l : list A) x i y : nth_error (l ++ [x]) i = Some y -> nth_error l i = Some y \/ i = length l /\ y = x.
Proof.
  intros H. destruct (Nat.lt_trichotomy i (length l)) as [L|[->|L]].
  - rewrite nth_error_app1 in H by auto. auto.
  - rewrite nth_error_app2, Nat.sub_diag in H by auto. cbn in H. injection H as ->. auto.
  - rewrite nth_error_app2 in H by lia. destruct (i - length l)%nat as [|[|]] eqn:E; try lia; discriminate.
Qed.

Lemma slot_lt h l ts st s ps q : models h l ts st -> slot_addrs l ts s = Some ps -> In q ps -> (p_blk q < length h)%nat.
Proof.
  intros M Hs Hq. destruct (m_val _ _ _ _ M s ps Hs) as (bs & sh & r & _ & V). apply init_lt. eapply vals_in; eauto.
Qed.
Lemma array_lt h l ts st j a q : models h l ts st -> nth_error l j = Some a -> In q (addrs a) -> (p_blk q < length h)%nat.
Proof.
  intros M Ha Hq. destruct (g_ok _ _ (m_geo _ _ _ _ M) j a Ha) as (Hok & _).
  destruct (dims_at a Hok) as (b & bs & e & es & Eb & Ee & He & _). rewrite (addrs_rows a b bs e es Eb Ee) in Hq.
  apply in_flat_map in Hq. destruct Hq as (k & Hk & Hq). apply in_zseq in Hk.
  apply (slot_lt h l ts st (SRow j (k - b)) (row_addrs a k) q M); auto.
  cbn [slot_addrs]. rewrite Ha, Eb, Ee. destruct ((0 <=? k - b) && (k - b <? e)) eqn:Z; [do 2 f_equal; lia|].
  apply andb_false_iff in Z. lia.
Qed.
Lemma saved_lengths h l ts st : models h l ts st -> length (ss_saved st) = length ts.
Proof.
  intros M. destruct (Nat.lt_trichotomy (length (ss_saved st)) (length ts)) as [H|[H|H]]; auto; exfalso.
  - pose proof (m_ts _ _ _ _ M (length (ss_saved st))) as X. rewrite (proj2 (nth_error_None (ss_saved st) _)) in X by lia.
    destruct (nth_error ts (length (ss_saved st))) eqn:E; auto. apply nth_error_None in E. lia.
  - pose proof (m_ts _ _ _ _ M (length ts)) as X. rewrite (proj2 (nth_error_None ts _)) in X by lia.
    destruct (nth_error (ss_saved st) (length ts)) eqn:E; auto. apply nth_error_None in E. lia.
Qed.

Lemma models_save h l ts st m vs blk bases shape r : models h l ts st ->
  let h1 := h ++ [Some blk] in
  owns h1 m vs -> ma_block m = length h -> cr_ib (ma_ref m) = bases -> cr_ext (ma_ref m) = shape ->
  vals h1 (addrs (cr_nd (ma_ref m))) r ->
  models h1 l (ts ++ [m]) (Seqs (ss_arrays st) (ss_saved st ++ [Saved bases shape r])).
Proof.
  intros M h1 O Bm Eb Ee V. pose proof (saved_lengths _ _ _ _ M) as LS. constructor.
  - pose proof (m_geo _ _ _ _ M) as G. constructor.
    + apply G.
    + apply G.
    + intros t x Hx. apply nth_snoc in Hx. destruct Hx as [Hx|[_ ->]]; [eapply g_ts; eauto|]. destruct O as (O1 & O2 & _). auto.
    + intros t x j a q Hx Ha Hq. apply nth_snoc in Hx. destruct Hx as [Hx|[_ ->]]; [eapply g_blk; eauto|].
      rewrite Bm. pose proof (array_lt _ _ _ _ _ _ _ M Ha Hq). lia.
    + rewrite map_app. apply NoDup_app_intro; [apply G|constructor; [intros []|constructor]|].
      intros b Hb [E|[]]. apply in_map_iff in Hb. destruct Hb as (x & <- & Hx). apply In_nth_error in Hx. destruct Hx as [t Ht].
      pose proof (m_ts _ _ _ _ M t) as X. rewrite Ht in X. destruct (nth_error (ss_saved st) t); [|tauto].
      destruct X as (_ & _ & vs' & OX). apply owns_lt in OX. lia.
  - intros j. exact (m_arr _ _ _ _ M j).
  - intros t. cbn [ss_saved]. pose proof (m_ts _ _ _ _ M t) as X.
    destruct (Nat.lt_trichotomy t (length ts)) as [H|[->|H]].
    + rewrite !nth_error_app1 by lia. destruct (nth_error ts t) as [x|]; auto. destruct (nth_error (ss_saved st) t); auto.
      destruct X as (X1 & X2 & vs' & OX). split; auto. split; auto. exists vs'. apply (owns_other x vs' h); auto.
      unfold same_block. apply owns_lt in OX. unfold h1. rewrite nth_error_app1 by auto. auto.
    + rewrite nth_error_app2, Nat.sub_diag by lia. rewrite nth_error_app2, LS, Nat.sub_diag by lia. cbn. split; auto. split; auto. exists vs. auto.
    + rewrite (proj2 (nth_error_None (ts ++ [m]) t)) by (rewrite app_length; simpl; lia).
      rewrite (proj2 (nth_error_None (ss_saved st ++ _) t)) by (rewrite app_length; simpl; lia). auto.
  - intros s ps Hs. apply slot_addrs_app_inv in Hs. destruct Hs as [Hs|[-> ->]].
    + destruct (m_val _ _ _ _ M s ps Hs) as (bs & sh & r0 & Hg & Hv). exists bs, sh, r0. split.
      * destruct s as [j p|t]; auto. cbn [slot_get ss_saved] in *. destruct (nth_error (ss_saved st) t) eqn:E; [|discriminate].
        rewrite nth_error_app1 by (apply nth_error_Some; congruence). rewrite E. auto.
      * eapply vals_same; eauto. intros q Hq. unfold h1. apply hcell_app_l. eapply slot_lt; eauto.
    + exists bases, shape, r. split; auto. cbn [slot_get ss_saved]. rewrite nth_error_app2, LS, Nat.sub_diag by lia. reflexivity.
Qed.

Lemma hcell_free (h : heap T) b q : p_blk q <> b -> hcell (set_nth b None h) q = hcell h q.
Proof. intros H. unfold hcell. rewrite hblock_set_ne by auto. auto. Qed.

Lemma models_drop h l ts m st : models h l (ts ++ [m]) st ->
  models (set_nth (ma_block m) None h) l ts (Seqs (ss_arrays st) (firstn (length ts) (ss_saved st))).
Proof.
  intros M. pose proof (m_geo _ _ _ _ M) as G. pose proof (saved_lengths _ _ _ _ M) as LS. rewrite app_length in LS. simpl in LS.
  assert (Lm : nth_error (ts ++ [m]) (length ts) = Some m) by (rewrite nth_error_app2, Nat.sub_diag by auto; auto).
  assert (U : forall t x, nth_error ts t = Some x -> nth_error (ts ++ [m]) t = Some x).
  { intros t x H. rewrite nth_error_app1 by (apply nth_error_Some; congruence). auto. }
  constructor.
  - constructor.
    + apply G.
    + apply G.
    + intros t x Hx. eapply (g_ts _ _ G); eauto.
    + intros t x j a q Hx. eapply (g_blk _ _ G); eauto.
    + pose proof (g_nodup _ _ G) as N. rewrite map_app in N. apply NoDup_app_inv in N. apply N.
  - intros j. exact (m_arr _ _ _ _ M j).
  - intros t. cbn [ss_saved]. destruct (Nat.lt_ge_cases t (length ts)) as [H|H].
    + rewrite nth_error_firstn_lt by auto. pose proof (m_ts _ _ _ _ M t) as X. rewrite nth_error_app1 in X by auto.
      destruct (nth_error ts t) as [x|] eqn:Ex; auto. destruct (nth_error (ss_saved st) t); auto.
      destruct X as (X1 & X2 & vs & OX). split; auto. split; auto. exists vs. apply (owns_other x vs h); auto.
      unfold same_block. apply nth_error_set_nth_ne. intros E.
      pose proof (g_nodup _ _ G) as N. rewrite map_app in N. apply NoDup_app_inv in N. destruct N as (_ & _ & N).
      apply (N (ma_block x)); [apply in_map; eapply nth_error_In; eauto|]. left. auto.
    + rewrite !(proj2 (nth_error_None _ _)); auto. rewrite firstn_length. lia.
  - intros s ps Hs. destruct (m_val _ _ _ _ M s ps (slot_addrs_app _ _ _ _ _ Hs)) as (bs & sh & r & Hg & Hv).
    exists bs, sh, r. split.
    + destruct s as [j p|t]; auto. cbn [slot_get ss_saved slot_addrs] in *. destruct (nth_error ts t) eqn:E; [|discriminate].
      rewrite nth_error_firstn_lt by (apply nth_error_Some; congruence). auto.
    + eapply vals_same; eauto. intros q Hq. apply hcell_free. intros E.
      destruct s as [j p|t].
      * destruct (row_slot _ _ _ _ _ Hs) as (a & b & bs0 & e & es & Ha & _).
        apply (g_blk _ _ G (length ts) m j a q Lm Ha); auto. eapply slot_in_array; eauto.
      * assert (NE : SSaved t <> SSaved (length ts)).
        { intros E2. injection E2 as ->. cbn [slot_addrs] in Hs. rewrite (proj2 (nth_error_None ts _)) in Hs by auto. discriminate. }
        cbn [slot_addrs] in Hs. destruct (nth_error ts t) as [x|] eqn:Ex; [|discriminate]. injection Hs as <-.
        pose proof (saved_block l (ts ++ [m]) t x G (U t x Ex) q Hq) as E2.
        pose proof (g_nodup _ _ G) as N. rewrite map_app in N. apply NoDup_app_inv in N. destruct N as (_ & _ & N).
        apply (N (ma_block x)); [apply in_map; eapply nth_error_In; eauto|]. left. congruence.
Qed.

(** * Running an algorithm *)

Lemma spend_ops_some f n f' : spend_ops f n = Some f' -> enough f n /\ f' = spend f n.
Proof.
  destruct f as [k|]; simpl; [|intros H; injection H as <-; auto]. destruct (Nat.leb_spec n k); [|discriminate].
  intros E. injection E as <-. auto.
Qed.
Lemma spend_ops_none f n : spend_ops f n = None -> ~ enough f n /\ exists k, f = Some k /\ (k < n)%nat.
Proof.
  destruct f as [k|]; simpl; [|discriminate]. destruct (Nat.leb_spec n k); [discriminate|]. intros _. split; [lia|eauto].
Qed.

Definition good (l : list nd) (ts : list multi_array) (h h' : heap T) (qs : list (sequence T)) : Prop :=
  exists st', models h' l ts st' /\ ss_arrays st' = qs /\ outside l ts h h'.
Definition Post {A} (l : list nd) (ts : list multi_array) (h : heap T) (e : ending T A) (r : res T (A * list cursor)) : Prop :=
  match e with
  | Finished a env' st' f' => exists h' vars', r = Done (a, vars') (World h' f') /\ models h' l ts st' /\
      Forall2 (cur_rel l) env' vars' /\ outside l ts h h' /\
      (forall b, (length h <= b)%nat -> hblock h' b = None)
  | Stopped qs c => exists h', r = Thrown (World h' None) /\ good l ts h h' qs /\ released c h h'
  end.

Lemma no_leak_refl (h h' : heap T) : length h' = length h -> no_leak h h'.
Proof. intros L b Hb. unfold hblock. rewrite (proj2 (nth_error_None h' b)); auto. lia. Qed.

Lemma Post_step {A} l ts h h1 (e : ending T A) r : outside l ts h h1 ->
  ((length h1 <= length h)%nat \/ forall b, (length h <= b)%nat -> hblock h1 b = None) ->
  Post l ts h1 e r -> Post l ts h e r.
Proof.
  intros O L. destruct e as [a env' st' f'|qs c]; cbn [Post].
  - intros (h' & vars' & E & M & FV & O' & F). exists h', vars'. split; auto. split; auto. split; auto. split; [eapply outside_trans; eauto|].
    intros b Hb. destruct L as [L|L]; [apply F; lia|]. destruct (Nat.lt_ge_cases b (length h1)) as [H1|H1]; [|apply F; auto].
    pose proof (o_blocks _ _ _ _ O' b H1) as X. rewrite (L b Hb) in X. destruct (hblock h' b); tauto.
  - intros (h' & E & (st' & M & Q & O') & RL). exists h'. split; auto. split.
    + exists st'. split; auto. split; auto. eapply outside_trans; eauto.
    + assert (B : forall b, (length h <= b < length h1)%nat -> hblock h' b = None).
      { intros b [Hb H1]. destruct L as [L|L]; [lia|]. pose proof (o_blocks _ _ _ _ O' b H1) as X. rewrite (L b Hb) in X. destruct (hblock h' b); tauto. }
      destruct c; cbn [released] in *.
      * destruct RL as [x RL]. exists x. intros b Hb Hx. destruct (Nat.lt_ge_cases b (length h1)); [apply B; auto|apply RL; auto].
      * intros b Hb. destruct (Nat.lt_ge_cases b (length h1)); [apply B; auto|apply RL; auto].
Qed.

Lemma Forall2_firstn {A B} (R : A -> B -> Prop) : forall n l m, Forall2 R l m -> Forall2 R (firstn n l) (firstn n m).
Proof. intros n l m H. revert n. induction H; intros [|n]; simpl; constructor; auto. Qed.

Lemma Forall2_set_nth {A B} (R : A -> B -> Prop) : forall l m i x y, Forall2 R l m -> R x y -> Forall2 R (set_nth i x l) (set_nth i y m).
Proof.
  intros l m i x y H Hx. revert i. induction H as [|u v l m Huv H IH]; intros [|i]; simpl; constructor; auto.
Qed.
Lemma Forall2_snoc {A B} (R : A -> B -> Prop) l m x y : Forall2 R l m -> R x y -> Forall2 R (l ++ [x]) (m ++ [y]).
Proof. intros H Hx. apply Forall2_app; auto. Qed.

Lemma bind_done {A B} (m : M T A) (g : A -> M T B) w a w' : m w = Done a w' -> bind m g w = g a w'.
Proof. intros E. unfold bind. rewrite E. auto. Qed.
Lemma bind_thrown {A B} (m : M T A) (g : A -> M T B) w w' : m w = Thrown w' -> bind m g w = Thrown w'.
Proof. intros E. unfold bind. rewrite E. auto. Qed.
Lemma variable_done {A} (vs : list A) x v (w : world T) : nth_error vs x = Some v -> variable vs x w = Done v w.
Proof. intros E. unfold variable. rewrite E. auto. Qed.
Lemma lift_done {A} (o : outcome A) a (w : world T) : o = Ok a -> lift o w = Done a w.
Proof. intros ->. auto. Qed.

Theorem run_ok {A} (chk : bool) (l : list nd) (alg : algorithm T A) : forall vars ts env st f h e,
  models h l ts st -> Forall2 (cur_rel l) env vars ->
  on_sequences eqT ltT alg env st f = Some e ->
  Post l ts h e (run_algorithm dflt eqT ltT chk alg vars ts (World h f)).
Proof.
  induction alg as [A a|A x k IH|A x k IH|A x k IH|A x y k IH|A x k IH|A x k IH|A x n k IH|A x y k IH|A x y k IH|A x y k IH
                    |A p i k IH|A p i v k IH|A p q k IH|A p q k IH|A p q k IH|A B p body IHb k IH];
    intros vars ts env st f h e M FV H; cbn [on_sequences run_algorithm] in *.
  - (* return *)
    injection H as <-. cbn [Post]. exists h, vars. split; [reflexivity|]. split; [auto|]. split; [auto|]. split; [apply outside_refl|].
    intros b Hb. unfold hblock. rewrite (proj2 (nth_error_None h b)) by auto. auto.
  - (* copy *)
    destruct (nth_error env x) as [c|] eqn:Ex; [|discriminate]. destruct (Forall2_nth _ _ _ FV _ _ Ex) as (cu & Ecu & R).
    rewrite (bind_done _ _ _ _ _ (variable_done _ _ _ _ Ecu)). eapply IH; eauto. apply Forall2_snoc; auto.
  - (* reverse *)
    destruct (nth_error env x) as [[j [|] pos]|] eqn:Ex; try discriminate. destruct (Forall2_nth _ _ _ FV _ _ Ex) as (cu & Ecu & R).
    rewrite (bind_done _ _ _ _ _ (variable_done _ _ _ _ Ecu)). destruct R as (a & b & bs & e0 & es & Ha & Eb & Ee & Hp & ->).
    cbn [c_rev c_pos c_seq] in *. eapply IH; eauto. apply Forall2_snoc; auto. exists a, b, bs, e0, es. auto.
  - (* base *)
    destruct (nth_error env x) as [[j [|] pos]|] eqn:Ex; try discriminate. destruct (Forall2_nth _ _ _ FV _ _ Ex) as (cu & Ecu & R).
    rewrite (bind_done _ _ _ _ _ (variable_done _ _ _ _ Ecu)). destruct R as (a & b & bs & e0 & es & Ha & Eb & Ee & Hp & ->).
    cbn [c_rev c_pos c_seq] in *. eapply IH; eauto. apply Forall2_snoc; auto. exists a, b, bs, e0, es. auto.
  - (* set *)
    destruct (nth_error env x) as [c|] eqn:Ex; [|discriminate]. destruct (nth_error env y) as [d|] eqn:Ey; [|discriminate].
    destruct (Forall2_nth _ _ _ FV _ _ Ex) as (cu & Ecu & R). destruct (Forall2_nth _ _ _ FV _ _ Ey) as (du & Edu & R').
    rewrite (bind_done _ _ _ _ _ (variable_done _ _ _ _ Ecu)), (bind_done _ _ _ _ _ (variable_done _ _ _ _ Edu)).
    eapply IH; eauto. apply Forall2_set_nth; auto.
  - (* ++ *)
    destruct (nth_error env x) as [c|] eqn:Ex; [|discriminate]. destruct (cur_move st c 1) as [d|] eqn:Em; [|discriminate].
    destruct (Forall2_nth _ _ _ FV _ _ Ex) as (cu & Ecu & R). destruct (move_ok _ _ _ _ _ _ _ _ M R Em) as (_ & X & _).
    destruct (X eq_refl) as (cu' & E & R').
    rewrite (bind_done _ _ _ _ _ (variable_done _ _ _ _ Ecu)), (bind_done _ _ _ _ _ (lift_done _ _ _ E)).
    eapply IH; eauto. apply Forall2_set_nth; auto.
  - (* -- *)
    destruct (nth_error env x) as [c|] eqn:Ex; [|discriminate]. destruct (cur_move st c (-1)) as [d|] eqn:Em; [|discriminate].
    destruct (Forall2_nth _ _ _ FV _ _ Ex) as (cu & Ecu & R). destruct (move_ok _ _ _ _ _ _ _ _ M R Em) as (_ & _ & X).
    destruct (X eq_refl) as (cu' & E & R').
    rewrite (bind_done _ _ _ _ _ (variable_done _ _ _ _ Ecu)), (bind_done _ _ _ _ _ (lift_done _ _ _ E)).
    eapply IH; eauto. apply Forall2_set_nth; auto.
  - (* += *)
    destruct (nth_error env x) as [c|] eqn:Ex; [|discriminate]. destruct (cur_move st c n) as [d|] eqn:Em; [|discriminate].
    destruct (Forall2_nth _ _ _ FV _ _ Ex) as (cu & Ecu & R). destruct (move_ok _ _ _ _ _ _ _ _ M R Em) as ((cu' & E & R') & _).
    rewrite (bind_done _ _ _ _ _ (variable_done _ _ _ _ Ecu)), (bind_done _ _ _ _ _ (lift_done _ _ _ E)).
    eapply IH; eauto. apply Forall2_set_nth; auto.
  - (* distance *)
    destruct (nth_error env x) as [c|] eqn:Ex; [|discriminate]. destruct (nth_error env y) as [d|] eqn:Ey; [|discriminate].
    destruct (Forall2_nth _ _ _ FV _ _ Ex) as (cu & Ecu & R). destruct (Forall2_nth _ _ _ FV _ _ Ey) as (du & Edu & R').
    destruct (cur_distance c d) as [n|] eqn:Ed; [|discriminate]. destruct (distance_ok _ _ _ _ _ _ _ _ _ M R R' Ed) as (E1 & E2 & E3).
    rewrite (bind_done _ _ _ _ _ (variable_done _ _ _ _ Ecu)), (bind_done _ _ _ _ _ (variable_done _ _ _ _ Edu)), (bind_done _ _ _ _ _ (lift_done _ _ _ E1)).
    eapply IH; eauto.
  - (* == *)
    destruct (nth_error env x) as [c|] eqn:Ex; [|discriminate]. destruct (nth_error env y) as [d|] eqn:Ey; [|discriminate].
    destruct (Forall2_nth _ _ _ FV _ _ Ex) as (cu & Ecu & R). destruct (Forall2_nth _ _ _ FV _ _ Ey) as (du & Edu & R').
    destruct (cur_distance c d) as [n|] eqn:Ed; [|discriminate]. destruct (distance_ok _ _ _ _ _ _ _ _ _ M R R' Ed) as (E1 & E2 & E3).
    rewrite (bind_done _ _ _ _ _ (variable_done _ _ _ _ Ecu)), (bind_done _ _ _ _ _ (variable_done _ _ _ _ Edu)), (bind_done _ _ _ _ _ (lift_done _ _ _ E2)).
    eapply IH; eauto.
  - (* < *)
    destruct (nth_error env x) as [c|] eqn:Ex; [|discriminate]. destruct (nth_error env y) as [d|] eqn:Ey; [|discriminate].
    destruct (Forall2_nth _ _ _ FV _ _ Ex) as (cu & Ecu & R). destruct (Forall2_nth _ _ _ FV _ _ Ey) as (du & Edu & R').
    destruct (cur_distance c d) as [n|] eqn:Ed; [|discriminate]. destruct (distance_ok _ _ _ _ _ _ _ _ _ M R R' Ed) as (E1 & E2 & E3).
    rewrite (bind_done _ _ _ _ _ (variable_done _ _ _ _ Ecu)), (bind_done _ _ _ _ _ (variable_done _ _ _ _ Edu)), (bind_done _ _ _ _ _ (lift_done _ _ _ E3)).
    eapply IH; eauto.
  - (* read *)
    destruct (place_slot st env p) as [s|] eqn:Ep; [|discriminate].
    destruct (place_ok _ _ _ _ _ _ chk _ _ M FV Ep) as (tg & ps & bs & sh & r & Et & Hs & Hg & V & TG & _). rewrite Hg in H.
    destruct (valid_index bs sh i) eqn:Hi; [|discriminate]. destruct (nth_error r (rank bs sh i)) as [v|] eqn:Ev; [|discriminate].
    destruct (tg_elem chk tg bs sh ps i TG Hi) as (q & Eq & ER & _). destruct (vals_nth _ _ _ _ _ V Ev) as (q' & Eq' & Hq).
    assert (q' = q) by congruence. subst q'.
    rewrite (bind_done _ _ _ _ _ (lift_done _ _ _ Et)). erewrite bind_done.
    2:{ rewrite ER. unfold load, lift, hread. cbn [w_heap]. rewrite Hq. reflexivity. }
    eapply IH; eauto.
  - (* write *)
    destruct (place_slot st env p) as [s|] eqn:Ep; [|discriminate].
    destruct (place_ok _ _ _ _ _ _ chk _ _ M FV Ep) as (tg & ps & bs & sh & r & Et & Hs & Hg & V & TG & _). rewrite Hg in H.
    destruct (valid_index bs sh i) eqn:Hi; [|discriminate].
    destruct (tg_elem chk tg bs sh ps i TG Hi) as (q & Eq & _ & EW).
    rewrite (bind_done _ _ _ _ _ (lift_done _ _ _ Et)).
    destruct (spend_ops f 1) as [f'|] eqn:Ef.
    + apply spend_ops_some in Ef. destruct Ef as [Hf ->].
      assert (Hinit : init h q) by (eapply vals_in; eauto; eapply nth_error_In; eauto).
      destruct (store_spec h q v (spend f 1) Hinit) as (h1 & E1 & F1 & C1).
      erewrite bind_done.
      2:{ rewrite EW. erewrite bind_done; [exact E1|]. unfold tick. cbn [w_fuse w_heap]. destruct f as [[|n]|]; simpl in Hf; try lia; simpl; rewrite ?Nat.sub_0_r; reflexivity. }
      assert (NI : forall q', ~ In q' ps -> hcell h1 q' = hcell h q').
      { intros q' Hn. rewrite C1. destruct (ptr_eqb q q') eqn:E; auto. apply ptr_eqb_eq in E. subst q'. exfalso. apply Hn. eapply nth_error_In; eauto. }
      apply (Post_step l ts h h1); [eapply outside_put; eauto; apply M|left; rewrite (proj1 F1); auto|].
      eapply IH; eauto. eapply models_put; eauto; [apply length_set_nth|].
      eapply vals_set_nth; eauto. eapply slots_nodup; eauto. apply M.
    + apply spend_ops_none in Ef. destruct Ef as (_ & k0 & -> & Hk). injection H as <-. assert (k0 = O) by lia. subst k0.
      cbn [Post]. exists h. split; [|split; [exists st; split; auto; split; auto; apply outside_refl|apply no_leak_refl; auto]].
      apply bind_thrown. rewrite EW. apply bind_thrown. reflexivity.
  - (* assign *)
    destruct (place_slot st env p) as [s|] eqn:Ep; [|discriminate]. destruct (place_slot st env q) as [t|] eqn:Eq; [|discriminate].
    destruct (place_ok _ _ _ _ _ _ chk _ _ M FV Ep) as (tg & ps & bs & sh & r & Et & Hs & Hg & V & TG & K1).
    destruct (place_ok _ _ _ _ _ _ chk _ _ M FV Eq) as (tg2 & ps2 & bs2 & sh2 & r2 & Et2 & Hs2 & Hg2 & V2 & TG2 & K2). rewrite Hg, Hg2 in H.
    rewrite (bind_done _ _ _ _ _ (lift_done _ _ _ Et2)), (bind_done _ _ _ _ _ (lift_done _ _ _ Et)).
    assert (SV : same_variable p q = same_saved s t).
    { assert (PR : forall z j0 r0, place_slot st env z = Some (SRow j0 r0) -> exists x n, z = PAt x n).
      { intros [x n|t0] j0 r0 Z; eauto. cbn [place_slot] in Z. destruct (t0 <? length (ss_saved st))%nat; discriminate. }
      destruct s as [j r0|t0]; [destruct (PR _ _ _ Ep) as (x & n & ->); destruct t; reflexivity|]. subst p.
      destruct t as [j r0|t1]; [destruct (PR _ _ _ Eq) as (x & n & ->); reflexivity|]. subst q. reflexivity. }
    rewrite SV. destruct (same_saved s t) eqn:SS.
    + unfold ret, bind. eapply IH; eauto.
    + destruct (shape_eqb sh sh2) eqn:Esh; [|discriminate]. apply shape_eqb_eq in Esh. subst sh2.
      pose proof (slots_nodup _ _ _ _ (m_geo _ _ _ _ M) Hs) as ND.
      assert (LL : length ps = length ps2) by (rewrite (tg_length _ _ _ _ TG), (tg_length _ _ _ _ TG2); auto).
      pose proof (vals_length _ _ _ V) as LV. pose proof (vals_length _ _ _ V2) as LV2.
      assert (DD : ps2 = ps \/ forall z, In z ps2 -> ~ In z ps).
      { destruct (slot_eq_dec t s) as [->|Hne]; [left; congruence|right]. eapply slots_disjoint; eauto. apply M. }
      assert (HI : forall d0 s0, In (d0, s0) (combine ps ps2) -> init h d0 /\ init h s0).
      { intros d0 s0 Hin. split; [apply (vals_in h ps r); auto; eapply in_combine_l; eauto|apply (vals_in h ps2 r2); auto; eapply in_combine_r; eauto]. }
      assert (LC : length (combine ps ps2) = length r2) by (rewrite combine_length; lia).
      assert (NI : forall k0 h1, (forall z, hcell h1 z = copy_sem (firstn k0 (combine ps ps2)) (hcell h) z) ->
                   forall z, ~ In z ps -> hcell h1 z = hcell h z).
      { intros k0 h1 C1 z Hz. rewrite C1. apply copy_sem_other. rewrite <- firstn_map, map_fst_combine by auto.
        intros Hin. apply Hz. rewrite <- (firstn_skipn k0 ps). apply in_or_app; auto. }
      destruct (spend_ops f (length r2)) as [f'|] eqn:Ef.
      * apply spend_ops_some in Ef. destruct Ef as [Hf ->].
        destruct (copy_cells_done (combine ps ps2) h f HI) as (h1 & E1 & F1 & C1 & _).
        { rewrite LC. exact Hf. }
        erewrite bind_done.
        2:{ rewrite (tg_assign_cells chk tg tg2 bs bs2 sh ps ps2) by auto. exact E1. }
        assert (C2 : forall z, hcell h1 z = copy_sem (firstn (length r2) (combine ps ps2)) (hcell h) z).
        { intros z. rewrite firstn_all2 by lia. apply C1. }
        apply (Post_step l ts h h1); [eapply (outside_put l ts h h1 s ps); [apply M|auto|auto|eapply NI; eauto]|left; rewrite (proj1 F1); auto|].
        rewrite LC. eapply IH; eauto. eapply models_put; eauto; [lia|].
        pose proof (vals_copied h h1 ps ps2 r r2 (length r2) ND LL DD V V2 C2) as X.
        rewrite firstn_all, skipn_all2, app_nil_r in X by lia. exact X.
      * apply spend_ops_none in Ef. destruct Ef as (_ & k0 & -> & Hk). injection H as <-.
        destruct (copy_cells_thrown (combine ps ps2) h k0 HI) as (h1 & E1 & F1 & C1 & _); [lia|].
        cbn [Post]. exists h1. split.
        { apply bind_thrown. rewrite (tg_assign_cells chk tg tg2 bs bs2 sh ps ps2) by auto. exact E1. }
        split; [|apply no_leak_refl; rewrite (proj1 F1); auto].
        exists (slot_put st s (firstn k0 r2 ++ skipn k0 r)). split; [|split; auto; eapply (outside_put l ts h h1 s ps); [apply M|auto|auto|eapply NI; eauto]].
        eapply models_put; eauto.
        -- rewrite app_length, firstn_length, skipn_length. lia.
        -- eapply vals_copied; eauto.
  - (* p == q *)
    destruct (place_slot st env p) as [s|] eqn:Ep; [|discriminate]. destruct (place_slot st env q) as [t|] eqn:Eq; [|discriminate].
    destruct (place_ok _ _ _ _ _ _ chk _ _ M FV Ep) as (tg & ps & bs & sh & r & Et & Hs & Hg & V & TG & K1).
    destruct (place_ok _ _ _ _ _ _ chk _ _ M FV Eq) as (tg2 & ps2 & bs2 & sh2 & r2 & Et2 & Hs2 & Hg2 & V2 & TG2 & K2). rewrite Hg, Hg2 in H.
    rewrite (bind_done _ _ _ _ _ (lift_done _ _ _ Et)), (bind_done _ _ _ _ _ (lift_done _ _ _ Et2)).
    destruct (both_rows s t && (length sh =? length sh2)%nat) eqn:B; [|discriminate]. apply andb_prop in B. destruct B as [_ B]. apply Nat.eqb_eq in B.
    erewrite bind_done; [|eapply tg_equal_ok; eauto]. eapply IH; eauto.
  - (* p < q *)
    destruct (place_slot st env p) as [s|] eqn:Ep; [|discriminate]. destruct (place_slot st env q) as [t|] eqn:Eq; [|discriminate].
    destruct (place_ok _ _ _ _ _ _ chk _ _ M FV Ep) as (tg & ps & bs & sh & r & Et & Hs & Hg & V & TG & K1).
    destruct (place_ok _ _ _ _ _ _ chk _ _ M FV Eq) as (tg2 & ps2 & bs2 & sh2 & r2 & Et2 & Hs2 & Hg2 & V2 & TG2 & K2). rewrite Hg, Hg2 in H.
    rewrite (bind_done _ _ _ _ _ (lift_done _ _ _ Et)), (bind_done _ _ _ _ _ (lift_done _ _ _ Et2)).
    destruct (both_rows s t && shape_eqb sh sh2) eqn:B; [|discriminate]. apply andb_prop in B. destruct B as [_ B]. apply shape_eqb_eq in B. subst sh2.
    erewrite bind_done; [|eapply tg_less_ok; eauto]. eapply IH; eauto.
  - (* save *)
    destruct (place_slot st env p) as [[j r0|]|] eqn:Ep; try discriminate.
    destruct (place_ok _ _ _ _ _ _ chk _ _ M FV Ep) as (tg & ps & bs & sh & r & Et & Hs & Hg & V & TG & (a & Ha & Eb & Ee)).
    rewrite Hg in H. destruct sh as [|e1 es1] eqn:Esh; [discriminate|]. rewrite <- Esh in *.
    rewrite (bind_done _ _ _ _ _ (lift_done _ _ _ Et)).
    destruct TG as [(_ & Z & _)|(x & -> & Hx & Ebx & Eex & ->)]; [congruence|].
    destruct (g_ok _ _ (m_geo _ _ _ _ M) j a Ha) as (_ & _ & RF).
    assert (LO : layout_ok (so_from_c (length (nd_ext x))) (nd_base x) (nd_ext x)).
    { rewrite Ebx, Eex, Eb, Ee. apply RF. rewrite <- Ee, Esh. discriminate. }
    destruct (save_ok chk x h f r Hx V LO) as [SD ST].
    destruct (spend_ops f (1 + length r + length r)) as [f'|] eqn:Ef.
    + apply spend_ops_some in Ef. destruct Ef as [Hf ->]. destruct (SD Hf) as (m & vs & E1 & HO & X1 & X2 & X3 & X4).
      rewrite (bind_done _ _ _ _ _ E1). set (h1 := h ++ [Some (Block 0 (map Some vs))]) in *.
      rewrite Ebx in X2. rewrite Eex in X1.
      pose proof (models_save h l ts st m vs _ bs sh r M HO X3 X2 X1 X4) as M1. fold h1 in M1.
      destruct (on_sequences eqT ltT body env _ (spend f (1 + length r + length r))) as [eb|] eqn:Hbd; [|discriminate].
      specialize (IHb vars (ts ++ [m]) env _ _ _ _ M1 FV Hbd).
      assert (L1 : length h1 = S (length h)) by (unfold h1; rewrite app_length; simpl; lia).
      assert (OUT : forall h2, outside l (ts ++ [m]) h1 h2 -> outside l ts h (set_nth (ma_block m) None h2)).
      { intros h2 O. pose proof (o_len _ _ _ _ O) as OL. constructor.
        - rewrite length_set_nth. lia.
        - intros b Hb. rewrite hblock_set_ne by lia. pose proof (o_blocks _ _ _ _ O b ltac:(lia)) as OB.
          unfold hblock in OB at 1. unfold h1 in OB. rewrite nth_error_app1 in OB by auto. exact OB.
        - intros z Z1 Z2 Z3. rewrite hcell_free by lia. rewrite (o_cells _ _ _ _ O z); [|lia|auto|].
          2:{ intros t x0 Hx0. apply nth_snoc in Hx0. destruct Hx0 as [Hx0|[_ ->]]; [eapply Z3; eauto|lia]. }
          unfold h1. apply hcell_app_l; auto. }
      assert (LASTm : nth_error (ts ++ [m]) (length ts) = Some m) by (rewrite nth_error_app2, Nat.sub_diag by auto; auto).
      assert (DES : forall h2 f2 st2, models h2 l (ts ++ [m]) st2 -> ma_destroy m (World h2 f2) = Done tt (World (set_nth (ma_block m) None h2) f2)).
      { intros h2 f2 st2 M2. pose proof (m_ts _ _ _ _ M2 (length ts)) as X. rewrite LASTm in X.
        destruct (nth_error (ss_saved st2) (length ts)); [|tauto]. destruct X as (_ & _ & vs2 & O2). eapply owns_destroy; eauto. }
      destruct eb as [res env2 st2 f2|qs cp]; cbn [Post] in IHb.
      * destruct IHb as (h2 & vars2 & E2 & M2 & FV2 & O2 & FR). pose proof (models_drop h2 l ts m st2 M2) as M3.
        erewrite bind_done.
        2:{ unfold scoped. erewrite bind_done.
            2:{ unfold on_throw. rewrite E2. reflexivity. }
            rewrite (bind_done _ _ _ _ _ (DES h2 f2 st2 M2)). reflexivity. }
        cbn [fst snd].
        apply (Post_step l ts h (set_nth (ma_block m) None h2)).
        -- apply OUT. exact O2.
        -- right. intros b Hlb. destruct (Nat.eq_dec b (ma_block m)) as [->|Hne].
           ++ pose proof (o_len _ _ _ _ O2). apply hblock_set_eq. lia.
           ++ rewrite hblock_set_ne by auto. apply FR. lia.
        -- rewrite (saved_lengths _ _ _ _ M) in H. eapply IH; eauto. rewrite (Forall2_length _ _ _ FV). apply Forall2_firstn. auto.
      * injection H as <-. destruct IHb as (h2 & E2 & (st2 & M2 & Q2 & O2) & RL). cbn [Post]. exists (set_nth (ma_block m) None h2). split.
        -- apply bind_thrown. unfold scoped. apply bind_thrown. unfold on_throw. rewrite E2, (DES h2 None st2 M2). reflexivity.
        -- split; [eexists; split; [apply (models_drop h2 l ts m st2 M2)|]; split; [exact Q2|]; apply OUT; exact O2|].
           assert (FRE : forall b, (length h <= b)%nat -> ((length h1 <= b)%nat -> hblock h2 b = None) -> hblock (set_nth (ma_block m) None h2) b = None).
           { intros b Hlb Hb2. destruct (Nat.eq_dec b (ma_block m)) as [->|Hne].
             - pose proof (o_len _ _ _ _ O2). apply hblock_set_eq. lia.
             - rewrite hblock_set_ne by auto. apply Hb2. lia. }
           destruct cp; cbn [released] in *.
           ++ destruct RL as [z RL]. exists z. intros b Hlb Hz. apply FRE; auto.
           ++ intros b Hlb. apply FRE; auto.
    + apply spend_ops_none in Ef. destruct Ef as [Hf _]. injection H as <-. destruct (ST Hf) as (h' & E1 & Hh). cbn [Post].
      exists h'. split; [apply bind_thrown; exact E1|].
      destruct Hh as [->|[blk ->]]; [split; [exists st; split; auto; split; auto; apply outside_refl|exists O; intros b Hb _; apply no_leak_refl with (h := h); auto]|].
      split; [|exists (length h); intros b Hb Hne; unfold hblock; rewrite (proj2 (nth_error_None _ b)); auto; rewrite app_length; simpl; lia].
      exists st. split; [|split; [auto|]].
      * constructor; try apply M.
        -- intros t. pose proof (m_ts _ _ _ _ M t) as X. destruct (nth_error ts t) as [m|]; auto. destruct (nth_error (ss_saved st) t); auto.
           destruct X as (X1 & X2 & vs & O). split; auto. split; auto. exists vs. apply (owns_other m vs h); auto.
           unfold same_block. apply owns_lt in O. rewrite nth_error_app1 by auto. auto.
        -- intros s ps Hs0. destruct (m_val _ _ _ _ M s ps Hs0) as (bs1 & sh1 & r1 & G1 & V1). exists bs1, sh1, r1. split; auto.
           eapply vals_same; eauto. intros z Hz. apply hcell_app_l. eapply slot_lt; eauto.
      * constructor.
        -- rewrite app_length. lia.
        -- intros b Hb. assert (EB : hblock (h ++ [blk]) b = hblock h b) by (unfold hblock; rewrite nth_error_app1 by auto; auto).
           rewrite EB. destruct (hblock h b); auto.
        -- intros z Z1 _ _. apply hcell_app_l; auto.
Qed.

End Alg.
