(** ThmIter.v -- C18, C19, C20 *)

From Coq Require Import ZArith List Bool Permutation Sorted FinFun Lia.
From Verif Require Import Base StorageOrder Ranges Layout Access Objects Memory Ops Spec ViewSpec ReachSpec IterSpec
  Facts LayoutProofs AccessProofs ViewProofs MemoryProofs CopyProofs ReachProofs ThmAddressing.
Import ListNotations.
Local Open Scope Z_scope.

Lemma dims_at a : nd_ok a -> exists b bs e es, nd_base a = b :: bs /\ nd_ext a = e :: es /\
  0 <= e <= max_index /\ - max_index - 1 <= b /\ b + e <= max_index /\
  nd_begin a = Ok (it_at a b) /\ nd_end a = Ok (it_at a (b + e)).
Proof.
  intros Ha. destruct (nd_ok_shape a Ha) as (b & bs & e & es & s & ss & Eb & Ee & Es & _).
  pose proof Ha as Ha2. unfold nd_ok in Ha2. rewrite Eb, Ee, Es in Ha2.
  apply addressable_cons in Ha2. destruct Ha2 as (He & Hb1 & Hb2 & _).
  exists b, bs, e, es. do 5 (split; [auto|]). split; [eapply nd_begin_at; eauto|].
  eapply nd_end_at; eauto. unconst; lia.
Qed.

Lemma iterator_of_at a i : nd_ok a -> iterator_of a i -> exists k, index_value k /\ i = it_at a k.
Proof.
  intros Ha H. induction H as [i E|i E|i j H [k [Hk ->]] E|i j H [k [Hk ->]] E|i n j H [k [Hk ->]] E].
  - destruct (dims_at a Ha) as (b & bs & e & es & Eb & Ee & He & Hb & Hbe & E1 & E2).
    rewrite E1 in E. injection E as <-. exists b. split; auto. unfold index_value; unconst; lia.
  - destruct (dims_at a Ha) as (b & bs & e & es & Eb & Ee & He & Hb & Hbe & E1 & E2).
    rewrite E2 in E. injection E as <-. exists (b + e). split; auto. unfold index_value; unconst; lia.
  - unfold it_inc in E. oinv E. injection E as <-. apply signed_inv in E0. destruct E0 as [-> R].
    eexists. split; [|reflexivity]. unfold index_value; unconst; lia.
  - unfold it_dec in E. oinv E. injection E as <-. apply signed_inv in E0. destruct E0 as [-> R].
    eexists. split; [|reflexivity]. unfold index_value; unconst; lia.
  - unfold it_advance in E. oinv E. injection E as <-. apply signed_inv in E0. destruct E0 as [-> R].
    eexists. split; [|reflexivity]. unfold index_value; unconst; lia.
Qed.

(** * C18 *)

(** end() - begin() is size() *)
Theorem c18_distance_is_size : forall c a, array_object c -> derived c a ->
  exists first last size, nd_begin a = Ok first /\ nd_end a = Ok last /\
    hd_error (nd_ext a) = Some size /\ it_distance first last = Ok size /\ it_advance first size = Ok last.
Proof.
  intros c a Hc Ha. destruct (dims_at a (derived_ok c a Hc Ha)) as (b & bs & e & es & Eb & Ee & He & Hb & Hbe & E1 & E2).
  exists (it_at a b), (it_at a (b + e)), e. rewrite Ee. split; [auto|]. split; [auto|]. split; [auto|].
  unfold it_distance, it_advance, it_at. cbn [it_idx].
  rewrite ssub_ok, sadd_ok by (unconst; lia). split; [f_equal; lia|]. reflexivity.
Qed.

(** *(begin() + k) is a[index_base + k], whatever k *)
Theorem c18_dereference : forall chk c a k first b, array_object c -> derived c a ->
  nd_begin a = Ok first -> hd_error (nd_base a) = Some b -> index_value (b + k) ->
  exists i, it_advance first k = Ok i /\
    it_deref_n chk i = access_n chk (b + k) a /\ it_deref_one chk i = access_one chk (b + k) a.
Proof.
  intros chk c a k first b Hc Ha E Hb Hk.
  destruct (nd_base a) as [|b' bs] eqn:Eb; [discriminate|]. injection Hb as ->.
  rewrite (nd_begin_at a b bs Eb) in E. injection E as <-. unfold it_advance. cbn [it_idx it_at].
  unfold index_value in Hk. rewrite sadd_ok by (unconst; lia). cbn [obind].
  exists (it_at a (b + k)). split; [reflexivity|].
  unfold it_deref_n, it_deref_one. rewrite it_nd_at. auto.
Qed.

(** dereferencing any iterator outside [begin(), end()) aborts; inside it does not *)
Theorem c18_dereference_checked : forall c a i first n, array_object c -> derived c a ->
  iterator_of a i -> nd_begin a = Ok first -> it_distance first i = Ok n ->
  forall size, hd_error (nd_ext a) = Some size ->
  (0 <= n < size -> if (1 <? length (nd_ext a))%nat then exists r, it_deref_n true i = Ok r
                    else exists p, it_deref_one true i = Ok p) /\
  (~ 0 <= n < size -> if (1 <? length (nd_ext a))%nat then it_deref_n true i = Abort
                      else it_deref_one true i = Abort).
Proof.
  intros c a i first n Hc Ha Hi E Hd size Hsz.
  pose proof (derived_ok c a Hc Ha) as Hok. destruct (iterator_of_at a i Hok Hi) as (k & Hkv & ->).
  destruct (nd_ok_shape a Hok) as (b & bs & e & es & s & ss & Eb & Ee & Es & L1 & L2 & _).
  rewrite (nd_begin_at a b bs Eb) in E. injection E as <-.
  unfold it_distance in Hd. cbn [it_idx it_at] in Hd. apply signed_inv in Hd. destruct Hd as [-> Hd].
  rewrite Ee in Hsz. injection Hsz as ->.
  unfold it_deref_n, it_deref_one. rewrite it_nd_at. cbn [it_idx it_at]. rewrite Ee.
  destruct es as [|e2 es].
  - destruct bs, ss; simpl in L1, L2; try lia. cbn [length Nat.ltb Nat.leb]. split; intros Hn.
    + eexists. apply (access_one_ok true k a b size s); auto. lia.
    + apply (access_one_abort k a b size s); auto; unfold index_value; unconst; lia.
  - change (1 <? length (size :: e2 :: es))%nat with true. cbv iota. split; intros Hn.
    + eexists. apply (access_n_ok true k a b bs size (e2 :: es) s ss); auto; [congruence|lia].
    + apply (access_n_abort k a b bs size (e2 :: es) s ss); try congruence; auto; unfold index_value; unconst; lia.
Qed.

Theorem c18_increment_is_advance : forall i,
  it_inc i = it_advance i 1 /\ it_dec i = it_advance i (-1).
Proof.
  intros i. split; [reflexivity|]. unfold it_dec, it_advance. f_equal.
Qed.

Theorem c18_advance_add : forall i j k m n,
  it_advance i m = Ok j -> it_advance j n = Ok k -> it_advance i (m + n) = Ok k.
Proof.
  intros i j k m n H1 H2. unfold it_advance in *. oinv H1. injection H1 as <-. oinv H2. injection H2 as <-.
  apply signed_inv in E. destruct E as [-> Hv]. apply signed_inv in E0. cbn [it_idx it_with_idx] in E0.
  destruct E0 as [-> Hv0]. replace (it_idx i + m + n) with (it_idx i + (m + n)) in Hv0 by lia.
  rewrite sadd_ok by lia. cbn [obind]. unfold it_with_idx. cbn [it_base it_ext it_str it_ib].
  do 2 f_equal. lia.
Qed.

(** distance is the inverse of advance *)
Theorem c18_distance_advance : forall c a i j n, array_object c -> derived c a ->
  iterator_of a i -> iterator_of a j -> index_value n ->
  (it_distance i j = Ok n <-> it_advance i n = Ok j).
Proof.
  intros c a i j n Hc Ha Hi Hj Hn. pose proof (derived_ok c a Hc Ha) as Hok.
  destruct (iterator_of_at a i Hok Hi) as (k & Hk & ->). destruct (iterator_of_at a j Hok Hj) as (l & Hl & ->).
  unfold it_distance, it_advance, index_value in *. cbn [it_idx it_at]. split; intros H.
  - apply signed_inv in H. destruct H as [-> R]. rewrite sadd_ok by (unconst; lia). cbn [obind].
    unfold it_with_idx, it_at. cbn. do 2 f_equal. lia.
  - oinv H. injection H as H. apply signed_inv in E. destruct E as [-> R]. rewrite <- H.
    rewrite ssub_ok by (unconst; lia). f_equal. lia.
Qed.

(** == is distance 0, < is positive distance; the distance between iterators in
    [begin(), end()] is always defined *)
Theorem c18_comparisons : forall c a i j n, array_object c -> derived c a ->
  iterator_of a i -> iterator_of a j -> it_distance i j = Ok n -> - max_index <= n ->
  (it_equal i j = true <-> n = 0) /\ (it_equal i j = true <-> i = j) /\
  it_less i j = Ok (0 <? n).
Proof.
  intros c a i j n Hc Ha Hi Hj Hd Hn. pose proof (derived_ok c a Hc Ha) as Hok.
  destruct (iterator_of_at a i Hok Hi) as (k & Hk & ->). destruct (iterator_of_at a j Hok Hj) as (l & Hl & ->).
  unfold it_distance in Hd. cbn [it_idx it_at] in Hd. apply signed_inv in Hd. destruct Hd as [-> R].
  rewrite it_equal_at. split; [rewrite Z.eqb_eq; lia|]. split.
  - rewrite Z.eqb_eq. split; [intros ->; auto|]. intros H. injection H as H. auto.
  - unfold it_less, it_distance. cbn [it_idx it_at]. rewrite ssub_ok by (unconst; lia). cbn [obind].
    f_equal. destruct (Z.ltb_spec (k - l) 0), (Z.ltb_spec 0 (l - k)); auto; lia.
Qed.

Theorem c18_distance_defined : forall c a i j first last ni nj size, array_object c -> derived c a ->
  iterator_of a i -> iterator_of a j -> nd_begin a = Ok first -> nd_end a = Ok last ->
  it_distance first last = Ok size ->
  it_distance first i = Ok ni -> it_distance first j = Ok nj -> 0 <= ni <= size -> 0 <= nj <= size ->
  it_distance i j = Ok (nj - ni).
Proof.
  intros c a i j first last ni nj size Hc Ha Hi Hj E1 E2 Hs H1 H2 B1 B2.
  pose proof (derived_ok c a Hc Ha) as Hok.
  destruct (iterator_of_at a i Hok Hi) as (k & Hk & ->). destruct (iterator_of_at a j Hok Hj) as (l & Hl & ->).
  destruct (dims_at a Hok) as (b & bs & e & es & Eb & Ee & He & Hb & Hbe & F1 & F2).
  rewrite F1 in E1. injection E1 as <-. rewrite F2 in E2. injection E2 as <-.
  unfold it_distance in *. cbn [it_idx it_at] in *.
  apply signed_inv in Hs, H1, H2. destruct Hs as [-> Hs], H1 as [-> H1], H2 as [-> H2].
  rewrite ssub_ok by (unconst; lia). f_equal. lia.
Qed.

(** i[n] is *(i + n): begin()[k] is a[index_base + k] *)
Theorem c18_subscript : forall chk c a k first b, array_object c -> derived c a ->
  nd_begin a = Ok first -> hd_error (nd_base a) = Some b -> index_value (b + k) ->
  it_index_n chk first k = access_n chk (b + k) a /\ it_index_one chk first k = access_one chk (b + k) a.
Proof.
  intros chk c a k first b Hc Ha E Hb Hk.
  destruct (c18_dereference chk c a k first b Hc Ha E Hb Hk) as (i & E1 & E2 & E3).
  unfold it_index_n, it_index_one. rewrite E1. cbn [obind]. auto.
Qed.

Example ex_c18 : exists first last i,
  nd_begin (cr_nd ex_arr) = Ok first /\ nd_end (cr_nd ex_arr) = Ok last /\
  it_distance first last = Ok 2 /\ it_advance first 1 = Ok i /\
  it_deref_n true i = access_n true 2 (cr_nd ex_arr) /\ it_deref_n true last = Abort.
Proof. do 3 eexists. repeat (split; [vm_compute; reflexivity|]). vm_compute. reflexivity. Qed.

(** * C19 *)

Lemma collect_forward {X} (deref : iter -> outcome X) (f : Z -> X) a b : forall m fuel k,
  (m <= fuel)%nat -> idx_min <= k -> k + Z.of_nat m <= idx_max -> b = k + Z.of_nat m ->
  (forall j, k <= j < b -> deref (it_at a j) = Ok (f j)) ->
  collect it_equal deref it_inc fuel (it_at a k) (it_at a b) = Ok (map f (zseq k m)).
Proof.
  induction m as [|m IH]; intros fuel k Hf H1 H2 -> Hd.
  - destruct fuel; cbn [collect]; rewrite it_equal_at; destruct (Z.eqb_spec k (k + Z.of_nat 0)); auto; lia.
  - rewrite zseq_S. destruct fuel as [|fuel]; [lia|]. cbn [collect map].
    rewrite it_equal_at. destruct (Z.eqb_spec k (k + Z.of_nat (S m))); [lia|].
    rewrite Hd by lia. cbn [obind]. rewrite it_inc_at by lia. cbn [obind].
    rewrite IH; auto; try lia. intros j Hj. apply Hd. lia.
Qed.

Lemma collect_backward {X} (deref : riter -> outcome X) (f : Z -> X) a b : forall m fuel,
  (m <= fuel)%nat -> idx_min <= b -> b + Z.of_nat m <= idx_max ->
  (forall j, b <= j < b + Z.of_nat m -> deref (RIter (it_at a (j + 1))) = Ok (f j)) ->
  collect ri_equal deref ri_inc fuel (RIter (it_at a (b + Z.of_nat m))) (RIter (it_at a b)) = Ok (rev (map f (zseq b m))).
Proof.
  induction m as [|m IH]; intros fuel Hf H1 H2 Hd.
  - destruct fuel; cbn [collect]; unfold ri_equal; cbn [ri_base]; rewrite it_equal_at;
      destruct (Z.eqb_spec (b + Z.of_nat 0) b); auto; lia.
  - rewrite zseq_snoc, map_app, rev_app_distr. destruct fuel as [|fuel]; [lia|]. cbn [collect map rev app].
    unfold ri_equal at 1. cbn [ri_base]. rewrite it_equal_at. destruct (Z.eqb_spec (b + Z.of_nat (S m)) b); [lia|].
    replace (b + Z.of_nat (S m)) with (b + Z.of_nat m + 1) by lia.
    rewrite Hd by lia. cbn [obind]. unfold ri_inc at 1, it_dec. cbn [ri_base it_idx it_at].
    rewrite ssub_ok by lia. cbn [obind]. unfold it_with_idx. cbn.
    replace (b + Z.of_nat m + 1 - 1) with (b + Z.of_nat m) by lia.
    fold (it_at a (b + Z.of_nat m)).
    rewrite IH; auto; try lia. intros j Hj. apply Hd. lia.
Qed.

Lemma ri_deref_n_at chk a k : idx_min <= k <= idx_max ->
  ri_deref_n chk (RIter (it_at a (k + 1))) = access_n chk k a.
Proof.
  intros H. unfold ri_deref_n, it_dec. cbn [ri_base it_idx it_at]. rewrite ssub_ok by lia. cbn [obind].
  unfold it_with_idx. cbn. unfold it_deref_n. cbn [it_idx]. f_equal; [lia|]. destruct a; reflexivity.
Qed.
Lemma ri_deref_one_at chk a k : idx_min <= k <= idx_max ->
  ri_deref_one chk (RIter (it_at a (k + 1))) = access_one chk k a.
Proof.
  intros H. unfold ri_deref_one, it_dec. cbn [ri_base it_idx it_at]. rewrite ssub_ok by lia. cbn [obind].
  unfold it_with_idx. cbn. unfold it_deref_one. cbn [it_idx]. f_equal; [lia|]. destruct a; reflexivity.
Qed.

Lemma Forall2_map_r {A B} (R : A -> B -> Prop) (f : A -> B) l : (forall x, In x l -> R x (f x)) -> Forall2 R l (map f l).
Proof. induction l; intros H; simpl; constructor; [apply H; left; auto|apply IHl; intros; apply H; right; auto]. Qed.

Lemma access_n_row chk a k : nd_ok a -> (1 < length (nd_ext a))%nat -> forall b e, hd_error (nd_base a) = Some b ->
  hd_error (nd_ext a) = Some e -> b <= k < b + e -> access_n chk k a = Ok (row a k).
Proof.
  intros Ha Hn b' e' Hb He Hk.
  destruct (nd_ok_shape a Ha) as (b & bs & e & es & s & ss & Eb & Ee & Es & L1 & L2 & _).
  rewrite Eb in Hb. rewrite Ee in He, Hn. injection Hb as <-. injection He as <-.
  rewrite (access_n_ok chk k a b bs e es s ss); auto.
  - unfold row. rewrite Eb, Ee, Es. reflexivity.
  - destruct es; simpl in *; [lia|congruence].
Qed.

(** N >= 2: the loop over begin()..end() sees the subarrays a[base], ..., in
    index order; the loop over rbegin()..rend() the same in reverse order *)
Theorem c19_reverse_rows : forall chk c a fuel b size, array_object c -> derived c a ->
  (1 < length (nd_ext a))%nat -> hd_error (nd_base a) = Some b -> hd_error (nd_ext a) = Some size ->
  (Z.to_nat size <= fuel)%nat ->
  exists l, rows_forward chk fuel a = Ok l /\ rows_backward chk fuel a = Ok (rev l) /\
    Forall2 (fun k r => access_n chk k a = Ok r) (zseq b (Z.to_nat size)) l.
Proof.
  intros chk c a fuel b size Hc Ha Hn Hb Hs Hf. pose proof (derived_ok c a Hc Ha) as Hok.
  destruct (dims_at a Hok) as (b' & bs & e & es & Eb & Ee & He & Hb1 & Hbe & E1 & E2).
  pose proof Hb as Hb'. pose proof Hs as Hs'. rewrite Eb in Hb'. rewrite Ee in Hs'. injection Hb' as ->. injection Hs' as ->.
  assert (HA : forall k, b <= k < b + size -> access_n chk k a = Ok (row a k)).
  { intros k Hk. eapply access_n_row; eauto. }
  exists (map (row a) (zseq b (Z.to_nat size))). split; [|split].
  - unfold rows_forward. rewrite E1, E2. cbn [obind].
    apply (collect_forward (it_deref_n chk) (row a)); try (unconst; lia).
    intros j Hj. unfold it_deref_n. rewrite it_nd_at. cbn [it_idx it_at]. auto.
  - unfold rows_backward, nd_rbegin, nd_rend. rewrite E1, E2. cbn [obind].
    replace (b + size) with (b + Z.of_nat (Z.to_nat size)) by lia.
    apply (collect_backward (ri_deref_n chk) (row a)); try (unconst; lia).
    intros j Hj. rewrite ri_deref_n_at by (unconst; lia). apply HA. lia.
  - apply Forall2_map_r. intros k Hk. apply in_zseq in Hk. apply HA. lia.
Qed.

(** the same for N = 1, where the loop sees elements *)
Theorem c19_reverse_elements : forall chk c a fuel b size, array_object c -> derived c a ->
  nd_base a = [b] -> nd_ext a = [size] -> (Z.to_nat size <= fuel)%nat ->
  exists l, elems_forward chk fuel a = Ok l /\ elems_backward chk fuel a = Ok (rev l) /\
    Forall2 (fun k p => access_one chk k a = Ok p) (zseq b (Z.to_nat size)) l.
Proof.
  intros chk c a fuel b size Hc Ha Eb Ee Hf. pose proof (derived_ok c a Hc Ha) as Hok.
  destruct (dims_at a Hok) as (b' & bs & e & es & Eb' & Ee' & He & Hb1 & Hbe & E1 & E2).
  rewrite Eb in Eb'. rewrite Ee in Ee'. injection Eb' as <- <-. injection Ee' as <- <-.
  destruct (nd_ok_shape a Hok) as (b'' & bs & e & es & s & ss & Eb' & Ee' & Es & L1 & L2 & _).
  rewrite Eb in Eb'. rewrite Ee in Ee'. injection Eb' as <- <-. injection Ee' as <- <-.
  destruct ss; simpl in L2; [|lia].
  assert (HA : forall k, b <= k < b + size -> access_one chk k a = Ok (padd (nd_org a) (k * s))).
  { intros k Hk. apply (access_one_ok chk k a b size s); auto. }
  exists (map (fun k => padd (nd_org a) (k * s)) (zseq b (Z.to_nat size))). split; [|split].
  - unfold elems_forward. rewrite E1, E2. cbn [obind]. apply (collect_forward (it_deref_one chk) (fun k => padd (nd_org a) (k * s))); try (unconst; lia).
    intros j Hj. unfold it_deref_one. rewrite it_nd_at. cbn [it_idx it_at]. auto.
  - unfold elems_backward, nd_rbegin, nd_rend. rewrite E1, E2. cbn [obind].
    replace (b + size) with (b + Z.of_nat (Z.to_nat size)) by lia.
    apply (collect_backward (ri_deref_one chk) (fun k => padd (nd_org a) (k * s))); try (unconst; lia).
    intros j Hj. rewrite ri_deref_one_at by (unconst; lia). apply HA. lia.
  - apply Forall2_map_r. intros k Hk. apply in_zseq in Hk. apply HA. lia.
Qed.

(** rbegin() + k, for any k from 0 to size(): it is reached by += and by k
    increments, its distance from rbegin() is k, and dereferencing it gives
    a[index_base + size - 1 - k] (which aborts for k = size) *)
Fixpoint ri_incs (k : nat) (r : riter) : outcome riter :=
  match k with O => Ok r | S m => r' <- ri_inc r ;; ri_incs m r' end.
Theorem c19_reverse_random_access : forall chk c a b size k, array_object c -> derived c a ->
  hd_error (nd_base a) = Some b -> hd_error (nd_ext a) = Some size -> 0 <= k <= size ->
  index_value (b - 1) ->
  exists first last r, nd_rbegin a = Ok first /\ nd_rend a = Ok last /\
    ri_distance first last = Ok size /\ ri_advance first size = Ok last /\
    ri_advance first k = Ok r /\ ri_incs (Z.to_nat k) first = Ok r /\
    ri_distance first r = Ok k /\ ri_less first r = Ok (0 <? k) /\ ri_equal first r = (k =? 0) /\
    (0 < k -> exists q, ri_dec r = Ok q /\ ri_inc q = Ok r /\ ri_advance first (k - 1) = Ok q) /\
    ri_deref_n chk r = access_n chk (b + size - 1 - k) a /\
    ri_deref_one chk r = access_one chk (b + size - 1 - k) a.
Proof.
  intros chk c a b size k Hc Ha Hb Hs Hk Hbv.
  destruct (dims_at a (derived_ok c a Hc Ha)) as (b' & bs & e & es & Eb & Ee & He & Hbb & Hbe & E1 & E2).
  rewrite Eb in Hb. injection Hb as ->. rewrite Ee in Hs. injection Hs as ->.
  unfold index_value in Hbv. unfold nd_rbegin, nd_rend. rewrite E1, E2. cbn [obind].
  exists (RIter (it_at a (b + size))), (RIter (it_at a b)), (RIter (it_at a (b + size - k))).
  assert (ADV : forall j, 0 <= j <= size -> ri_advance (RIter (it_at a (b + size))) j = Ok (RIter (it_at a (b + size - j)))).
  { intros j Hj. unfold ri_advance, it_advance. rewrite ssub_ok by (unconst; lia). cbn [obind ri_base it_at it_idx].
    rewrite sadd_ok by (unconst; lia). cbn [obind]. unfold it_with_idx, it_at. cbn. do 3 f_equal; try lia. }
  assert (DEC : forall j, b < j <= b + size -> ri_inc (RIter (it_at a j)) = Ok (RIter (it_at a (j - 1)))).
  { intros j Hj. unfold ri_inc, it_dec. cbn [ri_base it_at it_idx]. rewrite ssub_ok by (unconst; lia). reflexivity. }
  split; [auto|]. split; [auto|]. unfold ri_distance at 1, it_distance. cbn [ri_base it_at it_idx].
  rewrite ssub_ok by (unconst; lia). split; [f_equal; lia|].
  rewrite ADV by lia. split; [do 3 f_equal; try lia|]. rewrite ADV by lia. split; [auto|]. split.
  { assert (G : forall m j, b + Z.of_nat m <= j <= b + size -> ri_incs m (RIter (it_at a j)) = Ok (RIter (it_at a (j - Z.of_nat m)))).
    { induction m as [|m IH]; intros j Hj; cbn [ri_incs]; [do 3 f_equal; try lia|]. rewrite DEC by lia. cbn [obind].
      rewrite IH by lia. do 3 f_equal; try lia. }
    rewrite G by lia. do 3 f_equal; try lia. }
  unfold ri_distance, it_distance, ri_less, ri_distance, it_distance, ri_equal. cbn [ri_base it_at it_idx].
  rewrite !ssub_ok by (unconst; lia). cbn [obind]. split; [f_equal; lia|]. split.
  { f_equal. destruct (Z.ltb_spec (b + size - k - (b + size)) 0), (Z.ltb_spec 0 k); auto; lia. }
  fold (it_at a (b + size)). fold (it_at a (b + size - k)). rewrite it_equal_at. split.
  { destruct (Z.eqb_spec (b + size) (b + size - k)), (Z.eqb_spec k 0); auto; lia. }
  split.
  { intros H0. exists (RIter (it_at a (b + size - k + 1))). split; [|split].
    - unfold ri_dec. cbn [ri_base]. rewrite it_inc_at by (unconst; lia). reflexivity.
    - rewrite DEC by lia. do 3 f_equal; try lia.
    - rewrite ADV by lia. do 3 f_equal; try lia. }
  replace (b + size - k) with (b + size - 1 - k + 1) by lia.
  split; [apply ri_deref_n_at|apply ri_deref_one_at]; unconst; lia.
Qed.

Example ex_c19 : exists l, rows_forward true 5 (cr_nd ex_arr) = Ok l /\ length l = 2%nat /\
  rows_backward true 5 (cr_nd ex_arr) = Ok (rev l).
Proof. eexists. split; [vm_compute; reflexivity|]. split; vm_compute; reflexivity. Qed.

(** * C20 *)

Lemma concat_map_ok {X Y} (f : X -> outcome (list Y)) (g : X -> list Y) l :
  (forall x, In x l -> f x = Ok (g x)) -> concat_map f l = Ok (flat_map g l).
Proof.
  induction l as [|x l IH]; intros H; auto. cbn [concat_map flat_map].
  rewrite H by (left; auto). cbn [obind]. rewrite IH; [auto|]. intros; apply H; right; auto.
Qed.

Lemma visit_eq chk fuel : forall n a, nd_ok a -> length (nd_ext a) = n ->
  Forall (fun e => (Z.to_nat e <= fuel)%nat) (nd_ext a) -> visit chk fuel n a = Ok (addrs a).
Proof.
  induction n as [|n IH]; intros a Ha Hn Hf.
  - destruct Ha as (_ & _ & H & _). lia.
  - destruct (dims_at a Ha) as (b & bs & e & es & Eb & Ee & He & Hb1 & Hbe & E1 & E2).
    destruct (nd_ok_shape a Ha) as (b' & bs' & e' & es' & s & ss & Eb' & Ee' & Es & L1 & L2 & _).
    rewrite Eb in Eb'. rewrite Ee in Ee'. injection Eb' as <- <-. injection Ee' as <- <-.
    rewrite Ee in Hf. inversion Hf as [|? ? Hfe Hfs]; subst.
    rewrite Ee in Hn. simpl in Hn. injection Hn as Hn.
    rewrite (addrs_rows a b bs e es Eb Ee).
    cbn [visit]. destruct n as [|n].
    + destruct es; [|discriminate]. destruct bs, ss; simpl in L1, L2; try lia.
      unfold elems_forward. rewrite E1, E2. cbn [obind].
      rewrite (collect_forward (it_deref_one chk) (fun k => padd (nd_org a) (k * s)) a (b + e) (Z.to_nat e)); try (unconst; lia).
      * f_equal. unfold row_addrs. rewrite Eb, Ee. cbn [tl tuples map]. unfold addr. rewrite Es.
        induction (zseq b (Z.to_nat e)) as [|x l IHl]; auto. cbn [map flat_map app dot]. f_equal; auto. f_equal. lia.
      * intros j Hj. unfold it_deref_one. rewrite it_nd_at. cbn [it_idx it_at]. apply (access_one_ok chk j a b e s); auto.
    + assert (E3 : rows_forward chk fuel a = Ok (map (row a) (zseq b (Z.to_nat e)))).
      { unfold rows_forward. rewrite E1, E2. cbn [obind].
        apply (collect_forward (it_deref_n chk) (row a)); try (unconst; lia).
        intros j Hj. unfold it_deref_n. rewrite it_nd_at. cbn [it_idx it_at].
        apply (access_n_row chk a j Ha) with (b := b) (e := e); rewrite ?Eb, ?Ee; auto. simpl. lia. }
      rewrite E3. cbn [obind].
      rewrite (concat_map_ok _ addrs).
      * f_equal. rewrite flat_map_concat_map, map_map, <- flat_map_concat_map.
        apply flat_map_ext. intros k. symmetry. apply row_addrs_eq; auto.
      * intros r Hr. apply in_map_iff in Hr. destruct Hr as (k & <- & Hk).
        apply IH.
        { apply row_ok; auto. rewrite Ee. simpl. destruct es; simpl in *; congruence. }
        { simpl. rewrite Ee. auto. }
        { simpl. rewrite Ee. auto. }
Qed.

Lemma StronglySorted_app {A} (R : A -> A -> Prop) l1 l2 : StronglySorted R l1 -> StronglySorted R l2 ->
  (forall x y, In x l1 -> In y l2 -> R x y) -> StronglySorted R (l1 ++ l2).
Proof.
  induction 1 as [|x l1 HS IH HF]; intros H2 H; simpl; auto. constructor.
  - apply IH; auto. intros; apply H; simpl; auto.
  - apply Forall_app. split; auto. apply Forall_forall. intros y Hy. apply H; simpl; auto.
Qed.

Lemma tuples_sorted : forall bs es, length bs = length es -> StronglySorted lex_less (tuples bs es).
Proof.
  induction bs as [|b bs IH]; intros [|e es] L; simpl in L; try lia; simpl; [repeat constructor|].
  specialize (IH es ltac:(lia)).
  generalize (Z.to_nat e). intros m. revert b. induction m as [|m IHm]; intros b; [constructor|].
  rewrite zseq_S. simpl. apply StronglySorted_app; auto.
  - clear IHm. induction IH as [|t l HS IH' HF]; simpl; constructor; auto.
    rewrite Forall_forall in *. intros y Hy. apply in_map_iff in Hy. destruct Hy as (t' & <- & Ht'). apply ll_next. auto.
  - intros x y Hx Hy. apply in_map_iff in Hx. destruct Hx as (t & <- & Ht).
    apply in_flat_map in Hy. destruct Hy as (k & Hk & Hy). apply in_map_iff in Hy. destruct Hy as (t' & <- & Ht').
    apply in_zseq in Hk. apply ll_here; [lia|].
    apply in_tuples in Ht; [|lia]. apply in_tuples in Ht'; [|lia].
    apply in_bounds_length in Ht, Ht'. lia.
Qed.

(** n nested loops visit the elements of the valid tuples, each exactly once, in
    lexicographic order of the tuples *)
Theorem c20_nested_iteration : forall chk c a fuel, array_object c -> derived c a ->
  Forall (fun e => (Z.to_nat e <= fuel)%nat) (nd_ext a) ->
  exists order visited, visit chk fuel (length (nd_ext a)) a = Ok visited /\
    Forall2 (fun i p => access_element chk a i = Ok p) order visited /\
    (forall i, In i order <-> in_bounds (nd_base a) (nd_ext a) i) /\
    StronglySorted lex_less order /\ NoDup visited.
Proof.
  intros chk c a fuel Hc Ha Hf. pose proof (derived_ok c a Hc Ha) as Hok. pose proof Hok as (L1 & _).
  exists (tuples (nd_base a) (nd_ext a)), (addrs a). split; [apply visit_eq; auto|].
  split; [|split; [|split]].
  - apply Forall2_map_r. intros i Hi. apply access_element_ok; auto. apply in_tuples; auto.
  - intros i. apply in_tuples; auto.
  - apply tuples_sorted; auto.
  - unfold addrs. apply nodup_map_inj; [|apply nodup_tuples].
    intros i j Hi Hj. apply (derived_inj c a Hc Ha); apply in_tuples; auto.
Qed.
