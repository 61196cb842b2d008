(** OwnProofs.v -- storage of multi_array objects: allocation, construction,
    destruction, block-level effect of element copies. *)

From Coq Require Import ZArith List Bool Lia.
From Verif Require Import Base StorageOrder Ranges Layout Access Objects Memory Ops MultiArray
  Spec ViewSpec ReachSpec MemSpec OwnSpec
  Facts LayoutProofs AccessProofs ViewProofs MemoryProofs CopyProofs ReachProofs ThmCopy.
Import ListNotations.
Local Open Scope Z_scope.

Definition spend (f : option nat) (n : nat) : option nat := option_map (fun k => (k - n)%nat) f.
Definition enough (f : option nat) (n : nat) : Prop := match f with None => True | Some k => (n <= k)%nat end.

Lemma spend_0 f : spend f 0 = f.
Proof. destruct f; simpl; rewrite ?Nat.sub_0_r; auto. Qed.
Lemma spend_spend f n m : spend (spend f n) m = spend f (n + m).
Proof. destruct f; simpl; auto. f_equal. lia. Qed.
Lemma enough_app f n m : enough f (n + m) <-> enough f n /\ enough (spend f n) m.
Proof. destruct f; simpl; [lia|tauto]. Qed.

Section OwnProofs.
Context {T : Type}.

Lemma set_nth_app_r {A} (x : A) : forall (l1 l2 : list A) i, set_nth (length l1 + i) x (l1 ++ l2) = l1 ++ set_nth i x l2.
Proof. induction l1; intros; simpl; auto. f_equal. auto. Qed.
Lemma set_nth_app_len {A} (x y : A) l1 l2 : set_nth (length l1) x (l1 ++ y :: l2) = l1 ++ x :: l2.
Proof. rewrite <- (Nat.add_0_r (length l1)), set_nth_app_r. auto. Qed.

Lemma hblock_nth (h : heap T) b k : nth_error h b = Some (Some k) -> hblock h b = Some k.
Proof. unfold hblock. intros ->. auto. Qed.

Lemma hcell_block (h : heap T) b k o : nth_error h b = Some (Some k) -> 0 <= o ->
  hcell h (Ptr b o) = nth_error (b_cells k) (Z.to_nat o).
Proof. intros E Ho. unfold hcell. cbn [p_blk p_off]. rewrite (hblock_nth _ _ _ E). destruct (Z.ltb_spec o 0); auto; lia. Qed.

Lemma hset_block (h : heap T) b aid l1 c c' l2 :
  nth_error h b = Some (Some (Block aid (l1 ++ c :: l2))) ->
  hcell h (Ptr b (Z.of_nat (length l1))) = Some c /\
  hset h (Ptr b (Z.of_nat (length l1))) c' = Some (set_nth b (Some (Block aid (l1 ++ c' :: l2))) h).
Proof.
  intros E.
  assert (C : hcell h (Ptr b (Z.of_nat (length l1))) = Some c).
  { rewrite (hcell_block _ _ _ _ E) by lia. cbn [b_cells]. rewrite Nat2Z.id, nth_error_app2, Nat.sub_diag by lia. auto. }
  split; auto. unfold hset. rewrite C. cbn [p_blk p_off]. rewrite (hblock_nth _ _ _ E). cbn [b_alloc b_cells].
  rewrite Nat2Z.id, set_nth_app_len. auto.
Qed.

Lemma destroy_n_ok b aid : forall vs m (h : heap T) f,
  nth_error h b = Some (Some (Block aid (map Some vs ++ repeat None m))) ->
  alloc_destroy_n (Ptr b 0) (length vs) (World h f) =
  Done tt (World (set_nth b (Some (Block aid (repeat None (length vs + m)))) h) f).
Proof.
  induction vs as [|v vs IH] using rev_ind; intros m h f E.
  - simpl. unfold ret. do 2 f_equal. symmetry. apply set_nth_same. auto.
  - rewrite app_length, Nat.add_1_r. simpl alloc_destroy_n. unfold padd. cbn [p_blk p_off]. rewrite Z.add_0_l.
    rewrite map_app in E. simpl in E. rewrite <- app_assoc in E. simpl in E.
    destruct (hset_block _ _ _ _ _ None _ E) as [C HS]. rewrite map_length in C, HS.
    unfold bind, destroy. cbn [w_heap w_fuse]. rewrite C, HS.
    rewrite (IH (S m)).
    + rewrite set_nth_set_nth. replace (length vs + S m)%nat with (S (length vs) + m)%nat by lia. auto.
    + rewrite nth_error_set_nth_eq; auto. apply nth_error_Some. rewrite E. discriminate.
Qed.

Variable dflt : T.

Lemma construct_loop_ok b aid : forall n i (h : heap T) f,
  nth_error h b = Some (Some (Block aid (repeat (Some dflt) i ++ repeat None n))) -> enough f n ->
  alloc_construct_loop dflt (Ptr b 0) i n (World h f) =
  Done tt (World (set_nth b (Some (Block aid (repeat (Some dflt) (i + n)))) h) (spend f n)).
Proof.
  induction n as [|n IH]; intros i h f E Hf.
  - simpl. unfold ret. rewrite spend_0. do 2 f_equal. rewrite Nat.add_0_r.
    simpl in E. rewrite app_nil_r in E. symmetry. apply set_nth_same. auto.
  - simpl in E. destruct (hset_block _ _ _ _ _ (Some dflt) _ E) as [C HS]. rewrite repeat_length in C, HS.
    simpl alloc_construct_loop. unfold padd. cbn [p_blk p_off]. rewrite Z.add_0_l.
    assert (K : on_throw (construct dflt (Ptr b (Z.of_nat i))) (alloc_destroy_n (Ptr b 0) i) (World h f) =
      Done tt (World (set_nth b (Some (Block aid (repeat (Some dflt) i ++ Some dflt :: repeat None n))) h) (spend f 1))).
    { unfold on_throw, construct, bind, tick. cbn [w_heap w_fuse].
      destruct f as [[|k]|]; simpl in Hf; [lia| |]; cbn [w_heap w_fuse]; rewrite C, HS; simpl; rewrite ?Nat.sub_0_r; auto. }
    unfold bind. rewrite K. rewrite (IH (S i)).
    + rewrite set_nth_set_nth, spend_spend. replace (i + S n)%nat with (S i + n)%nat by lia. auto.
    + rewrite nth_error_set_nth_eq by (apply nth_error_Some; rewrite E; discriminate).
      do 3 f_equal. replace (S i) with (i + 1)%nat by lia. rewrite repeat_app, <- app_assoc. auto.
    + destruct f; simpl in *; auto. lia.
Qed.

Lemma construct_loop_thrown b aid : forall n i (h : heap T) k,
  nth_error h b = Some (Some (Block aid (repeat (Some dflt) i ++ repeat None n))) -> (k < n)%nat ->
  alloc_construct_loop dflt (Ptr b 0) i n (World h (Some k)) =
  Thrown (World (set_nth b (Some (Block aid (repeat None (i + n)))) h) None).
Proof.
  induction n as [|n IH]; intros i h k E Hk; [lia|].
  simpl in E. destruct (hset_block _ _ _ _ _ (Some dflt) _ E) as [C HS]. rewrite repeat_length in C, HS.
  simpl alloc_construct_loop. unfold padd. cbn [p_blk p_off]. rewrite Z.add_0_l.
  unfold bind at 1, on_throw, construct, bind at 1, tick. cbn [w_heap w_fuse].
  destruct k as [|k].
  - pose proof (destroy_n_ok b aid (repeat dflt i) (S n) h None) as D.
    rewrite repeat_length in D.
    assert (R : forall m, map Some (repeat dflt m) = repeat (Some dflt) m) by (induction m; simpl; congruence).
    rewrite R in D. rewrite D by exact E. auto.
  - cbn [w_heap w_fuse]. rewrite C, HS. rewrite (IH (S i)); [| |lia].
    + rewrite set_nth_set_nth. replace (i + S n)%nat with (S i + n)%nat by lia. auto.
    + rewrite nth_error_set_nth_eq by (apply nth_error_Some; rewrite E; discriminate).
      do 3 f_equal. replace (S i) with (i + 1)%nat by lia. rewrite repeat_app, <- app_assoc. auto.
Qed.

(** * allocate_space, destructor *)

Lemma nth_app_last {A} (l : list A) x : nth_error (l ++ [x]) (length l) = Some x.
Proof. rewrite nth_error_app2, Nat.sub_diag by lia. auto. Qed.
Lemma set_nth_app_last {A} (l : list A) x y : set_nth (length l) y (l ++ [x]) = l ++ [y].
Proof. apply set_nth_app_len. Qed.

Definition new_ma (c : cref) (aid : nat) (b : nat) : multi_array :=
  MA (cr_set_base c (Ptr b 0)) (Ptr b 0) (cr_num c) aid.

(** the three ways allocate_space can end *)
Lemma allocate_space_eq c aid (h : heap T) f : 0 <= cr_num c <= max_index ->
  allocate_space dflt c aid (World h f) =
  match f with
  | Some O => Thrown (World h None)
  | _ => if match f with Some k => Nat.ltb (k - 1) (Z.to_nat (cr_num c)) | None => false end
         then Thrown (World (h ++ [Some (Block aid (repeat None (Z.to_nat (cr_num c))))]) None)
         else Done (new_ma c aid (length h))
                (World (h ++ [Some (Block aid (map Some (repeat dflt (Z.to_nat (cr_num c)))))])
                       (spend f (1 + Z.to_nat (cr_num c))))
  end.
Proof.
  intros Hn. set (n := Z.to_nat (cr_num c)).
  assert (R : forall m, map Some (repeat dflt m) = repeat (Some dflt) m) by (induction m; simpl; congruence).
  rewrite R.
  assert (A : forall g, (match tick (World h f) with Done _ w => w = World h g | _ => False end) ->
    allocate aid (cr_num c) (World h f) = Done (Ptr (length h) 0) (World (h ++ [Some (Block aid (repeat None n))]) g)).
  { intros g Hg. unfold allocate. destruct (tick (World h f)); try tauto. subst. cbn [w_heap w_fuse].
    replace ((0 <=? cr_num c) && (cr_num c <=? idx_max)) with true; auto.
    symmetry. apply andb_true_iff. rewrite !Z.leb_le. unconst; lia. }
  pose proof (construct_loop_ok (length h) aid n 0 (h ++ [Some (Block aid (repeat None n))])) as K.
  pose proof (construct_loop_thrown (length h) aid n 0 (h ++ [Some (Block aid (repeat None n))])) as K2.
  rewrite nth_app_last in K, K2. simpl repeat in K, K2. simpl app in K, K2. rewrite set_nth_app_last in K, K2.
  unfold allocate_space, alloc_construct_n. fold n.
  destruct f as [[|k]|].
  - reflexivity.
  - unfold bind at 1. rewrite (A (Some k)) by reflexivity. cbv zeta. unfold bind.
    replace (S k - 1)%nat with k by lia.
    destruct (Nat.ltb_spec k n).
    + rewrite K2 by auto. auto.
    + rewrite K by (auto; simpl; lia). unfold ret, new_ma. do 3 f_equal.
  - unfold bind at 1. rewrite (A None) by reflexivity. cbv zeta. unfold bind.
    rewrite K by (simpl; auto). unfold ret, new_ma. auto.
Qed.

Lemma destroy_eq a vs (h : heap T) f : p_off (ma_base a) = 0 ->
  ma_alloc_elems a = Z.of_nat (length vs) ->
  nth_error h (ma_block a) = Some (Some (Block (ma_aid a) (map Some vs))) ->
  ma_destroy a (World h f) = Done tt (World (set_nth (ma_block a) None h) f).
Proof.
  intros Ho Hn E. unfold ma_destroy, ma_block in *. destruct a as [c [b o] ae aid]; cbn [ma_base ma_aid ma_alloc_elems p_off p_blk] in *.
  subst o ae. rewrite Nat2Z.id.
  unfold bind. rewrite (destroy_n_ok b aid vs 0) by (simpl; rewrite app_nil_r; auto).
  unfold deallocate. cbn [w_heap p_blk p_off].
  assert (Hb : (b < length h)%nat) by (apply nth_error_Some; rewrite E; discriminate).
  rewrite hblock_set_eq by auto. cbn [b_alloc b_cells].
  rewrite Nat.eqb_refl, repeat_length, Nat.add_0_r, !Z.eqb_refl.
  replace (all_raw (repeat None (length vs))) with true.
  2: { unfold all_raw. symmetry. apply forallb_forall. intros x Hx. apply repeat_spec in Hx. subst. auto. }
  simpl. rewrite set_nth_set_nth. auto.
Qed.

Lemma owns_destroy a vs (h : heap T) f : owns h a vs ->
  ma_destroy a (World h f) = Done tt (World (set_nth (ma_block a) None h) f).
Proof. intros (_ & _ & H1 & H2 & H3 & H4). apply (destroy_eq a vs); auto. congruence. Qed.

(** * reading an owned block *)

Lemma owns_cell a vs (h : heap T) k : owns h a vs -> 0 <= k ->
  hcell h (padd (cr_data (ma_ref a)) k) = nth_error (map Some vs) (Z.to_nat k).
Proof.
  intros (_ & H0 & H1 & H2 & H3 & H4) Hk. rewrite H0. unfold ma_block in H4.
  destruct (ma_base a) as [b o]. cbn [p_off p_blk] in *. subst o. unfold padd. cbn [p_off p_blk].
  rewrite Z.add_0_l. rewrite (hcell_block _ _ _ _ H4) by auto. auto.
Qed.

Lemma owns_live a vs (h : heap T) : owns h a vs -> live h (ma_ref a).
Proof.
  intros H p (k & Hk & ->). apply element_at_init. unfold init. rewrite (owns_cell a vs) by (auto; lia).
  destruct H as (_ & _ & _ & _ & H & _). rewrite nth_error_map.
  destruct (nth_error vs (Z.to_nat k)) as [v|] eqn:E; [exists v; auto|]. apply nth_error_None in E. lia.
Qed.

(** the element at index i is the one at its storage position *)
Lemma owns_reads a vs (h : heap T) i v : owns h a vs -> in_bounds (cr_ib (ma_ref a)) (cr_ext (ma_ref a)) i ->
  reads h (cr_nd (ma_ref a)) i v <->
  nth_error vs (Z.to_nat (pos_of (cr_storage (ma_ref a)) (cr_ib (ma_ref a)) (cr_ext (ma_ref a)) i)) = Some v.
Proof.
  intros H Hi. pose proof H as (Ha & _). pose proof (array_object_ok _ Ha) as Hok.
  pose proof (cref_addressable _ Hok) as Hnd.
  rewrite reads_iff by auto. rewrite cref_addr by (auto; apply in_bounds_length in Hi; tauto).
  rewrite (owns_cell a vs); auto.
  - rewrite nth_error_map. destruct (nth_error vs _); simpl; split; congruence.
  - destruct Hok as (Ho & _). unfold pos_of. apply position_bound; auto.
Qed.

Lemma nth_error_hblock (h : heap T) b k : hblock h b = Some k -> nth_error h b = Some (Some k).
Proof. unfold hblock. destruct (nth_error h b) as [[k'|]|]; congruence. Qed.

(** same structure and all elements still constructed: ownership is kept *)
Lemma owns_frame a vs (h h' : heap T) : owns h a vs -> same_frame h h' ->
  (forall p, init h p -> init h' p) -> exists vs', owns h' a vs'.
Proof.
  intros (H0 & H1 & H2 & H3 & H4 & H5) [L F] Hi.
  specialize (F (ma_block a)). rewrite (hblock_nth _ _ _ H5) in F.
  destruct (hblock h' (ma_block a)) as [[al cs]|] eqn:E; [|tauto]. cbn [b_alloc b_cells] in F. destruct F as [<- F].
  apply nth_error_hblock in E. rewrite map_length in F.
  assert (X : forall l : list (cell T), (forall k, (k < length l)%nat -> exists v, nth_error l k = Some (Some v)) -> exists vs', l = map Some vs').
  { induction l as [|c l IH]; intros Hl; [exists []; auto|].
    destruct (Hl O) as [v Hv]; [simpl; lia|]. simpl in Hv. injection Hv as ->.
    destruct IH as [vs' ->]; [|exists (v :: vs'); auto]. intros k Hk. apply (Hl (S k)). simpl; lia. }
  destruct (X cs) as [vs' ->].
  { intros k Hk. destruct (Hi (Ptr (ma_block a) (Z.of_nat k))) as [v Hv].
    - unfold init. rewrite (hcell_block _ _ _ _ H5) by lia. cbn [b_cells]. rewrite Nat2Z.id, nth_error_map.
      destruct (nth_error vs k) as [v|] eqn:Ev; [exists v; auto|]. apply nth_error_None in Ev. lia.
    - exists v. rewrite (hcell_block _ _ _ _ E) in Hv by lia. cbn [b_cells] in Hv. rewrite Nat2Z.id in Hv. auto. }
  exists vs'. unfold owns. rewrite map_length in F. intuition congruence.
Qed.

Lemma owns_other a vs (h h' : heap T) : owns h a vs -> same_block h h' (ma_block a) -> owns h' a vs.
Proof. unfold owns, same_block. intuition congruence. Qed.

End OwnProofs.
