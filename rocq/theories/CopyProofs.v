(** CopyProofs.v -- assignment between array-like objects is a sequence of
    element assignments in lexicographic index order. *)

From Coq Require Import ZArith List Bool Lia.
From Verif Require Import Base StorageOrder Ranges Layout Access Objects Memory Ops
  Spec Facts LayoutProofs AccessProofs MemoryProofs.
Import ListNotations.
Local Open Scope Z_scope.

(** addresses of all elements, in lexicographic index order *)
Definition addrs (a : nd) : list ptr := map (addr a) (tuples (nd_base a) (nd_ext a)).

(** iterators of one array *)
Definition it_at (a : nd) (k : Z) : iter := Iter k (nd_org a) (nd_ext a) (nd_str a) (nd_base a).

Lemma it_equal_at a j k : it_equal (it_at a j) (it_at a k) = (j =? k).
Proof.
  unfold it_equal, it_at; simpl. rewrite ptr_eqb_refl, !list_eqb_refl, !andb_true_r. auto.
Qed.
Lemma it_inc_at a k : idx_min <= k + 1 <= idx_max -> it_inc (it_at a k) = Ok (it_at a (k + 1)).
Proof. intros H. unfold it_inc. simpl. rewrite sadd_ok by auto. reflexivity. Qed.
Lemma nd_begin_at a b bs : nd_base a = b :: bs -> nd_begin a = Ok (it_at a b).
Proof. intros E. unfold nd_begin, it_at. rewrite E. auto. Qed.
Lemma nd_end_at a b bs e es : nd_base a = b :: bs -> nd_ext a = e :: es ->
  0 <= e <= max_index -> idx_min <= b + e <= idx_max -> nd_end a = Ok (it_at a (b + e)).
Proof.
  intros E1 E2 He H. unfold nd_end, it_at. rewrite E1, E2. rewrite to_index_small by (unconst; lia).
  rewrite sadd_ok by auto. auto.
Qed.
Lemma it_nd_at a k : it_nd (it_at a k) = a.
Proof. destruct a; reflexivity. Qed.

(** row k *)
Definition row (a : nd) (k : Z) : nd :=
  ND (padd (nd_org a) (k * hd 0 (nd_str a))) (tl (nd_ext a)) (tl (nd_str a)) (tl (nd_base a)).

Lemma row_ok a k : nd_ok a -> tl (nd_ext a) <> [] -> nd_ok (row a k).
Proof.
  intros Ha Hne. destruct (nd_ok_shape a Ha) as (b & bs & e & es & s & ss & Eb & Ee & Es & _ & _ & HA).
  unfold row, nd_ok; simpl. rewrite Eb, Ee, Es in *. simpl in *. auto.
Qed.

Definition row_addrs (a : nd) (k : Z) : list ptr :=
  map (fun t => addr a (k :: t)) (tuples (tl (nd_base a)) (tl (nd_ext a))).

Lemma row_addrs_eq a k : nd_ok a -> row_addrs a k = addrs (row a k).
Proof.
  intros Ha. destruct (nd_ok_shape a Ha) as (b & bs & e & es & s & ss & Eb & Ee & Es & _).
  unfold row_addrs, addrs. simpl. apply map_ext. intros t. unfold addr, row; simpl.
  rewrite Es. simpl. rewrite padd_padd. auto.
Qed.

Lemma map_flat_map {A B C} (g : B -> C) (f : A -> list B) l : map g (flat_map f l) = flat_map (fun x => map g (f x)) l.
Proof. induction l as [|x l IH]; simpl; auto. rewrite map_app, IH; auto. Qed.

Lemma addrs_rows a b bs e es : nd_base a = b :: bs -> nd_ext a = e :: es ->
  addrs a = flat_map (row_addrs a) (zseq b (Z.to_nat e)).
Proof.
  intros E1 E2. unfold addrs, row_addrs. rewrite E1, E2. simpl.
  rewrite map_flat_map. apply flat_map_ext. intros k. rewrite map_map. auto.
Qed.

Lemma combine_app_eq {A B} (l1 l1' : list A) (l2 l2' : list B) : length l1 = length l2 ->
  combine (l1 ++ l1') (l2 ++ l2') = combine l1 l2 ++ combine l1' l2'.
Proof.
  revert l2; induction l1 as [|x l1 IH]; intros [|y l2] H; simpl in *; try lia; auto. f_equal. apply IH; lia.
Qed.

Lemma combine_flat_map {A B C D} (f : A -> list C) (g : B -> list D) l1 l2 :
  length l1 = length l2 -> (forall x y, In x l1 -> In y l2 -> length (f x) = length (g y)) ->
  combine (flat_map f l1) (flat_map g l2) = flat_map (fun xy => combine (f (fst xy)) (g (snd xy))) (combine l1 l2).
Proof.
  revert l2; induction l1 as [|x l1 IH]; intros [|y l2] L H; simpl in *; try lia; auto.
  rewrite combine_app_eq by (apply H; auto). f_equal. apply IH; [lia|]. intros; apply H; auto.
Qed.

Section Copy.
Context {T : Type}.

Fixpoint mseq {A} (f : A -> M T unit) (l : list A) : M T unit :=
  match l with [] => ret tt | x :: r => _ <~ f x ;; mseq f r end.

Lemma mseq_ext {A} (f g : A -> M T unit) l w : (forall x w, In x l -> f x w = g x w) -> mseq f l w = mseq g l w.
Proof.
  revert w; induction l as [|x l IH]; intros w H; auto. simpl. apply bind_ext.
  - apply H; left; auto.
  - intros _ w'. apply IH. intros; apply H; right; auto.
Qed.

Lemma copy_cells_mseq {A} (f : A -> list (ptr * ptr)) l w :
  copy_cells (flat_map f l) w = mseq (fun x => copy_cells (f x)) l w.
Proof.
  revert w; induction l as [|x l IH]; intros w; auto. simpl. rewrite copy_cells_app. apply bind_ext; auto.
Qed.

Lemma copy_loop_eq (body : iter -> iter -> M T unit) src dst : forall m k j fuel w,
  (m <= fuel)%nat ->
  idx_min <= k -> k + Z.of_nat m <= idx_max ->
  idx_min <= j -> j + Z.of_nat m <= idx_max ->
  copy_loop body fuel (it_at src k) (it_at src (k + Z.of_nat m)) (it_at dst j) w =
  mseq (fun kj => body (it_at src (snd kj)) (it_at dst (fst kj))) (combine (zseq j m) (zseq k m)) w.
Proof.
  induction m as [|m IH]; intros k j fuel w Hf H1 H2 H3 H4.
  - destruct fuel; simpl; rewrite it_equal_at; destruct (Z.eqb_spec k (k + 0)); auto; lia.
  - rewrite !zseq_S. destruct fuel as [|fuel]; [lia|]. cbn [copy_loop combine mseq fst snd].
    rewrite it_equal_at. destruct (Z.eqb_spec k (k + Z.of_nat (S m))); [lia|].
    apply bind_ext; auto. intros _ w'.
    rewrite (it_inc_at src k) by lia. rewrite (it_inc_at dst j) by lia. unfold lift at 1, bind at 1. unfold lift, bind at 1.
    replace (k + Z.of_nat (S m)) with ((k + 1) + Z.of_nat m) by lia. apply IH; lia.
Qed.

Lemma copy_rows_eq rec chk k dst src w :
  nd_ok dst -> nd_ok src -> nd_ext dst = nd_ext src -> length (nd_ext src) = S k ->
  (k <> O -> forall i j w, rec (row dst i) (row src j) w =
                           copy_cells (combine (addrs (row dst i)) (addrs (row src j))) w) ->
  copy_rows (T := T) rec chk k dst src w = copy_cells (combine (addrs dst) (addrs src)) w.
Proof.
  intros Hd Hs Hext Hlen Hrec.
  destruct (nd_ok_shape src Hs) as (b & bs & e & es & s & ss & Eb & Ee & Es & L1 & L2 & HA).
  destruct (nd_ok_shape dst Hd) as (b' & bs' & e' & es' & s' & ss' & Eb' & Ee' & Es' & L1' & L2' & HA').
  rewrite Ee' in Hext. rewrite Ee in Hext. inversion Hext; subst e' es'. clear Hext.
  pose proof Hs as Hs2. pose proof Hd as Hd2. unfold nd_ok in Hs2, Hd2.
  rewrite Eb, Ee, Es in Hs2. rewrite Eb', Ee', Es' in Hd2.
  apply addressable_cons in Hs2. apply addressable_cons in Hd2.
  destruct Hs2 as (He & Hb1 & Hb2 & _). destruct Hd2 as (_ & Hb1' & Hb2' & _).
  unfold copy_rows.
  rewrite (nd_begin_at src b bs Eb), (nd_end_at src b bs e es Eb Ee) by (unconst; lia).
  rewrite (nd_begin_at dst b' bs' Eb').
  do 3 (unfold bind at 1, lift at 1).
  unfold loop_fuel, it_at at 1 2. cbn [it_idx]. replace (b + e - b) with e by lia.
  replace (it_at src (b + e)) with (it_at src (b + Z.of_nat (Z.to_nat e))) by (f_equal; lia).
  rewrite copy_loop_eq by (unconst; lia).
  rewrite (addrs_rows dst b' bs' e es Eb' Ee'), (addrs_rows src b bs e es Eb Ee).
  rewrite combine_flat_map.
  - rewrite copy_cells_mseq. apply mseq_ext. intros [j i] w' Hin. cbn [fst snd].
    assert (Hj : b' <= j < b' + e).
    { apply in_combine_l in Hin. apply in_zseq in Hin. lia. }
    assert (Hi : b <= i < b + e).
    { apply in_combine_r in Hin. apply in_zseq in Hin. lia. }
    rewrite Ee in Hlen. simpl in Hlen.
    destruct k as [|k].
    + destruct es; simpl in Hlen; [|lia].
      destruct bs, ss; simpl in L1, L2; try lia. destruct bs', ss'; simpl in L1', L2'; try lia.
      unfold it_deref_one. rewrite !it_nd_at. cbn [it_idx it_at].
      rewrite (access_one_ok chk i src b e s) by auto.
      rewrite (access_one_ok chk j dst b' e s') by auto.
      do 2 (unfold bind at 1, lift at 1).
      unfold row_addrs. rewrite Eb, Eb', Ee, Ee'. cbn [tl tuples map combine copy_cells].
      unfold addr. rewrite Es, Es'. cbn [dot]. rewrite !Z.add_0_r.
      unfold bind. destruct (elem_assign _ _ w') as [[] ?|?|?| |]; auto.
    + assert (Hne : es <> []) by (destruct es; simpl in *; congruence).
      unfold it_deref_n. rewrite !it_nd_at. cbn [it_idx it_at].
      rewrite (access_n_ok chk i src b bs e es s ss) by auto.
      rewrite (access_n_ok chk j dst b' bs' e es s' ss') by auto.
      do 2 (unfold bind at 1, lift at 1).
      rewrite !row_addrs_eq by auto.
      rewrite <- Hrec by auto. unfold row. rewrite Eb, Ee, Es, Eb', Ee', Es'. reflexivity.
  - rewrite !length_zseq. auto.
  - intros x y _ _. unfold row_addrs. rewrite !map_length, Eb, Eb', Ee, Ee'. cbn [tl].
    apply length_tuples_bases; auto.
Qed.

Theorem assign_nd_eq chk : forall n dst src w,
  nd_ok dst -> nd_ok src -> nd_ext dst = nd_ext src -> length (nd_ext src) = n ->
  assign_nd (T := T) chk n dst src w = copy_cells (combine (addrs dst) (addrs src)) w.
Proof.
  induction n as [|n IH]; intros dst src w Hd Hs He Hl.
  - exfalso. pose proof Hs as (_ & _ & H & _). lia.
  - cbn [assign_nd]. rewrite He, list_eqb_refl.
    replace (assertM chk (Ok true)) with (Ok tt) by (destruct chk; auto).
    unfold bind at 1, lift at 1.
    apply copy_rows_eq; auto. intros Hk i j w'.
    assert (Hne : tl (nd_ext src) <> []).
    { destruct (nd_ext src) as [|e [|e2 es]]; simpl in *; try lia. congruence. }
    apply IH.
    + apply row_ok; auto. rewrite He; auto.
    + apply row_ok; auto.
    + simpl. congruence.
    + simpl. destruct (nd_ext src); simpl in *; lia.
Qed.

Theorem std_copy_nd_eq chk n dst src w :
  nd_ok dst -> nd_ok src -> nd_ext dst = nd_ext src -> length (nd_ext src) = n ->
  std_copy_nd (T := T) chk n dst src w = copy_cells (combine (addrs dst) (addrs src)) w.
Proof.
  intros Hd Hs He Hl. destruct n as [|n].
  - exfalso. pose proof Hs as (_ & _ & H & _). lia.
  - cbn [std_copy_nd]. apply copy_rows_eq; auto. intros Hk i j w'.
    assert (Hne : tl (nd_ext src) <> []).
    { destruct (nd_ext src) as [|e [|e2 es]]; simpl in *; try lia. congruence. }
    apply assign_nd_eq.
    + apply row_ok; auto. rewrite He; auto.
    + apply row_ok; auto.
    + simpl. congruence.
    + simpl. destruct (nd_ext src); simpl in *; lia.
Qed.

Theorem copy_dispatch_eq chk : forall n dst src w,
  nd_ok dst -> nd_ok src -> nd_ext dst = nd_ext src -> length (nd_ext src) = n ->
  copy_dispatch (T := T) chk n dst src w = copy_cells (combine (addrs dst) (addrs src)) w.
Proof.
  induction n as [|n IH]; intros dst src w Hd Hs He Hl.
  - exfalso. pose proof Hs as (_ & _ & H & _). lia.
  - cbn [copy_dispatch]. apply copy_rows_eq; auto. intros Hk i j w'.
    assert (Hne : tl (nd_ext src) <> []).
    { destruct (nd_ext src) as [|e [|e2 es]]; simpl in *; try lia. congruence. }
    apply IH.
    + apply row_ok; auto. rewrite He; auto.
    + apply row_ok; auto.
    + simpl. congruence.
    + simpl. destruct (nd_ext src); simpl in *; lia.
Qed.
Theorem copy_array_eq chk n dst src w :
  nd_ok dst -> nd_ok src -> nd_ext dst = nd_ext src -> length (nd_ext src) = n ->
  copy_array (T := T) chk n dst src w = copy_cells (combine (addrs dst) (addrs src)) w.
Proof.
  intros Hd Hs He Hl. unfold copy_array. rewrite He, list_eqb_refl.
  replace (assertM chk (Ok true)) with (Ok tt) by (destruct chk; auto).
  unfold bind at 1, lift at 1. apply copy_dispatch_eq; auto.
Qed.

Theorem assign_nd_abort n dst src w : nd_ext src <> nd_ext dst ->
  assign_nd (T := T) true (S n) dst src w = Aborted w.
Proof.
  intros H. cbn [assign_nd]. rewrite list_eqb_neq by auto. reflexivity.
Qed.

(** for_each *)
Definition apply_cell (f : T -> T) (p : ptr) : M T unit :=
  v <~ load p ;; _ <~ tick ;; store p (f v).

Lemma each_loop_eq (body : iter -> M T unit) a : forall m k fuel w,
  (m <= fuel)%nat -> idx_min <= k -> k + Z.of_nat m <= idx_max ->
  each_loop body fuel (it_at a k) (it_at a (k + Z.of_nat m)) w =
  mseq (fun i => body (it_at a i)) (zseq k m) w.
Proof.
  induction m as [|m IH]; intros k fuel w Hf H1 H2.
  - destruct fuel; simpl; rewrite it_equal_at; destruct (Z.eqb_spec k (k + 0)); auto; lia.
  - rewrite !zseq_S. destruct fuel as [|fuel]; [lia|]. cbn [each_loop mseq].
    rewrite it_equal_at. destruct (Z.eqb_spec k (k + Z.of_nat (S m))); [lia|].
    apply bind_ext; auto. intros _ w'.
    rewrite (it_inc_at a k) by lia. unfold lift at 1, bind at 1.
    replace (k + Z.of_nat (S m)) with ((k + 1) + Z.of_nat m) by lia. apply IH; lia.
Qed.

Lemma mseq_app {A} (f : A -> M T unit) l1 l2 w : mseq f (l1 ++ l2) w = bind (mseq f l1) (fun _ => mseq f l2) w.
Proof.
  revert w; induction l1 as [|x l1 IH]; intros w; auto. simpl. rewrite bind_assoc. apply bind_ext; auto.
Qed.
Lemma mseq_flat_map {A B} (f : B -> M T unit) (g : A -> list B) l w :
  mseq f (flat_map g l) w = mseq (fun x => mseq f (g x)) l w.
Proof.
  revert w; induction l as [|x l IH]; intros w; auto. simpl. rewrite mseq_app. apply bind_ext; auto.
Qed.

Theorem for_each_eq chk f : forall n a w, nd_ok a -> length (nd_ext a) = n ->
  for_each (T := T) chk f n a w = mseq (apply_cell f) (addrs a) w.
Proof.
  induction n as [|n IH]; intros a w Ha Hl.
  - exfalso. pose proof Ha as (_ & _ & H & _). lia.
  - destruct (nd_ok_shape a Ha) as (b & bs & e & es & s & ss & Eb & Ee & Es & L1 & L2 & HA).
    pose proof Ha as Ha2. unfold nd_ok in Ha2. rewrite Eb, Ee, Es in Ha2.
    apply addressable_cons in Ha2. destruct Ha2 as (He & Hb1 & Hb2 & _).
    cbn [for_each].
    rewrite (nd_begin_at a b bs Eb), (nd_end_at a b bs e es Eb Ee) by (unconst; lia).
    do 2 (unfold bind at 1, lift at 1).
    unfold loop_fuel, it_at at 1 2. cbn [it_idx]. replace (b + e - b) with e by lia.
    replace (it_at a (b + e)) with (it_at a (b + Z.of_nat (Z.to_nat e))) by (f_equal; lia).
    rewrite each_loop_eq by (unconst; lia).
    rewrite (addrs_rows a b bs e es Eb Ee), mseq_flat_map. apply mseq_ext.
    intros i w' Hin. apply in_zseq in Hin. rewrite Z2Nat.id in Hin by lia.
    rewrite Ee in Hl. simpl in Hl. destruct n as [|n].
    + destruct es; simpl in Hl; [|lia]. destruct bs, ss; simpl in L1, L2; try lia.
      unfold it_deref_one. rewrite it_nd_at. cbn [it_idx it_at].
      rewrite (access_one_ok chk i a b e s) by auto.
      unfold bind at 1, lift at 1.
      unfold row_addrs. rewrite Eb, Ee. cbn [tl tuples map mseq].
      unfold addr. rewrite Es. cbn [dot]. rewrite Z.add_0_r.
      unfold apply_cell. unfold bind. destruct (load _ w') as [? ?|?|?| |]; auto.
      destruct (tick w0) as [? ?|?|?| |]; auto. destruct (store _ _ w1) as [[] ?|?|?| |]; auto.
    + assert (Hne : es <> []) by (destruct es; simpl in *; congruence).
      unfold it_deref_n. rewrite it_nd_at. cbn [it_idx it_at].
      rewrite (access_n_ok chk i a b bs e es s ss) by auto.
      unfold bind at 1, lift at 1. rewrite row_addrs_eq by auto.
      rewrite <- IH.
      * unfold row. rewrite Eb, Ee, Es. reflexivity.
      * apply row_ok; auto. rewrite Ee; auto.
      * simpl. rewrite Ee. simpl. lia.
Qed.

End Copy.
