(** CostProofs.v -- counting the operations that can throw. *)

From Coq Require Import Lia.
From Verif Require Import Base StorageOrder Ranges Layout Access Objects Memory Ops MultiArray History.
From Verif Require Import Spec Facts LayoutProofs AccessProofs ViewProofs MemoryProofs CopyProofs ReachSpec ReachProofs MemSpec CompareSpec OwnSpec HistorySpec CostSpec.
From Verif Require Import ThmAddressing ThmGeometry ThmBulk OwnProofs ResizeProofs ThmMultiArray HistoryProofs.

Section Metered.
Context {T : Type}.

(** if m finishes, it has allocated g blocks *)
Definition grows {A} (m : M T A) (g : nat) : Prop :=
  forall w a w', m w = Done a w' -> length (w_heap w') = (length (w_heap w) + g)%nat.

Lemma grows_ret {A} (a : A) : grows (ret a) 0.
Proof. intros w a' w' E. injection E as <- <-. lia. Qed.
Lemma grows_lift {A} (o : outcome A) : grows (lift o) 0.
Proof. intros w a w' E. unfold lift in E. destruct o; try discriminate. injection E as <- <-. lia. Qed.
Lemma grows_tick : grows tick 0.
Proof. intros w a w' E. unfold tick in E. destruct (w_fuse w) as [[|k]|]; try discriminate; injection E as <- <-; cbn [w_heap]; lia. Qed.
Lemma grows_load p : grows (load p) 0.
Proof. intros w a w' E. unfold load, lift in E. destruct (hread _ p); try discriminate. injection E as <- <-. lia. Qed.
Lemma length_hset (h : heap T) p c h' : hset h p c = Some h' -> length h' = length h.
Proof.
  unfold hset. destruct (hcell h p); [|discriminate]. destruct (hblock h (p_blk p)); [|discriminate].
  intros E. injection E as <-. apply length_set_nth.
Qed.
Lemma grows_store p v : grows (store p v) 0.
Proof.
  intros w a w' E. unfold store, hwrite in E. destruct (hcell (w_heap w) p) as [[u|]|]; try discriminate.
  destruct (hset (w_heap w) p (Some v)) as [h'|] eqn:Eh; try discriminate. injection E as <- <-. cbn [w_heap].
  rewrite (length_hset _ _ _ _ Eh). lia.
Qed.
Lemma grows_bind {A B} (m : M T A) (k : A -> M T B) g1 g2 : grows m g1 -> (forall a, grows (k a) g2) -> grows (bind m k) (g1 + g2).
Proof.
  intros H1 H2 w b w' E. unfold bind in E. destruct (m w) as [a w1| | | |] eqn:E1; try discriminate.
  rewrite (H2 _ _ _ _ E), (H1 _ _ _ E1). lia.
Qed.
Lemma grows_bind_0 {A B} (m : M T A) (k : A -> M T B) g : grows m 0 -> (forall a, grows (k a) g) -> grows (bind m k) g.
Proof. exact (grows_bind m k 0 g). Qed.
Lemma grows_bind_1 {A B} (m : M T A) (k : A -> M T B) : grows m 1 -> (forall a, grows (k a) 0) -> grows (bind m k) 1.
Proof. exact (grows_bind m k 1 0). Qed.
Lemma grows_on_throw {A} (m : M T A) hd g : grows m g -> grows (on_throw m hd) g.
Proof.
  intros H w a w' E. unfold on_throw in E. destruct (m w) as [a1 w1|w1|w1| |] eqn:E1; try discriminate.
  - injection E as <- <-. eapply H; eauto.
  - destruct (hd w1); discriminate.
Qed.
Lemma grows_construct d p : grows (construct d p) 0.
Proof.
  apply grows_bind_0; [apply grows_tick|]. intros _ w a w' E. destruct (hcell (w_heap w) p) as [[u|]|]; try discriminate.
  destruct (hset (w_heap w) p (Some d)) as [h'|] eqn:Eh; try discriminate. injection E as <- <-. cbn [w_heap].
  rewrite (length_hset _ _ _ _ Eh). lia.
Qed.
Lemma grows_destroy p : grows (destroy p) 0.
Proof.
  intros w a w' E. unfold destroy in E. destruct (hcell (w_heap w) p) as [[u|]|]; try discriminate.
  destruct (hset (w_heap w) p None) as [h'|] eqn:Eh; try discriminate. injection E as <- <-. cbn [w_heap].
  rewrite (length_hset _ _ _ _ Eh). lia.
Qed.
Lemma grows_allocate aid n : grows (allocate aid n) 1.
Proof.
  intros w a w' E. unfold allocate in E. destruct (tick w) as [u w1| | | |] eqn:Et; try discriminate.
  destruct (_ && _); try discriminate. injection E as <- <-. cbn [w_heap]. rewrite app_length. simpl. rewrite (grows_tick _ _ _ Et). lia.
Qed.
Lemma grows_construct_loop d p : forall n i, grows (alloc_construct_loop d p i n) 0.
Proof.
  induction n as [|n IH]; intros i; [apply grows_ret|]. cbn [alloc_construct_loop].
  apply grows_bind_0; [apply grows_on_throw, grows_construct|auto].
Qed.
Lemma grows_ma_destroy a : grows (ma_destroy a) 0.
Proof.
  apply grows_bind_0.
  - generalize (Z.to_nat (ma_alloc_elems a)) as n. induction n as [|n IH]; [apply grows_ret|]. cbn [alloc_destroy_n].
    apply grows_bind_0; [apply grows_destroy|auto].
  - intros _ w u w' E. unfold deallocate in E. destruct (hblock _ _); try discriminate. destruct (_ && _); try discriminate.
    injection E as <- <-. cbn [w_heap]. rewrite length_set_nth. lia.
Qed.
Lemma grows_elem_assign d s : grows (elem_assign d s) 0.
Proof. apply grows_bind_0; [apply grows_load|]. intros v. apply grows_bind_0; [apply grows_tick|]. intros _. apply grows_store. Qed.
Lemma grows_copy_loop body fuel : (forall x y, grows (body x y) 0) -> forall f l r, grows (copy_loop body fuel f l r) 0.
Proof.
  intros HB. induction fuel as [|fuel IH]; intros f l r; cbn [copy_loop]; destruct (it_equal f l); try apply grows_ret.
  - intros w a w' E. discriminate.
  - apply grows_bind_0; [apply HB|]. intros _. apply grows_bind_0; [apply grows_lift|]. intros f'.
    apply grows_bind_0; [apply grows_lift|]. intros r'. apply IH.
Qed.
Lemma grows_copy_rows rec chk k d s : (forall x y, grows (rec x y) 0) -> grows (copy_rows rec chk k d s) 0.
Proof.
  intros HB. unfold copy_rows. do 3 (apply grows_bind_0; [apply grows_lift|intros ?]). apply grows_copy_loop. intros x y. destruct k.
  - do 2 (apply grows_bind_0; [apply grows_lift|intros ?]). apply grows_elem_assign.
  - do 2 (apply grows_bind_0; [apply grows_lift|intros ?]). apply HB.
Qed.
Lemma grows_assign_nd chk : forall n d s, grows (assign_nd chk n d s) 0.
Proof.
  induction n as [|n IH]; intros d s; cbn [assign_nd]; [intros w a w' E; discriminate|].
  apply grows_bind_0; [apply grows_lift|]. intros _. apply grows_copy_rows. auto.
Qed.
Lemma grows_std_copy chk n d s : grows (std_copy_nd chk n d s) 0.
Proof. destruct n; cbn [std_copy_nd]; [intros w a w' E; discriminate|]. apply grows_copy_rows. apply grows_assign_nd. Qed.
Lemma grows_copy_array chk n d s : grows (copy_array chk n d s) 0.
Proof.
  apply grows_bind_0; [apply grows_lift|]. intros _. revert d s. induction n as [|n IH]; intros d s; cbn [copy_dispatch]; [intros w a w' E; discriminate|].
  apply grows_copy_rows. auto.
Qed.
Lemma grows_each_loop body fuel : (forall x, grows (body x) 0) -> forall f l, grows (each_loop body fuel f l) 0.
Proof.
  intros HB. induction fuel as [|fuel IH]; intros f l; cbn [each_loop]; destruct (it_equal f l); try apply grows_ret.
  - intros w a w' E. discriminate.
  - apply grows_bind_0; [apply HB|]. intros _. apply grows_bind_0; [apply grows_lift|]. intros f'. apply IH.
Qed.
Lemma grows_for_each chk fn : forall n a, grows (for_each chk fn n a) 0.
Proof.
  induction n as [|n IH]; intros a; cbn [for_each]; [intros w u w' E; discriminate|].
  do 2 (apply grows_bind_0; [apply grows_lift|intros ?]). apply grows_each_loop. intros x. destruct n.
  - apply grows_bind_0; [apply grows_lift|]. intros p. apply grows_bind_0; [apply grows_load|]. intros v.
    apply grows_bind_0; [apply grows_tick|]. intros _. apply grows_store.
  - apply grows_bind_0; [apply grows_lift|]. intros p. apply IH.
Qed.
Lemma grows_assign_loop num : forall l out k, grows (assign_loop out l k num) 0.
Proof.
  induction l as [|v l IH]; intros out k; cbn [assign_loop]; [apply grows_ret|]. destruct (k <? num); [|apply grows_ret].
  apply grows_bind_0; [apply grows_tick|]. intros _. apply grows_bind_0; [apply grows_store|auto].
Qed.
Lemma grows_allocate_space d c aid : grows (allocate_space d c aid) 1.
Proof.
  apply grows_bind_1; [apply grows_allocate|]. intros p. apply grows_bind_0; [apply grows_construct_loop|]. intros _. apply grows_ret.
Qed.
Lemma grows_ma_copy d a : grows (ma_copy d a) 1.
Proof.
  apply grows_bind_1; [apply grows_allocate_space|]. intros this. apply grows_bind_0; [|intros _; apply grows_ret].
  generalize (Z.to_nat (cr_num (ma_ref a))) (ma_base a) (ma_base this). induction n as [|n IH]; intros p q; [apply grows_ret|].
  cbn [copy_n_elems]. apply grows_bind_0; [apply grows_elem_assign|auto].
Qed.
Lemma grows_convert d chk rhs so aid : grows (ma_convert d chk rhs so aid) 1.
Proof.
  apply grows_bind_0; [apply grows_lift|]. intros c. apply grows_bind_1; [apply grows_allocate_space|]. intros this.
  apply grows_bind_0; [apply grows_std_copy|]. intros _. apply grows_ret.
Qed.
Lemma grows_from_gen d chk g so aid : grows (ma_from_gen d chk g so aid) 1.
Proof. apply grows_bind_0; [apply grows_lift|]. intros c. apply grows_allocate_space. Qed.
Lemma grows_resize d chk a g : grows (ma_resize d chk a g) 1.
Proof.
  unfold ma_resize. destruct (Nat.eqb _ _); [|intros w u w' E; discriminate].
  apply grows_bind_1; [apply grows_from_gen|]. intros new. apply grows_bind_0.
  - apply grows_on_throw. do 5 (apply grows_bind_0; [apply grows_lift|intros ?]). apply grows_assign_nd.
  - intros _. destruct (swap_internals a new) as [t n]. apply grows_bind_0; [apply grows_ma_destroy|]. intros _. apply grows_ret.
Qed.

Lemma grows_exec d eqT ltT chk en c : grows (exec d eqT ltT chk en c) (if allocates c then 1 else 0).
Proof.
  destruct c; cbn [exec allocates];
  repeat first
    [ apply grows_ret | apply grows_lift | apply grows_ma_destroy | apply grows_assign_nd | apply grows_copy_array
    | apply grows_load | apply grows_store | apply grows_tick | apply grows_assign_loop | apply grows_for_each
    | apply grows_allocate_space | apply grows_ma_copy | apply grows_convert | apply grows_from_gen | apply grows_resize
    | apply grows_bind_1; [first [apply grows_ma_copy | apply grows_convert | apply grows_resize
        | repeat (apply grows_bind_0; [apply grows_lift|intros ?]); first [apply grows_allocate_space|apply grows_resize]]|intros ?]
    | apply grows_bind_0; [|intros ?]
    | match goal with
      | |- grows (match ?x with _ => _ end) _ => destruct x
      | |- grows (fun _ => Undef) _ => intros w u w' E; discriminate
      | |- grows (if ?x then _ else _) _ => destruct x
      | |- grows (ma_assign _ _ _ _) _ => unfold ma_assign, ma_assign_from
      | |- grows (cr_assign _ _) _ => unfold cr_assign
      | |- grows (get_element _ _ _) _ => unfold get_element
      | |- grows (set_element _ _ _ _) _ => unfold set_element
      | |- grows (get_bracket _ _ _) _ => unfold get_bracket
      | |- grows (set_bracket _ _ _ _) _ => unfold set_bracket
      end ].
  intros w u w' E. exact (grows_lift _ w u w' E).
Qed.

(** if m finishes when nothing throws, then it performs exactly n throwing
    operations *)
Definition metered {A} (m : M T A) (n : nat) : Prop :=
  forall h a w, m (World h None) = Done a w ->
    w_fuse w = None /\
    forall k, ((n <= k)%nat -> m (World h (Some k)) = Done a (World (w_heap w) (Some (k - n)%nat))) /\
              ((k < n)%nat -> match m (World h (Some k)) with Done _ _ => False | _ => True end).

(** fuse-blind *)
Definition blind {A} (m : M T A) : Prop :=
  forall h f, m (World h f) =
    match m (World h None) with
    | Done a w => Done a (World (w_heap w) f)
    | Thrown w => Thrown (World (w_heap w) f)
    | Aborted w => Aborted (World (w_heap w) f)
    | Undef => Undef | OutOfFuel => OutOfFuel end.

Lemma blind_metered {A} (m : M T A) : blind m -> metered m 0.
Proof.
  intros B h a w E. pose proof (B h None) as B0. rewrite E in B0. split.
  - injection B0 as ->. reflexivity.
  - intros k. split; [|lia]. intros _. rewrite B, E, Nat.sub_0_r. auto.
Qed.

Lemma metered_ret {A} (a : A) : metered (ret a) 0.
Proof. apply blind_metered. intros h f. reflexivity. Qed.
Lemma metered_lift {A} (o : outcome A) : metered (lift o) 0.
Proof. apply blind_metered. intros h f. unfold lift. destruct o; reflexivity. Qed.
Lemma metered_tick : metered tick 1.
Proof.
  intros h a w E. unfold tick in *. cbn [w_fuse] in *. injection E as <- <-. split; [auto|]. intros [|k]; cbn [w_fuse w_heap]; split; auto; try lia.
  intros _. do 3 f_equal. lia.
Qed.
Lemma metered_load p : metered (load p) 0.
Proof. apply blind_metered. intros h f. unfold load, lift. cbn [w_heap]. destruct (hread h p); reflexivity. Qed.
Lemma metered_store p v : metered (store p v) 0.
Proof. apply blind_metered. intros h f. unfold store. cbn [w_heap w_fuse]. destruct (hwrite h p v); reflexivity. Qed.

Lemma metered_bind_post {A B} (m : M T A) (g : A -> M T B) n1 n2 : metered m n1 ->
  (forall h a w, m (World h None) = Done a w -> metered (g a) n2) -> metered (bind m g) (n1 + n2).
Proof.
  intros H1 H2 h b w E. unfold bind in E. destruct (m (World h None)) as [a w1|w1|w1| |] eqn:E1; try discriminate.
  destruct (H1 h a w1 E1) as [F1 K1]. destruct w1 as [h1 f1]. cbn [w_fuse w_heap] in *. subst f1.
  destruct (H2 h a _ E1 h1 b w E) as [F2 K2]. split; [auto|]. intros k. destruct (K1 k) as [L1 L2]. split; intros Hk.
  - unfold bind. rewrite L1 by lia. destruct (K2 (k - n1)%nat) as [L3 _]. rewrite L3 by lia. do 3 f_equal. lia.
  - unfold bind. destruct (Nat.lt_ge_cases k n1) as [Hlt|Hge].
    + specialize (L2 Hlt). destruct (m (World h (Some k))); tauto.
    + rewrite L1 by lia. destruct (K2 (k - n1)%nat) as [_ L3]. apply L3. lia.
Qed.
Lemma metered_bind {A B} (m : M T A) (g : A -> M T B) n1 n2 : metered m n1 -> (forall a, metered (g a) n2) -> metered (bind m g) (n1 + n2).
Proof. intros H1 H2. apply metered_bind_post; auto. Qed.

Lemma metered_ext {A} (m m' : M T A) n : (forall w, m w = m' w) -> metered m' n -> metered m n.
Proof. intros E H h a w. rewrite E. intros E2. destruct (H h a w E2) as [F K]. split; [auto|]. intros k. rewrite E. auto. Qed.
Lemma metered_eq {A} (m : M T A) n n' : n = n' -> metered m n -> metered m n'.
Proof. intros ->. auto. Qed.

Lemma metered_on_throw {A} (m : M T A) hd n : metered m n -> metered (on_throw m hd) n.
Proof.
  intros H h a w E. unfold on_throw in *. destruct (m (World h None)) as [a1 w1|w1|w1| |] eqn:E1; try discriminate.
  - injection E as <- <-. destruct (H h a1 w1 E1) as [F K]. split; [auto|]. intros k. destruct (K k) as [L1 L2]. split; intros Hk.
    + rewrite L1 by auto. auto.
    + specialize (L2 Hk). destruct (m (World h (Some k))) as [a2 w2|w2|w2| |]; auto. destruct (hd w2); auto.
  - destruct (hd w1); discriminate.
Qed.

Lemma metered_elem_assign d s : metered (elem_assign d s) 1.
Proof.
  unfold elem_assign. change 1%nat with (0 + (1 + 0))%nat. apply metered_bind; [apply metered_load|]. intros v.
  apply metered_bind; [apply metered_tick|]. intros _. apply metered_store.
Qed.
Lemma metered_copy_cells l : metered (copy_cells l) (length l).
Proof.
  induction l as [|[d s] l IH]; [apply metered_ret|]. cbn [copy_cells length]. change (S (length l)) with (1 + length l)%nat.
  apply metered_bind; [apply metered_elem_assign|auto].
Qed.
Lemma metered_mseq {A} (g : A -> M T unit) l : (forall x, metered (g x) 1) -> metered (mseq g l) (length l).
Proof.
  intros H. induction l as [|x l IH]; [apply metered_ret|]. cbn [mseq length]. change (S (length l)) with (1 + length l)%nat.
  apply metered_bind; auto.
Qed.
Lemma metered_apply_cell f p : metered (apply_cell f p) 1.
Proof.
  unfold apply_cell. change 1%nat with (0 + (1 + 0))%nat. apply metered_bind; [apply metered_load|]. intros v.
  apply metered_bind; [apply metered_tick|]. intros _. apply metered_store.
Qed.

Lemma metered_construct d p : metered (construct d p) 1.
Proof.
  unfold construct. change 1%nat with (1 + 0)%nat. apply metered_bind; [apply metered_tick|]. intros _.
  apply blind_metered. intros h f. cbn [w_heap w_fuse]. destruct (hcell h p) as [[v|]|]; auto. destruct (hset h p (Some d)); auto.
Qed.
Lemma metered_destroy p : metered (destroy p) 0.
Proof.
  apply blind_metered. intros h f. unfold destroy. cbn [w_heap w_fuse]. destruct (hcell h p) as [[v|]|]; auto. destruct (hset h p None); auto.
Qed.
Lemma metered_construct_loop d p : forall n i, metered (alloc_construct_loop d p i n) n.
Proof.
  induction n as [|n IH]; intros i; [apply metered_ret|]. cbn [alloc_construct_loop]. change (S n) with (1 + n)%nat.
  apply metered_bind; [apply metered_on_throw, metered_construct|auto].
Qed.
Lemma metered_destroy_n p : forall n, metered (alloc_destroy_n p n) 0.
Proof.
  induction n as [|n IH]; [apply metered_ret|]. cbn [alloc_destroy_n]. change 0%nat with (0 + 0)%nat.
  apply metered_bind; [apply metered_destroy|auto].
Qed.
Lemma metered_deallocate aid p n : metered (deallocate aid p n) 0.
Proof.
  apply blind_metered. intros h f. unfold deallocate. cbn [w_heap w_fuse]. destruct (hblock h (p_blk p)); auto.
  destruct (_ && _); auto.
Qed.
Lemma metered_ma_destroy a : metered (ma_destroy a) 0.
Proof.
  unfold ma_destroy. change 0%nat with (0 + 0)%nat at 1. apply metered_bind; [apply metered_destroy_n|]. intros _. apply metered_deallocate.
Qed.
Lemma metered_allocate aid n : metered (allocate aid n) 1.
Proof.
  intros h a w E. unfold allocate, tick in *. cbn [w_fuse w_heap] in *.
  destruct ((0 <=? n) && (n <=? idx_max)); [|discriminate]. injection E as <- <-. split; [auto|].
  intros [|k]; cbn [w_fuse w_heap]; split; auto; try lia. intros _. do 3 f_equal. lia.
Qed.

Variable dflt : T.

Lemma metered_allocate_space c aid : metered (allocate_space dflt c aid) (1 + Z.to_nat (cr_num c)).
Proof.
  unfold allocate_space. apply metered_bind; [apply metered_allocate|]. intros p.
  apply (metered_eq _ (Z.to_nat (cr_num c) + 0)); [lia|]. apply metered_bind; [apply metered_construct_loop|]. intros _. apply metered_ret.
Qed.
Lemma metered_copy_n_elems first n result : metered (copy_n_elems first n result) n.
Proof.
  revert first result. induction n as [|n IH]; intros first result; [apply metered_ret|]. cbn [copy_n_elems]. change (S n) with (1 + n)%nat.
  apply metered_bind; [apply metered_elem_assign|auto].
Qed.
Lemma metered_assign_loop : forall l out (k num : nat), (k <= num)%nat ->
  metered (assign_loop out l (Z.of_nat k) (Z.of_nat num)) (Nat.min (length l) (num - k)).
Proof.
  induction l as [|v l IH]; intros out k num Hk; [apply metered_ret|]. cbn [assign_loop length].
  destruct (Z.ltb_spec (Z.of_nat k) (Z.of_nat num)).
  - apply (metered_eq _ (1 + (0 + Nat.min (length l) (num - S k)))); [lia|].
    apply metered_bind; [apply metered_tick|]. intros _. apply metered_bind; [apply metered_store|]. intros _.
    replace (Z.of_nat k + 1) with (Z.of_nat (S k)) by lia. apply IH. lia.
  - apply (metered_eq _ 0); [lia|]. apply metered_ret.
Qed.

Lemma metered_ma_copy a : metered (ma_copy dflt a) (1 + Z.to_nat (cr_num (ma_ref a)) + Z.to_nat (cr_num (ma_ref a))).
Proof.
  unfold ma_copy. apply metered_bind; [apply metered_allocate_space|]. intros this.
  apply (metered_eq _ (Z.to_nat (cr_num (ma_ref a)) + 0)); [lia|]. apply metered_bind; [apply metered_copy_n_elems|]. intros _. apply metered_ret.
Qed.

Lemma length_addrs d : nd_ok d -> length (addrs d) = count (nd_ext d).
Proof.
  intros Hd. pose proof Hd as (L1 & L2 & _ & F & _). unfold addrs, count. rewrite map_length.
  assert (0 <= prod (nd_ext d)) by (apply prod_nonneg; eapply Forall_impl; [|exact F]; simpl; intros; lia).
  apply Nat2Z.inj. rewrite Z2Nat.id by auto. apply length_tuples; [auto|]. eapply Forall_impl; [|exact F]; simpl; intros; lia.
Qed.
Lemma length_pairs d s : nd_ok d -> nd_ok s -> nd_ext d = nd_ext s -> length (combine (addrs d) (addrs s)) = count (nd_ext d).
Proof. intros Hd Hs E. rewrite combine_length, !length_addrs by auto. rewrite E. lia. Qed.

Lemma metered_assign chk d s : nd_ok d -> nd_ok s -> nd_ext d = nd_ext s ->
  metered (assign_nd chk (length (nd_ext d)) d s) (count (nd_ext d)) /\
  metered (copy_array chk (length (nd_ext d)) d s) (count (nd_ext d)).
Proof.
  intros Hd Hs E. pose proof (length_pairs d s Hd Hs E) as L. split; rewrite <- L.
  - eapply metered_ext; [|apply metered_copy_cells]. intros w. apply assign_nd_eq; auto. congruence.
  - eapply metered_ext; [|apply metered_copy_cells]. intros w. apply copy_array_eq; auto. congruence.
Qed.
Lemma metered_std_copy chk d s : nd_ok d -> nd_ok s -> nd_ext d = nd_ext s ->
  metered (std_copy_nd chk (length (nd_ext s)) d s) (count (nd_ext d)).
Proof.
  intros Hd Hs E. rewrite <- (length_pairs d s Hd Hs E). eapply metered_ext; [|apply metered_copy_cells]. intros w. apply std_copy_nd_eq; auto.
Qed.
Lemma metered_for_each chk f d : nd_ok d -> metered (for_each chk f (length (nd_ext d)) d) (count (nd_ext d)).
Proof.
  intros Hd. rewrite <- (length_addrs d Hd). eapply metered_ext; [|apply metered_mseq; apply metered_apply_cell].
  intros w. apply for_each_eq; auto.
Qed.

Lemma allocated_is c aid w a w' : allocate_space dflt c aid w = Done a w' -> exists p, a = MA (cr_set_base c p) p (cr_num c) aid.
Proof.
  unfold allocate_space, bind, ret. destruct (allocate aid (cr_num c) w) as [p w1| | | |]; try discriminate.
  destruct (alloc_construct_n dflt p _ w1) as [u w2| | | |]; try discriminate. intros E. injection E as <- <-. exists p. auto.
Qed.

Lemma metered_convert chk rhs so aid : nd_ok rhs ->
  order_ok (length (nd_ext rhs)) so -> layout_ok so (nd_base rhs) (nd_ext rhs) ->
  metered (ma_convert dflt chk rhs so aid) (1 + count (nd_ext rhs) + count (nd_ext rhs)).
Proof.
  intros Hr Ho Hl.
  destruct (from_shape_ok chk null_ptr (nd_base rhs) (nd_ext rhs) so Ho Hl) as (c & Ec & Hc & _ & H1 & H2 & H3).
  assert (En : Z.to_nat (cr_num c) = count (nd_ext rhs)).
  { destruct Hc as (_ & _ & _ & _ & ->). rewrite <- H2. reflexivity. }
  unfold ma_convert. rewrite Ec. apply (metered_eq _ (0 + (1 + Z.to_nat (cr_num c) + (count (nd_ext rhs) + 0)))); [lia|].
  apply metered_bind_post; [apply metered_lift|]. intros h0 c' w0 E0. injection E0 as <- <-.
  apply metered_bind_post; [apply metered_allocate_space|]. intros h1 this w1 E1.
  destruct (allocated_is _ _ _ _ _ E1) as [p ->]. cbn [ma_ref].
  apply metered_bind; [|intros _; apply metered_ret].
  assert (Hnd : nd_ok (cr_nd (cr_set_base c p))) by (apply cref_addressable, set_base_ok; auto).
  apply (metered_eq _ (count (nd_ext (cr_nd (cr_set_base c p))))).
  - cbn [cr_nd nd_ext cr_set_base cr_ext]. rewrite H2. auto.
  - apply metered_std_copy; auto.
Qed.

Lemma min_extents_common : forall l1 l2 ms, min_extents l1 l2 = Ok ms -> ms = common l1 l2.
Proof.
  induction l1 as [|x l1 IH]; intros [|y l2] ms; cbn [min_extents]; try discriminate.
  - intros E. injection E as <-. reflexivity.
  - intros E. destruct (min_extents l1 l2) as [t| |] eqn:Et; try discriminate. cbn [obind] in E. injection E as <-.
    rewrite (IH l2 t Et). unfold common. cbn [combine map fst snd]. f_equal. destruct (Z.ltb_spec y x); lia.
Qed.

Lemma metered_resize chk a g bases shape : cref_ok (ma_ref a) -> length shape = length (cr_ext (ma_ref a)) ->
  layout_ok (cr_storage (ma_ref a)) bases shape ->
  eg_num g = length shape -> ranges_are (eg_ranges g) bases shape ->
  metered (ma_resize dflt chk a g) (1 + count shape + count (common shape (cr_ext (ma_ref a)))).
Proof.
  intros Ha Ls Hl Hn Hg.
  assert (Ho : order_ok (length shape) (cr_storage (ma_ref a))).
  { rewrite Ls. apply Ha. }
  destruct (from_gen_ok chk null_ptr bases shape g _ Ho Hl Hn Hg) as (c & Ec & Hc & _ & H1 & H2 & H3).
  destruct (resize_eq_all dflt chk a g c Ha ltac:(congruence) Ec Hc ltac:(congruence)) as (mins & Em & M1 & _ & _ & EQ).
  apply min_extents_common in Em. rewrite H2 in Em.
  eapply metered_ext; [intros [h f]; apply EQ|].
  assert (En : Z.to_nat (cr_num c) = count shape).
  { destruct Hc as (_ & _ & _ & _ & ->). rewrite <- H2. reflexivity. }
  rewrite <- En, <- Em.
  apply metered_bind; [apply metered_allocate_space|]. intros new.
  assert (Fm : Forall (fun e => 0 <= e) mins).
  { clear -M1. induction M1; constructor; auto. lia. }
  assert (Lp : length (resize_pairs (ma_ref a) (ma_ref new) mins) = count mins).
  { unfold resize_pairs. rewrite map_length. unfold positions, count. apply Nat2Z.inj.
    rewrite Z2Nat.id by (apply prod_nonneg; auto). apply length_tuples; [rewrite repeat_length; auto|auto]. }
  apply (metered_eq _ (count mins + (0 + 0))); [lia|].
  apply metered_bind; [rewrite <- Lp; apply metered_on_throw, metered_copy_cells|]. intros _.
  apply metered_bind; [apply metered_ma_destroy|]. intros _. apply metered_ret.
Qed.

End Metered.

Section Exec.
Context {T : Type}.
Variable dflt : T.
Variable eqT : T -> T -> bool.
Variable ltT : T -> T -> bool.

Lemma metered_bind_0 {A B} (m : M T A) (g : A -> M T B) n : metered m 0 -> (forall a, metered (g a) n) -> metered (bind m g) n.
Proof. exact (metered_bind m g 0 n). Qed.
Lemma metered_then {A B} (m : M T A) (g : A -> M T B) n : metered m n -> (forall a, metered (g a) 0) -> metered (bind m g) n.
Proof. intros H1 H2. apply (metered_eq _ (n + 0)); [lia|]. apply metered_bind; auto. Qed.
Lemma metered_lift_ok {A B} (o : outcome A) a (g : A -> M T B) n : o = Ok a -> metered (g a) n -> metered (bind (lift o) g) n.
Proof. intros -> H. apply (metered_ext _ (g a)); [reflexivity|auto]. Qed.

Lemma count_stands vars d p : stands_for vars d p -> nd_ok d /\ count (nd_ext d) = count (pl_shape p) /\ nd_ext d = pl_shape p.
Proof.
  intros (c & m & _ & Hc & _ & Hd & _ & E & _). split; [apply (derived_ok c); auto|]. rewrite E. auto.
Qed.

Lemma denotes_same (st : @state T) en (h : heap T) e p q : related st en h -> denotes st e p -> denotes st e q -> pl_shape p = pl_shape q.
Proof.
  intros HR H1 H2. destruct (denotes_nd st en h true e p HR H1) as (d & E & Hd). destruct (denotes_nd st en h true e q HR H2) as (d' & E' & Hd').
  assert (d' = d) by congruence. subst d'. destruct (count_stands _ _ _ Hd) as (_ & _ & <-). apply (count_stands _ _ _ Hd').
Qed.

Lemma exec_metered st en (h : heap T) c o st' chk n : related st en h -> step dflt eqT ltT st c o st' -> costs st c n ->
  metered (exec dflt eqT ltT chk en c) n.
Proof.
  intros HR HS HC. destruct HS as
    [nn aid Hn|shape so aid HW|rs so aid HW|y a Ha|e so aid p a Hp E1 E2 E3 E4 HW HCC|e subs p Hp
    |x off shape so a Ha Hoff Ho Hl HP|x off rs so a Ha Hoff Ho Hl HP|x a Ha|k n' Hk|x a Ha
    |dst src pd ps st' Hd Hs HCC|x y px py st' Hd Hs HCC|dst src pd ps st' Hd Hs HCC
    |e i p v Hp HL|e i v p st' Hp HP|e i p v Hp HL|e i v p st' Hp HP
    |x l a Ha|k l x off bases shape so a Hk Ha|e fn p st' Hp HM
    |x bases a Ha L a' HW|x b a Ha a' HW|x shape a Ha L a' HW
    |k bases p Hk HA|k bases x off bases0 shape so Hk HA|k b p Hk bases HA|k b x off bases0 shape so Hk HA|k shape x off bases shape0 so Hk L HA HP
    |x rs a a' Ha Hrs|x shape a a' Ha Hrs|op a b pa pb r Ha Hb L Hr|q e p Hp]; cbn [exec].
  - (* NewDefault *)
    inversion HC; subst. unfold ma_default. destruct (c02_conversions_agree nn) as [EC _].
    destruct (c02_named_orders_valid nn) as [HV _].
    destruct (default_ok chk nn null_ptr (so_from_c nn) Hn HV) as (c & Ec & Hok & _ & H1 & H2 & H3).
    apply metered_then; [|intros; apply metered_ret]. apply (metered_lift_ok _ _ _ _ EC). apply (metered_lift_ok _ _ _ _ Ec).
    apply (metered_eq _ (1 + Z.to_nat (cr_num c))); [|apply metered_allocate_space].
    destruct Hok as (_ & _ & _ & _ & ->). rewrite H2. destruct nn; [lia|]. simpl. auto.
  - (* NewList *)
    inversion HC; subst. unfold ma_from_list. destruct HW as (Ho & Hl & _). cbn [blank a_shape a_bases a_order] in Ho, Hl.
    destruct (from_list_ok chk null_ptr shape so Ho Hl) as (c & Ec & Hok & _ & H1 & H2 & H3).
    apply metered_then; [|intros; apply metered_ret]. apply (metered_lift_ok _ _ _ _ Ec).
    apply (metered_eq _ (1 + Z.to_nat (cr_num c))); [|apply metered_allocate_space].
    destruct Hok as (_ & _ & _ & _ & ->). rewrite H2. auto.
  - (* NewRanges *)
    inversion HC; subst. destruct HW as (Ho & Hl & _). cbn [blank a_shape a_bases a_order] in Ho, Hl.
    destruct (extents_of_ok rs) as (g & Eg & Hn & Hg).
    { intros ->. apply layout_ne in Hl. apply Hl. reflexivity. }
    destruct (from_gen_ok chk null_ptr _ _ g so Ho Hl Hn Hg) as (c & Ec & Hok & _ & H1 & H2 & H3).
    apply (metered_lift_ok _ _ _ _ Eg). apply metered_then; [|intros; apply metered_ret]. apply (metered_lift_ok _ _ _ _ Ec).
    apply (metered_eq _ (1 + Z.to_nat (cr_num c))); [|apply metered_allocate_space].
    destruct Hok as (_ & _ & _ & _ & ->). rewrite H2. auto.
  - (* NewCopy *)
    inversion HC as [ | | |y' a0 Ha0| | | | | | | | | | | | | | | | | | | | | | | | | | | | ]; subst.
    destruct (relA_var _ _ _ _ _ (proj1 HR) Ha) as (m & Em & Hr). pose proof Hr as (Ho & E1 & E2 & E3 & E4).
    assert (a0 = a) by (unfold array_is in *; congruence). subst a0.
    apply (metered_lift_ok _ _ _ _ (var_eval _ _ _ Em)). apply metered_then; [|intros; apply metered_ret].
    assert (En : Z.to_nat (cr_num (ma_ref m)) = count (a_shape a)).
    { destruct (array_object_ok _ (proj1 Ho)) as (_ & _ & _ & _ & ->). rewrite E1. auto. }
    rewrite <- En. apply metered_ma_copy.
  - (* NewFrom *)
    inversion HC as [ | | | |e0 so0 aid0 p0 Hp0| | | | | | | | | | | | | | | | | | | | | | | | | | | ]; subst.
    rewrite (denotes_same _ _ _ _ _ _ HR Hp0 Hp).
    destruct (denotes_nd st en h chk e p HR Hp) as (d & Ed & Hd). destruct (count_stands _ _ _ Hd) as (Hok & EN & EE).
    apply (metered_lift_ok _ _ _ _ Ed). apply metered_then; [|intros; apply metered_ret]. rewrite <- EN.
    destruct HW as (Ho & Hl & _). rewrite E1, E2 in *.
    assert (EB : nd_base d = pl_bases p) by (destruct Hd as (? & ? & _ & _ & _ & _ & EB & _); auto).
    apply metered_convert; rewrite ?EE, ?EB; auto.
  - inversion HC; subst. repeat (apply metered_bind_0; [apply metered_lift|intros ?]). apply metered_ret.
  - inversion HC; subst. repeat (apply metered_bind_0; [apply metered_lift|intros ?]). apply metered_ret.
  - inversion HC; subst. repeat (apply metered_bind_0; [apply metered_lift|intros ?]). apply metered_ret.
  - inversion HC; subst. repeat (apply metered_bind_0; [apply metered_lift|intros ?]). apply metered_ret.
  - inversion HC; subst. repeat (apply metered_bind_0; [apply metered_lift|intros ?]). apply metered_ret.
  - (* Destroy *)
    inversion HC; subst. apply metered_bind_0; [apply metered_lift|intros m]. apply metered_bind_0; [apply metered_ma_destroy|intros _]. apply metered_ret.
  - (* Assign *)
    inversion HC as [ | | | | | | |d0 s0 p0 Hp0| | | | | | | | | | | | | | | | | | | | | | | | ]; subst. rewrite (denotes_same _ _ _ _ _ _ HR Hp0 Hd).
    destruct (denotes_nd st en h chk _ _ HR Hs) as (s & Es & Hss).
    destruct (denotes_nd st en h chk _ _ HR Hd) as (d & Ed & Hdd).
    destruct (count_stands _ _ _ Hdd) as (Hok & EN & EE). destruct (count_stands _ _ _ Hss) as (Hok' & EN' & EE').
    apply (metered_lift_ok _ _ _ _ Es). apply (metered_lift_ok _ _ _ _ Ed). apply metered_then; [|intros; apply metered_ret].
    rewrite <- EN. apply metered_assign; auto. rewrite EE, EE'. apply HCC.
  - (* AssignVar *)
    destruct (denotes_nd st en h chk _ _ HR Hs) as (s & Es & Hss).
    destruct (denotes_nd st en h chk _ _ HR Hd) as (d & Ed & Hdd).
    destruct (count_stands _ _ _ Hdd) as (Hok & EN & EE). destruct (count_stands _ _ _ Hss) as (Hok' & EN' & EE').
    unfold eval_nd in Es, Ed. cbn [eval] in Es, Ed.
    destruct (var en x) as [mx| |] eqn:Ex; try discriminate. destruct (var en y) as [my| |] eqn:Ey; try discriminate.
    cbn [obind] in Es, Ed. injection Es as <-. injection Ed as <-.
    apply (metered_lift_ok _ mx); [auto|]. apply (metered_lift_ok _ my); [auto|]. apply metered_then; [|intros; apply metered_ret].
    unfold ma_assign. inversion HC as [ | | | | | | | | |x0 y0 a0 Ha0 Hxy| | | | | | | | | | | | | | | | | | | | | | ]; subst.
    + destruct (Nat.eqb_spec x y) as [?|_]; [congruence|]. unfold ma_assign_from.
      assert (EA : pl_shape px = a_shape a0).
      { inversion Hd; subst. cbn [pl_shape arranged]. unfold array_is in *. congruence. }
      rewrite <- EA, <- EN. apply (metered_assign chk (cr_nd (ma_ref mx)) (cr_nd (ma_ref my))); auto. rewrite EE, EE'. apply HCC.
    + rewrite Nat.eqb_refl. apply metered_ret.
  - (* CopyArray *)
    inversion HC as [ | | | | | | | |d0 s0 p0 Hp0| | | | | | | | | | | | | | | | | | | | | | | ]; subst. rewrite (denotes_same _ _ _ _ _ _ HR Hp0 Hd).
    destruct (denotes_nd st en h chk _ _ HR Hs) as (s & Es & Hss).
    destruct (denotes_nd st en h chk _ _ HR Hd) as (d & Ed & Hdd).
    destruct (count_stands _ _ _ Hdd) as (Hok & EN & EE). destruct (count_stands _ _ _ Hss) as (Hok' & EN' & EE').
    apply (metered_lift_ok _ _ _ _ Es). apply (metered_lift_ok _ _ _ _ Ed). apply metered_then; [|intros; apply metered_ret].
    rewrite <- EN. apply metered_assign; auto. rewrite EE, EE'. apply HCC.
  - inversion HC; subst. apply metered_bind_0; [apply metered_lift|intros ?]. apply metered_bind_0; [|intros; apply metered_ret].
    apply metered_bind_0; [apply metered_lift|intros ?]. apply metered_load.
  - inversion HC; subst. apply metered_bind_0; [apply metered_lift|intros ?]. apply metered_then; [|intros; apply metered_ret].
    apply metered_bind_0; [apply metered_lift|intros ?]. apply metered_then; [apply metered_tick|]. intros _. apply metered_store.
  - inversion HC; subst. apply metered_bind_0; [apply metered_lift|intros ?]. apply metered_bind_0; [|intros; apply metered_ret].
    apply metered_bind_0; [apply metered_lift|intros ?]. apply metered_load.
  - inversion HC; subst. apply metered_bind_0; [apply metered_lift|intros ?]. apply metered_then; [|intros; apply metered_ret].
    apply metered_bind_0; [apply metered_lift|intros ?]. apply metered_then; [apply metered_tick|]. intros _. apply metered_store.
  - (* Fill *)
    inversion HC as [ | | | | | | | | | | |x0 l0 a0 Ha0| | | | | | | | | | | | | | | | | | | | ]; subst.
    assert (a0 = a) by (unfold array_is in *; congruence). subst a0.
    destruct (relA_var _ _ _ _ _ (proj1 HR) Ha) as (m & Em & Hr). pose proof Hr as (Ho & E1 & _).
    apply (metered_lift_ok _ _ _ _ (var_eval _ _ _ Em)). apply metered_then; [|intros; apply metered_ret]. unfold cr_assign.
    pose proof (array_object_ok _ (proj1 Ho)) as (_ & Hr2 & _ & _ & En). rewrite En.
    pose proof (prod_nonneg _ (rep_nonneg _ _ _ Hr2)).
    apply (metered_eq _ (Nat.min (length l) (count (a_shape a) - 0))); [lia|].
    replace (prod (cr_ext (ma_ref m))) with (Z.of_nat (count (a_shape a))) by (unfold count; rewrite <- E1; lia).
    apply (metered_assign_loop l (cr_base (ma_ref m)) 0). lia.
  - (* FillRef *)
    inversion HC as [ | | | | | | | | | | | |h0 l0 x0 off0 bases0 shape0 so0 Hk0| | | | | | | | | | | | | | | | | | | ]; subst.
    destruct (named_eval _ _ _ _ _ HR Hk) as (d & Ed & Hd). destruct d as [v|cc]; cbn [hrel] in Hd; [tauto|].
    apply (metered_lift_ok _ _ _ _ Ed). apply metered_then; [|intros; apply metered_ret]. unfold cr_assign.
    destruct Hd as (m & _ & Hao & _ & _ & E1 & _). pose proof (array_object_ok _ Hao) as (_ & Hr2 & _ & _ & En). rewrite En.
    pose proof (prod_nonneg _ (rep_nonneg _ _ _ Hr2)).
    assert (shape0 = shape) by (unfold named_is in *; congruence). subst shape0.
    apply (metered_eq _ (Nat.min (length l) (count shape - 0))); [lia|].
    replace (prod (cr_ext cc)) with (Z.of_nat (count shape)) by (unfold count; rewrite <- E1; lia).
    apply (metered_assign_loop l (cr_base cc) 0). lia.
  - (* ForEach *)
    inversion HC as [ | | | | | | | | | |e0 f0 p0 Hp0| | | | | | | | | | | | | | | | | | | | | ]; subst. rewrite (denotes_same _ _ _ _ _ _ HR Hp0 Hp).
    destruct (denotes_nd st en h chk _ _ HR Hp) as (d & Ed & Hdd). destruct (count_stands _ _ _ Hdd) as (Hok & EN & EE).
    apply (metered_lift_ok _ _ _ _ Ed). apply metered_then; [|intros; apply metered_ret]. rewrite <- EN. apply metered_for_each; auto.
  - inversion HC; subst. repeat (apply metered_bind_0; [apply metered_lift|intros ?]). apply metered_ret.
  - inversion HC; subst. repeat (apply metered_bind_0; [apply metered_lift|intros ?]). apply metered_ret.
  - inversion HC; subst. repeat (apply metered_bind_0; [apply metered_lift|intros ?]). apply metered_ret.
  - inversion HC; subst. apply metered_bind_0; [apply metered_lift|intros [v|cc]]; repeat (apply metered_bind_0; [apply metered_lift|intros ?]); apply metered_ret.
  - inversion HC; subst. apply metered_bind_0; [apply metered_lift|intros [v|cc]]; repeat (apply metered_bind_0; [apply metered_lift|intros ?]); apply metered_ret.
  - inversion HC; subst. apply metered_bind_0; [apply metered_lift|intros [v|cc]]; repeat (apply metered_bind_0; [apply metered_lift|intros ?]); apply metered_ret.
  - inversion HC; subst. apply metered_bind_0; [apply metered_lift|intros [v|cc]]; repeat (apply metered_bind_0; [apply metered_lift|intros ?]); apply metered_ret.
  - inversion HC; subst. apply metered_bind_0; [apply metered_lift|intros [v|cc]]; repeat (apply metered_bind_0; [apply metered_lift|intros ?]); try apply metered_ret.
    intros h0 a w E. discriminate.
  - (* Resize *)
    inversion HC as [ | | | | |x0 rs0 a0 Ha0| | | | | | | | | | | | | | | | | | | | | | | | | | ]; subst.
    assert (a0 = a) by (unfold array_is in *; congruence). subst a0.
    destruct (relA_var _ _ _ _ _ (proj1 HR) Ha) as (m & Em & Hr). pose proof Hr as (Ho & E1 & E2 & E3 & E4).
    destruct Hrs as (L & X1 & X2 & X3 & X4 & (HWo & HWl & _) & _). rewrite X1, X2, X3, <- E3 in HWl.
    destruct (extents_of_ok rs) as (g & Eg & Hn & Hg).
    { intros ->. apply layout_ne in HWl. apply HWl. reflexivity. }
    apply (metered_lift_ok _ _ _ _ (var_eval _ _ _ Em)). apply (metered_lift_ok _ _ _ _ Eg). apply metered_then; [|intros; apply metered_ret].
    rewrite <- E1. apply (metered_resize dflt chk m g (ranges_bases rs)); auto; [apply array_object_ok, Ho|].
    rewrite E1, <- L. apply map_length.
  - (* ResizeList *)
    inversion HC as [ | | | | | |x0 sh0 a0 Ha0| | | | | | | | | | | | | | | | | | | | | | | | | ]; subst.
    assert (a0 = a) by (unfold array_is in *; congruence). subst a0.
    destruct (relA_var _ _ _ _ _ (proj1 HR) Ha) as (m & Em & Hr).
    pose proof Hrs as (L & E1 & E2 & E3 & E4 & (HWo & HWl & _) & _). rewrite zero_shape in E1. rewrite E1 in HWl.
    assert (HF : Forall (fun e => 0 <= e <= max_index) shape) by (eapply rep_ext_bound; apply HWl).
    assert (Ln : length shape = length (cr_ext (ma_ref m))).
    { pose proof Hr as (_ & -> & _). unfold from_zero in L. rewrite map_length in L. auto. }
    set (g := EGen (length (cr_ext (ma_ref m))) (map (fun e => ERange 0 e) shape)).
    assert (EQ : forall w, ma_resize_list dflt chk m shape w = ma_resize dflt chk m g w).
    { intros w. unfold ma_resize_list. rewrite <- Ln at 1. rewrite copy_n_all. unfold lift, bind at 1. f_equal. unfold g. f_equal.
      apply map_ext_in. intros e He. rewrite Forall_forall in HF. specialize (HF e He). rewrite to_index_small by (unconst; lia). auto. }
    apply (metered_lift_ok _ _ _ _ (var_eval _ _ _ Em)). apply metered_then; [|intros; apply metered_ret].
    apply (metered_ext _ _ _ EQ). pose proof Hr as (Ho & X1 & X2 & X3 & X4). rewrite <- X1.
    rewrite E2, zero_bases, E3, <- X3 in HWl.
    apply (metered_resize dflt chk m g (repeat 0 (length shape))); auto; [apply array_object_ok, Ho|].
    unfold g, ranges_are. cbn [eg_ranges]. clear. induction shape as [|e shape IH]; simpl; constructor; auto.
  - inversion HC; subst. repeat (apply metered_bind_0; [apply metered_lift|intros ?]).
    apply blind_metered. intros h0 f. unfold bind, lift. cbn [w_heap]. destruct (compare _ _ _ _ _ _ _); reflexivity.
  - inversion HC; subst. repeat (apply metered_bind_0; [apply metered_lift|intros ?]). apply metered_ret.
Qed.
End Exec.
