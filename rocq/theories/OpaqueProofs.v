(** OpaqueProofs.v -- every operation of the model treats its elements as opaque
    (proof machinery for C61). *)

From Coq Require Import Lia.
From Verif Require Import Base StorageOrder Ranges Layout Access Objects Memory Ops MultiArray History
  Facts OpaqueSpec.

Section Par.
Context {T U : Type}.
Variable R : T -> U -> Prop.
Notation heapA := (heap_alike R).

Definition par {A B} (Q : A -> B -> Prop) (m1 : M T A) (m2 : M U B) : Prop :=
  forall w v, world_alike R w v -> same_way R Q (m1 w) (m2 v).

Lemma par_ret {A B} (Q : A -> B -> Prop) a b : Q a b -> par Q (ret a) (ret b).
Proof. intros H w v W. now constructor. Qed.
Lemma par_bind {A B C D} (P : A -> B -> Prop) (Q : C -> D -> Prop) m1 m2 k1 k2 :
  par P m1 m2 -> (forall a b, P a b -> par Q (k1 a) (k2 b)) -> par Q (bind m1 k1) (bind m2 k2).
Proof.
  intros H K w v W. specialize (H w v W). unfold bind. destruct H; try (now constructor).
  now apply K.
Qed.
Lemma par_lift {A} (x : outcome A) : par eq (lift x) (lift x).
Proof. intros w v W. destruct x; now constructor. Qed.
Lemma par_lift_bind {A C D} (Q : C -> D -> Prop) (x : outcome A) k1 k2 :
  (forall a, par Q (k1 a) (k2 a)) -> par Q (bind (lift x) k1) (bind (lift x) k2).
Proof. intros H. eapply par_bind; [apply par_lift|]. intros a b <-. apply H. Qed.
Lemma par_undef {A B} (Q : A -> B -> Prop) : par Q (fun _ => Undef) (fun _ => Undef).
Proof. intros w v W. constructor. Qed.
Lemma par_fuel {A B} (Q : A -> B -> Prop) : par Q (fun _ => OutOfFuel) (fun _ => OutOfFuel).
Proof. intros w v W. constructor. Qed.
Lemma par_on_throw {A B} (Q : A -> B -> Prop) m1 m2 k1 k2 :
  par Q m1 m2 -> par eq k1 k2 -> par Q (on_throw m1 k1) (on_throw m2 k2).
Proof.
  intros H K w v W. specialize (H w v W). unfold on_throw. destruct H; try (now constructor).
  destruct (K _ _ H); now constructor.
Qed.
Lemma par_tick : par eq tick tick.
Proof.
  intros [h f] [k g] [W F]. simpl in *. subst g. unfold tick; simpl.
  destruct f as [[|n]|]; constructor; try reflexivity; now split.
Qed.

(** ** memory *)
Lemma alike_block h k b : heapA h k -> block_alike R (hblock h b) (hblock k b).
Proof.
  intros H. revert b. unfold hblock. induction H as [|x y h k P H IH]; intros [|b]; simpl; try constructor; auto.
  destruct P; now constructor.
Qed.
Lemma forall2_nth_error {A B} (Q : A -> B -> Prop) l m n :
  Forall2 Q l m ->
  match nth_error l n, nth_error m n with Some a, Some b => Q a b | None, None => True | _, _ => False end.
Proof. intros H. revert n. induction H; intros [|n]; simpl; auto. apply IHForall2. Qed.
Lemma forall2_set_nth {A B} (Q : A -> B -> Prop) l m a b n :
  Forall2 Q l m -> Q a b -> Forall2 Q (set_nth n a l) (set_nth n b m).
Proof. intros H K. revert n. induction H; intros [|n]; simpl; constructor; auto. Qed.
Lemma alike_cell h k p : heapA h k ->
  match hcell h p, hcell k p with Some a, Some b => cell_alike R a b | None, None => True | _, _ => False end.
Proof.
  intros H. unfold hcell. destruct (alike_block _ _ (p_blk p) H) as [|aid cs ds C]; [exact I|].
  destruct (p_off p <? 0); [exact I|]. apply forall2_nth_error, C.
Qed.
Lemma alike_set h k p a b : heapA h k -> cell_alike R a b ->
  match hset h p a, hset k p b with Some h', Some k' => heapA h' k' | None, None => True | _, _ => False end.
Proof.
  intros H C. unfold hset. pose proof (alike_cell _ _ p H) as X.
  destruct (hcell h p), (hcell k p); try contradiction; try exact I.
  destruct (alike_block _ _ (p_blk p) H) as [|aid cs ds D]; [exact I|]. simpl.
  apply forall2_set_nth; [exact H|]. constructor. apply forall2_set_nth; auto.
Qed.
Definition orelated {A B} (Q : A -> B -> Prop) (x : outcome A) (y : outcome B) : Prop :=
  match x, y with Ok a, Ok b => Q a b | Abort, Abort => True | UB, UB => True | _, _ => False end.
Lemma alike_read h k p : heapA h k -> orelated R (hread h p) (hread k p).
Proof.
  intros H. unfold hread. pose proof (alike_cell _ _ p H) as X.
  destruct (hcell h p) as [c|], (hcell k p) as [d|]; try contradiction; [|exact I].
  destruct X; simpl; auto.
Qed.

Lemma par_load p : par R (load p) (load p).
Proof.
  intros w v W. unfold load. pose proof (alike_read _ _ p (proj1 W)) as H. unfold lift.
  destruct (hread (w_heap w) p), (hread (w_heap v) p); simpl in H; try contradiction; now constructor.
Qed.
Lemma par_store p a b : R a b -> par eq (store p a) (store p b).
Proof.
  intros H w v [W F]. unfold store, hwrite. pose proof (alike_cell _ _ p W) as X.
  destruct (hcell (w_heap w) p) as [c|], (hcell (w_heap v) p) as [d|]; try contradiction; [|constructor].
  destruct X as [|x y X]; [constructor|].
  pose proof (alike_set _ _ p (Some a) (Some b) W (ca_elem R a b H)) as Y.
  destruct (hset (w_heap w) p (Some a)), (hset (w_heap v) p (Some b)); try contradiction; [|constructor].
  constructor; [reflexivity|now split].
Qed.
Lemma par_elem_assign d s : par eq (elem_assign d s) (elem_assign d s).
Proof.
  eapply par_bind; [apply par_load|]. intros a b H. eapply par_bind; [apply par_tick|]. intros _ _ _.
  now apply par_store.
Qed.
Lemma repeat_raw n : Forall2 (cell_alike R) (repeat None n) (repeat None n).
Proof. induction n; simpl; constructor; auto. constructor. Qed.
Lemma par_allocate aid n : par eq (allocate aid n) (allocate aid n).
Proof.
  intros w v W. unfold allocate. destruct (par_tick w v W) as [? ? w1 v1 _ [W1 F1]|w1 v1 W1|w1 v1 W1| |]; try (now constructor).
  destruct (_ && _); [|now constructor; split].
  rewrite (Forall2_length (block_alike R) (w_heap w1) (w_heap v1) W1). constructor; [reflexivity|]. split; simpl; [|exact F1].
  apply Forall2_app; [exact W1|]. constructor; [|constructor]. constructor. apply repeat_raw.
Qed.
Lemma alike_all_raw cs ds : Forall2 (cell_alike R) cs ds -> all_raw cs = all_raw ds.
Proof.
  intros H. unfold all_raw. induction H as [|x y cs ds P H IH]; [reflexivity|]. simpl. rewrite IH.
  now destruct P.
Qed.
Lemma par_deallocate aid p n : par eq (deallocate aid p n) (deallocate aid p n).
Proof.
  intros w v [W F]. unfold deallocate. destruct (alike_block _ _ (p_blk p) W) as [|b cs ds D]; [constructor|].
  cbn [b_alloc b_cells]. rewrite (alike_all_raw _ _ D).
  replace (@length (cell T) cs) with (@length (cell U) ds) by (symmetry; exact (Forall2_length _ _ _ D)). destruct (_ && _ && _ && _); [|constructor].
  constructor; [reflexivity|]. split; simpl; [|exact F]. apply forall2_set_nth; [exact W|constructor].
Qed.
Lemma par_construct a b p : R a b -> par eq (construct a p) (construct b p).
Proof.
  intros H. eapply par_bind; [apply par_tick|]. intros _ _ _ w v [W F]. pose proof (alike_cell _ _ p W) as X.
  destruct (hcell (w_heap w) p) as [c|], (hcell (w_heap v) p) as [d|]; try contradiction; [|constructor].
  destruct X as [|x y X]; [|constructor].
  pose proof (alike_set _ _ p (Some a) (Some b) W (ca_elem R a b H)) as Y.
  destruct (hset (w_heap w) p (Some a)), (hset (w_heap v) p (Some b)); try contradiction; [|constructor].
  constructor; [reflexivity|now split].
Qed.
Lemma par_destroy p : par eq (destroy p) (destroy p).
Proof.
  intros w v [W F]. unfold destroy. pose proof (alike_cell _ _ p W) as X.
  destruct (hcell (w_heap w) p) as [c|], (hcell (w_heap v) p) as [d|]; try contradiction; [|constructor].
  destruct X as [|x y X]; [constructor|].
  pose proof (alike_set _ _ p None None W (ca_raw R)) as Y.
  destruct (hset (w_heap w) p None), (hset (w_heap v) p None); try contradiction; [|constructor].
  constructor; [reflexivity|now split].
Qed.
Lemma par_destroy_n p n : par eq (alloc_destroy_n p n) (alloc_destroy_n p n).
Proof.
  induction n as [|n IH]; cbn [alloc_destroy_n]; [now apply par_ret|].
  eapply par_bind; [apply par_destroy|]. intros _ _ _. exact IH.
Qed.
Lemma par_construct_n a b p : R a b -> forall n i,
  par eq (alloc_construct_loop a p i n) (alloc_construct_loop b p i n).
Proof.
  intros H n. induction n as [|n IH]; intros i; cbn [alloc_construct_loop]; [now apply par_ret|].
  eapply par_bind; [apply par_on_throw; [now apply par_construct|apply par_destroy_n]|]. intros _ _ _. apply IH.
Qed.

(** ** copying, transforming, assigning *)
Lemma par_copy_loop body body' n : (forall f r, par eq (body f r) (body' f r)) ->
  forall f l r, par eq (copy_loop body n f l r) (copy_loop body' n f l r).
Proof.
  intros B. induction n as [|n IH]; intros f l r; cbn [copy_loop];
    (destruct (it_equal f l); [now apply par_ret|]); [apply par_fuel|].
  eapply par_bind; [apply B|]. intros _ _ _. apply par_lift_bind; intros f'. apply par_lift_bind; intros r'. apply IH.
Qed.
Lemma par_copy_rows rec rec' chk k d s : (forall a b, par eq (rec a b) (rec' a b)) ->
  par eq (copy_rows rec chk k d s) (copy_rows rec' chk k d s).
Proof.
  intros B. unfold copy_rows. apply par_lift_bind; intros f. apply par_lift_bind; intros l.
  apply par_lift_bind; intros r. apply par_copy_loop. intros x y.
  destruct k; apply par_lift_bind; intros p; apply par_lift_bind; intros q; [apply par_elem_assign|apply B].
Qed.
Lemma par_assign_nd chk n : forall d s, par eq (assign_nd chk n d s) (assign_nd chk n d s).
Proof.
  induction n as [|n IH]; intros d s; [apply par_undef|]. cbn [assign_nd]. apply par_lift_bind; intros _.
  now apply par_copy_rows.
Qed.
Lemma par_std_copy chk n d s : par eq (std_copy_nd chk n d s) (std_copy_nd chk n d s).
Proof. destruct n as [|n]; [apply par_undef|]. apply par_copy_rows, par_assign_nd. Qed.
Lemma par_copy_dispatch chk n : forall d s, par eq (copy_dispatch chk n d s) (copy_dispatch chk n d s).
Proof. induction n as [|n IH]; intros d s; [apply par_undef|]. cbn [copy_dispatch]. now apply par_copy_rows. Qed.
Lemma par_copy_array chk n d s : par eq (copy_array chk n d s) (copy_array chk n d s).
Proof. unfold copy_array. apply par_lift_bind; intros _. apply par_copy_dispatch. Qed.
Lemma par_each_loop body body' n : (forall f, par eq (body f) (body' f)) ->
  forall f l, par eq (each_loop body n f l) (each_loop body' n f l).
Proof.
  intros B. induction n as [|n IH]; intros f l; cbn [each_loop];
    (destruct (it_equal f l); [now apply par_ret|]); [apply par_fuel|].
  eapply par_bind; [apply B|]. intros _ _ _. apply par_lift_bind; intros f'. apply IH.
Qed.
Lemma par_for_each chk f g n : (forall a b, R a b -> R (f a) (g b)) ->
  forall a, par eq (for_each chk f n a) (for_each chk g n a).
Proof.
  intros FG. induction n as [|n IH]; intros a; [apply par_undef|]. cbn [for_each].
  apply par_lift_bind; intros x. apply par_lift_bind; intros y. apply par_each_loop. intros i.
  destruct n as [|n]; apply par_lift_bind; intros p; [|apply IH].
  eapply par_bind; [apply par_load|]. intros u v H. eapply par_bind; [apply par_tick|]. intros _ _ _.
  now apply par_store, FG.
Qed.
Lemma par_assign_loop l m : Forall2 R l m -> forall p k n, par eq (assign_loop p l k n) (assign_loop p m k n).
Proof.
  induction 1 as [|a b l m H HH IH]; intros p k n; cbn [assign_loop]; [now apply par_ret|].
  destruct (k <? n); [|now apply par_ret].
  eapply par_bind; [apply par_tick|]. intros _ _ _. eapply par_bind; [now apply par_store|]. intros _ _ _. apply IH.
Qed.
Lemma par_cr_assign c l m : Forall2 R l m -> par eq (cr_assign c l) (cr_assign c m).
Proof. intros H. now apply par_assign_loop. Qed.
Lemma par_copy_n_elems n : forall s d, par eq (copy_n_elems s n d) (copy_n_elems s n d).
Proof.
  induction n as [|n IH]; intros s d; cbn [copy_n_elems]; [now apply par_ret|].
  eapply par_bind; [apply par_elem_assign|]. intros _ _ _. apply IH.
Qed.
Lemma par_get chk a i : par R (get_element chk a i) (get_element chk a i).
Proof. apply par_lift_bind; intros p. apply par_load. Qed.
Lemma par_getb chk a i : par R (get_bracket chk a i) (get_bracket chk a i).
Proof. apply par_lift_bind; intros p. apply par_load. Qed.
Lemma par_set chk a i x y : R x y -> par eq (set_element chk a i x) (set_element chk a i y).
Proof.
  intros H. apply par_lift_bind; intros p. eapply par_bind; [apply par_tick|]. intros _ _ _. now apply par_store.
Qed.
Lemma par_setb chk a i x y : R x y -> par eq (set_bracket chk a i x) (set_bracket chk a i y).
Proof.
  intros H. apply par_lift_bind; intros p. eapply par_bind; [apply par_tick|]. intros _ _ _. now apply par_store.
Qed.

(** ** comparison *)
Variables (eqT ltT : T -> T -> bool) (eqU ltU : U -> U -> bool).
Hypothesis EQ : forall a b a' b', R a a' -> R b b' -> eqT a b = eqU a' b'.
Hypothesis LT : forall a b a' b', R a a' -> R b b' -> ltT a b = ltU a' b'.

Lemma alike_ask h k (opT : T -> T -> bool) (opU : U -> U -> bool) chk x y :
  (forall a b a' b', R a a' -> R b b' -> opT a b = opU a' b') -> heapA h k ->
  (p <- it_deref_one chk x ;; q <- it_deref_one chk y ;; u <- hread h p ;; v <- hread h q ;; Ok (opT u v)) =
  (p <- it_deref_one chk x ;; q <- it_deref_one chk y ;; u <- hread k p ;; v <- hread k q ;; Ok (opU u v)).
Proof.
  intros OP H. destruct (it_deref_one chk x) as [p| |]; try reflexivity.
  destruct (it_deref_one chk y) as [q| |]; try reflexivity. simpl.
  pose proof (alike_read _ _ p H) as P. pose proof (alike_read _ _ q H) as Q.
  destruct (hread h p), (hread k p); simpl in P; try contradiction; try reflexivity. simpl.
  destruct (hread h q), (hread k q); simpl in Q; try contradiction; try reflexivity. simpl.
  now rewrite (OP _ _ _ _ P Q).
Qed.
Lemma equal_loop_ext body body' n : (forall x y, body x y = body' x y) ->
  forall f l r, equal_loop body n f l r = equal_loop body' n f l r.
Proof.
  intros B. induction n as [|n IH]; intros f l r; cbn [equal_loop]; [reflexivity|].
  destruct (it_equal f l); [reflexivity|]. rewrite B. destruct (body' f r) as [[|]| |]; simpl; auto.
  destruct (it_inc f); simpl; auto. destruct (it_inc r); simpl; auto.
Qed.
Lemma lex_loop_ext body body' n : (forall x y, body x y = body' x y) ->
  forall f l r t, lex_loop body n f l r t = lex_loop body' n f l r t.
Proof.
  intros B. induction n as [|n IH]; intros f l r t; cbn [lex_loop]; [reflexivity|].
  destruct (it_equal f l); [reflexivity|]. destruct (it_equal r t); [reflexivity|].
  rewrite !B. destruct (body' f r) as [[|]| |]; simpl; auto. destruct (body' r f) as [[|]| |]; simpl; auto.
  destruct (it_inc f); simpl; auto. destruct (it_inc r); simpl; auto.
Qed.
Lemma obind_ext {A B} (x : outcome A) (f g : A -> outcome B) : (forall a, f a = g a) -> obind x f = obind x g.
Proof. intros H. destruct x; simpl; auto. Qed.
Lemma alike_eq h k chk n : heapA h k -> forall a b, nd_eq eqT chk h n a b = nd_eq eqU chk k n a b.
Proof.
  intros H. induction n as [|n IH]; intros a b; [reflexivity|]. cbn [nd_eq].
  destruct (list_eqb _ _); [|reflexivity]. apply obind_ext; intros f. apply obind_ext; intros l.
  apply obind_ext; intros r. apply equal_loop_ext. intros x y. destruct n as [|n].
  - apply alike_ask; auto.
  - apply obind_ext; intros s. apply obind_ext; intros t. apply IH.
Qed.
Lemma alike_lt h k chk n : heapA h k -> forall a b, nd_lt ltT chk h n a b = nd_lt ltU chk k n a b.
Proof.
  intros H. induction n as [|n IH]; intros a b; [reflexivity|]. cbn [nd_lt].
  apply obind_ext; intros f. apply obind_ext; intros l.
  apply obind_ext; intros r. apply obind_ext; intros t. apply lex_loop_ext. intros x y. destruct n as [|n].
  - apply alike_ask; auto.
  - apply obind_ext; intros s. apply obind_ext; intros t'. apply IH.
Qed.
Lemma alike_compare op h k chk a b : heapA h k -> compare eqT ltT op chk h a b = compare eqU ltU op chk k a b.
Proof.
  intros H. unfold compare, nd_neq, nd_le, nd_ge, nd_gt.
  destruct op; rewrite ?(alike_eq _ _ _ _ H), ?(alike_lt _ _ _ _ H); reflexivity.
Qed.

(** ** multi_array *)
Variables (dT : T) (dU : U).
Hypothesis DD : R dT dU.
Lemma par_allocate_space c aid : par eq (allocate_space dT c aid) (allocate_space dU c aid).
Proof.
  unfold allocate_space. eapply par_bind; [apply par_allocate|]. intros p _ <-.
  eapply par_bind; [now apply par_construct_n|]. intros _ _ _. now apply par_ret.
Qed.
Lemma par_ma_destroy a : par eq (ma_destroy a) (ma_destroy a).
Proof.
  unfold ma_destroy. eapply par_bind; [apply par_destroy_n|]. intros _ _ _. apply par_deallocate.
Qed.
Lemma par_default chk n aid : par eq (ma_default dT chk n aid) (ma_default dU chk n aid).
Proof. unfold ma_default. apply par_lift_bind; intros so. apply par_lift_bind; intros c. apply par_allocate_space. Qed.
Lemma par_from_list chk n l so aid : par eq (ma_from_list dT chk n l so aid) (ma_from_list dU chk n l so aid).
Proof. unfold ma_from_list. apply par_lift_bind; intros c. apply par_allocate_space. Qed.
Lemma par_from_gen chk g so aid : par eq (ma_from_gen dT chk g so aid) (ma_from_gen dU chk g so aid).
Proof. unfold ma_from_gen. apply par_lift_bind; intros c. apply par_allocate_space. Qed.
Lemma par_ma_copy a : par eq (ma_copy dT a) (ma_copy dU a).
Proof.
  unfold ma_copy. eapply par_bind; [apply par_allocate_space|]. intros t _ <-.
  eapply par_bind; [apply par_copy_n_elems|]. intros _ _ _. now apply par_ret.
Qed.
Lemma par_convert chk a so aid : par eq (ma_convert dT chk a so aid) (ma_convert dU chk a so aid).
Proof.
  unfold ma_convert. apply par_lift_bind; intros c. eapply par_bind; [apply par_allocate_space|]. intros t _ <-.
  eapply par_bind; [apply par_std_copy|]. intros _ _ _. now apply par_ret.
Qed.
Lemma par_ma_assign chk sm a b : par eq (ma_assign chk sm a b) (ma_assign chk sm a b).
Proof. unfold ma_assign. destruct sm; [now apply par_ret|]. apply par_assign_nd. Qed.
Lemma par_resize chk a g : par eq (ma_resize dT chk a g) (ma_resize dU chk a g).
Proof.
  unfold ma_resize. destruct (Nat.eqb _ _); [|apply par_undef].
  eapply par_bind; [apply par_from_gen|]. intros n _ <-.
  eapply par_bind.
  - apply par_on_throw; [|apply par_ma_destroy]. do 5 (apply par_lift_bind; intros ?). apply par_assign_nd.
  - intros _ _ _. simpl. eapply par_bind; [apply par_ma_destroy|]. intros _ _ _. now apply par_ret.
Qed.
Lemma par_resize_list chk a l : par eq (ma_resize_list dT chk a l) (ma_resize_list dU chk a l).
Proof. unfold ma_resize_list. apply par_lift_bind; intros es. apply par_resize. Qed.

(** ** commands and programs *)
Definition answered (x : env * @output T) (y : env * @output U) : Prop :=
  fst x = fst y /\ out_alike R (snd x) (snd y).

Lemma par_answer q o : orelated (out_alike R) (@answer T q o) (@answer U q o).
Proof.
  destruct q, o; simpl; try constructor;
    try (match goal with |- orelated _ (obind ?x _) _ => destruct x; simpl; auto; constructor end).
Qed.
Lemma par_exec chk en c d : corresponds R c d ->
  par answered (exec dT eqT ltT chk en c) (exec dU eqU ltU chk en d).
Proof.
  assert (V : forall m m', par R m m' -> par answered (v <~ m ;; ret (en, OVal v)) (v <~ m' ;; ret (en, OVal v))).
  { intros m m' H. eapply par_bind; [exact H|]. intros a b K. apply par_ret. split; [reflexivity|now constructor]. }
  assert (E : forall (A : Type) (m : M T A) m' (k : A -> env), par eq m m' ->
    par answered (a <~ m ;; ret (k a, ONone)) (a <~ m' ;; ret (k a, ONone))).
  { intros A m m' k H. eapply par_bind; [exact H|]. intros a b <-. apply par_ret. split; [reflexivity|constructor]. }
  assert (Z : forall e, par answered (ret (e, ONone)) (ret (e, ONone))).
  { intros e. apply par_ret. split; [reflexivity|constructor]. }
  intros []; cbn [exec]; repeat (apply par_lift_bind; intros ?); try apply V; try apply Z;
    try (match goal with |- par answered (bind ?m (fun a => ret (@?k a, ONone))) _ => apply (E _ m _ k) end).
  all: try first [ apply par_default | apply par_from_list | apply par_from_gen | apply par_ma_copy | apply par_convert
    | apply par_ma_destroy | apply par_assign_nd | apply par_ma_assign | apply par_copy_array | apply par_get
    | apply par_getb | now apply par_set | now apply par_setb | now apply par_cr_assign | now apply par_for_each
    | apply par_resize | apply par_resize_list ].
  all: try match goal with a : handle |- _ => destruct a end.
  all: try apply par_undef.
  all: try match goal with |- par answered (bind ?m (fun a => ret (@?k a, ONone))) _ => apply (E _ m _ k) end.
  all: try (apply par_lift).
  all: try (now apply par_cr_assign).
  - intros w v W. rewrite (alike_compare op _ _ chk a0 a1 (proj1 W)).
    apply par_lift_bind; [|exact W]. intros r. apply par_ret. split; [reflexivity|constructor].
  - intros w v W. pose proof (par_answer q a) as X. unfold bind, lift.
    destruct (answer q a), (answer q a); simpl in X; try contradiction; constructor; try exact W. now split.
Qed.

Lemma par_run chk p q : Forall2 (corresponds R) p q ->
  forall en, par (results_alike (out_alike R)) (run dT eqT ltT chk en p) (run dU eqU ltU chk en q).
Proof.
  induction 1 as [|c d p q H HH IH]; intros en; cbn [run].
  - apply par_ret. split; [reflexivity|constructor].
  - eapply par_bind; [now apply par_exec|]. intros [e1 o] [e2 o'] [E O]. simpl in *. subst e2.
    eapply par_bind; [apply IH|]. intros [e2 os] [e2' os'] [E2 O2]. simpl in *. subst e2'.
    apply par_ret. split; [reflexivity|]. simpl. now constructor.
Qed.
Lemma par_catching chk p q :
  Forall2 (fun x y => corresponds R (fst x) (fst y) /\ snd x = snd y) p q ->
  forall en h k, heapA h k ->
  same_way R (results_alike (maybe_alike R)) (run_catching dT eqT ltT chk en p h) (run_catching dU eqU ltU chk en q k).
Proof.
  induction 1 as [|[c f] [d g] p q [H F] HH IH]; intros en h k W; cbn [run_catching].
  - constructor; [split; [reflexivity|constructor]|now split].
  - simpl in *. subst g.
    destruct (par_exec chk en c d H (World h f) (World k f)) as [[e1 o] [e2 o'] w v [E O] [W2 _]|w v [W2 _]|w v W2| |];
      [now split|..]; simpl in *; try (now constructor).
    + subst e2. destruct (IH e1 _ _ W2) as [[e2 os] [e2' os'] w2 v2 [E2 O2] W3|w2 v2 W3|w2 v2 W3| |]; try (now constructor).
      simpl in *. subst e2'. constructor; [|exact W3]. split; [reflexivity|]. simpl. constructor; [now constructor|exact O2].
    + destruct (IH en _ _ W2) as [[e2 os] [e2' os'] w2 v2 [E2 O2] W3|w2 v2 W3|w2 v2 W3| |]; try (now constructor).
      simpl in *. subst e2'. constructor; [|exact W3]. split; [reflexivity|]. simpl. constructor; [now constructor|exact O2].
Qed.
Lemma par_handled chk p q :
  Forall2 (fun x y => corresponds R (fst x) (fst y) /\ snd x = snd y) p q ->
  forall en h k, heapA h k ->
  same_way R (results_alike (maybe_alike R)) (run_handled dT eqT ltT chk en p h) (run_handled dU eqU ltU chk en q k).
Proof.
  induction 1 as [|[c f] [d g] p q [H F] HH IH]; intros en h k W; cbn [run_handled].
  - constructor; [split; [reflexivity|constructor]|now split].
  - simpl in *. subst g.
    destruct (par_exec chk en c d H (World h f) (World k f)) as [[e1 o] [e2 o'] w v [E O] [W2 _]|w v [W2 _]|w v [W2 _]| |];
      [now split|..]; simpl in *; try (now constructor).
    + subst e2. destruct (IH e1 _ _ W2) as [[e2 os] [e2' os'] w2 v2 [E2 O2] W3|w2 v2 W3|w2 v2 W3| |]; try (now constructor).
      simpl in *. subst e2'. constructor; [|exact W3]. split; [reflexivity|]. simpl. constructor; [now constructor|exact O2].
    + destruct (IH en _ _ W2) as [[e2 os] [e2' os'] w2 v2 [E2 O2] W3|w2 v2 W3|w2 v2 W3| |]; try (now constructor).
      simpl in *. subst e2'. constructor; [|exact W3]. split; [reflexivity|]. simpl. constructor; [now constructor|exact O2].
    + destruct (IH en _ _ W2) as [[e2 os] [e2' os'] w2 v2 [E2 O2] W3|w2 v2 W3|w2 v2 W3| |]; try (now constructor).
      simpl in *. subst e2'. constructor; [|exact W3]. split; [reflexivity|]. simpl. constructor; [now constructor|exact O2].
Qed.
End Par.
