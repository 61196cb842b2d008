(** RelocProofs.v -- every operation of the model behaves the same when its
    storage lies somewhere else (proof machinery for C55). *)

From Coq Require Import Lia.
From Verif Require Import Base StorageOrder Ranges Layout Access Objects Memory Ops MultiArray History
  Facts MemoryProofs RelocSpec.

(** * Pure computations *)

Definition nd_moved (R : placement) (a b : nd) : Prop :=
  ptr_moved R (nd_org a) (nd_org b) /\ nd_ext a = nd_ext b /\ nd_str a = nd_str b /\ nd_base a = nd_base b.
Definition iter_moved (R : placement) (i j : iter) : Prop :=
  it_idx i = it_idx j /\ ptr_moved R (it_base i) (it_base j) /\
  it_ext i = it_ext j /\ it_str i = it_str j /\ it_ib i = it_ib j.
Definition riter_moved (R : placement) (i j : riter) : Prop := iter_moved R (ri_base i) (ri_base j).
Inductive obj_moved (R : placement) : obj -> obj -> Prop :=
| oarr_moved : forall c d, cref_moved R c d -> obj_moved R (OArr c) (OArr d)
| oview_moved : forall c d, view_moved R c d -> obj_moved R (OView c) (OView d)
| osub_moved : forall c d, nd_moved R c d -> obj_moved R (OSub c) (OSub d).

Definition orel {A B} (Q : A -> B -> Prop) (x : outcome A) (y : outcome B) : Prop :=
  match x, y with Ok a, Ok b => Q a b | Abort, Abort => True | UB, UB => True | _, _ => False end.

Lemma orel_bind {A B A' B'} (P : A -> B -> Prop) (Q : A' -> B' -> Prop) x y f g :
  orel P x y -> (forall a b, P a b -> orel Q (f a) (g b)) -> orel Q (obind x f) (obind y g).
Proof. destruct x, y; simpl; intros H K; try contradiction; auto. Qed.
Lemma orel_eq {A} (x : outcome A) : orel eq x x.
Proof. destruct x; simpl; auto. Qed.
Lemma orel_same {A A' B'} (Q : A' -> B' -> Prop) (x : outcome A) f g :
  (forall a, orel Q (f a) (g a)) -> orel Q (obind x f) (obind x g).
Proof. intros H. eapply orel_bind; [apply orel_eq|]. intros a b <-. apply H. Qed.
Lemma orel_ok {A B} (Q : A -> B -> Prop) a b : Q a b -> orel Q (Ok a) (Ok b).
Proof. exact (fun H => H). Qed.
Lemma orel_refl {A} (Q : A -> A -> Prop) (x : outcome A) : (forall a, Q a a) -> orel Q x x.
Proof. intros H. destruct x; simpl; auto. Qed.

Lemma padd_moved R p q k : ptr_moved R p q -> ptr_moved R (padd p k) (padd q k).
Proof. intros [A B]. split; simpl; [exact A|now rewrite B]. Qed.
Lemma cr_nd_moved R c d : cref_moved R c d -> nd_moved R (cr_nd c) (cr_nd d).
Proof.
  intros []. unfold nd_moved, cr_nd, cr_origin; simpl. rewrite cm_oo.
  split; [now apply padd_moved|auto].
Qed.
Lemma v_nd_moved R c d : view_moved R c d -> nd_moved R (v_nd c) (v_nd d).
Proof.
  intros []. unfold nd_moved, v_nd, v_origin; simpl. rewrite vm_oo.
  split; [now apply padd_moved|auto].
Qed.
Lemma obj_nd_moved R a b : obj_moved R a b -> nd_moved R (obj_nd a) (obj_nd b).
Proof. intros [c d H|c d H|c d H]; simpl; [now apply cr_nd_moved|now apply v_nd_moved|exact H]. Qed.

Lemma access_n_moved R chk i a b : nd_moved R a b -> orel (nd_moved R) (access_n chk i a) (access_n chk i b).
Proof.
  destruct a as [o e s bs], b as [o' e' s' bs']. intros (P & E & F & G); simpl in *. subst.
  unfold access_n; simpl. destruct e' as [|x [|y l]], s' as [|u s'], bs' as [|v bs']; simpl; auto.
  apply orel_same; intros _. apply orel_same; intros m. apply orel_ok.
  split; simpl; [now apply padd_moved|auto].
Qed.
Lemma access_one_moved R chk i a b : nd_moved R a b -> orel (ptr_moved R) (access_one chk i a) (access_one chk i b).
Proof.
  destruct a as [o e s bs], b as [o' e' s' bs']. intros (P & E & F & G); simpl in *. subst.
  unfold access_one; simpl. destruct e' as [|x [|y l]], s' as [|u [|u2 s']], bs' as [|v [|v2 bs']]; simpl; auto.
  apply orel_same; intros _. apply orel_same; intros m. apply orel_ok. now apply padd_moved.
Qed.
Lemma bracket_moved R chk idx : forall a b, nd_moved R a b -> orel (ptr_moved R) (bracket chk a idx) (bracket chk b idx).
Proof.
  induction idx as [|i rest IH]; intros a b H; [exact I|].
  destruct rest as [|j rest]; [now apply access_one_moved|].
  change (bracket chk a (i :: j :: rest)) with (s <- access_n chk i a ;; bracket chk s (j :: rest)).
  change (bracket chk b (i :: j :: rest)) with (s <- access_n chk i b ;; bracket chk s (j :: rest)).
  eapply orel_bind; [eapply access_n_moved; eassumption|]. exact IH.
Qed.
Lemma access_element_moved R chk idx a b :
  nd_moved R a b -> orel (ptr_moved R) (access_element chk a idx) (access_element chk b idx).
Proof.
  destruct a as [o e s bs], b as [o' e' s' bs']. intros (P & E & F & G); simpl in *. subst.
  unfold access_element; simpl. apply orel_same; intros _. apply orel_same; intros k.
  apply orel_ok. now apply padd_moved.
Qed.
Lemma nd_begin_moved R a b : nd_moved R a b -> orel (iter_moved R) (nd_begin a) (nd_begin b).
Proof.
  destruct a as [o e s bs], b as [o' e' s' bs']. intros (P & E & F & G); simpl in *. subst.
  unfold nd_begin; simpl. destruct bs'; simpl; auto. unfold iter_moved; simpl. auto.
Qed.
Lemma nd_end_moved R a b : nd_moved R a b -> orel (iter_moved R) (nd_end a) (nd_end b).
Proof.
  destruct a as [o e s bs], b as [o' e' s' bs']. intros (P & E & F & G); simpl in *. subst.
  unfold nd_end; simpl. destruct bs', e'; simpl; auto. apply orel_same; intros i. apply orel_ok.
  unfold iter_moved; simpl. auto.
Qed.
Lemma it_with_idx_moved R i j k : iter_moved R i j -> iter_moved R (it_with_idx i k) (it_with_idx j k).
Proof. intros (A & B & C & D & E). unfold iter_moved; simpl. auto. Qed.
Lemma it_inc_moved R i j : iter_moved R i j -> orel (iter_moved R) (it_inc i) (it_inc j).
Proof.
  intros H. unfold it_inc. pose proof H as (A & _). rewrite A. apply orel_same; intros k. apply orel_ok.
  now apply it_with_idx_moved.
Qed.
Lemma it_dec_moved R i j : iter_moved R i j -> orel (iter_moved R) (it_dec i) (it_dec j).
Proof.
  intros H. unfold it_dec. pose proof H as (A & _). rewrite A. apply orel_same; intros k. apply orel_ok.
  now apply it_with_idx_moved.
Qed.
Lemma it_advance_moved R i j n : iter_moved R i j -> orel (iter_moved R) (it_advance i n) (it_advance j n).
Proof.
  intros H. unfold it_advance. pose proof H as (A & _). rewrite A. apply orel_same; intros k. apply orel_ok.
  now apply it_with_idx_moved.
Qed.
Lemma it_nd_moved R i j : iter_moved R i j -> nd_moved R (it_nd i) (it_nd j).
Proof. intros (A & B & C & D & E). unfold nd_moved; simpl. auto. Qed.
Lemma it_deref_n_moved R chk i j : iter_moved R i j -> orel (nd_moved R) (it_deref_n chk i) (it_deref_n chk j).
Proof.
  intros H. unfold it_deref_n. rewrite (proj1 H). now apply access_n_moved, it_nd_moved.
Qed.
Lemma it_deref_one_moved R chk i j : iter_moved R i j -> orel (ptr_moved R) (it_deref_one chk i) (it_deref_one chk j).
Proof.
  intros H. unfold it_deref_one. rewrite (proj1 H). now apply access_one_moved, it_nd_moved.
Qed.
(** iterators of the same array *)
Lemma ptr_eqb_same p : ptr_eqb p p = true.
Proof. unfold ptr_eqb. now rewrite Nat.eqb_refl, Z.eqb_refl. Qed.
Lemma it_equal_moved R i j i' j' :
  iter_moved R i i' -> iter_moved R j j' -> it_base i = it_base j -> it_base i' = it_base j' ->
  it_equal i j = it_equal i' j'.
Proof.
  intros (A & B & C & D & E) (A' & B' & C' & D' & E') F G. unfold it_equal.
  rewrite A, A', C, C', D, D', E, E', F, G, !ptr_eqb_same. reflexivity.
Qed.
Lemma it_inc_base i j : it_inc i = Ok j -> it_base j = it_base i.
Proof. unfold it_inc. destruct (sadd (it_idx i) 1); simpl; [|discriminate..]. intros E. now injection E as <-. Qed.
Lemma nd_begin_base a i : nd_begin a = Ok i -> it_base i = nd_org a.
Proof. unfold nd_begin. destruct (nd_base a); [discriminate|]. intros E. now injection E as <-. Qed.
Lemma nd_end_base a i : nd_end a = Ok i -> it_base i = nd_org a.
Proof.
  unfold nd_end. destruct (nd_base a), (nd_ext a); try discriminate.
  destruct (sadd _ _); simpl; try discriminate. intros E. now injection E as <-.
Qed.

Lemma nd_rbegin_moved R a b : nd_moved R a b -> orel (riter_moved R) (nd_rbegin a) (nd_rbegin b).
Proof. intros H. eapply orel_bind; [eapply nd_end_moved; eassumption|]. intros i j K. exact K. Qed.
Lemma ri_inc_moved R a b : riter_moved R a b -> orel (riter_moved R) (ri_inc a) (ri_inc b).
Proof. intros H. eapply orel_bind; [eapply it_dec_moved; eassumption|]. intros i j K. exact K. Qed.
Lemma ri_inc_n_moved R k : forall a b, riter_moved R a b -> orel (riter_moved R) (ri_inc_n k a) (ri_inc_n k b).
Proof.
  induction k as [|k IH]; intros a b H; [exact H|]. simpl. eapply orel_bind; [eapply ri_inc_moved; eassumption|]. exact IH.
Qed.
Lemma ri_deref_n_moved R chk a b : riter_moved R a b -> orel (nd_moved R) (ri_deref_n chk a) (ri_deref_n chk b).
Proof. intros H. eapply orel_bind; [eapply it_dec_moved; eassumption|]. intros i j K. now apply it_deref_n_moved. Qed.

Lemma make_view_moved R chk ig a b : nd_moved R a b -> orel (view_moved R) (make_view chk a ig) (make_view chk b ig).
Proof.
  destruct a as [o e s bs], b as [o' e' s' bs']. intros (P & E & F & G); simpl in *. subst.
  unfold make_view, generate_array_view; simpl.
  destruct (Nat.eqb (ig_num ig) (length e')); simpl; [|exact I].
  destruct (gav_loop _ _ _ _ _ _) as [st| |]; simpl; auto.
  destruct (assertM _ _); simpl; auto. destruct (read_all (gs_ext st)); simpl; auto.
  destruct (read_all (gs_str st)); simpl; auto. unfold view_make.
  apply orel_same; intros x. apply orel_same; intros y. apply orel_ok.
  constructor; simpl; auto. now apply padd_moved.
Qed.

(** crefs built the same way over different storage *)
Lemma init_moved R chk n p q so bs e :
  ptr_moved R p q -> orel (cref_moved R) (init_multi_array_ref chk n p so bs e) (init_multi_array_ref chk n q so bs e).
Proof.
  intros H. unfold init_multi_array_ref. apply orel_same; intros raw. apply orel_same; intros s.
  apply orel_same; intros oo. apply orel_same; intros dd. apply orel_ok. constructor; simpl; auto.
Qed.
Lemma cr_reindex_moved R c d v : cref_moved R c d -> orel (cref_moved R) (cr_reindex c v) (cr_reindex d v).
Proof.
  intros []. unfold cr_reindex. rewrite cm_ext, cm_str, cm_storage. apply orel_same; intros ib.
  apply orel_same; intros oo. apply orel_ok. constructor; simpl; auto.
Qed.
Lemma cr_reindex1_moved R c d v : cref_moved R c d -> orel (cref_moved R) (cr_reindex1 c v) (cr_reindex1 d v).
Proof.
  intros []. unfold cr_reindex1. rewrite cm_ext, cm_str, cm_storage.
  apply orel_same; intros oo. apply orel_ok. constructor; simpl; auto.
Qed.
Lemma cr_reshape_moved R chk c d v : cref_moved R c d -> orel (cref_moved R) (cr_reshape chk c v) (cr_reshape chk d v).
Proof.
  intros []. unfold cr_reshape. rewrite cm_ext, cm_storage, cm_num, cm_ib. apply orel_same; intros _.
  apply orel_same; intros e. apply orel_same; intros s.
  apply orel_same; intros oo. apply orel_ok. constructor; simpl; auto.
Qed.
Lemma v_reindex_moved R c d v : view_moved R c d -> orel (view_moved R) (v_reindex c v) (v_reindex d v).
Proof.
  intros []. unfold v_reindex. rewrite vm_ext, vm_str. apply orel_same; intros ib.
  apply orel_same; intros oo. apply orel_ok. constructor; simpl; auto.
Qed.
Lemma v_reindex1_moved R c d v : view_moved R c d -> orel (view_moved R) (v_reindex1 c v) (v_reindex1 d v).
Proof.
  intros []. unfold v_reindex1. rewrite vm_ext, vm_str.
  apply orel_same; intros oo. apply orel_ok. constructor; simpl; auto.
Qed.
Lemma with_ref_moved R a b c d : ma_moved R a b -> cref_moved R c d -> ma_moved R (ma_with_ref a c) (ma_with_ref b d).
Proof. intros [] H. constructor; simpl; auto. Qed.

(** expressions *)
Lemma forall2_nth {A B} (Q : A -> B -> Prop) l l' n :
  Forall2 Q l l' ->
  match nth_error l n, nth_error l' n with Some a, Some b => Q a b | None, None => True | _, _ => False end.
Proof.
  intros H. revert n. induction H as [|a b l l' P H IH]; intros [|n]; simpl; auto. apply IH.
Qed.
Lemma var_moved_ok R en en' x : env_moved R en en' -> orel (ma_moved R) (var en x) (var en' x).
Proof.
  intros [V _]. unfold var. pose proof (forall2_nth _ _ _ x V) as H.
  destruct (nth_error (e_vars en) x), (nth_error (e_vars en') x); try contradiction; try exact I.
  destruct H; simpl; auto.
Qed.
Lemma named_moved_ok R en en' x : env_moved R en en' -> orel (handle_moved R) (named en x) (named en' x).
Proof.
  intros [_ V]. unfold named. pose proof (forall2_nth _ _ _ x V) as H.
  destruct (nth_error (e_handles en) x), (nth_error (e_handles en') x); try contradiction; try exact I.
  exact H.
Qed.
Lemma eval_moved R chk en en' e : env_moved R en en' -> orel (obj_moved R) (eval chk en e) (eval chk en' e).
Proof.
  intros H. induction e as [x|x|e IH i|e IH subs|e IH k|e IH k]; simpl.
  - eapply orel_bind; [eapply var_moved_ok; eassumption|]. intros a b []. now constructor.
  - eapply orel_bind; [eapply named_moved_ok; eassumption|]. intros a b []; simpl; now constructor.
  - eapply orel_bind; [exact IH|]. intros a b K. eapply orel_bind; [apply access_n_moved, obj_nd_moved, K|].
    intros c d L. now constructor.
  - eapply orel_bind; [exact IH|]. intros a b K. apply orel_same; intros ig.
    eapply orel_bind; [apply make_view_moved, obj_nd_moved, K|]. intros c d L. now constructor.
  - eapply orel_bind; [exact IH|]. intros a b K. eapply orel_bind; [apply nd_begin_moved, obj_nd_moved, K|].
    intros i j L. eapply orel_bind; [apply it_advance_moved, L|]. intros i2 j2 L2.
    eapply orel_bind; [apply it_deref_n_moved, L2|]. intros c d L3. now constructor.
  - eapply orel_bind; [exact IH|]. intros a b K. eapply orel_bind; [apply nd_rbegin_moved, obj_nd_moved, K|].
    intros i j L. eapply orel_bind; [apply ri_inc_n_moved, L|]. intros i2 j2 L2.
    eapply orel_bind; [apply ri_deref_n_moved, L2|]. intros c d L3. now constructor.
Qed.
Lemma eval_nd_moved R chk en en' e : env_moved R en en' -> orel (nd_moved R) (eval_nd chk en e) (eval_nd chk en' e).
Proof. intros H. eapply orel_bind; [eapply eval_moved; eassumption|]. intros a b K. now apply obj_nd_moved. Qed.
Lemma answer_moved {T} R q a b : obj_moved R a b -> @answer T q a = answer q b.
Proof.
  intros H. pose proof (obj_nd_moved _ _ _ H) as (_ & E & S & B).
  destruct H as [c d [? ? E1 ? ? ? ? N]|c d [? ? N E1 ? ?]|c d (P & E1 & ? & ?)];
    destruct q; simpl in *; unfold cr_size, v_size, sub_size, cr_empty, v_empty, sub_empty,
      cr_num_elements, v_num_elements, sub_num_elements, cr_size, v_size, sub_size;
    rewrite ?E1, ?N, ?S, ?B; try reflexivity; congruence.
Qed.

(** * Stateful computations *)
Section Moved.
Context {T : Type}.
Implicit Types (h : heap T) (R : placement).

Record later (R : placement) (h1 h2 : heap T) (R' : placement) (h1' h2' : heap T) : Prop := Later {
  lt_emb : embeds R' h1' h2';
  lt_incl : forall a b, R a b -> R' a b;
  lt_old : forall a b, R' a b -> (a < length h1)%nat -> R a b;
  lt_new : forall a b, R' a b -> (length h1 <= a)%nat -> (length h2 <= b)%nat;
  lt_len1 : (length h1 <= length h1')%nat;
  lt_len2 : (length h2 <= length h2')%nat;
  lt_dead1 : forall b, (b < length h1)%nat -> live_block h1' b -> live_block h1 b;
  lt_dead2 : forall b, (b < length h2)%nat -> live_block h2' b -> live_block h2 b;
  lt_frame : forall b', (b' < length h2)%nat -> (forall b, R b b' -> ~ live_block h1 b) ->
             hblock h2' b' = hblock h2 b';
  lt_fresh : forall b', (length h2 <= b')%nat -> live_block h2' b' -> exists b, R' b b' /\ live_block h1' b;
  lt_dies : forall b b', R b b' -> live_block h1 b -> ~ live_block h1' b -> ~ live_block h2' b'
}.

Lemma live_lt h b : live_block h b -> (b < length h)%nat.
Proof.
  unfold live_block, hblock. intros H. destruct (nth_error h b) eqn:E; [|contradiction].
  apply nth_error_Some. congruence.
Qed.
Lemma live_some h b : live_block h b <-> exists k, hblock h b = Some k.
Proof.
  unfold live_block. destruct (hblock h b) as [k|]; split; intros H; eauto; try congruence; destruct H; congruence.
Qed.
Lemma live_dec h b : live_block h b \/ ~ live_block h b.
Proof. unfold live_block. destruct (hblock h b); [left|right]; congruence. Qed.
Lemma place_live R h1 h2 b b' : embeds R h1 h2 -> R b b' -> live_block h1 b -> live_block h2 b'.
Proof. intros E H L. apply live_some in L as (k & L). apply live_some. exists k. eapply emb_copy; eauto. Qed.

Lemma later_refl R h1 h2 : embeds R h1 h2 -> later R h1 h2 R h1 h2.
Proof.
  intros E. constructor; auto.
  - intros a b H L. pose proof (emb_known _ _ _ E _ _ H). lia.
  - intros b' H L. apply live_lt in L. lia.
Qed.
Lemma later_trans R h1 h2 R' h1' h2' R'' h1'' h2'' :
  embeds R h1 h2 ->
  later R h1 h2 R' h1' h2' -> later R' h1' h2' R'' h1'' h2'' -> later R h1 h2 R'' h1'' h2''.
Proof.
  intros E0 A B. destruct A as [E1 I1 O1 N1 L1 M1 D1 F1 G1 S1 X1], B as [E2 I2 O2 N2 L2 M2 D2 F2 G2 S2 X2].
  constructor; auto; try lia.
  - intros a b H L. apply O1; auto. apply O2; auto. lia.
  - intros a b H L. destruct (Nat.lt_ge_cases a (length h1')) as [K|K].
    + apply N1 with a; auto.
    + pose proof (N2 _ _ H K). lia.
  - intros b H L. apply D1; auto. apply D2; auto. lia.
  - intros b H L. apply F1; auto. apply F2; auto. lia.
  - intros b' H K. rewrite G2; [apply G1; auto|lia|].
    intros b P Q. destruct (Nat.lt_ge_cases b (length h1)) as [W|W].
    + apply (K b); auto.
    + pose proof (N1 _ _ P W). lia.
  - intros b' H L. destruct (Nat.lt_ge_cases b' (length h2')) as [W|W]; [|auto].
    destruct (S1 b' H (F2 b' W L)) as (b & P & Q). exists b. split; [auto|].
    destruct (live_dec h1'' b) as [Y|Y]; [exact Y|]. now destruct (X2 b b' P Q Y).
  - intros b b' P Q Y L. pose proof (live_lt _ _ (place_live _ _ _ _ _ E0 P Q)) as W.
    destruct (live_dec h1' b) as [Z|Z].
    + apply (X2 b b'); auto.
    + apply (X1 b b' P Q Z). apply F2; auto. lia.
Qed.

Definition mono {A B} (Q : placement -> A -> B -> Prop) : Prop :=
  forall R R' a b, (forall x y, R x y -> R' x y) -> Q R a b -> Q R' a b.

Definition sim {A B} (R : placement) (Q : placement -> A -> B -> Prop) (m1 : M T A) (m2 : M T B) : Prop :=
  forall h1 h2 f, embeds R h1 h2 ->
  match m1 (World h1 f) with
  | Done a w => exists b h2' R', m2 (World h2 f) = Done b (World h2' (w_fuse w)) /\
                  later R h1 h2 R' (w_heap w) h2' /\ Q R' a b
  | Thrown w => exists h2' R', m2 (World h2 f) = Thrown (World h2' (w_fuse w)) /\
                  later R h1 h2 R' (w_heap w) h2'
  | Aborted w => exists h2' R', m2 (World h2 f) = Aborted (World h2' (w_fuse w)) /\
                  later R h1 h2 R' (w_heap w) h2'
  | _ => True
  end.

Definition sub R R' : Prop := forall x y, R x y -> R' x y.

Lemma sim_ret {A B} R (Q : placement -> A -> B -> Prop) a b : Q R a b -> sim R Q (ret a) (ret b).
Proof. intros H h1 h2 f E. simpl. exists b, h2, R. auto using later_refl. Qed.

Lemma sim_bind {A B C D} R (P : placement -> A -> B -> Prop) (Q : placement -> C -> D -> Prop) m1 m2 k1 k2 :
  sim R P m1 m2 -> (forall R' a b, sub R R' -> P R' a b -> sim R' Q (k1 a) (k2 b)) ->
  sim R Q (bind m1 k1) (bind m2 k2).
Proof.
  intros H K h1 h2 f E. specialize (H h1 h2 f E). unfold bind.
  destruct (m1 (World h1 f)) as [a [g1 f1]|w|w| |]; auto.
  - destruct H as (b & g2 & R' & -> & L & PP). simpl in *.
    pose proof (K R' a b (lt_incl _ _ _ _ _ _ L) PP g1 g2 f1 (lt_emb _ _ _ _ _ _ L)) as H.
    destruct (k1 a (World g1 f1)) as [c w|w|w| |]; auto.
    + destruct H as (d & g3 & R2 & -> & L2 & QQ). exists d, g3, R2. split; [auto|]. split; [|auto].
      eapply later_trans; eauto.
    + destruct H as (g3 & R2 & -> & L2). exists g3, R2. split; [auto|]. eapply later_trans; eauto.
    + destruct H as (g3 & R2 & -> & L2). exists g3, R2. split; [auto|]. eapply later_trans; eauto.
  - destruct H as (g2 & R' & -> & L). eauto.
  - destruct H as (g2 & R' & -> & L). eauto.
Qed.

Lemma sim_lift {A B} R (Q : placement -> A -> B -> Prop) x y : orel (Q R) x y -> sim R Q (lift x) (lift y).
Proof.
  intros H h1 h2 f E. unfold lift. destruct x, y; simpl in H; try contradiction; auto.
  - exists a0, h2, R. auto using later_refl.
  - exists h2, R. auto using later_refl.
Qed.

Lemma sim_undef {A B} R (Q : placement -> A -> B -> Prop) (m : M T B) : sim R Q (fun _ => Undef) m.
Proof. intros h1 h2 f E. exact I. Qed.
Lemma sim_fuel {A B} R (Q : placement -> A -> B -> Prop) (m : M T B) : sim R Q (fun _ => OutOfFuel) m.
Proof. intros h1 h2 f E. exact I. Qed.

Lemma sim_on_throw {A B} R (Q : placement -> A -> B -> Prop) m1 m2 k1 k2 :
  sim R Q m1 m2 -> (forall R', sub R R' -> sim R' (fun _ _ _ => True) k1 k2) ->
  sim R Q (on_throw m1 k1) (on_throw m2 k2).
Proof.
  intros H K h1 h2 f E. specialize (H h1 h2 f E). unfold on_throw.
  destruct (m1 (World h1 f)) as [a [g1 f1]|[g1 f1]|w| |]; auto.
  - destruct H as (b & g2 & R' & -> & L & PP). eauto 10.
  - destruct H as (g2 & R' & -> & L). simpl in *.
    pose proof (K R' (lt_incl _ _ _ _ _ _ L) g1 g2 f1 (lt_emb _ _ _ _ _ _ L)) as H.
    destruct (k1 (World g1 f1)) as [c w|w|w| |]; auto.
    + destruct H as (d & g3 & R2 & -> & L2 & _). exists g3, R2. split; [auto|]. eapply later_trans; eauto.
    + destruct H as (g3 & R2 & -> & L2). exists g3, R2. split; [auto|]. eapply later_trans; eauto.
  - destruct H as (g2 & R' & -> & L). eauto.
Qed.

Definition same {A} : placement -> A -> A -> Prop := fun _ => eq.

Lemma sim_tick R : sim R same tick tick.
Proof.
  intros h1 h2 f E. unfold tick; simpl. destruct f as [[|k]|]; simpl.
  - exists h2, R. auto using later_refl.
  - exists tt, h2, R. split; [auto|]. split; [now apply later_refl|reflexivity].
  - exists tt, h2, R. split; [auto|]. split; [now apply later_refl|reflexivity].
Qed.

Lemma hcell_moved R h1 h2 p q c : embeds R h1 h2 -> ptr_moved R p q -> hcell h1 p = Some c -> hcell h2 q = Some c.
Proof.
  intros E [A B]. unfold hcell. destruct (hblock h1 (p_blk p)) as [k|] eqn:H; [|discriminate].
  rewrite (emb_copy _ _ _ E _ _ _ A H), B. auto.
Qed.
Lemma hread_moved R h1 h2 p q v : embeds R h1 h2 -> ptr_moved R p q -> hread h1 p = Ok v -> hread h2 q = Ok v.
Proof.
  intros E M. unfold hread. destruct (hcell h1 p) as [[u|]|] eqn:H; try discriminate.
  rewrite (hcell_moved _ _ _ _ _ _ E M H). auto.
Qed.
Lemma hread_cases h p : hread h p = UB \/ exists v, hread h p = Ok v.
Proof. unfold hread. destruct (hcell h p) as [[u|]|]; eauto. Qed.

Lemma sim_load R p q : ptr_moved R p q -> sim R same (load p) (load q).
Proof.
  intros M h1 h2 f E. unfold load, lift; simpl. destruct (hread_cases h1 p) as [-> | (v & H)]; [exact I|].
  rewrite H, (hread_moved _ _ _ _ _ _ E M H). exists v, h2, R. split; [auto|]. split; [now apply later_refl|reflexivity].
Qed.

(** replacing one placed block in both heaps *)
Lemma replace_later R h1 h2 b b' (k : option (block T)) :
  embeds R h1 h2 -> R b b' -> live_block h1 b ->
  later R h1 h2 R (set_nth b k h1) (set_nth b' k h2).
Proof.
  intros E H L. pose proof (live_lt _ _ L) as W. pose proof (place_live _ _ _ _ _ E H L) as L2.
  pose proof (live_lt _ _ L2) as W2.
  assert (B1 : forall x, hblock (set_nth b k h1) x = if Nat.eqb x b then k else hblock h1 x).
  { intros x. unfold hblock. destruct (Nat.eqb_spec x b) as [->|N].
    - rewrite nth_error_set_nth_eq by exact W. now destruct k.
    - rewrite nth_error_set_nth_ne by auto. reflexivity. }
  assert (B2 : forall x, hblock (set_nth b' k h2) x = if Nat.eqb x b' then k else hblock h2 x).
  { intros x. unfold hblock. destruct (Nat.eqb_spec x b') as [->|N].
    - rewrite nth_error_set_nth_eq by exact W2. now destruct k.
    - rewrite nth_error_set_nth_ne by auto. reflexivity. }
  assert (LL : forall x, live_block (set_nth b k h1) x -> live_block h1 x).
  { intros x. unfold live_block. rewrite B1. destruct (Nat.eqb_spec x b) as [->|N]; auto. }
  assert (LN1 : length (set_nth b k h1) = length h1) by apply length_set_nth.
  assert (LN2 : length (set_nth b' k h2) = length h2) by apply length_set_nth.
  constructor; auto; try (rewrite ?LN1, ?LN2; lia).
  - constructor.
    + intros x y P. rewrite LN1. eapply emb_known; eauto.
    + intros x y v P. rewrite B1, B2. destruct (Nat.eqb_spec x b) as [->|N].
      * rewrite (emb_one_place _ _ _ E _ _ _ P H L), Nat.eqb_refl. auto.
      * intros Q. destruct (Nat.eqb_spec y b') as [->|N2].
        -- destruct N. apply (emb_apart _ _ _ E _ _ _ P H); auto. unfold live_block. congruence.
        -- eapply emb_copy; eauto.
    + intros x y z P Q Y. eapply emb_one_place; eauto.
    + intros x y z P Q Y Z. eapply emb_apart; eauto.
  - intros x y P Q. pose proof (emb_known _ _ _ E _ _ P). lia.
  - intros x P. unfold live_block. rewrite B2. destruct (Nat.eqb_spec x b') as [->|N]; auto.
  - intros x P Q. rewrite B2. destruct (Nat.eqb_spec x b') as [->|N]; auto. now destruct (Q b H).
  - intros x P Q. apply live_lt in Q. lia.
  - intros x y P Q. unfold live_block in *. rewrite B1, B2. destruct (Nat.eqb_spec x b) as [->|N].
    + rewrite (emb_one_place _ _ _ E _ _ _ P H L), Nat.eqb_refl. auto.
    + intros Z. destruct (Z Q).
Qed.

Lemma hset_moved R h1 h2 p q c h1' :
  embeds R h1 h2 -> ptr_moved R p q -> hset h1 p c = Some h1' ->
  exists h2', hset h2 q c = Some h2' /\ later R h1 h2 R h1' h2'.
Proof.
  intros E M. unfold hset. destruct (hcell h1 p) as [c0|] eqn:H; [|discriminate].
  rewrite (hcell_moved _ _ _ _ _ _ E M H). destruct M as [A B].
  destruct (hblock h1 (p_blk p)) as [k|] eqn:K; [|discriminate].
  rewrite (emb_copy _ _ _ E _ _ _ A K), <- B. intros W. injection W as <-.
  eexists. split; [reflexivity|]. apply replace_later; auto. unfold live_block. congruence.
Qed.

Lemma sim_store R p q v : ptr_moved R p q -> sim R same (store p v) (store q v).
Proof.
  intros M h1 h2 f E. unfold store, hwrite; simpl. destruct (hcell h1 p) as [[u|]|] eqn:H; try exact I.
  rewrite (hcell_moved _ _ _ _ _ _ E M H). destruct (hset h1 p (Some v)) as [g1|] eqn:S; [|exact I].
  destruct (hset_moved _ _ _ _ _ _ _ E M S) as (g2 & -> & L). simpl. exists tt, g2, R.
  split; [auto|]. split; [exact L|reflexivity].
Qed.
Lemma sim_construct R d p q : ptr_moved R p q -> sim R same (construct d p) (construct d q).
Proof.
  intros M. eapply sim_bind; [apply sim_tick|]. intros R' [] [] S _.
  assert (M' : ptr_moved R' p q) by (destruct M; split; auto). clear M.
  intros h1 h2 f E; simpl. destruct (hcell h1 p) as [[u|]|] eqn:H; try exact I.
  rewrite (hcell_moved _ _ _ _ _ _ E M' H). destruct (hset h1 p (Some d)) as [g1|] eqn:W; [|exact I].
  destruct (hset_moved _ _ _ _ _ _ _ E M' W) as (g2 & -> & L). simpl. exists tt, g2, R'.
  split; [auto|]. split; [exact L|reflexivity].
Qed.
Lemma sim_destroy R p q : ptr_moved R p q -> sim R same (destroy p) (destroy q).
Proof.
  intros M h1 h2 f E. unfold destroy; simpl. destruct (hcell h1 p) as [[u|]|] eqn:H; try exact I.
  rewrite (hcell_moved _ _ _ _ _ _ E M H). destruct (hset h1 p None) as [g1|] eqn:W; [|exact I].
  destruct (hset_moved _ _ _ _ _ _ _ E M W) as (g2 & -> & L). simpl. exists tt, g2, R.
  split; [auto|]. split; [exact L|reflexivity].
Qed.
Lemma sim_deallocate R aid p q n : ptr_moved R p q -> sim R same (deallocate aid p n) (deallocate aid q n).
Proof.
  intros M h1 h2 f E. unfold deallocate; simpl. destruct M as [A B].
  destruct (hblock h1 (p_blk p)) as [k|] eqn:K; [|exact I].
  rewrite (emb_copy _ _ _ E _ _ _ A K), <- B.
  destruct (_ && _ && _ && _); [|exact I]. simpl. eexists tt, _, R. split; [reflexivity|]. split; [|reflexivity].
  apply replace_later; auto. unfold live_block. congruence.
Qed.

Lemma hblock_app_new (h : heap T) k x :
  hblock (h ++ [Some k]) x = if Nat.eqb x (length h) then Some k else hblock h x.
Proof.
  unfold hblock. destruct (Nat.eqb_spec x (length h)) as [->|N].
  - rewrite nth_error_app2, Nat.sub_diag by lia. reflexivity.
  - destruct (Nat.lt_ge_cases x (length h)).
    + now rewrite nth_error_app1 by lia.
    + assert (length (h ++ [Some k]) = S (length h)) by (rewrite app_length; simpl; lia).
      rewrite (proj2 (nth_error_None (h ++ [Some k]) x)) by lia.
      now rewrite (proj2 (nth_error_None h x)) by lia.
Qed.
Lemma sim_allocate R aid n : sim R ptr_moved (allocate aid n) (allocate aid n).
Proof.
  intros h1 h2 f E. unfold allocate.
  pose proof (sim_tick R h1 h2 f E) as H.
  assert (HH : forall h, match tick (World h f) with Done _ w => w_heap w = h | Thrown w => w_heap w = h | _ => False end).
  { intros h. unfold tick; simpl. destruct f as [[|k]|]; reflexivity. }
  pose proof (HH h1) as H1. pose proof (HH h2) as H2. clear HH.
  destruct (tick (World h1 f)) as [[] [g1 f1]|[g1 f1]|w| |]; try contradiction.
  - destruct H as ([] & g2 & R0 & TK & _ & _). rewrite TK in *. simpl in *. subst g1 g2.
    destruct ((0 <=? n) && (n <=? idx_max)).
    2: { exists h2, R. split; [reflexivity|]. now apply later_refl. }
    simpl. set (k := Block aid (repeat None (Z.to_nat n))).
    exists (Ptr (length h2) 0), (h2 ++ [Some k]), (fun a b => R a b \/ a = length h1 /\ b = length h2).
    split; [reflexivity|]. split; [|split; simpl; auto].
    assert (LN : forall h, length (h ++ [Some k]) = S (length h)) by (intros; rewrite app_length; simpl; lia).
    assert (KN : forall x y, R x y -> (x < length h1)%nat) by (intros; eapply emb_known; eauto).
    assert (OL : forall x, (x < length h1)%nat -> live_block (h1 ++ [Some k]) x -> live_block h1 x).
    { intros x Hx. unfold live_block. rewrite hblock_app_new. destruct (Nat.eqb_spec x (length h1)); [lia|auto]. }
    constructor; rewrite ?LN; try lia.
    + constructor; rewrite ?LN.
      * intros x y [P|[-> ->]]; [specialize (KN x y P)|]; lia.
      * intros x y v. rewrite !hblock_app_new. intros [P|[-> ->]].
        -- specialize (KN x y P). destruct (Nat.eqb_spec x (length h1)); [lia|]. intros Q.
           pose proof (emb_copy _ _ _ E _ _ _ P Q) as Q2.
           assert (live_block h2 y) as W by (unfold live_block; congruence).
           apply live_lt in W. destruct (Nat.eqb_spec y (length h2)); [lia|exact Q2].
        -- rewrite !Nat.eqb_refl. auto.
      * intros x y z [P|[-> ->]] [Q|[Q1 Q2]] L.
        -- eapply emb_one_place; eauto.
        -- specialize (KN x y P). lia.
        -- specialize (KN _ z Q). lia.
        -- auto.
      * intros x y z [P|[-> ->]] [Q|[Q1 Q2]] L1 L2.
        -- eapply emb_apart; eauto.
        -- subst. pose proof (KN _ _ P). apply OL in L1; [|assumption].
           pose proof (live_lt _ _ (place_live _ _ _ _ _ E P L1)). lia.
        -- subst. pose proof (KN _ _ Q). apply OL in L2; [|assumption].
           pose proof (live_lt _ _ (place_live _ _ _ _ _ E Q L2)). lia.
        -- auto.
    + auto.
    + intros a b [P|[-> ->]] L; [auto|lia].
    + intros a b [P|[-> ->]] L; [specialize (KN a b P)|]; lia.
    + exact OL.
    + intros x Hx. unfold live_block. rewrite hblock_app_new. destruct (Nat.eqb_spec x (length h2)); [lia|auto].
    + intros x Hx _. rewrite hblock_app_new. destruct (Nat.eqb_spec x (length h2)); [lia|auto].
    + intros x Hx L. apply live_lt in L as W. rewrite LN in W. assert (x = length h2) by lia. subst x.
      exists (length h1). split; [auto|]. unfold live_block. rewrite hblock_app_new, Nat.eqb_refl. discriminate.
    + intros a b P L N. destruct N. unfold live_block. rewrite hblock_app_new.
      destruct (Nat.eqb_spec a (length h1)); [discriminate|exact L].
  - destruct H as (g2 & R0 & TK & _). rewrite TK in *. simpl in *. subst g1 g2.
    exists h2, R. split; [reflexivity|]. now apply later_refl.
Qed.

(** ** the loops *)
Lemma moved_sub R R' p q : sub R R' -> ptr_moved R p q -> ptr_moved R' p q.
Proof. intros S [A B]. split; auto. Qed.
Lemma nd_moved_sub R R' p q : sub R R' -> nd_moved R p q -> nd_moved R' p q.
Proof. intros S (A & B). split; [eapply moved_sub; eauto|auto]. Qed.
Lemma iter_moved_sub R R' p q : sub R R' -> iter_moved R p q -> iter_moved R' p q.
Proof. intros S (A & B & C). split; [auto|]. split; [eapply moved_sub; eauto|auto]. Qed.
Lemma cref_moved_sub R R' p q : sub R R' -> cref_moved R p q -> cref_moved R' p q.
Proof. intros S []. constructor; auto. eapply moved_sub; eauto. Qed.
Lemma view_moved_sub R R' p q : sub R R' -> view_moved R p q -> view_moved R' p q.
Proof. intros S []. constructor; auto. eapply moved_sub; eauto. Qed.
Lemma ma_moved_sub R R' p q : sub R R' -> ma_moved R p q -> ma_moved R' p q.
Proof. intros S []. constructor; auto. eapply cref_moved_sub; eauto. eapply moved_sub; eauto. Qed.
Lemma var_moved_sub R R' p q : sub R R' -> var_moved R p q -> var_moved R' p q.
Proof. intros S []; constructor. eapply ma_moved_sub; eauto. Qed.
Lemma handle_moved_sub R R' p q : sub R R' -> handle_moved R p q -> handle_moved R' p q.
Proof. intros S []; constructor. eapply view_moved_sub; eauto. eapply cref_moved_sub; eauto. Qed.
Lemma forall2_impl {A B} (P Q : A -> B -> Prop) l l' :
  (forall a b, P a b -> Q a b) -> Forall2 P l l' -> Forall2 Q l l'.
Proof. intros H. induction 1; constructor; auto. Qed.
Lemma env_moved_sub R R' p q : sub R R' -> env_moved R p q -> env_moved R' p q.
Proof.
  intros S [A B]. constructor.
  - apply (forall2_impl (var_moved R) _ _ _ (fun a b => var_moved_sub R R' a b S) A).
  - apply (forall2_impl (handle_moved R) _ _ _ (fun a b => handle_moved_sub R R' a b S) B).
Qed.
Lemma sub_refl R : sub R R.
Proof. intros x y. auto. Qed.
Lemma sub_trans R R' R'' : sub R R' -> sub R' R'' -> sub R R''.
Proof. intros A B x y H. auto. Qed.

Lemma sim_elem_assign R d s d' s' :
  ptr_moved R d d' -> ptr_moved R s s' -> sim R same (elem_assign d s) (elem_assign d' s').
Proof.
  intros D S. eapply sim_bind; [now apply sim_load|]. intros R1 a b S1 <-.
  eapply sim_bind; [apply sim_tick|]. intros R2 x y S2 _. apply sim_store.
  eapply moved_sub; [|exact D]. eapply sub_trans; eauto.
Qed.
Lemma sim_alloc_destroy_n R n : forall p q, ptr_moved R p q -> sim R same (alloc_destroy_n p n) (alloc_destroy_n q n).
Proof.
  revert R. induction n as [|n IH]; intros R p q M; cbn [alloc_destroy_n]; [now apply sim_ret|].
  eapply sim_bind; [now apply sim_destroy, padd_moved|]. intros R1 x y S _. apply IH. eapply moved_sub; eauto.
Qed.
Lemma sim_alloc_construct R d n : forall i p q, ptr_moved R p q ->
  sim R same (alloc_construct_loop d p i n) (alloc_construct_loop d q i n).
Proof.
  revert R. induction n as [|n IH]; intros R i p q M; cbn [alloc_construct_loop]; [now apply sim_ret|].
  eapply sim_bind.
  - apply sim_on_throw; [now apply sim_construct, padd_moved|]. intros R' S h1 h2 f E.
    pose proof (sim_alloc_destroy_n R' i p q (moved_sub _ _ _ _ S M) h1 h2 f E) as H.
    destruct (alloc_destroy_n p i (World h1 f)); auto. destruct H as (b & g & R2 & H & L & _). eauto 8.
  - intros R1 x y S _. apply IH. eapply moved_sub; eauto.
Qed.
Lemma sim_copy_n_elems R n : forall s d s' d', ptr_moved R s s' -> ptr_moved R d d' ->
  sim R same (copy_n_elems s n d) (copy_n_elems s' n d').
Proof.
  revert R. induction n as [|n IH]; intros R s d s' d' M N; cbn [copy_n_elems]; [now apply sim_ret|].
  eapply sim_bind; [now apply sim_elem_assign|]. intros R1 x y S _. apply IH; apply padd_moved; eapply moved_sub; eauto.
Qed.
Lemma sim_assign_loop R l : forall p q k n, ptr_moved R p q -> sim R same (assign_loop p l k n) (assign_loop q l k n).
Proof.
  revert R. induction l as [|v l IH]; intros R p q k n M; cbn [assign_loop]; [now apply sim_ret|].
  destruct (k <? n); [|now apply sim_ret].
  eapply sim_bind; [apply sim_tick|]. intros R1 x y S1 _.
  eapply sim_bind; [eapply sim_store, moved_sub; eauto|]. intros R2 x2 y2 S2 _.
  apply IH, padd_moved. eapply moved_sub; [|exact M]. eapply sub_trans; eauto.
Qed.

Definition it_pair R (f l f' l' : iter) : Prop :=
  iter_moved R f f' /\ iter_moved R l l' /\ it_base f = it_base l /\ it_base f' = it_base l'.
Lemma it_pair_sub R R' f l f' l' : sub R R' -> it_pair R f l f' l' -> it_pair R' f l f' l'.
Proof. intros S (A & B & C). split; [eapply iter_moved_sub; eauto|]. split; [eapply iter_moved_sub; eauto|auto]. Qed.
Lemma it_pair_equal R f l f' l' : it_pair R f l f' l' -> it_equal f l = it_equal f' l'.
Proof. intros (A & B & C & D). eapply it_equal_moved; eauto. Qed.
Lemma it_pair_inc R f l f' l' :
  it_pair R f l f' l' -> orel (fun x y => it_pair R x l y l') (it_inc f) (it_inc f').
Proof.
  intros (A & B & C & D). pose proof (it_inc_moved _ _ _ A) as H.
  destruct (it_inc f) as [x| |] eqn:E1, (it_inc f') as [y| |] eqn:E2; simpl in *; try contradiction; auto.
  apply it_inc_base in E1. apply it_inc_base in E2. split; [exact H|]. split; [exact B|]. split; congruence.
Qed.
Lemma it_pair_begin R a a' : nd_moved R a a' ->
  orel (fun x y => orel (fun u v => it_pair R x u y v) (nd_end a) (nd_end a')) (nd_begin a) (nd_begin a').
Proof.
  intros M. pose proof (nd_begin_moved _ _ _ M) as H. pose proof (nd_end_moved _ _ _ M) as K.
  destruct (nd_begin a) as [x| |] eqn:E1, (nd_begin a') as [y| |] eqn:E2; simpl in *; try contradiction; auto.
  destruct (nd_end a) as [u| |] eqn:E3, (nd_end a') as [v| |] eqn:E4; simpl in *; try contradiction; auto.
  apply nd_begin_base in E1, E2. apply nd_end_base in E3, E4. split; [auto|]. split; [auto|]. split; congruence.
Qed.
Lemma it_pair_fuel R f l f' l' : it_pair R f l f' l' -> loop_fuel f l = loop_fuel f' l'.
Proof. intros ((A & _) & (B & _) & _). unfold loop_fuel. now rewrite A, B. Qed.

Lemma sim_copy_loop body body' n : forall R f l f' l' r r',
  (forall R' x y x' y', sub R R' -> iter_moved R' x x' -> iter_moved R' y y' -> sim R' same (body x y) (body' x' y')) ->
  it_pair R f l f' l' -> iter_moved R r r' ->
  sim R same (copy_loop body n f l r) (copy_loop body' n f' l' r').
Proof.
  induction n as [|n IH]; intros R f l f' l' r r' BD P RR; cbn [copy_loop];
    rewrite (it_pair_equal _ _ _ _ _ P); destruct (it_equal f' l'); try (now apply sim_ret); [apply sim_fuel|].
  eapply sim_bind; [apply BD; [apply sub_refl|apply P|exact RR]|]. intros R1 x y S _.
  eapply sim_bind; [eapply sim_lift with (Q := fun R a b => it_pair R a l b l'), it_pair_inc, it_pair_sub; eauto|].
  intros R2 f2 f2' S2 P2.
  eapply sim_bind; [eapply sim_lift with (Q := iter_moved), it_inc_moved, iter_moved_sub; [|exact RR];
                    eapply sub_trans; eauto|].
  intros R3 r2 r2' S3 P3. apply IH; auto.
  - intros. apply BD; auto. repeat (eapply sub_trans; eauto).
  - eapply it_pair_sub; eauto.
Qed.
Lemma sim_each_loop body body' n : forall R f l f' l',
  (forall R' x x', sub R R' -> iter_moved R' x x' -> sim R' same (body x) (body' x')) ->
  it_pair R f l f' l' ->
  sim R same (each_loop body n f l) (each_loop body' n f' l').
Proof.
  induction n as [|n IH]; intros R f l f' l' BD P; cbn [each_loop];
    rewrite (it_pair_equal _ _ _ _ _ P); destruct (it_equal f' l'); try (now apply sim_ret); [apply sim_fuel|].
  eapply sim_bind; [apply BD; [apply sub_refl|apply P]|]. intros R1 x y S _.
  eapply sim_bind; [eapply sim_lift with (Q := fun R a b => it_pair R a l b l'), it_pair_inc, it_pair_sub; eauto|].
  intros R2 f2 f2' S2 P2. apply IH; auto.
  intros. apply BD; auto. repeat (eapply sub_trans; eauto).
Qed.

Lemma sim_begin_end {C D} R (Q : placement -> C -> D -> Prop) a a' k k' :
  nd_moved R a a' ->
  (forall f l f' l', it_pair R f l f' l' -> sim R Q (k f l) (k' f' l')) ->
  sim R Q (f <~ lift (nd_begin a) ;; l <~ lift (nd_end a) ;; k f l)
          (f <~ lift (nd_begin a') ;; l <~ lift (nd_end a') ;; k' f l).
Proof.
  intros M K. pose proof (it_pair_begin _ _ _ M) as H.
  destruct (nd_begin a) as [x| |], (nd_begin a') as [y| |]; simpl in H; try contradiction.
  - destruct (nd_end a) as [u| |], (nd_end a') as [v| |]; simpl in H; try contradiction.
    + intros h1 h2 f E. apply (K x u y v H h1 h2 f E).
    + intros h1 h2 f E. simpl. exists h2, R. auto using later_refl.
    + intros h1 h2 f E. exact I.
  - intros h1 h2 f E. simpl. exists h2, R. auto using later_refl.
  - intros h1 h2 f E. exact I.
Qed.

Lemma sim_copy_rows rec rec' chk k : forall R d s d' s',
  (forall R' a b a' b', sub R R' -> nd_moved R' a a' -> nd_moved R' b b' -> sim R' same (rec a b) (rec' a' b')) ->
  nd_moved R d d' -> nd_moved R s s' ->
  sim R same (copy_rows rec chk k d s) (copy_rows rec' chk k d' s').
Proof.
  intros R d s d' s' RC D S. unfold copy_rows. apply sim_begin_end; [exact S|]. intros f l f' l' P.
  eapply sim_bind; [apply sim_lift with (Q := iter_moved), nd_begin_moved, D|]. intros R1 r r' S1 RR.
  rewrite (it_pair_fuel _ _ _ _ _ P). apply sim_copy_loop; [|eapply it_pair_sub; eauto|exact RR].
  intros R2 x y x' y' S2 X Y. destruct k as [|k].
  - eapply sim_bind; [apply sim_lift with (Q := ptr_moved), it_deref_one_moved, X|]. intros R3 p p' S3 PP.
    eapply sim_bind; [eapply sim_lift with (Q := ptr_moved), it_deref_one_moved, iter_moved_sub, Y; auto|].
    intros R4 q q' S4 QQ. apply sim_elem_assign; [exact QQ|eapply moved_sub; eauto].
  - eapply sim_bind; [apply sim_lift with (Q := nd_moved), it_deref_n_moved, X|]. intros R3 p p' S3 PP.
    eapply sim_bind; [eapply sim_lift with (Q := nd_moved), it_deref_n_moved, iter_moved_sub, Y; auto|].
    intros R4 q q' S4 QQ. apply RC; [|exact QQ|eapply nd_moved_sub; eauto]. repeat (eapply sub_trans; eauto).
Qed.
Lemma sim_assign_nd chk n : forall R d s d' s', nd_moved R d d' -> nd_moved R s s' ->
  sim R same (assign_nd chk n d s) (assign_nd chk n d' s').
Proof.
  induction n as [|n IH]; intros R d s d' s' D S; [apply sim_undef|]. cbn [assign_nd].
  assert (E1 : nd_ext d = nd_ext d') by apply D. assert (E2 : nd_ext s = nd_ext s') by apply S. rewrite E1, E2.
  eapply sim_bind; [apply sim_lift with (Q := same), orel_eq|]. intros R1 x y S1 _.
  apply sim_copy_rows; try (eapply nd_moved_sub; eassumption). intros. now apply IH.
Qed.
Lemma sim_copy_dispatch chk n : forall R d s d' s', nd_moved R d d' -> nd_moved R s s' ->
  sim R same (copy_dispatch chk n d s) (copy_dispatch chk n d' s').
Proof.
  induction n as [|n IH]; intros R d s d' s' D S; [apply sim_undef|]. cbn [copy_dispatch].
  apply sim_copy_rows; auto.
Qed.
Lemma sim_std_copy chk n R d s d' s' : nd_moved R d d' -> nd_moved R s s' ->
  sim R same (std_copy_nd chk n d s) (std_copy_nd chk n d' s').
Proof.
  destruct n as [|n]; intros D S; [apply sim_undef|]. cbn [std_copy_nd].
  apply sim_copy_rows; auto. intros. now apply sim_assign_nd.
Qed.
Lemma sim_copy_array chk n R d s d' s' : nd_moved R d d' -> nd_moved R s s' ->
  sim R same (copy_array chk n d s) (copy_array chk n d' s').
Proof.
  intros D S. unfold copy_array.
  assert (E1 : nd_ext d = nd_ext d') by apply D. assert (E2 : nd_ext s = nd_ext s') by apply S. rewrite E1, E2.
  eapply sim_bind; [apply sim_lift with (Q := same), orel_eq|]. intros R1 x y S1 _.
  apply sim_copy_dispatch; eapply nd_moved_sub; eassumption.
Qed.
Lemma sim_for_each chk g n : forall R a a', nd_moved R a a' -> sim R same (for_each chk g n a) (for_each chk g n a').
Proof.
  induction n as [|n IH]; intros R a a' M; [apply sim_undef|]. cbn [for_each].
  apply sim_begin_end; [exact M|]. intros f l f' l' P. rewrite (it_pair_fuel _ _ _ _ _ P).
  apply sim_each_loop; [|exact P]. intros R1 x x' S1 X. destruct n as [|n].
  - eapply sim_bind; [apply sim_lift with (Q := ptr_moved), it_deref_one_moved, X|]. intros R2 p p' S2 PP.
    eapply sim_bind; [apply sim_load, PP|]. intros R3 v v' S3 <-.
    eapply sim_bind; [apply sim_tick|]. intros R4 u u' S4 _. apply sim_store.
    eapply moved_sub; [|exact PP]. eapply sub_trans; eauto.
  - eapply sim_bind; [apply sim_lift with (Q := nd_moved), it_deref_n_moved, X|]. intros R2 p p' S2 PP.
    apply IH, PP.
Qed.

(** ** comparison: reads only; the first heap must not run into UB *)
Definition oref {A} (x y : outcome A) : Prop := x = UB \/ x = y.
Lemma oref_bind {A B} (x y : outcome A) (f g : A -> outcome B) :
  oref x y -> (forall a, oref (f a) (g a)) -> oref (obind x f) (obind y g).
Proof. intros [-> | ->] H; [left; reflexivity|]. destruct y; simpl; [apply H|right; auto|right; auto]. Qed.
Lemma oref_bind_rel {A A' B} (Q : A -> A' -> Prop) (x : outcome A) (y : outcome A') (f : A -> outcome B) g :
  orel Q x y -> (forall a b, Q a b -> oref (f a) (g b)) -> oref (obind x f) (obind y g).
Proof. destruct x, y; simpl; intros H K; try contradiction; auto; right; auto. Qed.
Lemma oref_refl {A} (x : outcome A) : oref x x.
Proof. right; auto. Qed.
Lemma hread_oref R h1 h2 p q : embeds R h1 h2 -> ptr_moved R p q -> oref (hread h1 p) (hread h2 q).
Proof.
  intros E M. destruct (hread_cases h1 p) as [H|(v & H)]; [left; auto|right].
  now rewrite H, (hread_moved _ _ _ _ _ _ E M H).
Qed.
Lemma begin_end_oref {B} R a a' (k : iter -> iter -> outcome B) k' :
  nd_moved R a a' -> (forall f l f' l', it_pair R f l f' l' -> oref (k f l) (k' f' l')) ->
  oref (f <- nd_begin a ;; l <- nd_end a ;; k f l) (f <- nd_begin a' ;; l <- nd_end a' ;; k' f l).
Proof.
  intros M K. pose proof (it_pair_begin _ _ _ M) as H.
  destruct (nd_begin a) as [x| |], (nd_begin a') as [y| |]; simpl in H; try contradiction; try (right; reflexivity).
  destruct (nd_end a) as [u| |], (nd_end a') as [v| |]; simpl in H; try contradiction; try (right; reflexivity).
  apply K, H.
Qed.
Lemma equal_loop_oref R body body' n : forall f l f' l' r r',
  (forall x y x' y', iter_moved R x x' -> iter_moved R y y' -> oref (body x y) (body' x' y')) ->
  it_pair R f l f' l' -> iter_moved R r r' ->
  oref (equal_loop body n f l r) (equal_loop body' n f' l' r').
Proof.
  induction n as [|n IH]; intros f l f' l' r r' BD P RR; cbn [equal_loop];
    rewrite (it_pair_equal _ _ _ _ _ P); destruct (it_equal f' l'); try apply oref_refl.
  apply oref_bind; [apply BD; [apply P|exact RR]|]. intros [|]; [|apply oref_refl].
  eapply oref_bind_rel; [apply it_pair_inc, P|]. intros f2 f2' P2.
  eapply oref_bind_rel; [apply it_inc_moved, RR|]. intros r2 r2' R2. apply IH; auto.
Qed.
Lemma lex_loop_oref R less less' n : forall f l f' l' r t r' t',
  (forall x y x' y', iter_moved R x x' -> iter_moved R y y' -> oref (less x y) (less' x' y')) ->
  it_pair R f l f' l' -> it_pair R r t r' t' ->
  oref (lex_loop less n f l r t) (lex_loop less' n f' l' r' t').
Proof.
  induction n as [|n IH]; intros f l f' l' r t r' t' BD P RR; cbn [lex_loop];
    rewrite (it_pair_equal _ _ _ _ _ P), (it_pair_equal _ _ _ _ _ RR);
    destruct (it_equal f' l'), (it_equal r' t'); try apply oref_refl.
  apply oref_bind; [apply BD; [apply P|apply RR]|]. intros [|]; [apply oref_refl|].
  apply oref_bind; [apply BD; [apply RR|apply P]|]. intros [|]; [apply oref_refl|].
  eapply oref_bind_rel; [apply it_pair_inc, P|]. intros f2 f2' P2.
  eapply oref_bind_rel; [apply it_pair_inc, RR|]. intros r2 r2' R2. apply IH; auto.
Qed.
Lemma nd_eq_oref eqT chk R h1 h2 : embeds R h1 h2 -> forall n a b a' b',
  nd_moved R a a' -> nd_moved R b b' -> oref (nd_eq eqT chk h1 n a b) (nd_eq eqT chk h2 n a' b').
Proof.
  intros E n. induction n as [|n IH]; intros a b a' b' A B; cbn [nd_eq]; [apply oref_refl|].
  assert (E1 : nd_ext a = nd_ext a') by apply A. assert (E2 : nd_ext b = nd_ext b') by apply B. rewrite E1, E2.
  destruct (list_eqb _ _); [|apply oref_refl]. apply begin_end_oref with R; [exact A|].
  intros f l f' l' P. eapply oref_bind_rel; [apply nd_begin_moved, B|]. intros r r' RR.
  rewrite (it_pair_fuel _ _ _ _ _ P). apply equal_loop_oref with R; auto.
  intros x y x' y' X Y. destruct n as [|n].
  - eapply oref_bind_rel; [apply it_deref_one_moved, X|]. intros p p' PP.
    eapply oref_bind_rel; [apply it_deref_one_moved, Y|]. intros q q' QQ.
    apply oref_bind; [eapply hread_oref; eauto|]. intros u.
    apply oref_bind; [eapply hread_oref; eauto|]. intros v. apply oref_refl.
  - eapply oref_bind_rel; [apply it_deref_n_moved, X|]. intros p p' PP.
    eapply oref_bind_rel; [apply it_deref_n_moved, Y|]. intros q q' QQ. now apply IH.
Qed.
Lemma nd_lt_oref ltT chk R h1 h2 : embeds R h1 h2 -> forall n a b a' b',
  nd_moved R a a' -> nd_moved R b b' -> oref (nd_lt ltT chk h1 n a b) (nd_lt ltT chk h2 n a' b').
Proof.
  intros E n. induction n as [|n IH]; intros a b a' b' A B; cbn [nd_lt]; [apply oref_refl|].
  apply begin_end_oref with R; [exact A|]. intros f l f' l' P.
  apply begin_end_oref with R; [exact B|]. intros r t r' t' Q.
  rewrite (it_pair_fuel _ _ _ _ _ P). apply lex_loop_oref with R; auto.
  intros x y x' y' X Y. destruct n as [|n].
  - eapply oref_bind_rel; [apply it_deref_one_moved, X|]. intros p p' PP.
    eapply oref_bind_rel; [apply it_deref_one_moved, Y|]. intros q q' QQ.
    apply oref_bind; [eapply hread_oref; eauto|]. intros u.
    apply oref_bind; [eapply hread_oref; eauto|]. intros v. apply oref_refl.
  - eapply oref_bind_rel; [apply it_deref_n_moved, X|]. intros p p' PP.
    eapply oref_bind_rel; [apply it_deref_n_moved, Y|]. intros q q' QQ. now apply IH.
Qed.
Lemma compare_oref eqT ltT op chk R h1 h2 a b a' b' :
  embeds R h1 h2 -> nd_moved R a a' -> nd_moved R b b' ->
  oref (compare eqT ltT op chk h1 a b) (compare eqT ltT op chk h2 a' b').
Proof.
  intros E A B. unfold compare, nd_neq, nd_le, nd_ge, nd_gt.
  assert (E1 : nd_ext a = nd_ext a') by apply A. rewrite E1.
  destruct op; try (apply oref_bind; [|intros; apply oref_refl]);
    first [now apply nd_eq_oref with R | now apply nd_lt_oref with R].
Qed.

(** ** multi_array *)
Variable dflt : T.
Definition alike (c d : cref) : Prop :=
  cr_storage c = cr_storage d /\ cr_ext c = cr_ext d /\ cr_str c = cr_str d /\ cr_ib c = cr_ib d /\
  cr_origin_offset c = cr_origin_offset d /\ cr_directional_offset c = cr_directional_offset d /\ cr_num c = cr_num d.
Lemma alike_refl c : alike c c.
Proof. unfold alike. auto 10. Qed.
Lemma sim_allocate_space R c d aid : alike c d -> sim R ma_moved (allocate_space dflt c aid) (allocate_space dflt d aid).
Proof.
  intros (A1 & A2 & A3 & A4 & A5 & A6 & A7). unfold allocate_space. rewrite A7.
  eapply sim_bind; [apply sim_allocate|]. intros R1 p q S P.
  eapply sim_bind; [apply sim_alloc_construct, P|]. intros R2 x y S2 _. apply sim_ret.
  pose proof (moved_sub _ _ _ _ S2 P). constructor; simpl; auto. constructor; simpl; auto.
Qed.
Lemma sim_ma_destroy R a b : ma_moved R a b -> sim R same (ma_destroy a) (ma_destroy b).
Proof.
  intros [M1 M2 M3 M4]. unfold ma_destroy. rewrite M3, M4.
  eapply sim_bind; [apply sim_alloc_destroy_n, M2|]. intros R1 x y S _. apply sim_deallocate. eapply moved_sub; eauto.
Qed.
Lemma sim_same_lift {A C D} R (Q : placement -> C -> D -> Prop) (x : outcome A) k k' :
  (forall R' a, sub R R' -> sim R' Q (k a) (k' a)) -> sim R Q (bind (lift x) k) (bind (lift x) k').
Proof. intros H. eapply sim_bind; [apply sim_lift with (Q := same), orel_eq|]. intros R' a b S <-. now apply H. Qed.
Lemma sim_default R chk n aid : sim R ma_moved (ma_default dflt chk n aid) (ma_default dflt chk n aid).
Proof.
  unfold ma_default. apply sim_same_lift; intros. apply sim_same_lift; intros. apply sim_allocate_space, alike_refl.
Qed.
Lemma sim_from_list R chk n e so aid : sim R ma_moved (ma_from_list dflt chk n e so aid) (ma_from_list dflt chk n e so aid).
Proof. unfold ma_from_list. apply sim_same_lift; intros. apply sim_allocate_space, alike_refl. Qed.
Lemma sim_from_gen R chk g so aid : sim R ma_moved (ma_from_gen dflt chk g so aid) (ma_from_gen dflt chk g so aid).
Proof. unfold ma_from_gen. apply sim_same_lift; intros. apply sim_allocate_space, alike_refl. Qed.
Lemma sim_copy R a b : ma_moved R a b -> sim R ma_moved (ma_copy dflt a) (ma_copy dflt b).
Proof.
  intros M. pose proof M as [[] M2 M3 M4]. unfold ma_copy. rewrite M4.
  eapply sim_bind; [apply sim_allocate_space; unfold alike; auto 10|]. intros R1 x y S1 X.
  rewrite cm_num. eapply sim_bind; [eapply sim_copy_n_elems; [eapply moved_sub; eauto|apply X]|].
  intros R2 u v S2 _. apply sim_ret. eapply ma_moved_sub; eauto.
Qed.
Lemma sim_convert R chk a b so aid : nd_moved R a b ->
  sim R ma_moved (ma_convert dflt chk a so aid) (ma_convert dflt chk b so aid).
Proof.
  intros M. unfold ma_convert. pose proof M as (_ & E & _ & B). rewrite E, B.
  apply sim_same_lift; intros R1 c S1. eapply sim_bind; [apply sim_allocate_space, alike_refl|]. intros R2 x y S2 X.
  eapply sim_bind; [apply sim_std_copy; [apply cr_nd_moved, X|eapply nd_moved_sub; [|exact M]; eapply sub_trans; eauto]|].
  intros R3 u v S3 _. apply sim_ret. eapply ma_moved_sub; eauto.
Qed.
Lemma sim_ma_assign R chk sm a b a' b' : ma_moved R a a' -> ma_moved R b b' ->
  sim R same (ma_assign chk sm a b) (ma_assign chk sm a' b').
Proof.
  intros A B. unfold ma_assign, ma_assign_from. destruct sm; [now apply sim_ret|].
  rewrite (cm_ext _ _ _ (mm_ref _ _ _ A)). apply sim_assign_nd; apply cr_nd_moved; [apply A|apply B].
Qed.
Lemma sim_true {A B} R (Q : placement -> A -> B -> Prop) (m : M T A) m' :
  sim R Q m m' -> sim R (fun _ _ _ => True) m m'.
Proof.
  intros H h1 h2 f E. specialize (H h1 h2 f E). destruct (m (World h1 f)); auto.
  destruct H as (b & g & R' & H & L & _). eauto 8.
Qed.
Lemma sim_resize R chk a b g : ma_moved R a b -> sim R ma_moved (ma_resize dflt chk a g) (ma_resize dflt chk b g).
Proof.
  intros M. unfold ma_resize. pose proof M as [[] M2 M3 M4]. rewrite cm_ext, cm_storage, M4.
  destruct (Nat.eqb _ _); [|apply sim_undef].
  eapply sim_bind; [apply sim_from_gen|]. intros R1 x y S1 X. pose proof X as [[] X2 X3 X4].
  eapply sim_bind with (P := same).
  - apply sim_on_throw; [|intros R' S'; eapply sim_true, sim_ma_destroy, ma_moved_sub; eauto].
    rewrite cm_ext0, cm_ib0, cm_ib. apply sim_same_lift; intros R2 mins S2.
    apply sim_same_lift; intros R3 nr S3. apply sim_same_lift; intros R4 orr S4.
    eapply sim_bind; [eapply sim_lift with (Q := view_moved), make_view_moved, cr_nd_moved, cref_moved_sub, M;
                      repeat (eapply sub_trans; [eassumption|]); apply sub_refl|].
    intros R5 vo vo' S5 V5.
    eapply sim_bind; [eapply sim_lift with (Q := view_moved), make_view_moved, cr_nd_moved, cref_moved_sub, X;
                      repeat (eapply sub_trans; [eassumption|]); apply sub_refl|].
    intros R6 vn vn' S6 V6. apply sim_assign_nd; apply v_nd_moved; [exact V6|eapply view_moved_sub; eauto].
  - intros R2 u v S2 _. simpl. eapply sim_bind; [apply sim_ma_destroy|].
    + pose proof (sub_trans _ _ _ S1 S2) as S3. pose proof (ma_moved_sub _ _ _ _ S3 M) as [[] ? ? ?].
      constructor; simpl; auto. constructor; simpl; auto.
    + intros R3 z t S3 _. apply sim_ret. pose proof (sub_trans _ _ _ S2 S3) as S4.
      pose proof (ma_moved_sub _ _ _ _ S4 X) as [[] ? ? ?].
      constructor; simpl; auto. constructor; simpl; auto.
Qed.
Lemma sim_resize_list R chk a b l : ma_moved R a b -> sim R ma_moved (ma_resize_list dflt chk a l) (ma_resize_list dflt chk b l).
Proof.
  intros M. unfold ma_resize_list. rewrite (cm_ext _ _ _ (mm_ref _ _ _ M)).
  apply sim_same_lift; intros R1 es S1. apply sim_resize. eapply ma_moved_sub; eauto.
Qed.

(** ** commands *)
Variables (eqT ltT : T -> T -> bool).
Definition result_moved R (x y : env * @output T) : Prop := env_moved R (fst x) (fst y) /\ snd x = snd y.

Lemma forall2_app {A B} (Q : A -> B -> Prop) l l' a b : Forall2 Q l l' -> Q a b -> Forall2 Q (l ++ [a]) (l' ++ [b]).
Proof. intros H K. apply Forall2_app; auto. Qed.
Lemma forall2_set {A B} (Q : A -> B -> Prop) l l' a b n :
  Forall2 Q l l' -> Q a b -> Forall2 Q (set_nth n a l) (set_nth n b l').
Proof. intros H K. revert n. induction H; intros [|n]; simpl; constructor; auto. Qed.
Lemma declare_moved R en en' a b : env_moved R en en' -> ma_moved R a b -> env_moved R (declare en a) (declare en' b).
Proof. intros [] M. constructor; simpl; auto. apply forall2_app; auto. now constructor. Qed.
Lemma update_moved R en en' x a b : env_moved R en en' -> ma_moved R a b -> env_moved R (update en x a) (update en' x b).
Proof. intros [] M. constructor; simpl; auto. apply forall2_set; auto. now constructor. Qed.
Lemma name_moved R en en' a b : env_moved R en en' -> handle_moved R a b -> env_moved R (name en a) (name en' b).
Proof. intros [] M. constructor; simpl; auto. apply forall2_app; auto. Qed.
Lemma rename_moved R en en' x a b : env_moved R en en' -> handle_moved R a b -> env_moved R (rename en x a) (rename en' x b).
Proof. intros [] M. constructor; simpl; auto. apply forall2_set; auto. Qed.

Lemma sim_lift_bind {A B C D} R (P : placement -> A -> B -> Prop) (Q : placement -> C -> D -> Prop) x y k k' :
  orel (P R) x y -> (forall a b, P R a b -> sim R Q (k a) (k' b)) -> sim R Q (bind (lift x) k) (bind (lift y) k').
Proof.
  intros H K. destruct x, y; simpl in H; try contradiction.
  - apply K, H.
  - intros h1 h2 f E. simpl. exists h2, R. auto using later_refl.
  - intros h1 h2 f E. exact I.
Qed.

Lemma cr_shallow_moved R c d : cref_moved R c d -> cref_moved R (cr_shallow_copy c) (cr_shallow_copy d).
Proof. intros []; constructor; auto. Qed.

Lemma sim_exec R chk en en' c : env_moved R en en' ->
  sim R result_moved (exec dflt eqT ltT chk en c) (exec dflt eqT ltT chk en' c).
Proof.
  intros EN.
  assert (U : forall m m' : M T unit, sim R same m m' ->
    sim R result_moved (_ <~ m ;; ret (en, ONone)) (_ <~ m' ;; ret (en', ONone))).
  { intros m m' H. eapply sim_bind; [exact H|]. intros R' a b S' _. apply sim_ret.
    split; simpl; [eapply env_moved_sub; eauto|reflexivity]. }
  assert (V : forall m m' : M T T, sim R same m m' ->
    sim R result_moved (v <~ m ;; ret (en, OVal v)) (v <~ m' ;; ret (en', OVal v))).
  { intros m m' H. eapply sim_bind; [exact H|]. intros R' a b S' <-. apply sim_ret.
    split; simpl; [eapply env_moved_sub; eauto|reflexivity]. }
  assert (D : forall m m', sim R ma_moved m m' ->
    sim R result_moved (a <~ m ;; ret (declare en a, ONone)) (a <~ m' ;; ret (declare en' a, ONone))).
  { intros m m' H. eapply sim_bind; [exact H|]. intros R' a b S' X. apply sim_ret.
    split; simpl; [apply declare_moved; auto; eapply env_moved_sub; eauto|reflexivity]. }
  assert (UP : forall x m m', sim R ma_moved m m' ->
    sim R result_moved (a <~ m ;; ret (update en x a, ONone)) (a <~ m' ;; ret (update en' x a, ONone))).
  { intros x m m' H. eapply sim_bind; [exact H|]. intros R' a b S' X. apply sim_ret.
    split; simpl; [apply update_moved; auto; eapply env_moved_sub; eauto|reflexivity]. }
  destruct c; cbn [exec].
  - apply D, sim_default.
  - apply D, sim_from_list.
  - apply sim_lift_bind with (P := same); [apply orel_eq|]. intros g g' <-. apply D, sim_from_gen.
  - apply sim_lift_bind with (P := ma_moved); [now apply var_moved_ok|]. intros a b A. apply D, sim_copy, A.
  - apply sim_lift_bind with (P := nd_moved); [now apply eval_nd_moved|]. intros a b A. apply D, sim_convert, A.
  - apply sim_lift_bind with (P := nd_moved); [now apply eval_nd_moved|]. intros a b A.
    apply sim_lift_bind with (P := same); [apply orel_eq|]. intros g g' <-.
    apply sim_lift_bind with (P := view_moved); [apply make_view_moved, A|]. intros v v' W. apply sim_ret.
    split; simpl; [|reflexivity]. apply name_moved; [exact EN|now constructor].
  - apply sim_lift_bind with (P := ma_moved); [now apply var_moved_ok|]. intros a b A.
    apply sim_lift_bind with (P := cref_moved); [apply init_moved, padd_moved, A|]. intros v v' W. apply sim_ret.
    split; simpl; [|reflexivity]. apply name_moved; [exact EN|now constructor].
  - apply sim_lift_bind with (P := ma_moved); [now apply var_moved_ok|]. intros a b A.
    apply sim_lift_bind with (P := same); [apply orel_eq|]. intros g g' <-.
    apply sim_lift_bind with (P := cref_moved).
    { unfold cref_from_gen, init_from_extent_gen. apply orel_same; intros sizes. apply init_moved, padd_moved, A. }
    intros v v' W. apply sim_ret. split; simpl; [|reflexivity]. apply name_moved; [exact EN|now constructor].
  - apply sim_lift_bind with (P := ma_moved); [now apply var_moved_ok|]. intros a b A. apply sim_ret.
    split; simpl; [|reflexivity]. apply name_moved; [exact EN|]. constructor. apply cr_shallow_moved, A.
  - apply sim_lift_bind with (P := handle_moved); [now apply named_moved_ok|]. intros d d' [v v' W|v v' W]; apply sim_ret;
      (split; simpl; [|reflexivity]; apply name_moved; [exact EN|]; constructor; destruct W; constructor; auto).
  - apply sim_lift_bind with (P := ma_moved); [now apply var_moved_ok|]. intros a b A.
    eapply sim_bind; [apply sim_ma_destroy, A|]. intros R' u v S' _. apply sim_ret.
    apply (env_moved_sub _ _ _ _ S') in EN as [E1 E2].
    split; [|reflexivity]. constructor; simpl; [|exact E2]. apply forall2_set; [exact E1|constructor].
  - apply sim_lift_bind with (P := nd_moved); [now apply eval_nd_moved|]. intros s s' A.
    apply sim_lift_bind with (P := nd_moved); [now apply eval_nd_moved|]. intros d d' B.
    assert (E : nd_ext d = nd_ext d') by apply B. rewrite E. apply U. now apply sim_assign_nd.
  - apply sim_lift_bind with (P := ma_moved); [now apply var_moved_ok|]. intros a a' A.
    apply sim_lift_bind with (P := ma_moved); [now apply var_moved_ok|]. intros b b' B.
    apply U. now apply sim_ma_assign.
  - apply sim_lift_bind with (P := nd_moved); [now apply eval_nd_moved|]. intros s s' A.
    apply sim_lift_bind with (P := nd_moved); [now apply eval_nd_moved|]. intros d d' B.
    assert (E : nd_ext d = nd_ext d') by apply B. rewrite E. apply U. now apply sim_copy_array.
  - apply sim_lift_bind with (P := nd_moved); [now apply eval_nd_moved|]. intros s s' A. apply V.
    apply sim_lift_bind with (P := ptr_moved); [now apply access_element_moved|]. intros p p' P. now apply sim_load.
  - apply sim_lift_bind with (P := nd_moved); [now apply eval_nd_moved|]. intros s s' A. apply U.
    apply sim_lift_bind with (P := ptr_moved); [now apply access_element_moved|]. intros p p' P.
    eapply sim_bind; [apply sim_tick|]. intros R' x y S' _. apply sim_store. eapply moved_sub; eauto.
  - apply sim_lift_bind with (P := nd_moved); [now apply eval_nd_moved|]. intros s s' A. apply V.
    apply sim_lift_bind with (P := ptr_moved); [now apply bracket_moved|]. intros p p' P. now apply sim_load.
  - apply sim_lift_bind with (P := nd_moved); [now apply eval_nd_moved|]. intros s s' A. apply U.
    apply sim_lift_bind with (P := ptr_moved); [now apply bracket_moved|]. intros p p' P.
    eapply sim_bind; [apply sim_tick|]. intros R' x y S' _. apply sim_store. eapply moved_sub; eauto.
  - apply sim_lift_bind with (P := ma_moved); [now apply var_moved_ok|]. intros a a' A. apply U.
    unfold cr_assign. rewrite (cm_num _ _ _ (mm_ref _ _ _ A)). apply sim_assign_loop, A.
  - apply sim_lift_bind with (P := handle_moved); [now apply named_moved_ok|]. intros d d' [v v' W|v v' W].
    + apply sim_undef.
    + apply U. unfold cr_assign. rewrite (cm_num _ _ _ W). apply sim_assign_loop, W.
  - apply sim_lift_bind with (P := nd_moved); [now apply eval_nd_moved|]. intros d d' B.
    assert (E : nd_ext d = nd_ext d') by apply B. rewrite E. apply U. now apply sim_for_each.
  - apply sim_lift_bind with (P := ma_moved); [now apply var_moved_ok|]. intros a a' A. apply UP.
    apply sim_lift. eapply orel_bind; [apply cr_reindex_moved, A|]. intros; now apply with_ref_moved.
  - apply sim_lift_bind with (P := ma_moved); [now apply var_moved_ok|]. intros a a' A. apply UP.
    apply sim_lift. eapply orel_bind; [apply cr_reindex1_moved, A|]. intros; now apply with_ref_moved.
  - apply sim_lift_bind with (P := ma_moved); [now apply var_moved_ok|]. intros a a' A. apply UP.
    apply sim_lift. eapply orel_bind; [apply cr_reshape_moved, A|]. intros; now apply with_ref_moved.
  - apply sim_lift_bind with (P := handle_moved); [now apply named_moved_ok|]. intros d d' [v v' W|v v' W].
    + apply sim_lift_bind with (P := view_moved); [now apply v_reindex_moved|]. intros x y X. apply sim_ret.
      split; simpl; [|reflexivity]. apply rename_moved; [exact EN|now constructor].
    + apply sim_lift_bind with (P := cref_moved); [now apply cr_reindex_moved|]. intros x y X. apply sim_ret.
      split; simpl; [|reflexivity]. apply rename_moved; [exact EN|now constructor].
  - apply sim_lift_bind with (P := handle_moved); [now apply named_moved_ok|]. intros d d' [v v' W|v v' W].
    + apply sim_lift_bind with (P := view_moved); [now apply v_reindex1_moved|]. intros x y X. apply sim_ret.
      split; simpl; [|reflexivity]. apply rename_moved; [exact EN|now constructor].
    + apply sim_lift_bind with (P := cref_moved); [now apply cr_reindex1_moved|]. intros x y X. apply sim_ret.
      split; simpl; [|reflexivity]. apply rename_moved; [exact EN|now constructor].
  - apply sim_lift_bind with (P := handle_moved); [now apply named_moved_ok|]. intros d d' [v v' W|v v' W].
    + apply sim_undef.
    + apply sim_lift_bind with (P := cref_moved); [now apply cr_reshape_moved|]. intros x y X. apply sim_ret.
      split; simpl; [|reflexivity]. apply rename_moved; [exact EN|now constructor].
  - apply sim_lift_bind with (P := ma_moved); [now apply var_moved_ok|]. intros a a' A.
    apply sim_lift_bind with (P := same); [apply orel_eq|]. intros g g' <-. apply UP. now apply sim_resize.
  - apply sim_lift_bind with (P := ma_moved); [now apply var_moved_ok|]. intros a a' A. apply UP. now apply sim_resize_list.
  - apply sim_lift_bind with (P := nd_moved); [now apply eval_nd_moved|]. intros s s' A.
    apply sim_lift_bind with (P := nd_moved); [now apply eval_nd_moved|]. intros d d' B.
    intros h1 h2 f E; simpl. unfold bind, lift.
    destruct (compare_oref eqT ltT op chk R h1 h2 s d s' d' E A B) as [-> | ->]; [exact I|].
    destruct (compare _ _ _ _ h2 s' d'); simpl; auto.
    + exists (en', OBool a0), h2, R. split; [reflexivity|]. split; [now apply later_refl|split; auto].
    + exists h2, R. split; [reflexivity|now apply later_refl].
  - apply sim_lift_bind with (P := obj_moved); [now apply eval_moved|]. intros s s' A. rewrite (answer_moved _ q _ _ A).
    apply sim_lift_bind with (P := same); [apply orel_eq|]. intros r r' <-. apply sim_ret. split; auto.
Qed.
End Moved.
