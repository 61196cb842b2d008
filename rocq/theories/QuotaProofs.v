(** QuotaProofs.v -- how commands change the blocks that allocators have handed
    out: every command adds at most one block, of the size and from the allocator
    that the specification says *)

From Coq Require Import ZArith List Bool Lia Permutation.
From Verif Require Import Base StorageOrder Ranges Layout Access Objects Memory Ops MultiArray History Quota.
From Verif Require Import Spec ReachSpec MemSpec OwnSpec HistorySpec CostSpec QuotaSpec.
From Verif Require Import Facts LayoutProofs AccessProofs ReachProofs MemoryProofs OwnProofs ThmAddressing ThmMultiArray HistoryProofs HeapProofs ThmHistory CostProofs ThmCosts ThmExact.
Import ListNotations.
Local Open Scope Z_scope.

Section Sizes.
Context {T : Type}.
Variable who : nat.
Variable sz : Z.

(** every block of h' is a block of h, of the same allocator and size, or a new one
    of sz elements from who *)
Definition sized (h h' : heap T) : Prop :=
  (length h <= length h')%nat /\
  forall b k', nth_error h' b = Some (Some k') ->
    (exists k, nth_error h b = Some (Some k) /\ b_alloc k' = b_alloc k /\ length (b_cells k') = length (b_cells k)) \/
    ((length h <= b)%nat /\ b_alloc k' = who /\ Z.of_nat (length (b_cells k')) = sz).

Definition sizing {A} (m : M T A) : Prop :=
  forall w, match m w with
            | Done _ w' | Thrown w' | Aborted w' => sized (w_heap w) (w_heap w')
            | _ => True
            end.

Lemma sized_refl h : sized h h. Proof. split; [auto|]. intros b k H. left. eauto. Qed.
Lemma sized_trans h1 h2 h3 : sized h1 h2 -> sized h2 h3 -> sized h1 h3.
Proof.
  intros [L1 H1] [L2 H2]. split; [lia|]. intros b k3 H. destruct (H2 b k3 H) as [(k2 & E2 & A2 & B2)|(LB & A2 & B2)].
  - destruct (H1 b k2 E2) as [(k1 & E1 & A1 & B1)|(LB & A1 & B1)].
    + left. exists k1. split; [auto|]. split; congruence.
    + right. split; [auto|]. split; congruence.
  - right. split; [lia|auto].
Qed.
Lemma sized_set h b k (x : option (@block T)) : nth_error h b = Some (Some k) ->
  x = None \/ (exists k', x = Some k' /\ b_alloc k' = b_alloc k /\ length (b_cells k') = length (b_cells k)) -> sized h (set_nth b x h).
Proof.
  intros Hb Hx. assert (Lb : (b < length h)%nat) by (apply nth_error_Some; congruence).
  split; [rewrite length_set_nth; auto|]. intros b' k' H. left. destruct (Nat.eq_dec b b') as [<-|N].
  - rewrite nth_error_set_nth_eq in H by auto. injection H as ->. destruct Hx as [|(k2 & [= <-] & HX)]; [discriminate|]. eauto.
  - rewrite nth_error_set_nth_ne in H by auto. eauto.
Qed.

Lemma z_ret {A} (a : A) : sizing (ret a).
Proof. intros w. apply sized_refl. Qed.
Lemma z_bind {A B} (m : M T A) (f : A -> M T B) : sizing m -> (forall a, sizing (f a)) -> sizing (bind m f).
Proof.
  intros Hm Hf w. unfold bind. specialize (Hm w). destruct (m w) as [a w'|w'|w'| |]; auto.
  specialize (Hf a w'). destruct (f a w'); auto; eapply sized_trans; eauto.
Qed.
Lemma z_lift {A} (o : outcome A) : sizing (lift (T := T) o).
Proof. intros w. unfold lift. destruct o; auto; apply sized_refl. Qed.
Lemma z_undef {A} : sizing (fun _ => @Undef T A). Proof. intros w. exact I. Qed.
Lemma z_fuel {A} : sizing (fun _ => @OutOfFuel T A). Proof. intros w. exact I. Qed.
Lemma z_on_throw {A} (m : M T A) h : sizing m -> sizing h -> sizing (on_throw m h).
Proof.
  intros Hm Hh w. unfold on_throw. specialize (Hm w). destruct (m w) as [a w'|w'|w'| |]; auto.
  specialize (Hh w'). destruct (h w'); auto; eapply sized_trans; eauto.
Qed.
Lemma z_tick : sizing (@tick T).
Proof. intros w. unfold tick. destruct (w_fuse w) as [[|k]|]; apply sized_refl. Qed.
Lemma z_load p : sizing (@load T p).
Proof. intros w. unfold load. apply z_lift. Qed.
Lemma hset_sized (h h' : heap T) p c : hset h p c = Some h' -> sized h h'.
Proof.
  unfold hset. destruct (hcell h p); [|discriminate]. unfold hblock.
  destruct (nth_error h (p_blk p)) as [[k|]|] eqn:E; [|discriminate..]. intros [= <-]. eapply sized_set; eauto.
  right. eexists. split; [reflexivity|]. cbn [b_alloc b_cells]. rewrite length_set_nth. auto.
Qed.
Lemma z_store p v : sizing (@store T p v).
Proof.
  intros w. unfold store, hwrite. destruct (hcell (w_heap w) p) as [[c|]|]; [|exact I..].
  destruct (hset (w_heap w) p (Some v)) eqn:E; [|exact I]. apply hset_sized in E. exact E.
Qed.
Lemma z_allocate : sizing (@allocate T who sz).
Proof.
  intros w. unfold allocate. pose proof (z_tick w) as H. destruct (tick w) as [u w1|w1|w1| |]; auto.
  destruct ((0 <=? sz) && (sz <=? idx_max)) eqn:E; auto. cbn [w_heap]. eapply sized_trans; [exact H|].
  apply andb_prop in E. destruct E as [E _]. apply Z.leb_le in E.
  split; [rewrite app_length; lia|]. intros b k Hb. destruct (Nat.lt_ge_cases b (length (w_heap w1))) as [L|L].
  - rewrite nth_error_app1 in Hb by auto. left. eauto.
  - right. split; [auto|]. rewrite nth_error_app2 in Hb by auto. destruct (b - length (w_heap w1))%nat as [|q]; [|destruct q; discriminate Hb].
    injection Hb as <-. cbn [b_alloc b_cells]. rewrite repeat_length. split; [auto|lia].
Qed.
Lemma z_deallocate aid0 p n0 : sizing (@deallocate T aid0 p n0).
Proof.
  intros w. unfold deallocate, hblock. destruct (nth_error (w_heap w) (p_blk p)) as [[k|]|] eqn:E; [|exact I..].
  destruct (_ && _); [|exact I]. cbn [w_heap]. eapply sized_set; eauto.
Qed.
Lemma z_construct d p : sizing (@construct T d p).
Proof.
  apply z_bind; [apply z_tick|]. intros _ w. destruct (hcell (w_heap w) p) as [[c|]|]; [exact I| |exact I].
  destruct (hset (w_heap w) p (Some d)) eqn:E; [|exact I]. apply hset_sized in E. exact E.
Qed.
Lemma z_destroy p : sizing (@destroy T p).
Proof.
  intros w. unfold destroy. destruct (hcell (w_heap w) p) as [[c|]|]; [|exact I..].
  destruct (hset (w_heap w) p None) eqn:E; [|exact I]. apply hset_sized in E. exact E.
Qed.

#[local] Hint Resolve z_ret z_lift z_undef z_fuel z_tick z_load z_store z_deallocate z_construct z_destroy : siz.
Ltac siz := repeat (first [ solve [auto with siz]
  | match goal with |- sizing (bind _ _) => apply z_bind; [|intros] | |- sizing (on_throw _ _) => apply z_on_throw end ]).

Lemma z_destroy_n p : forall n, sizing (@alloc_destroy_n T p n).
Proof. induction n; cbn [alloc_destroy_n]; siz. Qed.
Lemma z_construct_loop d p : forall n i, sizing (@alloc_construct_loop T d p i n).
Proof. induction n; intros i; cbn [alloc_construct_loop]; siz. apply z_destroy_n. Qed.
#[local] Hint Resolve z_destroy_n z_construct_loop : siz.
Lemma z_elem_assign q p : sizing (@elem_assign T q p).
Proof. unfold elem_assign. siz. Qed.
#[local] Hint Resolve z_elem_assign : siz.
Lemma z_copy_loop body : (forall f r, sizing (body f r)) -> forall n f l r, sizing (@copy_loop T body n f l r).
Proof. intros HB. induction n; intros f l r; cbn [copy_loop]; destruct (it_equal f l); siz. Qed.
Lemma z_copy_rows rec chk k d s : (forall d s, sizing (rec d s)) -> sizing (@copy_rows T rec chk k d s).
Proof. intros HR. unfold copy_rows. siz. apply z_copy_loop. intros f r. destruct k; siz. Qed.
Lemma z_assign_nd chk : forall n d s, sizing (@assign_nd T chk n d s).
Proof. induction n; intros d s; cbn [assign_nd]; siz. apply z_copy_rows. auto. Qed.
#[local] Hint Resolve z_assign_nd : siz.
Lemma z_std_copy chk n d s : sizing (@std_copy_nd T chk n d s).
Proof. destruct n; cbn [std_copy_nd]; siz. apply z_copy_rows. auto with siz. Qed.
Lemma z_copy_dispatch chk : forall n d s, sizing (@copy_dispatch T chk n d s).
Proof. induction n; intros d s; cbn [copy_dispatch]; siz. apply z_copy_rows. auto. Qed.
Lemma z_copy_array chk n d s : sizing (@copy_array T chk n d s).
Proof. unfold copy_array. siz. apply z_copy_dispatch. Qed.
Lemma z_each_loop body : (forall i, sizing (body i)) -> forall n f l, sizing (@each_loop T body n f l).
Proof. intros HB. induction n; intros f l; cbn [each_loop]; destruct (it_equal f l); siz. Qed.
Lemma z_for_each chk x : forall n a, sizing (@for_each T chk x n a).
Proof. induction n; intros a; cbn [for_each]; siz. apply z_each_loop. intros i. destruct n; siz. Qed.
Lemma z_assign_loop num : forall l p k, sizing (@assign_loop T p l k num).
Proof. induction l; intros p k; cbn [assign_loop]; [siz|]. destruct (k <? num); siz. Qed.
Lemma z_cr_assign c l : sizing (@cr_assign T c l).
Proof. apply z_assign_loop. Qed.
Lemma z_get chk a i : sizing (@get_element T chk a i). Proof. unfold get_element. siz. Qed.
Lemma z_set chk a i v : sizing (@set_element T chk a i v). Proof. unfold set_element. siz. Qed.
Lemma z_getb chk a i : sizing (@get_bracket T chk a i). Proof. unfold get_bracket. siz. Qed.
Lemma z_setb chk a i v : sizing (@set_bracket T chk a i v). Proof. unfold set_bracket. siz. Qed.
#[local] Hint Resolve z_std_copy z_copy_array z_for_each z_cr_assign z_get z_set z_getb z_setb : siz.

Lemma z_ma_destroy a : sizing (@ma_destroy T a). Proof. unfold ma_destroy. siz. Qed.
Lemma z_copy_n : forall m p q, sizing (@copy_n_elems T p m q).
Proof. induction m; intros p q; cbn [copy_n_elems]; siz. Qed.
Lemma z_ma_assign chk same a b : sizing (@ma_assign T chk same a b).
Proof. unfold ma_assign, ma_assign_from. destruct same; siz. Qed.
#[local] Hint Resolve z_ma_destroy z_copy_n z_ma_assign : siz.

Lemma z_space d c : cr_num c = sz -> sizing (@allocate_space T d c who).
Proof. intros E. unfold allocate_space. rewrite E. apply z_bind; [apply z_allocate|intros]. unfold alloc_construct_n. siz. Qed.

(** a command that does not construct or resize *)
Lemma z_exec dflt eqT ltT chk en c :
  match c with
  | NewDefault _ _ | NewList _ _ _ | NewRanges _ _ _ | NewCopy _ | NewFrom _ _ _ | Resize _ _ | ResizeList _ _ => True
  | _ => sizing (@exec T dflt eqT ltT chk en c)
  end.
Proof.
  destruct c; auto; cbn [exec]; siz; try (match goal with |- context [match ?d with HView _ => _ | HRef _ => _ end] => destruct d end; siz).
  intros w. apply z_bind; intros; siz.
Qed.
End Sizes.

Section Asks.
Context {T : Type}.
Variable dflt : T.
Variable eqT : T -> T -> bool.
Variable ltT : T -> T -> bool.
Variable cap : nat -> Z.

(** when there is room the allocator is as before, else nothing happens *)
Definition guarded {A} (aid : nat) (n : Z) (m q : M T A) : Prop :=
  forall w, q w = if used aid (w_heap w) + n <=? cap aid then m w else Thrown w.

Lemma guarded_bind {A B} aid n (m q : M T A) (f : A -> M T B) : guarded aid n m q -> guarded aid n (bind m f) (bind q f).
Proof. intros H w. unfold bind. rewrite H. destruct (_ <=? _); reflexivity. Qed.
Lemma guarded_lift {A B} aid n (o : outcome A) a (f g : A -> M T B) : o = Ok a -> guarded aid n (f a) (g a) ->
  guarded aid n (bind (lift o) f) (bind (lift o) g).
Proof. intros -> H w. unfold lift, bind. apply H. Qed.
Lemma guarded_space aid c n : cr_num c = n -> guarded aid n (allocate_space dflt c aid) (q_allocate_space cap dflt c aid).
Proof. intros <-. unfold allocate_space, q_allocate_space. apply guarded_bind. intros w. reflexivity. Qed.
Lemma guarded_ext {A} aid n (m m' q q' : M T A) : guarded aid n m q -> (forall w, m' w = m w) -> (forall w, q' w = q w) -> guarded aid n m' q'.
Proof. intros H E1 E2 w. rewrite E1, E2. apply H. Qed.

Lemma sizes_lift {A B} aid n (o : outcome A) a (f : A -> M T B) : o = Ok a -> sizing aid n (f a) -> sizing aid n (bind (lift o) f).
Proof. intros -> H w. unfold lift, bind. apply H. Qed.
Lemma sizes_then {A B} aid n (m : M T A) (f : A -> B) : sizing aid n m -> sizing aid n (a <~ m ;; ret (f a)).
Proof. intros H. apply z_bind; [auto|]. intros. apply z_ret. Qed.

Lemma asks_resize chk a vs g bases shape (h : heap T) : owns h a vs -> length shape = length (cr_ext (ma_ref a)) ->
  order_ok (length shape) (cr_storage (ma_ref a)) -> layout_ok (cr_storage (ma_ref a)) bases shape -> eg_num g = length shape -> ranges_are (eg_ranges g) bases shape ->
  guarded (ma_aid a) (prod shape) (ma_resize dflt chk a g) (q_ma_resize cap dflt chk a g) /\
  sizing (ma_aid a) (prod shape) (ma_resize dflt chk a g).
Proof.
  intros Ho Ls HO HL Hn Hg. unfold ma_resize, q_ma_resize. cbv zeta. rewrite Hn, Ls, Nat.eqb_refl.
  destruct (from_gen_ok chk null_ptr bases shape g (cr_storage (ma_ref a)) HO HL Hn Hg) as (c & Ec & Hok & _ & H1 & H2 & H3).
  assert (EN : cr_num c = prod shape) by (destruct Hok as (_ & _ & _ & _ & ->); congruence).
  unfold ma_from_gen, q_ma_from_gen. split.
  - apply guarded_bind. apply (guarded_lift _ _ _ _ _ _ Ec). apply guarded_space; auto.
  - apply z_bind; [apply (sizes_lift _ _ _ _ _ Ec); apply z_space; auto|]. intros new.
    apply z_bind; [apply z_on_throw; [|apply z_ma_destroy]|].
    + repeat (apply z_bind; [apply z_lift|intros]). apply z_assign_nd.
    + intros _. unfold swap_internals. cbv beta iota zeta. apply z_bind; [apply z_ma_destroy|]. intros. apply z_ret.
Qed.

Lemma asks_exec st en (h : heap T) c o st' chk aid n : related st en h -> step dflt eqT ltT st c o st' -> asks_for st c aid n ->
  guarded aid n (exec dflt eqT ltT chk en c) (q_exec cap dflt eqT ltT chk en c) /\
  sizing aid n (exec dflt eqT ltT chk en c).
Proof.
  intros HR HS HA. destruct HA as [nn aid|shape so aid|rs so aid|y a Ha|e so aid p Hp|x rs a Ha|x shape a Ha]; cbn [exec q_exec].
  - inversion HS as [n0 aid0 Hn| | | | | | | | | | | | | | | | | | | | | | | | | | | | | | | |]; subst.
    destruct (c02_conversions_agree nn) as [EC _]. destruct (c02_named_orders_valid nn) as [HV _].
    destruct (default_ok chk nn null_ptr (so_from_c nn) Hn HV) as (c & Ec & Hok & _ & H1 & H2 & H3).
    assert (EN : cr_num c = 0). { destruct Hok as (_ & _ & _ & _ & ->). rewrite H2. destruct nn; [lia|]. reflexivity. }
    unfold ma_default, q_ma_default. split.
    + apply guarded_bind. apply (guarded_lift _ _ _ _ _ _ EC). apply (guarded_lift _ _ _ _ _ _ Ec). apply guarded_space; auto.
    + apply sizes_then. apply (sizes_lift _ _ _ _ _ EC). apply (sizes_lift _ _ _ _ _ Ec). apply z_space; auto.
  - inversion HS as [|s0 so0 aid0 HW| | | | | | | | | | | | | | | | | | | | | | | | | | | | | | |]; subst.
    destruct HW as (Ho & Hl & _). cbn [blank a_shape a_bases a_order] in Ho, Hl.
    destruct (from_list_ok chk null_ptr shape so Ho Hl) as (c & Ec & Hok & _ & H1 & H2 & H3).
    assert (EN : cr_num c = prod shape). { destruct Hok as (_ & _ & _ & _ & ->). congruence. }
    unfold ma_from_list, q_ma_from_list. split.
    + apply guarded_bind. apply (guarded_lift _ _ _ _ _ _ Ec). apply guarded_space; auto.
    + apply sizes_then. apply (sizes_lift _ _ _ _ _ Ec). apply z_space; auto.
  - inversion HS as [| |s0 so0 aid0 HW| | | | | | | | | | | | | | | | | | | | | | | | | | | | | |]; subst.
    destruct HW as (Ho & Hl & _). cbn [blank a_shape a_bases a_order] in Ho, Hl.
    destruct (extents_of_ok rs) as (g & Eg & Hn & Hg).
    { intros ->. apply layout_ne in Hl. apply Hl. reflexivity. }
    destruct (from_gen_ok chk null_ptr _ _ g so Ho Hl Hn Hg) as (c & Ec & Hok & _ & H1 & H2 & H3).
    assert (EN : cr_num c = prod (ranges_shape rs)). { destruct Hok as (_ & _ & _ & _ & ->). congruence. }
    unfold ma_from_gen, q_ma_from_gen. split.
    + apply (guarded_lift _ _ _ _ _ _ Eg). apply guarded_bind. apply (guarded_lift _ _ _ _ _ _ Ec). apply guarded_space; auto.
    + apply (sizes_lift _ _ _ _ _ Eg). apply sizes_then. apply (sizes_lift _ _ _ _ _ Ec). apply z_space; auto.
  - destruct (relA_var _ _ _ _ _ (proj1 HR) Ha) as (m & Em & Hr). pose proof Hr as (Ho & E1 & E2 & E3 & E4).
    assert (EN : cr_num (ma_ref m) = prod (a_shape a)). { destruct (array_object_ok _ (proj1 Ho)) as (_ & _ & _ & _ & ->). congruence. }
    unfold ma_copy, q_ma_copy. rewrite <- E4. split.
    + apply (guarded_lift _ _ _ _ _ _ (var_eval _ _ _ Em)). apply guarded_bind, guarded_bind. apply guarded_space; auto.
    + apply (sizes_lift _ _ _ _ _ (var_eval _ _ _ Em)). apply sizes_then. apply z_bind; [apply z_space; auto|]. intros.
      apply z_bind; [apply z_copy_n|]. intros. apply z_ret.
  - inversion HS as [| | | |e0 so0 aid0 p0 a Hp0 E1 E2 E3 E4 HW HCC| | | | | | | | | | | | | | | | | | | | | | | | | | | |]; subst.
    pose proof (denotes_place st en h _ _ _ HR Hp Hp0) as (EB & ES & _).
    destruct (denotes_nd st en h chk e p HR Hp) as (d & Ed & Hd). destruct (count_stands _ _ _ Hd) as (Hok & _ & EE).
    assert (EBB : nd_base d = pl_bases p) by (destruct Hd as (? & ? & _ & _ & _ & _ & EX & _); auto).
    destruct HW as (Ho & Hl & _). rewrite E1, E2 in *.
    destruct (from_shape_ok chk null_ptr (nd_base d) (nd_ext d) (a_order a)) as (c & Ec & Hokc & _ & H1 & H2 & H3); [congruence|congruence|].
    assert (EN : cr_num c = prod (pl_shape p)). { destruct Hokc as (_ & _ & _ & _ & ->). congruence. }
    unfold ma_convert, q_ma_convert. cbv zeta. split.
    + apply (guarded_lift _ _ _ _ _ _ Ed). apply guarded_bind. apply (guarded_lift _ _ _ _ _ _ Ec). apply guarded_bind. apply guarded_space; auto.
    + apply (sizes_lift _ _ _ _ _ Ed). apply sizes_then. apply (sizes_lift _ _ _ _ _ Ec). apply z_bind; [apply z_space; auto|]. intros.
      apply z_bind; [apply z_std_copy|]. intros. apply z_ret.
  - inversion HS as [| | | | | | | | | | | | | | | | | | | | | | | | | | | | |x0 rs0 a0 a' Ha0 Hrs| | |]; subst.
    rewrite <- (array_fun _ _ _ _ Ha Ha0) in *.
    destruct (relA_var _ _ _ _ _ (proj1 HR) Ha) as (m & Em & Hr). pose proof Hr as (Ho & Y1 & Y2 & Y3 & Y4).
    destruct Hrs as (L & E1 & E2 & E3 & E4 & (HWo & HWl & _) & _). rewrite E1, E3 in HWo; rewrite E1, E2, E3 in HWl.
    destruct (extents_of_ok rs) as (g & Eg & Hn & Hg).
    { intros ->. apply layout_ne in HWl. apply HWl. reflexivity. }
    assert (LS : length (ranges_shape rs) = length rs) by apply map_length.
    destruct (asks_resize chk m _ g (ranges_bases rs) (ranges_shape rs) h Ho) as [G1 G2]; auto; try congruence.
    rewrite <- Y4. split.
    + apply (guarded_lift _ _ _ _ _ _ (var_eval _ _ _ Em)). apply (guarded_lift _ _ _ _ _ _ Eg). apply guarded_bind. auto.
    + apply (sizes_lift _ _ _ _ _ (var_eval _ _ _ Em)). apply (sizes_lift _ _ _ _ _ Eg). apply sizes_then. auto.
  - inversion HS as [| | | | | | | | | | | | | | | | | | | | | | | | | | | | | |x0 sh0 a0 a' Ha0 Hrs| |]; subst.
    rewrite <- (array_fun _ _ _ _ Ha Ha0) in *.
    destruct (relA_var _ _ _ _ _ (proj1 HR) Ha) as (m & Em & Hr). pose proof Hr as (Ho & Y1 & Y2 & Y3 & Y4).
    destruct Hrs as (L & E1 & E2 & E3 & E4 & (HWo & HWl & _) & _). rewrite E1, E3 in HWo; rewrite E1, E2, E3 in HWl.
    unfold from_zero in L. rewrite map_length in L. rewrite zero_bases, zero_shape in HWl; rewrite zero_shape in HWo.
    assert (HF : Forall (fun e => 0 <= e <= max_index) shape) by (eapply rep_ext_bound; apply HWl).
    assert (CN : copy_n shape (length (cr_ext (ma_ref m))) = Ok shape) by (rewrite Y1, <- L; apply copy_n_all).
    destruct (asks_resize chk m _ (EGen (length (cr_ext (ma_ref m))) (map (fun e => ERange 0 (to_index e)) shape)) (repeat 0 (length shape)) shape h Ho) as [G1 G2]; auto; try congruence; [cbn; congruence| |].
    { cbn [eg_ranges]. unfold ranges_are. clear - HF. induction shape as [|e shape IH]; cbn [map length repeat]; inversion HF; subst; constructor; auto.
      rewrite to_index_small by (unconst; lia). auto. }
    rewrite <- Y4. unfold ma_resize_list, q_ma_resize_list. cbv zeta. split.
    + apply (guarded_lift _ _ _ _ _ _ (var_eval _ _ _ Em)). apply guarded_bind. apply (guarded_lift _ _ _ _ _ _ CN). auto.
    + apply (sizes_lift _ _ _ _ _ (var_eval _ _ _ Em)). apply sizes_then. apply (sizes_lift _ _ _ _ _ CN). auto.
Qed.

(** the other commands *)
Lemma asks_or_not st c o (st' : @state T) : step dflt eqT ltT st c o st' ->
  (exists aid n, asks_for st c aid n) \/
  (forall aid n, ~ asks_for st c aid n) /\
  (forall chk en, q_exec cap dflt eqT ltT chk en c = exec dflt eqT ltT chk en c /\ forall aid n, sizing aid n (exec dflt eqT ltT chk en c)).
Proof.
  intros HS. assert (HZ := fun aid n chk en => z_exec aid n dflt eqT ltT chk en c).
  destruct HS; try (right; split; [intros aid0 n0 HX; inversion HX|intros chk en; split; [reflexivity|intros; apply HZ]]);
    left; do 2 eexists; constructor; eassumption.
Qed.
End Asks.

Section Counting.
Context {T : Type}.
Variable aid : nat.

Definition total (f : nat -> Z) (l : list nat) : Z := fold_right (fun b n => f b + n) 0 l.
(** what block b contributes *)
Definition share (h : heap T) (b : nat) : Z :=
  match nth_error h b with
  | Some (Some k) => if Nat.eqb (b_alloc k) aid then Z.of_nat (length (b_cells k)) else 0
  | _ => 0
  end.

Lemma total_app f l1 l2 : total f (l1 ++ l2) = total f l1 + total f l2.
Proof. induction l1; simpl; [auto|]. unfold total in *. rewrite IHl1. lia. Qed.
Lemma total_ext f g l : (forall b, In b l -> f b = g b) -> total f l = total g l.
Proof. induction l as [|b l IH]; intros H; simpl; [auto|]. rewrite (H b) by (left; auto). rewrite IH by (intros; apply H; right; auto). auto. Qed.
Lemma total_perm f l1 l2 : Permutation l1 l2 -> total f l1 = total f l2.
Proof. induction 1; simpl; lia. Qed.
Lemma total_filter f l : total f (filter (fun b => negb (f b =? 0)) l) = total f l.
Proof. induction l as [|b l IH]; simpl; [auto|]. destruct (Z.eqb_spec (f b) 0) as [E|E]; simpl; lia. Qed.
Lemma total_same f l1 l2 : NoDup l1 -> NoDup l2 -> (forall b, f b <> 0 -> (In b l1 <-> In b l2)) -> total f l1 = total f l2.
Proof.
  intros N1 N2 H. rewrite <- (total_filter f l1), <- (total_filter f l2). apply total_perm. apply NoDup_Permutation; try (apply NoDup_filter; auto).
  intros b. rewrite !filter_In. split; intros [H1 H2]; (split; [|auto]); apply H; auto; destruct (Z.eqb_spec (f b) 0); auto; discriminate.
Qed.

Lemma used_app h1 h2 : used aid (h1 ++ h2) = used (T := T) aid h1 + used aid h2.
Proof. induction h1 as [|[k|] h1 IH]; simpl; [auto|rewrite IH; lia|auto]. Qed.
Lemma used_total (h : heap T) : used aid h = total (share h) (seq 0 (length h)).
Proof.
  induction h as [|x h IH] using rev_ind; [reflexivity|]. rewrite used_app, app_length. cbn [length]. rewrite Nat.add_1_r, seq_S, total_app, Nat.add_0_l.
  rewrite IH. f_equal.
  - apply total_ext. intros b Hb. apply in_seq in Hb. unfold share. rewrite nth_error_app1 by lia. auto.
  - unfold total, share. cbn [fold_right]. rewrite nth_error_app2, Nat.sub_diag by lia. cbn [nth_error used]. destruct x; auto.
Qed.
Lemma used_over (h : heap T) l : NoDup l -> (forall b, outstanding h b -> In b l) -> used aid h = total (share h) l.
Proof.
  intros HN H. rewrite used_total. apply total_same; [apply seq_NoDup|auto|]. intros b Hb. unfold share in Hb.
  destruct (nth_error h b) as [[k|]|] eqn:E; try congruence.
  split; [intros _; apply H; exists k; auto|]. intros _. apply in_seq. assert (b < length h)%nat by (apply nth_error_Some; congruence). lia.
Qed.

(** the blocks of the live variables *)
Definition owned_blocks (vars : list (option multi_array)) : list nat :=
  flat_map (fun o => match o with Some m => [ma_block m] | None => [] end) vars.
Lemma in_owned vars b : In b (owned_blocks vars) <-> exists x m, nth_error vars x = Some (Some m) /\ ma_block m = b.
Proof.
  unfold owned_blocks. rewrite in_flat_map. split.
  - intros ([m|] & Hin & Hb); [|destruct Hb]. destruct Hb as [<-|[]]. apply In_nth_error in Hin. destruct Hin as [x Hx]. eauto.
  - intros (x & m & Hx & <-). exists (Some m). split; [eapply nth_error_In; eauto|left; auto].
Qed.
Lemma nodup_owned vars : (forall x y m1 m2, nth_error vars x = Some (Some m1) -> nth_error vars y = Some (Some m2) -> x <> y ->
  ma_block m1 <> ma_block m2) -> NoDup (owned_blocks vars).
Proof.
  induction vars as [|o vars IH]; intros H; [constructor|]. assert (N : NoDup (owned_blocks vars)).
  { apply IH. intros x y m1 m2 H1 H2 Hxy. apply (H (S x) (S y)); auto. }
  destruct o as [m|]; [|exact N]. cbn [owned_blocks flat_map app]. constructor; [|exact N].
  intros Hin. apply in_owned in Hin. destruct Hin as (x & m' & Hx & Hb). apply (H 0%nat (S x) m m'); auto.
Qed.
Lemma owned_total (h : heap T) arrs vars :
  (forall x, match nth_error arrs x, nth_error vars x with
             | Some (Some a), Some (Some m) => repr h a m
             | Some None, Some None => True
             | None, None => True
             | _, _ => False
             end) ->
  total (share h) (owned_blocks vars) =
  fold_right (fun o n => match o with Some a => if Nat.eqb (a_alloc a) aid then prod (a_shape a) + n else n | None => n end) 0 arrs.
Proof.
  revert vars. induction arrs as [|o arrs IH]; intros vars H.
  - destruct vars as [|v vars]; [reflexivity|]. specialize (H 0%nat). destruct H.
  - destruct vars as [|v vars]; [specialize (H 0%nat); cbn in H; destruct o; destruct H|].
    assert (HT := IH vars (fun x => H (S x))). specialize (H 0%nat). cbn [nth_error] in H.
    destruct o as [a|], v as [m|]; try contradiction; [|exact HT].
    cbn [owned_blocks flat_map app fold_right]. unfold owned_blocks in HT. unfold total in *. cbn [fold_right]. rewrite HT.
    destruct H as (Ho & E1 & E2 & E3 & E4). pose proof (array_object_ok _ (proj1 Ho)) as (_ & _ & _ & _ & EN).
    destruct Ho as (_ & _ & _ & _ & EL & EB). unfold share. rewrite EB. cbn [b_alloc b_cells]. rewrite map_length, EL, E4.
    unfold cr_num_elements. rewrite EN, E1. destruct (Nat.eqb (a_alloc a) aid); lia.
Qed.

(** the lost blocks *)
Definition lost_at (h : heap T) (b : nat) (r : nat * Z) : Prop :=
  exists k, nth_error h b = Some (Some k) /\ b_alloc k = fst r /\ Z.of_nat (length (b_cells k)) = snd r.
Lemma lost_total (h : heap T) bs lost : Forall2 (lost_at h) bs lost -> total (share h) bs = lost_in lost aid.
Proof.
  induction 1 as [|b r bs lost (k & E & E1 & E2) _ IH]; [reflexivity|]. unfold total, lost_in in *. cbn [fold_right]. rewrite IH.
  unfold share. rewrite E, E1, E2. destruct (Nat.eqb (fst r) aid); lia.
Qed.

Lemma nodup_join (l1 l2 : list nat) : NoDup l1 -> NoDup l2 -> (forall b, In b l1 -> ~ In b l2) -> NoDup (l1 ++ l2).
Proof.
  induction 1 as [|b l1 Hb _ IH]; intros N2 H; [exact N2|]. cbn [app]. constructor.
  - rewrite in_app_iff. intros [H1|H2]; [auto|]. apply (H b); [left; auto|auto].
  - apply IH; auto. intros b' Hb'. apply H. right. auto.
Qed.

(** what an allocator has handed out: the live arrays' memory and what was lost *)
Lemma used_is st en (h : heap T) bs lost : related st en h -> NoDup bs -> (forall b, leaked en h b <-> In b bs) ->
  Forall2 (lost_at h) bs lost -> used aid h = in_use st aid + lost_in lost aid.
Proof.
  intros [[HA HD] _] HN HL HF. rewrite (used_over h (owned_blocks (e_vars en) ++ bs)).
  - rewrite total_app, (owned_total h (s_arrays st)), (lost_total h bs lost); auto.
  - apply nodup_join; auto.
    + apply nodup_owned. exact HD.
    + intros b Hb Hb2. apply HL in Hb2. destruct Hb2 as [_ Hno]. apply in_owned in Hb. destruct Hb as (x & m & Hx & <-). apply (Hno x m Hx eq_refl).
  - intros b Hb. apply in_or_app. destruct (in_dec Nat.eq_dec b (owned_blocks (e_vars en))) as [|Hno]; [auto|right].
    apply HL. split; [auto|]. intros x m Hx Hm. apply Hno. apply in_owned. eauto.
Qed.

Lemma lost_sized who sz (h h' : heap T) bs lost : sized who sz h h' -> (forall b, In b bs -> outstanding h' b) ->
  Forall2 (lost_at h) bs lost -> Forall2 (lost_at h') bs lost.
Proof.
  intros HS HO HF. induction HF as [|b r bs lost (k & E & E1 & E2) _ IH]; constructor.
  - destruct (HO b (or_introl eq_refl)) as [k' Ek]. exists k'. split; [auto|].
    assert (Lb : (b < length h)%nat) by (apply nth_error_Some; congruence).
    destruct HS as [_ HS]. destruct (HS b k' Ek) as [(k2 & Ek2 & A & B)|(LB & _)]; [|lia].
    rewrite E in Ek2. injection Ek2 as <-. split; congruence.
  - apply IH. intros b' Hb'. apply HO. right. auto.
Qed.
End Counting.
