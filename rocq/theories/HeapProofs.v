(** HeapProofs.v -- what every operation of the library, finished or interrupted,
    does to blocks it was not given: blocks that have been returned stay returned,
    and no block number is used twice *)

From Coq Require Import ZArith List Bool Lia.
From Verif Require Import Base StorageOrder Ranges Layout Access Objects Memory Ops MultiArray History Facts.
Import ListNotations.
Local Open Scope Z_scope.

Section HeapProofs.
Context {T : Type}.

(** a block returned to its allocator in h is still returned in h' *)
Definition stay_dead (h h' : heap T) : Prop :=
  (length h <= length h')%nat /\ forall b, nth_error h b = Some None -> nth_error h' b = Some None.

Definition respects {A} (m : M T A) : Prop :=
  forall w, match m w with
            | Done _ w' | Thrown w' | Aborted w' => stay_dead (w_heap w) (w_heap w')
            | _ => True
            end.

Lemma dead_refl h : stay_dead h h. Proof. split; auto. Qed.
Lemma dead_trans h1 h2 h3 : stay_dead h1 h2 -> stay_dead h2 h3 -> stay_dead h1 h3.
Proof. intros [L1 H1] [L2 H2]. split; [lia|]. intros b H; auto. Qed.
Lemma dead_app h x : stay_dead h (h ++ [x]).
Proof. split; [rewrite app_length; lia|]. intros b H. rewrite nth_error_app1; auto. apply nth_error_Some. congruence. Qed.
Lemma dead_set h b k (x : option (@block T)) : nth_error h b = Some (Some k) -> stay_dead h (set_nth b x h).
Proof. intros Hb. split; [rewrite length_set_nth; auto|]. intros b' H. rewrite nth_error_set_nth_ne; [auto|]. intros ->. congruence. Qed.

Lemma r_ret {A} (a : A) : respects (ret a).
Proof. intros w. apply dead_refl. Qed.
Lemma r_bind {A B} (m : M T A) (f : A -> M T B) : respects m -> (forall a, respects (f a)) -> respects (bind m f).
Proof.
  intros Hm Hf w. unfold bind. specialize (Hm w). destruct (m w) as [a w'|w'|w'| |]; auto.
  specialize (Hf a w'). destruct (f a w'); auto; eapply dead_trans; eauto.
Qed.
Lemma r_lift {A} (o : outcome A) : respects (lift (T := T) o).
Proof. intros w. unfold lift. destruct o; auto; apply dead_refl. Qed.
Lemma r_undef {A} : respects (fun _ => @Undef T A). Proof. intros w. exact I. Qed.
Lemma r_fuel {A} : respects (fun _ => @OutOfFuel T A). Proof. intros w. exact I. Qed.
Lemma r_on_throw {A} (m : M T A) h : respects m -> respects h -> respects (on_throw m h).
Proof.
  intros Hm Hh w. unfold on_throw. specialize (Hm w). destruct (m w) as [a w'|w'|w'| |]; auto.
  specialize (Hh w'). destruct (h w'); auto; eapply dead_trans; eauto.
Qed.
Lemma r_tick : respects (@tick T).
Proof. intros w. unfold tick. destruct (w_fuse w) as [[|k]|]; apply dead_refl. Qed.
Lemma r_load p : respects (@load T p).
Proof. intros w. unfold load. apply r_lift. Qed.
Lemma hset_dead (h h' : heap T) p c : hset h p c = Some h' -> stay_dead h h'.
Proof.
  unfold hset. destruct (hcell h p); [|discriminate]. unfold hblock.
  destruct (nth_error h (p_blk p)) as [[k|]|] eqn:E; [|discriminate..]. intros [= <-]. eapply dead_set; eauto.
Qed.
Lemma r_store p v : respects (@store T p v).
Proof.
  intros w. unfold store, hwrite. destruct (hcell (w_heap w) p) as [[c|]|]; [|exact I..].
  destruct (hset (w_heap w) p (Some v)) eqn:E; [|exact I]. apply hset_dead in E. exact E.
Qed.
Lemma r_allocate aid n : respects (@allocate T aid n).
Proof.
  intros w. unfold allocate. pose proof (r_tick w) as H. destruct (tick w) as [u w1|w1|w1| |]; auto.
  destruct ((0 <=? n) && (n <=? idx_max)); auto. cbn [w_heap]. eapply dead_trans; [exact H|apply dead_app].
Qed.
Lemma r_deallocate aid p n : respects (@deallocate T aid p n).
Proof.
  intros w. unfold deallocate, hblock. destruct (nth_error (w_heap w) (p_blk p)) as [[k|]|] eqn:E; [|exact I..].
  destruct (_ && _); [|exact I]. cbn [w_heap]. eapply dead_set; eauto.
Qed.
Lemma r_construct d p : respects (@construct T d p).
Proof.
  apply r_bind; [apply r_tick|]. intros _ w. destruct (hcell (w_heap w) p) as [[c|]|]; [exact I| |exact I].
  destruct (hset (w_heap w) p (Some d)) eqn:E; [|exact I]. apply hset_dead in E. exact E.
Qed.
Lemma r_destroy p : respects (@destroy T p).
Proof.
  intros w. unfold destroy. destruct (hcell (w_heap w) p) as [[c|]|]; [|exact I..].
  destruct (hset (w_heap w) p None) eqn:E; [|exact I]. apply hset_dead in E. exact E.
Qed.

#[local] Hint Resolve r_ret r_lift r_undef r_fuel r_tick r_load r_store r_allocate r_deallocate r_construct r_destroy : resp.
Ltac resp := repeat (first [ solve [auto with resp]
  | match goal with |- respects (bind _ _) => apply r_bind; [|intros] | |- respects (on_throw _ _) => apply r_on_throw end ]).

Lemma r_destroy_n p : forall n, respects (@alloc_destroy_n T p n).
Proof. induction n; cbn [alloc_destroy_n]; resp. Qed.
Lemma r_construct_loop d p : forall n i, respects (@alloc_construct_loop T d p i n).
Proof. induction n; intros i; cbn [alloc_construct_loop]; resp. apply r_destroy_n. Qed.
#[local] Hint Resolve r_destroy_n r_construct_loop : resp.
Lemma r_elem_assign q p : respects (@elem_assign T q p).
Proof. unfold elem_assign. resp. Qed.
#[local] Hint Resolve r_elem_assign : resp.
Lemma r_copy_loop body : (forall f r, respects (body f r)) -> forall n f l r, respects (@copy_loop T body n f l r).
Proof. intros HB. induction n; intros f l r; cbn [copy_loop]; destruct (it_equal f l); resp. Qed.
Lemma r_copy_rows rec chk k d s : (forall d s, respects (rec d s)) -> respects (@copy_rows T rec chk k d s).
Proof. intros HR. unfold copy_rows. resp. apply r_copy_loop. intros f r. destruct k; resp. Qed.
Lemma r_assign_nd chk : forall n d s, respects (@assign_nd T chk n d s).
Proof. induction n; intros d s; cbn [assign_nd]; resp. apply r_copy_rows. auto. Qed.
#[local] Hint Resolve r_assign_nd : resp.
Lemma r_std_copy chk n d s : respects (@std_copy_nd T chk n d s).
Proof. destruct n; cbn [std_copy_nd]; resp. apply r_copy_rows. auto with resp. Qed.
Lemma r_copy_dispatch chk : forall n d s, respects (@copy_dispatch T chk n d s).
Proof. induction n; intros d s; cbn [copy_dispatch]; resp. apply r_copy_rows. auto. Qed.
Lemma r_copy_array chk n d s : respects (@copy_array T chk n d s).
Proof. unfold copy_array. resp. apply r_copy_dispatch. Qed.
Lemma r_each_loop body : (forall i, respects (body i)) -> forall n f l, respects (@each_loop T body n f l).
Proof. intros HB. induction n; intros f l; cbn [each_loop]; destruct (it_equal f l); resp. Qed.
Lemma r_for_each chk x : forall n a, respects (@for_each T chk x n a).
Proof. induction n; intros a; cbn [for_each]; resp. apply r_each_loop. intros i. destruct n; resp. Qed.
Lemma r_assign_loop num : forall l p k, respects (@assign_loop T p l k num).
Proof. induction l; intros p k; cbn [assign_loop]; [resp|]. destruct (k <? num); resp. Qed.
Lemma r_cr_assign c l : respects (@cr_assign T c l).
Proof. apply r_assign_loop. Qed.
Lemma r_get chk a i : respects (@get_element T chk a i). Proof. unfold get_element. resp. Qed.
Lemma r_set chk a i v : respects (@set_element T chk a i v). Proof. unfold set_element. resp. Qed.
Lemma r_getb chk a i : respects (@get_bracket T chk a i). Proof. unfold get_bracket. resp. Qed.
Lemma r_setb chk a i v : respects (@set_bracket T chk a i v). Proof. unfold set_bracket. resp. Qed.
#[local] Hint Resolve r_std_copy r_copy_array r_for_each r_cr_assign r_get r_set r_getb r_setb : resp.
Lemma r_space d c aid : respects (@allocate_space T d c aid).
Proof. unfold allocate_space. resp. unfold alloc_construct_n. resp. Qed.
#[local] Hint Resolve r_space : resp.
Lemma r_ma_destroy a : respects (@ma_destroy T a). Proof. unfold ma_destroy. resp. Qed.
Lemma r_ma_default d chk n aid : respects (@ma_default T d chk n aid). Proof. unfold ma_default. resp. Qed.
Lemma r_ma_list d chk n e so aid : respects (@ma_from_list T d chk n e so aid). Proof. unfold ma_from_list. resp. Qed.
Lemma r_ma_gen d chk g so aid : respects (@ma_from_gen T d chk g so aid). Proof. unfold ma_from_gen. resp. Qed.
Lemma r_copy_n : forall n p q, respects (@copy_n_elems T p n q).
Proof. induction n; intros p q; cbn [copy_n_elems]; resp. Qed.
#[local] Hint Resolve r_ma_destroy r_ma_default r_ma_list r_ma_gen r_copy_n : resp.
Lemma r_ma_copy d a : respects (@ma_copy T d a). Proof. unfold ma_copy. resp. Qed.
Lemma r_ma_convert d chk a so aid : respects (@ma_convert T d chk a so aid). Proof. unfold ma_convert. resp. Qed.
Lemma r_ma_assign chk same a b : respects (@ma_assign T chk same a b).
Proof. unfold ma_assign, ma_assign_from. destruct same; resp. Qed.
Lemma r_ma_resize d chk a g : respects (@ma_resize T d chk a g).
Proof. unfold ma_resize. destruct (Nat.eqb _ _); [|resp]. resp. unfold swap_internals. cbv beta iota zeta. resp. Qed.
#[local] Hint Resolve r_ma_copy r_ma_convert r_ma_assign r_ma_resize : resp.
Lemma r_ma_resize_list d chk a e : respects (@ma_resize_list T d chk a e). Proof. unfold ma_resize_list. resp. Qed.
#[local] Hint Resolve r_ma_resize_list : resp.

Lemma r_exec dflt eqT ltT chk en c : respects (@exec T dflt eqT ltT chk en c).
Proof.
  destruct c; cbn [exec]; resp; try (match goal with |- context [match ?d with HView _ => _ | HRef _ => _ end] => destruct d end; resp).
  intros w. apply r_bind; intros; resp.
Qed.

Lemma r_run dflt eqT ltT chk : forall p en, respects (@run T dflt eqT ltT chk en p).
Proof. induction p; intros en; cbn [run]; resp. apply r_exec. Qed.

(** a command changes the handle k only when it is applied to it *)
Definition yields {A} (P : A -> Prop) (m : M T A) : Prop :=
  forall w, match m w with Done a _ => P a | _ => True end.
Lemma y_ret {A} (P : A -> Prop) a : P a -> yields P (ret a). Proof. intros H w. exact H. Qed.
Lemma y_bind {A B} (P : B -> Prop) (m : M T A) f : (forall a, yields P (f a)) -> yields P (bind m f).
Proof. intros H w. unfold bind. destruct (m w) as [a w'|w'|w'| |]; auto. apply H. Qed.
Lemma y_undef {A} (P : A -> Prop) : yields P (fun _ => Undef). Proof. intros w. exact I. Qed.

Lemma handles_kept dflt eqT ltT chk en c k d : nth_error (e_handles en) k = Some d ->
  match c with ReindexNamed j _ | ReindexNamedAll j _ | ReshapeRef j _ => j <> k | _ => True end ->
  yields (fun r => nth_error (e_handles (fst r)) k = Some d) (@exec T dflt eqT ltT chk en c).
Proof.
  intros Hk HC. assert (L : (k < length (e_handles en))%nat) by (apply nth_error_Some; congruence).
  destruct c; cbn [exec];
    repeat (match goal with
            | |- yields _ (bind _ _) => apply y_bind; intros
            | |- yields _ (ret _) => apply y_ret; cbn [fst declare update name rename e_handles]
            | |- yields _ (match ?d with HView _ => _ | HRef _ => _ end) => destruct d
            | |- yields _ (fun _ => Undef) => apply y_undef
            end);
    try (rewrite nth_error_app1 by auto); try (rewrite nth_error_set_nth_ne by auto); auto.
  intros w. apply (y_bind (fun r => nth_error (e_handles (fst r)) k = Some d)). intros r. apply y_ret. auto.
Qed.

End HeapProofs.
