(** ThmChecks.v -- C31: assertions do not change programs that pass them. *)

From Coq Require Import ZArith List Bool Lia.
From Verif Require Import Base StorageOrder Ranges Layout Access Objects Memory Ops MultiArray
  Spec ViewSpec ReachSpec MemSpec OwnSpec CheckSpec
  Facts ThmAddressing ThmMultiArray.
Import ListNotations.
Local Open Scope Z_scope.

Definition oagree {A} (o1 o2 : outcome A) : Prop := forall x, o1 = Ok x -> o2 = Ok x.
Definition agree {T A} (m1 m2 : M T A) : Prop := forall w,
  match m1 w with Done a w' => m2 w = Done a w' | Thrown w' => m2 w = Thrown w' | _ => True end.

Lemma oagree_refl {A} (o : outcome A) : oagree o o.
Proof. intros x E. auto. Qed.
Lemma oagree_bind {A B} (o1 o2 : outcome A) (f1 f2 : A -> outcome B) :
  oagree o1 o2 -> (forall a, oagree (f1 a) (f2 a)) -> oagree (obind o1 f1) (obind o2 f2).
Proof. intros H1 H2 x E. destruct o1 as [a| |]; simpl in E; try discriminate. rewrite (H1 a eq_refl). simpl. apply H2; auto. Qed.
Lemma oagree_assert e : oagree (assertM true e) (assertM false e).
Proof. intros x E. destruct x. reflexivity. Qed.
Lemma oagree_get {A} (l : list A) i : oagree (arr_get true l i) (arr_get false l i).
Proof. intros x. unfold arr_get. destruct (nth_error l i); auto; discriminate. Qed.
Lemma oagree_set {A} (l : list A) i x : oagree (arr_set true l i x) (arr_set false l i x).
Proof. intros y. unfold arr_set. destruct (i <? length l)%nat; auto; discriminate. Qed.
Lemma oagree_fail {A} (o : outcome A) : oagree UB o.
Proof. intros x E. discriminate. Qed.

Create HintDb agree.
#[export] Hint Resolve oagree_refl oagree_assert oagree_get oagree_set oagree_fail : agree.
Ltac oag := repeat first [ apply oagree_refl | apply oagree_assert | apply oagree_get | apply oagree_set | apply oagree_fail
  | solve [auto with agree] | match goal with |- oagree (obind _ _) (obind _ _) => apply oagree_bind; [|intros ?] end ].

Lemma oag_check i b e : oagree (range_check true i b e) (range_check false i b e).
Proof. unfold range_check. oag. Qed.
#[export] Hint Resolve oag_check : agree.
Lemma oag_access_n i a : oagree (access_n true i a) (access_n false i a).
Proof. unfold access_n. destruct (nd_ext a) as [|? [|? ?]]; [oag|oag|]. destruct (nd_str a); [oag|]. destruct (nd_base a); oag. Qed.
Lemma oag_access_one i a : oagree (access_one true i a) (access_one false i a).
Proof. unfold access_one. destruct (nd_ext a) as [|? [|? ?]]; [oag| |oag]. destruct (nd_str a) as [|? [|? ?]]; [oag| |oag]. destruct (nd_base a) as [|? [|? ?]]; oag. Qed.
#[export] Hint Resolve oag_access_n oag_access_one : agree.
Lemma oag_bracket : forall i a, oagree (bracket true a i) (bracket false a i).
Proof. induction i as [|x [|y i] IH]; intros a; simpl; oag. apply IH. Qed.
Lemma oag_access_element a i : oagree (access_element true a i) (access_element false a i).
Proof. unfold access_element. apply oagree_bind; [|oag]. intros [] _. reflexivity. Qed.
#[export] Hint Resolve oag_bracket oag_access_element : agree.
Lemma oag_deref_n i : oagree (it_deref_n true i) (it_deref_n false i).
Proof. unfold it_deref_n. oag. Qed.
Lemma oag_deref_one i : oagree (it_deref_one true i) (it_deref_one false i).
Proof. unfold it_deref_one. oag. Qed.
#[export] Hint Resolve oag_deref_n oag_deref_one : agree.
Lemma oag_rderef_n i : oagree (ri_deref_n true i) (ri_deref_n false i).
Proof. unfold ri_deref_n. oag. Qed.
Lemma oag_rderef_one i : oagree (ri_deref_one true i) (ri_deref_one false i).
Proof. unfold ri_deref_one. oag. Qed.
Lemma oag_step r e s b st : oagree (gav_step true r e s b st) (gav_step false r e s b st).
Proof. unfold gav_step. cbv zeta. oag. destruct (ir_degenerate r); oag. Qed.
#[export] Hint Resolve oag_rderef_n oag_rderef_one oag_step : agree.
Lemma oag_gav_loop : forall rs ext str bs st, oagree (gav_loop true rs ext str bs st) (gav_loop false rs ext str bs st).
Proof. intros rs ext; revert rs; induction ext as [|e ext IH]; intros [|r rs] [|s str] [|b bs] st; simpl; oag. Qed.
#[export] Hint Resolve oag_gav_loop : agree.
Lemma oag_view a ig : oagree (make_view true a ig) (make_view false a ig).
Proof. unfold make_view, generate_array_view. destruct (Nat.eqb _ _); oag. Qed.
Lemma oag_cs : forall ord so ext st acc, oagree (cs_loop true ord so ext st acc) (cs_loop false ord so ext st acc).
Proof. induction ord as [|d ord IH]; intros so ext st acc; simpl; [oag|]. unfold so_asc_at. oag; try apply IH. Qed.
#[export] Hint Resolve oag_view oag_cs : agree.
Lemma oag_strides ext so : oagree (compute_strides true ext so) (compute_strides false ext so).
Proof. unfold compute_strides. oag. Qed.
#[export] Hint Resolve oag_strides : agree.
Lemma oag_init n p so b e : oagree (init_multi_array_ref true n p so b e) (init_multi_array_ref false n p so b e).
Proof. unfold init_multi_array_ref. oag. Qed.
#[export] Hint Resolve oag_init : agree.
Lemma oag_list n p e so : oagree (cref_from_list true n p e so) (cref_from_list false n p e so).
Proof. unfold cref_from_list. oag. Qed.
Lemma oag_gen p g so : oagree (cref_from_gen true p g so) (cref_from_gen false p g so).
Proof. unfold cref_from_gen, init_from_extent_gen. oag. Qed.
Lemma oag_shape n p so b e : oagree (cref_from_shape true n p so b e) (cref_from_shape false n p so b e).
Proof. unfold cref_from_shape. oag. Qed.
Lemma oag_default n p so : oagree (cref_default true n p so) (cref_default false n p so).
Proof. unfold cref_default. oag. Qed.
Lemma oag_reshape c e : oagree (cr_reshape true c e) (cr_reshape false c e).
Proof. unfold cr_reshape. oag. Qed.
#[export] Hint Resolve oag_list oag_gen oag_shape oag_default oag_reshape : agree.

Section Agree.
Context {T : Type}.

Lemma agree_refl {A} (m : M T A) : agree m m.
Proof. intros w. destruct (m w); auto. Qed.
Lemma agree_lift {A} (o1 o2 : outcome A) : oagree o1 o2 -> agree (T := T) (lift o1) (lift o2).
Proof. intros H w. unfold lift. destruct o1; auto. rewrite (H a eq_refl). auto. Qed.
Lemma agree_bind {A B} (m1 m2 : M T A) (f1 f2 : A -> M T B) :
  agree m1 m2 -> (forall a, agree (f1 a) (f2 a)) -> agree (bind m1 f1) (bind m2 f2).
Proof.
  intros H1 H2 w. unfold bind. specialize (H1 w). destruct (m1 w) as [a w'|w'|w'| |]; auto; rewrite H1; auto.
  apply H2.
Qed.
Lemma agree_on_throw {A} (m1 m2 : M T A) c : agree m1 m2 -> agree (on_throw m1 c) (on_throw m2 c).
Proof.
  intros H w. unfold on_throw. specialize (H w). destruct (m1 w) as [a w'|w'|w'| |]; auto; rewrite H; auto.
  destruct (c w'); auto.
Qed.
Lemma agree_copy_loop b1 b2 last : (forall f r, agree (b1 f r) (b2 f r)) ->
  forall fuel first result, agree (copy_loop (T := T) b1 fuel first last result) (copy_loop b2 fuel first last result).
Proof.
  intros H. induction fuel as [|fuel IH]; intros first result; simpl; destruct (it_equal first last); try apply agree_refl.
  apply agree_bind; auto. intros _. apply agree_bind; [apply agree_refl|]. intros f'. apply agree_bind; [apply agree_refl|]. intros r'. auto.
Qed.
Lemma agree_each_loop b1 b2 last : (forall f, agree (b1 f) (b2 f)) ->
  forall fuel first, agree (each_loop (T := T) b1 fuel first last) (each_loop b2 fuel first last).
Proof.
  intros H. induction fuel as [|fuel IH]; intros first; simpl; destruct (it_equal first last); try apply agree_refl.
  apply agree_bind; auto. intros _. apply agree_bind; [apply agree_refl|]. auto.
Qed.
Ltac ag := repeat first [ apply agree_refl | apply agree_lift; oag | match goal with |- agree (bind _ _) (bind _ _) => apply agree_bind; [|intros ?] end ].

Lemma agree_copy_rows r1 r2 k dst src : (forall d s, agree (r1 d s) (r2 d s)) ->
  agree (T := T) (copy_rows r1 true k dst src) (copy_rows r2 false k dst src).
Proof.
  intros H. unfold copy_rows. ag. apply agree_copy_loop. intros f r. destruct k; ag. auto.
Qed.
Lemma agree_assign : forall n dst src, agree (T := T) (assign_nd true n dst src) (assign_nd false n dst src).
Proof. induction n as [|n IH]; intros dst src; cbn [assign_nd]; ag.
 apply agree_copy_rows. apply IH. Qed.
Lemma agree_dispatch : forall n dst src, agree (T := T) (copy_dispatch true n dst src) (copy_dispatch false n dst src).
Proof. induction n as [|n IH]; intros dst src; cbn [copy_dispatch]; ag. apply agree_copy_rows. apply IH. Qed.
Lemma agree_for_each xf : forall n a, agree (T := T) (for_each true xf n a) (for_each false xf n a).
Proof. induction n as [|n IH]; intros a; cbn [for_each]; ag. apply agree_each_loop. intros i. destruct n; ag. apply IH. Qed.

Lemma oag_equal_loop b1 b2 l1 : (forall x y, oagree (b1 x y) (b2 x y)) ->
  forall fuel f1 f2, oagree (equal_loop b1 fuel f1 l1 f2) (equal_loop b2 fuel f1 l1 f2).
Proof.
  intros H. induction fuel as [|fuel IH]; intros f1 f2; simpl; destruct (it_equal f1 l1); oag.
  destruct a; oag; try apply IH.
Qed.
Lemma oag_lex_loop b1 b2 l1 l2 : (forall x y, oagree (b1 x y) (b2 x y)) ->
  forall fuel f1 f2, oagree (lex_loop b1 fuel f1 l1 f2 l2) (lex_loop b2 fuel f1 l1 f2 l2).
Proof.
  intros H. induction fuel as [|fuel IH]; intros f1 f2; simpl; destruct (it_equal f1 l1); oag; destruct (it_equal f2 l2); oag.
  destruct a; oag. destruct a; oag; try apply IH.
Qed.
Lemma oag_eq eqT (h : heap T) : forall n a b, oagree (nd_eq eqT true h n a b) (nd_eq eqT false h n a b).
Proof.
  induction n as [|n IH]; intros a b; simpl; oag; try destruct (list_eqb _ _); oag. apply oag_equal_loop.
  intros x y. destruct n; oag; try apply IH.
Qed.
Lemma oag_lt ltT (h : heap T) : forall n a b, oagree (nd_lt ltT true h n a b) (nd_lt ltT false h n a b).
Proof.
  induction n as [|n IH]; intros a b; simpl; oag. apply oag_lex_loop.
  intros x y. destruct n; oag; try apply IH.
Qed.

Variable dflt : T.

Lemma agree_ma_gen g so aid : agree (ma_from_gen dflt true g so aid) (ma_from_gen dflt false g so aid).
Proof. unfold ma_from_gen. ag. Qed.
Lemma agree_resize a g : agree (ma_resize dflt true a g) (ma_resize dflt false a g).
Proof.
  unfold ma_resize. destruct (Nat.eqb _ _); ag; [apply agree_ma_gen|]. apply agree_on_throw. ag. apply agree_assign.
Qed.

Lemma operation_agrees A m : operation dflt A m -> agree (m true) (m false).
Proof.
  induction 1; try (unfold get_element, set_element, get_bracket, set_bracket; ag; fail).
  - apply agree_assign.
  - unfold assign_copy. destruct same; [ag|apply agree_assign].
  - unfold copy_array. ag. apply agree_dispatch.
  - apply agree_for_each.
  - intros w. apply (agree_lift _ _ (oag_eq eqT (w_heap w) n a b) w).
  - intros w. assert (O : oagree (nd_neq eqT true (w_heap w) n a b) (nd_neq eqT false (w_heap w) n a b)).
    { unfold nd_neq. apply oagree_bind; [apply oag_eq|oag]. }
    apply (agree_lift _ _ O w).
  - intros w. apply (agree_lift _ _ (oag_lt ltT (w_heap w) n a b) w).
  - intros w. apply (agree_lift _ _ (oag_lt ltT (w_heap w) n b a) w).
  - intros w. assert (O : oagree (nd_le ltT true (w_heap w) n a b) (nd_le ltT false (w_heap w) n a b)).
    { unfold nd_le, nd_gt. apply oagree_bind; [apply oag_lt|oag]. }
    apply (agree_lift _ _ O w).
  - intros w. assert (O : oagree (nd_ge ltT true (w_heap w) n a b) (nd_ge ltT false (w_heap w) n a b)).
    { unfold nd_ge. apply oagree_bind; [apply oag_lt|oag]. }
    apply (agree_lift _ _ O w).
  - unfold ma_default. ag.
  - unfold ma_from_list. ag.
  - apply agree_ma_gen.
  - unfold ma_convert, std_copy_nd. cbv zeta. ag. destruct (length (nd_ext x)); ag. apply agree_copy_rows, agree_assign.
  - unfold ma_assign_from. apply agree_assign.
  - unfold ma_assign, ma_assign_from. destruct same; [ag|apply agree_assign].
  - apply agree_resize.
  - unfold ma_resize_list. ag. apply agree_resize.
  - unfold ma_reshape. ag.
  - ag; auto.
Qed.

End Agree.

(** * C31 *)

(** a program that, compiled with assertions, runs to its end or to an exception
    (no assertion fires) does exactly the same compiled without: same result,
    same memory, same remaining exception budget *)
Theorem c31_assertions_are_transparent : forall (T : Type) (dflt : T) (A : Type) (m : bool -> M T A) w,
  operation dflt A m ->
  (forall a w', m true w = Done a w' -> m false w = Done a w') /\
  (forall w', m true w = Thrown w' -> m false w = Thrown w').
Proof.
  intros T dflt A m w Hm. pose proof (operation_agrees dflt A m Hm w) as H. split.
  - intros a w' E. rewrite E in H. auto.
  - intros w' E. rewrite E in H. auto.
Qed.

(** the converse fails: without assertions a program may go on where the checked
    one stops -- reading a(3,0), outside of the array, gives a value *)
Theorem c31_converse_refuted : exists (m : bool -> M Z Z) w, operation 0 Z m /\
  m true w = Aborted w /\ m false w = Done 12 w.
Proof.
  exists (fun chk => get_element chk (cr_nd (ma_ref ex_ma)) [3; 0]), (World ex_heap None).
  split; [apply op_get|]. split; vm_compute; reflexivity.
Qed.

(** read an element of a view, store it elsewhere, resize *)
Example ex_c31 : let m := fun chk => bind (lift (make_view chk (cr_nd (ma_ref ex_ma)) ex_ig)) (fun v =>
    bind (get_element chk (v_nd v) [1; 1]) (fun x =>
    bind (set_element chk (cr_nd (ma_ref ex_ma)) [1; -2] x) (fun _ =>
    ma_resize_list 0 chk ex_ma [1; 4]))) in
  operation 0 multi_array m /\ exists a w, m true (World ex_heap None) = Done a w.
Proof.
  split.
  - apply (op_then 0 view multi_array _ (fun v chk => _)); [apply op_view|]. intros v.
    apply (op_then 0 Z multi_array _ (fun x chk => _)); [apply op_get|]. intros x.
    apply (op_then 0 unit multi_array _ (fun _ chk => _)); [apply op_set|]. intros _. apply op_ma_resize_list.
  - eexists _, _. vm_compute. reflexivity.
Qed.
