(** SharedProofs.v -- lemmas for C62. *)

From Coq Require Import ZArith List Bool Permutation Lia.
From Verif Require Import Base StorageOrder Ranges Layout Access Objects Memory Ops MultiArray History Stored Threads Shared
  Spec ViewSpec ReachSpec MemSpec ThreadSpec SharedSpec
  Facts LayoutProofs AccessProofs MemoryProofs CopyProofs ReachProofs AlgProofs ThreadProofs ThmThreads.
Import ListNotations.
Local Open Scope Z_scope.

(** * The steps of a call give back the call *)
Section Refine.
Context {T : Type}.
Variable dflt : T.
Variables (eqT ltT : T -> T -> bool).

Lemma meq_assoc {A B C} (m : prog T A) (f : A -> prog T B) (g : B -> prog T C) M' :
  meq (run_prog (pbind m (fun a => pbind (f a) g))) M' -> meq (run_prog (pbind (pbind m f) g)) M'.
Proof.
  intros H w Q. rewrite <- H by exact Q. rewrite !run_prog_bind.
  transitivity (bind (bind (run_prog m) (fun a => run_prog (f a))) (fun a => run_prog (g a)) w).
  - unfold bind. rewrite run_prog_bind. reflexivity.
  - rewrite bind_assoc. apply bind_ext; [reflexivity|]. intros a w'. now rewrite run_prog_bind.
Qed.
Lemma meq_lift_bind {A B} (o : outcome A) (f : A -> prog T B) (f' : A -> M T B) :
  (forall a, meq (run_prog (f a)) (f' a)) -> meq (run_prog (pbind (plift o) f)) (bind (lift o) f').
Proof. intros H. apply meq_bind; [apply meq_lift|exact H]. Qed.
Lemma meq_end {A B} (m : prog T A) (m' : M T A) (g : A -> B) (k : B -> prog T B) :
  (forall b, k b = PRet b) -> meq (run_prog m) m' ->
  meq (run_prog (pbind (pbind m (fun a => PRet (g a))) k)) (a <~ m' ;; ret (g a)).
Proof.
  intros K H. apply meq_assoc. apply meq_bind; [exact H|]. intros a w Q. cbn [pbind]. rewrite K. reflexivity.
Qed.
Lemma meq_finish {A} ke (m : prog T A) (m' : M T A) (g : A -> @output T) :
  meq (run_prog m) m' ->
  meq (run_prog (pbind (pbind m (fun a => PRet (g a))) (fun o => PRet (ke, o)))) (a <~ m' ;; ret (ke : kenv, g a)).
Proof.
  intros H. apply meq_assoc. apply meq_bind; [exact H|]. intros a w Q. reflexivity.
Qed.
Lemma meq_compare op chk a b :
  meq (run_prog (p_compare eqT ltT op chk a b)) (fun w => lift (compare eqT ltT op chk (w_heap w) a b) w).
Proof.
  assert (N : forall (m : prog T bool) o, heq m o -> heq (pbind m (fun r => PRet (negb r))) (fun h => r <- o h ;; Ok (negb r))).
  { intros m o H. apply (heq_bind m o); [exact H|]. intros r h f. reflexivity. }
  unfold p_compare, compare, nd_neq, nd_le, nd_ge, nd_gt. destruct op.
  - exact (heq_meq _ _ (heq_nd_eq eqT chk (length (nd_ext a)) a b)).
  - exact (heq_meq _ _ (N _ _ (heq_nd_eq eqT chk (length (nd_ext a)) a b))).
  - exact (heq_meq _ _ (heq_nd_lt ltT chk (length (nd_ext a)) a b)).
  - exact (heq_meq _ _ (heq_nd_lt ltT chk (length (nd_ext a)) b a)).
  - exact (heq_meq _ _ (N _ _ (heq_nd_lt ltT chk (length (nd_ext a)) b a))).
  - exact (heq_meq _ _ (N _ _ (heq_nd_lt ltT chk (length (nd_ext a)) a b))).
Qed.

Lemma plan_refines chk ke c ke' m : plan eqT ltT chk ke c = Some (ke', m) ->
  meq (run_prog (pbind m (fun o => PRet (ke', o)))) (kexec dflt eqT ltT chk ke c).
Proof.
  assert (CH : forall (o : outcome kenv) ke0 m0 (K : M T (kenv * @output T)), changing (T := T) ke o = (ke0, m0) ->
    meq (k <~ lift o ;; ret (k, ONone)) K -> meq (run_prog (pbind m0 (fun x => PRet (ke0, x)))) K).
  { intros o ke0 m0 K E H w Q. rewrite <- H by exact Q.
    destruct o; cbn [changing] in E; injection E as <- <-; reflexivity. }
  assert (RA : forall A B (x : outcome A) (f : A -> outcome B) (K : B -> M T (kenv * @output T)) w,
    bind (lift (obind x f)) K w = bind (lift x) (fun a => bind (lift (f a)) K) w).
  { intros A B x f K w. destruct x; reflexivity. }
  assert (PO : forall A B C (x : outcome A) (f : A -> outcome B) (g : B -> prog T C),
    pbind (plift (obind x f)) g = pbind (plift x) (fun a => pbind (plift (f a)) g)).
  { intros A B C [a| |] f g; reflexivity. }
  destruct c as [c|e|w e|k n|k|j k|j k|k|k v|e so aid|e subs|d s|d s|e i|e i v|e i|e i v|e f|op a b|q e]; cbn [plan kexec];
    try discriminate.
  - destruct c; cbn [exec]; try discriminate; intros E; try (injection E as <- <-); try (injection E as E).
    + (* AssignVar *)
      apply meq_assoc. intros w Q. rewrite bind_assoc.
      apply meq_lift_bind; [|exact Q]. clear w Q. intros u. apply meq_assoc.
      intros w Q. rewrite bind_assoc. apply meq_lift_bind; [|exact Q]. clear w Q. intros v w Q.
      rewrite bind_assoc. unfold silent.
      rewrite (meq_finish ke _ (if (x =? y)%nat then ret tt else assign_nd chk (length (cr_ext (ma_ref u))) (cr_nd (ma_ref u)) (cr_nd (ma_ref v))));
        [|destruct (x =? y)%nat; [apply meq_ret|apply meq_assign_nd]|exact Q].
      unfold ma_assign, ma_assign_from. destruct (x =? y)%nat; [destruct ke; reflexivity|].
      apply bind_ext; [reflexivity|]. intros r w'. destruct ke; reflexivity.
    + (* Fill *)
      apply meq_assoc. intros w Q. rewrite bind_assoc. apply meq_lift_bind; [|exact Q]. clear w Q. intros u w Q.
      rewrite bind_assoc. unfold silent. rewrite (meq_finish ke _ (cr_assign (ma_ref u) l)); [|apply meq_assign_loop|exact Q].
      apply bind_ext; [reflexivity|]. intros r w'. destruct ke; reflexivity.
    + (* FillRef *)
      apply meq_assoc. intros w Q. rewrite bind_assoc. apply meq_lift_bind; [|exact Q]. clear w Q. intros [v|u] w Q.
      * reflexivity.
      * rewrite bind_assoc. unfold silent. rewrite (meq_finish ke _ (cr_assign u l)); [|apply meq_assign_loop|exact Q].
        apply bind_ext; [reflexivity|]. intros r w'. destruct ke; reflexivity.
    + apply (CH _ _ _ _ E). intros w Q. rewrite RA, !bind_assoc. apply bind_ext; [reflexivity|]. intros a w'.
      rewrite RA, !bind_assoc. apply bind_ext; [reflexivity|]. intros a' w2. reflexivity.
    + apply (CH _ _ _ _ E). intros w Q. rewrite RA, !bind_assoc. apply bind_ext; [reflexivity|]. intros a w'.
      rewrite RA, !bind_assoc. apply bind_ext; [reflexivity|]. intros a' w2. reflexivity.
    + apply (CH _ _ _ _ E). intros w Q. rewrite RA, !bind_assoc. apply bind_ext; [reflexivity|]. intros a w'.
      rewrite RA, !bind_assoc. apply bind_ext; [reflexivity|]. intros a' w2. reflexivity.
    + apply (CH _ _ _ _ E). intros w Q. rewrite RA, !bind_assoc. apply bind_ext; [reflexivity|]. intros [v|u] w';
        rewrite RA, !bind_assoc; (apply bind_ext; [reflexivity|]; intros a' w2; reflexivity).
    + apply (CH _ _ _ _ E). intros w Q. rewrite RA, !bind_assoc. apply bind_ext; [reflexivity|]. intros [v|u] w';
        rewrite RA, !bind_assoc; (apply bind_ext; [reflexivity|]; intros a' w2; reflexivity).
    + apply (CH _ _ _ _ E). intros w Q. rewrite RA, !bind_assoc. apply bind_ext; [reflexivity|]. intros [v|u] w'; [reflexivity|].
      rewrite RA, !bind_assoc. apply bind_ext; [reflexivity|]. intros a' w2; reflexivity.
  - (* XMove *) intros E. injection E as E. apply (CH _ _ _ _ E). intros w Q.
    rewrite RA. apply bind_ext; [reflexivity|]. intros o w1. rewrite RA. apply bind_ext; [reflexivity|]. intros a w2.
    rewrite RA. apply bind_ext; [reflexivity|]. intros a' w3. reflexivity.
  - (* XSame *) intros E. injection E as <- <-. apply meq_assoc.
    rewrite PO. apply meq_lift_bind. intros o. rewrite PO. apply meq_lift_bind. intros u.
    rewrite PO. apply meq_lift_bind. intros p. rewrite PO. apply meq_lift_bind. intros v w Q.
    destruct (k_kind o), (k_kind p); reflexivity.
  - (* XDistance *) intros E. injection E as <- <-. apply meq_assoc.
    rewrite PO. apply meq_lift_bind. intros o. rewrite PO. apply meq_lift_bind. intros u.
    rewrite PO. apply meq_lift_bind. intros p. rewrite PO. apply meq_lift_bind. intros v.
    destruct (k_kind o), (k_kind p); try (intros w Q; reflexivity); apply meq_lift_bind; intros d w Q; reflexivity.
  - (* XRead *) intros E. injection E as <- <-. apply meq_assoc.
    rewrite PO. apply meq_lift_bind. intros o. rewrite PO. apply meq_lift_bind. intros u.
    apply meq_lift_bind. intros p w Q. reflexivity.
  - (* XWrite *) intros E. injection E as <- <-. apply meq_assoc.
    rewrite PO. apply meq_lift_bind. intros o. rewrite PO. apply meq_lift_bind. intros u.
    apply meq_lift_bind. intros p w Q. cbn [pbind run_prog]. unfold bind at 2. rewrite tick_quiet by exact Q. reflexivity.
  - intros E. injection E as <- <-. apply meq_assoc, meq_lift_bind. intros x. apply meq_assoc, meq_lift_bind. intros y.
    apply (meq_finish ke _ _ (fun _ => ONone)), meq_assign_nd.
  - intros E. injection E as <- <-. apply meq_assoc, meq_lift_bind. intros x. apply meq_assoc, meq_lift_bind. intros y.
    apply (meq_finish ke _ _ (fun _ => ONone)), meq_copy_array.
  - intros E. injection E as <- <-. apply meq_assoc, meq_lift_bind. intros x.
    apply (meq_finish ke _ _ OVal), meq_get.
  - intros E. injection E as <- <-. apply meq_assoc, meq_lift_bind. intros x.
    apply (meq_finish ke _ _ (fun _ => ONone)), meq_set.
  - intros E. injection E as <- <-. apply meq_assoc, meq_lift_bind. intros x.
    apply (meq_finish ke _ _ OVal), meq_get.
  - intros E. injection E as <- <-. apply meq_assoc, meq_lift_bind. intros x.
    apply (meq_finish ke _ _ (fun _ => ONone)), meq_set.
  - intros E. injection E as <- <-. apply meq_assoc, meq_lift_bind. intros x.
    apply (meq_finish ke _ _ (fun _ => ONone)), meq_for_each.
  - intros E. injection E as <- <-. apply meq_assoc, meq_lift_bind. intros x. apply meq_assoc, meq_lift_bind. intros y.
    intros w Q. rewrite (meq_finish ke _ _ OBool (meq_compare op chk x y) w Q). reflexivity.
  - intros E. injection E as <- <-. rewrite PO. apply meq_lift_bind. intros o. apply meq_lift_bind. intros r w Q. reflexivity.
Qed.
End Refine.

(** * A call depends only on the objects it looks at *)
Definition same_at (ke ke' : kenv) (o : thing) : Prop :=
  match o with
  | TheVar x => nth_error (e_vars (ke_env ke)) x = nth_error (e_vars (ke_env ke')) x
  | TheName h => nth_error (e_handles (ke_env ke)) h = nth_error (e_handles (ke_env ke')) h
  | TheKept k => nth_error (ke_kept ke) k = nth_error (ke_kept ke') k
  end.
Definition agree (ke ke' : kenv) (l : list thing) : Prop := forall o, In o l -> same_at ke ke' o.
Definition parents (ke : kenv) : list parent := map k_parent (ke_kept ke).

Lemma same_at_refl ke o : same_at ke ke o.
Proof. destruct o; reflexivity. Qed.
Lemma same_at_sym ke ke' o : same_at ke ke' o -> same_at ke' ke o.
Proof. destruct o; cbn; congruence. Qed.
Lemma same_at_trans ke1 ke2 ke3 o : same_at ke1 ke2 o -> same_at ke2 ke3 o -> same_at ke1 ke3 o.
Proof. destruct o; cbn; congruence. Qed.
Lemma nth_error_same {A} (l l' : list A) : (forall i, nth_error l i = nth_error l' i) -> l = l'.
Proof.
  revert l'. induction l as [|x l IH]; intros [|y l'] H; auto.
  - discriminate (H O).
  - discriminate (H O).
  - f_equal; [injection (H O); auto|]. apply IH. intros i. apply (H (S i)).
Qed.
Lemma same_everywhere ke ke' : (forall o, same_at ke ke' o) -> ke = ke'.
Proof.
  intros H. destruct ke as [[vs hs] ks], ke' as [[vs' hs'] ks'].
  assert (vs = vs') by (apply nth_error_same; intros i; apply (H (TheVar i))).
  assert (hs = hs') by (apply nth_error_same; intros i; apply (H (TheName i))).
  assert (ks = ks') by (apply nth_error_same; intros i; apply (H (TheKept i))). subst. reflexivity.
Qed.

Lemma kept_things_parents ke ke' k : parents ke = parents ke' -> kept_things ke k = kept_things ke' k.
Proof.
  unfold parents, kept_things. intros H. f_equal.
  assert (E : option_map k_parent (nth_error (ke_kept ke) k) = option_map k_parent (nth_error (ke_kept ke') k)).
  { rewrite <- !nth_error_map. congruence. }
  destruct (nth_error (ke_kept ke) k), (nth_error (ke_kept ke') k); cbn in E; congruence.
Qed.
Lemma things_of_parents ke ke' e : parents ke = parents ke' -> things_of ke e = things_of ke' e.
Proof. intros H. induction e; cbn [things_of]; auto using kept_things_parents. Qed.
Lemma looks_at_parents {T} ke ke' (c : @kcommand T) : parents ke = parents ke' -> looks_at ke c = looks_at ke' c.
Proof.
  intros H. destruct c; cbn [looks_at]; rewrite ?(kept_things_parents ke ke'), ?(things_of_parents ke ke') by auto; reflexivity.
Qed.

Lemma var_same ke ke' x : same_at ke ke' (TheVar x) -> var (ke_env ke) x = var (ke_env ke') x.
Proof. unfold var. cbn. now intros ->. Qed.
Lemma named_same ke ke' x : same_at ke ke' (TheName x) -> named (ke_env ke) x = named (ke_env ke') x.
Proof. unfold named. cbn. now intros ->. Qed.
Lemma kept_at_same ke ke' k : same_at ke ke' (TheKept k) -> kept_at ke k = kept_at ke' k.
Proof. unfold kept_at. cbn. now intros ->. Qed.
Lemma kept_nd_same ke ke' k o : agree ke ke' (kept_things ke k) -> kept_at ke k = Ok o ->
  kept_nd (ke_env ke) o = kept_nd (ke_env ke') o.
Proof.
  intros H E. unfold kept_nd, parent_nd. unfold kept_at in E. unfold kept_things in H.
  destruct (nth_error (ke_kept ke) k) as [o'|]; [|discriminate]. injection E as ->.
  destruct (k_parent o) as [x|x|] eqn:P; [| |reflexivity]; cbn [parent_thing] in H.
  - rewrite (var_same ke ke' x); [reflexivity|]. apply H. right. left. reflexivity.
  - rewrite (named_same ke ke' x); [reflexivity|]. apply H. right. left. reflexivity.
Qed.
(** a computation on a kept object *)
Lemma kept_same {B} ke ke' k (f : kept -> nd -> outcome B) : agree ke ke' (kept_things ke k) ->
  (o <- kept_at ke k ;; a <- kept_nd (ke_env ke) o ;; f o a) = (o <- kept_at ke' k ;; a <- kept_nd (ke_env ke') o ;; f o a).
Proof.
  intros H. rewrite <- (kept_at_same ke ke' k) by (apply H; left; reflexivity).
  destruct (kept_at ke k) as [o| |] eqn:E; try reflexivity. cbn [obind].
  now rewrite (kept_nd_same ke ke' k o H E).
Qed.
Lemma keval_same chk ke ke' e : agree ke ke' (things_of ke e) -> keval chk ke e = keval chk ke' e.
Proof.
  induction e; cbn [things_of keval]; intros H; try (now rewrite IHe); try (now apply kept_same).
  - cbn [eval]. now rewrite (var_same ke ke' x) by (apply H; left; reflexivity).
  - cbn [eval]. now rewrite (named_same ke ke' h) by (apply H; left; reflexivity).
Qed.
Lemma keval_nd_same chk ke ke' e : agree ke ke' (things_of ke e) -> keval_nd chk ke e = keval_nd chk ke' e.
Proof. intros H. unfold keval_nd. now rewrite (keval_same chk ke ke'). Qed.
Lemma agree_app ke ke' l l' : agree ke ke' (l ++ l') -> agree ke ke' l /\ agree ke ke' l'.
Proof. intros H. split; intros o Ho; apply H, in_or_app; auto. Qed.

Section Local.
Context {T : Type}.
Variables (eqT ltT : T -> T -> bool).
Variable chk : bool.
Notation plan := (@plan T eqT ltT chk).

Lemma changes_looked_at ke (c : @kcommand T) o : In o (changes c) -> In o (looks_at ke c).
Proof.
  destruct c as [c| | | | | | | | | | | | | | | | | | | ]; try (intros []; fail).
  - destruct c; cbn [changes looks_at]; intros H; solve [destruct H|exact H|destruct H as [<-|[]]; left; reflexivity].
  - cbn [changes looks_at]. intros [<-|[]]. left. reflexivity.
Qed.

Lemma same_update ke ke' x a o : same_at ke ke' o -> same_at ke ke' (TheVar x) ->
  same_at (with_env ke (update (ke_env ke) x a)) (with_env ke' (update (ke_env ke') x a)) o.
Proof.
  intros H Hx. destruct o as [y|y|y]; cbn in *; auto.
  destruct (Nat.eq_dec x y) as [<-|Hn]; [|now rewrite !nth_error_set_nth_ne].
  destruct (le_lt_dec (length (e_vars (ke_env ke))) x) as [L|L].
  - assert (L' : (length (e_vars (ke_env ke')) <= x)%nat) by (apply nth_error_None; rewrite <- Hx; apply nth_error_None; auto).
    rewrite !(proj2 (nth_error_None _ _)); auto; now rewrite length_set_nth.
  - assert (L' : (x < length (e_vars (ke_env ke')))%nat) by (apply nth_error_Some; rewrite <- Hx; apply nth_error_Some; auto).
    now rewrite !nth_error_set_nth_eq.
Qed.
Lemma same_rename ke ke' x a o : same_at ke ke' o -> same_at ke ke' (TheName x) ->
  same_at (with_env ke (rename (ke_env ke) x a)) (with_env ke' (rename (ke_env ke') x a)) o.
Proof.
  intros H Hx. destruct o as [y|y|y]; cbn in *; auto.
  destruct (Nat.eq_dec x y) as [<-|Hn]; [|now rewrite !nth_error_set_nth_ne].
  destruct (le_lt_dec (length (e_handles (ke_env ke))) x) as [L|L].
  - assert (L' : (length (e_handles (ke_env ke')) <= x)%nat) by (apply nth_error_None; rewrite <- Hx; apply nth_error_None; auto).
    rewrite !(proj2 (nth_error_None _ _)); auto; now rewrite length_set_nth.
  - assert (L' : (x < length (e_handles (ke_env ke')))%nat) by (apply nth_error_Some; rewrite <- Hx; apply nth_error_Some; auto).
    now rewrite !nth_error_set_nth_eq.
Qed.
Lemma same_move ke ke' x a o : same_at ke ke' o -> same_at ke ke' (TheKept x) ->
  same_at (KEnv (ke_env ke) (set_nth x a (ke_kept ke))) (KEnv (ke_env ke') (set_nth x a (ke_kept ke'))) o.
Proof.
  intros H Hx. destruct o as [y|y|y]; cbn in *; auto.
  destruct (Nat.eq_dec x y) as [<-|Hn]; [|now rewrite !nth_error_set_nth_ne].
  destruct (le_lt_dec (length (ke_kept ke)) x) as [L|L].
  - assert (L' : (length (ke_kept ke') <= x)%nat) by (apply nth_error_None; rewrite <- Hx; apply nth_error_None; auto).
    rewrite !(proj2 (nth_error_None _ _)); auto; now rewrite length_set_nth.
  - assert (L' : (x < length (ke_kept ke'))%nat) by (apply nth_error_Some; rewrite <- Hx; apply nth_error_Some; auto).
    now rewrite !nth_error_set_nth_eq.
Qed.

(** two outcomes of changing members: the same outcome, the members the same
    wherever they were before *)
Definition changed_alike (ke ke' : kenv) (o o' : outcome kenv) : Prop :=
  match o, o' with
  | Ok k, Ok k' => forall t, same_at ke ke' t -> same_at k k' t
  | Abort, Abort | UB, UB => True
  | _, _ => False
  end.
Lemma changing_alike ke ke' (o o' : outcome kenv) k m : changed_alike ke ke' o o' ->
  changing (T := T) ke o = (k, m) -> exists k', changing (T := T) ke' o' = (k', m) /\ forall t, same_at ke ke' t -> same_at k k' t.
Proof. destruct o, o'; cbn; try tauto; intros H E; injection E as <- <-; eauto. Qed.
Lemma changed_alike_bind {A} ke ke' (x x' : outcome A) (f f' : A -> outcome kenv) : x = x' ->
  (forall a, x = Ok a -> changed_alike ke ke' (f a) (f' a)) -> changed_alike ke ke' (obind x f) (obind x' f').
Proof. intros <- H. destruct x; cbn [obind]; cbn; auto. Qed.

Lemma plan_local ke ke' c k m : agree ke ke' (looks_at ke c) -> plan ke c = Some (k, m) ->
  exists k', plan ke' c = Some (k', m) /\ forall o, same_at ke ke' o -> same_at k k' o.
Proof.
  assert (CH : forall o o' k0 m0, changed_alike ke ke' o o' -> Some (changing (T := T) ke o) = Some (k0, m0) ->
    exists k', Some (changing (T := T) ke' o') = Some (k', m0) /\ forall t, same_at ke ke' t -> same_at k0 k' t).
  { intros o o' k0 m0 H E. injection E as E. destruct (changing_alike ke ke' o o' k0 m0 H E) as (k' & E' & H'). exists k'. now rewrite E'. }
  assert (V : forall x, In (TheVar x) (looks_at ke c) -> agree ke ke' (looks_at ke c) -> var (ke_env ke) x = var (ke_env ke') x).
  { intros x Hx H. apply var_same. auto. }
  assert (N : forall x, In (TheName x) (looks_at ke c) -> agree ke ke' (looks_at ke c) -> named (ke_env ke) x = named (ke_env ke') x).
  { intros x Hx H. apply named_same. auto. }
  intros H. destruct c as [c|e|w e|i n|i|i j|i j|i|i v|e so aid|e subs|d s|d s|e i|e i v|e i|e i v|e f|op a b|q e]; cbn [Shared.plan looks_at] in *;
    try discriminate.
  - destruct c; cbn [looks_at] in *; try discriminate.
    + rewrite <- (V x), <- (V y) by (cbn; auto). intros E; injection E as <- <-; eauto.
    + rewrite <- (V x) by (cbn; auto). intros E; injection E as <- <-; eauto.
    + rewrite <- (N h) by (cbn; auto). intros E; injection E as <- <-; eauto.
    + apply CH. apply changed_alike_bind; [apply V; cbn; auto|]. intros a _. apply changed_alike_bind; auto. intros a' _.
      cbn. intros t Ht. apply (same_update ke ke'); auto. apply H; cbn; auto.
    + apply CH. apply changed_alike_bind; [apply V; cbn; auto|]. intros a _. apply changed_alike_bind; auto. intros a' _.
      cbn. intros t Ht. apply (same_update ke ke'); auto. apply H; cbn; auto.
    + apply CH. apply changed_alike_bind; [apply V; cbn; auto|]. intros a _. apply changed_alike_bind; auto. intros a' _.
      cbn. intros t Ht. apply (same_update ke ke'); auto. apply H; cbn; auto.
    + apply CH. apply changed_alike_bind; [apply N; cbn; auto|]. intros [a|a] _; (apply changed_alike_bind; auto; intros a' _;
      cbn; intros t Ht; apply (same_rename ke ke'); auto; apply H; cbn; auto).
    + apply CH. apply changed_alike_bind; [apply N; cbn; auto|]. intros [a|a] _; (apply changed_alike_bind; auto; intros a' _;
      cbn; intros t Ht; apply (same_rename ke ke'); auto; apply H; cbn; auto).
    + apply CH. apply changed_alike_bind; [apply N; cbn; auto|]. intros [a|a] _; [exact I|]. apply changed_alike_bind; auto; intros a' _;
      cbn; intros t Ht; apply (same_rename ke ke'); auto; apply H; cbn; auto.
  - apply CH. assert (Hk : same_at ke ke' (TheKept i)) by (apply H; left; reflexivity).
    apply changed_alike_bind; [apply kept_at_same; auto|]. intros o Ho.
    apply changed_alike_bind; [eapply kept_nd_same; eauto|]. intros a _. apply changed_alike_bind; auto. intros k' _.
    cbn [changed_alike]. intros t Ht. apply same_move; auto.
  - apply agree_app in H. destruct H as [H1 H2]. intros E. injection E as <- <-. exists ke'. split; auto. do 3 f_equal.
    rewrite (kept_same ke ke' i) by auto. destruct (kept_at ke' i) as [o| |]; try reflexivity. cbn [obind].
    destruct (kept_nd (ke_env ke') o) as [a| |]; try reflexivity. cbn [obind]. now rewrite (kept_same ke ke' j) by auto.
  - apply agree_app in H. destruct H as [H1 H2]. intros E. injection E as <- <-. exists ke'. split; auto. do 3 f_equal.
    rewrite (kept_same ke ke' i) by auto. destruct (kept_at ke' i) as [o| |]; try reflexivity. cbn [obind].
    destruct (kept_nd (ke_env ke') o) as [a| |]; try reflexivity. cbn [obind]. now rewrite (kept_same ke ke' j) by auto.
  - rewrite (kept_same ke ke' i) by auto. intros E; injection E as <- <-; eauto.
  - rewrite (kept_same ke ke' i) by auto. intros E; injection E as <- <-; eauto.
  - apply agree_app in H. destruct H as [H1 H2]. rewrite (keval_nd_same chk ke ke' d), (keval_nd_same chk ke ke' s) by auto.
    intros E; injection E as <- <-; eauto.
  - apply agree_app in H. destruct H as [H1 H2]. rewrite (keval_nd_same chk ke ke' d), (keval_nd_same chk ke ke' s) by auto.
    intros E; injection E as <- <-; eauto.
  - rewrite (keval_nd_same chk ke ke' e) by auto. intros E; injection E as <- <-; eauto.
  - rewrite (keval_nd_same chk ke ke' e) by auto. intros E; injection E as <- <-; eauto.
  - rewrite (keval_nd_same chk ke ke' e) by auto. intros E; injection E as <- <-; eauto.
  - rewrite (keval_nd_same chk ke ke' e) by auto. intros E; injection E as <- <-; eauto.
  - rewrite (keval_nd_same chk ke ke' e) by auto. intros E; injection E as <- <-; eauto.
  - apply agree_app in H. destruct H as [H1 H2]. rewrite (keval_nd_same chk ke ke' a), (keval_nd_same chk ke ke' b) by auto.
    intros E; injection E as <- <-; eauto.
  - rewrite (keval_same chk ke ke' e) by auto. intros E; injection E as <- <-; eauto.
Qed.

(** what a call leaves alone *)
Lemma plan_frame ke c k m : plan ke c = Some (k, m) ->
  parents k = parents ke /\ forall o, ~ In o (changes c) -> same_at ke k o.
Proof.
  assert (CH : forall (o : outcome kenv) k0 m0 (l : list thing), Some (changing (T := T) ke o) = Some (k0, m0) ->
    (forall k1, o = Ok k1 -> parents k1 = parents ke /\ forall t, ~ In t l -> same_at ke k1 t) ->
    parents k0 = parents ke /\ forall t, ~ In t l -> same_at ke k0 t).
  { intros o k0 m0 l E H. injection E as E. destruct o; cbn in E; injection E as <- <-; auto using same_at_refl. }
  assert (U : forall x a, parents (with_env ke (update (ke_env ke) x a)) = parents ke /\
    forall t, ~ In t [TheVar x] -> same_at ke (with_env ke (update (ke_env ke) x a)) t).
  { intros x a. split; [reflexivity|]. intros [y|y|y] Ht; cbn; auto. rewrite nth_error_set_nth_ne; auto. intros ->. apply Ht. left; auto. }
  assert (V : forall x a, parents (with_env ke (rename (ke_env ke) x a)) = parents ke /\
    forall t, ~ In t [TheName x] -> same_at ke (with_env ke (rename (ke_env ke) x a)) t).
  { intros x a. split; [reflexivity|]. intros [y|y|y] Ht; cbn; auto. rewrite nth_error_set_nth_ne; auto. intros ->. apply Ht. left; auto. }
  destruct c as [c|e|w e|i n|i|i j|i j|i|i v|e so aid|e subs|d s|d s|e i|e i v|e i|e i v|e f|op a b|q e]; cbn [Shared.plan changes] in *;
    try discriminate; try (intros E; injection E as <- <-; split; [reflexivity|intros o _; apply same_at_refl]).
  - destruct c; cbn [changes] in *; try discriminate; try (intros E; injection E as <- <-; split; [reflexivity|intros o _; apply same_at_refl]);
      intros E; eapply CH; try exact E; intros k1 E1.
    + destruct (var _ _) as [a| |]; try discriminate. cbn [obind] in E1. destruct (ma_reindex a bases); try discriminate. injection E1 as <-. apply U.
    + destruct (var _ _) as [a| |]; try discriminate. cbn [obind] in E1. destruct (ma_reindex1 a _); try discriminate. injection E1 as <-. apply U.
    + destruct (var _ _) as [a| |]; try discriminate. cbn [obind] in E1. destruct (ma_reshape chk a shape); try discriminate. injection E1 as <-. apply U.
    + destruct (named _ _) as [[a|a]| |]; try discriminate; cbn [obind] in E1.
      * destruct (v_reindex a bases); try discriminate. injection E1 as <-. apply V.
      * destruct (cr_reindex a bases); try discriminate. injection E1 as <-. apply V.
    + destruct (named _ _) as [[a|a]| |]; try discriminate; cbn [obind] in E1.
      * destruct (v_reindex1 a _); try discriminate. injection E1 as <-. apply V.
      * destruct (cr_reindex1 a _); try discriminate. injection E1 as <-. apply V.
    + destruct (named _ _) as [[a|a]| |]; try discriminate; cbn [obind] in E1; try discriminate.
      destruct (cr_reshape chk a shape); try discriminate. injection E1 as <-. apply V.
  - intros E; eapply CH; try exact E; intros k1 E1. unfold kept_at in E1.
    destruct (nth_error (ke_kept ke) i) as [o|] eqn:Eo; try discriminate. cbn [obind] in E1.
    destruct (kept_nd _ o); try discriminate. cbn [obind] in E1. destruct (moved_kind _ _ _); try discriminate. injection E1 as <-. split.
    + unfold parents. cbn [ke_kept]. apply nth_error_same. intros j. rewrite !nth_error_map.
      destruct (Nat.eq_dec i j) as [<-|Hn]; [|now rewrite nth_error_set_nth_ne].
      rewrite nth_error_set_nth_eq by (apply nth_error_Some; congruence). rewrite Eo. reflexivity.
    + intros [y|y|y] Ht; cbn; auto. rewrite nth_error_set_nth_ne; auto. intros ->. apply Ht. left; auto.
Qed.
End Local.

(** * Threads *)
Definition thing_eq_dec (o o' : thing) : {o = o'} + {o <> o'}.
Proof. decide equality; apply Nat.eq_dec. Defined.

Section Pool.
Context {T : Type}.
Variable dflt : T.
Variables (eqT ltT : T -> T -> bool).
Variable chk : bool.
Notation plan := (@plan T eqT ltT chk).
Notation output := (@output T).

(** the calls of a thread with all operands evaluated *)
Fixpoint resolve (ke : kenv) (t : list (@kcommand T)) : option (kenv * list (prog T output)) :=
  match t with
  | [] => Some (ke, [])
  | c :: t => match plan ke c with
              | Some (ke1, m) => match resolve ke1 t with Some (ke2, ms) => Some (ke2, m :: ms) | None => None end
              | None => None
              end
  end.
Fixpoint chain (ms : list (prog T output)) (outs : list output) : prog T (list output) :=
  match ms with [] => PRet outs | m :: ms => pbind m (fun o => chain ms (outs ++ [o])) end.
Definition residual (w : worker T) (ms : list (prog T output)) : prog T (list output) :=
  match wk_now w with
  | None => chain ms (wk_outs w)
  | Some (_, m) => pbind m (fun o => chain ms (wk_outs w ++ [o]))
  end.
Definition thread_things (ke : kenv) (t : list (@kcommand T)) : list thing := flat_map (looks_at ke) t.
Definition thread_changes (t : list (@kcommand T)) : list thing := flat_map changes t.

Lemma thread_changes_looked_at ke t o : In o (thread_changes t) -> In o (thread_things ke t).
Proof.
  unfold thread_changes, thread_things. rewrite !in_flat_map. intros (c & Hc & Ho). exists c. split; auto. now apply changes_looked_at.
Qed.
Lemma thread_things_parents ke ke' t : parents ke = parents ke' -> thread_things ke t = thread_things ke' t.
Proof. intros H. unfold thread_things. apply flat_map_ext. intros c. now apply looks_at_parents. Qed.

Lemma resolve_frame t : forall ke kf ms, resolve ke t = Some (kf, ms) ->
  parents kf = parents ke /\ forall o, ~ In o (thread_changes t) -> same_at ke kf o.
Proof.
  induction t as [|c t IH]; intros ke kf ms E; cbn [resolve] in E.
  - injection E as <- <-. auto using same_at_refl.
  - destruct (plan ke c) as [[k1 m]|] eqn:P; [|discriminate]. destruct (resolve k1 t) as [[k2 ms']|] eqn:R; [|discriminate].
    injection E as <- <-. destruct (plan_frame eqT ltT chk _ _ _ _ P) as [P1 F1]. destruct (IH _ _ _ R) as [P2 F2].
    split; [congruence|]. intros o Ho. unfold thread_changes in *. cbn [flat_map] in Ho. rewrite in_app_iff in Ho.
    eapply same_at_trans; [apply F1|apply F2]; tauto.
Qed.
Lemma resolve_local t : forall ke ke' kf ms, parents ke = parents ke' -> agree ke ke' (thread_things ke t) ->
  resolve ke t = Some (kf, ms) ->
  exists kf', resolve ke' t = Some (kf', ms) /\ forall o, same_at ke ke' o -> same_at kf kf' o.
Proof.
  induction t as [|c t IH]; intros ke ke' kf ms HP HA E; cbn [resolve] in *.
  - injection E as <- <-. eauto.
  - destruct (plan ke c) as [[k1 m]|] eqn:P; [|discriminate]. destruct (resolve k1 t) as [[k2 ms']|] eqn:R; [|discriminate].
    injection E as <- <-. unfold thread_things in HA. cbn [flat_map] in HA. apply agree_app in HA. destruct HA as [HA1 HA2].
    destruct (plan_local eqT ltT chk ke ke' c k1 m HA1 P) as (k1' & P' & S1).
    destruct (plan_frame eqT ltT chk _ _ _ _ P) as [P1 _]. destruct (plan_frame eqT ltT chk _ _ _ _ P') as [P1' _].
    destruct (IH k1 k1' k2 ms') as (k2' & R' & S2); auto; [congruence| |].
    + rewrite (thread_things_parents k1 ke) by auto. intros o Ho. apply S1, HA2, Ho.
    + exists k2'. rewrite P', R'. split; auto.
Qed.

(** running the resolved calls is running the thread *)
Lemma bind_run_ext {A B} (m : prog T A) (f g : A -> M T B) w : quiet w ->
  (forall a w', quiet w' -> f a w' = g a w') -> bind (run_prog m) f w = bind (run_prog m) g w.
Proof.
  intros Q H. unfold bind. destruct (run_prog m w) as [a w'| | | |] eqn:E; auto. apply H. eapply run_prog_keeps; eauto.
Qed.
Lemma alone_chain t : forall ke kf ms outs w, resolve ke t = Some (kf, ms) -> quiet w ->
  bind (run_prog (chain ms outs)) (fun l => ret (kf, l)) w =
  bind (alone dflt eqT ltT chk ke t) (fun r => ret (fst r, outs ++ snd r)) w.
Proof.
  induction t as [|c t IH]; intros ke kf ms outs w E Q; cbn [resolve alone] in *.
  - injection E as <- <-. cbn [chain run_prog]. unfold bind, ret. cbn [fst snd]. now rewrite app_nil_r.
  - destruct (plan ke c) as [[k1 m]|] eqn:P; [|discriminate]. destruct (resolve k1 t) as [[k2 ms']|] eqn:R; [|discriminate].
    injection E as <- <-. cbn [chain].
    assert (K : kexec dflt eqT ltT chk ke c w = bind (run_prog m) (fun o => ret (k1, o)) w).
    { rewrite <- (plan_refines dflt eqT ltT chk ke c k1 m P w Q). rewrite run_prog_bind. reflexivity. }
    transitivity (bind (run_prog m) (fun o => bind (run_prog (chain ms' (outs ++ [o]))) (fun l => ret (k2, l))) w).
    { rewrite <- bind_assoc. apply bind_ext; auto. apply run_prog_bind. }
    rewrite bind_assoc. rewrite (bind_ext (kexec dflt eqT ltT chk ke c) (bind (run_prog m) (fun o => ret (k1, o))) _ _ w K (fun _ _ => eq_refl)).
    rewrite bind_assoc. apply bind_run_ext; auto. intros o w' Q'. rewrite (IH k1 k2 ms' (outs ++ [o]) w' R Q').
    unfold bind, ret. cbn [fst snd]. destruct (alone dflt eqT ltT chk k1 t w') as [[a b] w2| | | |]; auto.
    cbn [fst snd]. now rewrite <- app_assoc.
Qed.

Variable ke0 : kenv.
Variable threads : list (list (@kcommand T)).
Hypothesis resolved : forall t, In t threads -> exists kf ms, resolve ke0 t = Some (kf, ms).
Hypothesis unshared : undisturbed ke0 threads.

Definition thread_prog (t : list (@kcommand T)) : prog T (list output) :=
  match resolve ke0 t with Some (_, ms) => chain ms [] | None => PUndef end.
Definition final (t : list (@kcommand T)) : kenv := match resolve ke0 t with Some (kf, _) => kf | None => ke0 end.

Lemma unshared_things i j t u o : i <> j -> nth_error threads i = Some t -> nth_error threads j = Some u ->
  In o (thread_changes t) -> ~ In o (thread_things ke0 u) /\ ~ In o (thread_changes u).
Proof.
  intros Hij Ht Hu Ho. unfold thread_changes, thread_things in *. rewrite in_flat_map in Ho. destruct Ho as (c & Hc & Ho).
  rewrite !in_flat_map. split; intros (c' & Hc' & Ho'); destruct (unshared i j t u c c' o Hij Ht Hu Hc Hc' Ho); auto.
Qed.

Lemma in_turn_run order : forall ke, parents ke = parents ke0 -> NoDup order ->
  (forall i, In i order -> exists t, nth_error threads i = Some t /\ agree ke0 ke (thread_things ke0 t)) ->
  exists kf,
    (forall w, quiet w -> in_turn dflt eqT ltT chk ke threads order w =
       bind (run_order (map thread_prog threads) order) (fun l => ret (kf, l)) w) /\
    (forall i t, In i order -> nth_error threads i = Some t -> agree (final t) kf (thread_changes t)) /\
    (forall o, (forall i t, In i order -> nth_error threads i = Some t -> ~ In o (thread_changes t)) -> same_at ke kf o).
Proof.
  induction order as [|i order IH]; intros ke HP HN HA.
  - exists ke. split; [reflexivity|]. split; [intros i t []|]. intros o _. apply same_at_refl.
  - inversion HN as [|x y Hx HN']; subst. destruct (HA i (or_introl eq_refl)) as (t & Ht & At).
    destruct (resolved t) as (F & ms & R); [eapply nth_error_In; eauto|].
    destruct (resolve_local t ke0 ke F ms (eq_sym HP) At R) as (F' & R' & SF).
    destruct (resolve_frame t _ _ _ R') as [PF FF].
    destruct (IH F') as (kf & E & C1 & C2); auto; [congruence| |].
    { intros j Hj. destruct (HA j (or_intror Hj)) as (u & Hu & Au). exists u. split; auto. intros o Ho.
      eapply same_at_trans; [apply Au; auto|]. apply FF. intros Hc.
      destruct (unshared_things i j t u o) as [N _]; auto. intros ->; auto. }
    exists kf. split; [|split].
    + intros w Q. cbn [in_turn run_order]. rewrite Ht, nth_error_map, Ht. cbn [option_map].
      unfold thread_prog at 1. rewrite R. pose proof (alone_chain t ke F' ms [] w R' Q) as EA.
      assert (EA' : alone dflt eqT ltT chk ke t w = bind (run_prog (chain ms [])) (fun l => ret (F', l)) w).
      { rewrite EA. unfold bind, ret. cbn [app]. destruct (alone dflt eqT ltT chk ke t w) as [[a b] w'| | | |]; reflexivity. }
      rewrite bind_assoc. unfold bind at 1 3. rewrite EA'. unfold bind at 1.
      destruct (run_prog (chain ms []) w) as [outs w'| | | |] eqn:Er; try reflexivity. cbn [ret fst snd].
      unfold bind at 1. rewrite E by (eapply run_prog_keeps; eauto). rewrite bind_assoc. unfold bind at 1 2.
      destruct (run_order (map thread_prog threads) order w'); reflexivity.
    + intros j u [<-|Hj] Hu; [|eauto]. rewrite Ht in Hu. injection Hu as <-. intros o Ho.
      unfold final. rewrite R. eapply same_at_trans; [apply SF, At; apply thread_changes_looked_at; auto|].
      apply C2. intros j u Hj Hu Hc. destruct (unshared_things i j t u o) as [_ N]; auto. intros ->; auto.
    + intros o Ho. eapply same_at_trans; [apply FF; eapply Ho; [left; reflexivity|auto]|]. apply C2.
      intros j u Hj. apply Ho. right; auto.
Qed.

(** ** Interleaving *)
Lemma t_steps_snoc {A} (s s' s'' : heap T * list (prog T A)) : t_steps s s' -> t_step s' s'' -> t_steps s s''.
Proof. induction 1 as [s|s s1 s2 H1 H2 IH]; intros H; [eapply sts_step; [exact H|apply sts_here]|eapply sts_step; eauto]. Qed.

Definition invariant (h0 : heap T) (s : kenv * heap T * list (worker T)) : Prop :=
  let '(ke, h, pool) := s in
  parents ke = parents ke0 /\
  (forall o, (forall t, In t threads -> ~ In o (thread_changes t)) -> same_at ke0 ke o) /\
  length pool = length threads /\
  exists rp, t_steps (h0, map thread_prog threads) (h, rp) /\ length rp = length pool /\
    forall i w, nth_error pool i = Some w ->
      exists t K ms, nth_error threads i = Some t /\
        (forall c, In c (wk_todo w) \/ (exists m, wk_now w = Some (c, m)) -> In c t) /\
        resolve K (wk_todo w) = Some (final t, ms) /\ parents K = parents ke0 /\
        agree ke K (thread_things ke0 t) /\ nth_error rp i = Some (residual w ms).

Lemma nth_error_set_nth {A} (l : list A) i j x y : nth_error (set_nth i x l) j = Some y ->
  (i = j /\ x = y) \/ (i <> j /\ nth_error l j = Some y).
Proof.
  intros H. destruct (Nat.eq_dec i j) as [<-|Hn].
  - left. split; auto. destruct (le_lt_dec (length l) i) as [L|L].
    + rewrite (proj2 (nth_error_None _ _)) in H by (now rewrite length_set_nth). discriminate.
    + rewrite nth_error_set_nth_eq in H by auto. congruence.
  - right. split; auto. now rewrite nth_error_set_nth_ne in H.
Qed.

Lemma invariant_start h : invariant h (ke0, h, map not_started threads).
Proof.
  split; auto. split; [intros; apply same_at_refl|]. split; [apply map_length|].
  exists (map thread_prog threads). split; [apply sts_here|]. split; [now rewrite !map_length|].
  intros i w Hw. rewrite nth_error_map in Hw. destruct (nth_error threads i) as [t|] eqn:Et; [|discriminate]. injection Hw as <-.
  destruct (resolved t) as (F & ms & R); [eapply nth_error_In; eauto|].
  exists t, ke0, ms. split; auto. split; [intros c [H|[m H]]; [exact H|discriminate]|].
  split; [unfold final; cbn; now rewrite R|]. split; auto. split; [intros o _; apply same_at_refl|].
  rewrite nth_error_map, Et. cbn. unfold thread_prog. now rewrite R.
Qed.

Lemma invariant_step h0 s s' : sh_step eqT ltT chk s s' -> invariant h0 s -> invariant h0 s'.
Proof.
  intros H. destruct H as [ke h pool i outs c todo ke' m Hi P|ke h pool i outs c p k todo v Hi Hv|ke h pool i outs c p v k todo h' Hi Hv|ke h pool i outs c o todo Hi];
    intros (HP & HF & HL & rp & HS & HLr & HW).
  - destruct (HW i _ Hi) as (t & K & ms & Ht & Hin & R & PK & AK & Er). cbn [wk_todo wk_now wk_outs] in *.
    destruct (plan_frame eqT ltT chk _ _ _ _ P) as [P1 F1].
    assert (Hc : In c t) by (apply Hin; left; left; auto).
    assert (Hcc : forall o, In o (changes c) -> In o (thread_changes t)) by (intros o Ho; apply in_flat_map; eauto).
    destruct (plan_local eqT ltT chk ke K c ke' m) as (K' & P' & S1); auto.
    { rewrite (looks_at_parents ke ke0) by auto. intros o Ho. apply AK. apply in_flat_map. eauto. }
    destruct (plan_frame eqT ltT chk _ _ _ _ P') as [P1' _].
    cbn [resolve] in R. rewrite P' in R. destruct (resolve K' todo) as [[k2 ms']|] eqn:R'; [|discriminate]. injection R as -> <-.
    split; [congruence|]. split.
    { intros o Ho. eapply same_at_trans; [apply HF; auto|]. apply F1. intros Hx. apply (Ho t); [eapply nth_error_In; eauto|auto]. }
    split; [rewrite length_set_nth; auto|]. exists rp. split; auto. split; [rewrite length_set_nth; auto|].
    intros j w Hw. apply nth_error_set_nth in Hw. destruct Hw as [[<- <-]|[Hn Hw]].
    + exists t, K', ms'. cbn [wk_todo wk_now]. split; auto. split.
      { intros d [Hd|[m' Hd]]; [apply Hin; left; right; auto|]. injection Hd as <- _. auto. }
      split; auto. split; [congruence|]. split; [|exact Er]. intros o Ho. apply S1, AK, Ho.
    + destruct (HW j w Hw) as (u & K2 & ms2 & Hu & Hin2 & R2 & PK2 & AK2 & Er2).
      exists u, K2, ms2. split; auto. split; auto. split; auto. split; auto. split; auto.
      intros o Ho. eapply same_at_trans; [|apply AK2; auto]. apply same_at_sym, F1. intros Hx.
      destruct (unshared_things i j t u o) as [N _]; auto.
  - destruct (HW i _ Hi) as (t & K & ms & Ht & Hin & R & PK & AK & Er). cbn [wk_todo wk_now wk_outs residual] in *.
    split; auto. split; auto. split; [rewrite length_set_nth; auto|].
    set (w' := Worker outs (Some (c, k v)) todo). exists (set_nth i (residual w' ms) rp).
    split; [|split; [rewrite !length_set_nth; auto|]].
    + eapply t_steps_snoc; [exact HS|]. cbn [residual wk_now pbind wk_outs] in Er.
      exact (st_load h rp i p _ v Er Hv).
    + intros j w Hw. apply nth_error_set_nth in Hw. destruct Hw as [[<- <-]|[Hn Hw]].
      * exists t, K, ms. cbn [wk_todo wk_now]. split; auto. split.
        { intros d [Hd|[m' Hd]]; apply Hin; [auto|]. injection Hd as <- _. right. eauto. }
        split; auto. split; auto. split; auto. apply nth_error_set_nth_eq. apply nth_error_Some. congruence.
      * rewrite nth_error_set_nth_ne by auto. auto.
  - destruct (HW i _ Hi) as (t & K & ms & Ht & Hin & R & PK & AK & Er). cbn [wk_todo wk_now wk_outs residual] in *.
    split; auto. split; auto. split; [rewrite length_set_nth; auto|].
    set (w' := Worker outs (Some (c, k)) todo). exists (set_nth i (residual w' ms) rp).
    split; [|split; [rewrite !length_set_nth; auto|]].
    + eapply t_steps_snoc; [exact HS|]. cbn [residual wk_now pbind wk_outs] in Er.
      exact (st_store h rp i p v _ h' Er Hv).
    + intros j w Hw. apply nth_error_set_nth in Hw. destruct Hw as [[<- <-]|[Hn Hw]].
      * exists t, K, ms. cbn [wk_todo wk_now]. split; auto. split.
        { intros d [Hd|[m' Hd]]; apply Hin; [auto|]. injection Hd as <- _. right. eauto. }
        split; auto. split; auto. split; auto. apply nth_error_set_nth_eq. apply nth_error_Some. congruence.
      * rewrite nth_error_set_nth_ne by auto. auto.
  - destruct (HW i _ Hi) as (t & K & ms & Ht & Hin & R & PK & AK & Er). cbn [wk_todo wk_now wk_outs] in *.
    split; auto. split; auto. split; [rewrite length_set_nth; auto|]. exists rp. split; auto. split; [rewrite length_set_nth; auto|].
    intros j w Hw. apply nth_error_set_nth in Hw. destruct Hw as [[<- <-]|[Hn Hw]]; [|auto].
    exists t, K, ms. cbn [wk_todo wk_now]. split; auto. split; [|split; auto].
    intros d [Hd|[m' Hd]]; [apply Hin; auto|discriminate].
Qed.
Lemma invariant_steps h0 s s' : sh_steps eqT ltT chk s s' -> invariant h0 s -> invariant h0 s'.
Proof. induction 1; eauto using invariant_step. Qed.
End Pool.

(** * Every schedule ends *)
Section Ends.
Context {T : Type}.
Variables (eqT ltT : T -> T -> bool).
Variable chk : bool.

Inductive worker_lower : worker T -> worker T -> Prop :=
| wl_begin : forall outs c m todo, worker_lower (Worker outs (Some (c, m)) todo) (Worker outs None (c :: todo))
| wl_access : forall outs c m m' todo, child m' m -> worker_lower (Worker outs (Some (c, m')) todo) (Worker outs (Some (c, m)) todo)
| wl_end : forall outs outs' c m todo, worker_lower (Worker outs' None todo) (Worker outs (Some (c, m)) todo).
Lemma worker_acc w : Acc worker_lower w.
Proof.
  assert (W : forall todo, (forall outs, Acc worker_lower (Worker outs None todo)) -> forall outs c m, Acc worker_lower (Worker outs (Some (c, m)) todo)).
  { intros todo H outs c m. pose proof (child_acc m) as Hm. induction Hm as [m _ IH]. constructor. intros y Hy. inversion Hy; subst; auto. }
  destruct w as [outs now todo]. revert outs now.
  induction todo as [|c todo IH].
  - assert (N : forall outs, Acc worker_lower (Worker outs None [])) by (intros outs; constructor; intros y Hy; inversion Hy).
    intros outs [[c m]|]; auto.
  - assert (N : forall outs, Acc worker_lower (Worker outs None (c :: todo))).
    { intros outs. constructor. intros y Hy. inversion Hy; subst. apply IH. }
    intros outs [[c' m]|]; auto.
Qed.
Inductive pool_lower : list (worker T) -> list (worker T) -> Prop :=
| pl_here : forall m m' l, worker_lower m' m -> pool_lower (m' :: l) (m :: l)
| pl_next : forall m l l', pool_lower l' l -> pool_lower (m :: l') (m :: l).
Lemma pool_acc l : Acc pool_lower l.
Proof.
  induction l as [|m l IH]; [constructor; intros y H; inversion H|].
  generalize (worker_acc m). intros Hm. revert l IH. induction Hm as [m _ IHm]. intros l Hl.
  induction Hl as [l Hl0 IHl]. constructor. intros y H. inversion H as [m1 m' l1 Hc|m1 l1 l' Hc]; subst.
  - apply IHm; auto. constructor; auto.
  - apply IHl. auto.
Qed.
Lemma set_nth_pool_lower pool i m m' : nth_error pool i = Some m -> worker_lower m' m -> pool_lower (set_nth i m' pool) pool.
Proof.
  revert i. induction pool as [|x pool IH]; intros [|i] H Hc; cbn [nth_error] in H; try discriminate; cbn [set_nth].
  - injection H as ->. constructor; auto.
  - constructor. auto.
Qed.
Lemma sh_step_acc s : Acc (fun s' s => sh_step eqT ltT chk s s') s.
Proof.
  destruct s as [[ke h] pool]. pose proof (pool_acc pool) as H. revert ke h. induction H as [pool _ IH]. intros ke h.
  constructor. intros [[ke' h'] pool'] Hs. apply IH.
  inversion Hs; subst; (eapply set_nth_pool_lower; [eassumption|]); repeat constructor.
Qed.
End Ends.
