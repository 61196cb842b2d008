(** FootProofs.v -- which blocks the steps of a thread change, and what a thread does
    when others take steps in between *)

From Coq Require Import ZArith List Bool Lia.
From Verif Require Import Base StorageOrder Ranges Layout Access Objects Memory Ops MultiArray History Threads Concur.
From Verif Require Import Spec ReachSpec MemSpec OwnSpec HistorySpec CostSpec ConcurSpec.
From Verif Require Import Facts LayoutProofs AccessProofs ViewProofs ReachProofs MemoryProofs HistoryProofs ConcurProofs.
From Verif Require ConstProofs.
Import ListNotations.
Local Open Scope Z_scope.

Section Foot.
Context {T : Type}.

(** m obtains no block and changes only blocks in P *)
Fixpoint late {A} (P : nat -> Prop) (m : job T A) : Prop :=
  match m with
  | JRet _ | JThrow | JAbort | JUndef | JFuel => True
  | JArm _ k => late P k
  | JTick g b => late P g /\ late P b
  | JRead _ k => forall v, late P (k v)
  | JWrite p _ k | JFree _ p _ k | JMake p _ k | JKill p k => P (p_blk p) /\ late P k
  | JAlloc _ _ _ => False
  end.
Lemma late_jtry {A B} (P : nat -> Prop) (m : job T A) (ok : A -> job T B) thrown : late P m -> (forall a, late P (ok a)) -> late P thrown ->
  late P (jtry m ok thrown).
Proof. intros Hm Ho Ht. induction m; cbn [jtry late] in *; intuition auto. Qed.
Lemma late_bind {A B} (P : nat -> Prop) (m : job T A) (f : A -> job T B) : late P m -> (forall a, late P (f a)) -> late P (jbind m f).
Proof. intros H1 H2. apply late_jtry; auto. exact I. Qed.
Lemma late_lift {A B} (P : nat -> Prop) (o : outcome A) (f : A -> job T B) : (forall a, o = Ok a -> late P (f a)) -> late P (jbind (jlift o) f).
Proof. intros H. destruct o; cbn; auto. Qed.
Lemma late_on_throw {A} (P : nat -> Prop) (m : job T A) g : late P m -> late P g -> late P (jon_throw m g).
Proof. intros H1 H2. apply late_jtry; auto; [intros; exact I|]. apply late_jtry; auto; intros; exact I. Qed.
Lemma late_tick (P : nat -> Prop) : late P (@jtick T). Proof. cbn. auto. Qed.
Lemma late_load (P : nat -> Prop) p : late P (@jload T p). Proof. cbn. auto. Qed.
Lemma late_store (P : nat -> Prop) p v : P (p_blk p) -> late P (@jstore T p v). Proof. cbn. auto. Qed.
Lemma late_elem (P : nat -> Prop) q p : P (p_blk q) -> late P (@j_elem_assign T q p).
Proof. intros H. cbn. auto. Qed.
Lemma late_destroy_n (P : nat -> Prop) p : P (p_blk p) -> forall n, late P (@j_alloc_destroy_n T p n).
Proof. intros H. induction n; cbn; auto. Qed.
Lemma late_construct_loop (P : nat -> Prop) d p : P (p_blk p) -> forall n i, late P (@j_alloc_construct_loop T d p i n).
Proof.
  intros H. induction n; intros i; cbn [j_alloc_construct_loop]; [exact I|]. apply late_bind; [|auto].
  apply late_on_throw; [|apply late_destroy_n; auto]. cbn. auto.
Qed.
Lemma late_copy_loop (P : nat -> Prop) body : (forall f r, P (p_blk (it_base r)) -> late P (body f r)) ->
  forall n f l r, P (p_blk (it_base r)) -> late P (@j_copy_loop T body n f l r).
Proof.
  intros HB. induction n; intros f l r Hr; cbn [j_copy_loop]; destruct (it_equal f l); try exact I.
  apply late_bind; [auto|]. intros _. apply late_lift. intros f' _. apply late_lift. intros r' Hr'. apply IHn.
  now rewrite (ConstProofs.it_inc_blk _ _ Hr').
Qed.
Lemma late_copy_rows (P : nat -> Prop) rec chk k d s : (forall d s, P (p_blk (nd_org d)) -> late P (rec d s)) -> P (p_blk (nd_org d)) ->
  late P (@j_copy_rows T rec chk k d s).
Proof.
  intros HR Hd. unfold j_copy_rows. apply late_lift. intros f _. apply late_lift. intros l _. apply late_lift. intros r Hr.
  apply late_copy_loop; [|rewrite (ConstProofs.nd_begin_blk _ _ Hr); auto]. intros f0 r0 H0. destruct k.
  - apply late_lift. intros p _. apply late_lift. intros q Hq. apply late_elem. rewrite (ConstProofs.access_one_blk _ _ _ _ Hq). auto.
  - apply late_lift. intros p _. apply late_lift. intros q Hq. apply HR. rewrite (ConstProofs.access_n_blk _ _ _ _ Hq). auto.
Qed.
Lemma late_assign_nd (P : nat -> Prop) chk : forall n d s, P (p_blk (nd_org d)) -> late P (@j_assign_nd T chk n d s).
Proof. induction n; intros d s Hd; [exact I|]. cbn [j_assign_nd]. apply late_lift. intros _ _. apply late_copy_rows; auto. Qed.
Lemma late_std_copy (P : nat -> Prop) chk n d s : P (p_blk (nd_org d)) -> late P (@j_std_copy_nd T chk n d s).
Proof. intros Hd. destruct n; [exact I|]. cbn [j_std_copy_nd]. apply late_copy_rows; auto. apply late_assign_nd. Qed.
Lemma late_copy_array (P : nat -> Prop) chk n d s : P (p_blk (nd_org d)) -> late P (@j_copy_array T chk n d s).
Proof.
  intros Hd. unfold j_copy_array. apply late_lift. intros _ _. revert d s Hd. induction n; intros d s Hd; [exact I|].
  cbn [j_copy_dispatch]. apply late_copy_rows; auto.
Qed.
Lemma late_each_loop (P : nat -> Prop) body : (forall i, P (p_blk (it_base i)) -> late P (body i)) ->
  forall n f l, P (p_blk (it_base f)) -> late P (@j_each_loop T body n f l).
Proof.
  intros HB. induction n; intros f l Hf; cbn [j_each_loop]; destruct (it_equal f l); try exact I.
  apply late_bind; [auto|]. intros _. apply late_lift. intros f' Hf'. apply IHn. now rewrite (ConstProofs.it_inc_blk _ _ Hf').
Qed.
Lemma late_for_each (P : nat -> Prop) chk x : forall n a, P (p_blk (nd_org a)) -> late P (@j_for_each T chk x n a).
Proof.
  induction n; intros a Ha; [exact I|]. cbn [j_for_each]. apply late_lift. intros f Hf. apply late_lift. intros l _.
  apply late_each_loop; [|rewrite (ConstProofs.nd_begin_blk _ _ Hf); auto]. intros i Hi. destruct n.
  - apply late_lift. intros p Hp. cbn. intros _. rewrite (ConstProofs.access_one_blk _ _ _ _ Hp). auto.
  - apply late_lift. intros s Hs. apply IHn. rewrite (ConstProofs.access_n_blk _ _ _ _ Hs). auto.
Qed.
Lemma late_assign_loop (P : nat -> Prop) num : forall l p k, P (p_blk p) -> late P (@j_assign_loop T p l k num).
Proof. induction l; intros p k Hp; cbn [j_assign_loop]; [exact I|]. destruct (k <? num); [|exact I]. cbn. split; [split|]; auto. Qed.
Lemma late_destroy (P : nat -> Prop) a : P (ma_block a) -> late P (@j_ma_destroy T a).
Proof. intros H. apply late_bind; [apply late_destroy_n; auto|]. intros _. cbn. auto. Qed.
Lemma late_copy_n (P : nat -> Prop) : forall m p q, P (p_blk q) -> late P (@j_copy_n_elems T p m q).
Proof. induction m; intros p q Hq; cbn [j_copy_n_elems]; [exact I|]. apply late_bind; [apply late_elem; auto|]. intros _. apply IHm. auto. Qed.
Lemma element_blk chk a i p : access_element chk a i = Ok p -> p_blk p = p_blk (nd_org a).
Proof. unfold access_element. intros H. oinv H. oinv H. inversion H; subst. reflexivity. Qed.
Lemma bracket_blk chk : forall i a p, bracket chk a i = Ok p -> p_blk p = p_blk (nd_org a).
Proof.
  induction i as [|i is IH]; intros a p H; [discriminate H|]. cbn [bracket] in H. destruct is as [|j is].
  - apply (ConstProofs.access_one_blk _ _ _ _ H).
  - oinv H. rewrite (IH _ _ H). apply (ConstProofs.access_n_blk _ _ _ _ E).
Qed.
Lemma view_blk chk a ig v : make_view chk a ig = Ok v -> p_blk (nd_org (v_nd v)) = p_blk (nd_org a).
Proof.
  intros H. unfold make_view in H. oinv H. destruct v0 as [[p ext] str].
  unfold generate_array_view in E. destruct (Nat.eqb _ _); [|discriminate].
  oinv E. oinv E. oinv E. oinv E. inversion E; subst.
  unfold view_make in H. oinv H. oinv H. inversion H; subst. reflexivity.
Qed.

(** comparisons change nothing *)
Fixpoint p_mute {A} (m : prog T A) : Prop :=
  match m with
  | PRet _ | PAbort | PUndef | PFuel => True
  | PLoad _ k => forall v, p_mute (k v)
  | PStore _ _ _ => False
  end.
Lemma mute_bind {A B} (m : prog T A) (f : A -> prog T B) : p_mute m -> (forall a, p_mute (f a)) -> p_mute (pbind m f).
Proof. intros Hm Hf. induction m; cbn in *; auto. Qed.
Lemma mute_lift {A} (o : outcome A) : p_mute (plift (T := T) o). Proof. destruct o; exact I. Qed.
Ltac mute := repeat first [ exact I | assumption | apply mute_lift | match goal with |- p_mute (pbind _ _) => apply mute_bind; [|intros] end ].
Lemma mute_equal_loop body : (forall x y, p_mute (body x y)) -> forall n f l r, p_mute (@p_equal_loop T body n f l r).
Proof.
  intros HB. induction n; intros f l r; cbn [p_equal_loop]; destruct (it_equal f l); try exact I.
  apply mute_bind; [auto|]. intros []; [|exact I]. mute. apply IHn.
Qed.
Lemma mute_eq eqT chk : forall n a b, p_mute (@p_nd_eq T eqT chk n a b).
Proof.
  induction n; intros a b; [exact I|]. cbn [p_nd_eq]. destruct (list_eqb _ _); [|exact I]. mute. apply mute_equal_loop.
  intros x y. destruct n; mute; [cbn; auto|apply IHn].
Qed.
Lemma mute_lex_loop body : (forall x y, p_mute (body x y)) -> forall n f l r e, p_mute (@p_lex_loop T body n f l r e).
Proof.
  intros HB. induction n; intros f l r e; cbn [p_lex_loop]; destruct (it_equal f l); try exact I; destruct (it_equal r e); try exact I.
  apply mute_bind; [auto|]. intros []; [exact I|]. apply mute_bind; [auto|]. intros []; [exact I|]. mute. apply IHn.
Qed.
Lemma mute_lt ltT chk : forall n a b, p_mute (@p_nd_lt T ltT chk n a b).
Proof.
  induction n; intros a b; [exact I|]. cbn [p_nd_lt]. mute. apply mute_lex_loop.
  intros x y. destruct n; mute; [cbn; auto|apply IHn].
Qed.
Lemma late_mute {A} (P : nat -> Prop) (m : prog T A) : p_mute m -> late P (of_prog m).
Proof. induction m; cbn in *; intuition auto. Qed.
Lemma late_compare (P : nat -> Prop) eqT ltT op chk a b : late P (@j_compare T eqT ltT op chk a b).
Proof.
  unfold j_compare. destruct op; try (apply late_bind; [|intros; exact I]); apply late_mute; first [apply mute_eq|apply mute_lt].
Qed.

(** m obtains at most one block (none if n is false), changes only blocks in P and the
    one it obtains; Q and QT: what is known when it ends *)
Fixpoint fp {A} (n : bool) (P : nat -> Prop) (m : job T A) (Q : (nat -> Prop) -> A -> Prop) (QT : (nat -> Prop) -> Prop) : Prop :=
  match m with
  | JRet a => Q P a
  | JThrow => QT P
  | JAbort | JUndef | JFuel => True
  | JArm _ k => fp n P k Q QT
  | JTick g b => fp n P g Q QT /\ fp n P b Q QT
  | JRead _ k => forall v, fp n P (k v) Q QT
  | JWrite p _ k | JFree _ p _ k | JMake p _ k | JKill p k => P (p_blk p) /\ fp n P k Q QT
  | JAlloc _ _ k => n = true /\ forall p, fp false (fun b => P b \/ b = p_blk p) (k p) Q QT
  end.
Definition grow (P P' : nat -> Prop) : Prop := forall b, P b -> P' b.

Lemma fp_false {A} n (m : job T A) : forall P Q QT, fp false P m Q QT -> fp n P m Q QT.
Proof. induction m; intros P Q QT; cbn [fp]; intuition auto. discriminate. Qed.
Lemma fp_jtry {A B} (m : job T A) (ok : A -> job T B) thrown : forall n P Q QT,
  fp n P m (fun P' a => fp false P' (ok a) Q QT) (fun P' => fp false P' thrown Q QT) -> fp n P (jtry m ok thrown) Q QT.
Proof. induction m; intros n0 P Q QT; cbn [fp jtry]; intuition auto using fp_false. Qed.
Lemma fp_lift {A B} n P (o : outcome A) (f : A -> job T B) Q QT : (forall a, o = Ok a -> fp n P (f a) Q QT) ->
  fp n P (jbind (jlift o) f) Q QT.
Proof. intros H. destruct o; cbn; auto. Qed.
Lemma fp_weak {A} (m : job T A) : forall n P (Q Q' : (nat -> Prop) -> A -> Prop) (QT QT' : (nat -> Prop) -> Prop),
  (forall P' a, grow P P' -> Q P' a -> Q' P' a) -> (forall P', grow P P' -> QT P' -> QT' P') ->
  fp n P m Q QT -> fp n P m Q' QT'.
Proof.
  induction m as [a| | | | |f m IH|g IHg b IHb|p k IH|p v m IH|aid n k IH|aid p n m IH|p v m IH|p m IH];
    intros n0 P Q Q' QT QT' H1 H2; cbn [fp]; try tauto.
  - apply H1. intros b; auto.
  - apply H2. intros b; auto.
  - apply IH; auto.
  - intros [A1 A2]. split; [eapply IHg|eapply IHb]; eauto.
  - intros A1 v. eapply IH; eauto.
  - intros [A1 A2]. split; [auto|]. eapply IH; eauto.
  - intros [A1 A2]. split; [auto|]. intros p. eapply IH; [| |apply A2]; intros P' *; intros G; [apply H1|apply H2]; intros b Hb; apply G; auto.
  - intros [A1 A2]. split; [auto|]. eapply IH; eauto.
  - intros [A1 A2]. split; [auto|]. eapply IH; eauto.
  - intros [A1 A2]. split; [auto|]. eapply IH; eauto.
Qed.
Lemma fp_late {A} n P (m : job T A) (Q : (nat -> Prop) -> A -> Prop) (QT : (nat -> Prop) -> Prop) :
  late P m -> (forall a, Q P a) -> QT P -> fp n P m Q QT.
Proof. intros H HQ HT. induction m; cbn [fp late] in *; intuition auto. Qed.
(** m, then f *)
Lemma fp_bind {A B} n P (m : job T A) (f : A -> job T B) (Q0 : (nat -> Prop) -> A -> Prop) Q (QT : (nat -> Prop) -> Prop) :
  fp n P m Q0 QT -> (forall P' a, grow P P' -> Q0 P' a -> fp false P' (f a) Q QT) ->
  fp n P (jbind m f) Q QT.
Proof. intros H1 H2. apply fp_jtry. eapply fp_weak; [| |exact H1]; auto. Qed.
Lemma fp_late_bind {A B} n P (m : job T A) (f : A -> job T B) Q (QT : (nat -> Prop) -> Prop) :
  late P m -> (forall a, fp false P (f a) Q QT) -> QT P -> fp n P (jbind m f) Q QT.
Proof. intros H1 H2 H3. apply fp_jtry. apply fp_late; auto. Qed.

Definition made (P : nat -> Prop) (P' : nat -> Prop) (a : multi_array) : Prop :=
  grow P P' /\ P' (ma_block a) /\ P' (p_blk (cr_base (ma_ref a))).
Lemma fp_space d c aid P : fp true P (@j_allocate_space T d c aid) (made P) (grow P).
Proof.
  unfold j_allocate_space, j_allocate. cbn [jbind jtry jtick fp]. split; [|intros b; auto].
  destruct (_ && _); [|intros b; auto]. cbn [jtry fp]. split; [auto|]. intros p.
  apply (fp_late_bind (A := unit)); [apply late_construct_loop; auto| |intros b; auto].
  intros _. cbn. unfold made, ma_block. cbn. repeat split; auto. intros b; auto.
Qed.
Lemma fp_default d chk n aid P : fp true P (@j_ma_default T d chk n aid) (made P) (grow P).
Proof. unfold j_ma_default. apply fp_lift. intros so _. apply fp_lift. intros c _. apply fp_space. Qed.
Lemma fp_from_list d chk n e so aid P : fp true P (@j_ma_from_list T d chk n e so aid) (made P) (grow P).
Proof. unfold j_ma_from_list. apply fp_lift. intros c _. apply fp_space. Qed.
Lemma fp_from_gen d chk g so aid P : fp true P (@j_ma_from_gen T d chk g so aid) (made P) (grow P).
Proof. unfold j_ma_from_gen. apply fp_lift. intros c _. apply fp_space. Qed.
Lemma fp_copy d a P : fp true P (@j_ma_copy T d a) (made P) (grow P).
Proof.
  unfold j_ma_copy. eapply fp_bind; [apply fp_space|]. intros P' m G HM.
  apply fp_late_bind; [apply late_copy_n; apply HM|intros _; exact HM|exact G].
Qed.
Lemma fp_convert d chk x so aid P : fp true P (@j_ma_convert T d chk x so aid) (made P) (grow P).
Proof.
  unfold j_ma_convert. cbv zeta. apply fp_lift. intros c _. eapply fp_bind; [apply fp_space|]. intros P' m G HM.
  apply fp_late_bind; [apply late_std_copy; apply HM|intros _; exact HM|exact G].
Qed.
Lemma fp_resize d chk a g (P : nat -> Prop) : P (ma_block a) -> P (p_blk (cr_base (ma_ref a))) ->
  fp true P (@j_ma_resize T d chk a g) (made P) (grow P).
Proof.
  intros H1 H2. unfold j_ma_resize. cbv zeta. destruct (Nat.eqb _ _); [|exact I].
  eapply fp_bind; [apply fp_from_gen|]. intros P' m G HM.
  apply fp_late_bind; [|intros _|exact G].
  - apply late_on_throw; [|apply late_destroy; apply HM].
    apply late_lift. intros mins _. apply late_lift. intros nr _. apply late_lift. intros orr _.
    apply late_lift. intros vo _. apply late_lift. intros vn Hvn. apply late_assign_nd. rewrite (view_blk _ _ _ _ Hvn). apply HM.
  - unfold swap_internals. cbv zeta. apply fp_late_bind; [|intros _|exact G].
    + apply late_destroy. apply G. exact H1.
    + split; [exact G|]. split; apply HM.
Qed.
Lemma fp_resize_list d chk a l (P : nat -> Prop) : P (ma_block a) -> P (p_blk (cr_base (ma_ref a))) ->
  fp true P (@j_ma_resize_list T d chk a l) (made P) (grow P).
Proof. intros H1 H2. unfold j_ma_resize_list. cbv zeta. apply fp_lift. intros es _. apply fp_resize; auto. Qed.

(** the variables from k on lie in P *)
Definition mine (P : nat -> Prop) (k : nat) (en : env) : Prop :=
  forall x m, (k <= x)%nat -> nth_error (e_vars en) x = Some (Some m) -> P (ma_block m).
Lemma mine_grow P P' k en : mine P k en -> grow P P' -> mine P' k en.
Proof. intros H G x m Hx Hm. apply G. eauto. Qed.
Lemma mine_declare P k en a : mine P k en -> P (ma_block a) -> mine P k (declare en a).
Proof.
  intros H Ha x m Hx Hm. unfold declare in Hm. cbn [e_vars] in Hm.
  destruct (Nat.lt_ge_cases x (length (e_vars en))) as [L|L]; [rewrite nth_error_app1 in Hm by lia; eauto|].
  rewrite nth_error_app2 in Hm by lia. destruct (x - length (e_vars en))%nat as [|[|]]; cbn in Hm; [|discriminate|discriminate].
  injection Hm as <-. auto.
Qed.
Lemma mine_set P k en y o : mine P k en -> (forall m, o = Some m -> P (ma_block m)) -> mine P k (Env (set_nth y o (e_vars en)) (e_handles en)).
Proof.
  intros H Ho x m Hx Hm. cbn [e_vars] in Hm. destruct (Nat.eq_dec x y) as [->|N]; [|rewrite nth_error_set_nth_ne in Hm by auto; eauto].
  destruct (Nat.lt_ge_cases y (length (e_vars en))) as [L|L].
  - rewrite nth_error_set_nth_eq in Hm by auto. injection Hm as ->. auto.
  - assert (nth_error (set_nth y o (e_vars en)) y = None) by (apply nth_error_None; rewrite length_set_nth; auto). congruence.
Qed.

(** objects lie in the block of their array *)
Scheme derived_mind := Minimality for derived Sort Prop
  with derived_view_mind := Minimality for derived_view Sort Prop.
Lemma derived_blk c d : derived c d -> p_blk (nd_org d) = p_blk (cr_base c).
Proof.
  intros H. induction H using derived_mind with (P0 := fun v => p_blk (nd_org (v_nd v)) = p_blk (cr_base c)).
  - reflexivity.
  - rewrite (ConstProofs.access_n_blk _ _ _ _ H0). auto.
  - auto.
  - rewrite (view_blk _ _ _ _ H2). auto.
  - unfold v_reindex in H2. oinv H2. oinv H2. inversion H2; subst. exact IHderived.
  - unfold v_reindex1 in H1. oinv H1. inversion H1; subst. exact IHderived.
Qed.
Lemma stands_blk vars d p : stands_for vars d p -> exists m, nth_error vars (pl_var p) = Some (Some m) /\ p_blk (nd_org d) = ma_block m.
Proof.
  intros (c & m & Em & _ & (off & _ & HL & _) & Hd & _). exists m. split; [auto|]. rewrite (derived_blk _ _ Hd).
  unfold cr_data in HL. rewrite HL. reflexivity.
Qed.

Variable dflt : T.
Variable eqT ltT : T -> T -> bool.

Lemma var_is (en : env) x m : var en x = Ok m -> nth_error (e_vars en) x = Some (Some m).
Proof. unfold var. destruct (nth_error (e_vars en) x) as [[a|]|]; intros [= <-]; auto. Qed.
Lemma target_blk st en (h : heap T) chk e p d k P : related st en h -> denotes st e p -> eval_nd chk en e = Ok d ->
  mine P k en -> (k <= pl_var p)%nat -> P (p_blk (nd_org d)).
Proof.
  intros HR HD E HM Hk. destruct (denotes_nd st en h chk e p HR HD) as (d' & E' & HS). rewrite E in E'. injection E' as <-.
  destruct (stands_blk _ _ _ HS) as (m & Em & ->). eapply HM; eauto.
Qed.
Lemma var_blk st en (h : heap T) x m : related st en h -> nth_error (e_vars en) x = Some (Some m) ->
  p_blk (cr_base (ma_ref m)) = ma_block m.
Proof.
  intros [HA _] Em. destruct (relA_var_inv _ _ _ _ _ HA Em) as (a & _ & (_ & Hd & _) & _). unfold cr_data in Hd. rewrite Hd. reflexivity.
Qed.

Lemma fp_new st en (h : heap T) k P (m : job T multi_array) : related st en h -> mine P k en -> fp true P m (made P) (grow P) ->
  fp true P (jbind m (fun a => JRet (declare en a, @ONone T))) (fun P' r => mine P' k (fst r)) (fun P' => mine P' k en).
Proof.
  intros HR HM HF. eapply fp_bind.
  - eapply fp_weak; [| |exact HF]; [intros P' a G HQ; exact HQ|]. intros P' G _. eapply mine_grow; eauto.
  - intros P' a G (_ & Ha & _). cbn. apply mine_declare; auto. eapply mine_grow; eauto.
Qed.
Lemma fp_change en x k P (m : job T multi_array) : mine P k en -> fp true P m (made P) (grow P) ->
  fp true P (jbind m (fun a => JRet (update en x a, @ONone T))) (fun P' r => mine P' k (fst r)) (fun P' => mine P' k en).
Proof.
  intros HM HF. eapply fp_bind.
  - eapply fp_weak; [| |exact HF]; [intros P' a G HQ; exact HQ|]. intros P' G _. eapply mine_grow; eauto.
  - intros P' a G (_ & Ha & _). cbn. apply mine_set; [eapply mine_grow; eauto|]. intros m0 [= <-]. auto.
Qed.
Lemma fp_plain {A} en en' (o : @output T) k P (m : job T A) : mine P k en -> mine P k en' -> late P m ->
  fp true P (jbind m (fun _ => JRet (en', o))) (fun P' r => mine P' k (fst r)) (fun P' => mine P' k en).
Proof. intros HM HM' HL. apply fp_late_bind; auto. Qed.

Ltac target e := match goal with HD : denotes _ e ?p, HMo : forall x, modifies _ _ x -> _ |- _ =>
  eapply (target_blk _ _ _ _ e p); [eassumption|exact HD|eassumption|eassumption|apply HMo; econstructor; exact HD] end.
Lemma fp_exec st en (h : heap T) c o st' chk k P : related st en h -> step dflt eqT ltT st c o st' ->
  (forall x, modifies st c x -> (k <= x)%nat) -> mine P k en ->
  fp true P (j_exec dflt eqT ltT chk en c) (fun P' r => mine P' k (fst r)) (fun P' => mine P' k en).
Proof.
  intros HR HS HMo HM.
  assert (VB : forall x m, nth_error (e_vars en) x = Some (Some m) -> (k <= x)%nat -> P (ma_block m) /\ P (p_blk (cr_base (ma_ref m)))).
  { intros x m Em Hk. rewrite (var_blk st en h x m HR Em). split; eapply HM; eauto. }
  assert (HN : forall d, mine P k (name en d)) by (intros d; exact HM).
  assert (HRn : forall x d, mine P k (rename en x d)) by (intros x d; exact HM).
  assert (HU : forall x a b, mine P k en -> ma_base b = ma_base a -> nth_error (e_vars en) x = Some (Some a) -> (k <= x)%nat -> mine P k (update en x b)).
  { intros x a b _ EB Ea Hk. apply mine_set; auto. intros m [= <-]. unfold ma_block. rewrite EB. eapply HM; eauto. }
  destruct c; cbn [j_exec]; repeat (apply fp_lift; intros ? ?).
  - eapply fp_new; eauto. apply fp_default.
  - eapply fp_new; eauto. apply fp_from_list.
  - eapply fp_new; eauto. apply fp_from_gen.
  - eapply fp_new; eauto. apply fp_copy.
  - eapply fp_new; eauto. apply fp_convert.
  - exact (HN _).
  - exact (HN _).
  - exact (HN _).
  - exact (HN _).
  - exact (HN _).
  - destruct (VB x a) as [B1 B2]; [now apply var_is|apply HMo; constructor|].
    apply fp_plain; auto; [|apply late_destroy; auto]. apply mine_set; auto. discriminate.
  - inversion HS; subst. apply fp_plain; auto. apply late_assign_nd. target dst.
  - destruct (VB x a) as [B1 B2]; [now apply var_is|apply HMo; constructor|].
    apply fp_plain; auto. unfold j_ma_assign, j_ma_assign_from. destruct (Nat.eqb x y); [exact I|]. apply late_assign_nd. exact B2.
  - inversion HS; subst. apply fp_plain; auto. apply late_copy_array. target dst.
  - apply fp_late_bind; auto. unfold j_get_element. apply late_lift. intros. apply late_load.
  - inversion HS; subst. apply fp_plain; auto. unfold j_set_element. apply late_lift. intros q Hp. cbn. repeat split; auto.
    rewrite (element_blk _ _ _ _ Hp). target e.
  - apply fp_late_bind; auto. unfold j_get_bracket. apply late_lift. intros. apply late_load.
  - inversion HS; subst. apply fp_plain; auto. unfold j_set_bracket. apply late_lift. intros q Hp. cbn. repeat split; auto.
    rewrite (bracket_blk _ _ _ _ Hp). target e.
  - destruct (VB x a) as [B1 B2]; [now apply var_is|apply HMo; constructor|].
    apply fp_plain; auto. apply late_assign_loop. exact B2.
  - inversion HS; subst. destruct (named_eval st en h _ _ HR H2) as (d & Ed & Hd). rewrite H in Ed. injection Ed as <-.
    destruct a as [v|c]; [contradiction|]. destruct Hd as (m & Em & _ & HL & _).
    apply fp_plain; auto. apply late_assign_loop. destruct HL as (_ & HL & _). unfold cr_data in HL. rewrite HL. cbn [p_blk].
    apply (HM x m); auto. apply (HMo x). apply (mo_fill_ref _ _ _ _ H2).
  - inversion HS; subst. apply fp_plain; auto. apply late_for_each. target e.
  - assert (Hk : (k <= x)%nat) by (apply HMo; constructor). apply (HU x a); [exact HM| |now apply var_is|exact Hk].
    unfold ma_reindex in H0. oinv H0. inversion H0; subst. reflexivity.
  - assert (Hk : (k <= x)%nat) by (apply HMo; constructor). apply (HU x a); [exact HM| |now apply var_is|exact Hk].
    unfold ma_reindex1 in H0. oinv H0. inversion H0; subst. reflexivity.
  - assert (Hk : (k <= x)%nat) by (apply HMo; constructor). apply (HU x a); [exact HM| |now apply var_is|exact Hk].
    unfold ma_reshape in H0. oinv H0. inversion H0; subst. reflexivity.
  - destruct a; apply fp_lift; intros ? _; exact (HRn _ _).
  - destruct a; apply fp_lift; intros ? _; exact (HRn _ _).
  - destruct a; [exact I|]. apply fp_lift; intros ? _; exact (HRn _ _).
  - destruct (VB x a) as [B1 B2]; [now apply var_is|apply HMo; constructor|]. apply fp_change; auto. apply fp_resize; auto.
  - destruct (VB x a) as [B1 B2]; [now apply var_is|apply HMo; constructor|]. apply fp_change; auto. apply fp_resize_list; auto.
  - apply fp_late_bind; auto. apply late_compare.
  - exact HM.
Qed.
End Foot.
