(** ParProofs.v -- which elements the steps of a thread read and write *)

From Coq Require Import ZArith List Bool Lia.
From Verif Require Import Base StorageOrder Ranges Layout Access Objects Memory Ops MultiArray History Threads Concur.
From Verif Require Import Spec ReachSpec MemSpec OwnSpec HistorySpec CostSpec ConcurSpec ParSpec.
From Verif Require Import Facts LayoutProofs AccessProofs ViewProofs ReachProofs MemoryProofs HistoryProofs ThreadProofs ThmCopy ConcurProofs FootProofs.
From Verif Require ConstProofs.
Import ListNotations.
Local Open Scope Z_scope.

Section Ticks.
Context {T : Type}.

(** the job is the program with operations that can throw put in *)
Inductive tk {A} : prog T A -> job T A -> Prop :=
| tk_ret : forall a, tk (PRet a) (JRet a)
| tk_abort : tk PAbort JAbort
| tk_undef : tk PUndef JUndef
| tk_fuel : tk PFuel JFuel
| tk_load : forall p k j, (forall v, tk (k v) (j v)) -> tk (PLoad p k) (JRead p j)
| tk_store : forall p v m j, tk m j -> tk (PStore p v m) (JWrite p v j)
| tk_tick : forall m j, tk m j -> tk m (JTick j JThrow).
Lemma tk_bind {A B} (m : prog T A) j (f : A -> prog T B) g : tk m j -> (forall a, tk (f a) (g a)) -> tk (pbind m f) (jbind j g).
Proof. intros H Hf. induction H; cbn [pbind jbind jtry]; try constructor; auto. Qed.
Lemma tk_lift {A} (o : outcome A) : tk (plift (T := T) o) (jlift o). Proof. destruct o; constructor. Qed.
Lemma tk_elem q p : tk (@p_elem_assign T q p) (j_elem_assign q p).
Proof. unfold p_elem_assign, j_elem_assign. cbn. constructor. intros v. repeat constructor. Qed.
Ltac tk := repeat first [ apply tk_ret | apply tk_undef | apply tk_fuel | assumption | apply tk_lift | apply tk_elem
  | match goal with |- tk (pbind _ _) _ => apply tk_bind; [|intros] end ].
Lemma tk_copy_loop b1 b2 : (forall f r, tk (b1 f r) (b2 f r)) -> forall n f l r, tk (@p_copy_loop T b1 n f l r) (j_copy_loop b2 n f l r).
Proof. intros HB. induction n; intros f l r; cbn [p_copy_loop j_copy_loop]; destruct (it_equal f l); tk; auto. Qed.
Lemma tk_copy_rows r1 r2 chk k d s : (forall d s, tk (r1 d s) (r2 d s)) -> tk (@p_copy_rows T r1 chk k d s) (j_copy_rows r2 chk k d s).
Proof. intros HR. unfold p_copy_rows, j_copy_rows. tk. apply tk_copy_loop. intros f r. destruct k; tk; auto. Qed.
Lemma tk_assign_nd chk : forall n d s, tk (@p_assign_nd T chk n d s) (j_assign_nd chk n d s).
Proof. induction n; intros d s; cbn [p_assign_nd j_assign_nd]; tk. apply tk_copy_rows. auto. Qed.
Lemma tk_copy_dispatch chk : forall n d s, tk (@p_copy_dispatch T chk n d s) (j_copy_dispatch chk n d s).
Proof. induction n; intros d s; cbn [p_copy_dispatch j_copy_dispatch]; tk. apply tk_copy_rows. auto. Qed.
Lemma tk_each_loop b1 b2 : (forall i, tk (b1 i) (b2 i)) -> forall n f l, tk (@p_each_loop T b1 n f l) (j_each_loop b2 n f l).
Proof. intros HB. induction n; intros f l; cbn [p_each_loop j_each_loop]; destruct (it_equal f l); tk; auto. Qed.
Lemma tk_for_each chk x : forall n a, tk (@p_for_each T chk x n a) (j_for_each chk x n a).
Proof.
  induction n; intros a; cbn [p_for_each j_for_each]; tk. apply tk_each_loop. intros i. destruct n; tk; auto.
  cbn. constructor. intros v. repeat constructor.
Qed.
Lemma tk_assign_loop num : forall l p k, tk (@p_assign_loop T p l k num) (j_assign_loop p l k num).
Proof. induction l; intros p k; cbn [p_assign_loop j_assign_loop]; [constructor|]. destruct (k <? num); [|constructor]. cbn. repeat constructor. auto. Qed.
Lemma tk_of_prog {A} (m : prog T A) : tk m (of_prog m).
Proof. induction m; cbn; constructor; auto. Qed.

(** m obtains no block, reads only elements in R, writes only elements in W, and
    constructs, destroys and gives back only in blocks of P *)
Fixpoint cl {A} (R W : ptr -> Prop) (P : nat -> Prop) (m : job T A) : Prop :=
  match m with
  | JRet _ | JThrow | JAbort | JUndef | JFuel => True
  | JArm _ k => cl R W P k
  | JTick g b => cl R W P g /\ cl R W P b
  | JRead p k => R p /\ forall v, cl R W P (k v)
  | JWrite p _ k => W p /\ cl R W P k
  | JFree _ p _ k | JMake p _ k | JKill p k => P (p_blk p) /\ cl R W P k
  | JAlloc _ _ _ => False
  end.
Lemma cl_tk {A} R W P (m : prog T A) j : safe R W m -> tk m j -> cl R W P j.
Proof. intros HS HT. induction HT; cbn; auto; inversion HS; subst; auto. Qed.
Lemma cl_jtry {A B} R W P (m : job T A) (ok : A -> job T B) thrown : cl R W P m -> (forall a, cl R W P (ok a)) -> cl R W P thrown ->
  cl R W P (jtry m ok thrown).
Proof. intros Hm Ho Ht. induction m; cbn [jtry cl] in *; intuition auto. Qed.
Lemma cl_bind {A B} R W P (m : job T A) (f : A -> job T B) : cl R W P m -> (forall a, cl R W P (f a)) -> cl R W P (jbind m f).
Proof. intros H1 H2. apply cl_jtry; auto. exact I. Qed.
Lemma cl_lift {A B} R W P (o : outcome A) (f : A -> job T B) : (forall a, o = Ok a -> cl R W P (f a)) -> cl R W P (jbind (jlift o) f).
Proof. intros H. destruct o; cbn; auto. Qed.
Lemma cl_on_throw {A} R W P (m : job T A) g : cl R W P m -> cl R W P g -> cl R W P (jon_throw m g).
Proof. intros H1 H2. apply cl_jtry; auto; [intros; exact I|]. apply cl_jtry; auto; intros; exact I. Qed.
Lemma cl_destroy_n R W (P : nat -> Prop) p : P (p_blk p) -> forall n, cl R W P (@j_alloc_destroy_n T p n).
Proof. intros H. induction n; cbn; auto. Qed.
Lemma cl_construct_loop R W (P : nat -> Prop) d p : P (p_blk p) -> forall n i, cl R W P (@j_alloc_construct_loop T d p i n).
Proof.
  intros H. induction n; intros i; cbn [j_alloc_construct_loop]; [exact I|]. apply cl_bind; [|auto].
  apply cl_on_throw; [|apply cl_destroy_n; auto]. cbn. auto.
Qed.
Lemma cl_destroy R W (P : nat -> Prop) a : P (ma_block a) -> cl R W P (@j_ma_destroy T a).
Proof. intros H. apply cl_bind; [apply cl_destroy_n; auto|]. intros _. cbn. auto. Qed.
Lemma cl_copy_n (R W : ptr -> Prop) (P : nat -> Prop) : forall m p q, (forall j, 0 <= j < Z.of_nat m -> R (padd p j)) -> (forall j, 0 <= j < Z.of_nat m -> W (padd q j)) ->
  cl R W P (@j_copy_n_elems T p m q).
Proof.
  induction m; intros p q HR HW; cbn [j_copy_n_elems]; [exact I|]. apply cl_bind.
  - specialize (HR 0). specialize (HW 0). rewrite padd_0 in HR, HW. cbn. split; [apply HR; lia|]. intros v. split; [|exact I].
    split; [apply HW; lia|exact I].
  - intros _. apply IHm; intros j Hj; rewrite padd_padd; [apply HR|apply HW]; lia.
Qed.

(** block by block *)
Lemma cl_copy_loop (R W : ptr -> Prop) (P : nat -> Prop) body : (forall f r, cl R W P (body f r)) -> forall n f l r, cl R W P (@j_copy_loop T body n f l r).
Proof.
  intros HB. induction n; intros f l r; cbn [j_copy_loop]; destruct (it_equal f l); try exact I.
  apply cl_bind; [auto|]. intros _. apply cl_lift. intros f' _. apply cl_lift. intros r' Hr'. apply IHn.
Qed.
End Ticks.

Section Blocks.
Context {T : Type}.
Variables (b1 b2 : nat) (R W : ptr -> Prop) (P : nat -> Prop).
Hypothesis HR : forall p, p_blk p = b1 -> R p.
Hypothesis HW : forall p, p_blk p = b2 -> W p.
Lemma cl_copy_loop_in body : (forall f r, p_blk (it_base f) = b1 -> p_blk (it_base r) = b2 -> cl R W P (body f r)) ->
  forall n f l r, p_blk (it_base f) = b1 -> p_blk (it_base r) = b2 -> cl R W P (@j_copy_loop T body n f l r).
Proof.
  intros HB. induction n; intros f l r Hf Hr; cbn [j_copy_loop]; destruct (it_equal f l); try exact I.
  apply cl_bind; [auto|]. intros _. apply cl_lift. intros f' Hf'. apply cl_lift. intros r' Hr'. apply IHn.
  - rewrite (ConstProofs.it_inc_blk _ _ Hf'). auto.
  - rewrite (ConstProofs.it_inc_blk _ _ Hr'). auto.
Qed.
Lemma cl_copy_rows rec chk k d s : (forall d s, p_blk (nd_org s) = b1 -> p_blk (nd_org d) = b2 -> cl R W P (rec d s)) ->
  p_blk (nd_org s) = b1 -> p_blk (nd_org d) = b2 -> cl R W P (@j_copy_rows T rec chk k d s).
Proof.
  intros Hrec Hs Hd. unfold j_copy_rows. apply cl_lift. intros f Hf. apply cl_lift. intros l _. apply cl_lift. intros r Hr.
  apply cl_copy_loop_in; [|rewrite (ConstProofs.nd_begin_blk _ _ Hf); auto|rewrite (ConstProofs.nd_begin_blk _ _ Hr); auto].
  intros f0 r0 H0 H1. destruct k.
  - apply cl_lift. intros p Hp. apply cl_lift. intros q Hq. cbn.
    split; [apply HR; rewrite (ConstProofs.access_one_blk _ _ _ _ Hp); auto|]. intros v. split; [|exact I].
    split; [apply HW; rewrite (ConstProofs.access_one_blk _ _ _ _ Hq); auto|exact I].
  - apply cl_lift. intros p Hp. apply cl_lift. intros q Hq. apply Hrec.
    + rewrite (ConstProofs.access_n_blk _ _ _ _ Hp). auto.
    + rewrite (ConstProofs.access_n_blk _ _ _ _ Hq). auto.
Qed.
Lemma cl_assign_nd chk : forall n d s, p_blk (nd_org s) = b1 -> p_blk (nd_org d) = b2 -> cl R W P (@j_assign_nd T chk n d s).
Proof. induction n; intros d s Hs Hd; [exact I|]. cbn [j_assign_nd]. apply cl_lift. intros _ _. apply cl_copy_rows; auto. Qed.
End Blocks.

Section Foot.
Context {T : Type}.
Variables R W : ptr -> Prop.
Definition rd (P : nat -> Prop) (p : ptr) : Prop := P (p_blk p) \/ R p.
Definition wr (P : nat -> Prop) (p : ptr) : Prop := P (p_blk p) \/ W p.

(** as FootProofs.fp, with elements *)
Fixpoint fq {A} (n : bool) (P : nat -> Prop) (m : job T A) (Q : (nat -> Prop) -> A -> Prop) (QT : (nat -> Prop) -> Prop) : Prop :=
  match m with
  | JRet a => Q P a
  | JThrow => QT P
  | JAbort | JUndef | JFuel => True
  | JArm _ k => fq n P k Q QT
  | JTick g b => fq n P g Q QT /\ fq n P b Q QT
  | JRead p k => rd P p /\ forall v, fq n P (k v) Q QT
  | JWrite p _ k => wr P p /\ fq n P k Q QT
  | JFree _ p _ k | JMake p _ k | JKill p k => P (p_blk p) /\ fq n P k Q QT
  | JAlloc _ _ k => n = true /\ forall p, fq false (fun b => P b \/ b = p_blk p) (k p) Q QT
  end.
Lemma fq_false {A} n (m : job T A) : forall P Q QT, fq false P m Q QT -> fq n P m Q QT.
Proof. induction m; intros P Q QT; cbn [fq]; intuition auto. discriminate. Qed.
Lemma fq_jtry {A B} (m : job T A) (ok : A -> job T B) thrown : forall n P Q QT,
  fq n P m (fun P' a => fq false P' (ok a) Q QT) (fun P' => fq false P' thrown Q QT) -> fq n P (jtry m ok thrown) Q QT.
Proof. induction m; intros n0 P Q QT; cbn [fq jtry]; intuition auto using fq_false. Qed.
Lemma fq_lift {A B} n P (o : outcome A) (f : A -> job T B) Q QT : (forall a, o = Ok a -> fq n P (f a) Q QT) ->
  fq n P (jbind (jlift o) f) Q QT.
Proof. intros H. destruct o; cbn; auto. Qed.
Lemma fq_weak {A} (m : job T A) : forall n P (Q Q' : (nat -> Prop) -> A -> Prop) (QT QT' : (nat -> Prop) -> Prop),
  (forall P' a, grow P P' -> Q P' a -> Q' P' a) -> (forall P', grow P P' -> QT P' -> QT' P') ->
  fq n P m Q QT -> fq n P m Q' QT'.
Proof.
  induction m as [a| | | | |f m IH|g IHg b IHb|p k IH|p v m IH|aid n k IH|aid p n m IH|p v m IH|p m IH];
    intros n0 P Q Q' QT QT' H1 H2; cbn [fq]; try tauto.
  - apply H1. intros b; auto.
  - apply H2. intros b; auto.
  - apply IH; auto.
  - intros [A1 A2]. split; [eapply IHg|eapply IHb]; eauto.
  - intros [A0 A1]. split; [auto|]. intros v. eapply IH; eauto.
  - intros [A1 A2]. split; [auto|]. eapply IH; eauto.
  - intros [A1 A2]. split; [auto|]. intros p. eapply IH; [| |apply A2]; intros P' *; intros G; [apply H1|apply H2]; intros b Hb; apply G; auto.
  - intros [A1 A2]. split; [auto|]. eapply IH; eauto.
  - intros [A1 A2]. split; [auto|]. eapply IH; eauto.
  - intros [A1 A2]. split; [auto|]. eapply IH; eauto.
Qed.
Lemma fq_late {A} n P (m : job T A) (Q : (nat -> Prop) -> A -> Prop) (QT : (nat -> Prop) -> Prop) :
  cl (rd P) (wr P) P m -> (forall a, Q P a) -> QT P -> fq n P m Q QT.
Proof. intros H HQ HT. induction m; cbn [fq cl] in *; intuition auto. Qed.
Lemma fq_bind {A B} n P (m : job T A) (f : A -> job T B) (Q0 : (nat -> Prop) -> A -> Prop) Q (QT : (nat -> Prop) -> Prop) :
  fq n P m Q0 QT -> (forall P' a, grow P P' -> Q0 P' a -> fq false P' (f a) Q QT) ->
  fq n P (jbind m f) Q QT.
Proof. intros H1 H2. apply fq_jtry. eapply fq_weak; [| |exact H1]; auto. Qed.
Lemma fq_late_bind {A B} n P (m : job T A) (f : A -> job T B) Q (QT : (nat -> Prop) -> Prop) :
  cl (rd P) (wr P) P m -> (forall a, fq false P (f a) Q QT) -> QT P -> fq n P (jbind m f) Q QT.
Proof. intros H1 H2 H3. apply fq_jtry. apply fq_late; auto. Qed.

Definition made_of (c : cref) (P : nat -> Prop) (P' : nat -> Prop) (a : multi_array) : Prop :=
  made P P' a /\ ma_ref a = cr_set_base c (ma_base a).
Lemma fq_space d c aid P : fq true P (@j_allocate_space T d c aid) (made_of c P) (grow P).
Proof.
  unfold j_allocate_space, j_allocate. cbn [jbind jtry jtick fq]. split; [|intros b; auto].
  destruct (_ && _); [|intros b; auto]. cbn [jtry fq]. split; [auto|]. intros p.
  apply (fq_late_bind (A := unit)); [apply cl_construct_loop; auto| |intros b; auto].
  intros _. cbn. unfold made_of, made, ma_block. cbn. repeat split; auto. intros b; auto.
Qed.
Lemma fq_space' d c aid P : fq true P (@j_allocate_space T d c aid) (made P) (grow P).
Proof. eapply fq_weak; [| |apply fq_space]; [intros P' a _ [H _]; exact H|auto]. Qed.
Lemma fq_default d chk n aid P : fq true P (@j_ma_default T d chk n aid) (made P) (grow P).
Proof. unfold j_ma_default. apply fq_lift. intros so _. apply fq_lift. intros c _. apply fq_space'. Qed.
Lemma fq_from_list d chk n e so aid P : fq true P (@j_ma_from_list T d chk n e so aid) (made P) (grow P).
Proof. unfold j_ma_from_list. apply fq_lift. intros c _. apply fq_space'. Qed.
Lemma fq_from_gen d chk g so aid P : fq true P (@j_ma_from_gen T d chk g so aid) (made P) (grow P).
Proof. unfold j_ma_from_gen. apply fq_lift. intros c _. apply fq_space'. Qed.
Lemma fq_copy d a P : (forall j, 0 <= j < cr_num (ma_ref a) -> rd P (padd (ma_base a) j)) ->
  fq true P (@j_ma_copy T d a) (made P) (grow P).
Proof.
  intros HR. unfold j_ma_copy. eapply fq_bind; [apply fq_space'|]. intros P' m G HM.
  apply fq_late_bind; [|intros _; exact HM|exact G]. apply cl_copy_n.
  - intros j Hj. destruct (HR j) as [H|H]; [lia|left; apply G; exact H|right; exact H].
  - intros j _. left. apply HM.
Qed.
Lemma fq_resize d chk a g (P : nat -> Prop) : P (ma_block a) -> P (p_blk (cr_base (ma_ref a))) ->
  fq true P (@j_ma_resize T d chk a g) (made P) (grow P).
Proof.
  intros H1 H2. unfold j_ma_resize. cbv zeta. destruct (Nat.eqb _ _); [|exact I].
  eapply fq_bind; [apply fq_from_gen|]. intros P' m G HM.
  apply fq_late_bind; [|intros _|exact G].
  - apply cl_on_throw; [|apply cl_destroy; apply HM].
    apply cl_lift. intros mins _. apply cl_lift. intros nr _. apply cl_lift. intros orr _.
    apply cl_lift. intros vo Hvo. apply cl_lift. intros vn Hvn.
    apply (cl_assign_nd (p_blk (nd_org (v_nd vo))) (p_blk (nd_org (v_nd vn)))); auto.
    + intros p Hp. left. rewrite Hp, (view_blk _ _ _ _ Hvo). apply G. exact H2.
    + intros p Hp. left. rewrite Hp, (view_blk _ _ _ _ Hvn). apply HM.
  - unfold swap_internals. cbv zeta. apply fq_late_bind; [|intros _|exact G].
    + apply cl_destroy. apply G. exact H1.
    + split; [exact G|]. split; apply HM.
Qed.
Lemma fq_resize_list d chk a l (P : nat -> Prop) : P (ma_block a) -> P (p_blk (cr_base (ma_ref a))) ->
  fq true P (@j_ma_resize_list T d chk a l) (made P) (grow P).
Proof. intros H1 H2. unfold j_ma_resize_list. cbv zeta. apply fq_lift. intros es _. apply fq_resize; auto. Qed.
End Foot.

(** * One command of a thread *)
Section Command.
Context {T : Type}.
Variable dflt : T.
Variable eqT ltT : T -> T -> bool.
Variable lot : nat -> nat -> option nat.
Variable en0 : env.
Variable lim : nat.
Let k := length (e_vars en0).
Hypothesis Hlim : forall x m, nth_error (e_vars en0) x = Some (Some m) -> (ma_block m < lim)%nat.
Hypothesis Hdis : forall x y m m', nth_error (e_vars en0) x = Some (Some m) -> nth_error (e_vars en0) y = Some (Some m') -> x <> y ->
  ma_block m <> ma_block m'.

(** cell q of block b is an element given to thread j *)
Definition given (b q j : nat) : Prop := exists x m, nth_error (e_vars en0) x = Some (Some m) /\ ma_block m = b /\ lot x q = Some j.
Definition may_read (i : nat) (p : ptr) : Prop := (p_blk p < lim)%nat /\ forall j, given (p_blk p) (Z.to_nat (p_off p)) j -> j = i.
Definition may_write (i : nat) (p : ptr) : Prop := given (p_blk p) (Z.to_nat (p_off p)) i.

(** the variables from k on lie in P; the others are as at the start *)
Definition holding (P : nat -> Prop) (en : env) : Prop :=
  mine P k en /\ (k <= length (e_vars en))%nat /\ forall x, (x < k)%nat -> nth_error (e_vars en) x = nth_error (e_vars en0) x.
Lemma holding_grow P P' en : holding P en -> grow P P' -> holding P' en.
Proof. intros (H1 & H2) G. split; [eapply mine_grow; eauto|auto]. Qed.
Lemma holding_declare P en a : holding P en -> P (ma_block a) -> holding P (declare en a).
Proof.
  intros (H1 & H2 & H3) Ha. split; [apply mine_declare; auto|]. unfold declare. cbn [e_vars]. rewrite app_length. split; [lia|].
  intros x Hx. rewrite nth_error_app1 by lia. auto.
Qed.
Lemma holding_set P en y o : (k <= y)%nat -> holding P en -> (forall m, o = Some m -> P (ma_block m)) ->
  holding P (Env (set_nth y o (e_vars en)) (e_handles en)).
Proof.
  intros Hy (H1 & H2 & H3) Ho. split; [apply mine_set; auto|]. cbn [e_vars]. rewrite length_set_nth. split; [auto|].
  intros x Hx. rewrite nth_error_set_nth_ne by lia. auto.
Qed.

Variable i : nat.
Notation rd' := (rd (may_read i)).
Notation wr' := (wr (may_write i)).
Notation fq' := (fq (may_read i) (may_write i)).

Lemma given_fun x m q j : nth_error (e_vars en0) x = Some (Some m) -> given (ma_block m) q j -> lot x q = Some j.
Proof.
  intros Em (y & m' & Em' & EB & EL). destruct (Nat.eq_dec y x) as [->|N]; [auto|]. exfalso. eapply (Hdis y x); eauto.
Qed.
Lemma read_one P en x m q : holding P en -> nth_error (e_vars en) x = Some (Some m) ->
  (k <= x)%nat \/ lot x q = None \/ lot x q = Some i -> rd' P (Ptr (ma_block m) (Z.of_nat q)).
Proof.
  intros (H1 & H2 & H3) Em HC. destruct (Nat.lt_ge_cases x k) as [L|L]; [|left; eapply H1; eauto].
  rewrite H3 in Em by auto. right. split; [eapply Hlim; eauto|]. cbn [p_blk p_off]. rewrite Nat2Z.id. intros j Hj.
  pose proof (given_fun _ _ _ _ Em Hj) as E. destruct HC as [HC|[HC|HC]]; [lia|congruence|congruence].
Qed.
Lemma write_one P en x m q : holding P en -> nth_error (e_vars en) x = Some (Some m) ->
  (k <= x)%nat \/ lot x q = Some i -> wr' P (Ptr (ma_block m) (Z.of_nat q)).
Proof.
  intros (H1 & H2 & H3) Em HC. destruct (Nat.lt_ge_cases x k) as [L|L]; [|left; eapply H1; eauto].
  rewrite H3 in Em by auto. right. unfold may_write. cbn [p_blk p_off]. rewrite Nat2Z.id. exists x, m. split; [auto|]. split; [auto|].
  destruct HC; [lia|auto].
Qed.
Lemma read_elems st en (h : heap T) P d p : related st en h -> stands_for (e_vars en) d p -> holding P en ->
  (forall t, in_bounds (pl_bases p) (pl_shape p) t -> (k <= pl_var p)%nat \/ lot (pl_var p) (pl_cell p t) = None \/ lot (pl_var p) (pl_cell p t) = Some i) ->
  forall q, element_of d q -> rd' P q.
Proof.
  intros HR HS HH HC q Hq. destruct (stands_owner _ _ _ _ _ HR HS) as (c & m & a & Em & _ & _ & _ & _ & _ & Hd & Eb & Ee & HP).
  apply element_of_addr in Hq; [|auto]. destruct Hq as (t & Ht & ->). rewrite Eb, Ee in Ht.
  rewrite (proj1 (HP t Ht)). eapply read_one; eauto.
Qed.
Lemma write_elems st en (h : heap T) P d p : related st en h -> stands_for (e_vars en) d p -> holding P en ->
  (forall t, in_bounds (pl_bases p) (pl_shape p) t -> (k <= pl_var p)%nat \/ lot (pl_var p) (pl_cell p t) = Some i) ->
  forall q, element_of d q -> wr' P q.
Proof.
  intros HR HS HH HC q Hq. destruct (stands_owner _ _ _ _ _ HR HS) as (c & m & a & Em & _ & _ & _ & _ & _ & Hd & Eb & Ee & HP).
  apply element_of_addr in Hq; [|auto]. destruct Hq as (t & Ht & ->). rewrite Eb, Ee in Ht.
  rewrite (proj1 (HP t Ht)). eapply write_one; eauto.
Qed.
Lemma stands_ok vars d p : stands_for vars d p -> nd_ok d /\ nd_base d = pl_bases p /\ nd_ext d = pl_shape p.
Proof. intros (c & m & _ & Hc & _ & Hd & Eb & Ee & _). split; [eapply derived_ok; eauto|auto]. Qed.
Lemma stands_addr vars d p t : stands_for vars d p -> in_bounds (pl_bases p) (pl_shape p) t ->
  exists m, nth_error vars (pl_var p) = Some (Some m) /\ addr d t = Ptr (ma_block m) (Z.of_nat (pl_cell p t)).
Proof. intros (c & m & Em & _ & _ & _ & _ & _ & _ & _ & HP) Ht. exists m. split; [auto|]. apply HP. auto. Qed.

Lemma fq_convert chk x so aid (P : nat -> Prop) : nd_ok x -> order_ok (length (nd_ext x)) so -> layout_ok so (nd_base x) (nd_ext x) ->
  (forall q, element_of x q -> rd' P q) -> fq' true P (@j_ma_convert T dflt chk x so aid) (made P) (grow P).
Proof.
  intros Hx Ho Hl HR. unfold j_ma_convert. cbv zeta. apply fq_lift. intros c Hc.
  destruct (from_shape_ok chk null_ptr (nd_base x) (nd_ext x) so Ho Hl) as (c' & Ec & Hok & _ & _ & Ee & Eb). rewrite Hc in Ec. injection Ec as <-.
  eapply fq_bind; [apply fq_space|]. intros P' m G [HM Er].
  apply fq_late_bind; [|intros _; exact HM|exact G].
  assert (Hm : nd_ok (cr_nd (ma_ref m))) by (rewrite Er; apply cref_addressable; apply set_base_ok; auto).
  assert (Eme : nd_ext (cr_nd (ma_ref m)) = nd_ext x) by (rewrite Er; cbn; auto).
  assert (A1 : forall p, element_of x p -> rd' P' p) by (intros p Hp; destruct (HR p Hp) as [H|H]; [left; apply G; exact H|right; exact H]).
  assert (A2 : forall p, element_of (cr_nd (ma_ref m)) p -> wr' P' p).
  { intros p Hp. left. apply element_of_addr in Hp; [|auto]. destruct Hp as (t & _ & ->). rewrite Er. cbn. apply (proj1 (proj2 HM)). }
  assert (EL : length (nd_ext x) <> O) by (pose proof Hx as (_ & _ & H & _); lia).
  destruct (length (nd_ext x)) as [|n] eqn:En; [congruence|]. cbn [j_std_copy_nd].
  eapply cl_tk; [|apply tk_copy_rows; apply tk_assign_nd]. apply safe_copy_rows; auto. intros _ d s Hd Hs E1 E2 B1 B2.
  apply safe_assign_nd; auto.
Qed.

Lemma fq_new en P (m : job T multi_array) : holding P en -> fq' true P m (made P) (grow P) ->
  fq' true P (jbind m (fun a => JRet (declare en a, @ONone T))) (fun P' r => holding P' (fst r)) (fun P' => holding P' en).
Proof.
  intros HM HF. eapply fq_bind.
  - eapply fq_weak; [| |exact HF]; [intros P' a G HQ; exact HQ|]. intros P' G _. eapply holding_grow; eauto.
  - intros P' a G (_ & Ha & _). cbn. apply holding_declare; auto. eapply holding_grow; eauto.
Qed.
Lemma fq_change en x P (m : job T multi_array) : (k <= x)%nat -> holding P en -> fq' true P m (made P) (grow P) ->
  fq' true P (jbind m (fun a => JRet (update en x a, @ONone T))) (fun P' r => holding P' (fst r)) (fun P' => holding P' en).
Proof.
  intros Hx HM HF. eapply fq_bind.
  - eapply fq_weak; [| |exact HF]; [intros P' a G HQ; exact HQ|]. intros P' G _. eapply holding_grow; eauto.
  - intros P' a G (_ & Ha & _). cbn. apply holding_set; [auto|eapply holding_grow; eauto|]. intros m0 [= <-]. auto.
Qed.
Lemma fq_plain {A} en en' (o : @output T) P (m : job T A) : holding P en -> holding P en' -> cl (rd' P) (wr' P) P m ->
  fq' true P (jbind m (fun _ => JRet (en', o))) (fun P' r => holding P' (fst r)) (fun P' => holding P' en).
Proof. intros HM HM' HL. apply fq_late_bind; auto. Qed.

(** what an evaluated expression stands for *)
Lemma eval_stands st en (h : heap T) chk e p d : related st en h -> denotes st e p -> eval_nd chk en e = Ok d -> stands_for (e_vars en) d p.
Proof. intros HR HD E. destruct (denotes_nd st en h chk e p HR HD) as (d' & E' & HS). congruence. Qed.

Ltac st e := match goal with HR : related ?s ?en ?h, HD : denotes ?s e ?p, E : eval_nd ?chk ?en e = Ok ?d |- _ =>
  let H := fresh "ST" in pose proof (eval_stands s en h chk e p d HR HD E) as H;
  let H2 := fresh "SO" in pose proof (stands_ok _ _ _ H) as H2 end.

Lemma fq_exec st en (h : heap T) c o st' chk P : related st en h -> step dflt eqT ltT st c o st' ->
  keeps_to lot i k st c -> holding P en ->
  fq' true P (j_exec dflt eqT ltT chk en c) (fun P' r => holding P' (fst r)) (fun P' => holding P' en).
Proof.
  intros HR HS (KS & KW & KR) HM.
  assert (VB : forall x m, var en x = Ok m -> (k <= x)%nat -> P (ma_block m) /\ P (p_blk (cr_base (ma_ref m)))).
  { intros x m Em Hk. apply var_is in Em. rewrite (var_blk st en h x m HR Em). split; eapply HM; eauto. }
  assert (HN : forall d, holding P (name en d)) by (intros d; exact HM).
  assert (HRn : forall x d, holding P (rename en x d)) by (intros x d; exact HM).
  assert (HU : forall x a b, ma_base b = ma_base a -> var en x = Ok a -> (k <= x)%nat -> holding P (update en x b)).
  { intros x a b EB Ea Hk. apply holding_set; auto. intros m [= <-]. unfold ma_block. rewrite EB. apply var_is in Ea. eapply HM; eauto. }
  destruct c; cbn [j_exec]; repeat (apply fq_lift; intros ? ?).
  - apply fq_new; auto. apply fq_default.
  - apply fq_new; auto. apply fq_from_list.
  - apply fq_new; auto. apply fq_from_gen.
  - apply fq_new; auto. apply fq_copy. inversion HS; subst. apply var_is in H.
    destruct (relA_var_inv _ _ _ _ _ (proj1 HR) H) as (a1 & Ea & (O1 & _)). match goal with HA : array_is st y ?b |- _ => assert (a1 = b) by (unfold array_is in HA; congruence); subst a1 end.
    destruct O1 as (_ & O2 & O3 & _ & O5 & _). intros j Hj. replace (padd (ma_base a) j) with (Ptr (ma_block a) (Z.of_nat (Z.to_nat j))).
    + eapply read_one; eauto. apply KR. econstructor; [eassumption|]. unfold cr_num_elements in O5. lia.
    + unfold ma_block, padd. rewrite O3. f_equal. lia.
  - apply fq_new; auto. inversion HS; subst. st e. destruct SO as (S1 & S2 & S3).
    match goal with HW : well_formed ?b, E1 : a_shape ?b = _, E2 : a_bases ?b = _ |- _ => destruct HW as (W1 & W2 & _); rewrite E1 in W1, W2; rewrite E2 in W2 end.
    apply fq_convert; auto; [rewrite S3; auto|rewrite S2, S3; auto|].
    eapply read_elems; eauto. intros t Ht. apply KR. econstructor; eauto.
  - exact (HN _).
  - exact (HN _).
  - exact (HN _).
  - exact (HN _).
  - exact (HN _).
  - assert (Hk : (k <= x)%nat) by (apply KS; constructor). destruct (VB x a) as [B1 B2]; auto.
    apply fq_plain; auto; [|apply cl_destroy; auto]. apply holding_set; auto. discriminate.
  - inversion HS; subst. st dst. st src. destruct SO as (S1 & S2 & S3), SO0 as (S4 & S5 & S6).
    match goal with HC : copied _ _ _ _ |- _ => destruct HC as [HE _] end.
    apply fq_plain; auto. eapply cl_tk; [apply safe_assign_nd|apply tk_assign_nd]; auto; try congruence.
    + eapply read_elems; eauto. intros t Ht. apply KR. econstructor; eauto.
    + eapply write_elems; eauto. intros t Ht. apply KW. econstructor; eauto.
  - apply fq_plain; auto. unfold j_ma_assign, j_ma_assign_from. destruct (Nat.eqb_spec x y) as [->|N]; [exact I|].
    inversion HS; subst.
    assert (E1 : eval_nd chk en (Var x) = Ok (cr_nd (ma_ref a))) by (unfold eval_nd, eval; rewrite H; reflexivity).
    assert (E2 : eval_nd chk en (Var y) = Ok (cr_nd (ma_ref a0))) by (unfold eval_nd, eval; rewrite H0; reflexivity).
    st (Var x). st (Var y). destruct SO as (S1 & S2 & S3), SO0 as (S4 & S5 & S6).
    match goal with HC : copied _ _ _ _ |- _ => destruct HC as [HE _] end.
    eapply cl_tk; [apply safe_assign_nd|apply tk_assign_nd]; auto; try (cbn [cr_nd nd_ext] in *; congruence).
    + eapply read_elems; eauto. intros t Ht. destruct (stands_owner _ _ _ _ _ HR ST0) as (c1 & m1 & a1 & _ & Ha1 & _ & _ & _ & _ & _ & _ & _ & HP1).
      match goal with HD : denotes st (Var y) ?pp |- _ => inversion HD; subst end.
      apply KR. apply (re_assign_var st x y a1); auto. apply HP1. auto.
    + eapply write_elems; eauto. intros t Ht. destruct (stands_owner _ _ _ _ _ HR ST) as (c1 & m1 & a1 & _ & Ha1 & _ & _ & _ & _ & _ & _ & _ & HP1).
      match goal with HD : denotes st (Var x) ?pp |- _ => inversion HD; subst end.
      apply KW. apply (we_assign_var st x y a1); auto. apply HP1. auto.
  - inversion HS; subst. st dst. st src. destruct SO as (S1 & S2 & S3), SO0 as (S4 & S5 & S6).
    match goal with HC : copied _ _ _ _ |- _ => destruct HC as [HE _] end.
    apply fq_plain; auto. unfold j_copy_array. apply cl_lift. intros _ _. eapply cl_tk; [apply safe_copy_dispatch|apply tk_copy_dispatch]; auto; try congruence.
    + eapply read_elems; eauto. intros t Ht. apply KR. econstructor; eauto.
    + eapply write_elems; eauto. intros t Ht. apply KW. econstructor; eauto.
  - inversion HS; subst. st e. destruct SO as (S1 & S2 & S3). match goal with HL : look _ _ _ _ |- _ => destruct HL as [HI _] end.
    apply fq_late_bind; auto. unfold j_get_element. rewrite access_element_ok by (rewrite ?S2, ?S3; auto). cbn. split; auto.
    destruct (stands_addr _ _ _ _ ST HI) as (m & Em & ->). eapply read_one; eauto. apply KR. econstructor; eauto.
  - inversion HS; subst. st e. destruct SO as (S1 & S2 & S3). match goal with HL : put _ _ _ _ _ |- _ => destruct HL as [HI _] end.
    apply fq_plain; auto. unfold j_set_element. rewrite access_element_ok by (rewrite ?S2, ?S3; auto). cbn. repeat split; auto.
    destruct (stands_addr _ _ _ _ ST HI) as (m & Em & ->). eapply write_one; eauto. apply KW. econstructor; eauto.
  - inversion HS; subst. st e. destruct SO as (S1 & S2 & S3). match goal with HL : look _ _ _ _ |- _ => destruct HL as [HI _] end.
    apply fq_late_bind; auto. unfold j_get_bracket. rewrite bracket_ok by (rewrite ?S2, ?S3; auto). cbn. split; auto.
    destruct (stands_addr _ _ _ _ ST HI) as (m & Em & ->). eapply read_one; eauto. apply KR. econstructor; eauto.
  - inversion HS; subst. st e. destruct SO as (S1 & S2 & S3). match goal with HL : put _ _ _ _ _ |- _ => destruct HL as [HI _] end.
    apply fq_plain; auto. unfold j_set_bracket. rewrite bracket_ok by (rewrite ?S2, ?S3; auto). cbn. repeat split; auto.
    destruct (stands_addr _ _ _ _ ST HI) as (m & Em & ->). eapply write_one; eauto. apply KW. econstructor; eauto.
  - inversion HS; subst. apply fq_plain; auto. apply var_is in H.
    destruct (relA_var_inv _ _ _ _ _ (proj1 HR) H) as (a1 & Ea & (O1 & _)). match goal with HA : array_is st x ?b |- _ => assert (a1 = b) by (unfold array_is in HA; congruence); subst a1 end.
    destruct O1 as (_ & O2 & O3 & _ & O5 & _). unfold cr_num_elements in O5. unfold j_cr_assign.
    eapply cl_tk; [|apply tk_assign_loop]. rewrite <- (padd_0 (cr_base (ma_ref a))). apply safe_assign_loop; [lia|]. intros j Hj.
    replace (padd (cr_base (ma_ref a)) j) with (Ptr (ma_block a) (Z.of_nat (Z.to_nat j))).
    + eapply write_one; eauto. apply KW. econstructor; [eassumption| |]; lia.
    + unfold cr_data in O2. rewrite O2. unfold ma_block, padd. rewrite O3. f_equal. lia.
  - inversion HS; subst. match goal with HN' : named_is st _ _ |- _ => destruct (named_eval st en h _ _ HR HN') as (d & Ed & Hd) end. rewrite H in Ed. injection Ed as <-.
    destruct a as [v|c]; [contradiction|]. destruct Hd as (m & Em & Hc & HL & Eb & Ee & _).
    apply fq_plain; auto. unfold j_cr_assign. destruct HL as (L0 & L1 & L2). unfold cr_data in L1.
    eapply cl_tk; [|apply tk_assign_loop]. rewrite <- (padd_0 (cr_base c)). apply safe_assign_loop; [lia|]. intros j Hj.
    rewrite L1. replace (padd (Ptr (ma_block m) off) j) with (Ptr (ma_block m) (Z.of_nat (Z.to_nat (off + j)))).
    + eapply write_one; eauto. apply KW. econstructor; [eassumption|]. rewrite Z2Nat.id by lia.
      assert (EN : cr_num c = prod (cr_ext c)) by (apply (array_object_ok c Hc)). rewrite EN, Ee in Hj. lia.
    + unfold padd. cbn [p_blk p_off]. f_equal. lia.
  - inversion HS; subst. st e. destruct SO as (S1 & S2 & S3). apply fq_plain; auto.
    eapply cl_tk; [apply safe_for_each|apply tk_for_each]; auto. intros q Hq. split.
    + eapply read_elems; eauto. intros t Ht. apply KR. econstructor; eauto.
    + eapply write_elems; eauto. intros t Ht. apply KW. econstructor; eauto.
  - assert (Hk : (k <= x)%nat) by (apply KS; constructor). apply (HU x a); auto.
    unfold ma_reindex in H0. oinv H0. inversion H0; subst. reflexivity.
  - assert (Hk : (k <= x)%nat) by (apply KS; constructor). apply (HU x a); auto.
    unfold ma_reindex1 in H0. oinv H0. inversion H0; subst. reflexivity.
  - assert (Hk : (k <= x)%nat) by (apply KS; constructor). apply (HU x a); auto.
    unfold ma_reshape in H0. oinv H0. inversion H0; subst. reflexivity.
  - destruct a; apply fq_lift; intros ? _; exact (HRn _ _).
  - destruct a; apply fq_lift; intros ? _; exact (HRn _ _).
  - destruct a; [exact I|]. apply fq_lift; intros ? _; exact (HRn _ _).
  - assert (Hk : (k <= x)%nat) by (apply KS; constructor). destruct (VB x a) as [B1 B2]; auto. apply fq_change; auto. apply fq_resize; auto.
  - assert (Hk : (k <= x)%nat) by (apply KS; constructor). destruct (VB x a) as [B1 B2]; auto. apply fq_change; auto. apply fq_resize_list; auto.
  - inversion HS; subst. st a. st b. destruct SO as (S1 & S2 & S3), SO0 as (S4 & S5 & S6). apply fq_late_bind; auto.
    assert (RA : forall q, element_of a0 q -> rd' P q) by (eapply read_elems; eauto; intros t Ht; apply KR; eapply re_compare_left; eauto).
    assert (RB : forall q, element_of a1 q -> rd' P q) by (eapply read_elems; eauto; intros t Ht; apply KR; eapply re_compare_right; eauto).
    assert (EL : length (nd_ext a1) = length (nd_ext a0)) by congruence.
    unfold j_compare. destruct op; try (apply cl_bind; [|intros; exact I]); eapply cl_tk; try apply tk_of_prog;
      first [apply safe_nd_eq|apply safe_nd_lt]; auto.
  - exact HM.
Qed.
End Command.
