(** ThreadProofs.v -- lemmas for C44. *)

From Coq Require Import ZArith List Bool Permutation Lia.
From Verif Require Import Base StorageOrder Ranges Layout Access Objects Memory Ops Threads Spec ReachSpec MemSpec ThreadSpec
  Facts LayoutProofs AccessProofs ViewProofs MemoryProofs CopyProofs ReachProofs ThmAddressing ThmIter ThmCopy ThmBulk.
Import ListNotations.
Local Open Scope Z_scope.

Lemma set_nth_comm {A} n m (x y : A) l : n <> m -> set_nth n x (set_nth m y l) = set_nth m y (set_nth n x l).
Proof.
  revert n m. induction l as [|z l IH]; intros [|n] [|m] H; cbn [set_nth]; try reflexivity; try lia. f_equal. apply IH. lia.
Qed.

Section Exec.
Context {T : Type}.

(** * run_prog gives back the functions of Ops.v *)

Definition quiet (w : world T) : Prop := w_fuse w = None.
Definition meq {A} (m m' : M T A) : Prop := forall w, quiet w -> m w = m' w.
Definition keeps {A} (m : M T A) : Prop := forall w a w', quiet w -> m w = Done a w' -> quiet w'.

Lemma run_prog_keeps {A} (m : prog T A) : keeps (run_prog m).
Proof.
  induction m as [a| | | |p k IH|p v k IH]; intros w x w' Q E; cbn [run_prog] in E; try discriminate.
  - injection E as _ <-. auto.
  - unfold bind, load, lift in E. destruct (hread (w_heap w) p) as [u| |]; try discriminate. eapply IH; eauto.
  - unfold bind, store in E. destruct (hwrite (w_heap w) p v) as [h'| |]; try discriminate.
    apply IH in E; auto.
Qed.

Lemma run_prog_bind {A B} (m : prog T A) (f : A -> prog T B) w :
  run_prog (pbind m f) w = bind (run_prog m) (fun a => run_prog (f a)) w.
Proof.
  revert w. induction m as [a| | | |p k IH|p v k IH]; intros w; cbn [pbind run_prog]; try reflexivity.
  - rewrite bind_assoc. apply bind_ext; auto.
  - rewrite bind_assoc. apply bind_ext; auto.
Qed.
Lemma run_prog_lift {A} (o : outcome A) w : run_prog (T := T) (plift o) w = lift o w.
Proof. destruct o; reflexivity. Qed.

Lemma meq_bind {A B} (m : prog T A) (m' : M T A) (f : A -> prog T B) (f' : A -> M T B) :
  meq (run_prog m) m' -> (forall a, meq (run_prog (f a)) (f' a)) -> meq (run_prog (pbind m f)) (bind m' f').
Proof.
  intros Hm Hf w Q. rewrite run_prog_bind. unfold bind. rewrite <- Hm by auto.
  destruct (run_prog m w) as [a w'| | | |] eqn:E; auto. apply Hf. eapply run_prog_keeps; eauto.
Qed.
Lemma meq_lift {A} (o : outcome A) : meq (run_prog (T := T) (plift o)) (lift o).
Proof. intros w _. apply run_prog_lift. Qed.
Lemma meq_ret {A} (a : A) : meq (run_prog (T := T) (PRet a)) (ret a).
Proof. intros w _. reflexivity. Qed.
Lemma meq_undef {A} : meq (run_prog (T := T) (@PUndef T A)) (fun _ => Undef).
Proof. intros w _. reflexivity. Qed.

Lemma tick_quiet (w : world T) : quiet w -> tick w = Done tt w.
Proof. intros Q. unfold tick. rewrite Q. reflexivity. Qed.

Lemma meq_elem_assign d s : meq (run_prog (p_elem_assign d s)) (elem_assign (T := T) d s).
Proof.
  intros w Q. unfold p_elem_assign, elem_assign. cbn [run_prog]. unfold bind at 1 3. unfold load, lift.
  destruct (hread (w_heap w) s); auto. unfold bind. rewrite tick_quiet by auto.
  unfold store. destruct (hwrite (w_heap w) d a); reflexivity.
Qed.

Ltac mstep := first [apply meq_bind; [apply meq_lift|intros ?] | apply meq_lift | apply meq_ret | apply meq_undef].

Lemma meq_copy_loop (pb : iter -> iter -> prog T unit) body : (forall f r, meq (run_prog (pb f r)) (body f r)) ->
  forall fuel f l r, meq (run_prog (p_copy_loop pb fuel f l r)) (copy_loop body fuel f l r).
Proof.
  intros H. induction fuel as [|n IH]; intros f l r; cbn [p_copy_loop copy_loop]; destruct (it_equal f l); try apply meq_ret.
  - intros w _. reflexivity.
  - apply meq_bind; [apply H|intros _]. repeat mstep. apply IH.
Qed.
Lemma meq_copy_rows prec rec chk k dst src : (forall d s, meq (run_prog (prec d s)) (rec d s)) ->
  meq (run_prog (p_copy_rows (T := T) prec chk k dst src)) (copy_rows rec chk k dst src).
Proof.
  intros H. unfold p_copy_rows, copy_rows. repeat mstep. apply meq_copy_loop. intros f r.
  destruct k; mstep; mstep; [apply meq_elem_assign|apply H].
Qed.
Lemma meq_assign_nd chk n : forall dst src, meq (run_prog (p_assign_nd (T := T) chk n dst src)) (assign_nd chk n dst src).
Proof.
  induction n as [|n IH]; intros dst src; cbn [p_assign_nd assign_nd]; [apply meq_undef|]. mstep.
  apply meq_copy_rows. auto.
Qed.
Lemma meq_copy_dispatch chk n : forall dst src, meq (run_prog (p_copy_dispatch (T := T) chk n dst src)) (copy_dispatch chk n dst src).
Proof.
  induction n as [|n IH]; intros dst src; cbn [p_copy_dispatch copy_dispatch]; [apply meq_undef|].
  apply meq_copy_rows. auto.
Qed.
Lemma meq_copy_array chk n dst src : meq (run_prog (p_copy_array (T := T) chk n dst src)) (copy_array chk n dst src).
Proof. unfold p_copy_array, copy_array. mstep. apply meq_copy_dispatch. Qed.

Lemma meq_each_loop (pb : iter -> prog T unit) body : (forall f, meq (run_prog (pb f)) (body f)) ->
  forall fuel f l, meq (run_prog (p_each_loop pb fuel f l)) (each_loop body fuel f l).
Proof.
  intros H. induction fuel as [|n IH]; intros f l; cbn [p_each_loop each_loop]; destruct (it_equal f l); try apply meq_ret.
  - intros w _. reflexivity.
  - apply meq_bind; [apply H|intros _]. repeat mstep. apply IH.
Qed.
Lemma meq_for_each chk f n : forall a, meq (run_prog (p_for_each (T := T) chk f n a)) (for_each chk f n a).
Proof.
  induction n as [|n IH]; intros a; cbn [p_for_each for_each]; [apply meq_undef|]. repeat mstep.
  apply meq_each_loop. intros i. destruct n as [|n]; (apply meq_bind; [apply meq_lift|]); [intros p|intros r; apply IH].
  intros w Q. cbn [run_prog]. unfold bind at 1 3, load, lift. destruct (hread (w_heap w) p); auto.
  unfold bind. rewrite tick_quiet by auto. unfold store. destruct (hwrite _ _ _); reflexivity.
Qed.
Lemma meq_assign_loop l : forall p n m, meq (run_prog (p_assign_loop (T := T) p l n m)) (assign_loop p l n m).
Proof.
  induction l as [|v l IH]; intros p n m; cbn [p_assign_loop assign_loop]; [apply meq_ret|].
  destruct (n <? m); [|apply meq_ret]. intros w Q. cbn [run_prog]. unfold bind at 2. rewrite tick_quiet by auto.
  unfold bind, store. destruct (hwrite _ _ _) as [h'| |]; auto. apply IH. auto.
Qed.
Lemma meq_get o : meq (run_prog (pbind (plift o) (fun p => PLoad p (fun v : T => PRet v)))) (p <~ lift o ;; load p).
Proof.
  mstep. intros w Q. cbn [run_prog]. unfold bind, load, lift. destruct (hread _ _); reflexivity.
Qed.
Lemma meq_set o v : meq (run_prog (pbind (plift o) (fun p => PStore p v (PRet tt)))) (p <~ lift o ;; _ <~ tick ;; store (T := T) p v).
Proof.
  mstep. intros w Q. cbn [run_prog]. unfold bind. rewrite tick_quiet by auto. unfold store. destruct (hwrite _ _ _); reflexivity.
Qed.

(** comparisons are functions of the heap *)
Definition heq {A} (m : prog T A) (o : heap T -> outcome A) : Prop :=
  forall h f, run_prog m (World h f) = lift (o h) (World h f).
Lemma heq_bind {A B} (m : prog T A) o (f : A -> prog T B) g : heq m o -> (forall a, heq (f a) (fun h => g h a)) ->
  heq (pbind m f) (fun h => a <- o h ;; g h a).
Proof.
  intros Hm Hf h fu. rewrite run_prog_bind. unfold bind. rewrite Hm. destruct (o h) as [a| |]; cbn; auto. apply Hf.
Qed.
Lemma heq_lift {A} (o : outcome A) : heq (plift o) (fun _ => o).
Proof. intros h f. apply run_prog_lift. Qed.
Lemma heq_load2 {A} p q (g : T -> T -> A) : heq (PLoad p (fun u => PLoad q (fun v => PRet (g u v))))
  (fun h => u <- hread h p ;; v <- hread h q ;; Ok (g u v)).
Proof.
  intros h f. cbn [run_prog]. unfold bind, load, lift. cbn [w_heap]. destruct (hread h p); try reflexivity. cbn [obind w_heap].
  destruct (hread h q); reflexivity.
Qed.
Lemma heq_equal_loop pb (body : heap T -> iter -> iter -> outcome bool) :
  (forall x y, heq (pb x y) (fun h => body h x y)) ->
  forall fuel f l g, heq (p_equal_loop pb fuel f l g) (fun h => equal_loop (body h) fuel f l g).
Proof.
  intros H. induction fuel as [|n IH]; intros f l g; cbn [p_equal_loop equal_loop]; destruct (it_equal f l); try (intros h fu; reflexivity).
  apply (heq_bind (pb f g) (fun h => body h f g)); auto. intros b. destruct b; [|intros h fu; reflexivity].
  apply (heq_bind (plift (it_inc f)) (fun _ => it_inc f)); [apply heq_lift|]. intros f'.
  apply (heq_bind (plift (it_inc g)) (fun _ => it_inc g)); [apply heq_lift|]. intros g'. apply IH.
Qed.
Lemma heq_lex_loop pb (body : heap T -> iter -> iter -> outcome bool) :
  (forall x y, heq (pb x y) (fun h => body h x y)) ->
  forall fuel f l g m, heq (p_lex_loop pb fuel f l g m) (fun h => lex_loop (body h) fuel f l g m).
Proof.
  intros H. induction fuel as [|n IH]; intros f l g m; cbn [p_lex_loop lex_loop];
    (destruct (it_equal f l); [intros h fu; reflexivity|]); (destruct (it_equal g m); [intros h fu; reflexivity|]);
    [intros h fu; reflexivity|].
  apply (heq_bind (pb f g) (fun h => body h f g)); auto. intros b. destruct b; [intros h fu; reflexivity|].
  apply (heq_bind (pb g f) (fun h => body h g f)); auto. intros b. destruct b; [intros h fu; reflexivity|].
  apply (heq_bind (plift (it_inc f)) (fun _ => it_inc f)); [apply heq_lift|]. intros f'.
  apply (heq_bind (plift (it_inc g)) (fun _ => it_inc g)); [apply heq_lift|]. intros g'. apply IH.
Qed.
Lemma heq_nd_eq eqT chk n : forall a b, heq (p_nd_eq eqT chk n a b) (fun h => nd_eq eqT chk h n a b).
Proof.
  induction n as [|n IH]; intros a b; cbn [p_nd_eq nd_eq]; [intros h f; reflexivity|].
  destruct (list_eqb (nd_ext a) (nd_ext b)); [|intros h f; reflexivity].
  apply (heq_bind (plift (nd_begin a)) (fun _ => nd_begin a)); [apply heq_lift|]. intros f1.
  apply (heq_bind (plift (nd_end a)) (fun _ => nd_end a)); [apply heq_lift|]. intros l1.
  apply (heq_bind (plift (nd_begin b)) (fun _ => nd_begin b)); [apply heq_lift|]. intros f2.
  apply (heq_equal_loop _ (fun h x y => match n with
    | O => p <- it_deref_one chk x ;; q <- it_deref_one chk y ;; u <- hread h p ;; v <- hread h q ;; Ok (eqT u v)
    | S _ => s <- it_deref_n chk x ;; t <- it_deref_n chk y ;; nd_eq eqT chk h n s t end)).
  intros x y. destruct n.
  - apply (heq_bind (plift _) (fun _ => it_deref_one chk x)); [apply heq_lift|]. intros p.
    apply (heq_bind (plift _) (fun _ => it_deref_one chk y)); [apply heq_lift|]. intros q. apply heq_load2.
  - apply (heq_bind (plift _) (fun _ => it_deref_n chk x)); [apply heq_lift|]. intros p.
    apply (heq_bind (plift _) (fun _ => it_deref_n chk y)); [apply heq_lift|]. intros q. apply IH.
Qed.
Lemma heq_nd_lt ltT chk n : forall a b, heq (p_nd_lt ltT chk n a b) (fun h => nd_lt ltT chk h n a b).
Proof.
  induction n as [|n IH]; intros a b; cbn [p_nd_lt nd_lt]; [intros h f; reflexivity|].
  apply (heq_bind (plift (nd_begin a)) (fun _ => nd_begin a)); [apply heq_lift|]. intros f1.
  apply (heq_bind (plift (nd_end a)) (fun _ => nd_end a)); [apply heq_lift|]. intros l1.
  apply (heq_bind (plift (nd_begin b)) (fun _ => nd_begin b)); [apply heq_lift|]. intros f2.
  apply (heq_bind (plift (nd_end b)) (fun _ => nd_end b)); [apply heq_lift|]. intros l2.
  apply (heq_lex_loop _ (fun h x y => match n with
    | O => p <- it_deref_one chk x ;; q <- it_deref_one chk y ;; u <- hread h p ;; v <- hread h q ;; Ok (ltT u v)
    | S _ => s <- it_deref_n chk x ;; t <- it_deref_n chk y ;; nd_lt ltT chk h n s t end)).
  intros x y. destruct n.
  - apply (heq_bind (plift _) (fun _ => it_deref_one chk x)); [apply heq_lift|]. intros p.
    apply (heq_bind (plift _) (fun _ => it_deref_one chk y)); [apply heq_lift|]. intros q. apply heq_load2.
  - apply (heq_bind (plift _) (fun _ => it_deref_n chk x)); [apply heq_lift|]. intros p.
    apply (heq_bind (plift _) (fun _ => it_deref_n chk y)); [apply heq_lift|]. intros q. apply IH.
Qed.
Lemma heq_meq {A} (m : prog T A) o : heq m o -> meq (run_prog m) (fun w => lift (o (w_heap w)) w).
Proof. intros H [h f] _. apply H. Qed.

Variable eqT ltT : T -> T -> bool.

Lemma meq_call chk k : meq (run_prog (p_call eqT ltT chk k)) (run_call eqT ltT chk k).
Proof.
  destruct k; cbn [p_call run_call]; try (apply meq_bind; [|intros ?; apply meq_ret]).
  - apply meq_get.
  - apply meq_get.
  - apply meq_set.
  - apply meq_set.
  - apply meq_assign_nd.
  - apply meq_copy_array.
  - apply meq_for_each.
  - apply meq_assign_loop.
  - intros w Q. exact (heq_meq _ _ (heq_nd_eq eqT chk (length (nd_ext a)) a b) w Q).
  - intros w Q. exact (heq_meq _ _ (heq_nd_lt ltT chk (length (nd_ext a)) a b) w Q).
Qed.
Lemma meq_thread chk t : meq (run_prog (p_thread eqT ltT chk t)) (run_thread eqT ltT chk t).
Proof.
  induction t as [|k t IH]; cbn [p_thread run_thread]; [apply meq_ret|].
  apply meq_bind; [apply meq_call|]. intros r. apply meq_bind; [apply IH|]. intros rs. apply meq_ret.
Qed.

End Exec.

(** * Interleaving *)
Section Interleave.
Context {T : Type}.

(** m finishes normally whatever it reads, reads only R and writes only W *)
Inductive safe {A} (R W : ptr -> Prop) : prog T A -> Prop :=
| safe_ret : forall a, safe R W (PRet a)
| safe_load : forall p k, R p -> (forall v, safe R W (k v)) -> safe R W (PLoad p k)
| safe_store : forall p v k, W p -> safe R W k -> safe R W (PStore p v k).

Lemma safe_bind {A B} R W (m : prog T A) (f : A -> prog T B) : safe R W m -> (forall a, safe R W (f a)) -> safe R W (pbind m f).
Proof. induction 1 as [a|p k Hp Hk IH|p v k Hp Hk IH]; intros Hf; cbn [pbind]; [auto|constructor; auto|constructor; auto]. Qed.
Lemma safe_mono {A} (R W R' W' : ptr -> Prop) (m : prog T A) : safe R W m -> (forall p, R p -> R' p) -> (forall p, W p -> W' p) -> safe R' W' m.
Proof. induction 1; intros; constructor; auto. Qed.
Lemma safe_lift {A B} R W (o : outcome A) a (f : A -> prog T B) : o = Ok a -> safe R W (f a) -> safe R W (pbind (plift o) f).
Proof. intros ->. auto. Qed.

(** writes *)
Lemma hwrite_init (h : heap T) p v : init h p -> exists h', hwrite h p v = Ok h'.
Proof.
  intros [u Hu]. unfold hwrite. rewrite Hu. destruct (hset_spec h p (Some v) _ Hu) as (h' & E & _). rewrite E. eauto.
Qed.
Lemma hwrite_cells (h h' : heap T) p v : hwrite h p v = Ok h' ->
  init h p /\ forall q, hcell h' q = if ptr_eqb p q then Some (Some v) else hcell h q.
Proof.
  unfold hwrite. destruct (hcell h p) as [[u|]|] eqn:E; try discriminate. intros H. split; [exists u; auto|].
  destruct (hset_spec h p (Some v) _ E) as (h2 & E2 & _ & C & _). rewrite E2 in H. injection H as <-. auto.
Qed.
Lemma hwrite_hread (h h' : heap T) p v q : hwrite h p v = Ok h' -> p <> q -> hread h' q = hread h q.
Proof.
  intros H Hn. apply hwrite_cells in H. destruct H as [_ C]. unfold hread. rewrite C.
  destruct (ptr_eqb p q) eqn:E; auto. apply ptr_eqb_eq in E. congruence.
Qed.
Lemma hwrite_keeps_init (h h' : heap T) p v q : hwrite h p v = Ok h' -> init h q -> init h' q.
Proof.
  intros H [u Hu]. apply hwrite_cells in H. destruct H as [_ C]. unfold init. rewrite C.
  destruct (ptr_eqb p q); eauto.
Qed.
Lemma hwrite_form (h h' : heap T) p v : hwrite h p v = Ok h' -> exists k, hblock h (p_blk p) = Some k /\
  0 <= p_off p /\ h' = set_nth (p_blk p) (Some (Block (b_alloc k) (set_nth (Z.to_nat (p_off p)) (Some v) (b_cells k)))) h.
Proof.
  unfold hwrite, hset. destruct (hcell h p) as [[u|]|] eqn:E; try discriminate.
  destruct (hcell_inv _ _ _ E) as (k & Hk & Ho & _). rewrite Hk. intros H. injection H as <-. exists k. split; auto. split; [lia|auto].
Qed.
Lemma hwrite_comm (h h1 h2 h3 : heap T) p v q u : p <> q ->
  hwrite h p v = Ok h1 -> hwrite h1 q u = Ok h2 -> hwrite h q u = Ok h3 -> hwrite h3 p v = Ok h2.
Proof.
  intros Hn H1 H2 H3.
  assert (I : init h3 p).
  { apply hwrite_keeps_init with (q := p) in H3; auto. apply hwrite_cells in H1. tauto. }
  destruct (hwrite_init h3 p v I) as [h4 H4]. rewrite H4. f_equal.
  destruct (hwrite_form _ _ _ _ H1) as (k1 & K1 & O1 & ->). destruct (hwrite_form _ _ _ _ H2) as (k2 & K2 & O2 & ->).
  destruct (hwrite_form _ _ _ _ H3) as (k3 & K3 & O3 & ->). destruct (hwrite_form _ _ _ _ H4) as (k4 & K4 & O4 & ->).
  destruct p as [bp op], q as [bq oq]. cbn [p_blk p_off] in *.
  destruct (Nat.eq_dec bp bq) as [->|Hb].
  - rewrite hblock_set_eq in K2 by (eapply hblock_lt; eauto). injection K2 as <-.
    rewrite K1 in K3. injection K3 as <-. rewrite hblock_set_eq in K4 by (eapply hblock_lt; eauto). injection K4 as <-.
    cbn [b_alloc b_cells]. rewrite !set_nth_set_nth. do 3 f_equal. apply set_nth_comm.
    intros E. apply Hn. f_equal. lia.
  - rewrite hblock_set_ne in K2 by auto. rewrite K3 in K2. injection K2 as <-.
    rewrite hblock_set_ne in K4 by auto. rewrite K4 in K1. injection K1 as <-.
    apply set_nth_comm. auto.
Qed.

(** an uninterrupted run *)
Lemma run_prog_safe {A} R W (m : prog T A) : safe R W m -> forall h,
  (forall p, R p \/ W p -> init h p) ->
  exists a h', run_prog m (World h None) = Done a (World h' None) /\
    (forall p, ~ W p -> hcell h' p = hcell h p) /\ (forall p, init h p -> init h' p).
Proof.
  induction 1 as [a|p k Hp Hk IH|p v k Hp Hk IH]; intros h HI.
  - exists a, h. split; [reflexivity|auto].
  - destruct (HI p (or_introl Hp)) as [v Hv]. destruct (IH v h HI) as (a & h' & E & O). exists a, h'. split; auto.
    cbn [run_prog]. unfold bind, load. cbn [w_heap]. assert (Er : hread h p = Ok v) by (apply hread_init; auto).
    rewrite Er. exact E.
  - destruct (hwrite_init h p v (HI p (or_intror Hp))) as [h1 E1].
    destruct (IH h1) as (a & h' & E & O & I). { intros q Hq. eapply hwrite_keeps_init; eauto. }
    exists a, h'. split; [|split].
    + cbn [run_prog]. unfold bind, store. cbn [w_heap w_fuse]. rewrite E1. exact E.
    + intros q Hq. rewrite O by auto. destruct (hwrite_cells _ _ _ _ E1) as [_ C]. rewrite C.
      destruct (ptr_eqb p q) eqn:Eq; auto. apply ptr_eqb_eq in Eq. subst; tauto.
    + intros q Hq. apply I. eapply hwrite_keeps_init; eauto.
Qed.

(** a write elsewhere commutes with it *)
Lemma run_prog_commute {A} R W (m : prog T A) : safe R W m -> forall h h1 p v a h2,
  ~ R p -> ~ W p -> hwrite h p v = Ok h1 -> run_prog m (World h None) = Done a (World h2 None) ->
  exists h3, hwrite h2 p v = Ok h3 /\ run_prog m (World h1 None) = Done a (World h3 None).
Proof.
  induction 1 as [a0|q k Hq Hk IH|q u k Hq Hk IH]; intros h h1 p v a h2 HR HW E1 E.
  - cbn [run_prog] in *. injection E as <- <-. exists h1. auto.
  - cbn [run_prog] in *. unfold bind, load in *. cbn [w_heap] in *.
    rewrite (hwrite_hread _ _ _ _ q E1) by congruence.
    destruct (hread h q) as [w| |]; try discriminate. eapply IH; eauto.
  - cbn [run_prog] in *. unfold bind, store in *. cbn [w_heap w_fuse] in *.
    destruct (hwrite h q u) as [hq| |] eqn:Eq; try discriminate.
    assert (Hn : p <> q) by congruence.
    destruct (hwrite_init h1 q u) as [h1q E1q]. { apply hwrite_cells in Eq. eapply hwrite_keeps_init; [exact E1|tauto]. }
    rewrite E1q. destruct (IH hq h1q p v a h2 HR HW) as (h3 & E3 & E4); auto.
    { eapply hwrite_comm; [exact Hn|exact E1|exact E1q|exact Eq]. }
    exists h3. auto.
Qed.

(** threads one after another *)
Fixpoint run_order {A} (pool : list (prog T A)) (order : list nat) : M T (list (nat * A)) :=
  match order with
  | [] => ret []
  | i :: rest => match nth_error pool i with
                 | Some m => a <~ run_prog m ;; l <~ run_order pool rest ;; ret ((i, a) :: l)
                 | None => fun _ => Undef
                 end
  end.

Lemma nth_set_ne {A} (pool : list A) i j x : i <> j -> nth_error (set_nth i x pool) j = nth_error pool j.
Proof. apply nth_error_set_nth_ne. Qed.

Lemma run_order_other {A} (pool : list (prog T A)) i x order w : ~ In i order ->
  run_order (set_nth i x pool) order w = run_order pool order w.
Proof.
  revert w. induction order as [|j order IH]; intros w Hi; auto. cbn [run_order]. cbn [In] in Hi.
  rewrite nth_set_ne by (intros ->; tauto). destruct (nth_error pool j); auto. apply bind_ext; auto. intros a w'.
  apply bind_ext; auto.
Qed.

(** footprints of the threads of a pool *)
Definition pool_safe {A} (R W : nat -> ptr -> Prop) (pool : list (prog T A)) : Prop :=
  forall i m, nth_error pool i = Some m -> safe (R i) (W i) m.
Definition apart (R W : nat -> ptr -> Prop) : Prop :=
  forall i j p, i <> j -> W i p -> ~ R j p /\ ~ W j p.
Definition ready (R W : nat -> ptr -> Prop) (n : nat) (h : heap T) : Prop :=
  forall i p, (i < n)%nat -> R i p \/ W i p -> init h p.

(** one step of a thread does not change the result of the sequential run *)
Lemma load_invariant {A} R W (pool : list (prog T A)) i p k v : pool_safe R W pool -> apart R W ->
  nth_error pool i = Some (PLoad p k) -> R i p -> forall order h, NoDup order -> In i order ->
  ready R W (length pool) h -> hread h p = Ok v ->
  (forall j, In j order -> (j < length pool)%nat) ->
  run_order pool order (World h None) = run_order (set_nth i (k v) pool) order (World h None).
Proof.
  intros HS HA Hi HR. induction order as [|j order IH]; intros h Hnd Hin Hr Hv Hlt; [destruct Hin|].
  cbn [run_order]. inversion Hnd as [|x y Hx Hnd']; subst. destruct (Nat.eq_dec j i) as [->|Hj].
  - rewrite Hi. rewrite nth_error_set_nth_eq by (apply nth_error_Some; congruence).
    cbn [run_prog]. unfold bind at 1 2. unfold load. cbn [w_heap]. rewrite Hv. unfold lift.
    apply (bind_ext (run_prog (k v)) (run_prog (k v))); auto. intros a w. apply bind_ext; auto. symmetry. apply run_order_other. auto.
  - rewrite nth_set_ne by auto. destruct (nth_error pool j) as [m|] eqn:Ej; auto.
    destruct (run_prog_safe (R j) (W j) m (HS _ _ Ej) h) as (a & h' & E & O & I).
    { intros q Hq. apply (Hr j); auto. apply Hlt. left; auto. }
    unfold bind at 1 3. rewrite E. destruct Hin as [->|Hin]; [congruence|].
    apply bind_ext; auto. apply IH; auto.
    + intros i0 q Hi0 Hq. apply I. eapply Hr; eauto.
    + apply hread_init. rewrite O; [apply hread_init; auto|]. intros Hw. destruct (HA j i p Hj Hw). auto.
    + intros j0 H0. apply Hlt. right; auto.
Qed.

Lemma store_invariant {A} R W (pool : list (prog T A)) i p k v : pool_safe R W pool -> apart R W ->
  nth_error pool i = Some (PStore p v k) -> W i p -> forall order h h1, NoDup order -> In i order ->
  ready R W (length pool) h -> hwrite h p v = Ok h1 ->
  (forall j, In j order -> (j < length pool)%nat) ->
  run_order pool order (World h None) = run_order (set_nth i k pool) order (World h1 None).
Proof.
  intros HS HA Hi HW. induction order as [|j order IH]; intros h h1 Hnd Hin Hr Hv Hlt; [destruct Hin|].
  cbn [run_order]. inversion Hnd as [|x y Hx Hnd']; subst. destruct (Nat.eq_dec j i) as [->|Hj].
  - rewrite Hi. rewrite nth_error_set_nth_eq by (apply nth_error_Some; congruence).
    cbn [run_prog]. unfold bind at 1 2. unfold store. cbn [w_heap w_fuse]. rewrite Hv.
    apply (bind_ext (run_prog k) (run_prog k)); auto. intros a w. apply bind_ext; auto. symmetry. apply run_order_other. auto.
  - rewrite nth_set_ne by auto. destruct (nth_error pool j) as [m|] eqn:Ej; auto.
    destruct (run_prog_safe (R j) (W j) m (HS _ _ Ej) h) as (a & h' & E & O & I).
    { intros q Hq. apply (Hr j); auto. apply Hlt. left; auto. }
    destruct (HA i j p (not_eq_sym Hj) HW) as [NR NW].
    destruct (run_prog_commute (R j) (W j) m (HS _ _ Ej) h h1 p v a h' NR NW Hv E) as (h3 & E3 & E4).
    unfold bind at 1 3. rewrite E, E4. destruct Hin as [->|Hin]; [congruence|].
    unfold bind. rewrite (IH h' h3); auto.
    + intros i0 q Hi0 Hq. apply I. eapply Hr; eauto.
    + intros j0 H0. apply Hlt. right; auto.
Qed.

Lemma pool_safe_step {A} R W (s s' : heap T * list (prog T A)) : t_step s s' ->
  pool_safe R W (snd s) -> ready R W (length (snd s)) (fst s) -> 
  pool_safe R W (snd s') /\ ready R W (length (snd s')) (fst s') /\ length (snd s') = length (snd s).
Proof.
  assert (G : forall i x (pool : list (prog T A)), pool_safe R W pool -> safe (R i) (W i) x -> pool_safe R W (set_nth i x pool)).
  { intros i x pool HS Hx j m Hj. destruct (Nat.eq_dec i j) as [<-|Hn].
    - destruct (le_lt_dec (length pool) i) as [H|H].
      + assert (length (set_nth i x pool) <= i)%nat by (rewrite length_set_nth; auto).
        rewrite (proj2 (nth_error_None _ _)) in Hj by auto. discriminate.
      + rewrite nth_error_set_nth_eq in Hj by auto. injection Hj as <-. auto.
    - rewrite nth_set_ne in Hj by auto. auto. }
  intros H HS HR. inversion H as [h pool i p k v Hi Hv|h pool i p v k h' Hi Hv]; subst; cbn [fst snd] in *; rewrite length_set_nth.
  - pose proof (HS _ _ Hi) as Hs. inversion Hs; subst. split; [apply G; auto|]. auto.
  - pose proof (HS _ _ Hi) as Hs. inversion Hs; subst. split; [apply G; auto|]. split; auto.
    intros j q Hj Hq. eapply hwrite_keeps_init; eauto.
Qed.

Lemma steps_invariant {A} R W (s s' : heap T * list (prog T A)) : t_steps s s' -> apart R W ->
  pool_safe R W (snd s) -> ready R W (length (snd s)) (fst s) ->
  pool_safe R W (snd s') /\ ready R W (length (snd s')) (fst s') /\ length (snd s') = length (snd s) /\
  forall order, NoDup order -> (forall j, In j order <-> (j < length (snd s))%nat) ->
    run_order (snd s) order (World (fst s) None) = run_order (snd s') order (World (fst s') None).
Proof.
  intros H HA. induction H as [s|s s1 s2 H1 H2 IH]; intros HS HR; [auto|].
  destruct (pool_safe_step R W s s1 H1 HS HR) as (HS1 & HR1 & L1).
  destruct (IH HS1 HR1) as (HS2 & HR2 & L2 & E2). split; auto. split; auto. split; [lia|].
  intros order Hnd Hlt. rewrite <- E2; auto; [|rewrite L1; auto].
  inversion H1 as [h pool i p k v Hi Hv|h pool i p v k h' Hi Hv]; subst; cbn [fst snd] in *.
  - pose proof (HS _ _ Hi) as Hs. inversion Hs; subst. apply (load_invariant R W pool i p k v); auto.
    + apply Hlt. apply nth_error_Some. congruence.
    + intros j Hj. apply Hlt. auto.
  - pose proof (HS _ _ Hi) as Hs. inversion Hs; subst. apply (store_invariant R W pool i p k v); auto.
    + apply Hlt. apply nth_error_Some. congruence.
    + intros j Hj. apply Hlt. auto.
Qed.

Lemma run_order_finished {A} (rs : list A) d order h : (forall j, In j order -> (j < length rs)%nat) ->
  run_order (map (@PRet T A) rs) order (World h None) = Done (map (fun i => (i, nth i rs d)) order) (World h None).
Proof.
  induction order as [|j order IH]; intros H; auto. cbn [run_order map].
  rewrite nth_error_map. assert (Hj : (j < length rs)%nat) by (apply H; left; auto).
  rewrite (nth_error_nth' rs d Hj). cbn [option_map run_prog]. unfold bind at 1. cbn [ret].
  unfold bind. rewrite IH by (intros; apply H; right; auto). reflexivity.
Qed.

Lemma no_race {A} R W (pool : list (prog T A)) : pool_safe R W pool -> apart R W -> ~ data_race pool.
Proof.
  intros HS HA (i & j & m & n & p & Hij & Hi & Hj & (v & k & ->) & H).
  pose proof (HS _ _ Hi) as S1. inversion S1; subst. pose proof (HS _ _ Hj) as S2.
  destruct (HA i j p Hij) as [N1 N2]; auto.
  destruct H as [(k2 & ->)|(v2 & k2 & ->)]; inversion S2; subst; auto.
Qed.

(** every schedule ends *)
Inductive child {A} : prog T A -> prog T A -> Prop :=
| ch_load : forall p k v, child (k v) (PLoad p k)
| ch_store : forall p v k, child k (PStore p v k).
Inductive lower {A} : list (prog T A) -> list (prog T A) -> Prop :=
| lower_here : forall m m' l, child m' m -> lower (m' :: l) (m :: l)
| lower_next : forall m l l', lower l' l -> lower (m :: l') (m :: l).
Lemma child_acc {A} (m : prog T A) : Acc child m.
Proof. induction m as [a| | | |p k IH|p v k IH]; constructor; intros y H; inversion H; subst; auto. Qed.
Lemma lower_acc {A} (l : list (prog T A)) : Acc lower l.
Proof.
  induction l as [|m l IH]; [constructor; intros y H; inversion H|].
  generalize (child_acc m). intros Hm. revert l IH. induction Hm as [m _ IHm]. intros l Hl.
  induction Hl as [l Hl0 IHl]. constructor. intros y H. inversion H as [m1 m' l1 Hc|m1 l1 l' Hc]; subst.
  - apply IHm; auto. constructor; auto.
  - apply IHl. auto.
Qed.
Lemma set_nth_lower {A} (pool : list (prog T A)) i m m' : nth_error pool i = Some m -> child m' m -> lower (set_nth i m' pool) pool.
Proof.
  revert i. induction pool as [|x pool IH]; intros [|i] H Hc; cbn [nth_error] in H; try discriminate; cbn [set_nth].
  - injection H as ->. constructor; auto.
  - constructor. auto.
Qed.
Lemma step_acc {A} (s : heap T * list (prog T A)) : Acc (fun s' s => t_step s s') s.
Proof.
  destruct s as [h pool]. pose proof (lower_acc pool) as H. revert h. induction H as [pool _ IH]. intros h.
  constructor. intros [h' pool'] Hs. apply IH.
  inversion Hs as [h0 pool0 i p k v Hi Hv|h0 pool0 i p v k h1 Hi Hv]; subst; eapply set_nth_lower; eauto; constructor.
Qed.

End Interleave.

(** * Footprints of the calls *)
Section Footprints.
Context {T : Type}.

Lemma deref_rows chk a b e i : nd_ok a -> hd_error (nd_base a) = Some b -> hd_error (nd_ext a) = Some e -> b <= i < b + e ->
  (length (nd_ext a) = 1%nat -> exists p, it_deref_one chk (it_at a i) = Ok p /\ element_of a p) /\
  ((1 < length (nd_ext a))%nat -> it_deref_n chk (it_at a i) = Ok (row a i) /\ nd_ok (row a i) /\
     (forall p, element_of (row a i) p -> element_of a p)).
Proof.
  intros Ha Hb He Hi. destruct (nd_ok_shape a Ha) as (b0 & bs & e0 & es & s & ss & Eb & Ee & Es & L1 & L2 & HA).
  rewrite Eb in Hb. injection Hb as ->. rewrite Ee in He. injection He as ->. split; intros Hl; rewrite Ee in Hl; cbn [length] in Hl.
  - destruct es; cbn [length] in *; [|lia]. destruct bs, ss; cbn [length] in *; try lia.
    unfold it_deref_one. rewrite it_nd_at. cbn [it_idx it_at]. rewrite (access_one_ok chk i a b e s) by auto.
    eexists. split; [reflexivity|]. apply element_of_addr; auto. exists [i]. rewrite Eb, Ee. split; [cbn; auto|].
    unfold addr. rewrite Es. cbn [dot]. rewrite Z.add_0_r. reflexivity.
  - assert (Hne : es <> []) by (destruct es; cbn [length] in *; [lia|congruence]).
    unfold it_deref_n. rewrite it_nd_at. cbn [it_idx it_at]. rewrite (access_n_ok chk i a b bs e es s ss) by auto.
    split; [unfold row; rewrite Eb, Ee, Es; reflexivity|].
    assert (Hr : nd_ok (row a i)) by (apply row_ok; auto; rewrite Ee; auto). split; auto.
    intros p Hp. apply element_of_addr in Hp; auto. destruct Hp as (t & Ht & ->). apply element_of_addr; auto.
    exists (i :: t). rewrite Eb, Ee. cbn [in_bounds]. unfold row in Ht. cbn [nd_base nd_ext] in Ht. rewrite Eb, Ee in Ht.
    split; [auto|]. unfold addr, row. cbn [nd_org nd_str]. rewrite Es. cbn [hd tl dot]. rewrite padd_padd. reflexivity.
Qed.

Variables R W : ptr -> Prop.

Lemma safe_copy_loop (body : iter -> iter -> prog T unit) src dst : forall m k j fuel,
  (m <= fuel)%nat -> idx_min <= k -> k + Z.of_nat m <= idx_max -> idx_min <= j -> j + Z.of_nat m <= idx_max ->
  (forall x y, k <= x < k + Z.of_nat m -> j <= y < j + Z.of_nat m -> safe R W (body (it_at src x) (it_at dst y))) ->
  safe R W (p_copy_loop body fuel (it_at src k) (it_at src (k + Z.of_nat m)) (it_at dst j)).
Proof.
  induction m as [|m IH]; intros k j fuel Hf H1 H2 H3 H4 Hb.
  - destruct fuel; cbn [p_copy_loop]; rewrite it_equal_at; destruct (Z.eqb_spec k (k + Z.of_nat 0)); try lia; constructor.
  - destruct fuel as [|fuel]; [lia|]. cbn [p_copy_loop]. rewrite it_equal_at.
    destruct (Z.eqb_spec k (k + Z.of_nat (S m))); [lia|]. apply safe_bind; [apply Hb; lia|]. intros _.
    eapply safe_lift; [apply it_inc_at; lia|]. eapply safe_lift; [apply it_inc_at; lia|].
    replace (k + Z.of_nat (S m)) with ((k + 1) + Z.of_nat m) by lia. apply IH; try lia.
    intros x y Hx Hy. apply Hb; lia.
Qed.

Lemma safe_copy_rows rec chk k dst src :
  nd_ok dst -> nd_ok src -> nd_ext dst = nd_ext src -> length (nd_ext src) = S k ->
  (forall p, element_of src p -> R p) -> (forall p, element_of dst p -> W p) ->
  (k <> O -> forall d s, nd_ok d -> nd_ok s -> nd_ext d = nd_ext s -> length (nd_ext s) = k ->
     (forall p, element_of s p -> R p) -> (forall p, element_of d p -> W p) -> safe R W (rec d s)) ->
  safe R W (p_copy_rows (T := T) rec chk k dst src).
Proof.
  intros Hd Hs Hext Hlen HR HW Hrec.
  destruct (dims_at src Hs) as (b & bs & e & es & Eb & Ee & He & Hb & Hbe & B1 & B2).
  destruct (dims_at dst Hd) as (b' & bs' & e' & es' & Eb' & Ee' & He' & Hb' & Hbe' & B1' & B2').
  rewrite Ee', Ee in Hext. injection Hext as -> ->.
  unfold p_copy_rows. eapply safe_lift; [exact B1|]. eapply safe_lift; [exact B2|]. eapply safe_lift; [exact B1'|].
  unfold loop_fuel, it_at at 1 2. cbn [it_idx]. replace (b + e - b) with e by lia.
  replace (it_at src (b + e)) with (it_at src (b + Z.of_nat (Z.to_nat e))) by (f_equal; lia).
  apply safe_copy_loop; try (unconst; lia). rewrite Z2Nat.id by lia. intros x y Hx Hy.
  destruct (deref_rows chk src b e x Hs) as [A1 A2]; auto; [rewrite Eb; auto|rewrite Ee; auto|].
  destruct (deref_rows chk dst b' e y Hd) as [A1' A2']; auto; [rewrite Eb'; auto|rewrite Ee'; auto|].
  assert (Hlen' : length (nd_ext dst) = S k) by (rewrite Ee'; rewrite Ee in Hlen; exact Hlen).
  destruct k as [|k].
  - destruct A1 as (p & Ep & Hp); auto. destruct A1' as (q & Eq & Hq); auto.
    eapply safe_lift; [exact Ep|]. eapply safe_lift; [exact Eq|]. unfold p_elem_assign.
    constructor; auto. intros v. constructor; auto. constructor.
  - destruct A2 as (Ep & Hp & HRp); [lia|]. destruct A2' as (Eq & Hq & HRq); [lia|].
    eapply safe_lift; [exact Ep|]. eapply safe_lift; [exact Eq|]. apply Hrec; auto.
    + unfold row. cbn [nd_ext]. rewrite Ee, Ee'. reflexivity.
    + unfold row. cbn [nd_ext]. rewrite Ee. rewrite Ee in Hlen. cbn [tl length] in *. lia.
Qed.

Lemma safe_assign_nd chk : forall n dst src,
  nd_ok dst -> nd_ok src -> nd_ext dst = nd_ext src -> length (nd_ext src) = n ->
  (forall p, element_of src p -> R p) -> (forall p, element_of dst p -> W p) ->
  safe R W (p_assign_nd (T := T) chk n dst src).
Proof.
  induction n as [|n IH]; intros dst src Hd Hs He Hl HR HW.
  - exfalso. pose proof Hs as (_ & _ & H & _). lia.
  - cbn [p_assign_nd]. rewrite He, list_eqb_refl. eapply safe_lift; [destruct chk; reflexivity|].
    apply safe_copy_rows; auto.
Qed.
Lemma safe_copy_dispatch chk : forall n dst src,
  nd_ok dst -> nd_ok src -> nd_ext dst = nd_ext src -> length (nd_ext src) = n ->
  (forall p, element_of src p -> R p) -> (forall p, element_of dst p -> W p) ->
  safe R W (p_copy_dispatch (T := T) chk n dst src).
Proof.
  induction n as [|n IH]; intros dst src Hd Hs He Hl HR HW.
  - exfalso. pose proof Hs as (_ & _ & H & _). lia.
  - cbn [p_copy_dispatch]. apply safe_copy_rows; auto.
Qed.

Lemma safe_each_loop (body : iter -> prog T unit) a : forall m k fuel,
  (m <= fuel)%nat -> idx_min <= k -> k + Z.of_nat m <= idx_max ->
  (forall x, k <= x < k + Z.of_nat m -> safe R W (body (it_at a x))) ->
  safe R W (p_each_loop body fuel (it_at a k) (it_at a (k + Z.of_nat m))).
Proof.
  induction m as [|m IH]; intros k fuel Hf H1 H2 Hb.
  - destruct fuel; cbn [p_each_loop]; rewrite it_equal_at; destruct (Z.eqb_spec k (k + Z.of_nat 0)); try lia; constructor.
  - destruct fuel as [|fuel]; [lia|]. cbn [p_each_loop]. rewrite it_equal_at.
    destruct (Z.eqb_spec k (k + Z.of_nat (S m))); [lia|]. apply safe_bind; [apply Hb; lia|]. intros _.
    eapply safe_lift; [apply it_inc_at; lia|].
    replace (k + Z.of_nat (S m)) with ((k + 1) + Z.of_nat m) by lia. apply IH; try lia.
    intros x Hx. apply Hb; lia.
Qed.
Lemma safe_for_each chk f : forall n a, nd_ok a -> length (nd_ext a) = n ->
  (forall p, element_of a p -> R p /\ W p) -> safe R W (p_for_each (T := T) chk f n a).
Proof.
  induction n as [|n IH]; intros a Ha Hl HRW.
  - exfalso. pose proof Ha as (_ & _ & H & _). lia.
  - destruct (dims_at a Ha) as (b & bs & e & es & Eb & Ee & He & Hb & Hbe & B1 & B2).
    cbn [p_for_each]. eapply safe_lift; [exact B1|]. eapply safe_lift; [exact B2|].
    unfold loop_fuel, it_at at 1 2. cbn [it_idx]. replace (b + e - b) with e by lia.
    replace (it_at a (b + e)) with (it_at a (b + Z.of_nat (Z.to_nat e))) by (f_equal; lia).
    apply safe_each_loop; try (unconst; lia). rewrite Z2Nat.id by lia. intros x Hx.
    destruct (deref_rows chk a b e x Ha) as [A1 A2]; auto; [rewrite Eb; auto|rewrite Ee; auto|].
    destruct n as [|n].
    + destruct A1 as (p & Ep & Hp); auto. eapply safe_lift; [exact Ep|]. destruct (HRW p Hp).
      constructor; auto. intros v. constructor; auto. constructor.
    + destruct A2 as (Ep & Hp & HRp); [lia|]. eapply safe_lift; [exact Ep|]. apply IH; auto.
      unfold row. cbn [nd_ext]. rewrite Ee. rewrite Ee in Hl. cbn [tl length] in *. lia.
Qed.

Lemma safe_assign_loop c (l : list T) : forall k, 0 <= k ->
  (forall j, k <= j < Z.min (k + Z.of_nat (length l)) (cr_num c) -> W (padd (cr_base c) j)) ->
  safe R W (p_assign_loop (padd (cr_base c) k) l k (cr_num c)).
Proof.
  induction l as [|v l IH]; intros k Hk HW; cbn [p_assign_loop]; [constructor|]. cbn [length] in HW.
  destruct (Z.ltb_spec k (cr_num c)); [|constructor]. constructor; [apply HW; lia|].
  rewrite padd_padd. apply IH; [lia|]. intros j Hj. apply HW. lia.
Qed.

Lemma safe_equal_loop (body : iter -> iter -> prog T bool) a b : forall m k j fuel,
  (m <= fuel)%nat -> idx_min <= k -> k + Z.of_nat m <= idx_max -> idx_min <= j -> j + Z.of_nat m <= idx_max ->
  (forall x y, k <= x < k + Z.of_nat m -> j <= y < j + Z.of_nat m -> safe R W (body (it_at a x) (it_at b y))) ->
  safe R W (p_equal_loop body fuel (it_at a k) (it_at a (k + Z.of_nat m)) (it_at b j)).
Proof.
  induction m as [|m IH]; intros k j fuel Hf H1 H2 H3 H4 Hb.
  - destruct fuel; cbn [p_equal_loop]; rewrite it_equal_at; destruct (Z.eqb_spec k (k + Z.of_nat 0)); try lia; constructor.
  - destruct fuel as [|fuel]; [lia|]. cbn [p_equal_loop]. rewrite it_equal_at.
    destruct (Z.eqb_spec k (k + Z.of_nat (S m))); [lia|]. apply safe_bind; [apply Hb; lia|]. intros [|]; [|constructor].
    eapply safe_lift; [apply it_inc_at; lia|]. eapply safe_lift; [apply it_inc_at; lia|].
    replace (k + Z.of_nat (S m)) with ((k + 1) + Z.of_nat m) by lia. apply IH; try lia.
    intros x y Hx Hy. apply Hb; lia.
Qed.
Lemma safe_nd_eq eqT chk : forall n a b, nd_ok a -> nd_ok b -> length (nd_ext a) = n -> length (nd_ext b) = n ->
  (forall p, element_of a p -> R p) -> (forall p, element_of b p -> R p) ->
  safe R W (p_nd_eq (T := T) eqT chk n a b).
Proof.
  induction n as [|n IH]; intros a b Ha Hb Hl Hl2 HR HR2.
  - exfalso. pose proof Ha as (_ & _ & H & _). lia.
  - cbn [p_nd_eq]. destruct (list_eqb (nd_ext a) (nd_ext b)) eqn:El; [|constructor].
    apply list_eqb_eq in El.
    destruct (dims_at a Ha) as (b1 & bs & e & es & Eb & Ee & He & Hb0 & Hbe & B1 & B2).
    destruct (dims_at b Hb) as (b2 & bs' & e' & es' & Eb' & Ee' & He' & Hb' & Hbe' & B1' & B2').
    rewrite Ee', Ee in El. injection El as <- <-.
    eapply safe_lift; [exact B1|]. eapply safe_lift; [exact B2|]. eapply safe_lift; [exact B1'|].
    unfold loop_fuel, it_at at 1 2. cbn [it_idx]. replace (b1 + e - b1) with e by lia.
    replace (it_at a (b1 + e)) with (it_at a (b1 + Z.of_nat (Z.to_nat e))) by (f_equal; lia).
    apply safe_equal_loop; try (unconst; lia). rewrite Z2Nat.id by lia. intros x y Hx Hy.
    destruct (deref_rows chk a b1 e x Ha) as [A1 A2]; auto; [rewrite Eb; auto|rewrite Ee; auto|].
    destruct (deref_rows chk b b2 e y Hb) as [A1' A2']; auto; [rewrite Eb'; auto|rewrite Ee'; auto|].
    destruct n as [|n].
    + destruct A1 as (p & Ep & Hp); auto. destruct A1' as (q & Eq & Hq); auto.
      eapply safe_lift; [exact Ep|]. eapply safe_lift; [exact Eq|].
      constructor; auto. intros v. constructor; auto. constructor.
    + destruct A2 as (Ep & Hp & HRp); [lia|]. destruct A2' as (Eq & Hq & HRq); [lia|].
      eapply safe_lift; [exact Ep|]. eapply safe_lift; [exact Eq|].
      apply IH; auto; unfold row; cbn [nd_ext].
      * rewrite Ee. rewrite Ee in Hl. cbn [tl length] in *. lia.
      * rewrite Ee'. rewrite Ee' in Hl2. cbn [tl length] in *. lia.
Qed.

Lemma safe_lex_loop (body : iter -> iter -> prog T bool) a b : forall m1 m2 k j fuel,
  (m1 <= fuel)%nat -> idx_min <= k -> k + Z.of_nat m1 <= idx_max -> idx_min <= j -> j + Z.of_nat m2 <= idx_max ->
  (forall x y, k <= x < k + Z.of_nat m1 -> j <= y < j + Z.of_nat m2 ->
     safe R W (body (it_at a x) (it_at b y)) /\ safe R W (body (it_at b y) (it_at a x))) ->
  safe R W (p_lex_loop body fuel (it_at a k) (it_at a (k + Z.of_nat m1)) (it_at b j) (it_at b (j + Z.of_nat m2))).
Proof.
  induction m1 as [|m IH]; intros m2 k j fuel Hf H1 H2 H3 H4 Hb.
  - destruct fuel; cbn [p_lex_loop]; rewrite (it_equal_at a); destruct (Z.eqb_spec k (k + Z.of_nat 0)); try lia; constructor.
  - destruct fuel as [|fuel]; [lia|]. cbn [p_lex_loop]. rewrite (it_equal_at a).
    destruct (Z.eqb_spec k (k + Z.of_nat (S m))); [lia|]. rewrite (it_equal_at b).
    destruct (Z.eqb_spec j (j + Z.of_nat m2)); [constructor|]. destruct m2 as [|m2]; [lia|].
    destruct (Hb k j) as [S1 S2]; try lia.
    apply safe_bind; [auto|]. intros [|]; [constructor|]. apply safe_bind; [auto|]. intros [|]; [constructor|].
    eapply safe_lift; [apply it_inc_at; lia|]. eapply safe_lift; [apply it_inc_at; lia|].
    replace (k + Z.of_nat (S m)) with ((k + 1) + Z.of_nat m) by lia.
    replace (j + Z.of_nat (S m2)) with ((j + 1) + Z.of_nat m2) by lia. apply IH; try lia.
    intros x y Hx Hy. apply Hb; lia.
Qed.
Lemma safe_nd_lt ltT chk : forall n a b, nd_ok a -> nd_ok b -> length (nd_ext a) = n -> length (nd_ext b) = n ->
  (forall p, element_of a p -> R p) -> (forall p, element_of b p -> R p) ->
  safe R W (p_nd_lt (T := T) ltT chk n a b).
Proof.
  induction n as [|n IH]; intros a b Ha Hb Hl Hl2 HR HR2.
  - exfalso. pose proof Ha as (_ & _ & H & _). lia.
  - cbn [p_nd_lt].
    destruct (dims_at a Ha) as (b1 & bs & e & es & Eb & Ee & He & Hb0 & Hbe & B1 & B2).
    destruct (dims_at b Hb) as (b2 & bs' & e' & es' & Eb' & Ee' & He' & Hb' & Hbe' & B1' & B2').
    eapply safe_lift; [exact B1|]. eapply safe_lift; [exact B2|]. eapply safe_lift; [exact B1'|]. eapply safe_lift; [exact B2'|].
    unfold loop_fuel, it_at at 1 2. cbn [it_idx]. replace (b1 + e - b1) with e by lia.
    replace (it_at a (b1 + e)) with (it_at a (b1 + Z.of_nat (Z.to_nat e))) by (f_equal; lia).
    replace (it_at b (b2 + e')) with (it_at b (b2 + Z.of_nat (Z.to_nat e'))) by (f_equal; lia).
    apply safe_lex_loop; try (unconst; lia). rewrite !Z2Nat.id by lia. intros x y Hx Hy.
    destruct (deref_rows chk a b1 e x Ha) as [A1 A2]; auto; [rewrite Eb; auto|rewrite Ee; auto|].
    destruct (deref_rows chk b b2 e' y Hb) as [A1' A2']; auto; [rewrite Eb'; auto|rewrite Ee'; auto|].
    destruct n as [|n].
    + destruct A1 as (p & Ep & Hp); auto. destruct A1' as (q & Eq & Hq); auto. split.
      * eapply safe_lift; [exact Ep|]. eapply safe_lift; [exact Eq|].
        constructor; auto. intros v. constructor; auto. constructor.
      * eapply safe_lift; [exact Eq|]. eapply safe_lift; [exact Ep|].
        constructor; auto. intros v. constructor; auto. constructor.
    + destruct A2 as (Ep & Hp & HRp); [lia|]. destruct A2' as (Eq & Hq & HRq); [lia|].
      assert (La : length (nd_ext (row a x)) = S n).
      { unfold row. cbn [nd_ext]. rewrite Ee. rewrite Ee in Hl. cbn [tl length] in *. lia. }
      assert (Lb : length (nd_ext (row b y)) = S n).
      { unfold row. cbn [nd_ext]. rewrite Ee'. rewrite Ee' in Hl2. cbn [tl length] in *. lia. }
      split.
      * eapply safe_lift; [exact Ep|]. eapply safe_lift; [exact Eq|]. apply IH; auto.
      * eapply safe_lift; [exact Eq|]. eapply safe_lift; [exact Ep|]. apply IH; auto.
Qed.

End Footprints.
