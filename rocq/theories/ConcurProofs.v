(** ConcurProofs.v -- running a stepwise program without interruption gives the
    functions of History.v; where its steps write; several threads at once *)

From Coq Require Import ZArith List Bool Lia.
From Verif Require Import Base StorageOrder Ranges Layout Access Objects Memory Ops MultiArray History Threads Concur.
From Verif Require Import Spec ReachSpec MemSpec OwnSpec HistorySpec CostSpec ConcurSpec.
From Verif Require Import Facts LayoutProofs AccessProofs ViewProofs ReachProofs MemoryProofs ThreadProofs.
From Verif Require ConstProofs.
Import ListNotations.
Local Open Scope Z_scope.

Section Refine.
Context {T : Type}.

Lemma run_jtry {A B} (m : job T A) (ok : A -> job T B) thrown : forall w,
  run_job (jtry m ok thrown) w =
  match run_job m w with
  | Done a w' => run_job (ok a) w'
  | Thrown w' => run_job thrown w'
  | Aborted w' => Aborted w'
  | Undef => Undef
  | OutOfFuel => OutOfFuel
  end.
Proof.
  induction m as [a| | | | |f m IH|g IHg b IHb|p k IH|p v m IH|aid n k IH|aid p n m IH|p v m IH|p m IH]; intros w; cbn [jtry run_job]; auto.
  - destruct (w_fuse w) as [[|j]|]; [apply IHb|apply IHg|apply IHg].
  - unfold bind, load, lift. destruct (hread (w_heap w) p); auto.
  - unfold bind, store. destruct (hwrite (w_heap w) p v); auto.
  - unfold bind, deallocate. destruct (hblock (w_heap w) (p_blk p)); auto. destruct (_ && _); auto.
  - destruct (hcell (w_heap w) p) as [[c|]|]; auto. destruct (hset (w_heap w) p (Some v)); auto.
  - unfold bind, destroy. destruct (hcell (w_heap w) p) as [[c|]|]; auto. destruct (hset (w_heap w) p None); auto.
Qed.

(** the stepwise program m is the function m' *)
Definition steps_of {A} (m : job T A) (m' : M T A) : Prop := forall w, run_job m w = m' w.

Lemma so_ret {A} (a : A) : steps_of (JRet a) (ret a). Proof. intros w. reflexivity. Qed.
Lemma so_undef {A} : steps_of (@JUndef T A) (fun _ => Undef). Proof. intros w. reflexivity. Qed.
Lemma so_fuel {A} : steps_of (@JFuel T A) (fun _ => OutOfFuel). Proof. intros w. reflexivity. Qed.
Lemma so_bind {A B} (m : job T A) m' (f : A -> job T B) f' : steps_of m m' -> (forall a, steps_of (f a) (f' a)) ->
  steps_of (jbind m f) (bind m' f').
Proof. intros H1 H2 w. unfold jbind, bind. rewrite run_jtry, H1. destruct (m' w); auto. apply H2. Qed.
Lemma so_on_throw {A} (m : job T A) m' g g' : steps_of m m' -> steps_of g g' -> steps_of (jon_throw m g) (on_throw m' g').
Proof.
  intros H1 H2 w. unfold jon_throw, on_throw. rewrite run_jtry, H1. destruct (m' w); auto. rewrite run_jtry, H2. destruct (g' w0); auto.
Qed.
Lemma so_lift {A} (o : outcome A) : steps_of (jlift o) (lift o). Proof. intros w. destruct o; reflexivity. Qed.
Lemma so_tick : steps_of jtick (@tick T).
Proof. intros w. unfold jtick, tick. cbn [run_job]. destruct (w_fuse w) as [[|j]|]; reflexivity. Qed.
Lemma so_load p : steps_of (jload p) (@load T p).
Proof. intros w. unfold jload. cbn [run_job]. unfold bind. destruct (load p w); reflexivity. Qed.
Lemma so_store p v : steps_of (jstore p v) (@store T p v).
Proof. intros w. unfold jstore. cbn [run_job]. unfold bind, ret, store. destruct (hwrite (w_heap w) p v); reflexivity. Qed.
Lemma so_deallocate aid p n : steps_of (j_deallocate aid p n) (@deallocate T aid p n).
Proof. intros w. unfold j_deallocate. cbn [run_job]. unfold bind, ret, deallocate. destruct (hblock (w_heap w) (p_blk p)); [|reflexivity]. destruct (_ && _); reflexivity. Qed.
Lemma so_destroy p : steps_of (j_destroy p) (@destroy T p).
Proof.
  intros w. unfold j_destroy. cbn [run_job]. unfold bind, ret, destroy. destruct (hcell (w_heap w) p) as [[c|]|]; try reflexivity.
  destruct (hset (w_heap w) p None); reflexivity.
Qed.
Lemma so_construct d p : steps_of (j_construct d p) (@construct T d p).
Proof.
  unfold j_construct, construct. apply so_bind; [apply so_tick|]. intros _ w. cbn [run_job].
  reflexivity.
Qed.
Lemma so_allocate aid n : steps_of (j_allocate aid n) (@allocate T aid n).
Proof.
  intros w. unfold j_allocate, jbind, allocate. rewrite run_jtry, so_tick. destruct (tick w) as [u w1|w1|w1| |] eqn:E; auto; cbn [run_job].
  - destruct ((0 <=? n) && (n <=? idx_max)); reflexivity.
  - unfold tick in E. destruct (w_fuse w) as [[|j]|]; discriminate E.
  - unfold tick in E. destruct (w_fuse w) as [[|j]|]; discriminate E.
Qed.
Lemma so_prog {A} (m : prog T A) : steps_of (of_prog m) (run_prog m).
Proof.
  induction m as [a| | | |p k IH|p v m IH]; intros w; cbn [of_prog run_job run_prog]; auto; unfold bind.
  - destruct (load p w); auto. apply IH.
  - destruct (store p v w); auto. 
Qed.

#[local] Hint Resolve so_ret so_undef so_fuel so_lift so_tick so_load so_store so_deallocate so_destroy so_construct so_allocate : so.
Ltac so := repeat (first [ solve [auto with so]
  | match goal with |- steps_of (jbind _ _) _ => apply so_bind; [|intros] | |- steps_of (jon_throw _ _) _ => apply so_on_throw end ]).

Lemma so_destroy_n p : forall n, steps_of (j_alloc_destroy_n p n) (@alloc_destroy_n T p n).
Proof. induction n; cbn [j_alloc_destroy_n alloc_destroy_n]; so. Qed.
Lemma so_construct_loop d p : forall n i, steps_of (j_alloc_construct_loop d p i n) (@alloc_construct_loop T d p i n).
Proof. induction n; intros i; cbn [j_alloc_construct_loop alloc_construct_loop]; so. apply so_destroy_n. Qed.
#[local] Hint Resolve so_destroy_n so_construct_loop : so.
Lemma so_elem_assign q p : steps_of (j_elem_assign q p) (@elem_assign T q p).
Proof. unfold j_elem_assign, elem_assign. so. Qed.
#[local] Hint Resolve so_elem_assign : so.
Lemma so_copy_loop jb body : (forall f r, steps_of (jb f r) (body f r)) -> forall n f l r, steps_of (j_copy_loop jb n f l r) (@copy_loop T body n f l r).
Proof. intros HB. induction n; intros f l r; cbn [j_copy_loop copy_loop]; destruct (it_equal f l); so. Qed.
Lemma so_copy_rows jr rec chk k d s : (forall d s, steps_of (jr d s) (rec d s)) -> steps_of (j_copy_rows jr chk k d s) (@copy_rows T rec chk k d s).
Proof. intros HR. unfold j_copy_rows, copy_rows. so. apply so_copy_loop. intros f r. destruct k; so. Qed.
Lemma so_assign_nd chk : forall n d s, steps_of (j_assign_nd chk n d s) (@assign_nd T chk n d s).
Proof. induction n; intros d s; cbn [j_assign_nd assign_nd]; so. apply so_copy_rows. auto. Qed.
#[local] Hint Resolve so_assign_nd : so.
Lemma so_std_copy chk n d s : steps_of (j_std_copy_nd chk n d s) (@std_copy_nd T chk n d s).
Proof. destruct n; cbn [j_std_copy_nd std_copy_nd]; so. apply so_copy_rows. auto with so. Qed.
Lemma so_copy_dispatch chk : forall n d s, steps_of (j_copy_dispatch chk n d s) (@copy_dispatch T chk n d s).
Proof. induction n; intros d s; cbn [j_copy_dispatch copy_dispatch]; so. apply so_copy_rows. auto. Qed.
Lemma so_copy_array chk n d s : steps_of (j_copy_array chk n d s) (@copy_array T chk n d s).
Proof. unfold j_copy_array, copy_array. so. apply so_copy_dispatch. Qed.
Lemma so_each_loop jb body : (forall i, steps_of (jb i) (body i)) -> forall n f l, steps_of (j_each_loop jb n f l) (@each_loop T body n f l).
Proof. intros HB. induction n; intros f l; cbn [j_each_loop each_loop]; destruct (it_equal f l); so. Qed.
Lemma so_for_each chk x : forall n a, steps_of (j_for_each chk x n a) (@for_each T chk x n a).
Proof. induction n; intros a; cbn [j_for_each for_each]; so. apply so_each_loop. intros i. destruct n; so. Qed.
Lemma so_assign_loop num : forall l p k, steps_of (j_assign_loop p l k num) (@assign_loop T p l k num).
Proof. induction l; intros p k; cbn [j_assign_loop assign_loop]; [so|]. destruct (k <? num); so. Qed.
Lemma so_cr_assign c l : steps_of (j_cr_assign c l) (@cr_assign T c l).
Proof. apply so_assign_loop. Qed.
Lemma so_get chk a i : steps_of (j_get_element chk a i) (@get_element T chk a i). Proof. unfold j_get_element, get_element. so. Qed.
Lemma so_set chk a i v : steps_of (j_set_element chk a i v) (@set_element T chk a i v). Proof. unfold j_set_element, set_element. so. Qed.
Lemma so_getb chk a i : steps_of (j_get_bracket chk a i) (@get_bracket T chk a i). Proof. unfold j_get_bracket, get_bracket. so. Qed.
Lemma so_setb chk a i v : steps_of (j_set_bracket chk a i v) (@set_bracket T chk a i v). Proof. unfold j_set_bracket, set_bracket. so. Qed.
#[local] Hint Resolve so_std_copy so_copy_array so_for_each so_cr_assign so_get so_set so_getb so_setb : so.

Lemma so_ma_destroy a : steps_of (j_ma_destroy a) (@ma_destroy T a). Proof. unfold j_ma_destroy, ma_destroy. so. Qed.
Lemma so_copy_n : forall m p q, steps_of (j_copy_n_elems p m q) (@copy_n_elems T p m q).
Proof. induction m; intros p q; cbn [j_copy_n_elems copy_n_elems]; so. Qed.
Lemma so_ma_assign chk same a b : steps_of (j_ma_assign chk same a b) (@ma_assign T chk same a b).
Proof. unfold j_ma_assign, ma_assign, j_ma_assign_from, ma_assign_from. destruct same; so. Qed.
#[local] Hint Resolve so_ma_destroy so_copy_n so_ma_assign : so.
Lemma so_space d c aid : steps_of (j_allocate_space d c aid) (@allocate_space T d c aid).
Proof. unfold j_allocate_space, allocate_space, j_alloc_construct_n, alloc_construct_n. so. Qed.
#[local] Hint Resolve so_space : so.
Lemma so_default d chk n aid : steps_of (j_ma_default d chk n aid) (@ma_default T d chk n aid). Proof. unfold j_ma_default, ma_default. so. Qed.
Lemma so_from_list d chk n e so aid : steps_of (j_ma_from_list d chk n e so aid) (@ma_from_list T d chk n e so aid). Proof. unfold j_ma_from_list, ma_from_list. so. Qed.
Lemma so_from_gen d chk g so aid : steps_of (j_ma_from_gen d chk g so aid) (@ma_from_gen T d chk g so aid). Proof. unfold j_ma_from_gen, ma_from_gen. so. Qed.
#[local] Hint Resolve so_default so_from_list so_from_gen : so.
Lemma so_ma_copy d a : steps_of (j_ma_copy d a) (@ma_copy T d a). Proof. unfold j_ma_copy, ma_copy. so. Qed.
Lemma so_convert d chk x so aid : steps_of (j_ma_convert d chk x so aid) (@ma_convert T d chk x so aid). Proof. unfold j_ma_convert, ma_convert. cbv zeta. so. Qed.
Lemma so_resize d chk a g : steps_of (j_ma_resize d chk a g) (@ma_resize T d chk a g).
Proof. unfold j_ma_resize, ma_resize. cbv zeta. destruct (Nat.eqb _ _); [|so]. so. unfold swap_internals. cbv beta iota zeta. so. Qed.
#[local] Hint Resolve so_ma_copy so_convert so_resize : so.
Lemma so_resize_list d chk a l : steps_of (j_ma_resize_list d chk a l) (@ma_resize_list T d chk a l).
Proof. unfold j_ma_resize_list, ma_resize_list. cbv zeta. so. Qed.
#[local] Hint Resolve so_resize_list : so.

Variable dflt : T.
Variable eqT ltT : T -> T -> bool.

Lemma so_compare op chk a b : steps_of (j_compare eqT ltT op chk a b) (fun w => lift (compare eqT ltT op chk (w_heap w) a b) w).
Proof.
  assert (HE : forall n x y, steps_of (of_prog (p_nd_eq eqT chk n x y)) (fun w => lift (nd_eq eqT chk (w_heap w) n x y) w)).
  { intros n x y [h f]. rewrite so_prog. apply heq_nd_eq. }
  assert (HL : forall n x y, steps_of (of_prog (p_nd_lt ltT chk n x y)) (fun w => lift (nd_lt ltT chk (w_heap w) n x y) w)).
  { intros n x y [h f]. rewrite so_prog. apply heq_nd_lt. }
  intros w. unfold j_compare, compare, nd_neq, nd_gt, nd_le, nd_ge, nd_gt. cbv zeta. destruct op; try apply HE; try apply HL;
    unfold jbind; rewrite run_jtry; rewrite ?HE, ?HL; unfold lift; [destruct (nd_eq _ _ _ _ _ _)|destruct (nd_lt _ _ _ _ _ _)|destruct (nd_lt _ _ _ _ _ _)]; reflexivity.
Qed.

Lemma so_compare_bind op chk a b (en : env) : steps_of (jbind (j_compare eqT ltT op chk a b) (fun r => JRet (en, OBool r)))
  (fun w => (r <~ lift (compare eqT ltT op chk (w_heap w) a b) ;; ret (en, @OBool T r)) w).
Proof.
  intros w. unfold jbind. rewrite run_jtry, so_compare. unfold bind, lift. destruct (compare _ _ _ _ _ _ _); reflexivity.
Qed.
#[local] Hint Resolve so_compare_bind : so.
Lemma so_exec chk en c : steps_of (j_exec dflt eqT ltT chk en c) (exec dflt eqT ltT chk en c).
Proof.
  destruct c; cbn [j_exec exec]; so; try (match goal with |- context [match ?d with HView _ => _ | HRef _ => _ end] => destruct d end; so).
Qed.

Lemma so_thread chk : forall p en h f, run_job (j_thread dflt eqT ltT chk en p) (World h f) = run_catching dflt eqT ltT chk en p h.
Proof.
  induction p as [|[c f] p IH]; intros en h f0; cbn [j_thread run_job run_catching]; [reflexivity|]. cbn [w_heap].
  rewrite run_jtry, so_exec. destruct (exec dflt eqT ltT chk en c (World h f)) as [[en' o] [h1 f1]|[h1 f1]|w| |]; auto; unfold jbind; rewrite run_jtry; cbn [fst snd w_heap]; rewrite IH.
  - destruct (run_catching dflt eqT ltT chk en' p h1) as [[en2 os] w2|w2|w2| |]; reflexivity.
  - destruct (run_catching dflt eqT ltT chk en p h1) as [[en2 os] w2|w2|w2| |]; reflexivity.
Qed.
End Refine.
