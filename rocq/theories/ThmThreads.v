(** ThmThreads.v -- C44 *)

From Coq Require Import ZArith List Bool Permutation Lia.
From Verif Require Import Base StorageOrder Ranges Layout Access Objects Memory Ops Threads Spec ViewSpec ReachSpec MemSpec ThreadSpec
  Facts LayoutProofs AccessProofs ViewProofs MemoryProofs CopyProofs ReachProofs ThmAddressing ThmIter ThmCopy ThmBulk ThreadProofs.
Import ListNotations.
Local Open Scope Z_scope.

Lemma existing_ok {T} (h : heap T) a : existing h a -> nd_ok a /\ forall p, element_of a p -> init h p.
Proof.
  intros (c & Hc & Ha & Hl). split; [eapply derived_ok; eauto|]. intros p (i & Hi & E).
  apply element_at_init. apply Hl.
  rewrite access_element_ok in E by (eauto using derived_ok). injection E as <-. eapply derived_cell; eauto.
Qed.

Section Calls.
Context {T : Type}.
Variable eqT ltT : T -> T -> bool.

Lemma get_path chk (a : nd) i o : nd_ok a -> in_bounds (nd_base a) (nd_ext a) i ->
  o = access_element chk a i \/ o = bracket chk a i -> exists p, o = Ok p /\ is_element a i p /\ element_of a p.
Proof.
  intros Ha Hi Ho. exists (addr a i). assert (E : access_element true a i = Ok (addr a i)) by (apply access_element_ok; auto).
  split; [|split; [exact E|exists i; auto]].
  destruct Ho as [->| ->]; [apply access_element_ok; auto|apply bracket_ok; auto].
Qed.

Lemma safe_call chk (h : heap T) k : proper h k -> safe (reads_cell k) (writes_cell k) (p_call eqT ltT chk k).
Proof.
  destruct k as [a i|a i|a i v|a i v|dst src|src dst|f a|c l|a b|a b]; cbn [proper p_call]; intros H;
    (apply safe_bind; [|intros ?; constructor]).
  - destruct H as [He Hi]. destruct (existing_ok h a He) as [Ha _].
    destruct (get_path chk a i _ Ha Hi (or_introl eq_refl)) as (p & E & Hp & _).
    unfold p_get_element. eapply safe_lift; [exact E|]. constructor; [exact Hp|]. intros v. constructor.
  - destruct H as [He Hi]. destruct (existing_ok h a He) as [Ha _].
    destruct (get_path chk a i _ Ha Hi (or_intror eq_refl)) as (p & E & Hp & _).
    unfold p_get_bracket. eapply safe_lift; [exact E|]. constructor; [exact Hp|]. intros v. constructor.
  - destruct H as [He Hi]. destruct (existing_ok h a He) as [Ha _].
    destruct (get_path chk a i _ Ha Hi (or_introl eq_refl)) as (p & E & Hp & _).
    unfold p_set_element. eapply safe_lift; [exact E|]. constructor; [exact Hp|]. constructor.
  - destruct H as [He Hi]. destruct (existing_ok h a He) as [Ha _].
    destruct (get_path chk a i _ Ha Hi (or_intror eq_refl)) as (p & E & Hp & _).
    unfold p_set_bracket. eapply safe_lift; [exact E|]. constructor; [exact Hp|]. constructor.
  - destruct H as (H1 & H2 & H3). apply safe_assign_nd; auto; try (eapply existing_ok; eauto). congruence.
  - destruct H as (H1 & H2 & H3). unfold p_copy_array. rewrite H3, list_eqb_refl. eapply safe_lift; [destruct chk; reflexivity|].
    apply safe_copy_dispatch; auto; try (eapply existing_ok; eauto).
  - apply safe_for_each; auto; try (eapply existing_ok; eauto).
  - destruct H as [Hc Hl]. unfold p_assign. rewrite <- (padd_0 (cr_base c)) at 1. apply safe_assign_loop; [lia|].
    intros j Hj. exists j. unfold cr_num_elements, cr_data. auto.
  - destruct H as (H1 & H2 & H3). apply safe_nd_eq; auto; try (eapply existing_ok; eauto); cbn; auto.
  - destruct H as (H1 & H2 & H3). apply safe_nd_lt; auto; try (eapply existing_ok; eauto); cbn; auto.
Qed.

Lemma proper_init (h : heap T) k p : proper h k -> reads_cell k p \/ writes_cell k p -> init h p.
Proof.
  assert (G : forall a, existing h a -> element_of a p -> init h p) by (intros a Ha; apply existing_ok; auto).
  assert (G2 : forall a i, existing h a -> in_bounds (nd_base a) (nd_ext a) i -> is_element a i p -> init h p).
  { intros a i Ha Hi E. apply (G a); auto. exists i. auto. }
  destruct k as [a i|a i|a i v|a i v|dst src|src dst|f a|c l|a b|a b]; cbn [proper reads_cell writes_cell]; intros H [U|U];
    try tauto; try (eapply G; [|exact U]; tauto); try (eapply G2; [| |exact U]; tauto).
  - destruct U as (j & Hj & ->). apply element_at_init. apply (proj2 H). exists j. split; [lia|reflexivity].
  - destruct U as [U|U]; (eapply G; [|exact U]; tauto).
  - destruct U as [U|U]; (eapply G; [|exact U]; tauto).
Qed.

Lemma safe_thread chk (h : heap T) t : Forall (proper h) t ->
  safe (thread_reads t) (thread_writes t) (p_thread eqT ltT chk t).
Proof.
  induction 1 as [|k t Hk Ht IH]; cbn [p_thread]; [constructor|].
  apply safe_bind; [|intros r; apply safe_bind; [|intros rs; constructor]].
  - eapply safe_mono; [apply (safe_call chk h); auto| |]; intros p Hp; exists k; split; auto; left; auto.
  - eapply safe_mono; [exact IH| |]; intros p (k0 & Hi & Hp); exists k0; split; auto; right; auto.
Qed.

Lemma run_order_threads chk (threads : list (list (call T))) order w : quiet w ->
  run_order (map (p_thread eqT ltT chk) threads) order w = one_after_another eqT ltT chk threads order w.
Proof.
  revert w. induction order as [|i order IH]; intros w Q; auto. cbn [run_order one_after_another].
  rewrite nth_error_map. destruct (nth_error threads i) as [t|]; auto. cbn [option_map].
  unfold bind at 1 3. rewrite <- (meq_thread eqT ltT chk t w Q).
  destruct (run_prog (p_thread eqT ltT chk t) w) as [a w'| | | |] eqn:E; auto.
  apply bind_ext; auto. apply IH. eapply run_prog_keeps; eauto.
Qed.

Definition footprint (f : list (call T) -> ptr -> Prop) (threads : list (list (call T))) (i : nat) (p : ptr) : Prop :=
  exists t, nth_error threads i = Some t /\ f t p.

Lemma threads_pool chk (h : heap T) threads : Forall (Forall (proper h)) threads -> independent threads ->
  let R := footprint thread_reads threads in let W := footprint thread_writes threads in
  apart R W /\ pool_safe R W (map (p_thread eqT ltT chk) threads) /\
  ready R W (length (map (p_thread eqT ltT chk) threads)) h.
Proof.
  intros F HI R W. rewrite Forall_forall in F. split; [|split].
  - intros i j p Hij (t & Ht & Hp). split.
    + intros (u & Hu & Hq). destruct (HI i j t u p Hij Ht Hu Hp). auto.
    + intros (u & Hu & Hq). destruct (HI i j t u p Hij Ht Hu Hp). auto.
  - intros i m Hm. rewrite nth_error_map in Hm. destruct (nth_error threads i) as [t|] eqn:Et; [|discriminate].
    injection Hm as <-. eapply safe_mono.
    + apply (safe_thread chk h). apply F. eapply nth_error_In; eauto.
    + intros p Hp. exists t. auto.
    + intros p Hp. exists t. auto.
  - intros i p _ Hp.
    assert (Hq : exists t k, In t threads /\ In k t /\ (reads_cell k p \/ writes_cell k p)).
    { destruct Hp as [(t & Ht & k & Hk & Hp)|(t & Ht & k & Hk & Hp)]; exists t, k; split; auto; eapply nth_error_In; eauto. }
    destruct Hq as (t & k & Ht & Hk & Hc). apply (proper_init h k); auto.
    specialize (F t Ht). rewrite Forall_forall in F. auto.
Qed.

End Calls.

(** * C44 *)

(** running a thread's steps without interruption is the same as calling the
    functions: same results, memory, aborts and undefined behaviour *)
Theorem c44_steps_refine_calls : forall (T : Type) eqT ltT chk (t : list (call T)) h,
  run_prog (p_thread eqT ltT chk t) (World h None) = run_thread eqT ltT chk t (World h None).
Proof. intros T eqT ltT chk t h. apply meq_thread. reflexivity. Qed.

(** threads of which none uses an element that another writes: under every
    schedule there is no data race, no thread aborts or has undefined behaviour,
    every unfinished thread can go on, and if all have finished the results and the memory
    are those of running the threads one after another, in whatever order *)
Theorem c44_independent_threads : forall (T : Type) eqT ltT chk (h : heap T) (threads : list (list (call T))),
  Forall (Forall (proper h)) threads -> independent threads ->
  forall h' pool, t_steps (h, map (p_thread eqT ltT chk) threads) (h', pool) ->
    ~ data_race pool /\
    (forall i m, nth_error pool i = Some m ->
       (exists rs, m = PRet rs) \/
       (exists p k v, m = PLoad p k /\ t_step (h', pool) (h', set_nth i (k v) pool)) \/
       (exists p v k h2, m = PStore p v k /\ t_step (h', pool) (h2, set_nth i k pool))) /\
    (forall results, all_finished pool results ->
       length results = length threads /\
       forall order, Permutation order (seq 0 (length threads)) ->
         one_after_another eqT ltT chk threads order (World h None) =
         Done (map (fun i => (i, nth i results [])) order) (World h' None)).
Proof.
  intros T eqT ltT chk h threads F HI h' pool HS.
  destruct (threads_pool eqT ltT chk h threads F HI) as (HA & HP & HR).
  destruct (steps_invariant _ _ _ _ HS HA HP HR) as (HP' & HR' & HL & HE). cbn [fst snd] in *.
  rewrite map_length in HL. split; [|split].
  - eapply no_race; eauto.
  - intros i m Hm. pose proof (HP' i m Hm) as Hs. assert (Hi : (i < length pool)%nat) by (apply nth_error_Some; congruence).
    inversion Hs as [a|p k Hp Hk|p v k Hp Hk]; subst.
    + left. eauto.
    + right. left. destruct (HR' i p Hi (or_introl Hp)) as [v Hv]. exists p, k, v. split; auto.
      apply (st_load h' pool i p k v); auto. apply hread_init. auto.
    + right. right. destruct (hwrite_init h' p v (HR' i p Hi (or_intror Hp))) as [h2 E2].
      exists p, v, k, h2. split; auto. apply (st_store h' pool i p v k h2); auto.
  - intros results Hfin. unfold all_finished in Hfin. subst pool. rewrite map_length in HL. split; auto. intros order HO.
    assert (Hin : forall j, In j order <-> (j < length threads)%nat).
    { intros j. split; intros Hj; [apply (Permutation_in _ HO), in_seq in Hj; lia|apply (Permutation_in _ (Permutation_sym HO)), in_seq; lia]. }
    rewrite <- run_order_threads by reflexivity. rewrite HE.
    + apply run_order_finished. intros j Hj. apply Hin in Hj. lia.
    + eapply Permutation_NoDup; [apply Permutation_sym; exact HO|apply seq_NoDup].
    + rewrite map_length. auto.
Qed.

(** no schedule goes on for ever *)
Theorem c44_every_schedule_ends : forall (T : Type) eqT ltT chk (h : heap T) (threads : list (list (call T))),
  ~ exists run : nat -> heap T * list (prog T (list (result T))),
      run O = (h, map (p_thread eqT ltT chk) threads) /\ forall n, t_step (run n) (run (S n)).
Proof.
  intros T eqT ltT chk h threads (run & _ & Hrun).
  assert (G : forall s, Acc (fun s' s => t_step s s') s -> forall n, run n = s -> False).
  { intros s Hs. induction Hs as [s _ IH]. intros n En. apply (IH (run (S n))) with (n := S n); auto.
    rewrite <- En. apply Hrun. }
  apply (G (run O) (step_acc _) O eq_refl).
Qed.

(** threads that only read are always independent, and leave memory alone *)
Definition reading (T : Type) (k : call T) : Prop :=
  match k with KGet _ _ | KGetBracket _ _ | KEqual _ _ | KLess _ _ => True | _ => False end.
Theorem c44_readers : forall (T : Type) eqT ltT chk (h : heap T) (threads : list (list (call T))),
  Forall (Forall (proper h)) threads -> Forall (Forall (reading T)) threads ->
  independent threads /\
  forall h' pool, t_steps (h, map (p_thread eqT ltT chk) threads) (h', pool) -> h' = h.
Proof.
  intros T eqT ltT chk h threads F FR.
  assert (NW : forall t p, In t threads -> ~ thread_writes t p).
  { intros t p Ht (k & Hk & Hw). rewrite Forall_forall in FR. specialize (FR t Ht). rewrite Forall_forall in FR.
    specialize (FR k Hk). destruct k; cbn in *; tauto. }
  assert (HI : independent threads).
  { intros i j t u p _ Ht _ Hw. exfalso. eapply NW; eauto. eapply nth_error_In; eauto. }
  split; auto. intros h' pool HS.
  destruct (threads_pool eqT ltT chk h threads F HI) as (HA & HP & HR).
  remember (h, map (p_thread eqT ltT chk) threads) as s0 eqn:E0. remember (h', pool) as s1 eqn:E1.
  assert (G : forall s s1 : heap T * list (prog T (list (result T))), t_steps s s1 ->
    pool_safe (footprint thread_reads threads) (footprint thread_writes threads) (snd s) ->
    ready (footprint thread_reads threads) (footprint thread_writes threads) (length (snd s)) (fst s) ->
    fst s1 = fst s).
  { clear HS E0 E1 s0 s1. intros s s1 HS. induction HS as [s|s s1 s2 H1 H2 IH]; intros P1 R1; auto.
    destruct (pool_safe_step _ _ _ _ H1 P1 R1) as (P2 & R2 & _). rewrite (IH P2 R2).
    inversion H1 as [h0 pool0 i p k v Hi Hv|h0 pool0 i p v k h1 Hi Hv]; subst; auto.
    cbn [fst snd] in *. pose proof (P1 _ _ Hi) as Hs. inversion Hs as [| |p0 v0 k0 (t & Ht & Hw)]; subst.
    exfalso. eapply NW; eauto. eapply nth_error_In; eauto. }
  subst. apply (G _ _ HS); auto.
Qed.

(** one subarray per thread: thread k writes only to elements of a[index_k], with
    different indices for different threads, and reads only these and elements
    outside a *)
Theorem c44_one_subarray_per_thread : forall (T : Type) c a (threads : list (list (call T))) (index : nat -> Z),
  array_object c -> derived c a -> (1 < length (nd_ext a))%nat ->
  (forall i j, (i < length threads)%nat -> (j < length threads)%nat -> index i = index j -> i = j) ->
  (forall i t, nth_error threads i = Some t -> exists s, access_n true (index i) a = Ok s /\
     (forall p, thread_writes t p -> element_of s p) /\
     (forall p, thread_reads t p -> element_of s p \/ ~ element_of a p)) ->
  independent threads.
Proof.
  intros T c a threads index Hc Ha Hn Hinj Hown i j t u p Hij Ht Hu Hw.
  destruct (Hown i t Ht) as (s & Es & W1 & _). destruct (Hown j u Hu) as (s2 & Es2 & W2 & R2).
  pose proof (derived_ok c a Hc Ha) as Hok. destruct (dims_at a Hok) as (b & bs & e & es & Eb & Ee & _).
  destruct (c34_subarrays_partition c a b e Hc Ha Hn) as [P1 P2]; [rewrite Eb; auto|rewrite Ee; auto|].
  assert (Hd : index i <> index j).
  { intros E. apply Hij. apply Hinj; auto; apply nth_error_Some; congruence. }
  specialize (W1 p Hw). pose proof (P1 _ _ _ _ Hd Es Es2 p W1) as N. split.
  - intros Hr. destruct (R2 p Hr) as [H|H]; [auto|]. apply H. apply P2.
    destruct (access_n_inv (index i) a s Hok Es) as (b2 & bs2 & e2 & es2 & s3 & ss2 & Eb2 & Ee2 & _ & _ & Hk & _).
    rewrite Eb in Eb2. rewrite Ee in Ee2. injection Eb2 as -> _. injection Ee2 as -> _. exists (index i), s. auto.
  - auto.
Qed.

(** the condition is needed: two threads that write the same element race, and
    the outcome depends on the schedule *)
Lemma ex_line_live : live ex_line_heap ex_line.
Proof.
  intros p (k & Hk & ->). unfold cr_num_elements, ex_line in Hk. cbn [cr_num] in Hk.
  assert (k = 0 \/ k = 1 \/ k = 2) as Dk by lia. destruct Dk as [->|[->| ->]]; eexists; vm_compute; reflexivity.
Qed.
Lemma ex_line_existing : existing ex_line_heap (cr_nd ex_line).
Proof. exists ex_line. split; [apply ex_line_object|]. split; [apply d_array|apply ex_line_live]. Qed.

Theorem c44_shared_element_refuted : exists (h : heap Z) (threads : list (list (call Z))),
  Forall (Forall (proper h)) threads /\ ~ independent threads /\
  data_race (map (p_thread Z.eqb Z.ltb true) threads) /\
  exists h1 h2 r1 r2, h1 <> h2 /\
    t_steps (h, map (p_thread Z.eqb Z.ltb true) threads) (h1, map PRet r1) /\
    t_steps (h, map (p_thread Z.eqb Z.ltb true) threads) (h2, map PRet r2).
Proof.
  exists ex_line_heap, [[KSet (cr_nd ex_line) [0] 5]; [KSet (cr_nd ex_line) [0] 6]].
  assert (P : forall v : Z, proper ex_line_heap (KSet (cr_nd ex_line) [0] v)).
  { intros v. split; [apply ex_line_existing|]. cbn. lia. }
  split; [repeat (constructor; auto)|]. split; [|split].
  - intros H. destruct (H 0%nat 1%nat _ _ (Ptr 0 0) ltac:(lia) eq_refl eq_refl) as [_ N].
    + eexists. split; [left; reflexivity|]. vm_compute. reflexivity.
    + apply N. eexists. split; [left; reflexivity|]. vm_compute. reflexivity.
  - exists 0%nat, 1%nat. do 2 eexists. exists (Ptr 0 0). split; [lia|].
    split; [vm_compute; reflexivity|]. split; [vm_compute; reflexivity|].
    split; [do 2 eexists; reflexivity|]. right. do 2 eexists; reflexivity.
  - do 2 eexists. exists [[RNone]; [RNone]], [[RNone]; [RNone]]. split; [|split].
    2: { eapply sts_step; [eapply (st_store _ _ 0%nat); vm_compute; reflexivity|].
         eapply sts_step; [eapply (st_store _ _ 1%nat); vm_compute; reflexivity|]. apply sts_here. }
    2: { eapply sts_step; [eapply (st_store _ _ 1%nat); vm_compute; reflexivity|].
         eapply sts_step; [eapply (st_store _ _ 0%nat); vm_compute; reflexivity|]. apply sts_here. }
    vm_compute. discriminate.
Qed.

(** two independent threads, interleaved *)
Definition ex_threads : list (list (call Z)) :=
  [ [KSet (cr_nd ex_line) [0] 5; KGetBracket (cr_nd ex_line) [1]; KGet (cr_nd ex_line) [0]];
    [KGet (cr_nd ex_line) [1]; KSetBracket (cr_nd ex_line) [2] 7] ].
Example ex_c44 : Forall (Forall (proper ex_line_heap)) ex_threads /\ independent ex_threads /\
  exists h', t_steps (ex_line_heap, map (p_thread Z.eqb Z.ltb true) ex_threads)
                   (h', map PRet [[RNone; RVal 11; RVal 5]; [RVal 11; RNone]]).
Proof.
  split; [|split].
  - repeat constructor; try apply ex_line_existing; cbn; lia.
  - intros i j t u p Hij Ht Hu (k & Hk & Hw).
    destruct i as [|[|i]]; [| |destruct i; discriminate]; (destruct j as [|[|j]]; [| |destruct j; discriminate]); try lia;
      injection Ht as <-; injection Hu as <-; (split; intros (k2 & Hk2 & Hr)); cbn in Hk, Hk2; unfold In in *;
      repeat match goal with H : _ \/ _ |- _ => destruct H as [H|H] | H : False |- _ => destruct H end; subst;
      cbn in Hw, Hr; try (destruct Hw; fail); try (destruct Hr; fail);
      unfold is_element in *; vm_compute in Hw, Hr; congruence.
  - eexists.
    eapply sts_step; [eapply (st_load _ _ 1%nat); vm_compute; reflexivity|].
    eapply sts_step; [eapply (st_store _ _ 0%nat); vm_compute; reflexivity|].
    eapply sts_step; [eapply (st_load _ _ 0%nat); vm_compute; reflexivity|].
    eapply sts_step; [eapply (st_store _ _ 1%nat); vm_compute; reflexivity|].
    eapply sts_step; [eapply (st_load _ _ 0%nat); vm_compute; reflexivity|]. apply sts_here.
Qed.
