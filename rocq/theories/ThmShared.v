(** ThmShared.v -- C62: threads that share objects and change their geometry. *)

From Coq Require Import ZArith List Bool Permutation Lia.
From Verif Require Import Base StorageOrder Ranges Layout Access Objects Memory Ops MultiArray History Stored Threads Shared
  Spec ViewSpec ReachSpec MemSpec ThreadSpec SharedSpec
  Facts LayoutProofs AccessProofs MemoryProofs CopyProofs ReachProofs AlgProofs ThmIter ThmBulk ThreadProofs ThmThreads SharedProofs.
Import ListNotations.
Local Open Scope Z_scope.

Section Safe.
Context {T : Type}.
Variable dflt : T.
Variables (eqT ltT : T -> T -> bool).
Variable chk : bool.

Lemma safe_rebind {A B C} R W (m : prog T A) (f : A -> prog T B) (g : A -> prog T C) :
  safe R W (pbind m f) -> (forall a, safe R W (g a)) -> safe R W (pbind m g).
Proof.
  intros H Hg. revert H. induction m as [a| | | |p k IH|p v k IH]; cbn [pbind]; intros H; auto; inversion H; subst; constructor; auto.
Qed.
Lemma safe_one (h : heap T) k : proper h k -> safe (thread_reads [k]) (thread_writes [k]) (p_call eqT ltT chk k).
Proof.
  intros H. eapply safe_mono; [apply (safe_call eqT ltT chk h); auto| |]; intros p Hp; exists k; (split; [left; auto|exact Hp]).
Qed.
Lemma pointee_back a i : nd_ok a -> in_bounds (nd_base a) (nd_ext a) [i - 1] ->
  ri_deref_one chk (RIter (iter_of a i)) = bracket chk a [i - 1].
Proof.
  intros Ha Hi. destruct (dims_at a Ha) as (b & bs & e & es & Eb & Ee & L1 & L2 & L3 & _).
  rewrite Eb, Ee in Hi. destruct Hi as [Hi _].
  unfold ri_deref_one. cbn [ri_base]. change (iter_of a i) with (it_at a i). rewrite it_dec_at by (unconst; lia).
  cbn [obind bracket]. unfold it_deref_one. rewrite it_nd_at. reflexivity.
Qed.

Lemma makes_safe (h : heap T) ke c ks : makes chk ke c ks -> Forall (proper h) ks ->
  exists m, plan eqT ltT chk ke c = Some (ke, m) /\ safe (thread_reads ks) (thread_writes ks) m.
Proof.
  assert (RD : forall k o a p, kept_at ke k = Ok o -> kept_nd (ke_env ke) o = Ok a -> pointee chk a (k_kind o) = Ok p ->
    (o <- kept_at ke k ;; a <- kept_nd (ke_env ke) o ;; pointee chk a (k_kind o)) = Ok p).
  { intros k o a p E1 E2 E3. rewrite E1. cbn [obind]. rewrite E2. exact E3. }
  intros H F.
  destruct H as [e i a E|e i a E|e i v a E|e i v a E|e1 e2 d s E1 E2|e1 e2 d s E1 E2|e f a E|op e1 e2 a b Ho E1 E2|op e1 e2 a b Ho E1 E2
    |op e1 e2 a b Ho E1 E2|x l a E|x l c E|x y a b N E1 E2|x a E|k o a i E1 E2 K|k o a i E1 E2 K|k o a i v E1 E2 K|k o a i v E1 E2 K];
    cbn [plan]; eexists; (split; [reflexivity|]); try (apply Forall_inv in F; pose proof (safe_one h _ F) as S1; cbn [p_call] in S1).
  - eapply safe_lift; [exact E|]. eapply safe_rebind; [exact S1|]. constructor.
  - eapply safe_lift; [exact E|]. eapply safe_rebind; [exact S1|]. constructor.
  - eapply safe_lift; [exact E|]. eapply safe_rebind; [exact S1|]. constructor.
  - eapply safe_lift; [exact E|]. eapply safe_rebind; [exact S1|]. constructor.
  - eapply safe_lift; [exact E2|]. eapply safe_lift; [exact E1|]. eapply safe_rebind; [exact S1|]. constructor.
  - eapply safe_lift; [exact E2|]. eapply safe_lift; [exact E1|]. eapply safe_rebind; [exact S1|]. constructor.
  - eapply safe_lift; [exact E|]. eapply safe_rebind; [exact S1|]. constructor.
  - eapply safe_lift; [exact E1|]. eapply safe_lift; [exact E2|]. unfold p_compare.
    destruct Ho as [-> | ->]; [eapply safe_rebind; [exact S1|constructor]|].
    apply safe_bind; [eapply safe_rebind; [exact S1|constructor]|constructor].
  - eapply safe_lift; [exact E1|]. eapply safe_lift; [exact E2|]. unfold p_compare.
    destruct Ho as [-> | ->]; [eapply safe_rebind; [exact S1|constructor]|].
    apply safe_bind; [eapply safe_rebind; [exact S1|constructor]|constructor].
  - eapply safe_lift; [exact E1|]. eapply safe_lift; [exact E2|]. unfold p_compare.
    destruct F as (_ & _ & F). rewrite <- F.
    destruct Ho as [-> | ->]; [eapply safe_rebind; [exact S1|constructor]|].
    apply safe_bind; [eapply safe_rebind; [exact S1|constructor]|constructor].
  - eapply safe_lift; [exact E|]. eapply safe_rebind; [exact S1|]. constructor.
  - eapply safe_lift; [exact E|]. eapply safe_rebind; [exact S1|]. constructor.
  - eapply safe_lift; [exact E1|]. eapply safe_lift; [exact E2|].
    destruct (Nat.eqb_spec x y) as [->|_]; [congruence|]. eapply safe_rebind; [exact S1|]. constructor.
  - eapply safe_lift; [exact E|]. eapply safe_lift; [exact E|]. rewrite Nat.eqb_refl. constructor.
  - destruct F as [Fe Fi]. destruct (existing_ok h a Fe) as [Ha _].
    destruct (get_path chk a [i] _ Ha Fi (or_intror eq_refl)) as (p & Ep & Hp & _).
    eapply safe_lift; [eapply RD; [exact E1|exact E2|]; rewrite K; cbn [pointee]; unfold it_deref_one;
      change (iter_of a i) with (it_at a i); rewrite it_nd_at; exact Ep|].
    constructor; [exists (KGetBracket a [i]); split; [left; auto|exact Hp]|constructor].
  - destruct F as [Fe Fi]. destruct (existing_ok h a Fe) as [Ha _].
    destruct (get_path chk a [i - 1] _ Ha Fi (or_intror eq_refl)) as (p & Ep & Hp & _).
    eapply safe_lift; [eapply RD; [exact E1|exact E2|]; rewrite K; cbn [pointee]; rewrite pointee_back by auto; exact Ep|].
    constructor; [exists (KGetBracket a [i - 1]); split; [left; auto|exact Hp]|constructor].
  - destruct F as [Fe Fi]. destruct (existing_ok h a Fe) as [Ha _].
    destruct (get_path chk a [i] _ Ha Fi (or_intror eq_refl)) as (p & Ep & Hp & _).
    eapply safe_lift; [eapply RD; [exact E1|exact E2|]; rewrite K; cbn [pointee]; unfold it_deref_one;
      change (iter_of a i) with (it_at a i); rewrite it_nd_at; exact Ep|].
    constructor; [exists (KSetBracket a [i] v); split; [left; auto|exact Hp]|constructor].
  - destruct F as [Fe Fi]. destruct (existing_ok h a Fe) as [Ha _].
    destruct (get_path chk a [i - 1] _ Ha Fi (or_intror eq_refl)) as (p & Ep & Hp & _).
    eapply safe_lift; [eapply RD; [exact E1|exact E2|]; rewrite K; cbn [pointee]; rewrite pointee_back by auto; exact Ep|].
    constructor; [exists (KSetBracket a [i - 1] v); split; [left; auto|exact Hp]|constructor].
Qed.

Lemma geometry_plan ke (c : @kcommand T) : geometry_only c ->
  exists ke1 m, plan eqT ltT chk ke c = Some (ke1, m) /\ (m = PAbort \/ m = PUndef \/ exists o, m = PRet o).
Proof.
  assert (CH : forall o : outcome kenv, exists ke1 m, Some (changing (T := T) ke o) = Some (ke1, m) /\ (m = PAbort \/ m = PUndef \/ exists o, m = PRet o)).
  { intros [k| |]; cbn; eauto 10. }
  assert (LF : forall A (o : outcome A) (f : A -> @output T), exists ke1 (m : prog T (@output T)),
    Some (ke, pbind (plift o) (fun a => PRet (f a))) = Some (ke1, m) /\ (m = PAbort \/ m = PUndef \/ exists o, m = PRet o)).
  { intros A [a| |] f; cbn; eauto 10. }
  destruct c as [c|e|w e|i n|i|i j|i j|i|i v|e so aid|e subs|d s|d s|e i|e i v|e i|e i v|e f|op a b|q e]; cbn [geometry_only]; try tauto;
    try (intros _; cbn [plan]; auto; fail).
  - destruct c; cbn [geometry_only]; try tauto; intros _; cbn [plan]; auto.
  - intros _. cbn [plan]. eexists _, _. split; [reflexivity|]. destruct (obind _ _); cbn; eauto.
Qed.

Lemma accesses_safe (h : heap T) ke t ks : accesses dflt eqT ltT chk ke t ks -> Forall (proper h) ks ->
  exists kf ms, resolve eqT ltT chk ke t = Some (kf, ms) /\
    forall outs, safe (thread_reads ks) (thread_writes ks) (chain ms outs).
Proof.
  intros H. induction H as [ke|ke c t ks rest M A IH|ke c t ke' o rest G K A IH]; intros F.
  - exists ke, []. split; auto. constructor.
  - apply Forall_app in F. destruct F as [F1 F2]. destruct (makes_safe h ke c ks M F1) as (m & P & S1).
    destruct (IH F2) as (kf & ms & R & S2). exists kf, (m :: ms). cbn [resolve]. rewrite P, R. split; auto.
    intros outs. cbn [chain]. apply safe_bind; [eapply safe_mono; [exact S1| |]|intros o; eapply safe_mono; [apply S2| |]];
      intros p (k & Hk & Hp); exists k; (split; [apply in_or_app; auto|exact Hp]).
  - destruct (IH F) as (kf & ms & R & S2). destruct (geometry_plan ke c G) as (k1 & m & P & C).
    pose proof (plan_refines dflt eqT ltT chk ke c k1 m P (World h None) eq_refl) as E. rewrite K in E.
    destruct C as [-> |[-> |[o' ->]]]; try discriminate. cbn in E. injection E as -> ->.
    exists kf, (PRet o :: ms). cbn [resolve]. rewrite P, R. split; auto. intros outs. cbn [chain pbind]. apply S2.
Qed.
End Safe.

(** * C62 *)

(** the steps of a call, run without interruption, are the call *)
Theorem c62_steps_are_calls : forall (T : Type) dflt eqT ltT chk ke (c : @kcommand T) ke' m h,
  plan eqT ltT chk ke c = Some (ke', m) ->
  kexec dflt eqT ltT chk ke c (World h None) = bind (run_prog m) (fun o => ret (ke', o)) (World h None).
Proof.
  intros T dflt eqT ltT chk ke c ke' m h P.
  rewrite <- (plan_refines dflt eqT ltT chk ke c ke' m P (World h None) eq_refl). rewrite run_prog_bind. reflexivity.
Qed.

(** threads of which none uses an element that another writes and none changes the
    geometry of an object that another uses: under every schedule there is no race on
    elements or on objects, every thread that has not finished can go on, and when all
    have finished their answers, the objects and the memory are those of running the
    threads one after another, in whatever order *)
Theorem c62_independent_threads : forall (T : Type) dflt eqT ltT chk ke (h : heap T) (threads : list (list kcommand)) uses,
  Forall2 (accesses dflt eqT ltT chk ke) threads uses -> Forall (Forall (proper h)) uses ->
  independent uses -> undisturbed ke threads ->
  forall ke' h' pool, sh_steps eqT ltT chk (ke, h, map not_started threads) (ke', h', pool) ->
    ~ element_race pool /\ ~ object_race ke' pool /\
    (forall i w, nth_error pool i = Some w ->
       (exists outs, w = Worker outs None []) \/
       (exists ke2 h2 w', sh_step eqT ltT chk (ke', h', pool) (ke2, h2, set_nth i w' pool))) /\
    (forall results, all_done pool results ->
       length results = length threads /\
       forall order, Permutation order (seq 0 (length threads)) ->
         in_turn dflt eqT ltT chk ke threads order (World h None) =
         Done (ke', map (fun i => (i, nth i results [])) order) (World h' None)).
Proof.
  intros T dflt eqT ltT chk ke h threads uses HU HF HI HD ke' h' pool HS.
  assert (HN : forall i t, nth_error threads i = Some t -> exists ks, nth_error uses i = Some ks /\ accesses dflt eqT ltT chk ke t ks /\ Forall (proper h) ks).
  { clear -HU HF. induction HU as [|t ks threads uses A HU IH]; intros [|i] t0 H; try discriminate; inversion HF; subst.
    - injection H as <-. exists ks. auto.
    - apply IH; auto. }
  assert (HR : forall t, In t threads -> exists kf ms, resolve eqT ltT chk ke t = Some (kf, ms)).
  { intros t Ht. apply In_nth_error in Ht. destruct Ht as [i Ht]. destruct (HN i t Ht) as (ks & _ & A & F).
    destruct (accesses_safe dflt eqT ltT chk h ke t ks A F) as (kf & ms & R & _). eauto. }
  pose proof (invariant_start eqT ltT chk ke threads HR h) as I0.
  pose proof (invariant_steps eqT ltT chk ke threads HD h _ _ HS I0) as (HP & HK & HL & rp & TS & HLr & HW).
  set (R := footprint (T := T) thread_reads uses). set (W := footprint (T := T) thread_writes uses).
  assert (HA : apart R W).
  { intros i j p Hij (t & Ht & Hp). split; intros (u & Hu & Hq); destruct (HI i j t u p Hij Ht Hu Hp); auto. }
  assert (HS0 : pool_safe R W (map (thread_prog eqT ltT chk ke) threads)).
  { intros i m Hm. rewrite nth_error_map in Hm. destruct (nth_error threads i) as [t|] eqn:Et; [|discriminate]. injection Hm as <-.
    destruct (HN i t Et) as (ks & Eks & A & F). destruct (accesses_safe dflt eqT ltT chk h ke t ks A F) as (kf & ms & E & Sf).
    unfold thread_prog. rewrite E. eapply safe_mono; [apply Sf| |]; intros p Hp; exists ks; auto. }
  assert (HR0 : ready R W (length (map (thread_prog eqT ltT chk ke) threads)) h).
  { intros i p _ Hp.
    assert (Hq : exists t k, In t uses /\ In k t /\ (reads_cell k p \/ writes_cell k p)).
    { destruct Hp as [(t & Ht & k & Hk & Hp)|(t & Ht & k & Hk & Hp)]; exists t, k; (split; [eapply nth_error_In; eauto|auto]). }
    destruct Hq as (t & k & Ht & Hk & Hc). apply (proper_init eqT ltT h k); auto.
    rewrite Forall_forall in HF. specialize (HF t Ht). rewrite Forall_forall in HF. auto. }
  destruct (steps_invariant R W _ _ TS HA HS0 HR0) as (HS1 & HR1 & _ & HE). cbn [fst snd] in *.
  split; [|split; [|split]].
  - intros (i & j & w & v & p & Hij & Hi & Hj & (c & u & k & Hw) & Hv). apply (no_race R W rp HS1 HA).
    destruct (HW i w Hi) as (_ & _ & ms & _ & _ & _ & _ & _ & Ei). destruct (HW j v Hj) as (_ & _ & ms' & _ & _ & _ & _ & _ & Ej).
    exists i, j, (residual w ms), (residual v ms'), p. split; auto. split; auto. split; auto. split.
    + unfold about_to_write, residual. rewrite Hw. cbn [pbind]. eauto.
    + destruct Hv as [(c' & k' & Hv)|(c' & u' & k' & Hv)]; [left|right]; unfold about_to_write, about_to_read, residual; rewrite Hv; cbn [pbind]; eauto.
  - intros (i & j & w & v & c & c' & o & Hij & Hi & Hj & Cw & Cv & Ho & Hl).
    assert (G : forall n x d, nth_error pool n = Some x -> current x d -> exists t, nth_error threads n = Some t /\ In d t).
    { intros n x d Hn Hc. destruct (HW n x Hn) as (t & _ & _ & Ht & Hin & _). exists t. split; auto. apply Hin.
      destruct Hc as [Hc|[_ Hc]]; [auto|]. left. destruct (wk_todo x); [discriminate|]. injection Hc as ->. left; auto. }
    destruct (G i w c Hi Cw) as (t & Ht & It). destruct (G j v c' Hj Cv) as (u & Hu & Iu).
    destruct (HD i j t u c c' o Hij Ht Hu It Iu Ho) as [N1 N2]. rewrite (looks_at_parents ke' ke) in Hl by auto. tauto.
  - intros i w Hw. destruct (HW i w Hw) as (t & K & ms & Ht & Hin & Rs & PK & AK & Er).
    assert (Hi : (i < length rp)%nat) by (apply nth_error_Some; congruence).
    pose proof (HS1 i _ Er) as Sf. destruct w as [outs now todo]. unfold residual in *. cbn [wk_now wk_todo wk_outs] in *.
    destruct now as [[c m]|].
    + right. destruct m as [o| | | |p k|p v k]; cbn [pbind] in Sf; try (inversion Sf; fail).
      * do 3 eexists. eapply sh_end; eauto.
      * assert (Rp : R i p) by (inversion Sf; auto). destruct (HR1 i p Hi (or_introl Rp)) as [v Hv].
        do 3 eexists. eapply sh_load; eauto. apply hread_init. exact Hv.
      * assert (Wp : W i p) by (inversion Sf; auto). destruct (hwrite_init h' p v (HR1 i p Hi (or_intror Wp))) as [h2 E2].
        do 3 eexists. eapply sh_store; eauto.
    + destruct todo as [|c todo]; [left; eauto|]. right. cbn [resolve] in Rs.
      destruct (plan eqT ltT chk K c) as [[k1 m]|] eqn:P; [|discriminate].
      assert (Hc : In c t) by (apply Hin; left; left; auto).
      destruct (plan_local eqT ltT chk K ke' c k1 m) as (k2 & P' & _); auto.
      { rewrite (looks_at_parents K ke) by auto. intros o Ho. apply same_at_sym, AK. apply in_flat_map. eauto. }
      do 3 eexists. eapply sh_begin; eauto.
  - intros results Hd. unfold all_done in Hd. subst pool. rewrite map_length in *. split; [congruence|]. intros order HO.
    assert (Hin : forall j, In j order <-> (j < length threads)%nat).
    { intros j. split; intros Hj; [apply (Permutation_in _ HO), in_seq in Hj; lia|apply (Permutation_in _ (Permutation_sym HO)), in_seq; lia]. }
    assert (ND : NoDup order) by (eapply Permutation_NoDup; [apply Permutation_sym; exact HO|apply seq_NoDup]).
    destruct (in_turn_run dflt eqT ltT chk ke threads HR HD order ke eq_refl ND) as (kf & E & C1 & C2).
    { intros i Hi. apply Hin in Hi. destruct (nth_error threads i) as [t|] eqn:Et; [|apply nth_error_None in Et; lia].
      exists t. split; auto. intros o _. apply same_at_refl. }
    assert (Erp : rp = map (@PRet T _) results).
    { apply nth_error_same. intros i. rewrite nth_error_map. destruct (nth_error results i) as [outs|] eqn:Eo.
      - destruct (HW i (Worker outs None [])) as (t & K & ms & Ht & _ & Rs & _ & _ & Er); [rewrite nth_error_map, Eo; reflexivity|].
        cbn [wk_todo resolve] in Rs. injection Rs as _ <-. exact Er.
      - apply nth_error_None. apply nth_error_None in Eo. lia. }
    assert (Ekf : kf = ke').
    { apply same_everywhere. intros o.
      destruct (in_dec thing_eq_dec o (flat_map thread_changes threads)) as [Ho|Ho].
      - apply in_flat_map in Ho. destruct Ho as (t & It & Ho). apply In_nth_error in It. destruct It as [i Ht].
        assert (Li : (i < length threads)%nat) by (apply nth_error_Some; congruence).
        eapply same_at_trans; [apply same_at_sym; apply (C1 i t); [apply Hin; auto|auto|auto]|].
        destruct (nth_error results i) as [outs|] eqn:Eo; [|apply nth_error_None in Eo; lia].
        destruct (HW i (Worker outs None [])) as (t' & K & ms & Ht' & _ & Rs & _ & AK & _); [rewrite nth_error_map, Eo; reflexivity|].
        rewrite Ht in Ht'. injection Ht' as <-. cbn [wk_todo resolve] in Rs. injection Rs as <- _.
        apply same_at_sym, AK, thread_changes_looked_at, Ho.
      - eapply same_at_trans; [apply same_at_sym, C2|apply HK].
        + intros i t _ Ht Hc. apply Ho, in_flat_map. exists t. split; auto. eapply nth_error_In; eauto.
        + intros t Ht Hc. apply Ho, in_flat_map. eauto. }
    rewrite E by reflexivity. rewrite Ekf. unfold bind. rewrite HE; auto.
    + rewrite Erp. rewrite (run_order_finished results []); [reflexivity|]. intros j Hj. apply Hin in Hj. lia.
Qed.

(** no schedule goes on for ever *)
Theorem c62_every_schedule_ends : forall (T : Type) eqT ltT chk s,
  ~ exists run : nat -> @shared_state T, run O = s /\ forall n, sh_step eqT ltT chk (run n) (run (S n)).
Proof.
  intros T eqT ltT chk s (run & _ & Hrun).
  assert (G : forall s, Acc (fun s' s => sh_step eqT ltT chk s s') s -> forall n, run n = s -> False).
  { clear s. intros s Hs. induction Hs as [s _ IH]. intros n En. apply (IH (run (S n))) with (n := S n); auto.
    rewrite <- En. apply Hrun. }
  apply (G (run O) (sh_step_acc eqT ltT chk _) O eq_refl).
Qed.

(** a view or ref has its geometry to itself: whatever is computed from it is not
    affected by changing the geometry of any array, also not of the one whose
    elements it shows, and such a change disturbs no thread that uses only views and
    refs *)
Theorem c62_views_own_their_geometry : forall chk ke e x, from_named e ->
  (forall a, keval chk (with_env ke (update (ke_env ke) x a)) e = keval chk ke e) /\ ~ In (TheVar x) (things_of ke e).
Proof.
  intros chk ke e x H. assert (N : ~ In (TheVar x) (things_of ke e)).
  { induction e; cbn [from_named things_of] in *; try tauto; auto. intros [E|[]]; discriminate. }
  split; auto. intros a. symmetry. apply keval_same. intros o Ho. destruct o as [y|y|y]; cbn; auto.
  rewrite nth_error_set_nth_ne; auto. intros ->. auto.
Qed.

(** ** The conditions are needed *)
Definition ex_shared : kenv :=
  KEnv (Env [Some (MA ex_line (Ptr 0 0) 3 0)] [HRef ex_line]) [Kept (PNamed 0) 0 (Ptr 0 0) (IsIter 0); Kept (PVar 0) 0 (Ptr 0 0) (IsIter 0)].
Definition ex_line5 : cref := CRef (Ptr 0 0) (SO [O] [true]) [3] [1] [5] (-5) 0 3.
Lemma ex_line5_existing : existing ex_line_heap (cr_nd ex_line5).
Proof.
  exists ex_line5. split; [|split; [apply d_array|]].
  - apply (ao_reindex1 ex_line 5); [apply ex_line_object| |reflexivity].
    split; [reflexivity|]. split; [simpl; lia|]. split; [repeat constructor; lia|].
    split; [repeat constructor; unconst; simpl; lia|]. vm_compute. congruence.
  - intros p (k & Hk & ->). unfold cr_num_elements, ex_line5 in Hk. cbn [cr_num] in Hk.
    assert (k = 0 \/ k = 1 \/ k = 2) as Dk by lia. destruct Dk as [->|[->| ->]]; eexists; vm_compute; reflexivity.
Qed.

(** one thread reindexes an array that another is using: every call alone is fine
    and no element is shared, but it is a race; what the other thread sees depends on
    the schedule, and an index that was in range may no longer be *)
Theorem c62_reindex_while_in_use_refuted : exists (ke : kenv) (h : heap Z) (threads : list (list (@kcommand Z))) uses,
  Forall2 (accesses 0 Z.eqb Z.ltb true ke) threads uses /\ Forall (Forall (proper h)) uses /\ independent uses /\
  ~ undisturbed ke threads /\ object_race ke (map not_started threads) /\
  (exists s1 s2, fst s1 = fst s2 /\
     sh_steps Z.eqb Z.ltb true (ke, h, map not_started threads) s1 /\ all_done (snd s1) [[ONone]; [OInts [0]; OVal 10]] /\
     sh_steps Z.eqb Z.ltb true (ke, h, map not_started threads) s2 /\
     nth_error (snd s2) 1 = Some (Worker [OInts [5]] (Some (XGet (XVar 0) [0], PAbort)) [])).
Proof.
  exists ex_shared, ex_line_heap, [[XDo (ReindexAll 0 5)]; [XAsk QBases (XVar 0); XGet (XVar 0) [0]]], [[]; [KGet (cr_nd ex_line) [0]]].
  split.
  { constructor; [|constructor; [|constructor]].
    - eapply ac_geometry; [exact I|intros h; reflexivity|]. constructor.
    - eapply ac_geometry; [exact I|intros h; reflexivity|].
      apply (ac_elements 0 Z.eqb Z.ltb true _ (XGet (XVar 0) [0]) [] [KGet (cr_nd ex_line) [0]] []); [|constructor].
      apply mk_get. reflexivity. }
  split. { repeat constructor. apply ex_line_existing. all: cbn; lia. }
  split.
  { intros i j t u p Hij Ht Hu (k & Hk & Hw). destruct i as [|[|[|i]]]; try discriminate; injection Ht as <-.
    - destruct Hk.
    - destruct Hk as [<-|[]]. destruct Hw. }
  split.
  { intros H. destruct (H 0%nat 1%nat _ _ (XDo (ReindexAll 0 5)) (XGet (XVar 0) [0]) (TheVar 0) ltac:(lia) eq_refl eq_refl) as [N _]; cbn; auto.
    apply N. cbn. auto. }
  split.
  { exists 0%nat, 1%nat. do 2 eexists. exists (XDo (ReindexAll 0 5)), (XAsk QBases (XVar 0)), (TheVar 0).
    split; [lia|]. split; [reflexivity|]. split; [reflexivity|]. split; [right; split; reflexivity|].
    split; [right; split; reflexivity|]. split; [left; reflexivity|]. left. left. reflexivity. }
  eexists (_, _), (_, _). split; [|split; [|split; [|split]]].
  2: { eapply shs_step; [eapply (sh_begin _ _ _ _ _ _ 1%nat); [vm_compute; reflexivity|vm_compute; reflexivity]|].
       eapply shs_step; [eapply (sh_end _ _ _ _ _ _ 1%nat); vm_compute; reflexivity|].
       eapply shs_step; [eapply (sh_begin _ _ _ _ _ _ 1%nat); [vm_compute; reflexivity|vm_compute; reflexivity]|].
       eapply shs_step; [eapply (sh_load _ _ _ _ _ _ 1%nat); [vm_compute; reflexivity|vm_compute; reflexivity]|].
       eapply shs_step; [eapply (sh_end _ _ _ _ _ _ 1%nat); vm_compute; reflexivity|].
       eapply shs_step; [eapply (sh_begin _ _ _ _ _ _ 0%nat); [vm_compute; reflexivity|vm_compute; reflexivity]|].
       eapply shs_step; [eapply (sh_end _ _ _ _ _ _ 0%nat); vm_compute; reflexivity|]. apply shs_here. }
  3: { eapply shs_step; [eapply (sh_begin _ _ _ _ _ _ 0%nat); [vm_compute; reflexivity|vm_compute; reflexivity]|].
       eapply shs_step; [eapply (sh_end _ _ _ _ _ _ 0%nat); vm_compute; reflexivity|].
       eapply shs_step; [eapply (sh_begin _ _ _ _ _ _ 1%nat); [vm_compute; reflexivity|vm_compute; reflexivity]|].
       eapply shs_step; [eapply (sh_end _ _ _ _ _ _ 1%nat); vm_compute; reflexivity|].
       eapply shs_step; [eapply (sh_begin _ _ _ _ _ _ 1%nat); [vm_compute; reflexivity|vm_compute; reflexivity]|]. apply shs_here. }
  - reflexivity.
  - vm_compute. reflexivity.
  - vm_compute. reflexivity.
Qed.

(** kept subarrays and iterators have no geometry of their own: a thread that only
    holds an iterator is disturbed when another reindexes the array it came from *)
Theorem c62_iterators_share_geometry_refuted : exists (ke : kenv) (h : heap Z) (threads : list (list (@kcommand Z))),
  ~ undisturbed ke threads /\
  (exists s1 s2,
     sh_steps Z.eqb Z.ltb true (ke, h, map not_started threads) s1 /\ all_done (snd s1) [[ONone]; [OVal 10]] /\
     sh_steps Z.eqb Z.ltb true (ke, h, map not_started threads) s2 /\
     nth_error (snd s2) 1 = Some (Worker [] (Some (XRead 1, PAbort)) [])).
Proof.
  exists ex_shared, ex_line_heap, [[XDo (ReindexAll 0 5)]; [XRead 1]].
  split.
  { intros H. destruct (H 0%nat 1%nat _ _ (XDo (ReindexAll 0 5)) (XRead 1) (TheVar 0) ltac:(lia) eq_refl eq_refl) as [N _]; cbn; auto.
    apply N. cbn. auto. }
  eexists (_, _), (_, _). split; [|split; [|split]].
  1: { eapply shs_step; [eapply (sh_begin _ _ _ _ _ _ 1%nat); [vm_compute; reflexivity|vm_compute; reflexivity]|].
       eapply shs_step; [eapply (sh_load _ _ _ _ _ _ 1%nat); [vm_compute; reflexivity|vm_compute; reflexivity]|].
       eapply shs_step; [eapply (sh_end _ _ _ _ _ _ 1%nat); vm_compute; reflexivity|].
       eapply shs_step; [eapply (sh_begin _ _ _ _ _ _ 0%nat); [vm_compute; reflexivity|vm_compute; reflexivity]|].
       eapply shs_step; [eapply (sh_end _ _ _ _ _ _ 0%nat); vm_compute; reflexivity|]. apply shs_here. }
  2: { eapply shs_step; [eapply (sh_begin _ _ _ _ _ _ 0%nat); [vm_compute; reflexivity|vm_compute; reflexivity]|].
       eapply shs_step; [eapply (sh_end _ _ _ _ _ _ 0%nat); vm_compute; reflexivity|].
       eapply shs_step; [eapply (sh_begin _ _ _ _ _ _ 1%nat); [vm_compute; reflexivity|vm_compute; reflexivity]|]. apply shs_here. }
  - vm_compute. reflexivity.
  - vm_compute. reflexivity.
Qed.

(** one thread reindexes the array and writes to it with the new indices; the
    other moves an iterator of a multi_array_ref to the same elements, reads and
    writes through it and reads through the ref with the old indices *)
Definition ex_shared_threads : list (list (@kcommand Z)) :=
  [ [XDo (ReindexAll 0 5); XSet (XVar 0) [5] 20; XAsk QBases (XVar 0)];
    [XMove 0 1; XRead 0; XWrite 0 21; XGet (XNamed 0) [2]] ].
Definition ex_shared_uses : list (list (call Z)) :=
  [ [KSet (cr_nd ex_line5) [5] 20];
    [KGetBracket (cr_nd ex_line) [1]; KSetBracket (cr_nd ex_line) [1] 21; KGet (cr_nd ex_line) [2]] ].
Example ex_c62 :
  Forall2 (accesses 0 Z.eqb Z.ltb true ex_shared) ex_shared_threads ex_shared_uses /\
  Forall (Forall (proper ex_line_heap)) ex_shared_uses /\ independent ex_shared_uses /\ undisturbed ex_shared ex_shared_threads /\
  exists ke' h', sh_steps Z.eqb Z.ltb true (ex_shared, ex_line_heap, map not_started ex_shared_threads)
    (ke', h', map (fun outs => Worker outs None [])
                [[ONone; ONone; OInts [5]]; [ONone; OVal 11; ONone; OVal 12]]).
Proof.
  split; [|split; [|split; [|split]]].
  - constructor; [|constructor; [|constructor]].
    + eapply ac_geometry; [exact I|intros h; reflexivity|].
      refine (ac_elements 0 Z.eqb Z.ltb true _ (XSet (XVar 0) [5] 20) _ [KSet (cr_nd ex_line5) [5] 20] [] _ _); [apply mk_set; reflexivity|].
      eapply ac_geometry; [exact I|intros h; reflexivity|]. constructor.
    + eapply ac_geometry; [exact I|intros h; reflexivity|].
      refine (ac_elements 0 Z.eqb Z.ltb true _ (XRead 0) _ [KGetBracket (cr_nd ex_line) [1]] _ _ _); [eapply mk_read; reflexivity|].
      refine (ac_elements 0 Z.eqb Z.ltb true _ (XWrite 0 21) _ [KSetBracket (cr_nd ex_line) [1] 21] _ _ _); [eapply mk_write; reflexivity|].
      refine (ac_elements 0 Z.eqb Z.ltb true _ (XGet (XNamed 0) [2]) _ [KGet (cr_nd ex_line) [2]] [] _ _); [eapply mk_get; reflexivity|].
      constructor.
  - repeat constructor; try apply ex_line_existing; try apply ex_line5_existing; cbn; lia.
  - intros i j t u p Hij Ht Hu (k & Hk & Hw).
    destruct i as [|[|i]]; [| |destruct i; discriminate]; (destruct j as [|[|j]]; [| |destruct j; discriminate]); try lia;
      injection Ht as <-; injection Hu as <-; (split; intros (k2 & Hk2 & Hr)); cbn in Hk, Hk2; unfold In in *;
      repeat match goal with H : _ \/ _ |- _ => destruct H as [H|H] | H : False |- _ => destruct H end; subst;
      cbn in Hw, Hr; try (destruct Hw; fail); try (destruct Hr; fail);
      unfold is_element in *; vm_compute in Hw, Hr; congruence.
  - intros i j t u c c' o Hij Ht Hu Hc Hc' Ho.
    destruct i as [|[|i]]; [| |destruct i; discriminate]; (destruct j as [|[|j]]; [| |destruct j; discriminate]); try lia;
      injection Ht as <-; injection Hu as <-; cbn in Hc, Hc';
      repeat match goal with H : _ \/ _ |- _ => destruct H as [H|H] | H : False |- _ => destruct H end; subst; cbn in Ho;
      repeat match goal with H : _ \/ _ |- _ => destruct H as [H|H] | H : False |- _ => destruct H end; subst;
      (split; cbn; intros Hx; repeat match goal with H : _ \/ _ |- _ => destruct H as [H|H] | H : False |- _ => destruct H end; discriminate).
  - do 2 eexists.
    eapply shs_step; [eapply (sh_begin _ _ _ _ _ _ 1%nat); [vm_compute; reflexivity|vm_compute; reflexivity]|].
    eapply shs_step; [eapply (sh_begin _ _ _ _ _ _ 0%nat); [vm_compute; reflexivity|vm_compute; reflexivity]|].
    eapply shs_step; [eapply (sh_end _ _ _ _ _ _ 1%nat); vm_compute; reflexivity|].
    eapply shs_step; [eapply (sh_begin _ _ _ _ _ _ 1%nat); [vm_compute; reflexivity|vm_compute; reflexivity]|].
    eapply shs_step; [eapply (sh_end _ _ _ _ _ _ 0%nat); vm_compute; reflexivity|].
    eapply shs_step; [eapply (sh_begin _ _ _ _ _ _ 0%nat); [vm_compute; reflexivity|vm_compute; reflexivity]|].
    eapply shs_step; [eapply (sh_load _ _ _ _ _ _ 1%nat); [vm_compute; reflexivity|vm_compute; reflexivity]|].
    eapply shs_step; [eapply (sh_end _ _ _ _ _ _ 1%nat); vm_compute; reflexivity|].
    eapply shs_step; [eapply (sh_begin _ _ _ _ _ _ 1%nat); [vm_compute; reflexivity|vm_compute; reflexivity]|].
    eapply shs_step; [eapply (sh_store _ _ _ _ _ _ 0%nat); [vm_compute; reflexivity|vm_compute; reflexivity]|].
    eapply shs_step; [eapply (sh_store _ _ _ _ _ _ 1%nat); [vm_compute; reflexivity|vm_compute; reflexivity]|].
    eapply shs_step; [eapply (sh_end _ _ _ _ _ _ 1%nat); vm_compute; reflexivity|].
    eapply shs_step; [eapply (sh_begin _ _ _ _ _ _ 1%nat); [vm_compute; reflexivity|vm_compute; reflexivity]|].
    eapply shs_step; [eapply (sh_end _ _ _ _ _ _ 0%nat); vm_compute; reflexivity|].
    eapply shs_step; [eapply (sh_begin _ _ _ _ _ _ 0%nat); [vm_compute; reflexivity|vm_compute; reflexivity]|].
    eapply shs_step; [eapply (sh_load _ _ _ _ _ _ 1%nat); [vm_compute; reflexivity|vm_compute; reflexivity]|].
    eapply shs_step; [eapply (sh_end _ _ _ _ _ _ 1%nat); vm_compute; reflexivity|].
    eapply shs_step; [eapply (sh_end _ _ _ _ _ _ 0%nat); vm_compute; reflexivity|]. apply shs_here.
Qed.
