(** ThmCosts.v -- C48: which calls can throw, and exactly how many allocations,
    element constructions and element assignments each call performs. *)

From Coq Require Import Lia.
From Verif Require Import Base StorageOrder Ranges Layout Access Objects Memory Ops MultiArray History.
From Verif Require Import Spec ReachSpec MemSpec CompareSpec OwnSpec HistorySpec CostSpec.
From Verif Require Import Facts LayoutProofs MemoryProofs OwnProofs HistoryProofs ThmHistory CostProofs.

Section ThmCosts.
Context {T : Type}.
Variable dflt : T.
Variable eqT : T -> T -> bool.
Variable ltT : T -> T -> bool.

Definition meter {A} (m : M T A) (h : heap T) (a : A) (h' : heap T) (n : nat) : Prop :=
  m (World h None) = Done a (World h' None) /\
  forall k, ((n <= k)%nat -> m (World h (Some k)) = Done a (World h' (Some (k - n)%nat))) /\
            ((k < n)%nat -> exists h2, m (World h (Some k)) = Thrown (World h2 None)).

Lemma exec_meter st en (h : heap T) c o st' chk n : related st en h -> step dflt eqT ltT st c o st' -> costs st c n ->
  exists en' h', related st' en' h' /\ meter (exec dflt eqT ltT chk en c) h (en', o) h' n /\
    length h' = (length h + (if allocates c then 1 else 0))%nat.
Proof.
  intros HR HS HC. pose proof (exec_sound dflt eqT ltT st en h c o st' chk None HR HS) as HF.
  pose proof (exec_metered dflt eqT ltT st en h c o st' chk n HR HS HC) as HM.
  pose proof (grows_exec dflt eqT ltT chk en c) as HG.
  destruct (exec dflt eqT ltT chk en c (World h None)) as [[en' o'] [h' f']|w|w| |] eqn:E; cbn [follows w_heap w_fuse] in HF; try tauto; try (exfalso; destruct HF as (_ & ? & ? & ? & _); discriminate).
  destruct HF as (-> & HR' & Hf & _). specialize (Hf eq_refl). subst f'. exists en', h'. split; [auto|]. split.
  - split; [exact E|]. intros k. destruct (HM h _ _ E) as [_ K]. destruct (K k) as [K1 K2]. cbn [w_heap] in K1. split; [exact K1|].
    intros Hk. specialize (K2 Hk). pose proof (exec_sound dflt eqT ltT st en h c o st' chk (Some k) HR HS) as HF.
    destruct (exec dflt eqT ltT chk en c (World h (Some k))) as [[e1 o1] w1|[h2 f2]|w1| |]; cbn [follows w_fuse] in HF; try tauto; try (exfalso; destruct HF as (_ & ? & ? & ? & _); discriminate).
    destruct HF as (-> & _). exists h2. auto.
  - apply (HG (World h None) _ _ E).
Qed.

Lemma costs_fun st en (h : heap T) c n m : related st en h -> costs st c n -> costs st c m -> n = m.
Proof.
  intros HR H1 H2.
  destruct H1; inversion H2; subst; unfold array_is, named_is in *; try congruence; try reflexivity.
  - rewrite (denotes_same st en h e p p0); auto.
  - rewrite (denotes_same st en h d p p0); auto.
  - rewrite (denotes_same st en h d p p0); auto.
  - rewrite (denotes_same st en h e p p0); auto.
Qed.

Lemma costs_some st c o st' : step dflt eqT ltT st c o st' -> exists n, costs st c n.
Proof.
  intros HS. destruct HS; try (eexists; econstructor; solve [eauto]); try (eexists; econstructor; fail).
  destruct (Nat.eq_dec x y) as [->|Hne]; [eexists; apply co_self|].
  inversion H; subst. eexists. eapply co_assign_var; eauto.
Qed.

Lemma run_meter chk : forall p st en (h : heap T) os st' n, related st en h -> counted dflt eqT ltT st p os st' n ->
  exists en' h', related st' en' h' /\ meter (run dflt eqT ltT chk en p) h (en', os) h' n /\
    length h' = (length h + length (filter allocates p))%nat.
Proof.
  induction p as [|c p IH]; intros st en h os st' n HR HC; inversion HC; subst.
  - exists en, h. split; [auto|]. split; [|simpl; lia]. split; [reflexivity|]. intros k. split; [|lia]. intros _. rewrite Nat.sub_0_r. reflexivity.
  - match goal with H : step _ _ _ _ _ _ _ |- _ => rename H into HS end.
    match goal with H : costs _ _ _ |- _ => rename H into HN end.
    match goal with H : counted _ _ _ _ p _ _ _ |- _ => rename H into HP end.
    destruct (exec_meter st en h c o st1 chk n0 HR HS HN) as (en1 & h1 & HR1 & [E1 K1] & L1).
    destruct (IH st1 en1 h1 os0 st' m HR1 HP) as (en2 & h2 & HR2 & [E2 K2] & L2).
    exists en2, h2. split; [auto|]. split; [split|].
    + cbn [run]. unfold bind at 1. rewrite E1. unfold bind at 1. cbn [fst]. rewrite E2. reflexivity.
    + intros k. destruct (K1 k) as [A1 A2]. destruct (K2 (k - n0)%nat) as [B1 B2]. split; intros Hk.
      * cbn [run]. unfold bind at 1. rewrite A1 by lia. unfold bind at 1. cbn [fst]. rewrite B1 by lia.
        unfold ret. cbn [fst snd]. do 3 f_equal. lia.
      * cbn [run]. destruct (Nat.lt_ge_cases k n0) as [Hlt|Hge].
        -- destruct (A2 Hlt) as [h3 E3]. exists h3. unfold bind at 1. rewrite E3. reflexivity.
        -- destruct B2 as [h3 E3]; [lia|]. exists h3. unfold bind at 1. rewrite A1 by lia. unfold bind at 1. cbn [fst]. rewrite E3. reflexivity.
    + rewrite L2, L1. cbn [filter]. destruct (allocates c); simpl; lia.
Qed.

End ThmCosts.

(** the call after any legal program: it performs exactly n operations that can
    throw, whatever the checks are set to, and exactly one allocation if it is a
    constructor or resize and none otherwise *)
Theorem c48_exact_counts : forall (T : Type) (dflt : T) eqT ltT chk p os st c o st' n,
  steps dflt eqT ltT empty_state p os st -> step dflt eqT ltT st c o st' -> costs st c n ->
  exists en h en' h',
    run dflt eqT ltT chk (Env [] []) p (World [] None) = Done (en, os) (World h None) /\ agrees st en h /\
    exec dflt eqT ltT chk en c (World h None) = Done (en', o) (World h' None) /\ agrees st' en' h' /\
    (forall k, (n <= k)%nat -> exec dflt eqT ltT chk en c (World h (Some k)) = Done (en', o) (World h' (Some (k - n)%nat))) /\
    (forall k, (k < n)%nat -> exists h2, exec dflt eqT ltT chk en c (World h (Some k)) = Thrown (World h2 None)) /\
    length h' = (length h + (if allocates c then 1 else 0))%nat.
Proof.
  intros T dflt eqT ltT chk p os st c o st' n HP HS HC.
  destruct (run_sound dflt eqT ltT chk p empty_state os st (Env [] []) [] related_nil HP) as (en & h & E & HR & _).
  destruct (exec_meter dflt eqT ltT st en h c o st' chk n HR HS HC) as (en' & h' & HR' & [E' K] & L).
  exists en, h, en', h'. split; [auto|]. split; [apply related_agrees; auto|]. split; [auto|]. split; [apply related_agrees; auto|].
  split; [intros k Hk; apply K; auto|]. split; [intros k Hk; apply K; auto|auto].
Qed.

(** views, refs, subscripting, reindexing, reshaping, comparing, querying,
    destroying and self-assignment never throw and use up nothing *)
Theorem c48_calls_that_never_throw : forall (T : Type) (dflt : T) eqT ltT chk p os st c o st',
  steps dflt eqT ltT empty_state p os st -> step dflt eqT ltT st c o st' -> costs st c 0 ->
  exists en h en' h',
    run dflt eqT ltT chk (Env [] []) p (World [] None) = Done (en, os) (World h None) /\ agrees st en h /\
    forall f, exec dflt eqT ltT chk en c (World h f) = Done (en', o) (World h' f).
Proof.
  intros T dflt eqT ltT chk p os st c o st' HP HS HC.
  destruct (c48_exact_counts T dflt eqT ltT chk p os st c o st' 0 HP HS HC) as (en & h & en' & h' & E & HA & E' & _ & K & _).
  exists en, h, en', h'. split; [auto|]. split; [auto|]. intros [k|]; [|auto]. rewrite K by lia. rewrite Nat.sub_0_r. auto.
Qed.

(** every legal call has exactly one count *)
Theorem c48_counts_are_complete : forall (T : Type) (dflt : T) eqT ltT p os st c o st',
  steps dflt eqT ltT empty_state p os st -> step dflt eqT ltT st c o st' -> exists! n, costs st c n.
Proof.
  intros T dflt eqT ltT p os st c o st' HP HS.
  destruct (run_sound dflt eqT ltT true p empty_state os st (Env [] []) [] related_nil HP) as (en & h & E & HR & _).
  destruct (costs_some dflt eqT ltT st c o st' HS) as [n Hn]. exists n. split; [auto|]. intros m Hm. eapply costs_fun; eauto.
Qed.

(** whole programs: the counts add up *)
Theorem c48_program_counts : forall (T : Type) (dflt : T) eqT ltT chk p os st n,
  counted dflt eqT ltT empty_state p os st n ->
  exists en h,
    run dflt eqT ltT chk (Env [] []) p (World [] None) = Done (en, os) (World h None) /\ agrees st en h /\
    (forall k, (n <= k)%nat ->
       run dflt eqT ltT chk (Env [] []) p (World [] (Some k)) = Done (en, os) (World h (Some (k - n)%nat))) /\
    (forall k, (k < n)%nat -> exists h2, run dflt eqT ltT chk (Env [] []) p (World [] (Some k)) = Thrown (World h2 None)) /\
    length h = length (filter allocates p).
Proof.
  intros T dflt eqT ltT chk p os st n HC.
  destruct (run_meter dflt eqT ltT chk p empty_state (Env [] []) [] os st n related_nil HC) as (en & h & HR & [E K] & L).
  exists en, h. split; [auto|]. split; [apply related_agrees; auto|]. split; [intros k Hk; apply K; auto|]. split; [intros k Hk; apply K; auto|auto].
Qed.

(** ex_prog builds a 2x3 array (1 allocation and 6 constructions), fills it (6),
    assigns one row from a reversed view of the other (3), reads an element (0)
    and destroys the array (0): 16 operations.  With a bomb at operation 15 the
    program throws, with one at operation 16 it does not. *)
Example ex_c48 : counted 0 Z.eqb Z.ltb empty_state ex_prog [ONone; ONone; ONone; OVal 6; ONone] (St [None] []) 16 /\
  (exists h2, run 0 Z.eqb Z.ltb true (Env [] []) ex_prog (World [] (Some 15%nat)) = Thrown (World h2 None)) /\
  (exists en h2, run 0 Z.eqb Z.ltb true (Env [] []) ex_prog (World [] (Some 16%nat)) =
     Done (en, [ONone; ONone; ONone; OVal 6; ONone]) (World h2 (Some 0%nat))).
Proof.
  split.
  - unfold ex_prog. change 16%nat with (7 + (6 + (3 + (0 + (0 + 0)))))%nat.
    eapply cn_cons; [apply s_list; apply ex_well_formed|apply (co_list _ [2; 3])|].
    change (add_array _ _) with (ex_st [0; 0; 0; 0; 0; 0]).
    eapply cn_cons; [eapply s_fill; reflexivity|apply (co_fill _ _ [1; 2; 3; 4; 5; 6] (Arr [2; 3] [0; 0] (so_from_c 2) 7%nat [0; 0; 0; 0; 0; 0])); reflexivity|].
    change (set_array _ _ _) with (ex_st [1; 2; 3; 4; 5; 6]).
    eapply cn_cons with (st1 := ex_st [6; 5; 4; 4; 5; 6]).
    { eapply s_assign; [apply ex_denotes_dst|apply ex_denotes_src|]. split; [reflexivity|].
      change (all_positions (pl_shape ex_dst)) with [[0]; [1]; [2]].
      copy_one. copy_one. copy_one. constructor. }
    { apply (co_assign _ _ _ ex_dst). apply ex_denotes_dst. }
    eapply cn_cons; [eapply s_get; [apply ex_denotes_dst|]|apply co_get|].
    { look_one. }
    eapply cn_cons; [eapply s_destroy; reflexivity|apply co_destroy|]. apply cn_nil.
  - split; [eexists; vm_compute; reflexivity|]. eexists. eexists. vm_compute. reflexivity.
Qed.
