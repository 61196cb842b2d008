(** ThmConcur.v -- C66: threads that build, use, resize and destroy arrays of their own
    and read the arrays they share *)

From Coq Require Import ZArith List Bool Lia.
From Verif Require Import Base StorageOrder Ranges Layout Access Objects Memory Ops MultiArray History Threads Concur.
From Verif Require Import Spec ReachSpec MemSpec OwnSpec HistorySpec CostSpec ConcurSpec.
From Verif Require Import Facts LayoutProofs AccessProofs ViewProofs ReachProofs MemoryProofs HistoryProofs ConcurProofs FootProofs InterProofs ThmAddressing ThmHistory ThmCosts ThmExact.
Import ListNotations.
Local Open Scope Z_scope.

Section Pools.
Context {T : Type}.
Variable dflt : T.
Variable eqT ltT : T -> T -> bool.

(** a private program run alone *)
Lemma alone_run chk k st p os st' : private_run dflt eqT ltT k st p os st' -> forall en (h : heap T), related st en h ->
  exists en' h', run_catching dflt eqT ltT chk en p h = Done (en', os) (World h' None) /\ related st' en' h'.
Proof.
  induction 1 as [st|st c f rest o os n st1 st2 HS HC Hf HMo HP IH|st c j rest o os n st1 st1' st2 HS HC Hj HMo HI HP IH];
    intros en h HR; cbn [run_catching].
  - eauto.
  - destruct (exec_done dflt eqT ltT st en h c o st1 chk n f HR HS HC Hf) as (en1 & h1 & f1 & -> & HR1 & _).
    destruct (IH _ _ HR1) as (en2 & h2 & E2 & HR2). cbn [w_heap]. rewrite E2. eauto.
  - destruct (exec_thrown dflt eqT ltT st en h c o st1' chk n j st1 HR HS HC Hj HI) as (h1 & -> & HR1 & _).
    destruct (IH _ _ HR1) as (en2 & h2 & E2 & HR2). cbn [w_heap]. rewrite E2. eauto.
Qed.

Lemma related_unmask i own (H : heap T) st en : length own = length H -> related st en (mask i own H) -> related st en H.
Proof.
  intros E [[R1 R2] HH]. split; [|auto]. split; [|auto]. intros x. specialize (R1 x).
  destruct (nth_error (s_arrays st) x) as [[a|]|], (nth_error (e_vars en) x) as [[m|]|]; auto.
  destruct R1 as [(O1 & O2 & O3 & O4 & O5 & O6) R1]. split; [|auto]. repeat (split; [assumption|]).
  rewrite nth_mask in O6 by auto. destruct (nth_error own (ma_block m)) as [t|]; [|discriminate].
  destruct (nth_error H (ma_block m)) as [y|]; [|discriminate]. destruct (sees i t); [auto|discriminate].
Qed.

Variable k : nat.
Variable h0 : heap T.
Variable results : list (list (option (@output T)) * @state T).
Definition post (r : list (option (@output T)) * @state T) (P : nat -> Prop) (h : heap T) (_ : option nat) (q : env * list (option (@output T))) : Prop :=
  snd q = fst r /\ related (snd r) (fst q) h /\ mine P k (fst q).
Definition joint (own : list (option nat)) (s : heap T * list (job T (env * list (option (@output T))) * option nat)) : Prop :=
  length own = length (fst s) /\
  (forall b, (b < length h0)%nat -> nth_error own b = Some None /\ nth_error (fst s) b = nth_error h0 b) /\
  forall i m f, nth_error (snd s) i = Some (m, f) -> exists (P : nat -> Prop) r, nth_error results i = Some r /\
    (forall b, P b -> nth_error own b = Some (Some i)) /\
    wp P m (mask i own (fst s)) f (post r) (fun _ _ _ => False).

Lemma joint_step s s' own : c_step s s' -> joint own s -> exists own', joint own' s'.
Proof.
  intros HS (E & HB & HT). destruct HS as [h pool i m f m' h' f' Hi Hst]. cbn [fst snd] in *.
  destruct (HT i m f Hi) as (P & r & Hr & HP & HW).
  destruct (wp_step m i own h f P (post r) (fun _ _ _ => False) E HW HP) as [_ HN].
  destruct (HN m' h' f' Hst) as (P' & own' & E' & HW' & HP' & HM & HO & HC). exists own'.
  split; [exact E'|]. split.
  - intros b Hb. destruct (HB b Hb) as [B1 B2]. split; [auto|]. cbn [fst]. rewrite HC; auto.
  - cbn [fst snd]. intros j m2 f2 Hj. destruct (Nat.eq_dec j i) as [->|N].
    + rewrite nth_error_set_nth_eq in Hj by (apply nth_error_Some; congruence). injection Hj as <- <-. exists P', r. auto.
    + rewrite nth_error_set_nth_ne in Hj by auto. destruct (HT j m2 f2 Hj) as (P2 & r2 & Hr2 & HP2 & HW2).
      exists P2, r2. split; [auto|]. split; [auto|].
      destruct (HM j N) as [EM|EM]; rewrite EM; [auto|].
      apply wp_pad; auto. intros P3 h3 f3 q (A1 & A2 & A3). split; [auto|]. split; [apply related_app; auto|auto].
Qed.
Lemma joint_steps s s' : c_steps s s' -> forall own, joint own s -> exists own', joint own' s'.
Proof.
  induction 1 as [s|s s1 s2 H1 H2 IH]; intros own HJ; [eauto|]. destruct (joint_step _ _ _ H1 HJ) as [own1 HJ1]. eauto.
Qed.

Lemma changes_own {A} (m : job T A) P h f Q QT b : wp P m h f Q QT -> about_to_change m b -> P b.
Proof. destruct m; cbn; try tauto; intros [HP _]; intros <-; exact HP. Qed.
Lemma uses_seen {A} (m : job T A) P i own H f Q QT b : length own = length H -> wp P m (mask i own H) f Q QT -> about_to_use m b ->
  exists t, nth_error own b = Some t /\ sees i t = true.
Proof.
  intros E. destruct m as [a| | | | |f0 m|g c|p kk|p v m|aid n kk|aid p n m|p v m|p m]; cbn; try tauto.
  destruct (hread (mask i own H) p) as [v| |] eqn:ER; try contradiction.
  intros _ <-. unfold hread, hcell, hblock in ER. rewrite nth_mask in ER by auto.
  destruct (nth_error own (p_blk p)) as [t|]; [|discriminate]. exists t. split; [auto|]. destruct (sees i t); auto.
  destruct (nth_error H (p_blk p)); discriminate.
Qed.

Lemma joint_clash own s : joint own s -> ~ clash (snd s).
Proof.
  intros (E & _ & HT) (i & j & m & n & f & g & b & N & Hi & Hj & HC & HU).
  destruct (HT i m f Hi) as (P & r & _ & HP & HW). destruct (HT j n g Hj) as (P2 & r2 & _ & HP2 & HW2).
  pose proof (HP b (changes_own _ _ _ _ _ _ _ HW HC)) as Hb. destruct HU as [HU|HU].
  - destruct (uses_seen _ _ _ _ _ _ _ _ _ E HW2 HU) as (t & Ht & Hs). rewrite Hb in Ht. injection Ht as <-. cbn in Hs.
    apply Nat.eqb_eq in Hs. auto.
  - pose proof (HP2 b (changes_own _ _ _ _ _ _ _ HW2 HU)). congruence.
Qed.
Lemma joint_goes own s i m f : joint own s -> nth_error (snd s) i = Some (m, f) ->
  (exists r, m = JRet r) \/ exists m' h' f', job_step m (fst s) f = Some (m', h', f').
Proof.
  intros (E & _ & HT) Hi. destruct (HT i m f Hi) as (P & r & _ & HP & HW).
  destruct (wp_step m i own (fst s) f P _ _ E HW HP) as [HG _]. destruct m; eauto. contradiction.
Qed.
Lemma joint_ends own s i q f : joint own s -> nth_error (snd s) i = Some (JRet q, f) ->
  exists (P : nat -> Prop) r, nth_error results i = Some r /\ snd q = fst r /\ related (snd r) (fst q) (fst s) /\ mine P k (fst q) /\
    forall b, P b -> nth_error own b = Some (Some i).
Proof.
  intros (E & _ & HT) Hi. destruct (HT i _ f Hi) as (P & r & Hr & HP & HW). cbn [wp] in HW. destruct HW as (A1 & A2 & A3).
  exists P, r. split; [auto|]. split; [auto|]. split; [eapply related_unmask; eauto|]. auto.
Qed.
End Pools.

(** * Every schedule ends *)
Section Ends.
Context {T A : Type}.
Inductive job_child : job T A -> job T A -> Prop :=
| jc_arm : forall f k, job_child k (JArm f k)
| jc_good : forall g b, job_child g (JTick g b)
| jc_bad : forall g b, job_child b (JTick g b)
| jc_read : forall p k v, job_child (k v) (JRead p k)
| jc_write : forall p v k, job_child k (JWrite p v k)
| jc_alloc : forall aid n k p, job_child (k p) (JAlloc aid n k)
| jc_free : forall aid p n k, job_child k (JFree aid p n k)
| jc_make : forall p v k, job_child k (JMake p v k)
| jc_kill : forall p k, job_child k (JKill p k).
Lemma job_acc m : Acc job_child m.
Proof. induction m; constructor; intros y Hy; inversion Hy; subst; auto. Qed.
Lemma job_step_child m h f m' h' f' : job_step m h f = Some (m', h', f') -> job_child m' m.
Proof.
  destruct m as [a| | | | |f0 m|g b|p k|p v m|aid n k|aid p n m|p v m|p m]; cbn [job_step]; try discriminate.
  - intros [= <- _ _]. constructor.
  - destruct f as [[|j]|]; intros [= <- _ _]; constructor.
  - destruct (hread h p); intros [= <- _ _]. constructor.
  - destruct (hwrite h p v); intros [= <- _ _]. constructor.
  - intros [= <- _ _]. constructor.
  - destruct (deallocate _ _ _ _); intros [= <- _ _]. constructor.
  - destruct (hcell h p) as [[|]|]; try discriminate. destruct (hset _ _ _); intros [= <- _ _]. constructor.
  - destruct (destroy _ _); intros [= <- _ _]. constructor.
Qed.
Inductive jobs_lower : list (job T A * option nat) -> list (job T A * option nat) -> Prop :=
| jl_here : forall m m' f f' l, job_child m' m -> jobs_lower ((m', f') :: l) ((m, f) :: l)
| jl_next : forall m l l', jobs_lower l' l -> jobs_lower (m :: l') (m :: l).
Lemma jobs_acc l : Acc jobs_lower l.
Proof.
  induction l as [|[m f] l IH]; [constructor; intros y H; inversion H|].
  generalize (job_acc m). intros Hm. revert f l IH. induction Hm as [m _ IHm]. intros f l Hl.
  induction Hl as [l Hl0 IHl]. constructor. intros y H. inversion H as [m1 m' f1 f' l1 Hc|m1 l1 l' Hc]; subst.
  - apply IHm; auto. constructor; auto.
  - apply IHl. auto.
Qed.
Lemma set_nth_jobs_lower pool i m f m' f' : nth_error pool i = Some (m, f) -> job_child m' m -> jobs_lower (set_nth i (m', f') pool) pool.
Proof.
  revert i. induction pool as [|x pool IH]; intros [|i] H Hc; cbn [nth_error] in H; try discriminate; cbn [set_nth].
  - injection H as ->. constructor; auto.
  - constructor. auto.
Qed.
Lemma c_step_acc (s : heap T * list (job T A * option nat)) : Acc (fun s' s => c_step s s') s.
Proof.
  destruct s as [h pool]. pose proof (jobs_acc pool) as H. revert h. induction H as [pool _ IH]. intros h.
  constructor. intros [h' pool'] Hs. apply IH. inversion Hs; subst. eapply set_nth_jobs_lower; [eassumption|].
  eapply job_step_child; eauto.
Qed.
End Ends.

(** the steps, made without interruption, are the calls *)
Theorem c66_steps_are_calls : forall (T : Type) (dflt : T) eqT ltT chk en c h f,
  run_job (j_exec dflt eqT ltT chk en c) (World h f) = exec dflt eqT ltT chk en c (World h f).
Proof. intros. apply so_exec. Qed.
Theorem c66_threads_are_programs : forall (T : Type) (dflt : T) eqT ltT chk en p h f,
  run_job (j_thread dflt eqT ltT chk en p) (World h f) = run_catching dflt eqT ltT chk en p h.
Proof. intros. apply so_thread. Qed.

(** the main program builds the shared arrays; then any number of threads run, in any
    interleaving of their steps *)
Theorem c66_threads_do_not_interfere : forall (T : Type) (dflt : T) eqT ltT chk p0 os0 st0 en0 h0 threads results,
  private_run dflt eqT ltT 0 empty_state p0 os0 st0 ->
  run_catching dflt eqT ltT chk (Env [] []) p0 [] = Done (en0, os0) (World h0 None) ->
  let k := length (s_arrays st0) in
  Forall2 (fun p r => private_run dflt eqT ltT k st0 p (fst r) (snd r)) threads results ->
  forall h pool, c_steps (h0, map (fun p => (j_thread dflt eqT ltT chk en0 p, None)) threads) (h, pool) ->
    ~ clash pool /\
    (forall i m f, nth_error pool i = Some (m, f) ->
       (exists r, m = JRet r) \/ exists m' h' f', job_step m h f = Some (m', h', f')) /\
    (forall i en os f, nth_error pool i = Some (JRet (en, os), f) ->
       exists st, nth_error results i = Some (os, st) /\ agrees st en h /\ memory_ok en h) /\
    (forall i j en en' os os' f f' x y m m', i <> j ->
       nth_error pool i = Some (JRet (en, os), f) -> nth_error pool j = Some (JRet (en', os'), f') ->
       (k <= x)%nat -> (k <= y)%nat -> nth_error (e_vars en) x = Some (Some m) -> nth_error (e_vars en') y = Some (Some m') ->
       ma_block m <> ma_block m') /\
    (forall b, (b < length h0)%nat -> nth_error h b = nth_error h0 b).
Proof.
  intros T dflt eqT ltT chk p0 os0 st0 en0 h0 threads results HP0 HR0 k HT h pool HS.
  destruct (alone_run dflt eqT ltT chk 0 _ _ _ _ HP0 (Env [] []) [] related_nil) as (en1 & h1 & E1 & HR).
  rewrite HR0 in E1. injection E1 as <- <-.
  assert (HJ : joint k h0 results (repeat None (length h0)) (h0, map (fun p => (j_thread dflt eqT ltT chk en0 p, None)) threads)).
  { split; [apply repeat_length|]. cbn [fst snd]. split; [intros b Hb; split; [apply nth_error_repeat; auto|auto]|].
    intros i m f Hi. rewrite nth_error_map in Hi. destruct (nth_error threads i) as [p|] eqn:Ep; [|discriminate].
    cbn in Hi. injection Hi as <- <-.
    assert (HX : exists r, nth_error results i = Some r /\ private_run dflt eqT ltT k st0 p (fst r) (snd r)).
    { clear -HT Ep. revert i Ep. induction HT; intros [|i] Ep; cbn in *; try discriminate; [injection Ep as <-; eauto|eauto]. }
    destruct HX as (r & Er & HP). exists (fun _ => False), r. split; [auto|]. split; [intros b []|].
    assert (EM : forall l : heap T, mask i (repeat None (length l)) l = l).
    { induction l as [|x l IH]; cbn; [auto|]. now rewrite IH. }
    rewrite EM. apply (thread_wp dflt eqT ltT chk k st0 p (fst r) (snd r) HP); auto.
    intros x m Hx Hm. exfalso. pose proof (relA_length _ _ _ (proj1 HR)) as HL.
    assert (x < length (e_vars en0))%nat by (apply nth_error_Some; congruence). unfold k in Hx. lia. }
  destruct (joint_steps _ _ _ _ _ HS _ HJ) as [own HJ'].
  split; [exact (joint_clash dflt eqT ltT _ _ _ _ _ HJ')|]. split; [intros i m f Hi; exact (joint_goes _ _ _ _ _ i m f HJ' Hi)|]. split.
  { intros i en os f Hi. destruct (joint_ends _ _ _ _ _ i _ f HJ' Hi) as (P & [os' st'] & Er & Eo & HRf & _). cbn [fst snd] in *. subst os'.
    exists st'. split; [auto|]. split; [apply (related_agrees dflt eqT ltT); auto|eapply related_memory; eauto]. }
  split.
  { intros i j en en' os os' f f' x y m m' N Hi Hj Hx Hy Em Em' EB.
    destruct (joint_ends _ _ _ _ _ i _ f HJ' Hi) as (P & r & _ & _ & _ & HM & HO). destruct (joint_ends _ _ _ _ _ j _ f' HJ' Hj) as (P' & r' & _ & _ & _ & HM' & HO').
    pose proof (HO _ (HM x m Hx Em)) as B1. pose proof (HO' _ (HM' y m' Hy Em')) as B2. rewrite EB in B1. congruence. }
  intros b Hb. apply HJ'. auto.
Qed.
(** as if each thread had run alone *)
Theorem c66_same_as_alone : forall (T : Type) (dflt : T) eqT ltT chk p0 os0 st0 en0 h0 p os st,
  private_run dflt eqT ltT 0 empty_state p0 os0 st0 ->
  run_catching dflt eqT ltT chk (Env [] []) p0 [] = Done (en0, os0) (World h0 None) ->
  private_run dflt eqT ltT (length (s_arrays st0)) st0 p os st ->
  exists en h, run_catching dflt eqT ltT chk en0 p h0 = Done (en, os) (World h None) /\ agrees st en h.
Proof.
  intros T dflt eqT ltT chk p0 os0 st0 en0 h0 p os st HP0 HR0 HP.
  destruct (alone_run dflt eqT ltT chk 0 _ _ _ _ HP0 (Env [] []) [] related_nil) as (en1 & h1 & E1 & HR).
  rewrite HR0 in E1. injection E1 as <- <-. destruct (alone_run dflt eqT ltT chk _ _ _ _ _ HP en0 h0 HR) as (en & h & E & HR').
  exists en, h. split; [auto|]. apply (related_agrees dflt eqT ltT). auto.
Qed.
(** programs that keep to the contract have such an outcome *)
Theorem c66_outcome_exists : forall (T : Type) (dflt : T) eqT ltT p0 os0 st0 k p,
  private_run dflt eqT ltT 0 empty_state p0 os0 st0 -> private_legal dflt eqT ltT k st0 p ->
  exists os st, private_run dflt eqT ltT k st0 p os st.
Proof.
  intros T dflt eqT ltT p0 os0 st0 k p HP0 HL.
  destruct (alone_run dflt eqT ltT true 0 _ _ _ _ HP0 (Env [] []) [] related_nil) as (en & h & _ & HR). clear HP0.
  revert st0 en h HR HL. induction p as [|[c f] p IH]; intros st en h HR HA; [exists [], st; constructor|].
  cbn [private_legal] in HA. destruct HA as (HL & HM & HD & HT).
  destruct (legal_step dflt eqT ltT st en h c HR HL) as (o & st1 & HS). destruct (costs_some dflt eqT ltT st c o st1 HS) as [n Hn].
  assert (D : (forall j, f = Some j -> (n <= j)%nat) \/ exists j, f = Some j /\ (j < n)%nat).
  { destruct f as [j|]; [|left; discriminate]. destruct (Nat.lt_ge_cases j n); [right; eauto|left; intros ? [= <-]; auto]. }
  destruct D as [Hf|(j & -> & Hk)].
  - destruct (exec_done dflt eqT ltT st en h c o st1 true n f HR HS Hn Hf) as (en1 & h1 & f1 & _ & HR1 & _).
    destruct (IH st1 en1 h1 HR1 (HD o st1 HS)) as (os & st2 & HV). exists (Some o :: os), st2. eapply pr_done; eauto.
  - destruct (interrupted_exists dflt eqT ltT st en h c o st1 n j HR HS Hn Hk) as [st2 HI].
    destruct (exec_thrown dflt eqT ltT st en h c o st1 true n j st2 HR HS Hn Hk HI) as (h1 & _ & HR1 & _).
    destruct (IH st2 en h1 HR1 (HT j st2 eq_refl HI)) as (os & st3 & HV). do 2 eexists. eapply pr_thrown; eauto.
Qed.
Theorem c66_every_schedule_ends : forall (T A : Type) (s : heap T * list (job T A * option nat)),
  ~ exists run : nat -> heap T * list (job T A * option nat), run O = s /\ forall n, c_step (run n) (run (S n)).
Proof.
  intros T A s (run & _ & Hrun).
  assert (G : forall s, Acc (fun s' s => c_step s s') s -> forall n, run n = s -> False).
  { clear s. intros s Hs. induction Hs as [s _ IH]. intros n En. apply (IH (run (S n))) with (n := S n); auto.
    rewrite <- En. apply Hrun. }
  apply (G (run O) (c_step_acc _) O eq_refl).
Qed.

(** * Examples *)

(** a schedule: whose turn it is *)
Fixpoint follow {T A} (sched : list nat) (s : heap T * list (job T A * option nat)) : option (heap T * list (job T A * option nat)) :=
  match sched with
  | [] => Some s
  | i :: rest =>
      match nth_error (snd s) i with
      | Some (m, f) => match job_step m (fst s) f with
                       | Some (m', h', f') => follow rest (h', set_nth i (m', f') (snd s))
                       | None => None
                       end
      | None => None
      end
  end.
Lemma follow_steps {T A} sched : forall (s s' : heap T * list (job T A * option nat)), follow sched s = Some s' -> c_steps s s'.
Proof.
  induction sched as [|i sched IH]; intros [h pool] s' H; cbn [follow] in H; [injection H as <-; constructor|]. cbn [fst snd] in H.
  destruct (nth_error pool i) as [[m f]|] eqn:Ei; [|discriminate]. destruct (job_step m h f) as [[[m' h'] f']|] eqn:Es; [|discriminate].
  econstructor; [econstructor; eauto|]. apply IH. exact H.
Qed.
Definition ended {T A B} (s : heap T * list (job T (A * B) * option nat)) : list (option B) :=
  map (fun t => match fst t with JRet q => Some (snd q) | _ => None end) (snd s).

(** the main program builds a 2x3 array; one thread copies it, changes the copy and
    destroys it; the other fails to build an array, builds a smaller one, writes to it and
    compares the shared array with itself *)
Definition ex_main : list (@command Z * option nat) :=
  [(NewList [2; 3] (so_from_c 2) 7, None); (Fill 0 [1; 2; 3; 4; 5; 6], None)].
Definition ex_thread1 : list (@command Z * option nat) :=
  [(NewCopy 0, None); (Set_ (Var 1) [0; 0] 9, None); (Get (Var 1) [0; 0], None); (Destroy 1, None); (Get (Var 0) [0; 0], None)].
Definition ex_thread2 : list (@command Z * option nat) :=
  [(NewList [9] (so_from_c 1) 8, Some 4%nat); (NewList [3] (so_from_c 1) 8, None); (Set_ (Var 1) [2] 5, None);
   (Compare CEq (Var 0) (Var 0), None); (Get (Var 1) [2], None)].
Definition ex_state1 : @state Z := St [Some (Arr [2; 3] [0; 0] (so_from_c 2) 7%nat [1; 2; 3; 4; 5; 6]); None] [].
Definition ex_state2 : @state Z := St [Some (Arr [2; 3] [0; 0] (so_from_c 2) 7%nat [1; 2; 3; 4; 5; 6]);
  Some (Arr [3] [0] (so_from_c 1) 8%nat [0; 0; 5])] [].
Definition ex_pool (en : env) := map (fun p => (j_thread 0 Z.eqb Z.ltb true en p, @None nat)) [ex_thread1; ex_thread2].
(** they take turns, one step each, until the second has finished *)
Definition ex_schedule : list nat := concat (repeat [0; 1] 41)%nat ++ repeat 0%nat 8.

Definition ex_array (l : list Z) : @arr Z := Arr [2; 3] [0; 0] (so_from_c 2) 7%nat l.
Lemma ex_modifies st c x y : modifies (T := Z) st c x -> (forall d s, c <> Assign d s) -> (forall d s, c <> CopyArray d s) ->
  (forall h l, c <> FillRef h l) -> (forall e f, c <> ForEach e f) ->
  match c with
  | Destroy z | AssignVar z _ | Fill z _ | Reindex z _ | ReindexAll z _ | Reshape z _ | Resize z _ | ResizeList z _ => (y <= z)%nat
  | Set_ e _ _ | SetB e _ _ => match e with Var z => (y <= z)%nat | _ => False end
  | _ => True
  end -> (y <= x)%nat.
Proof.
  intros H N1 N2 N3 N4 HC. destruct H; auto; try (exfalso; first [eapply N1; reflexivity|eapply N2; reflexivity|eapply N3; reflexivity|eapply N4; reflexivity]);
    (match goal with HD : denotes _ ?e _ |- _ => destruct e; try contradiction; inversion HD; subst; exact HC end).
Qed.
Ltac keeps_off := intros; eapply ex_modifies; [eassumption|congruence..|cbn; auto].

Lemma ex_main_run : private_run 0 Z.eqb Z.ltb 0 empty_state ex_main [Some ONone; Some ONone] (ex_st [1; 2; 3; 4; 5; 6]).
Proof.
  eapply pr_done; [apply s_list; apply ex_well_formed|apply (co_list _ [2; 3])|discriminate|intros; lia|].
  change (add_array _ _) with (ex_st [0; 0; 0; 0; 0; 0]).
  eapply pr_done; [eapply s_fill; reflexivity|apply (co_fill _ _ [1; 2; 3; 4; 5; 6] (ex_array [0; 0; 0; 0; 0; 0])); reflexivity|discriminate|intros; lia|].
  apply pr_nil.
Qed.
Lemma ex_one_dim n : In n [3; 9] -> well_formed (blank 0 [n] [0] (so_from_c 1) 8).
Proof.
  intros H. apply blank_ok; [apply (proj1 (c02_named_orders_valid 1))|].
  change (so_from_c 1) with (SO [0%nat] [true]). destruct H as [<-|[<-|[]]]; layout_tac.
Qed.
Definition ex_two (a b : option (@arr Z)) : @state Z := St [a; b] [].
Lemma ex_thread1_run : private_run 0 Z.eqb Z.ltb 1 (ex_st [1; 2; 3; 4; 5; 6]) ex_thread1
  [Some ONone; Some ONone; Some (OVal 9); Some ONone; Some (OVal 1)] ex_state1.
Proof.
  unfold ex_thread1. eapply pr_done; [apply s_copy; reflexivity|eapply co_copy; reflexivity|discriminate|keeps_off|].
  change (add_array _ _) with (ex_two (Some (ex_array [1; 2; 3; 4; 5; 6])) (Some (ex_array [1; 2; 3; 4; 5; 6]))).
  eapply pr_done with (st1 := ex_two (Some (ex_array [1; 2; 3; 4; 5; 6])) (Some (ex_array [9; 2; 3; 4; 5; 6])));
    [eapply s_set; [apply (dn_var _ 1 (ex_array [1; 2; 3; 4; 5; 6])); reflexivity|]|apply co_set|discriminate|keeps_off|].
  { split; [cbn; lia|]. eexists. split; reflexivity. }
  eapply pr_done; [eapply s_get; [apply (dn_var _ 1 (ex_array [9; 2; 3; 4; 5; 6])); reflexivity|]|apply co_get|discriminate|keeps_off|].
  { split; [cbn; lia|]. eexists. split; reflexivity. }
  eapply pr_done; [eapply s_destroy; reflexivity|apply co_destroy|discriminate|keeps_off|].
  change (orphan _ _) with ex_state1.
  eapply pr_done; [eapply s_get; [apply (dn_var _ 0 (ex_array [1; 2; 3; 4; 5; 6])); reflexivity|]|apply co_get|discriminate|keeps_off|apply pr_nil].
  split; [cbn; lia|]. eexists. split; reflexivity.
Qed.
Lemma ex_thread2_run : private_run 0 Z.eqb Z.ltb 1 (ex_st [1; 2; 3; 4; 5; 6]) ex_thread2
  [None; Some ONone; Some ONone; Some (OBool true); Some (OVal 5)] ex_state2.
Proof.
  unfold ex_thread2. eapply pr_thrown; [apply s_list; apply (ex_one_dim 9); cbn; auto|apply (co_list _ [9])|vm_compute; lia|keeps_off|apply i_list|].
  eapply pr_done; [apply s_list; apply (ex_one_dim 3); cbn; auto|apply (co_list _ [3])|discriminate|keeps_off|].
  change (add_array _ _) with (ex_two (Some (ex_array [1; 2; 3; 4; 5; 6])) (Some (Arr [3] [0] (so_from_c 1) 8%nat [0; 0; 0]))).
  eapply pr_done with (st1 := ex_state2);
    [eapply s_set; [apply (dn_var _ 1 (Arr [3] [0] (so_from_c 1) 8%nat [0; 0; 0])); reflexivity|]|apply co_set|discriminate|keeps_off|].
  { split; [cbn; lia|]. eexists. split; reflexivity. }
  eapply pr_done; [eapply s_compare; [apply (dn_var _ 0 (ex_array [1; 2; 3; 4; 5; 6])); reflexivity|apply (dn_var _ 0 (ex_array [1; 2; 3; 4; 5; 6])); reflexivity|reflexivity|]|apply co_compare|discriminate|keeps_off|].
  { split; [intros _|auto]. split; [reflexivity|]. intros k Hk. apply in_tuples in Hk; [|reflexivity].
    cbn in Hk. repeat (destruct Hk as [<-|Hk]; [do 2 eexists; split; [look_one|split; [look_one|reflexivity]]|]). contradiction. }
  eapply pr_done; [eapply s_get; [apply (dn_var _ 1 (Arr [3] [0] (so_from_c 1) 8%nat [0; 0; 5])); reflexivity|]|apply co_get|discriminate|keeps_off|apply pr_nil].
  split; [cbn; lia|]. eexists. split; reflexivity.
Qed.

(** the main program runs; the two threads are as required; and they can be run one step
    each in turn, the failed construction of one happening while the other copies *)
Example ex_c66 : exists en h,
  run_catching 0 Z.eqb Z.ltb true (Env [] []) ex_main [] = Done (en, [Some ONone; Some ONone]) (World h None) /\
  private_run 0 Z.eqb Z.ltb 0 empty_state ex_main [Some ONone; Some ONone] (ex_st [1; 2; 3; 4; 5; 6]) /\
  Forall2 (fun p r => private_run 0 Z.eqb Z.ltb 1 (ex_st [1; 2; 3; 4; 5; 6]) p (fst r) (snd r)) [ex_thread1; ex_thread2]
    [([Some ONone; Some ONone; Some (OVal 9); Some ONone; Some (OVal 1)], ex_state1);
     ([None; Some ONone; Some ONone; Some (OBool true); Some (OVal 5)], ex_state2)] /\
  exists s, c_steps (h, ex_pool en) s /\
    ended s = [Some [Some ONone; Some ONone; Some (OVal 9); Some ONone; Some (OVal 1)];
               Some [None; Some ONone; Some ONone; Some (OBool true); Some (OVal 5)]].
Proof.
  destruct (run_catching 0 Z.eqb Z.ltb true (Env [] []) ex_main []) as [[en os] [h f]|w|w| |] eqn:E; try (vm_compute in E; discriminate).
  vm_compute in E. injection E as <- <- <- <-. do 2 eexists. split; [reflexivity|].
  split; [apply ex_main_run|]. split; [constructor; [apply ex_thread1_run|constructor; [apply ex_thread2_run|constructor]]|].
  match goal with |- exists s, c_steps (?h, ex_pool ?en) _ /\ _ =>
    destruct (follow ex_schedule (h, ex_pool en)) as [s|] eqn:EF; [|exfalso; vm_compute in EF; discriminate] end.
  exists s. split; [exact (follow_steps _ _ _ EF)|].
  apply (f_equal (option_map ended)) in EF. cbn [option_map] in EF. vm_compute in EF. injection EF as EF. symmetry. exact EF.
Qed.

(** Finding: the arrays that are shared may not be destroyed while others use them.  If
    one thread destroys the shared array and another reads an element, some
    interleaving has both at the same block, and another leaves the reader with an
    undefined operation as its next step *)
Theorem c66_destroying_shared_refuted : ~ forall (T : Type) (dflt : T) eqT ltT chk p0 os0 st0 en0 h0 threads,
  private_run dflt eqT ltT 0 empty_state p0 os0 st0 ->
  run_catching dflt eqT ltT chk (Env [] []) p0 [] = Done (en0, os0) (World h0 None) ->
  (forall p, In p threads -> exists os st, private_run dflt eqT ltT 0 st0 p os st) ->
  forall h pool, c_steps (h0, map (fun p => (j_thread dflt eqT ltT chk en0 p, None)) threads) (h, pool) ->
    ~ clash pool /\
    (forall i m f, nth_error pool i = Some (m, f) ->
       (exists r, m = JRet r) \/ exists m' h' f', job_step m h f = Some (m', h', f')).
Proof.
  intros H.
  set (threads := [[(@Destroy Z 0, None)]; [(Get (Var 0) [1; 2], None)]] : list (list (@command Z * option nat))).
  destruct (run_catching 0 Z.eqb Z.ltb true (Env [] []) ex_main []) as [[en os] [h f]|w|w| |] eqn:E; try (vm_compute in E; discriminate).
  pose proof E as E'. vm_compute in E'. injection E' as Een Eos Eh Ef.
  assert (HT : forall p, In p threads -> exists os st, private_run 0 Z.eqb Z.ltb 0 (ex_st [1; 2; 3; 4; 5; 6]) p os st).
  { intros p [<-|[<-|[]]]; do 2 eexists.
    - eapply pr_done; [eapply s_destroy; reflexivity|apply co_destroy|discriminate|intros; lia|apply pr_nil].
    - eapply pr_done; [eapply s_get; [apply (ex_denotes_whole [1; 2; 3; 4; 5; 6])|look_one]|apply co_get|discriminate|intros; lia|apply pr_nil]. }
  subst os f. pose proof (H Z 0 Z.eqb Z.ltb true ex_main _ _ en h threads ex_main_run E HT) as H'. clear H E HT.
  set (pool := map (fun p => (j_thread 0 Z.eqb Z.ltb true en p, None)) threads) in H'.
  destruct (follow (repeat 0 2 ++ [1])%nat (h, pool)) as [[h1 pool1]|] eqn:EF; [|exfalso; subst en h; vm_compute in EF; discriminate].
  destruct (H' h1 pool1 (follow_steps _ _ _ EF)) as [HC _]. apply HC. clear HC.
  subst en h. vm_compute in EF. injection EF as <- <-.
  exists 0%nat, 1%nat. do 4 eexists. exists 0%nat. split; [discriminate|]. split; [reflexivity|]. split; [reflexivity|].
  split; [reflexivity|left; reflexivity].
Qed.
(** the second half on its own: the reader's next operation may be undefined *)
Theorem c66_reader_left_with_nothing : exists (p0 : list (@command Z * option nat)) os0 st0 en0 h0 p1 p2 os1 st1 os2 st2 h pool m f,
  private_run 0 Z.eqb Z.ltb 0 empty_state p0 os0 st0 /\
  run_catching 0 Z.eqb Z.ltb true (Env [] []) p0 [] = Done (en0, os0) (World h0 None) /\
  private_run 0 Z.eqb Z.ltb 0 st0 p1 os1 st1 /\ private_run 0 Z.eqb Z.ltb 0 st0 p2 os2 st2 /\
  c_steps (h0, map (fun p => (j_thread 0 Z.eqb Z.ltb true en0 p, None)) [p1; p2]) (h, pool) /\
  nth_error pool 1 = Some (m, f) /\ (forall r, m <> JRet r) /\ job_step m h f = None.
Proof.
  destruct (run_catching 0 Z.eqb Z.ltb true (Env [] []) ex_main []) as [[en os] [h f]|w|w| |] eqn:E; try (vm_compute in E; discriminate).
  pose proof E as E'. vm_compute in E'. injection E' as Een Eos Eh Ef. subst os f.
  set (p1 := [(@Destroy Z 0, None)] : list (@command Z * option nat)).
  set (p2 := [(Get (Var 0) [1; 2], None)] : list (@command Z * option nat)).
  destruct (follow (repeat 0 2 ++ [1])%nat (h, map (fun p => (j_thread 0 Z.eqb Z.ltb true en p, None)) [p1; p2])) as [[h1 pool1]|] eqn:EF;
    [|exfalso; subst en h; vm_compute in EF; discriminate].
  exists ex_main. do 2 eexists. exists en, h, p1, p2. do 4 eexists. exists h1, pool1. do 2 eexists.
  split; [apply ex_main_run|]. split; [exact E|].
  split; [eapply pr_done; [eapply s_destroy; reflexivity|apply co_destroy|discriminate|intros; lia|apply pr_nil]|].
  split; [eapply pr_done; [eapply s_get; [apply (ex_denotes_whole [1; 2; 3; 4; 5; 6])|look_one]|apply co_get|discriminate|intros; lia|apply pr_nil]|].
  split; [exact (follow_steps _ _ _ EF)|]. subst en h. vm_compute in EF. injection EF as <- <-.
  split; [reflexivity|]. split; [discriminate|reflexivity].
Qed.
