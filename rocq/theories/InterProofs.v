(** InterProofs.v -- a thread does what its program says although others take steps
    in between *)

From Coq Require Import ZArith List Bool Lia.
From Verif Require Import Base StorageOrder Ranges Layout Access Objects Memory Ops MultiArray History Threads Concur.
From Verif Require Import Spec ReachSpec MemSpec OwnSpec HistorySpec CostSpec ConcurSpec.
From Verif Require Import Facts LayoutProofs AccessProofs ViewProofs ReachProofs MemoryProofs HistoryProofs ConcurProofs FootProofs ThmHistory ThmExact.
Import ListNotations.
Local Open Scope Z_scope.

Section Inter.
Context {T : Type}.

(** memory that other threads have obtained: invisible to this one *)
Definition pad (j : nat) : heap T := repeat None j.
Lemma pad_block (h : heap T) j b : hblock (h ++ pad j) b = hblock h b.
Proof.
  unfold hblock. destruct (Nat.lt_ge_cases b (length h)); [rewrite nth_error_app1 by auto; auto|].
  rewrite nth_error_app2 by auto. rewrite (proj2 (nth_error_None h b)) by auto.
  destruct (nth_error (pad j) (b - length h)) as [[x|]|] eqn:E; auto.
  apply nth_error_In in E. apply repeat_spec in E. discriminate E.
Qed.
Lemma pad_cell (h : heap T) j p : hcell (h ++ pad j) p = hcell h p.
Proof. unfold hcell. rewrite pad_block. auto. Qed.
Lemma pad_read (h : heap T) j p : hread (h ++ pad j) p = hread h p.
Proof. unfold hread. rewrite pad_cell. auto. Qed.
Lemma block_lt (h : heap T) b k : hblock h b = Some k -> (b < length h)%nat.
Proof. unfold hblock. intros H. apply nth_error_Some. destruct (nth_error h b); [discriminate|discriminate H]. Qed.
Lemma set_nth_app {A} (l1 l2 : list A) n x : (n < length l1)%nat -> set_nth n x (l1 ++ l2) = set_nth n x l1 ++ l2.
Proof. revert n. induction l1 as [|a l1 IH]; intros [|n] H; cbn in *; try lia; auto. rewrite IH by lia. auto. Qed.
Lemma pad_set (h : heap T) j p c : hset (h ++ pad j) p c = option_map (fun h' => h' ++ pad j) (hset h p c).
Proof.
  unfold hset. rewrite pad_cell, pad_block. destruct (hcell h p); auto. destruct (hblock h (p_blk p)) eqn:E; auto.
  cbn [option_map]. rewrite set_nth_app by (eapply block_lt; eauto). auto.
Qed.
Lemma pad_write (h : heap T) j p v : hwrite (h ++ pad j) p v = match hwrite h p v with Ok h' => Ok (h' ++ pad j) | r => r end.
Proof. unfold hwrite. rewrite pad_cell, pad_set. destruct (hcell h p) as [[c|]|]; auto. destruct (hset h p (Some v)); auto. Qed.
Lemma pad_free (h : heap T) j aid p n f : deallocate aid p n (World (h ++ pad j) f) =
  match deallocate aid p n (World h f) with Done u w => Done u (World (w_heap w ++ pad j) f) | r => r end.
Proof.
  unfold deallocate. cbn [w_heap w_fuse]. rewrite pad_block. destruct (hblock h (p_blk p)) eqn:E; auto.
  destruct (_ && _); auto. cbn [w_heap]. rewrite set_nth_app by (eapply block_lt; eauto). auto.
Qed.
Lemma pad_destroy (h : heap T) j p f : destroy p (World (h ++ pad j) f) =
  match destroy p (World h f) with Done u w => Done u (World (w_heap w ++ pad j) f) | r => r end.
Proof. unfold destroy. cbn [w_heap w_fuse]. rewrite pad_cell, pad_set. destruct (hcell h p) as [[c|]|]; auto. destruct (hset h p None); auto. Qed.

(** m, run on heap h while other threads may obtain blocks, changes only blocks in P,
    never gets stuck, and ends with Q or (by an exception) with QT *)
Fixpoint wp {A} (P : nat -> Prop) (m : job T A) (h : heap T) (f : option nat)
  (Q : (nat -> Prop) -> heap T -> option nat -> A -> Prop) (QT : (nat -> Prop) -> heap T -> option nat -> Prop) : Prop :=
  match m with
  | JRet a => Q P h f a
  | JThrow => QT P h f
  | JAbort | JUndef | JFuel => False
  | JArm f' k => wp P k h f' Q QT
  | JTick g b => match f with
                 | None => wp P g h None Q QT
                 | Some O => wp P b h None Q QT
                 | Some (S i) => wp P g h (Some i) Q QT
                 end
  | JRead p k => match hread h p with Ok v => wp P (k v) h f Q QT | _ => False end
  | JWrite p v k => P (p_blk p) /\ match hwrite h p v with Ok h' => wp P k h' f Q QT | _ => False end
  | JAlloc aid n k => forall j, wp (fun b => P b \/ b = (length h + j)%nat) (k (Ptr (length h + j) 0))
                                   ((h ++ pad j) ++ [Some (Block aid (repeat None n))]) f Q QT
  | JFree aid p n k => P (p_blk p) /\ match deallocate aid p n (World h f) with Done _ w => wp P k (w_heap w) f Q QT | _ => False end
  | JMake p v k => P (p_blk p) /\ match hcell h p with
                                  | Some None => match hset h p (Some v) with Some h' => wp P k h' f Q QT | None => False end
                                  | _ => False
                                  end
  | JKill p k => P (p_blk p) /\ match destroy p (World h f) with Done _ w => wp P k (w_heap w) f Q QT | _ => False end
  end.

Ltac jind m := induction m as [a| | | | |f0 m IH|g IHg b IHb|p k IH|p v m IH|aid n k IH|aid p n m IH|p v m IH|p m IH].

Lemma wp_mono {A} (m : job T A) (Q Q' : (nat -> Prop) -> heap T -> option nat -> A -> Prop) (QT QT' : (nat -> Prop) -> heap T -> option nat -> Prop) :
  (forall P h f a, Q P h f a -> Q' P h f a) -> (forall P h f, QT P h f -> QT' P h f) ->
  forall P h f, wp P m h f Q QT -> wp P m h f Q' QT'.
Proof.
  intros H1 H2. jind m; intros P h f; cbn [wp]; auto.
  - destruct f as [[|i]|]; auto.
  - destruct (hread h p); auto.
  - intros [A1 A2]. split; auto. destruct (hwrite h p v); auto.
  - intros [A1 A2]. split; auto. destruct (deallocate _ _ _ _); auto.
  - intros [A1 A2]. split; auto. destruct (hcell h p) as [[|]|]; auto. destruct (hset _ _ _); auto.
  - intros [A1 A2]. split; auto. destruct (destroy _ _); auto.
Qed.
Lemma wp_jtry {A B} (m : job T A) (ok : A -> job T B) thrown Q QT : forall P h f,
  wp P m h f (fun P' h' f' a => wp P' (ok a) h' f' Q QT) (fun P' h' f' => wp P' thrown h' f' Q QT) ->
  wp P (jtry m ok thrown) h f Q QT.
Proof.
  jind m; intros P h f; cbn [wp jtry]; auto.
  - destruct f as [[|i]|]; auto.
  - destruct (hread h p); auto.
  - intros [A1 A2]. split; auto. destruct (hwrite h p v); auto.
  - intros [A1 A2]. split; auto. destruct (deallocate _ _ _ _); auto.
  - intros [A1 A2]. split; auto. destruct (hcell h p) as [[|]|]; auto. destruct (hset _ _ _); auto.
  - intros [A1 A2]. split; auto. destruct (destroy _ _); auto.
Qed.
(** another thread obtains a block *)
Lemma wp_pad {A} (m : job T A) (Q : (nat -> Prop) -> heap T -> option nat -> A -> Prop) (QT : (nat -> Prop) -> heap T -> option nat -> Prop) :
  (forall P h f a, Q P h f a -> Q P (h ++ [None]) f a) -> (forall P h f, QT P h f -> QT P (h ++ [None]) f) ->
  forall P h f, wp P m h f Q QT -> wp P m (h ++ [None]) f Q QT.
Proof.
  intros H1 H2. change [None] with (pad 1). jind m; intros P h f; cbn [wp]; auto; try tauto.
  - destruct f as [[|i]|]; auto.
  - rewrite pad_read. destruct (hread h p); auto.
  - intros [A1 A2]. split; auto. rewrite pad_write. destruct (hwrite h p v); auto.
  - intros HA j. specialize (HA (S j)). rewrite app_length. cbn [pad repeat length].
    replace (length h + 1 + j)%nat with (length h + S j)%nat by lia.
    replace ((h ++ [None]) ++ pad j) with (h ++ pad (S j)) by (rewrite <- app_assoc; reflexivity). exact HA.
  - intros [A1 A2]. split; auto. rewrite pad_free. destruct (deallocate _ _ _ _); auto. cbn [w_heap]. auto.
  - intros [A1 A2]. split; auto. rewrite pad_cell, pad_set. destruct (hcell h p) as [[|]|]; auto. destruct (hset _ _ _); cbn [option_map]; auto.
  - intros [A1 A2]. split; auto. rewrite pad_destroy. destruct (destroy _ _); auto. cbn [w_heap]. auto.
Qed.

Definition yields {A} (r : res T A) (R : heap T -> option nat -> A -> Prop) (RT : heap T -> option nat -> Prop) : Prop :=
  match r with Done a w => R (w_heap w) (w_fuse w) a | Thrown w => RT (w_heap w) (w_fuse w) | _ => False end.
Lemma fp_run {A} (m : job T A) (R : heap T -> option nat -> A -> Prop) RT Q0 Q0T : forall P h f,
  fp false P m Q0 Q0T -> yields (run_job m (World h f)) R RT ->
  wp P m h f (fun P' h' f' a => Q0 P' a /\ R h' f' a) (fun P' h' f' => Q0T P' /\ RT h' f').
Proof.
  jind m; intros P h f; cbn [fp wp run_job]; unfold bind, ret; cbn [yields w_heap w_fuse]; auto; try tauto.
  - destruct f as [[|i]|]; intros [A1 A2]; auto.
  - intros HA. unfold load, lift. cbn [w_heap]. destruct (hread h p); auto.
  - intros [A1 A2] HY. split; auto. unfold store in HY. cbn [w_heap w_fuse] in HY. destruct (hwrite h p v); auto.
  - intros [HF _]. discriminate HF.
  - intros [A1 A2] HY. split; auto. destruct (deallocate aid p n (World h f)) as [u [h' f']|?|?| |] eqn:E; try contradiction; cbn [w_heap].
    + apply IH; auto. unfold deallocate in E. cbn [w_heap w_fuse] in E. destruct (hblock h (p_blk p)); [|discriminate E].
      destruct (_ && _); [|discriminate E]. injection E as _ _ <-. exact HY.
    + unfold deallocate in E. destruct (hblock _ _); [destruct (_ && _)|]; discriminate E.
  - intros [A1 A2] HY. split; auto. destruct (hcell h p) as [[|]|]; auto. destruct (hset h p (Some v)); auto.
  - intros [A1 A2] HY. split; auto. destruct (destroy p (World h f)) as [u [h' f']|?|?| |] eqn:E; try contradiction; cbn [w_heap].
    + apply IH; auto. unfold destroy in E. cbn [w_heap w_fuse] in E. destruct (hcell h p) as [[|]|]; try discriminate E.
      destruct (hset h p None); [|discriminate E]. injection E as _ _ <-. exact HY.
    + unfold destroy in E. destruct (hcell _ _) as [[|]|]; try discriminate E. destruct (hset _ _ _); discriminate E.
Qed.
Lemma fp_runs {A} (m : job T A) (R : heap T -> option nat -> A -> Prop) RT Q0 Q0T : forall P h f,
  fp true P m Q0 Q0T -> (forall j, yields (run_job m (World (h ++ pad j) f)) R RT) ->
  wp P m h f (fun P' h' f' a => Q0 P' a /\ R h' f' a) (fun P' h' f' => Q0T P' /\ RT h' f').
Proof.
  jind m; intros P h f; cbn [fp wp run_job]; unfold bind, ret; cbn [yields w_heap w_fuse]; auto; try tauto.
  - intros HQ HY. specialize (HY O). cbn in HY. rewrite app_nil_r in HY. auto.
  - intros HQ HY. specialize (HY O). cbn in HY. rewrite app_nil_r in HY. auto.
  - intros _ HY. exact (HY O).
  - intros _ HY. exact (HY O).
  - intros _ HY. exact (HY O).
  - destruct f as [[|i]|]; intros [A1 A2]; auto.
  - intros HA HY. assert (HC : forall j, yields (match hread h p with Ok v => run_job (k v) (World (h ++ pad j) f) | _ => Undef end) R RT).
    { intros j. specialize (HY j). unfold load, lift in HY. cbn [w_heap] in HY. rewrite pad_read in HY. destruct (hread h p); auto. }
    destruct (hread h p); [apply IH; auto|apply (HC O)|apply (HC O)].
  - intros [A1 A2] HY. split; auto.
    assert (HC : forall j, yields (match hwrite h p v with Ok h' => run_job m (World (h' ++ pad j) f) | _ => Undef end) R RT).
    { intros j. specialize (HY j). unfold store in HY. cbn [w_heap w_fuse] in HY. rewrite pad_write in HY. destruct (hwrite h p v); auto. }
    destruct (hwrite h p v); [apply IH; auto|apply (HC O)|apply (HC O)].
  - intros [_ HF] HY j. specialize (HY j). rewrite app_length in HY. unfold pad in HY at 1. rewrite repeat_length in HY.
    apply fp_run; [exact (HF (Ptr (length h + j) 0))|exact HY].
  - intros [A1 A2] HY. split; auto.
    assert (HC : forall j, yields (match deallocate aid p n (World h f) with Done _ w => run_job m (World (w_heap w ++ pad j) f) | _ => Undef end) R RT).
    { intros j. specialize (HY j). rewrite pad_free in HY. destruct (deallocate aid p n (World h f)) eqn:E; auto.
      unfold deallocate in E. destruct (hblock _ _); [destruct (_ && _)|]; discriminate E. }
    destruct (deallocate aid p n (World h f)); [apply IH; auto|apply (HC O)|apply (HC O)|apply (HC O)|apply (HC O)].
  - intros [A1 A2] HY. split; auto.
    assert (HC : forall j, yields (match hcell h p with Some None => match hset h p (Some v) with Some h' => run_job m (World (h' ++ pad j) f) | None => Undef end | _ => Undef end) R RT).
    { intros j. specialize (HY j). rewrite pad_cell, pad_set in HY. destruct (hcell h p) as [[|]|]; auto. destruct (hset h p (Some v)); auto. }
    destruct (hcell h p) as [[|]|]; [apply (HC O)| |apply (HC O)]. destruct (hset h p (Some v)); [apply IH; auto|apply (HC O)].
  - intros [A1 A2] HY. split; auto.
    assert (HC : forall j, yields (match destroy p (World h f) with Done _ w => run_job m (World (w_heap w ++ pad j) f) | _ => Undef end) R RT).
    { intros j. specialize (HY j). rewrite pad_destroy in HY. destruct (destroy p (World h f)) eqn:E; auto.
      unfold destroy in E. destruct (hcell _ _) as [[|]|]; try discriminate E. destruct (hset _ _ _); discriminate E. }
    destruct (destroy p (World h f)); [apply IH; auto|apply (HC O)|apply (HC O)|apply (HC O)|apply (HC O)].
Qed.

Lemma related_pad st en (h : heap T) j : related st en h -> related st en (h ++ pad j).
Proof.
  revert h. induction j; intros h H; [cbn; rewrite app_nil_r; auto|].
  change (pad (S j)) with ([None] ++ pad j). rewrite app_assoc. apply IHj. apply related_app. auto.
Qed.

Variable dflt : T.
Variable eqT ltT : T -> T -> bool.

Lemma thread_wp chk k st p os st' : private_run dflt eqT ltT k st p os st' -> forall en h f P, related st en h -> mine P k en ->
  wp P (j_thread dflt eqT ltT chk en p) h f
     (fun P' h' _ r => snd r = os /\ related st' (fst r) h' /\ mine P' k (fst r)) (fun _ _ _ => False).
Proof.
  induction 1 as [st|st c f rest o os n st1 st2 HS HC Hf HMo HP IH|st c j rest o os n st1 st1' st2 HS HC Hj HMo HI HP IH];
    intros en h f0 P HR HM; cbn [j_thread wp].
  - auto.
  - apply wp_jtry. eapply wp_mono; [| |eapply (fp_runs _ (fun h' _ r => related st1 (fst r) h' /\ snd r = o) (fun _ _ => False) (fun P' r => mine P' k (fst r)) (fun P' => mine P' k en))].
    + cbv beta. intros P' h' f' [en' o'] (HM' & HR' & Eo). cbn [snd fst] in HM', HR', Eo. subst o'. unfold jbind. apply wp_jtry. cbn [fst snd].
      eapply wp_mono; [| |eapply IH; [exact HR'|exact HM']].
      * cbv beta. intros P2 h2 f2 [en2 os2] (E2 & HR2 & HM2). cbn [fst snd] in *. subst os2. cbn [wp fst snd]. auto.
      * intros ? ? ? [].
    + intros ? ? ? [_ []].
    + eapply fp_exec; eauto.
    + intros i. rewrite so_exec. destruct (exec_done dflt eqT ltT st en (h ++ pad i) c o st1 chk n f) as (en' & h' & f' & E & HR' & _); auto.
      { apply related_pad. auto. }
      rewrite E. cbn [yields w_heap fst snd]. auto.
  - apply wp_jtry. eapply wp_mono; [| |eapply (fp_runs _ (fun _ _ _ => False) (fun h' _ => related st1 en h') (fun P' r => mine P' k (fst r)) (fun P' => mine P' k en))].
    + intros ? ? ? ? [_ []].
    + cbv beta. intros P' h' f' (HM' & HR'). unfold jbind. apply wp_jtry.
      eapply wp_mono; [| |eapply IH; [exact HR'|exact HM']].
      * cbv beta. intros P2 h2 f2 [en2 os2] (E2 & HR2 & HM2). cbn [fst snd] in *. subst os2. cbn [wp fst snd]. auto.
      * intros ? ? ? [].
    + eapply fp_exec; eauto.
    + intros i. rewrite so_exec. destruct (exec_thrown dflt eqT ltT st en (h ++ pad i) c o st1' chk n j st1) as (h' & E & HR' & _); auto.
      { apply related_pad. auto. }
      rewrite E. cbn [yields w_heap]. auto.
Qed.

(** * Several threads.  Every block is either common to all threads or belongs to one. *)
Definition sees (i : nat) (t : option nat) : bool := match t with None => true | Some j => Nat.eqb j i end.
Fixpoint mask (i : nat) (own : list (option nat)) (H : heap T) : heap T :=
  match own, H with
  | t :: own', x :: H' => (if sees i t then x else None) :: mask i own' H'
  | _, _ => []
  end.
Lemma length_mask i : forall own H, length own = length H -> length (mask i own H) = length H.
Proof. induction own; intros [|x H]; cbn; intros E; auto; try lia. Qed.
Lemma nth_mask i : forall own H b, length own = length H -> nth_error (mask i own H) b =
  match nth_error own b, nth_error H b with Some t, Some x => Some (if sees i t then x else None) | _, _ => None end.
Proof. induction own; intros [|x H] b E; cbn in E; try lia; destruct b; cbn; auto. Qed.
Lemma mask_app i t (x : option (@block T)) : forall own H, length own = length H ->
  mask i (own ++ [t]) (H ++ [x]) = mask i own H ++ [if sees i t then x else None].
Proof. induction own; intros [|y H] E; cbn in *; try lia; auto. rewrite IHown by lia. auto. Qed.
Lemma mask_set_mine i b (x : option (@block T)) : forall own H, length own = length H -> nth_error own b = Some (Some i) ->
  mask i own (set_nth b x H) = set_nth b x (mask i own H).
Proof.
  revert b. induction b; intros [|t own] [|y H] E Ht; cbn in *; try lia; try discriminate.
  - injection Ht as ->. cbn. now rewrite Nat.eqb_refl.
  - rewrite IHb by (auto; lia). auto.
Qed.
Lemma mask_set_other i j b (x : option (@block T)) : i <> j -> forall own H, length own = length H -> nth_error own b = Some (Some j) ->
  mask i own (set_nth b x H) = mask i own H.
Proof.
  intros N. revert b. induction b; intros [|t own] [|y H] E Ht; cbn in *; try lia; try discriminate.
  - injection Ht as ->. cbn. destruct (Nat.eqb_spec j i); [congruence|auto].
  - rewrite IHb by (auto; lia). auto.
Qed.

Lemma mask_block i own H b k : length own = length H -> hblock (mask i own H) b = Some k -> hblock H b = Some k /\ sees i (nth b own None) = true.
Proof.
  intros E. unfold hblock. rewrite nth_mask by auto. destruct (nth_error own b) as [t|] eqn:Et; [|discriminate].
  rewrite (nth_error_nth _ _ _ Et). destruct (nth_error H b) as [x|]; [|discriminate].
  destruct (sees i t); [|discriminate]. destruct x; [|discriminate]. auto.
Qed.
Lemma mask_cell i own H p c : length own = length H -> hcell (mask i own H) p = Some c -> hcell H p = Some c /\ sees i (nth (p_blk p) own None) = true.
Proof.
  intros E. unfold hcell. destruct (hblock (mask i own H) (p_blk p)) as [k|] eqn:EB; [|discriminate].
  destruct (mask_block _ _ _ _ _ E EB) as [-> ->]. auto.
Qed.
Lemma mask_read i own H p v : length own = length H -> hread (mask i own H) p = Ok v -> hread H p = Ok v /\ sees i (nth (p_blk p) own None) = true.
Proof.
  intros E. unfold hread. destruct (hcell (mask i own H) p) as [c|] eqn:EC; [|discriminate].
  destruct (mask_cell _ _ _ _ _ E EC) as [-> S']. auto.
Qed.
(** what changes a block that belongs to thread i *)
Definition only_at (i : nat) (own : list (option nat)) (H H' : heap T) : Prop :=
  length H' = length H /\ (forall j, j <> i -> mask j own H' = mask j own H) /\
  (forall b, nth_error own b <> Some (Some i) -> nth_error H' b = nth_error H b).
Lemma only_at_set i own H b x : length own = length H -> nth_error own b = Some (Some i) -> only_at i own H (set_nth b x H).
Proof.
  intros E Hb. split; [apply length_set_nth|]. split; [intros j N; eapply mask_set_other; eauto|].
  intros b' Hb'. destruct (Nat.eq_dec b' b) as [->|N]; [congruence|]. apply nth_error_set_nth_ne. auto.
Qed.
Lemma mask_hset i own H p c h' : length own = length H -> nth_error own (p_blk p) = Some (Some i) -> hset (mask i own H) p c = Some h' ->
  exists H', hset H p c = Some H' /\ mask i own H' = h' /\ only_at i own H H'.
Proof.
  intros E Ho. unfold hset. destruct (hcell (mask i own H) p) as [x|] eqn:EC; [|discriminate].
  destruct (mask_cell _ _ _ _ _ E EC) as [-> _]. destruct (hblock (mask i own H) (p_blk p)) as [k|] eqn:EB; [|discriminate].
  destruct (mask_block _ _ _ _ _ E EB) as [-> _]. intros [= <-]. eexists. split; [reflexivity|]. split; [now apply mask_set_mine|].
  now apply only_at_set.
Qed.

(** one step of thread i, seen by thread i and by the others *)
Lemma wp_step {A} (m : job T A) i own H f P Q QT : length own = length H -> wp P m (mask i own H) f Q QT ->
  (forall b, P b -> nth_error own b = Some (Some i)) ->
  match m with JRet _ | JThrow => True | _ => exists m' H' f', job_step m H f = Some (m', H', f') end /\
  forall m' H' f', job_step m H f = Some (m', H', f') -> exists P' own',
    length own' = length H' /\ wp P' m' (mask i own' H') f' Q QT /\ (forall b, P' b -> nth_error own' b = Some (Some i)) /\
    (forall j, j <> i -> mask j own' H' = mask j own H \/ mask j own' H' = mask j own H ++ [None]) /\
    (forall b t, nth_error own b = Some t -> nth_error own' b = Some t) /\
    (forall b, nth_error own b = Some None -> nth_error H' b = nth_error H b).
Proof.
  intros E HW HP.
  assert (KEEP : forall H', only_at i own H H' -> forall m' f', wp P m' (mask i own H') f' Q QT ->
    exists P' own', length own' = length H' /\ wp P' m' (mask i own' H') f' Q QT /\ (forall b, P' b -> nth_error own' b = Some (Some i)) /\
    (forall j, j <> i -> mask j own' H' = mask j own H \/ mask j own' H' = mask j own H ++ [None]) /\
    (forall b t, nth_error own b = Some t -> nth_error own' b = Some t) /\
    (forall b, nth_error own b = Some None -> nth_error H' b = nth_error H b)).
  { intros H' (L & O & SH) m' f' W. exists P, own. split; [lia|]. split; [auto|]. split; [auto|]. split; [intros; left; auto|].
    split; [auto|]. intros b Hb. apply SH. congruence. }
  assert (SAME : only_at i own H H) by (split; [auto|split; auto]).
  destruct m as [a| | | | |f0 m|g b|p k|p v m|aid n k|aid p n m|p v m|p m]; cbn [wp job_step] in *; try contradiction.
  - split; [auto|]. discriminate.
  - split; [auto|]. discriminate.
  - split; [eauto|]. intros m' H' f' [= <- <- <-]. eapply KEEP; eauto.
  - destruct f as [[|j]|]; (split; [eauto|]); intros m' H' f' [= <- <- <-]; eapply KEEP; eauto.
  - destruct (hread (mask i own H) p) as [v| |] eqn:ER; try contradiction. destruct (mask_read _ _ _ _ _ E ER) as [-> _].
    split; [eauto|]. intros m' H' f' [= <- <- <-]. eapply KEEP; eauto.
  - destruct HW as [Pb HW]. unfold hwrite in *. destruct (hcell (mask i own H) p) as [[c|]|] eqn:EC; try contradiction.
    destruct (mask_cell _ _ _ _ _ E EC) as [-> _]. destruct (hset (mask i own H) p (Some v)) as [h'|] eqn:EH; try contradiction.
    destruct (mask_hset _ _ _ _ _ _ E (HP _ Pb) EH) as (H1 & -> & EM & HO). split; [eauto|]. intros m' H' f' [= <- <- <-].
    eapply KEEP; eauto. rewrite EM. auto.
  - split; [eauto|]. intros m' H' f' [= <- <- <-]. specialize (HW O). rewrite length_mask in HW by auto.
    exists (fun b => P b \/ b = (length H + 0)%nat), (own ++ [Some i]). rewrite !app_length. cbn [length]. split; [lia|].
    split; [rewrite mask_app by auto; cbn [sees]; rewrite Nat.eqb_refl; rewrite Nat.add_0_r in *; cbn [pad repeat] in HW; rewrite app_nil_r in HW; exact HW|].
    split.
    { intros b [Hb|Hb]; [rewrite nth_error_app1; auto; apply nth_error_Some; rewrite HP by auto; discriminate|].
      subst b. rewrite nth_error_app2 by lia. replace (length H + 0 - length own)%nat with O by lia. reflexivity. }
    split; [intros j N; right; rewrite mask_app by auto; cbn [sees]; destruct (Nat.eqb_spec i j); [congruence|auto]|].
    assert (HL : forall b t, nth_error own b = Some t -> (b < length own)%nat) by (intros b t Hb; apply nth_error_Some; congruence).
    split; [intros b t Hb; rewrite nth_error_app1; eauto|]. intros b Hb. rewrite nth_error_app1; auto. rewrite <- E. eauto.
  - destruct HW as [Pb HW]. unfold deallocate in *. cbn [w_heap w_fuse] in *.
    destruct (hblock (mask i own H) (p_blk p)) as [c|] eqn:EB; try contradiction.
    destruct (mask_block _ _ _ _ _ E EB) as [-> _]. destruct (_ && _); try contradiction. cbn [w_heap] in *.
    split; [eauto|]. intros m' H' f' [= <- <- <-]. apply KEEP; [apply only_at_set; auto|]. rewrite mask_set_mine; auto.
  - destruct HW as [Pb HW]. destruct (hcell (mask i own H) p) as [[c|]|] eqn:EC; try contradiction.
    destruct (mask_cell _ _ _ _ _ E EC) as [-> _]. destruct (hset (mask i own H) p (Some v)) as [h'|] eqn:EH; try contradiction.
    destruct (mask_hset _ _ _ _ _ _ E (HP _ Pb) EH) as (H1 & -> & EM & HO). split; [eauto|]. intros m' H' f' [= <- <- <-].
    eapply KEEP; eauto. rewrite EM. auto.
  - destruct HW as [Pb HW]. unfold destroy in *. cbn [w_heap w_fuse] in *. destruct (hcell (mask i own H) p) as [[c|]|] eqn:EC; try contradiction.
    destruct (mask_cell _ _ _ _ _ E EC) as [-> _]. destruct (hset (mask i own H) p None) as [h'|] eqn:EH; try contradiction.
    destruct (mask_hset _ _ _ _ _ _ E (HP _ Pb) EH) as (H1 & -> & EM & HO). cbn [w_heap] in *. split; [eauto|]. intros m' H' f' [= <- <- <-].
    eapply KEEP; eauto. rewrite EM. auto.
Qed.
End Inter.
