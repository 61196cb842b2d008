(** ParInter.v -- a thread does what its program says although others take steps in
    between and write other elements of the same arrays *)

From Coq Require Import ZArith List Bool Lia.
From Verif Require Import Base StorageOrder Ranges Layout Access Objects Memory Ops MultiArray History Threads Concur.
From Verif Require Import Spec ReachSpec MemSpec OwnSpec HistorySpec CostSpec ConcurSpec ParSpec.
From Verif Require Import Facts LayoutProofs AccessProofs ViewProofs ReachProofs MemoryProofs HistoryProofs ConcurProofs FootProofs InterProofs ParProofs ThmHistory ThmExact.
Import ListNotations.
Local Open Scope Z_scope.

Section Weakest.
Context {T : Type}.
Variables R W : ptr -> Prop.

(** m, run on heap h while other threads may obtain blocks, reads and writes only in
    blocks of P, elements in R (reading) and elements in W (writing), never gets stuck, and ends with Q or (by an exception) with QT *)
Fixpoint wq {A} (P : nat -> Prop) (m : job T A) (h : heap T) (f : option nat)
  (Q : (nat -> Prop) -> heap T -> option nat -> A -> Prop) (QT : (nat -> Prop) -> heap T -> option nat -> Prop) : Prop :=
  match m with
  | JRet a => Q P h f a
  | JThrow => QT P h f
  | JAbort | JUndef | JFuel => False
  | JArm f' k => wq P k h f' Q QT
  | JTick g b => match f with
                 | None => wq P g h None Q QT
                 | Some O => wq P b h None Q QT
                 | Some (S i) => wq P g h (Some i) Q QT
                 end
  | JRead p k => rd R P p /\ match hread h p with Ok v => wq P (k v) h f Q QT | _ => False end
  | JWrite p v k => wr W P p /\ match hwrite h p v with Ok h' => wq P k h' f Q QT | _ => False end
  | JAlloc aid n k => forall j, wq (fun b => P b \/ b = (length h + j)%nat) (k (Ptr (length h + j) 0))
                                   ((h ++ pad j) ++ [Some (Block aid (repeat None n))]) f Q QT
  | JFree aid p n k => P (p_blk p) /\ match deallocate aid p n (World h f) with Done _ w => wq P k (w_heap w) f Q QT | _ => False end
  | JMake p v k => P (p_blk p) /\ match hcell h p with
                                  | Some None => match hset h p (Some v) with Some h' => wq P k h' f Q QT | None => False end
                                  | _ => False
                                  end
  | JKill p k => P (p_blk p) /\ match destroy p (World h f) with Done _ w => wq P k (w_heap w) f Q QT | _ => False end
  end.

Ltac jind m := induction m as [a| | | | |f0 m IH|g IHg b IHb|p k IH|p v m IH|aid n k IH|aid p n m IH|p v m IH|p m IH].

Lemma wq_mono {A} (m : job T A) (Q Q' : (nat -> Prop) -> heap T -> option nat -> A -> Prop) (QT QT' : (nat -> Prop) -> heap T -> option nat -> Prop) :
  (forall P h f a, Q P h f a -> Q' P h f a) -> (forall P h f, QT P h f -> QT' P h f) ->
  forall P h f, wq P m h f Q QT -> wq P m h f Q' QT'.
Proof.
  intros H1 H2. jind m; intros P h f; cbn [wq]; auto.
  - destruct f as [[|i]|]; auto.
  - intros [A1 A2]. split; auto. destruct (hread h p); auto.
  - intros [A1 A2]. split; auto. destruct (hwrite h p v); auto.
  - intros [A1 A2]. split; auto. destruct (deallocate _ _ _ _); auto.
  - intros [A1 A2]. split; auto. destruct (hcell h p) as [[|]|]; auto. destruct (hset _ _ _); auto.
  - intros [A1 A2]. split; auto. destruct (destroy _ _); auto.
Qed.
Lemma wq_jtry {A B} (m : job T A) (ok : A -> job T B) thrown Q QT : forall P h f,
  wq P m h f (fun P' h' f' a => wq P' (ok a) h' f' Q QT) (fun P' h' f' => wq P' thrown h' f' Q QT) ->
  wq P (jtry m ok thrown) h f Q QT.
Proof.
  jind m; intros P h f; cbn [wq jtry]; auto.
  - destruct f as [[|i]|]; auto.
  - intros [A1 A2]. split; auto. destruct (hread h p); auto.
  - intros [A1 A2]. split; auto. destruct (hwrite h p v); auto.
  - intros [A1 A2]. split; auto. destruct (deallocate _ _ _ _); auto.
  - intros [A1 A2]. split; auto. destruct (hcell h p) as [[|]|]; auto. destruct (hset _ _ _); auto.
  - intros [A1 A2]. split; auto. destruct (destroy _ _); auto.
Qed.
(** another thread obtains a block *)
Lemma wq_pad {A} (m : job T A) (Q : (nat -> Prop) -> heap T -> option nat -> A -> Prop) (QT : (nat -> Prop) -> heap T -> option nat -> Prop) :
  (forall P h f a, Q P h f a -> Q P (h ++ [None]) f a) -> (forall P h f, QT P h f -> QT P (h ++ [None]) f) ->
  forall P h f, wq P m h f Q QT -> wq P m (h ++ [None]) f Q QT.
Proof.
  intros H1 H2. change [None] with (@pad T 1). jind m; intros P h f; cbn [wq]; auto; try tauto.
  - destruct f as [[|i]|]; auto.
  - intros [A1 A2]. split; auto. rewrite pad_read. destruct (hread h p); auto.
  - intros [A1 A2]. split; auto. rewrite pad_write. destruct (hwrite h p v); auto.
  - intros HA j. specialize (HA (S j)). rewrite app_length. cbn [pad repeat length].
    replace (length h + 1 + j)%nat with (length h + S j)%nat by lia.
    replace ((h ++ [None]) ++ pad j) with (h ++ pad (S j)) by (rewrite <- app_assoc; reflexivity). exact HA.
  - intros [A1 A2]. split; auto. rewrite pad_free. destruct (deallocate _ _ _ _); auto. cbn [w_heap]. auto.
  - intros [A1 A2]. split; auto. rewrite pad_cell, pad_set. destruct (hcell h p) as [[|]|]; auto. destruct (hset _ _ _); cbn [option_map]; auto.
  - intros [A1 A2]. split; auto. rewrite pad_destroy. destruct (destroy _ _); auto. cbn [w_heap]. auto.
Qed.

Lemma fq_run {A} (m : job T A) (Y : heap T -> option nat -> A -> Prop) YT Q0 Q0T : forall P h f,
  fq R W false P m Q0 Q0T -> yields (run_job m (World h f)) Y YT ->
  wq P m h f (fun P' h' f' a => Q0 P' a /\ Y h' f' a) (fun P' h' f' => Q0T P' /\ YT h' f').
Proof.
  jind m; intros P h f; cbn [fq wq run_job]; unfold bind, ret; cbn [yields w_heap w_fuse]; auto; try tauto.
  - destruct f as [[|i]|]; intros [A1 A2]; auto.
  - intros [A1 HA] HY. split; auto. unfold load, lift in HY. cbn [w_heap] in HY. destruct (hread h p); auto.
  - intros [A1 A2] HY. split; auto. unfold store in HY. cbn [w_heap w_fuse] in HY. destruct (hwrite h p v); auto.
  - intros [HF _]. discriminate HF.
  - intros [A1 A2] HY. split; auto. destruct (deallocate aid p n (World h f)) as [u [h' f']|?|?| |] eqn:E; try contradiction; cbn [w_heap].
    + apply IH; auto. unfold deallocate in E. cbn [w_heap w_fuse] in E. destruct (hblock h (p_blk p)); [|discriminate E].
      destruct (_ && _); [|discriminate E]. injection E as _ _ <-. exact HY.
    + unfold deallocate in E. destruct (hblock _ _); [destruct (_ && _)|]; discriminate E.
  - intros [A1 A2] HY. split; auto. destruct (hcell h p) as [[|]|]; auto. destruct (hset h p (Some v)); auto.
  - intros [A1 A2] HY. split; auto. destruct (destroy p (World h f)) as [u [h' f']|?|?| |] eqn:E; try contradiction; cbn [w_heap].
    + apply IH; auto. unfold destroy in E. cbn [w_heap w_fuse] in E. destruct (hcell h p) as [[|]|]; try discriminate E.
      destruct (hset h p None); [|discriminate E]. injection E as _ _ <-. exact HY.
    + unfold destroy in E. destruct (hcell _ _) as [[|]|]; try discriminate E. destruct (hset _ _ _); discriminate E.
Qed.
Lemma fq_runs {A} (m : job T A) (Y : heap T -> option nat -> A -> Prop) YT Q0 Q0T : forall P h f,
  fq R W true P m Q0 Q0T -> (forall j, yields (run_job m (World (h ++ pad j) f)) Y YT) ->
  wq P m h f (fun P' h' f' a => Q0 P' a /\ Y h' f' a) (fun P' h' f' => Q0T P' /\ YT h' f').
Proof.
  jind m; intros P h f; cbn [fq wq run_job]; unfold bind, ret; cbn [yields w_heap w_fuse]; auto; try tauto.
  - intros HQ HY. specialize (HY O). cbn in HY. rewrite app_nil_r in HY. auto.
  - intros HQ HY. specialize (HY O). cbn in HY. rewrite app_nil_r in HY. auto.
  - intros _ HY. exact (HY O).
  - intros _ HY. exact (HY O).
  - intros _ HY. exact (HY O).
  - destruct f as [[|i]|]; intros [A1 A2]; auto.
  - intros [A1 HA] HY. split; auto. assert (HC : forall j, yields (match hread h p with Ok v => run_job (k v) (World (h ++ pad j) f) | _ => Undef end) Y YT).
    { intros j. specialize (HY j). unfold load, lift in HY. cbn [w_heap] in HY. rewrite pad_read in HY. destruct (hread h p); auto. }
    destruct (hread h p); [apply IH; auto|apply (HC O)|apply (HC O)].
  - intros [A1 A2] HY. split; auto.
    assert (HC : forall j, yields (match hwrite h p v with Ok h' => run_job m (World (h' ++ pad j) f) | _ => Undef end) Y YT).
    { intros j. specialize (HY j). unfold store in HY. cbn [w_heap w_fuse] in HY. rewrite pad_write in HY. destruct (hwrite h p v); auto. }
    destruct (hwrite h p v); [apply IH; auto|apply (HC O)|apply (HC O)].
  - intros [_ HF] HY j. specialize (HY j). rewrite app_length in HY. unfold pad in HY at 1. rewrite repeat_length in HY.
    apply fq_run; [exact (HF (Ptr (length h + j) 0))|exact HY].
  - intros [A1 A2] HY. split; auto.
    assert (HC : forall j, yields (match deallocate aid p n (World h f) with Done _ w => run_job m (World (w_heap w ++ pad j) f) | _ => Undef end) Y YT).
    { intros j. specialize (HY j). rewrite pad_free in HY. destruct (deallocate aid p n (World h f)) eqn:E; auto.
      unfold deallocate in E. destruct (hblock _ _); [destruct (_ && _)|]; discriminate E. }
    destruct (deallocate aid p n (World h f)); [apply IH; auto|apply (HC O)|apply (HC O)|apply (HC O)|apply (HC O)].
  - intros [A1 A2] HY. split; auto.
    assert (HC : forall j, yields (match hcell h p with Some None => match hset h p (Some v) with Some h' => run_job m (World (h' ++ pad j) f) | None => Undef end | _ => Undef end) Y YT).
    { intros j. specialize (HY j). rewrite pad_cell, pad_set in HY. destruct (hcell h p) as [[|]|]; auto. destruct (hset h p (Some v)); auto. }
    destruct (hcell h p) as [[|]|]; [apply (HC O)| |apply (HC O)]. destruct (hset h p (Some v)); [apply IH; auto|apply (HC O)].
  - intros [A1 A2] HY. split; auto.
    assert (HC : forall j, yields (match destroy p (World h f) with Done _ w => run_job m (World (w_heap w ++ pad j) f) | _ => Undef end) Y YT).
    { intros j. specialize (HY j). rewrite pad_destroy in HY. destruct (destroy p (World h f)) eqn:E; auto.
      unfold destroy in E. destruct (hcell _ _) as [[|]|]; try discriminate E. destruct (hset _ _ _); discriminate E. }
    destruct (destroy p (World h f)); [apply IH; auto|apply (HC O)|apply (HC O)|apply (HC O)|apply (HC O)].
Qed.

End Weakest.

Section Thread.
Context {T : Type}.
Variable dflt : T.
Variable eqT ltT : T -> T -> bool.
Variable lot : nat -> nat -> option nat.
Variable en0 : env.
Variable lim : nat.
Let k := length (e_vars en0).
Hypothesis Hlim : forall x m, nth_error (e_vars en0) x = Some (Some m) -> (ma_block m < lim)%nat.
Hypothesis Hdis : forall x y m m', nth_error (e_vars en0) x = Some (Some m) -> nth_error (e_vars en0) y = Some (Some m') -> x <> y ->
  ma_block m <> ma_block m'.
Variable i : nat.

Lemma thread_wq chk st p os st' : lot_run dflt eqT ltT lot i k st p os st' -> forall en h f P, related st en h -> holding en0 P en ->
  wq (may_read lot en0 lim i) (may_write lot en0 i) P (j_thread dflt eqT ltT chk en p) h f
     (fun P' h' _ r => snd r = os /\ related st' (fst r) h' /\ holding en0 P' (fst r)) (fun _ _ _ => False).
Proof.
  induction 1 as [st|st c f rest o os n st1 st2 HS HC Hf HMo HP IH|st c j rest o os n st1 st1' st2 HS HC Hj HMo HI HP IH];
    intros en h f0 P HR HM; cbn [j_thread wq].
  - auto.
  - apply wq_jtry. eapply wq_mono; [| |eapply (fq_runs _ _ _ (fun h' _ r => related st1 (fst r) h' /\ snd r = o) (fun _ _ => False) (fun P' r => holding en0 P' (fst r)) (fun P' => holding en0 P' en))].
    + cbv beta. intros P' h' f' [en' o'] (HM' & HR' & Eo). cbn [snd fst] in HM', HR', Eo. subst o'. unfold jbind. apply wq_jtry. cbn [fst snd].
      eapply wq_mono; [| |eapply IH; [exact HR'|exact HM']].
      * cbv beta. intros P2 h2 f2 [en2 os2] (E2 & HR2 & HM2). cbn [fst snd] in *. subst os2. cbn [wq fst snd]. auto.
      * intros ? ? ? [].
    + intros ? ? ? [_ []].
    + eapply (fq_exec dflt eqT ltT lot en0 lim Hlim Hdis i); eauto.
    + intros i0. rewrite so_exec. destruct (exec_done dflt eqT ltT st en (h ++ pad i0) c o st1 chk n f) as (en' & h' & f' & E & HR' & _); auto.
      { apply related_pad. auto. }
      rewrite E. cbn [yields w_heap fst snd]. auto.
  - apply wq_jtry. eapply wq_mono; [| |eapply (fq_runs _ _ _ (fun _ _ _ => False) (fun h' _ => related st1 en h') (fun P' r => holding en0 P' (fst r)) (fun P' => holding en0 P' en))].
    + intros ? ? ? ? [_ []].
    + cbv beta. intros P' h' f' (HM' & HR'). unfold jbind. apply wq_jtry.
      eapply wq_mono; [| |eapply IH; [exact HR'|exact HM']].
      * cbv beta. intros P2 h2 f2 [en2 os2] (E2 & HR2 & HM2). cbn [fst snd] in *. subst os2. cbn [wq fst snd]. auto.
      * intros ? ? ? [].
    + eapply (fq_exec dflt eqT ltT lot en0 lim Hlim Hdis i); eauto.
    + intros i0. rewrite so_exec. destruct (exec_thrown dflt eqT ltT st en (h ++ pad i0) c o st1' chk n j st1) as (h' & E & HR' & _); auto.
      { apply related_pad. auto. }
      rewrite E. cbn [yields w_heap]. auto.
Qed.

End Thread.
