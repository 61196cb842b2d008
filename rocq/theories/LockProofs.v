(** LockProofs.v -- handing blocks from thread to thread with the mutex *)

From Coq Require Import ZArith List Bool Lia.
From Verif Require Import Base StorageOrder Ranges Layout Access Objects Memory Ops MultiArray History Threads Concur Lock.
From Verif Require Import Spec ReachSpec MemSpec OwnSpec HistorySpec CostSpec ConcurSpec LockSpec.
From Verif Require Import Facts LayoutProofs AccessProofs ViewProofs ReachProofs MemoryProofs HistoryProofs ConcurProofs FootProofs InterProofs ThmAddressing ThmHistory ThmCosts ThmExact.
Import ListNotations.
Local Open Scope Z_scope.

(** * Which slots hold no array *)
Section Slots.
Context {T : Type}.
Variable dflt : T.
Variable eqT ltT : T -> T -> bool.

(** slots that are empty stay empty, and no slot goes away *)
Definition slots_stay (st st' : @state T) : Prop :=
  (length (s_arrays st) <= length (s_arrays st'))%nat /\
  forall x, nth_error (s_arrays st) x = Some None -> nth_error (s_arrays st') x = Some None.
Lemma stay_refl st : slots_stay st st. Proof. split; auto. Qed.
Lemma stay_trans a b c : slots_stay a b -> slots_stay b c -> slots_stay a c.
Proof. intros [A1 A2] [B1 B2]. split; [lia|auto]. Qed.
Lemma stay_add st a : slots_stay st (add_array st a).
Proof.
  unfold add_array. split; cbn [s_arrays]; [rewrite app_length; lia|]. intros x Hx. rewrite nth_error_app1; auto.
  apply nth_error_Some. congruence.
Qed.
Lemma stay_set st x a b : array_is st x a -> slots_stay st (set_array st x b).
Proof.
  unfold array_is, set_array. intros Ha. split; cbn [s_arrays]; [rewrite length_set_nth; lia|]. intros y Hy.
  rewrite nth_error_set_nth_ne; auto. congruence.
Qed.
Lemma stay_put st p i v st' : put st p i v st' -> slots_stay st st'.
Proof. intros (_ & a & Ha & ->). eapply stay_set; eauto. Qed.
Lemma stay_copies d s ks st st' : copies d s ks st st' -> slots_stay st st'.
Proof. induction 1; [apply stay_refl|]. eapply stay_trans; [eapply stay_put; eauto|auto]. Qed.
Lemma stay_mapped p f ks st st' : mapped p f ks st st' -> slots_stay st st'.
Proof. induction 1; [apply stay_refl|]. eapply stay_trans; [eapply stay_put; eauto|auto]. Qed.
Lemma stay_orphan st st' x : slots_stay st st' -> slots_stay st (orphan st' x).
Proof. auto. Qed.
Lemma stay_remove st x a : array_is st x a -> slots_stay st (remove_array st x).
Proof.
  unfold array_is, remove_array. intros Ha. split; cbn [s_arrays]; [rewrite length_set_nth; lia|]. intros y Hy.
  rewrite nth_error_set_nth_ne; auto. congruence.
Qed.
Lemma stay_step st c o st' : step dflt eqT ltT st c o st' -> slots_stay st st'.
Proof.
  intros H. inversion H; subst; try apply stay_refl; try apply stay_add; try (eapply stay_set; eauto; fail);
    try (eapply stay_put; eauto; fail);
    try (match goal with H : copied _ _ _ _ |- _ => destruct H as [_ H]; eapply stay_copies; eauto end; fail);
    try (eapply stay_mapped; eauto; fail);
    try (apply stay_orphan; first [eapply stay_remove; eassumption|eapply stay_set; eassumption]);
    unfold add_named, set_named; split; auto.
Qed.
Lemma stay_interrupted st k c st' : interrupted st k c st' -> slots_stay st st'.
Proof.
  intros H. inversion H; subst; try apply stay_refl; try (eapply stay_set; eauto; fail); try (eapply stay_copies; eauto; fail); eapply stay_mapped; eauto.
Qed.
Lemma stay_run k st p os st' : private_run dflt eqT ltT k st p os st' -> slots_stay st st'.
Proof.
  induction 1 as [st|st c f rest o os n st1 st2 HS HC Hf HMo HP IH|st c j rest o os n st1 st1' st2 HS HC Hj HMo HI HP IH]; [apply stay_refl| |].
  - eapply stay_trans; [eapply stay_step; eauto|auto].
  - eapply stay_trans; [eapply stay_interrupted; eauto|auto].
Qed.
End Slots.

(** * Related states, seen through other heaps and with slots taken away or filled *)
Section Slots2.
Context {T : Type}.

Lemma related_on (st : @state T) en h h' : related st en h ->
  (forall x m, nth_error (e_vars en) x = Some (Some m) -> nth_error h' (ma_block m) = nth_error h (ma_block m)) -> related st en h'.
Proof.
  intros [[R1 R2] HH] HE. split; [|auto]. split; [|auto]. intros x. specialize (R1 x).
  destruct (nth_error (s_arrays st) x) as [[a|]|], (nth_error (e_vars en) x) as [[m|]|] eqn:Em; auto.
  destruct R1 as [(O1 & O2 & O3 & O4 & O5 & O6) R1]. split; [|auto]. repeat (split; [assumption|]). rewrite (HE x m Em). exact O6.
Qed.

Definition hidden (g : nat) (st : @state T) : Prop := forall x, (x < g)%nat -> nth_error (s_arrays st) x = Some None.
Lemma hidden_stay g st st' : hidden g st -> slots_stay st st' -> hidden g st'.
Proof. intros H [_ HS] x Hx. auto. Qed.
Lemma hidden_left g st : hidden g (left_behind g st).
Proof. intros x Hx. unfold left_behind. cbn [s_arrays]. rewrite nth_error_app1 by (rewrite repeat_length; auto). apply nth_error_repeat. auto. Qed.
Lemma hidden_length g st : hidden g st -> (g <= length (s_arrays st))%nat.
Proof.
  intros H. destruct g as [|g]; [lia|]. assert (HG : nth_error (s_arrays st) g = Some None) by (apply H; lia).
  assert (g < length (s_arrays st))%nat by (apply nth_error_Some; congruence). lia.
Qed.

Lemma nth_skipn {A} g (l : list A) x : nth_error (skipn g l) x = nth_error l (g + x).
Proof. revert l. induction g as [|g IH]; intros [|a l]; cbn [skipn Nat.add nth_error]; auto. destruct x; auto. Qed.
Lemma nth_skip {A} (l1 l : list A) x : nth_error (l1 ++ skipn (length l1) l) x =
  if (x <? length l1)%nat then nth_error l1 x else nth_error l x.
Proof.
  destruct (Nat.ltb_spec x (length l1)); [apply nth_error_app1; auto|]. rewrite nth_error_app2 by auto.
  rewrite nth_skipn. f_equal. lia.
Qed.
Lemma nth_hide {A} g (l : list (option A)) x : nth_error (repeat None g ++ skipn g l) x =
  if (x <? g)%nat then Some None else nth_error l x.
Proof.
  pose proof (nth_skip (repeat (@None A) g) l x) as H. rewrite repeat_length in H. rewrite H.
  destruct (Nat.ltb_spec x g); auto. apply nth_error_repeat. auto.
Qed.
Lemma nth_first {A} g (l : list A) x : nth_error (firstn g l) x = if (x <? g)%nat then nth_error l x else None.
Proof.
  destruct (Nat.ltb_spec x g).
  - revert g H l. induction x; intros [|g] H [|y l]; try lia; cbn [firstn nth_error]; auto. apply IHx. lia.
  - apply nth_error_None. pose proof (firstn_le_length g l). lia.
Qed.

(** taking the mutex *)
Lemma related_enter (st : @state T) en sh shared h : related st en h -> related (St sh []) (Env shared []) h ->
  hidden (length sh) st -> length shared = length sh ->
  (forall x y m m', nth_error shared x = Some (Some m) -> nth_error (e_vars en) y = Some (Some m') -> ma_block m <> ma_block m') ->
  related (entered sh st) (with_shared shared en) h.
Proof.
  intros [[R1 R2] [HL HH]] [[S1 S2] _] Hid EL HD. unfold entered, with_shared. split; [split|split].
  - intros x. cbn [s_arrays e_vars]. rewrite !nth_skip, EL. destruct (Nat.ltb_spec x (length sh)); [apply S1|apply R1].
  - intros x y m1 m2. cbn [e_vars]. rewrite !nth_skip. destruct (Nat.ltb_spec x (length shared)), (Nat.ltb_spec y (length shared)); intros E1 E2 N.
    + eapply S2; eauto.
    + eapply HD; eauto.
    + intros EB. symmetry in EB. revert EB. eapply HD; eauto.
    + eapply R2; eauto.
  - exact HL.
  - cbn [e_handles e_vars]. intros k n Hn. destruct (HH k n Hn) as (d & Ed & Hd). exists d. split; [exact Ed|].
    assert (K : forall x m, nth_error (e_vars en) x = Some (Some m) -> nth_error (shared ++ skipn (length shared) (e_vars en)) x = Some (Some m)).
    { intros x m Hx. rewrite nth_skip. destruct (Nat.ltb_spec x (length shared)); [|auto]. exfalso.
      specialize (R1 x). rewrite (Hid x) in R1 by lia. rewrite Hx in R1. exact R1. }
    destruct d as [v|c], n as [p|x off bases shape so]; cbn [hrel] in *; try contradiction.
    + destruct Hd as (c & Hv & m & Em & Hs). exists c. split; [auto|]. exists m. auto.
    + destruct Hd as (m & Em & Hd). exists m. auto.
Qed.
(** giving it back *)
Lemma related_left g (st : @state T) en h : related st en h ->
  related (left_behind g st) (without_shared g en) h /\ related (St (firstn g (s_arrays st)) []) (Env (firstn g (e_vars en)) []) h.
Proof.
  intros [[R1 R2] [HL HH]]. split.
  - unfold left_behind, without_shared. split; [split|split].
    + intros x. cbn [s_arrays e_vars]. rewrite !nth_hide. destruct (x <? g)%nat; [exact I|apply R1].
    + intros x y m1 m2. cbn [e_vars]. rewrite !nth_hide. destruct (x <? g)%nat; [discriminate|]. destruct (y <? g)%nat; [discriminate|]. apply R2.
    + cbn [s_named e_handles]. rewrite map_length. exact HL.
    + intros k n Hn. unfold named_is in Hn. cbn [s_named] in Hn. rewrite nth_error_map in Hn.
      destruct (nth_error (s_named st) k) as [[n'|]|] eqn:En; cbn [option_map] in Hn; try discriminate.
      destruct (Nat.ltb_spec (owner n') g) as [|Hg]; [discriminate|]. injection Hn as <-.
      destruct (HH k n' En) as (d & Ed & Hd). exists d. split; [exact Ed|].
      assert (K : nth_error (repeat None g ++ skipn g (e_vars en)) (owner n') = nth_error (e_vars en) (owner n')).
      { rewrite nth_hide. destruct (Nat.ltb_spec (owner n') g); [lia|auto]. }
      cbn [e_vars]. destruct d as [v|c], n' as [p|x off bases shape so]; cbn [hrel] in *; try contradiction.
      * destruct Hd as (c & Hv & m & Em & Hs). exists c. split; [auto|]. exists m. unfold owner in K. cbn [place_of] in K. rewrite K. auto.
      * destruct Hd as (m & Em & Hd). exists m. unfold owner in K. cbn [place_of arranged_from pl_var] in K. rewrite K. auto.
  - split; [split|split].
    + intros x. cbn [s_arrays e_vars]. rewrite !nth_first. destruct (x <? g)%nat; [apply R1|exact I].
    + intros x y m1 m2. cbn [e_vars]. rewrite !nth_first. destruct (x <? g)%nat; [|discriminate]. destruct (y <? g)%nat; [|discriminate]. apply R2.
    + reflexivity.
    + intros k n Hn. unfold named_is in Hn. cbn [s_named] in Hn. destruct k; discriminate Hn.
Qed.

(** * Tags change hands *)
Fixpoint retag (s : nat) (f : nat -> option nat -> option nat) (own : list (option nat)) : list (option nat) :=
  match own with [] => [] | t :: own' => f s t :: retag (S s) f own' end.
Lemma length_retag f own : forall s, length (retag s f own) = length own.
Proof. induction own; intros s; cbn; auto. Qed.
Lemma nth_retag f own : forall s b, nth_error (retag s f own) b = option_map (f (s + b)%nat) (nth_error own b).
Proof.
  induction own as [|t own IH]; intros s [|b]; cbn [retag nth_error]; auto.
  - now rewrite Nat.add_0_r.
  - rewrite IH. now replace (S s + b)%nat with (s + S b)%nat by lia.
Qed.
Lemma mask_retag j f own (h : heap T) : length own = length h ->
  (forall b t, nth_error own b = Some t -> sees j (f b t) = sees j t) -> mask j (retag 0 f own) h = mask j own h.
Proof.
  intros E H. apply LayoutProofs.nth_error_ext. intros b. rewrite !nth_mask by (rewrite ?length_retag; auto). rewrite nth_retag. cbn [Nat.add].
  destruct (nth_error own b) as [t|] eqn:Et; cbn [option_map]; [|auto]. rewrite (H b t Et). auto.
Qed.
Definition tagged (own : list (option nat)) (i : nat) (b : nat) : Prop := nth_error own b = Some (Some i).
(** a block that i sees under one tagging and j under another *)
Lemma mask_block_same i j own own' (h : heap T) b : length own = length h -> length own' = length h ->
  tagged own i b -> tagged own' j b -> nth_error (mask j own' h) b = nth_error (mask i own h) b.
Proof.
  unfold tagged. intros E E' H H'. rewrite !nth_mask by auto. rewrite H, H'. cbn [sees]. rewrite !Nat.eqb_refl. auto.
Qed.

Definition taken (i : nat) (_ : nat) (t : option nat) : option nat := match t with Some O => Some (S i) | _ => t end.
Definition block_of (shared : list (option multi_array)) (b : nat) : bool :=
  existsb (fun o => match o with Some m => Nat.eqb (ma_block m) b | None => false end) shared.
Definition given_back (shared : list (option multi_array)) (b : nat) (t : option nat) : option nat := if block_of shared b then Some O else t.
Lemma block_of_in shared b : block_of shared b = true <-> exists x m, nth_error shared x = Some (Some m) /\ ma_block m = b.
Proof.
  unfold block_of. rewrite existsb_exists. split.
  - intros ([m|] & Hi & Hb); [|discriminate]. apply Nat.eqb_eq in Hb. apply In_nth_error in Hi. destruct Hi as [x Hx]. eauto.
  - intros (x & m & Hx & Hb). exists (Some m). split; [eapply nth_error_In; eauto|]. now apply Nat.eqb_eq.
Qed.
End Slots2.

(** * The lock *)
Definition reads (lk : lock) (i : nat) : bool := match lk with LShared r => existsb (Nat.eqb i) r | _ => false end.
Lemma reads_has lk i : reads lk i = true -> has_lock lk i.
Proof. destruct lk; cbn; try discriminate. rewrite existsb_exists. intros (x & Hx & E). apply Nat.eqb_eq in E. now subst. Qed.
Lemma share_spec i lk lk' : share i lk = Some lk' -> (forall j, lk <> LBy j) /\ (forall j, lk' <> LBy j) /\
  (forall j, reads lk' j = Nat.eqb j i || reads lk j) /\ lk' <> LShared [].
Proof.
  destruct lk as [|x|r]; cbn [share]; intros [= <-]; (split; [discriminate|split; [discriminate|split; [|discriminate]]]); intros j; cbn; auto.
Qed.
Lemma share_none i lk : share i lk = None -> exists j, lk = LBy j.
Proof. destruct lk; cbn; try discriminate. eauto. Qed.
Lemma reads_remove i j r : existsb (Nat.eqb j) (remove Nat.eq_dec i r) = negb (Nat.eqb j i) && existsb (Nat.eqb j) r.
Proof.
  induction r as [|x r IH]; cbn [remove existsb]; [now rewrite andb_false_r|].
  destruct (Nat.eq_dec i x) as [<-|N]; cbn [existsb]; rewrite IH; destruct (Nat.eqb_spec j i) as [->|]; cbn; auto.
  destruct (Nat.eqb_spec i x); [congruence|auto].
Qed.
Lemma unshare_spec i lk : reads lk i = true -> (forall j, unshare i lk <> LBy j) /\
  (forall j, reads (unshare i lk) j = negb (Nat.eqb j i) && reads lk j) /\ unshare i lk <> LShared [].
Proof.
  destruct lk as [|x|r]; cbn [reads]; try discriminate. intros _. cbn [unshare].
  pose proof (fun j => reads_remove i j r) as H. destruct (remove Nat.eq_dec i r) as [|y r'].
  - split; [discriminate|split; [|discriminate]]. intros j. cbn [reads]. rewrite <- H. reflexivity.
  - split; [discriminate|split; [|discriminate]]. intros j. cbn [reads]. apply H.
Qed.

(** what a thread that holds the lock shared sees in addition *)
Definition opened (_ : nat) (t : option nat) : option nat := match t with Some O => None | _ => t end.
Definition seen (own : list (option nat)) (lk : lock) (i : nat) : list (option nat) := if reads lk i then retag 0 opened own else own.
Lemma length_seen own lk i : length (seen own lk i) = length own.
Proof. unfold seen. destruct (reads lk i); [apply length_retag|auto]. Qed.
Lemma seen_tag own lk i j b : nth_error (seen own lk i) b = Some (Some (S j)) <-> nth_error own b = Some (Some (S j)).
Proof.
  unfold seen. destruct (reads lk i); [|tauto]. rewrite nth_retag. destruct (nth_error own b) as [[[|t]|]|]; cbn; split; intros H; try discriminate H; auto.
Qed.
Lemma retag_app f l1 l2 : forall s, retag s f (l1 ++ l2) = retag s f l1 ++ retag (s + length l1) f l2.
Proof.
  induction l1 as [|t l1 IH]; intros s; cbn [app retag length]; [now rewrite Nat.add_0_r|]. rewrite IH. now replace (S s + length l1)%nat with (s + S (length l1))%nat by lia.
Qed.
Lemma seen_app own lk i j : seen (own ++ [Some (S j)]) lk i = seen own lk i ++ [Some (S j)].
Proof. unfold seen. destruct (reads lk i); [rewrite retag_app|]; reflexivity. Qed.

(** * One step of a thread, whatever the others see *)
Section Step.
Context {T : Type}.
Lemma wp_step_any {A} (m : job T A) i own H f P Q QT : length own = length H -> wp P m (mask i own H) f Q QT ->
  (forall b, P b -> nth_error own b = Some (Some i)) ->
  match m with JRet _ | JThrow => True | _ => exists m' H' f', job_step m H f = Some (m', H', f') end /\
  forall m' H' f', job_step m H f = Some (m', H', f') ->
    (exists (P' : nat -> Prop), wp P' m' (mask i own H') f' Q QT /\ (forall b, P' b -> nth_error own b = Some (Some i)) /\
       length H' = length H /\ forall b, nth_error own b <> Some (Some i) -> nth_error H' b = nth_error H b) \/
    (exists (P' : nat -> Prop) x, wp P' m' (mask i (own ++ [Some i]) H') f' Q QT /\ (forall b, P' b -> nth_error (own ++ [Some i]) b = Some (Some i)) /\
       H' = H ++ [x]).
Proof.
  intros E HW HP.
  assert (KEEP : forall H', only_at i own H H' -> forall m' f', wp P m' (mask i own H') f' Q QT ->
    exists (P' : nat -> Prop), wp P' m' (mask i own H') f' Q QT /\ (forall b, P' b -> nth_error own b = Some (Some i)) /\
       length H' = length H /\ forall b, nth_error own b <> Some (Some i) -> nth_error H' b = nth_error H b).
  { intros H' (L & O & SH) m' f' W. exists P. auto. }
  assert (SAME : only_at i own H H) by (split; [auto|split; auto]).
  destruct m as [a| | | | |f0 m|g b|p k|p v m|aid n k|aid p n m|p v m|p m]; cbn [wp job_step] in *; try contradiction.
  - split; [auto|]. discriminate.
  - split; [auto|]. discriminate.
  - split; [eauto|]. intros m' H' f' [= <- <- <-]. left. eapply KEEP; eauto.
  - destruct f as [[|j]|]; (split; [eauto|]); intros m' H' f' [= <- <- <-]; left; eapply KEEP; eauto.
  - destruct (hread (mask i own H) p) as [v| |] eqn:ER; try contradiction. destruct (mask_read _ _ _ _ _ E ER) as [-> _].
    split; [eauto|]. intros m' H' f' [= <- <- <-]. left. eapply KEEP; eauto.
  - destruct HW as [Pb HW]. unfold hwrite in *. destruct (hcell (mask i own H) p) as [[c|]|] eqn:EC; try contradiction.
    destruct (mask_cell _ _ _ _ _ E EC) as [-> _]. destruct (hset (mask i own H) p (Some v)) as [h'|] eqn:EH; try contradiction.
    destruct (mask_hset _ _ _ _ _ _ E (HP _ Pb) EH) as (H1 & -> & EM & HO). split; [eauto|]. intros m' H' f' [= <- <- <-]. left.
    eapply KEEP; eauto. rewrite EM. auto.
  - split; [eauto|]. intros m' H' f' [= <- <- <-]. right. specialize (HW O). rewrite length_mask in HW by auto.
    exists (fun b => P b \/ b = (length H + 0)%nat), (Some (Block aid (repeat None n))).
    split; [rewrite mask_app by auto; cbn [sees]; rewrite Nat.eqb_refl; rewrite Nat.add_0_r in *; cbn [pad repeat] in HW; rewrite app_nil_r in HW; exact HW|].
    split; [|reflexivity].
    intros b [Hb|Hb]; [rewrite nth_error_app1; auto; apply nth_error_Some; rewrite HP by auto; discriminate|].
    subst b. rewrite nth_error_app2 by lia. replace (length H + 0 - length own)%nat with O by lia. reflexivity.
  - destruct HW as [Pb HW]. unfold deallocate in *. cbn [w_heap w_fuse] in *.
    destruct (hblock (mask i own H) (p_blk p)) as [c|] eqn:EB; try contradiction.
    destruct (mask_block _ _ _ _ _ E EB) as [-> _]. destruct (_ && _); try contradiction. cbn [w_heap] in *.
    split; [eauto|]. intros m' H' f' [= <- <- <-]. left. apply KEEP; [apply only_at_set; auto|]. rewrite mask_set_mine; auto.
  - destruct HW as [Pb HW]. destruct (hcell (mask i own H) p) as [[c|]|] eqn:EC; try contradiction.
    destruct (mask_cell _ _ _ _ _ E EC) as [-> _]. destruct (hset (mask i own H) p (Some v)) as [h'|] eqn:EH; try contradiction.
    destruct (mask_hset _ _ _ _ _ _ E (HP _ Pb) EH) as (H1 & -> & EM & HO). split; [eauto|]. intros m' H' f' [= <- <- <-]. left.
    eapply KEEP; eauto. rewrite EM. auto.
  - destruct HW as [Pb HW]. unfold destroy in *. cbn [w_heap w_fuse] in *. destruct (hcell (mask i own H) p) as [[c|]|] eqn:EC; try contradiction.
    destruct (mask_cell _ _ _ _ _ E EC) as [-> _]. destruct (hset (mask i own H) p None) as [h'|] eqn:EH; try contradiction.
    destruct (mask_hset _ _ _ _ _ _ E (HP _ Pb) EH) as (H1 & -> & EM & HO). cbn [w_heap] in *. split; [eauto|]. intros m' H' f' [= <- <- <-]. left.
    eapply KEEP; eauto. rewrite EM. auto.
Qed.
(** the others do not see it *)
Lemma mask_kept i j own (H H' : heap T) : i <> j -> length own = length H -> length H' = length H ->
  (forall b, nth_error own b <> Some (Some i) -> nth_error H' b = nth_error H b) -> mask j own H' = mask j own H.
Proof.
  intros N E L HH. apply LayoutProofs.nth_error_ext. intros b. rewrite !nth_mask by lia. destruct (nth_error own b) as [t|] eqn:Et; [|auto].
  destruct (sees j t) eqn:Es.
  - rewrite HH; [auto|]. rewrite Et. intros [= ->]. cbn [sees] in Es. apply Nat.eqb_eq in Es. auto.
  - destruct (nth_error H b) eqn:E1, (nth_error H' b) eqn:E2; auto.
    + apply nth_error_None in E2. assert (b < length H)%nat by (apply nth_error_Some; congruence). lia.
    + apply nth_error_None in E1. assert (b < length H')%nat by (apply nth_error_Some; congruence). lia.
Qed.
End Step.
