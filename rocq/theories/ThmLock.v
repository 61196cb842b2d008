(** ThmLock.v -- C69: threads that share arrays under a mutex or a reader/writer lock *)

From Coq Require Import ZArith List Bool Lia.
From Verif Require Import Base StorageOrder Ranges Layout Access Objects Memory Ops MultiArray History Threads Concur Fork Lock.
From Verif Require Import Spec ReachSpec MemSpec OwnSpec HistorySpec CostSpec ConcurSpec LockSpec.
From Verif Require Import Facts LayoutProofs AccessProofs ViewProofs ReachProofs MemoryProofs HistoryProofs ConcurProofs FootProofs InterProofs ThmAddressing ThmHistory ThmCosts ThmExact ThmConcur ThmFork LockProofs.
Import ListNotations.
Local Open Scope Z_scope.

Section Mutex.
Context {T : Type}.
Variable dflt : T.
Variable eqT ltT : T -> T -> bool.
Variable g : nat.
Variable a0 : list (option (@arr T)) * @turns T.
Hypothesis Hlegal : turns_legal dflt eqT ltT a0.

(** what the rest of a section comes to *)
Definition comes_to (k : nat) (os : list (option (@output T))) (st : @state T) (P : nat -> Prop) (h : heap T) (_ : option nat)
  (r : env * list (option (@output T))) : Prop := snd r = os /\ related st (fst r) h /\ mine P k (fst r).
Definition from (b : hold_mode) : nat := match b with HeldShared => g | _ => O end.

(** thread i, seen from inside and from outside *)
Definition party_ok (sh : list (option (@arr T))) (own : list (option nat)) (h : heap T) (lk : lock) (i : nat)
  (q : @party T) (r : @state T * list (@lsection T) * list (list (option (@output T)))) : Prop :=
  match r with
  | (st, rest, outs) => rest = pt_rest q /\ hidden g st /\
      match pt_doing q with
      | Resting en => outs = pt_outs q /\ related st en (mask (S i) own h) /\ mine (tagged own (S i)) 0 en /\ lk <> LBy i /\ reads lk i = false
      | Working b m f => exists (P : nat -> Prop) os st', outs = pt_outs q ++ [os] /\ (b = HeldAlone <-> lk = LBy i) /\
          (b = HeldShared <-> reads lk i = true) /\
          (forall x, P x -> tagged own (S i) x) /\ wp P m (mask (S i) (seen own lk i) h) f (comes_to (from b) os st') (fun _ _ _ => False) /\
          match b with
          | NotHeld => st = st'
          | HeldAlone => st = left_behind g st' /\ sh = firstn g (s_arrays st') /\ (g <= length (s_arrays st'))%nat
          | HeldShared => st = left_behind g st'
          end
      end
  end.
Definition inv (sh : list (option (@arr T))) (l : @turns T) (own : list (option nat)) (s : @scene T) : Prop :=
  take_turns dflt eqT ltT a0 (sh, l) /\ length sh = g /\ length (sc_shared s) = g /\ length own = length (sc_heap s) /\
  length l = length (sc_parties s) /\
  ((forall i, sc_lock s <> LBy i) -> related (St sh []) (Env (sc_shared s) []) (mask 0 own (sc_heap s)) /\ mine (tagged own 0) 0 (Env (sc_shared s) [])) /\
  ((forall i, has_lock (sc_lock s) i -> (i < length l)%nat) /\ sc_lock s <> LShared []) /\
  forall i q r, nth_error (sc_parties s) i = Some q -> nth_error l i = Some r -> party_ok sh own (sc_heap s) (sc_lock s) i q r.

Lemma comes_pad k os st : forall (P : nat -> Prop) h f r, comes_to k os st P h f r -> comes_to k os st P (h ++ [None]) f r.
Proof. intros P h f r (A1 & A2 & A3). split; [auto|]. split; [apply related_app; auto|auto]. Qed.
Lemma has_reads lk i : has_lock lk i -> lk = LBy i \/ reads lk i = true.
Proof.
  destruct lk; cbn; [tauto|intros ->; auto|]. intros H. right. apply existsb_exists. exists i. split; [auto|]. apply Nat.eqb_refl.
Qed.

(** thread i's record does not change when others' blocks or the lock change hands *)
Lemma party_other sh sh' own own' h h' lk lk' i q r : party_ok sh own h lk i q r ->
  (mask (S i) (seen own' lk' i) h' = mask (S i) (seen own lk i) h \/ mask (S i) (seen own' lk' i) h' = mask (S i) (seen own lk i) h ++ [None]) ->
  (forall b, tagged own (S i) b -> tagged own' (S i) b) ->
  (lk' = LBy i <-> lk = LBy i) -> reads lk' i = reads lk i -> (lk = LBy i -> sh' = sh) ->
  party_ok sh' own' h' lk' i q r.
Proof.
  destruct r as [[st rest] outs], q as [[en|b m f] qr qo]; cbn [party_ok pt_doing pt_rest pt_outs].
  - intros (E1 & E2 & E3 & HR & HM & HN & HD) HE HT HH ED _. split; [auto|]. split; [auto|]. split; [auto|].
    unfold seen in HE. rewrite ED, HD in HE. split; [|split; [|split]].
    + destruct HE as [-> | ->]; [auto|apply related_app; auto].
    + intros x m Hx Hm. apply HT. eapply HM; eauto.
    + tauto.
    + congruence.
  - intros (E1 & E2 & P & os & st' & E3 & HB & HD & HP & HW & HX) HE HT HH ED HS. split; [auto|]. split; [auto|]. exists P, os, st'.
    split; [auto|]. split; [tauto|]. split; [rewrite ED; auto|]. split; [auto|]. split.
    + destruct HE as [-> | ->]; [auto|]. apply wp_pad; auto using comes_pad.
    + destruct b; auto. rewrite HS by tauto. exact HX.
Qed.

Lemma nth_pair {A B} (l : list A) (l' : list B) i x : length l' = length l -> nth_error l i = Some x -> exists y, nth_error l' i = Some y.
Proof.
  intros E H. assert (i < length l)%nat by (apply nth_error_Some; congruence).
  destruct (nth_error l' i) eqn:En; eauto. apply nth_error_None in En. lia.
Qed.

Lemma section_goes chk k st en h p : related st en h -> private_legal dflt eqT ltT k st p -> forall P, mine P k en ->
  exists os st', private_run dflt eqT ltT k st p os st' /\ slots_stay st st' /\
    wp P (j_thread dflt eqT ltT chk en p) h None (comes_to k os st') (fun _ _ _ => False).
Proof.
  intros HR HL P HM. destruct (private_exists dflt eqT ltT k st en h p HR HL) as (os & st' & HP). exists os, st'.
  split; [auto|]. split; [eapply stay_run; eauto|]. exact (thread_wp dflt eqT ltT chk k st p os st' HP en h None P HR HM).
Qed.
Lemma mask_shared j own (h : heap T) b : length own = length h -> tagged own 0 b ->
  nth_error (mask (S j) (retag 0 opened own) h) b = nth_error (mask 0 own h) b.
Proof.
  unfold tagged. intros E H. rewrite !nth_mask by (rewrite ?length_retag; auto). rewrite nth_retag, H. reflexivity.
Qed.

Lemma inv_step chk i s s' sh l own : scene_step dflt eqT ltT chk i s s' -> inv sh l own s -> exists sh' l' own', inv sh' l' own' s'.
Proof.
  intros HS (HT & E1 & E2 & E3 & E4 & HF & (HI & HZ) & HP).
  destruct HS as [h shared lk ps i en p rest outs Hi|h shared ps i en p rest outs Hi|h shared lk lk' ps i en p rest outs Hi Hsh
                 |h shared lk ps i b m f rest outs m' h' f' Hi Hst
                 |h shared lk ps i en os f rest outs Hi|h shared lk ps i en os f rest outs Hi|h shared lk ps i en os f rest outs Hi];
    cbn [sc_heap sc_shared sc_lock sc_parties] in *; destruct (nth_pair ps l i _ E4 Hi) as [[[st rest'] outs'] Hl];
    pose proof (HP i _ _ Hi Hl) as HO; cbn [party_ok pt_doing pt_rest pt_outs] in HO; destruct HO as (-> & Hh & HO);
    assert (Li : (i < length l)%nat) by (apply nth_error_Some; congruence).
  - (* a section begins *)
    destruct HO as (-> & HR & HM & HN & HD). pose proof (Hlegal sh l i st _ _ _ HT Hl) as HL. cbn beta iota in HL.
    destruct (section_goes chk _ _ _ _ _ HR HL _ HM) as (os & st' & HV & HY & HW).
    exists sh, (set_nth i (st', rest, outs ++ [os]) l), own. unfold inv. cbn [sc_heap sc_shared sc_lock sc_parties].
    split; [eapply tt_turn; [exact HT|eapply tu_alone; eauto]|]. rewrite !length_set_nth. repeat (split; [assumption|]). split; [auto|].
    intros j q r Hq Hr. destruct (Nat.eq_dec j i) as [->|N].
    + rewrite nth_error_set_nth_eq in Hq by lia. rewrite nth_error_set_nth_eq in Hr by exact Li. injection Hq as <-. injection Hr as <-. cbn [party_ok pt_doing pt_rest pt_outs].
      split; [auto|]. split; [eapply hidden_stay; eauto|]. exists (tagged own (S i)), os, st'. split; [auto|]. split; [split; [discriminate|intros ->; tauto]|].
      split; [split; [discriminate|congruence]|]. split; [auto|]. split; [|auto]. unfold seen. rewrite HD. exact HW.
    + rewrite nth_error_set_nth_ne in Hq by auto. rewrite nth_error_set_nth_ne in Hr by auto. auto.
  - (* the lock is taken *)
    destruct HO as (-> & HR & HM & HN & _). destruct (HF ltac:(discriminate)) as [HRs HMs].
    pose proof (Hlegal sh l i st _ _ _ HT Hl) as HL. cbn beta iota in HL.
    set (own' := retag 0 (taken i) own).
    assert (L' : length own' = length h) by (unfold own'; rewrite length_retag; auto).
    assert (TI : forall b, tagged own (S i) b -> tagged own' (S i) b).
    { intros b Hb. unfold tagged, own'. rewrite nth_retag, Hb. reflexivity. }
    assert (T0 : forall b, tagged own 0 b -> tagged own' (S i) b).
    { intros b Hb. unfold tagged, own'. rewrite nth_retag, Hb. reflexivity. }
    assert (HR1 : related st en (mask (S i) own' h)).
    { eapply related_on; [exact HR|]. intros x m Hm. apply mask_block_same; auto; [|apply TI]; apply (HM x m); auto; lia. }
    assert (HR2 : related (St sh []) (Env shared []) (mask (S i) own' h)).
    { eapply related_on; [exact HRs|]. intros x m Hm. apply mask_block_same; auto; [|apply T0]; apply (HMs x m); auto; lia. }
    assert (HR3 : related (entered sh st) (with_shared shared en) (mask (S i) own' h)).
    { apply related_enter; auto; [rewrite E1; auto|congruence|]. intros x y m m' Hx Hy EB.
      assert (A1 : tagged own 0 (ma_block m)) by (apply (HMs x m); auto; lia).
      assert (A2 : tagged own (S i) (ma_block m')) by (apply (HM y m'); auto; lia). unfold tagged in A1, A2. rewrite EB in A1. congruence. }
    assert (HM3 : mine (tagged own' (S i)) 0 (with_shared shared en)).
    { intros x m Hx Hm. unfold with_shared in Hm. cbn [e_vars] in Hm. rewrite nth_skip in Hm. destruct (x <? length shared)%nat.
      - apply T0. eapply (HMs x); eauto.
      - apply TI. eapply (HM x); eauto. }
    destruct (section_goes chk _ _ _ _ _ HR3 HL _ HM3) as (os & st' & HV & [LS _] & HW).
    assert (LG : (g <= length (s_arrays st'))%nat).
    { unfold entered in LS. cbn [s_arrays] in LS. rewrite app_length in LS. lia. }
    exists (firstn g (s_arrays st')), (set_nth i (left_behind g st', rest, outs ++ [os]) l), own'. unfold inv. cbn [sc_heap sc_shared sc_lock sc_parties].
    split; [eapply tt_turn; [exact HT|]; rewrite <- E1; eapply tu_locked; eauto|]. split; [rewrite firstn_length; lia|].
    rewrite !length_set_nth. repeat (split; [assumption|]). split; [intros HC; exfalso; apply (HC i); auto|].
    split; [split; [intros j Hj; cbn in Hj; subst j; auto|discriminate]|].
    intros j q r Hq Hr. destruct (Nat.eq_dec j i) as [->|N].
    + rewrite nth_error_set_nth_eq in Hq by lia. rewrite nth_error_set_nth_eq in Hr by exact Li. injection Hq as <-. injection Hr as <-. cbn [party_ok pt_doing pt_rest pt_outs].
      split; [auto|]. split; [apply hidden_left|]. exists (tagged own' (S i)), os, st'. split; [auto|]. split; [tauto|].
      split; [split; discriminate|]. auto.
    + rewrite nth_error_set_nth_ne in Hq by auto. rewrite nth_error_set_nth_ne in Hr by auto. eapply party_other; [apply HP; eauto| | | |reflexivity|].
      * left. cbn [seen reads]. unfold seen. cbn [reads]. apply mask_retag; auto. intros b [[|t]|] _; cbn [taken sees]; auto. destruct (Nat.eqb_spec (S i) (S j)); [lia|]. reflexivity.
      * intros b Hb. unfold tagged, own'. rewrite nth_retag, Hb. reflexivity.
      * split; [intros [= ->]; tauto|discriminate].
      * discriminate.
  - (* the lock is taken shared *)
    destruct HO as (-> & HR & HM & HN & HD). destruct (share_spec _ _ _ Hsh) as (SN & SN' & SR & SZ). destruct (HF SN) as [HRs HMs].
    pose proof (Hlegal sh l i st _ _ _ HT Hl) as HL. cbn beta iota in HL.
    assert (EI : seen own lk' i = retag 0 opened own) by (unfold seen; rewrite SR, Nat.eqb_refl; reflexivity).
    assert (L' : length (seen own lk' i) = length h) by (rewrite length_seen; auto).
    assert (HR1 : related st en (mask (S i) (seen own lk' i) h)).
    { eapply related_on; [exact HR|]. intros x m Hm. apply mask_block_same; auto; [|apply seen_tag]; apply (HM x m); auto; lia. }
    assert (HR2 : related (St sh []) (Env shared []) (mask (S i) (seen own lk' i) h)).
    { eapply related_on; [exact HRs|]. intros x m Hm. rewrite EI. apply mask_shared; auto. apply (HMs x m); auto; lia. }
    assert (HR3 : related (entered sh st) (with_shared shared en) (mask (S i) (seen own lk' i) h)).
    { apply related_enter; auto; [rewrite E1; auto|congruence|]. intros x y m m' Hx Hy EB.
      assert (A1 : tagged own 0 (ma_block m)) by (apply (HMs x m); auto; lia).
      assert (A2 : tagged own (S i) (ma_block m')) by (apply (HM y m'); auto; lia). unfold tagged in A1, A2. rewrite EB in A1. congruence. }
    assert (HM3 : mine (tagged own (S i)) (length sh) (with_shared shared en)).
    { intros x m Hx Hm. unfold with_shared in Hm. cbn [e_vars] in Hm. rewrite nth_skip in Hm. destruct (Nat.ltb_spec x (length shared)); [lia|].
      eapply (HM x); eauto. lia. }
    destruct (section_goes chk _ _ _ _ _ HR3 HL _ HM3) as (os & st' & HV & _ & HW).
    exists sh, (set_nth i (left_behind g st', rest, outs ++ [os]) l), own. unfold inv. cbn [sc_heap sc_shared sc_lock sc_parties].
    split; [eapply tt_turn; [exact HT|]; rewrite <- E1; eapply tu_reading; eauto|].
    rewrite !length_set_nth. repeat (split; [assumption|]). split; [auto|].
    split; [split; [|exact SZ]|].
    { intros j Hj. apply has_reads in Hj. destruct Hj as [Hj|Hj]; [exfalso; eapply SN'; eauto|]. rewrite SR in Hj.
      destruct (Nat.eqb_spec j i) as [EJ|EJ]; [rewrite EJ; auto|]. apply HI. apply reads_has. exact Hj. }
    intros j q r Hq Hr. destruct (Nat.eq_dec j i) as [->|N].
    + rewrite nth_error_set_nth_eq in Hq by lia. rewrite nth_error_set_nth_eq in Hr by exact Li. injection Hq as <-. injection Hr as <-. cbn [party_ok pt_doing pt_rest pt_outs from].
      split; [auto|]. split; [apply hidden_left|]. exists (tagged own (S i)), os, st'. split; [auto|].
      split; [split; [discriminate|intros HC; exfalso; eapply SN'; eauto]|]. split; [rewrite SR, Nat.eqb_refl; tauto|].
      split; [auto|]. split; [rewrite <- E1 at 1; exact HW|auto].
    + rewrite nth_error_set_nth_ne in Hq by auto. rewrite nth_error_set_nth_ne in Hr by auto.
      assert (EJ : reads lk' j = reads lk j) by (rewrite SR; destruct (Nat.eqb_spec j i); [contradiction|auto]).
      eapply party_other; [apply HP; eauto| |auto| |exact EJ|auto].
      * left. unfold seen. rewrite EJ. reflexivity.
      * split; intros HC; exfalso; [eapply SN'|eapply SN]; eauto.
  - (* work *)
    destruct HO as (P & os & st' & -> & HB & HD & HPt & HW & HX).
    destruct (wp_step_any m (S i) (seen own lk i) h f P _ _ ltac:(rewrite length_seen; auto) HW) as [_ HN].
    { intros x Hx. apply seen_tag. apply HPt. exact Hx. }
    destruct (HN m' h' f' Hst) as [(P' & HW' & HP' & LH & HC)|(P' & x & HW' & HP' & ->)].
    + assert (HC' : forall b, nth_error own b <> Some (Some (S i)) -> nth_error h' b = nth_error h b).
      { intros b1 Hb. apply HC. rewrite seen_tag. exact Hb. }
      exists sh, l, own. unfold inv. cbn [sc_heap sc_shared sc_lock sc_parties]. split; [auto|]. split; [auto|]. split; [auto|].
      split; [lia|]. rewrite length_set_nth. split; [auto|]. split; [|split; [auto|]].
      * intros EN. destruct (HF EN) as [HRs HMs]. split; [|auto]. rewrite (mask_kept (S i) 0 own h h'); auto.
      * intros j q r Hq Hr. destruct (Nat.eq_dec j i) as [->|N].
        -- rewrite nth_error_set_nth_eq in Hq by lia. injection Hq as <-. rewrite Hl in Hr. injection Hr as <-. cbn [party_ok pt_doing pt_rest pt_outs].
           split; [auto|]. split; [auto|]. exists P', os, st'. split; [auto|]. split; [auto|]. split; [auto|].
           split; [intros y Hy; apply (proj1 (seen_tag own lk i i y)); auto|]. auto.
        -- rewrite nth_error_set_nth_ne in Hq by auto. eapply party_other; [apply HP; eauto| |auto|tauto|auto|auto].
           left. apply (mask_kept (S i)); auto; [rewrite length_seen; auto|]. intros b1 Hb. apply HC'. rewrite <- (seen_tag own lk j). exact Hb.
    + exists sh, l, (own ++ [Some (S i)]). unfold inv. cbn [sc_heap sc_shared sc_lock sc_parties]. split; [auto|]. split; [auto|]. split; [auto|].
      split; [rewrite !app_length; cbn; lia|]. rewrite length_set_nth. split; [auto|].
      assert (TA : forall k b1, tagged own k b1 -> tagged (own ++ [Some (S i)]) k b1).
      { intros k b1 Hb. unfold tagged. rewrite nth_error_app1; auto. apply nth_error_Some. unfold tagged in Hb. congruence. }
      split; [|split; [auto|]].
      * intros EN. destruct (HF EN) as [HRs HMs]. split.
        -- rewrite mask_app by auto. apply related_app. exact HRs.
        -- intros y mm Hy Hm. apply TA. eapply HMs; eauto.
      * intros j q r Hq Hr. destruct (Nat.eq_dec j i) as [->|N].
        -- rewrite nth_error_set_nth_eq in Hq by lia. injection Hq as <-. rewrite Hl in Hr. injection Hr as <-. cbn [party_ok pt_doing pt_rest pt_outs].
           split; [auto|]. split; [auto|]. exists P', os, st'. split; [auto|]. split; [auto|]. split; [auto|].
           split; [|split; [rewrite seen_app; exact HW'|exact HX]].
           intros y Hy. specialize (HP' y Hy). rewrite <- seen_app in HP'. apply seen_tag in HP'. exact HP'.
        -- rewrite nth_error_set_nth_ne in Hq by auto. eapply party_other; [apply HP; eauto| |apply TA|tauto|auto|auto].
           right. rewrite seen_app. rewrite mask_app by (rewrite length_seen; auto). cbn [sees]. destruct (Nat.eqb_spec (S i) (S j)); [lia|]. reflexivity.
  - (* a section ends *)
    destruct HO as (P & os' & st' & -> & HB & HD & HPt & HW & HX). cbn [wp] in HW. destruct HW as (Eo & HR & HM). cbn [fst snd from] in *. subst os' st'.
    assert (ED : reads lk i = false) by (destruct (reads lk i); [assert (NotHeld = HeldShared) by (apply HD; auto); discriminate|auto]).
    unfold seen in HR. rewrite ED in HR.
    exists sh, l, own. unfold inv. cbn [sc_heap sc_shared sc_lock sc_parties]. rewrite length_set_nth. repeat (split; [assumption|]). split; [auto|].
    intros j q r Hq Hr. destruct (Nat.eq_dec j i) as [->|N].
    + rewrite nth_error_set_nth_eq in Hq by lia. injection Hq as <-. rewrite Hl in Hr. injection Hr as <-. cbn [party_ok pt_doing pt_rest pt_outs].
      split; [auto|]. split; [auto|]. split; [auto|]. split; [auto|]. split; [|split; [intros EH; apply HB in EH; discriminate|auto]].
      intros x mm Hx Hm. apply HPt. eapply HM; eauto.
    + rewrite nth_error_set_nth_ne in Hq by auto. auto.
  - (* the lock is given back *)
    destruct HO as (P & os' & st' & -> & HB & _ & HPt & HW & HX). cbn [wp] in HW. destruct HW as (Eo & HR & HM). cbn [fst snd from] in *. subst os'.
    destruct HX as (-> & -> & LG). assert (EH : lk = LBy i) by (apply HB; auto). subst lk. rewrite E2. unfold seen in HR. cbn [reads] in HR.
    set (shared' := firstn g (e_vars en)). set (own' := retag 0 (given_back shared') own).
    assert (L' : length own' = length h) by (unfold own'; rewrite length_retag; auto).
    assert (VL : length (e_vars en) = length (s_arrays st')) by (symmetry; eapply relA_length; exact (proj1 HR)).
    assert (TB : forall b, block_of shared' b = true -> tagged own (S i) b).
    { intros b Hb. apply block_of_in in Hb. destruct Hb as (x & mm & Hx & <-). apply HPt. eapply (HM x); [lia|].
      unfold shared' in Hx. rewrite nth_first in Hx. destruct (x <? g)%nat; [exact Hx|discriminate]. }
    assert (T0 : forall x mm, nth_error shared' x = Some (Some mm) -> tagged own' 0 (ma_block mm)).
    { intros x mm Hm. assert (HBk : block_of shared' (ma_block mm) = true) by (apply block_of_in; eauto).
      unfold tagged, own'. rewrite nth_retag, (TB _ HBk). cbn [option_map Nat.add]. unfold given_back. rewrite HBk. reflexivity. }
    assert (TI : forall x mm, nth_error (e_vars (without_shared g en)) x = Some (Some mm) -> tagged own (S i) (ma_block mm) /\ tagged own' (S i) (ma_block mm)).
    { intros x mm Hm. unfold without_shared in Hm. cbn [e_vars] in Hm. rewrite nth_hide in Hm. destruct (Nat.ltb_spec x g) as [|Hg]; [discriminate|].
      assert (HTi : tagged own (S i) (ma_block mm)) by (apply HPt; eapply (HM x); [lia|auto]). split; [auto|].
      unfold tagged, own'. rewrite nth_retag, HTi. cbn [option_map Nat.add]. unfold given_back.
      destruct (block_of shared' (ma_block mm)) eqn:HBk; [|auto]. exfalso. apply block_of_in in HBk. destruct HBk as (y & m2 & Hy & EB).
      unfold shared' in Hy. rewrite nth_first in Hy. destruct (Nat.ltb_spec y g); [|discriminate].
      eapply (proj2 (proj1 HR) y x); eauto. lia. }
    destruct (related_left g _ _ _ HR) as [HRl HRs].
    exists (firstn g (s_arrays st')), l, own'. unfold inv. cbn [sc_heap sc_shared sc_lock sc_parties]. split; [auto|]. split; [auto|].
    split; [unfold shared'; rewrite firstn_length; lia|]. rewrite length_set_nth. split; [auto|]. split; [auto|].
    split; [intros _; split|split; [split; [intros j []|discriminate]|]].
    + eapply related_on; [exact HRs|]. cbn [e_vars]. intros x mm Hm. eapply mask_block_same; auto; [|eapply T0; eauto].
      apply TB. apply block_of_in. eauto.
    + intros x mm _ Hm. cbn [e_vars] in Hm. eapply T0; eauto.
    + intros j q r Hq Hr. destruct (Nat.eq_dec j i) as [->|N].
      * rewrite nth_error_set_nth_eq in Hq by lia. injection Hq as <-. rewrite Hl in Hr. injection Hr as <-. cbn [party_ok pt_doing pt_rest pt_outs].
        split; [auto|]. split; [auto|]. split; [auto|]. split; [|split; [|split; [discriminate|reflexivity]]].
        -- eapply related_on; [exact HRl|]. intros x mm Hm. destruct (TI x mm Hm). apply mask_block_same; auto.
        -- intros x mm _ Hm. exact (proj2 (TI x mm Hm)).
      * rewrite nth_error_set_nth_ne in Hq by auto. eapply party_other; [apply HP; eauto| | | |reflexivity|auto].
        -- left. unfold seen. cbn [reads]. apply mask_retag; auto. intros b t Ht. unfold given_back. destruct (block_of shared' b) eqn:HBk; [|auto].
           pose proof (TB b HBk) as HTb. unfold tagged in HTb. rewrite HTb in Ht. injection Ht as <-. cbn [sees].
           destruct (Nat.eqb_spec (S i) (S j)); [lia|]. reflexivity.
        -- intros b Hb. unfold tagged, own'. rewrite nth_retag, Hb. cbn [option_map Nat.add]. unfold given_back.
           destruct (block_of shared' b) eqn:HBk; [|auto]. pose proof (TB b HBk) as HTb. unfold tagged in *. rewrite HTb in Hb. injection Hb as Hb. lia.
        -- split; [discriminate|intros [= ->]; tauto].
  - (* the lock is given back by a reader *)
    destruct HO as (P & os' & st' & -> & HB & HD & HPt & HW & HX). cbn [wp] in HW. destruct HW as (Eo & HR & HM). cbn [fst snd from] in *. subst os'.
    subst st. rewrite E2. assert (ED : reads lk i = true) by (apply HD; auto). destruct (unshare_spec _ _ ED) as (SN' & SR & SZ).
    assert (SN : forall j, lk <> LBy j) by (intros j ->; discriminate ED).
    assert (TI : forall x mm, nth_error (e_vars (without_shared g en)) x = Some (Some mm) -> tagged own (S i) (ma_block mm)).
    { intros x mm Hm. unfold without_shared in Hm. cbn [e_vars] in Hm. rewrite nth_hide in Hm. destruct (Nat.ltb_spec x g) as [|Hg]; [discriminate|].
      apply HPt. eapply (HM x); [lia|auto]. }
    destruct (related_left g _ _ _ HR) as [HRl _].
    exists sh, l, own. unfold inv. cbn [sc_heap sc_shared sc_lock sc_parties]. rewrite length_set_nth. repeat (split; [assumption|]). split; [auto|].
    split; [split; [|exact SZ]|].
    { intros j Hj. apply has_reads in Hj. destruct Hj as [Hj|Hj]; [exfalso; eapply SN'; eauto|]. rewrite SR in Hj. apply andb_prop in Hj.
      apply HI. apply reads_has. tauto. }
    intros j q r Hq Hr. destruct (Nat.eq_dec j i) as [->|N].
    + rewrite nth_error_set_nth_eq in Hq by lia. injection Hq as <-. rewrite Hl in Hr. injection Hr as <-. cbn [party_ok pt_doing pt_rest pt_outs].
      split; [auto|]. split; [auto|]. split; [auto|]. split; [|split; [|split; [apply SN'|rewrite SR, Nat.eqb_refl; reflexivity]]].
      * eapply related_on; [exact HRl|]. intros x mm Hm. pose proof (TI x mm Hm). apply mask_block_same; auto; [rewrite length_seen; auto|apply seen_tag; auto].
      * intros x mm _ Hm. exact (TI x mm Hm).
    + rewrite nth_error_set_nth_ne in Hq by auto.
      assert (EJ : reads (unshare i lk) j = reads lk j) by (rewrite SR; destruct (Nat.eqb_spec j i); [contradiction|auto]).
      eapply party_other; [apply HP; eauto| |auto| |exact EJ|auto].
      * left. unfold seen. rewrite EJ. reflexivity.
      * split; intros HC; exfalso; [eapply SN'|eapply SN]; eauto.
Qed.
Lemma inv_steps chk s s' : scene_steps dflt eqT ltT chk s s' -> forall sh l own, inv sh l own s -> exists sh' l' own', inv sh' l' own' s'.
Proof.
  induction 1 as [s|i s s1 s2 H1 H2 IH]; intros sh l own HJ; [eauto|]. destruct (inv_step _ _ _ _ _ _ _ H1 HJ) as (sh1 & l1 & own1 & HJ1). eauto.
Qed.

Lemma inv_party sh l own s i q : inv sh l own s -> nth_error (sc_parties s) i = Some q -> exists r, nth_error l i = Some r /\ party_ok sh own (sc_heap s) (sc_lock s) i q r.
Proof.
  intros (_ & _ & _ & _ & E4 & _ & _ & HP) Hi. destruct (nth_pair _ l i _ E4 Hi) as [r Hr]. eauto.
Qed.
Lemma inv_no_collision sh l own s : inv sh l own s -> ~ collide s.
Proof.
  intros HV (i & j & b & c & m & n & f & f' & r & r' & o & o' & x & N & Hi & Hj & HC & HU). pose proof HV as (_ & _ & _ & E3 & _).
  destruct (inv_party _ _ _ _ _ _ HV Hi) as ([[st ?] ?] & _ & HO). destruct (inv_party _ _ _ _ _ _ HV Hj) as ([[st2 ?] ?] & _ & HO2).
  cbn [party_ok pt_doing pt_rest pt_outs] in HO, HO2.
  destruct HO as (_ & _ & P & os & st' & _ & _ & _ & HP & HW & _). destruct HO2 as (_ & _ & P2 & os2 & st2' & _ & _ & _ & HP2 & HW2 & _).
  pose proof (HP x (changes_own dflt eqT ltT [] _ _ _ _ _ _ _ HW HC)) as Hb. unfold tagged in Hb. destruct HU as [HU|HU].
  - destruct (uses_seen dflt eqT ltT 0%nat [] _ _ _ _ _ _ _ _ _ ltac:(rewrite length_seen; exact E3) HW2 HU) as (t & Ht & Hs).
    apply (proj2 (seen_tag own (sc_lock s) j i x)) in Hb. rewrite Hb in Ht. injection Ht as <-. cbn [sees] in Hs.
    apply Nat.eqb_eq in Hs. lia.
  - pose proof (HP2 x (changes_own dflt eqT ltT [] _ _ _ _ _ _ _ HW2 HU)) as Hb2. unfold tagged in Hb2. rewrite Hb in Hb2. injection Hb2 as Hb2. lia.
Qed.
Lemma inv_working chk sh l own s i b m f rest outs : inv sh l own s -> nth_error (sc_parties s) i = Some (Party (Working b m f) rest outs) ->
  exists s', scene_step dflt eqT ltT chk i s s'.
Proof.
  intros HV Hi. pose proof HV as (_ & _ & _ & E3 & _). destruct (inv_party _ _ _ _ _ _ HV Hi) as ([[st ?] ?] & _ & HO).
  cbn [party_ok pt_doing pt_rest pt_outs] in HO. destruct HO as (_ & _ & P & os & st' & _ & _ & _ & HP & HW & _). destruct s as [h shared lk ps].
  cbn [sc_heap sc_parties sc_lock] in *. destruct (wp_step_any m (S i) (seen own lk i) h f P _ _ ltac:(rewrite length_seen; exact E3) HW) as [HG _].
  { intros x Hx. apply seen_tag. apply HP. exact Hx. }
  destruct m as [[en os1]| | | | | | | | | | | | ]; try (destruct HG as (m' & h' & f' & E); eexists; eapply mu_work; eauto; fail).
  - destruct b; eexists; [eapply mu_end; eauto|eapply mu_unlock; eauto|eapply mu_unshare; eauto].
  - contradiction.
Qed.
Lemma inv_goes chk sh l own s i q : inv sh l own s -> nth_error (sc_parties s) i = Some q -> goes_on dflt eqT ltT chk s i q.
Proof.
  intros HV Hi. destruct q as [[en|b m f] rest outs]; unfold goes_on; [|right; right; right; eapply inv_working; eauto].
  destruct (inv_party _ _ _ _ _ _ HV Hi) as ([[st ?] ?] & _ & HO). cbn [party_ok pt_doing pt_rest pt_outs] in HO.
  destruct HO as (_ & _ & _ & _ & _ & HN & HD). pose proof HV as (_ & _ & _ & _ & _ & _ & (_ & HZ) & _). destruct rest as [|[p|p|p] rest].
  - left. eauto.
  - right. right. right. destruct s as [h shared lk ps]. eexists. eapply mu_begin. exact Hi.
  - destruct s as [h shared [|j|[|j r]] ps]; cbn [sc_lock sc_parties] in *.
    + right. right. right. eexists. eapply mu_lock. exact Hi.
    + right. left. exists en, p, rest, outs, j. split; [auto|]. split; [reflexivity|]. congruence.
    + congruence.
    + right. left. exists en, p, rest, outs, j. split; [auto|]. split; [left; auto|]. intros ->. cbn in HD. rewrite Nat.eqb_refl in HD. discriminate.
  - destruct s as [h shared lk ps]. cbn [sc_lock sc_parties] in *. destruct (share i lk) as [lk'|] eqn:ES.
    + right. right. right. eexists. eapply mu_share; eauto.
    + right. right. left. destruct (share_none _ _ ES) as [j ->]. exists en, p, rest, outs, j. split; [auto|]. split; [auto|]. congruence.
Qed.
Lemma inv_holder sh l own s i : inv sh l own s -> has_lock (sc_lock s) i ->
  exists b m f rest outs, nth_error (sc_parties s) i = Some (Party (Working b m f) rest outs) /\ b <> NotHeld.
Proof.
  intros HV EH. pose proof HV as (_ & _ & _ & _ & E4 & _ & (HI & _) & HP). specialize (HI i EH).
  destruct (nth_error (sc_parties s) i) as [[[en|b m f] rest outs]|] eqn:Ei; [| |apply nth_error_None in Ei; lia];
    destruct (inv_party _ _ _ _ _ _ HV Ei) as ([[st r] o] & _ & HO); cbn [party_ok pt_doing] in HO; apply has_reads in EH.
  - exfalso. destruct HO as (_ & _ & _ & _ & _ & HN & HD). destruct EH; congruence.
  - destruct HO as (_ & _ & P & os & st' & _ & HB & HD & _). exists b, m, f, rest, outs. split; [auto|]. intros ->.
    destruct EH as [EH|EH]; [apply HB in EH|apply HD in EH]; discriminate.
Qed.
Lemma inv_live chk sh l own s : inv sh l own s ->
  (forall i q, nth_error (sc_parties s) i = Some q -> exists en outs, q = Party (Resting en) [] outs) \/
  exists i s', scene_step dflt eqT ltT chk i s s'.
Proof.
  intros HV. assert (D : (exists j, has_lock (sc_lock s) j) \/ sc_lock s = LFree).
  { pose proof HV as (_ & _ & _ & _ & _ & _ & (_ & HZ) & _). destruct (sc_lock s) as [|j|[|j r]]; [auto|left; exists j; reflexivity|congruence|left; exists j; left; auto]. }
  destruct D as [[j EH]|EH].
  - right. exists j. destruct (inv_holder _ _ _ _ _ HV EH) as (b & m & f & rest & outs & Ej & _). eapply inv_working; eauto.
  - assert (HG : forall i q, nth_error (sc_parties s) i = Some q -> (exists en outs, q = Party (Resting en) [] outs) \/ exists s', scene_step dflt eqT ltT chk i s s').
    { intros i q Hq. destruct (inv_goes chk _ _ _ _ _ _ HV Hq) as [H|[(? & ? & ? & ? & j & _ & E & _)|[(? & ? & ? & ? & j & _ & E & _)|H]]]; auto.
      - rewrite EH in E. contradiction.
      - congruence. }
    revert HG. generalize (scene_step dflt eqT ltT chk). intros R. generalize (sc_parties s). intros ps. 
    assert (G : forall (ps : list (@party T)) k, (forall i q, nth_error ps i = Some q -> (exists en outs, q = Party (Resting en) [] outs) \/ exists s', R (k + i)%nat s s') ->
      (forall i q, nth_error ps i = Some q -> exists en outs, q = Party (Resting en) [] outs) \/ exists i s', R i s s').
    { clear. induction ps as [|q ps IH]; intros k H; [left; intros [|i] q Hq; discriminate|].
      destruct (H O q eq_refl) as [HE|[s' HS]]; [|eauto]. destruct (IH (S k)) as [HA|HA]; [|left|auto].
      - intros i q' Hq'. destruct (H (S i) q' Hq') as [|H']; auto. right. now replace (S k + i)%nat with (k + S i)%nat by lia.
      - intros [|i] q' Hq'; cbn in Hq'; [injection Hq' as <-; auto|eauto]. }
    intros HG. exact (G ps O HG).
Qed.
End Mutex.

(** * Every run ends *)
Section Ends.
Context {T : Type}.
Variable dflt : T.
Variable eqT ltT : T -> T -> bool.

Inductive party_lower : @party T -> @party T -> Prop :=
| pl_enter : forall b m f en sec rest outs, party_lower (Party (Working b m f) rest outs) (Party (Resting en) (sec :: rest) outs)
| pl_work : forall b m m' f f' rest outs, job_child m' m -> party_lower (Party (Working b m' f') rest outs) (Party (Working b m f) rest outs)
| pl_leave : forall b m f en rest outs outs', party_lower (Party (Resting en) rest outs') (Party (Working b m f) rest outs).
Lemma party_acc q : Acc party_lower q.
Proof.
  destruct q as [d rest outs]. revert d outs. induction rest as [|sec rest IH].
  - assert (R : forall en outs, Acc party_lower (Party (Resting en) [] outs)) by (intros en outs; constructor; intros y H; inversion H).
    intros [en|b m f] outs; [apply R|]. revert f. generalize (job_acc m). intros Hm. induction Hm as [m _ IHm]. intros f.
    constructor. intros y H. inversion H; subst; [apply IHm; auto|apply R].
  - assert (R : forall en outs, Acc party_lower (Party (Resting en) (sec :: rest) outs)) by (intros en outs; constructor; intros y H; inversion H; subst; apply IH).
    intros [en|b m f] outs; [apply R|]. revert f. generalize (job_acc m). intros Hm. induction Hm as [m _ IHm]. intros f.
    constructor. intros y H. inversion H; subst; [apply IHm; auto|apply R].
Qed.
Inductive parties_lower : list (@party T) -> list (@party T) -> Prop :=
| psl_here : forall q q' l, party_lower q' q -> parties_lower (q' :: l) (q :: l)
| psl_next : forall q l l', parties_lower l' l -> parties_lower (q :: l') (q :: l).
Lemma parties_acc l : Acc parties_lower l.
Proof.
  induction l as [|q l IH]; [constructor; intros y H; inversion H|].
  generalize (party_acc q). intros Hq. revert l IH. induction Hq as [q _ IHq]. intros l Hl.
  induction Hl as [l Hl0 IHl]. constructor. intros y H. inversion H; subst; [apply IHq; auto; constructor; auto|apply IHl; auto].
Qed.
Lemma set_nth_parties_lower l i q q' : nth_error l i = Some q -> party_lower q' q -> parties_lower (set_nth i q' l) l.
Proof.
  revert i. induction l as [|x l IH]; intros [|i] H Hc; cbn [nth_error] in H; try discriminate; cbn [set_nth].
  - injection H as ->. constructor; auto.
  - constructor. auto.
Qed.
Lemma scene_acc chk (s : @scene T) : Acc (fun s' s => exists i, scene_step dflt eqT ltT chk i s s') s.
Proof.
  destruct s as [h shared lk ps]. pose proof (parties_acc ps) as H. revert h shared lk. induction H as [ps _ IH]. intros h shared lk.
  constructor. intros [h' shared' lk' ps'] [i Hs]. apply IH.
  inversion Hs; subst; (eapply set_nth_parties_lower; [eassumption|constructor]); eapply job_step_child; eauto.
Qed.
End Ends.

(** the main program builds the shared arrays; then threads share them under a mutex, and have arrays of their own *)
Theorem c69_sections_are_atomic : forall (T : Type) (dflt : T) eqT ltT chk p0 os0 st0 en0 h0 programs,
  private_run dflt eqT ltT 0 empty_state p0 os0 st0 ->
  run_catching dflt eqT ltT chk (Env [] []) p0 [] = Done (en0, os0) (World h0 None) ->
  let g := length (s_arrays st0) in
  let start := (s_arrays st0, map (fun secs => (St (repeat None g) [], secs, [])) programs) in
  turns_legal dflt eqT ltT start ->
  forall s, scene_steps dflt eqT ltT chk
      (Scene h0 (e_vars en0) LFree (map (fun secs => Party (Resting (Env (repeat None g) [])) secs []) programs)) s ->
    ~ collide s /\
    (forall i q, nth_error (sc_parties s) i = Some q -> goes_on dflt eqT ltT chk s i q) /\
    ((forall i q, nth_error (sc_parties s) i = Some q -> exists en outs, q = Party (Resting en) [] outs) \/
     exists i s', scene_step dflt eqT ltT chk i s s') /\
    (forall i j m m' b f f' rest rest' outs outs', i <> j ->
       nth_error (sc_parties s) i = Some (Party (Working HeldAlone m f) rest outs) ->
       nth_error (sc_parties s) j = Some (Party (Working b m' f') rest' outs') -> b = NotHeld) /\
    exists sh l, take_turns dflt eqT ltT start (sh, l) /\ length l = length programs /\ length (sc_parties s) = length programs /\
      ((forall i m f rest outs, nth_error (sc_parties s) i <> Some (Party (Working HeldAlone m f) rest outs)) ->
       agrees (St sh []) (Env (sc_shared s) []) (sc_heap s) /\ memory_ok (Env (sc_shared s) []) (sc_heap s)) /\
      forall i en rest outs, nth_error (sc_parties s) i = Some (Party (Resting en) rest outs) ->
        exists st, nth_error l i = Some (st, rest, outs) /\ agrees st en (sc_heap s) /\ memory_ok en (sc_heap s).
Proof.
  intros T dflt eqT ltT chk p0 os0 st0 en0 h0 programs HP0 HR0 g start HL s HS.
  destruct (alone_run dflt eqT ltT chk 0 _ _ _ _ HP0 (Env [] []) [] related_nil) as (en1 & h1 & E1 & HR).
  rewrite HR0 in E1. injection E1 as <- <-.
  pose proof (relA_length _ _ _ (proj1 HR)) as LV.
  assert (EM : forall n (H : heap T), n = length H -> mask 0 (repeat (Some O) n) H = H).
  { induction n; intros [|x H] E; cbn in *; try lia; auto. rewrite IHn by lia. auto. }
  assert (RE : forall h : heap T, related (St (repeat None g) []) (Env (repeat None g) []) h).
  { intros h. split; [split|split].
    - intros x. cbn [s_arrays e_vars]. destruct (nth_error (repeat None g) x) as [[a|]|] eqn:Ex.
      + apply nth_error_In in Ex. apply repeat_spec in Ex. discriminate.
      + assert (x < g)%nat by (rewrite <- (repeat_length (@None (@arr T)) g); apply nth_error_Some; congruence). rewrite nth_error_repeat by auto. exact I.
      + apply nth_error_None in Ex. rewrite repeat_length in Ex. rewrite (proj2 (nth_error_None _ _)) by (rewrite repeat_length; auto). exact I.
    - intros x y m m' Hx. cbn [e_vars] in Hx. apply nth_error_In in Hx. apply repeat_spec in Hx. discriminate.
    - reflexivity.
    - intros k n Hk. unfold named_is in Hk. destruct k; discriminate Hk. }
  assert (ME : forall P, mine P 0 (Env (repeat None g) [])).
  { intros P x m _ Hx. cbn [e_vars] in Hx. apply nth_error_In in Hx. apply repeat_spec in Hx. discriminate. }
  assert (HJ : inv dflt eqT ltT g start (s_arrays st0) (snd start) (repeat (Some O) (length h0))
    (Scene h0 (e_vars en0) LFree (map (fun secs => Party (Resting (Env (repeat None g) [])) secs []) programs))).
  { unfold inv. cbn [sc_heap sc_shared sc_lock sc_parties]. split; [constructor|]. split; [auto|]. split; [unfold g; lia|].
    split; [apply repeat_length|]. unfold start. cbn [snd]. rewrite !map_length. split; [auto|]. split; [|split; [split; [intros i []|discriminate]|]].
    - intros _. rewrite EM by auto. split.
      + destruct HR as [HR _]. split; [exact HR|]. split; [reflexivity|]. intros k n Hk. unfold named_is in Hk. destruct k; discriminate Hk.
      + intros x m _ Hx. unfold tagged. apply nth_error_repeat. cbn [e_vars] in Hx.
        destruct (relA_var_inv _ _ _ _ _ (proj1 HR) Hx) as (a & _ & ((_ & _ & _ & _ & _ & Hb) & _)). apply nth_error_Some. congruence.
    - intros i q r Hq Hr. rewrite nth_error_map in Hq, Hr. destruct (nth_error programs i) as [secs|]; [|discriminate].
      injection Hq as <-. injection Hr as <-. cbn [party_ok pt_doing pt_rest pt_outs]. split; [auto|].
      split; [intros x Hx; apply nth_error_repeat; auto|]. split; [auto|]. split; [apply RE|]. split; [apply ME|]. split; [discriminate|reflexivity]. }
  destruct (inv_steps dflt eqT ltT g start HL chk _ _ HS _ _ _ HJ) as (sh & l & own & HV).
  pose proof HV as (HT & L1 & L2 & L3 & L4 & HF & HI & HP).
  split; [eapply inv_no_collision; eauto|]. split; [intros i q Hq; eapply inv_goes; eauto|]. split; [eapply inv_live; eauto|].
  split.
  - intros i j m m' b f f' rest rest' outs outs' N Hi Hj. destruct (inv_party _ _ _ _ _ _ _ _ _ _ _ HV Hi) as ([[st r] o] & _ & HO). cbn [party_ok pt_doing] in HO.
    destruct HO as (_ & _ & P & os & st' & _ & HB & _). pose proof (proj1 HB eq_refl) as EL. rewrite EL in *.
    destruct (inv_party _ _ _ _ _ _ _ _ _ _ _ HV Hj) as ([[st2 r2] o2] & _ & HO2). cbn [party_ok pt_doing] in HO2. rewrite EL in HO2.
    destruct HO2 as (_ & _ & P2 & os2 & st2' & _ & HB2 & HD2 & _). cbn [reads] in HD2. destruct b; [auto|exfalso|exfalso].
    + pose proof (proj1 HB2 eq_refl). congruence.
    + pose proof (proj1 HD2 eq_refl). discriminate.
  - exists sh, l. split; [exact HT|].
    assert (LP : length (sc_parties s) = length programs).
    { assert (LS : forall a b, scene_steps dflt eqT ltT chk a b -> length (sc_parties b) = length (sc_parties a)).
      { induction 1 as [|i a b c H1 H2 IH]; [auto|]. rewrite IH. destruct H1; cbn [sc_parties]; apply length_set_nth. }
      rewrite (LS _ _ HS). cbn [sc_parties]. apply map_length. }
    split; [lia|]. split; [lia|]. split.
    + intros EN. assert (EF : forall i, sc_lock s <> LBy i).
      { intros i EL. destruct (inv_holder _ _ _ _ _ _ _ _ _ i HV) as (b & m & f & rest & outs & Hi & _); [rewrite EL; reflexivity|].
        destruct (inv_party _ _ _ _ _ _ _ _ _ _ _ HV Hi) as ([[st r] o] & _ & HO). cbn [party_ok pt_doing] in HO.
        destruct HO as (_ & _ & P & os & st' & _ & HB & _). apply HB in EL. subst b. eapply EN; eauto. }
      destruct (HF EF) as [HRs _]. apply related_unmask in HRs; [|auto].
      split; [apply (related_agrees dflt eqT ltT); auto|eapply related_memory; eauto].
    + intros i en rest outs Hi. destruct (inv_party _ _ _ _ _ _ _ _ _ _ _ HV Hi) as ([[st r] o] & Hl & HO). cbn [party_ok pt_doing pt_rest pt_outs] in HO.
      destruct HO as (-> & _ & -> & HRi & _). exists st. split; [auto|]. apply related_unmask in HRi; [|auto].
      split; [apply (related_agrees dflt eqT ltT); auto|eapply related_memory; eauto].
Qed.
Theorem c69_every_run_ends : forall (T : Type) (dflt : T) eqT ltT chk,
  ~ exists run : nat -> @scene T, forall n, exists i, scene_step dflt eqT ltT chk i (run n) (run (S n)).
Proof.
  intros T dflt eqT ltT chk (run & Hrun).
  assert (G : forall s, Acc (fun s' s => exists i, scene_step dflt eqT ltT chk i s s') s -> forall n, run n = s -> False).
  { intros s Hs. induction Hs as [s _ IH]. intros n En. apply (IH (run (S n))) with (n := S n); auto.
    rewrite <- En. apply Hrun. }
  apply (G (run O) (scene_acc dflt eqT ltT chk _) O eq_refl).
Qed.

(** * Examples *)

(** the deterministic part of a schedule: thread i takes its next step *)
Definition scene_next (i : nat) (s : @scene Z) : option (@scene Z) :=
  let 'Scene h shared lk l := s in
  match nth_error l i with
  | Some (Party (Resting en) (Alone p :: rest) outs) =>
      Some (Scene h shared lk (set_nth i (Party (Working NotHeld (j_thread 0 Z.eqb Z.ltb true en p) None) rest outs) l))
  | Some (Party (Resting en) (Locked p :: rest) outs) =>
      match lk with
      | LFree => Some (Scene h shared (LBy i) (set_nth i (Party (Working HeldAlone (j_thread 0 Z.eqb Z.ltb true (with_shared shared en) p) None) rest outs) l))
      | _ => None
      end
  | Some (Party (Resting en) (Reading p :: rest) outs) =>
      match share i lk with
      | Some lk' => Some (Scene h shared lk' (set_nth i (Party (Working HeldShared (j_thread 0 Z.eqb Z.ltb true (with_shared shared en) p) None) rest outs) l))
      | None => None
      end
  | Some (Party (Working b (JRet (en, os)) f) rest outs) =>
      Some (match b with
            | NotHeld => Scene h shared lk (set_nth i (Party (Resting en) rest (outs ++ [os])) l)
            | HeldAlone => Scene h (firstn (length shared) (e_vars en)) LFree
                        (set_nth i (Party (Resting (without_shared (length shared) en)) rest (outs ++ [os])) l)
            | HeldShared => Scene h shared (unshare i lk) (set_nth i (Party (Resting (without_shared (length shared) en)) rest (outs ++ [os])) l)
            end)
  | Some (Party (Working b m f) rest outs) =>
      match job_step m h f with
      | Some (m', h', f') => Some (Scene h' shared lk (set_nth i (Party (Working b m' f') rest outs) l))
      | None => None
      end
  | _ => None
  end.
Lemma scene_next_step i s s' : scene_next i s = Some s' -> scene_step 0 Z.eqb Z.ltb true i s s'.
Proof.
  destruct s as [h shared lk l]. cbn [scene_next]. destruct (nth_error l i) as [[[en|b m f] rest outs]|] eqn:Ei; [| |discriminate].
  - destruct rest as [|[p|p|p] rest]; [discriminate| | |].
    + intros [= <-]. constructor. auto.
    + destruct lk; try discriminate. intros [= <-]. constructor. auto.
    + destruct (share i lk) as [lk'|] eqn:ES; [|discriminate]. intros [= <-]. econstructor; eauto.
  - destruct m as [[en os]| | | | |f0 m|gd bd|p k|p v m|aid n k|aid p n m|p v m|p m];
      try (intros H; match type of H with match ?e with _ => _ end = _ => destruct e as [[[m' h'] f']|] eqn:Es; [|discriminate H] end;
           injection H as <-; eapply mu_work; eauto; fail).
    destruct b; intros [= <-]; [eapply mu_end|eapply mu_unlock|eapply mu_unshare]; eauto.
Qed.
(** thread i, as far as it gets in n steps; then the next *)
Fixpoint as_far (n i : nat) (s : @scene Z) : @scene Z :=
  match n with O => s | S n => match scene_next i s with Some s' => as_far n i s' | None => s end end.
Lemma as_far_steps n i : forall s, scene_steps 0 Z.eqb Z.ltb true s (as_far n i s).
Proof. induction n; intros s; cbn [as_far]; [constructor|]. destruct (scene_next i s) eqn:E; [|constructor]. econstructor; [eapply scene_next_step; eauto|auto]. Qed.
Fixpoint scene_in_turn (sched : list (nat * nat)) (s : @scene Z) : @scene Z :=
  match sched with [] => s | (i, n) :: rest => scene_in_turn rest (as_far n i s) end.
Lemma scene_steps_trans {T} (dflt : T) eqT ltT chk a b c : scene_steps dflt eqT ltT chk a b -> scene_steps dflt eqT ltT chk b c -> scene_steps dflt eqT ltT chk a c.
Proof. induction 1; auto. intros. econstructor; eauto. Qed.
Lemma scene_in_turn_steps sched : forall s, scene_steps 0 Z.eqb Z.ltb true s (scene_in_turn sched s).
Proof. induction sched as [|[i n] sched IH]; intros s; cbn [scene_in_turn]; [constructor|]. eapply scene_steps_trans; [apply as_far_steps|apply IH]. Qed.

(** the main program builds [1; 2]; one thread refills it and reads it, under the mutex; the other makes an
    array of its own, meanwhile, and then makes the shared one longer, under the mutex; two more read it,
    holding the lock together *)
Definition ex_start : list (@command Z * option nat) := [(NewList [2] (so_from_c 1) 7, None); (Fill 0 [1; 2], None)].
Definition ex_fill : list (@command Z * option nat) := [(Fill 0 [5; 6], None); (Get (Var 0) [1], None)].
Definition ex_own : list (@command Z * option nat) := [(NewList [3] (so_from_c 1) 8, None)].
Definition ex_longer : list (@command Z * option nat) := [(ResizeList 0 [3], None)].
Definition ex_look : list (@command Z * option nat) := [(Get (Var 0) [0], None); (Get (Var 0) [1], None)].
Definition ex_sharing : list (list (@lsection Z)) := [[Locked ex_fill]; [Alone ex_own; Locked ex_longer]; [Reading ex_look]; [Reading ex_look]].
Definition ex_shared (n : Z) (l : list Z) : @arr Z := Arr [n] [0] (so_from_c 1) 7%nat l.
Definition ex_scene0 (h : heap Z) (vars : list (option multi_array)) (g : nat) (programs : list (list (@lsection Z))) : @scene Z :=
  Scene h vars LFree (map (fun secs => Party (Resting (Env (repeat None g) [])) secs []) programs).

Lemma ex_start_run : private_run 0 Z.eqb Z.ltb 0 empty_state ex_start [Some ONone; Some ONone] (St [Some (ex_shared 2 [1; 2])] []).
Proof.
  eapply pr_done; [apply s_list|apply (co_list _ [2])|discriminate|intros; lia|].
  { apply blank_ok; [apply (proj1 (c02_named_orders_valid 1))|]. change (so_from_c 1) with (SO [0%nat] [true]). layout_tac. }
  change (add_array _ _) with (St [Some (ex_shared 2 [0; 0])] []).
  eapply pr_done; [eapply s_fill; reflexivity|apply (co_fill _ _ [1; 2] (ex_shared 2 [0; 0])); reflexivity|discriminate|intros; lia|].
  apply pr_nil.
Qed.

(** whatever the order, the shared array is one of these, and each thread is before one of its sections *)
Definition ex_kept (sh : list (option (@arr Z))) : Prop :=
  exists a, sh = [Some a] /\ (a_shape a = [2] \/ a_shape a = [3]) /\ a_bases a = [0] /\ a_order a = so_from_c 1.
Definition ex_rest (rest : list (@lsection Z)) : Prop :=
  rest = [] \/ rest = [Locked ex_fill] \/ rest = [Alone ex_own; Locked ex_longer] \/ rest = [Locked ex_longer] \/ rest = [Reading ex_look].
Lemma ex_order_ok n : In n [2; 3] -> order_ok 1 (so_from_c 1) /\ layout_ok (so_from_c 1) [0] [n].
Proof.
  intros H. split; [apply (proj1 (c02_named_orders_valid 1))|]. change (so_from_c 1) with (SO [0%nat] [true]).
  destruct H as [<-|[<-|[]]]; layout_tac.
Qed.
Lemma ex_turn sh l sh' l' : turn 0 Z.eqb Z.ltb (sh, l) (sh', l') -> ex_kept sh -> (forall i st rest outs, nth_error l i = Some (st, rest, outs) -> ex_rest rest) ->
  ex_kept sh' /\ forall i st rest outs, nth_error l' i = Some (st, rest, outs) -> ex_rest rest.
Proof.
  intros HT HK HR.
  assert (HN : forall i st sec rest outs st' outs' j x, nth_error l i = Some (st, sec :: rest, outs) ->
    nth_error (set_nth i (st', rest, outs') l) j = Some x -> ex_rest (snd (fst x))).
  { intros i st sec rest outs st' outs' j [[s1 r1] o1] Hi Hj. cbn [fst snd]. destruct (Nat.eq_dec j i) as [->|N].
    - rewrite nth_error_set_nth_eq in Hj by (apply nth_error_Some; congruence). injection Hj as <- <- <-.
      destruct (HR _ _ _ _ Hi) as [H|[H|[H|[H|H]]]]; inversion H; subst; unfold ex_rest; auto.
    - rewrite nth_error_set_nth_ne in Hj by auto. eapply HR; eauto. }
  inversion HT as [sh0 l0 i st p rest outs os st' Hi HP|sh0 l0 i st p rest outs os st' Hi HP|sh0 l0 i st p rest outs os st' Hi HP]; subst.
  - split; [auto|]. intros j st2 r2 o2 Hj. exact (HN _ _ _ _ _ _ _ _ (st2, r2, o2) Hi Hj).
  - split; [|intros j st2 r2 o2 Hj; exact (HN _ _ _ _ _ _ _ _ (st2, r2, o2) Hi Hj)]. destruct HK as (a & -> & HS & HB & HO). cbn [length].
    assert (HA : forall b, array_is (entered [Some a] st) 0 b -> b = a) by (intros b Hb; unfold array_is, entered in Hb; cbn in Hb; congruence).
    assert (D : p = ex_fill \/ p = ex_longer).
    { destruct (HR _ _ _ _ Hi) as [H|[H|[H|[H|H]]]]; inversion H; auto. }
    destruct D as [-> | ->].
    + unfold ex_fill in HP. inversion HP as [|? ? ? ? ? ? ? ? S1 _ _ _ HP2|]; subst. inversion S1; subst.
      match goal with H : array_is _ _ _ |- _ => apply HA in H; subst end.
      inversion HP2 as [|? ? ? ? ? ? ? ? S2 _ _ _ HP3|]; subst. inversion S2; subst. inversion HP3; subst.
      exists (filled a (length (a_elems a)) [5; 6]). auto.
    + unfold ex_longer in HP. inversion HP as [|? ? ? ? ? ? ? ? S1 _ _ _ HP2|]; subst. inversion S1; subst.
      match goal with H : array_is _ _ _ |- _ => apply HA in H; subst end. inversion HP2; subst.
      match goal with H : resized _ _ _ _ |- _ => destruct H as (_ & R1 & R2 & R3 & _) end. exists a'.
      split; [reflexivity|]. split; [right; exact R1|]. split; [exact R2|congruence].
  - split; [auto|]. intros j st2 r2 o2 Hj. exact (HN _ _ _ _ _ _ _ _ (st2, r2, o2) Hi Hj).
Qed.
Lemma ex_legal : turns_legal 0 Z.eqb Z.ltb ([Some (ex_shared 2 [1; 2])], map (fun secs => (St [None] [], secs, [])) ex_sharing).
Proof.
  assert (G : forall a b, take_turns 0 Z.eqb Z.ltb a b -> a = ([Some (ex_shared 2 [1; 2])], map (fun secs => (St [None] [], secs, [])) ex_sharing) ->
    ex_kept (fst b) /\ forall i st rest outs, nth_error (snd b) i = Some (st, rest, outs) -> ex_rest rest).
  { intros a b H. induction H as [a|a a1 a2 H1 IH H2]; intros ->.
    - cbn [fst snd]. split; [exists (ex_shared 2 [1; 2]); auto|]. intros [|[|[|[|[|i]]]]] st rest outs Hi; cbn in Hi; try discriminate; injection Hi as <- <- <-; unfold ex_rest; auto.
    - destruct (IH eq_refl) as [K1 K2]. destruct a1 as [sh1 l1], a2 as [sh2 l2]. cbn [fst snd] in *. eapply ex_turn; eauto. }
  intros sh l i st sec rest outs HT Hi. destruct (G _ _ HT eq_refl) as [(a & E & HS & HB & HO) HR]. cbn [fst snd] in *. subst sh.
  assert (HA : array_is (entered [Some a] st) 0 a) by reflexivity.
  assert (HU : forall b, array_is (entered [Some a] st) 0 b -> b = a) by (intros b Hb; unfold array_is, entered in Hb; cbn in Hb; congruence).
  destruct (HR _ _ _ _ Hi) as [H|[H|[H|[H|H]]]]; inversion H; subst sec.
  - cbn [private_legal ex_fill]. split; [exists a; exact HA|]. split; [intros; lia|]. split; [|discriminate].
    intros o st1 S1. inversion S1; subst. match goal with H : array_is _ _ _ |- _ => apply HU in H; subst end.
    split; [|split; [intros; lia|split; [auto|discriminate]]]. exists (arranged 0 (a_bases a) (a_shape a) (a_order a)). split.
    + apply (dn_var _ 0 (filled a (length (a_elems a)) [5; 6])). reflexivity.
    + cbn [arranged pl_bases pl_shape]. rewrite HB. destruct HS as [-> | ->]; repeat constructor; lia.
  - cbn [private_legal ex_own]. split; [apply (ex_order_ok 3); cbn; auto|]. split; [intros; lia|]. split; [auto|discriminate].
  - cbn [private_legal ex_longer]. split; [|split; [intros; lia|split; [auto|discriminate]]]. exists a. split; [exact HA|].
    split; [destruct HS as [-> | ->]; reflexivity|]. rewrite HO. apply (ex_order_ok 3). cbn; auto.
  - cbn [private_legal ex_look length]. assert (HL : forall k, k = 0 \/ k = 1 -> legal (entered [Some a] st) (Get (Var 0) [k])).
    { intros k Hk. exists (arranged 0 (a_bases a) (a_shape a) (a_order a)). split; [apply (dn_var _ 0 a); exact HA|].
      cbn [arranged pl_bases pl_shape]. rewrite HB. destruct HS as [-> | ->]; repeat constructor; lia. }
    assert (HM : forall k x, modifies (entered [Some a] st) (Get (Var 0) [k]) x -> (1 <= x)%nat) by (intros k x H0; inversion H0).
    split; [apply HL; auto|]. split; [apply HM|]. split; [|discriminate]. intros o st1 S1. inversion S1; subst.
    split; [apply HL; auto|]. split; [apply HM|]. split; [auto|discriminate].
Qed.

Example ex_c69 : exists os0 en0 h0, private_run 0 Z.eqb Z.ltb 0 empty_state ex_start os0 (St [Some (ex_shared 2 [1; 2])] []) /\
  run_catching 0 Z.eqb Z.ltb true (Env [] []) ex_start [] = Done (en0, os0) (World h0 None) /\
  turns_legal 0 Z.eqb Z.ltb ([Some (ex_shared 2 [1; 2])], map (fun secs => (St [None] [], secs, [])) ex_sharing) /\
  let s := scene_in_turn [(0, 6); (1, 5); (0, 1); (1, 50); (0, 50); (1, 50); (2, 50); (3, 50)]%nat (ex_scene0 h0 (e_vars en0) 1 ex_sharing) in
  scene_steps 0 Z.eqb Z.ltb true (ex_scene0 h0 (e_vars en0) 1 ex_sharing) s /\
  map pt_outs (sc_parties s) = [[[Some ONone; Some (OVal 6)]]; [[Some ONone]; [Some ONone]]; [[Some (OVal 5); Some (OVal 6)]]; [[Some (OVal 5); Some (OVal 6)]]] /\
  map pt_rest (sc_parties s) = [[]; []; []; []] /\ sc_lock s = LFree /\
  (* the first thread is refilling the shared array while the second makes its own and then waits, like the readers *)
  (let s' := scene_in_turn [(0, 6); (1, 50); (2, 50); (3, 50)]%nat (ex_scene0 h0 (e_vars en0) 1 ex_sharing) in
   sc_lock s' = LBy 0 /\ map pt_rest (sc_parties s') = [[]; [Locked ex_longer]; [Reading ex_look]; [Reading ex_look]] /\
   map pt_outs (sc_parties s') = [[]; [[Some ONone]]; []; []]) /\
  (* both readers are reading what was there first, one of them having gone further; the first thread waits *)
  (let s' := scene_in_turn [(2, 3); (3, 2); (0, 50); (2, 1)]%nat (ex_scene0 h0 (e_vars en0) 1 ex_sharing) in
   sc_lock s' = LShared [3; 2]%nat /\ map pt_rest (sc_parties s') = [[Locked ex_fill]; [Alone ex_own; Locked ex_longer]; []; []] /\
   let s'' := scene_in_turn [(3, 50); (2, 50); (0, 50)]%nat s' in
   map pt_outs (sc_parties s'') = [[[Some ONone; Some (OVal 6)]]; []; [[Some (OVal 1); Some (OVal 2)]]; [[Some (OVal 1); Some (OVal 2)]]]).
Proof.
  destruct (run_catching 0 Z.eqb Z.ltb true (Env [] []) ex_start []) as [[en0 os0] [h0 f0]|?|?| |] eqn:E; try (vm_compute in E; discriminate E).
  exists [Some ONone; Some ONone], en0, h0. split; [apply ex_start_run|]. vm_compute in E. injection E as <- <- <- <-.
  split; [reflexivity|]. split; [apply ex_legal|]. cbv zeta. split; [apply scene_in_turn_steps|]. vm_compute. repeat split; reflexivity.
Qed.

Lemma stuck_there i s s' b m f rest outs : nth_error (sc_parties s) i = Some (Party (Working b m f) rest outs) ->
  job_step m (sc_heap s) f = None -> (forall r, m <> JRet r) -> ~ scene_step 0 Z.eqb Z.ltb true i s s'.
Proof. intros Hi Hs Hr H. inversion H; subst; cbn [sc_parties sc_heap] in *; congruence. Qed.
(** a view of a shared array is not to be used after the section in which it was made: another thread
    may have resized the array.  Done one after the other, the three sections go well *)
Definition ex_stale : list (list (@lsection Z)) :=
  [[Locked [(NewView (Var 0) [Slice None None 1], None)]; Locked [(Get (Named 0) [0], None)]]; [Locked ex_longer]].
Theorem c69_names_end_with_the_section_refuted : exists en0 h0, run_catching 0 Z.eqb Z.ltb true (Env [] []) ex_start [] = Done (en0, [Some ONone; Some ONone]) (World h0 None) /\
  let s0 := ex_scene0 h0 (e_vars en0) 1 ex_stale in
  (exists s, scene_steps 0 Z.eqb Z.ltb true s0 s /\ map pt_outs (sc_parties s) = [[[Some ONone]; [Some (OVal 1)]]; [[Some ONone]]]) /\
  (exists s m f rest outs, scene_steps 0 Z.eqb Z.ltb true s0 s /\ nth_error (sc_parties s) 0 = Some (Party (Working HeldAlone m f) rest outs) /\
     map pt_rest (sc_parties s) = [[]; []] /\ job_step m (sc_heap s) f = None /\ (forall r, m <> JRet r) /\ m <> JThrow /\
     forall s', ~ scene_step 0 Z.eqb Z.ltb true 0 s s').
Proof.
  destruct (run_catching 0 Z.eqb Z.ltb true (Env [] []) ex_start []) as [[en0 os0] [h0 f0]|?|?| |] eqn:E; try (vm_compute in E; discriminate E).
  exists en0, h0. vm_compute in E. injection E as <- <- <- <-. split; [reflexivity|]. cbv zeta. split.
  - eexists. split; [apply (scene_in_turn_steps [(0, 100); (1, 100)]%nat)|]. vm_compute. reflexivity.
  - match goal with |- context [scene_steps _ _ _ _ ?s0 _] => pose proof (scene_in_turn_steps [(0, 4); (1, 100); (0, 100)]%nat s0) as HS end.
    match type of HS with scene_steps _ _ _ _ _ ?s => exists s; pose (sv := s) end.
    match goal with sv := ?s |- _ => let q := eval vm_compute in (nth_error (sc_parties s) 0) in
      match q with Some (Party (Working HeldAlone ?m ?f) ?r ?o) => exists m, f, r, o end end.
    assert (E1 : map pt_rest (sc_parties sv) = [[]; []]) by (vm_compute; reflexivity).
    split; [exact HS|]. split; [vm_compute; reflexivity|]. split; [exact E1|].
    split; [vm_compute; reflexivity|]. split; [discriminate|]. split; [discriminate|].
    intros s'. eapply stuck_there; [vm_compute; reflexivity|vm_compute; reflexivity|discriminate].
Qed.
