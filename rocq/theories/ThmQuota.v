(** ThmQuota.v -- C65: how much memory a program needs *)

From Coq Require Import ZArith List Bool Lia.
From Verif Require Import Base StorageOrder Ranges Layout Access Objects Memory Ops MultiArray History Quota.
From Verif Require Import Spec ReachSpec MemSpec OwnSpec HistorySpec CostSpec QuotaSpec.
From Verif Require Import Facts LayoutProofs AccessProofs ReachProofs MemoryProofs OwnProofs HistoryProofs ThmHistory ThmAddressing ThmAlias CostProofs ThmCosts ThmExact QuotaProofs.
Import ListNotations.
Local Open Scope Z_scope.

Section ThmQuota.
Context {T : Type}.
Variable dflt : T.
Variable eqT ltT : T -> T -> bool.
Variable cap : nat -> Z.

(** the memory of the machine is what the specification says *)
Definition booked (st : @state T) (en : env) (h : heap T) (lost : list (nat * Z)) : Prop :=
  related st en h /\
  exists bs, NoDup bs /\ (forall b, leaked en h b <-> In b bs) /\ Forall2 (lost_at h) bs lost.

Lemma booked_used st en h lost aid : booked st en h lost -> used aid h = in_use st aid + lost_in lost aid.
Proof. intros (HR & bs & H1 & H2 & H3). eapply used_is; eauto. Qed.
Lemma booked_nil : booked empty_state (Env [] []) [] [].
Proof.
  split; [apply related_nil|]. exists []. split; [constructor|]. split; [|constructor].
  intros b. split; [|intros []]. intros [[z Hz] _]. destruct b; discriminate.
Qed.

Lemma asks_fun st en (h : heap T) c a n a' n' : related st en h -> asks_for st c a n -> asks_for st c a' n' -> a = a' /\ n = n'.
Proof.
  intros HR H1 H2. destruct H1; inversion H2; subst; auto;
  try (match goal with A : array_is st _ ?a, B : array_is st _ ?b |- _ => rewrite (array_fun _ _ _ _ A B); auto end).
  match goal with A : denotes st e ?a, B : denotes st e ?b |- _ => destruct (denotes_place st en h _ _ _ HR A B) as (_ & E & _); rewrite E; auto end.
Qed.

(** commands with room for what they ask run as if memory were unlimited *)
Lemma affordable_exec st en (h : heap T) lost c o st' chk f : booked st en h lost -> step dflt eqT ltT st c o st' ->
  affordable cap st lost c -> q_exec cap dflt eqT ltT chk en c (World h f) = exec dflt eqT ltT chk en c (World h f).
Proof.
  intros HB HS HA. destruct (asks_or_not dflt eqT ltT cap st c o st' HS) as [(aid & n & Hask)|(_ & HN)].
  - destruct (asks_exec dflt eqT ltT cap st en h c o st' chk aid n (proj1 HB) HS Hask) as [G _].
    rewrite G. cbn [w_heap]. rewrite (booked_used _ _ _ _ aid HB). specialize (HA aid n Hask). apply Z.leb_le in HA. rewrite HA. auto.
  - rewrite (proj1 (HN chk en)). auto.
Qed.
(** the others have no effect *)
Lemma refused_exec st en (h : heap T) lost c o st' chk f : booked st en h lost -> step dflt eqT ltT st c o st' ->
  refused cap st lost c -> q_exec cap dflt eqT ltT chk en c (World h f) = Thrown (World h f).
Proof.
  intros HB HS (aid & n & Hask & Hlt).
  destruct (asks_exec dflt eqT ltT cap st en h c o st' chk aid n (proj1 HB) HS Hask) as [G _].
  rewrite G. cbn [w_heap]. rewrite (booked_used _ _ _ _ aid HB). apply Z.leb_gt in Hlt. rewrite Hlt. auto.
Qed.
Lemma exec_sizing st en (h : heap T) c o st' chk : related st en h -> step dflt eqT ltT st c o st' ->
  exists aid n, sizing aid n (exec dflt eqT ltT chk en c).
Proof.
  intros HR HS. destruct (asks_or_not dflt eqT ltT cap st c o st' HS) as [(aid & n & Hask)|(_ & HN)].
  - exists aid, n. apply (asks_exec dflt eqT ltT cap st en h c o st' chk aid n HR HS Hask).
  - exists 0%nat, 0. apply (HN chk en).
Qed.

Lemma booked_done st en (h : heap T) lost c o st' chk n f : booked st en h lost -> step dflt eqT ltT st c o st' -> costs st c n ->
  (forall k, f = Some k -> (n <= k)%nat) ->
  exists en' h' f', exec dflt eqT ltT chk en c (World h f) = Done (en', o) (World h' f') /\ booked st' en' h' lost.
Proof.
  intros (HR & bs & H1 & H2 & H3) HS HC Hf.
  destruct (exec_done dflt eqT ltT st en h c o st' chk n f HR HS HC Hf) as (en' & h' & f' & E & HR' & L & K).
  exists en', h', f'. split; [auto|]. split; [auto|]. exists bs. split; [auto|]. split; [intros b; rewrite K; auto|].
  destruct (exec_sizing st en h c o st' chk HR HS) as (aid & sz & HZ). specialize (HZ (World h f)). rewrite E in HZ. cbn [w_heap] in HZ.
  eapply lost_sized; eauto. intros b Hb. apply H2, K in Hb. apply Hb.
Qed.
Lemma booked_thrown st en (h : heap T) lost c o st' chk n k st1 : booked st en h lost -> step dflt eqT ltT st c o st' -> costs st c n -> (k < n)%nat ->
  interrupted st k c st1 ->
  exists h', exec dflt eqT ltT chk en c (World h (Some k)) = Thrown (World h' None) /\
    (loses k c = false -> booked st1 en h' lost) /\
    (forall aid size, loses k c = true -> asks_for st c aid size -> booked st1 en h' (lost ++ [(aid, size)])).
Proof.
  intros (HR & bs & H1 & H2 & H3) HS HC Hk HI.
  destruct (exec_thrown dflt eqT ltT st en h c o st' chk n k st1 HR HS HC Hk HI) as (h' & E & HR' & L & K).
  exists h'. split; [auto|]. split.
  - intros HL. split; [auto|]. exists bs. split; [auto|]. split; [intros b; rewrite K, H2, HL; intuition discriminate|].
    destruct (exec_sizing st en h c o st' chk HR HS) as (aid & sz & HZ). specialize (HZ (World h (Some k))). rewrite E in HZ. cbn [w_heap] in HZ.
    eapply lost_sized; eauto. intros b Hb. apply H2 in Hb. assert (HX : leaked en h' b) by (apply K; auto). apply HX.
  - intros aid size HL Hask. split; [auto|].
    destruct (asks_exec dflt eqT ltT cap st en h c o st' chk aid size HR HS Hask) as [_ HZ]. specialize (HZ (World h (Some k))). rewrite E in HZ. cbn [w_heap] in HZ.
    assert (Hnew : leaked en h' (length h)) by (apply K; auto).
    exists (bs ++ [length h]). split; [|split].
    + apply nodup_join; [auto|constructor; [intros []|constructor]|]. intros b Hb [<-|[]]. apply H2 in Hb. destruct Hb as [[z Hz] _].
      assert (length h < length h)%nat by (apply nth_error_Some; congruence). lia.
    + intros b. rewrite K, H2, HL, in_app_iff. simpl. intuition.
    + apply Forall2_app.
      * eapply lost_sized; eauto. intros b Hb. apply H2 in Hb. assert (HX : leaked en h' b) by (apply K; auto). apply HX.
      * constructor; [|constructor]. destruct Hnew as [[k' Ek] _]. exists k'. split; [auto|]. cbn [fst snd].
        destruct HZ as [_ HZ]. destruct (HZ _ k' Ek) as [(k0 & Ek0 & _)|(_ & HX)]; [|auto].
        assert (length h < length h)%nat by (apply nth_error_Some; congruence). lia.
Qed.

Lemma budgeted_run chk : forall p st en (h : heap T) lost os st' lost', booked st en h lost ->
  budgeted dflt eqT ltT cap st lost p os st' lost' ->
  exists en' h', q_run cap dflt eqT ltT chk en p h = Done (en', os) (World h' None) /\ booked st' en' h' lost'.
Proof.
  induction p as [|[c f] p IH]; intros st en h lost os st' lost' HB HP.
  - inversion HP; subst. exists en, h. split; [reflexivity|auto].
  - inversion HP as [|c0 f0 r0 o os0 n st1 st2 l2 Hst Hco Hf Ha HP1|c0 f0 r0 o os0 st1 st2 l2 Hst Hr HP1
        |c0 k r0 o os0 n st1 st1' st2 l2 Hst Hco Hk Ha Hi Hl HP1|c0 k r0 o os0 n aid size st1 st1' st2 l2 Hst Hco Hk Ha Hi Hl Hask HP1]; subst; cbn [q_run].
    + rewrite (affordable_exec st en h lost c o st1 chk f HB Hst Ha).
      destruct (booked_done st en h lost c o st1 chk n f HB Hst Hco Hf) as (en1 & h1 & f1 & -> & HB1). cbn [w_heap].
      destruct (IH st1 en1 h1 lost os0 st' lost' HB1 HP1) as (en2 & h2 & -> & HB2). eauto.
    + rewrite (refused_exec st en h lost c o st1 chk f HB Hst Hr). cbn [w_heap].
      destruct (IH st en h lost os0 st' lost' HB HP1) as (en2 & h2 & -> & HB2). eauto.
    + rewrite (affordable_exec st en h lost c o st1' chk (Some k) HB Hst Ha).
      destruct (booked_thrown st en h lost c o st1' chk n k st1 HB Hst Hco Hk Hi) as (h1 & -> & HB1 & _). cbn [w_heap].
      destruct (IH st1 en h1 lost os0 st' lost' (HB1 Hl) HP1) as (en2 & h2 & -> & HB2). eauto.
    + rewrite (affordable_exec st en h lost c o st1' chk (Some k) HB Hst Ha).
      destruct (booked_thrown st en h lost c o st1' chk n k st1 HB Hst Hco Hk Hi) as (h1 & -> & _ & HB1). cbn [w_heap].
      destruct (IH st1 en h1 _ os0 st' lost' (HB1 aid size Hl Hask) HP1) as (en2 & h2 & -> & HB2). eauto.
Qed.

Lemma affordable_or_refused st en (h : heap T) lost c o st' : related st en h -> step dflt eqT ltT st c o st' ->
  affordable cap st lost c \/ refused cap st lost c /\ exists aid n, asks_for st c aid n.
Proof.
  intros HR HS. destruct (asks_or_not dflt eqT ltT cap st c o st' HS) as [(aid & n & Hask)|(HN & _)].
  - destruct (Z.le_gt_cases (in_use st aid + lost_in lost aid + n) (cap aid)) as [L|L].
    + left. intros aid' n' Hask'. destruct (asks_fun st en h c aid n aid' n' HR Hask Hask') as [<- <-]. auto.
    + right. split; [|eauto]. exists aid, n. split; [auto|lia].
  - left. intros aid n Hask. destruct (HN aid n Hask).
Qed.

Lemma loses_asks st c o st' k : step dflt eqT ltT st c o st' -> loses k c = true -> exists aid n, asks_for st c aid n.
Proof. intros HS HL. destruct HS; try discriminate HL; do 2 eexists; constructor; eassumption. Qed.

Lemma budgeted_total : forall p st en (h : heap T) lost, booked st en h lost -> lawful dflt eqT ltT st p ->
  exists os st' lost', budgeted dflt eqT ltT cap st lost p os st' lost'.
Proof.
  induction p as [|[c f] p IH]; intros st en h lost HB HA; [exists [], st, lost; constructor|].
  cbn [lawful] in HA. destruct HA as (HL & HD & HT & HU). pose proof (proj1 HB) as HR.
  destruct (legal_step dflt eqT ltT st en h c HR HL) as (o & st1 & HS). destruct (costs_some dflt eqT ltT st c o st1 HS) as [n Hn].
  destruct (affordable_or_refused st en h lost c o st1 HR HS) as [Haf|[Href Hask]].
  2: { destruct (IH st en h lost HB (HU Hask)) as (os & st2 & l2 & HV). do 3 eexists. eapply bu_refused; eauto. }
  assert (D : (forall k, f = Some k -> (n <= k)%nat) \/ exists k, f = Some k /\ (k < n)%nat).
  { destruct f as [k|]; [|left; discriminate]. destruct (Nat.lt_ge_cases k n); [right; eauto|left; intros ? [= <-]; auto]. }
  destruct D as [Hf|(k & -> & Hk)].
  - destruct (booked_done st en h lost c o st1 true n f HB HS Hn Hf) as (en1 & h1 & f1 & _ & HB1).
    destruct (IH st1 en1 h1 lost HB1 (HD o st1 HS)) as (os & st2 & m & HV). do 3 eexists. eapply bu_done; eauto.
  - destruct (interrupted_exists dflt eqT ltT st en h c o st1 n k HR HS Hn Hk) as [st2 HI].
    destruct (booked_thrown st en h lost c o st1 true n k st2 HB HS Hn Hk HI) as (h1 & _ & HB1 & HB2).
    destruct (loses k c) eqn:El.
    + destruct (loses_asks st c o st1 k HS El) as (aid & size & Hask).
      destruct (IH st2 en h1 _ (HB2 aid size eq_refl Hask) (HT k st2 eq_refl HI)) as (os & st3 & m & HV).
      do 3 eexists. eapply bu_lost; eauto.
    + destruct (IH st2 en h1 _ (HB1 eq_refl) (HT k st2 eq_refl HI)) as (os & st3 & m & HV).
      do 3 eexists. eapply bu_thrown; eauto.
Qed.

(** programs in which nothing else goes wrong *)
Definition calmly (p : list (@command T)) : list (@command T * option nat) := map (fun c => (c, None)) p.

Lemma enough_run chk : forall p st en (h : heap T) os st', booked st en h [] -> steps dflt eqT ltT st p os st' ->
  (forall p1 c p2 os1 os2 st1 aid n, p = p1 ++ c :: p2 -> steps dflt eqT ltT st p1 os1 st1 -> steps dflt eqT ltT st1 (c :: p2) os2 st' ->
     asks_for st1 c aid n -> in_use st1 aid + n <= cap aid) ->
  exists en' h', q_run cap dflt eqT ltT chk en (calmly p) h = Done (en', map Some os) (World h' None) /\ booked st' en' h' [].
Proof.
  induction p as [|c p IH]; intros st en h os st' HB HP HE; inversion HP as [|c0 o st1 p0 os0 st2 Hst HP1]; subst.
  - exists en, h. split; [reflexivity|auto].
  - destruct (costs_some dflt eqT ltT st c o st1 Hst) as [n Hn]. cbn [calmly map q_run].
    rewrite (affordable_exec st en h [] c o st1 chk None HB Hst).
    2: { intros aid m Hask. cbn [lost_in fold_right]. rewrite Z.add_0_r. apply (HE [] c p [] (o :: os0) st aid m); auto. constructor. }
    destruct (booked_done st en h [] c o st1 chk n None HB Hst Hn) as (en1 & h1 & f1 & -> & HB1); [discriminate|]. cbn [w_heap].
    destruct (IH st1 en1 h1 os0 st' HB1 HP1) as (en2 & h2 & E2 & HB2).
    { intros p1 c1 p2 os1 os2 st3 aid m Ep H1 H2 Hask. apply (HE (c :: p1) c1 p2 (o :: os1) os2 st3 aid m); auto; [cbn; congruence|econstructor; eauto]. }
    unfold calmly in E2. rewrite E2. eauto.
Qed.
Lemma needs_run chk : forall p1 c p2 st en (h : heap T) os os1 os2 st1 st' aid n w e, booked st en h [] ->
  steps dflt eqT ltT st p1 os1 st1 -> steps dflt eqT ltT st1 (c :: p2) os2 st' -> asks_for st1 c aid n ->
  q_run cap dflt eqT ltT chk en (calmly (p1 ++ c :: p2)) h = Done (e, map Some os) w -> in_use st1 aid + n <= cap aid.
Proof.
  induction p1 as [|c0 p1 IH]; intros c p2 st en h os os1 os2 st1 st' aid n w e HB H1 H2 Hask E.
  - inversion H1; subst. inversion H2 as [|c1 o st2 p0 os0 st3 Hst HP1]; subst. cbn [app calmly map q_run] in E.
    destruct (affordable_or_refused st1 en h [] c o st2 (proj1 HB) Hst) as [HA|[HF _]].
    + specialize (HA aid n Hask). cbn [lost_in fold_right] in HA. lia.
    + rewrite (refused_exec st1 en h [] c o st2 chk None HB Hst HF) in E.
      destruct (q_run cap dflt eqT ltT chk en _ (w_heap (World h None))) as [[e2 os3] w2| | | |]; try discriminate E.
      injection E as _ E _. destruct os; discriminate E.
  - inversion H1 as [|c1 o st2 p0 os0 st3 Hst HP1]; subst. cbn [app calmly map q_run] in E.
    destruct (affordable_or_refused st en h [] c0 o st2 (proj1 HB) Hst) as [HA|[HF _]].
    + destruct (costs_some dflt eqT ltT st c0 o st2 Hst) as [m Hm].
      rewrite (affordable_exec st en h [] c0 o st2 chk None HB Hst HA) in E.
      destruct (booked_done st en h [] c0 o st2 chk m None HB Hst Hm) as (en1 & h1 & f1 & E1 & HB1); [discriminate|].
      rewrite E1 in E. cbn [w_heap] in E.
      destruct (q_run cap dflt eqT ltT chk en1 _ h1) as [[e2 os3] w2| | | |] eqn:E2; try discriminate E.
      injection E as <- E <-. destruct os as [|o1 os]; [discriminate E|]. injection E as _ ->. eapply IH; eauto.
    + rewrite (refused_exec st en h [] c0 o st2 chk None HB Hst HF) in E.
      destruct (q_run cap dflt eqT ltT chk en _ (w_heap (World h None))) as [[e2 os3] w2| | | |]; try discriminate E.
      injection E as _ E _. destruct os; discriminate E.
Qed.
End ThmQuota.

(** * C65 *)

(** Programs that catch every exception, with allocators of limited capacity, in
    which any allocation, element construction or element assignment may also
    throw of its own accord: outputs, values, geometry and names are exactly those
    of the specification, and at the end every allocator has handed out exactly the
    elements of the live arrays made with it and of the blocks lost on the way *)
Theorem c65_exactly_enough : forall (T : Type) (dflt : T) eqT ltT cap chk p os st lost,
  budgeted dflt eqT ltT cap empty_state [] p os st lost ->
  exists en h, q_run cap dflt eqT ltT chk (Env [] []) p [] = Done (en, os) (World h None) /\
    agrees st en h /\ memory_ok en h /\
    forall aid, used aid h = in_use st aid + lost_in lost aid.
Proof.
  intros T dflt eqT ltT cap chk p os st lost HP.
  destruct (budgeted_run dflt eqT ltT cap chk p empty_state (Env [] []) [] [] os st lost booked_nil HP) as (en & h & E & HB).
  exists en, h. split; [auto|]. split; [apply (related_agrees dflt eqT ltT); apply (proj1 HB)|]. split; [pose proof (proj1 HB) as HR; eapply related_memory; eauto|].
  intros aid. apply (booked_used _ _ _ _ aid HB).
Qed.

(** the outcome is a function of the program, its throw points and the capacities *)
Theorem c65_outcome_is_determined : forall (T : Type) (dflt : T) eqT ltT cap p os st lost os' st' lost',
  budgeted dflt eqT ltT cap empty_state [] p os st lost -> budgeted dflt eqT ltT cap empty_state [] p os' st' lost' ->
  os = os' /\ s_arrays st = s_arrays st' /\ (forall aid, lost_in lost aid = lost_in lost' aid) /\
  forall k n n', named_is st k n -> named_is st' k n' -> same_place (place_of n) (place_of n').
Proof.
  intros T dflt eqT ltT cap p os st lost os' st' lost' H1 H2.
  destruct (budgeted_run dflt eqT ltT cap true p empty_state (Env [] []) [] [] os st lost booked_nil H1) as (en & h & E & HB).
  destruct (budgeted_run dflt eqT ltT cap true p empty_state (Env [] []) [] [] os' st' lost' booked_nil H2) as (en' & h' & E' & HB').
  rewrite E in E'. injection E' as <- <- <-. split; [auto|].
  assert (EA : s_arrays st = s_arrays st') by (pose proof (proj1 HB) as R1; pose proof (proj1 HB') as R2; eapply related_fun; eauto).
  split; [auto|]. split.
  - intros aid. pose proof (booked_used _ _ _ _ aid HB) as U. pose proof (booked_used _ _ _ _ aid HB') as U'.
    unfold in_use in *. rewrite EA in U. lia.
  - intros k n n'. pose proof (proj1 HB) as R1; pose proof (proj1 HB') as R2; eapply related_same_names; eauto.
Qed.

(** and there always is one *)
Theorem c65_outcome_exists : forall (T : Type) (dflt : T) eqT ltT cap p,
  lawful dflt eqT ltT empty_state p ->
  exists os st lost, budgeted dflt eqT ltT cap empty_state [] p os st lost.
Proof. intros T dflt eqT ltT cap p HA. eapply budgeted_total; [apply booked_nil|auto]. Qed.

(** A program in which nothing else goes wrong runs to the end without bad_alloc
    exactly when at every constructor and resize the array's allocator has room for
    the new elements besides the elements of all arrays alive then, among them the
    one being resized *)
Theorem c65_smallest_memory : forall (T : Type) (dflt : T) eqT ltT cap chk p os st,
  steps dflt eqT ltT empty_state p os st ->
  ((exists en h, q_run cap dflt eqT ltT chk (Env [] []) (map (fun c => (c, None)) p) [] = Done (en, map Some os) (World h None)) <->
   forall p1 c p2 os1 os2 st1 aid n, p = p1 ++ c :: p2 ->
     steps dflt eqT ltT empty_state p1 os1 st1 -> steps dflt eqT ltT st1 (c :: p2) os2 st ->
     asks_for st1 c aid n -> in_use st1 aid + n <= cap aid).
Proof.
  intros T dflt eqT ltT cap chk p os st HS. split.
  - intros (en & h & E) p1 c p2 os1 os2 st1 aid n -> H1 H2 Hask.
    eapply (needs_run dflt eqT ltT cap chk p1 c p2 empty_state (Env [] []) []); eauto. apply booked_nil.
  - intros HE. destruct (enough_run dflt eqT ltT cap chk p empty_state (Env [] []) [] os st booked_nil HS HE) as (en & h & E & _). eauto.
Qed.

(** resize needs room for the whole new array while it still has the old one, even
    when it shrinks the array; without that room it throws and nothing at all has
    changed *)
Theorem c65_resize_needs_both : forall (T : Type) (dflt : T) cap chk h f a vs g bases shape,
  owns h a vs -> length shape = length (cr_ext (ma_ref a)) ->
  order_ok (length shape) (cr_storage (ma_ref a)) -> layout_ok (cr_storage (ma_ref a)) bases shape ->
  eg_num g = length shape -> ranges_are (eg_ranges g) bases shape ->
  q_ma_resize cap dflt chk a g (World h f) =
  if used (ma_aid a) h + prod shape <=? cap (ma_aid a)
  then ma_resize dflt chk a g (World h f)
  else Thrown (World h f).
Proof.
  intros T dflt cap chk h f a vs g bases shape Ho HL HO Hl Hn Hg.
  apply (asks_resize dflt cap chk a vs g bases shape h Ho HL HO Hl Hn Hg).
Qed.

(** commands that neither construct nor resize never ask for memory *)
Theorem c65_no_memory_needed : forall (T : Type) (dflt : T) eqT ltT cap st c o st' chk en w,
  step dflt eqT ltT st c o st' -> (forall aid n, ~ asks_for st c aid n) ->
  q_exec cap dflt eqT ltT chk en c w = exec dflt eqT ltT chk en c w.
Proof.
  intros T dflt eqT ltT cap st c o st' chk en w HS HN.
  destruct (asks_or_not dflt eqT ltT cap st c o st' HS) as [(aid & n & Hask)|(_ & HX)]; [destruct (HN aid n Hask)|].
  rewrite (proj1 (HX chk en)). auto.
Qed.

(** Allocators with room for 9 elements.  A 2x3 array is made with allocator 7 and
    filled; resizing it to 2x2 is refused, because the old 6 and the new 4 elements
    do not fit together; so is a copy of it; an array of 3 elements would fit, but
    its second element cannot be constructed: its memory is lost, and from then on
    not even a single element can be had from allocator 7; allocator 8 has its own 9 *)
Definition ex_cap : nat -> Z := fun _ => 9.
Definition ex_tight : list (@command Z * option nat) :=
  [ (NewList [2; 3] (so_from_c 2) 7, None);
    (Fill 0 [1; 2; 3; 4; 5; 6], None);
    (ResizeList 0 [2; 2], None);
    (NewCopy 0, None);
    (NewList [3] (so_from_c 1) 7, Some 2%nat);
    (NewList [1] (so_from_c 1) 7, None);
    (NewList [9] (so_from_c 1) 8, None);
    (Get (Var 0) [1; 2], None) ].
Definition ex_tight_end : @state Z :=
  St [Some (Arr [2; 3] [0; 0] (so_from_c 2) 7%nat [1; 2; 3; 4; 5; 6]);
      Some (Arr [9] [0] (so_from_c 1) 8%nat [0; 0; 0; 0; 0; 0; 0; 0; 0])] [].

Lemma ex_short n al : In n [1; 3; 9] -> well_formed (blank 0 [n] [0] (so_from_c 1) al).
Proof.
  intros H. apply blank_ok; [apply (proj1 (c02_named_orders_valid 1))|].
  change (so_from_c 1) with (SO [0%nat] [true]). destruct H as [<-|[<-|[<-|[]]]]; layout_tac.
Qed.
Lemma ex_resizable : exists o st, step 0 Z.eqb Z.ltb (ex_st [1; 2; 3; 4; 5; 6]) (ResizeList 0 [2; 2]) o st.
Proof.
  destruct (steps_related 0 Z.eqb Z.ltb [NewList [2; 3] (so_from_c 2) 7; Fill 0 [1; 2; 3; 4; 5; 6]] [ONone; ONone] (ex_st [1; 2; 3; 4; 5; 6])) as (en & h & HR).
  { eapply ss_cons; [apply s_list; apply ex_well_formed|]. change (add_array _ _) with (ex_st [0; 0; 0; 0; 0; 0]).
    eapply ss_cons; [eapply s_fill; reflexivity|]. apply ss_nil. }
  eapply legal_step; [exact HR|]. cbn [legal]. eexists. split; [reflexivity|]. split; [reflexivity|].
  change (so_from_c 2) with (SO [1%nat; 0%nat] [true; true]). layout_tac.
Qed.

Example ex_c65 : budgeted 0 Z.eqb Z.ltb ex_cap empty_state [] ex_tight
    [Some ONone; Some ONone; None; None; None; None; Some ONone; Some (OVal 6)] ex_tight_end [(7%nat, 3)] /\
  exists en h, q_run ex_cap 0 Z.eqb Z.ltb true (Env [] []) ex_tight [] =
    Done (en, [Some ONone; Some ONone; None; None; None; None; Some ONone; Some (OVal 6)]) (World h None) /\
    used 7 h = 9 /\ used 8 h = 9.
Proof.
  split; [|do 2 eexists; split; [vm_compute; reflexivity|split; reflexivity]].
  unfold ex_tight. eapply bu_done; [apply s_list; apply ex_well_formed|apply (co_list _ [2; 3])|discriminate|intros aid n H; inversion H; subst; vm_compute; congruence|].
  change (add_array _ _) with (ex_st [0; 0; 0; 0; 0; 0]).
  eapply bu_done; [eapply s_fill; reflexivity|apply (co_fill _ _ [1; 2; 3; 4; 5; 6] (Arr [2; 3] [0; 0] (so_from_c 2) 7%nat [0; 0; 0; 0; 0; 0])); reflexivity|discriminate|intros aid n H; inversion H|].
  change (set_array _ _ _) with (ex_st [1; 2; 3; 4; 5; 6]).
  destruct ex_resizable as (o & st & HS). eapply bu_refused; [exact HS| |].
  { do 2 eexists. split; [eapply (af_resize_list _ 0 [2; 2]); reflexivity|reflexivity]. }
  eapply bu_refused; [apply s_copy; reflexivity| |].
  { do 2 eexists. split; [eapply af_copy; reflexivity|reflexivity]. }
  eapply bu_lost with (size := 3) (aid := 7%nat); [apply s_list; apply (ex_short 3); cbn; auto|apply (co_list _ [3])|vm_compute; lia|intros aid n H; inversion H; subst; vm_compute; congruence|apply i_list|reflexivity|apply (af_list _ [3])|].
  eapply bu_refused; [apply s_list; apply (ex_short 1); cbn; auto| |].
  { do 2 eexists. split; [apply af_list|reflexivity]. }
  eapply bu_done; [apply s_list; apply (ex_short 9); cbn; auto|apply (co_list _ [9])|discriminate|intros aid n H; inversion H; subst; vm_compute; congruence|].
  change (add_array _ _) with ex_tight_end.
  eapply bu_done; [eapply s_get; [apply (dn_var ex_tight_end 0 (Arr [2; 3] [0; 0] (so_from_c 2) 7%nat [1; 2; 3; 4; 5; 6])); reflexivity|]|apply co_get|discriminate|intros aid n H; inversion H|apply bu_nil].
  split; [cbn; lia|]. eexists. split; reflexivity.
Qed.

Example ex_c65_lawful : lawful 0 Z.eqb Z.ltb empty_state
  [(NewList [2; 3] (so_from_c 2) 7, Some 2%nat); (NewList [9] (so_from_c 1) 8, None)].
Proof.
  assert (L9 : order_ok 1 (so_from_c 1) /\ layout_ok (so_from_c 1) [0] [9]) by (destruct (ex_short 9 8) as (H1 & H2 & _); [cbn; auto|split; [exact H1|exact H2]]).
  cbn [lawful]. split; [destruct ex_well_formed as (H1 & H2 & _); split; [exact H1|exact H2]|].
  split; [intros o st' _|split; [intros k st' _ _|intros _]]; (split; [exact L9|]; split; [auto|split; auto]).
Qed.
