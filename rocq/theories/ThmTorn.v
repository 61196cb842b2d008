(** ThmTorn.v -- C64: an element assignment that fails half way damages only the
    element it was assigning. *)

From Coq Require Import Lia.
From Verif Require Import Base StorageOrder Ranges Layout Access Objects Memory Ops MultiArray History Torn.
From Verif Require Import Spec ReachSpec MemSpec CompareSpec OwnSpec HistorySpec CostSpec FaultSpec ExactSpec TornSpec OverlapSpec.
From Verif Require Import Facts LayoutProofs AccessProofs MemoryProofs CopyProofs ReachProofs CompareProofs OwnProofs ResizeProofs ThmGeometry ThmCopy ThmBulk ThmMultiArray HistoryProofs HeapProofs ThmHistory ThmFaults CostProofs ThmCosts ThmExact TornProofs ThmOverlap.

Section ThmTorn.
Context {T : Type}.
Variable dflt : T.
Variable eqT : T -> T -> bool.
Variable ltT : T -> T -> bool.

Lemma torn_done u st en (h : heap T) c o st' chk n k : related st en h -> step dflt eqT ltT st c o st' -> costs st c n -> (n <= k)%nat ->
  exists en' h' f', torn_exec u dflt eqT ltT chk en c (World h (Some k)) = Done (en', o) (World h' f') /\ related st' en' h' /\
    (length h <= length h')%nat /\ forall b, leaked en' h' b <-> leaked en h b.
Proof.
  intros HR HS HC Hk. destruct (exec_done dflt eqT ltT st en h c o st' chk n (Some k) HR HS HC ltac:(intros ? [= <-]; auto)) as (en' & h' & f' & E & HX).
  exists en', h', f'. split; [|exact HX]. pose proof (calm_exec u dflt eqT ltT chk en c (World h (Some k))) as HC2. rewrite E in HC2. exact HC2.
Qed.
Lemma torn_misuse u st en (h : heap T) f c : related st en h -> misuse st c ->
  torn_exec u dflt eqT ltT true en c (World h f) = Aborted (World h f).
Proof.
  intros HR HM. pose proof (calm_exec u dflt eqT ltT true en c (World h f)) as HC. rewrite (misuse_aborts dflt eqT ltT st en h f c HR HM) in HC. exact HC.
Qed.

Lemma put_next u st en (h : heap T) d p i : related st en h -> stands_for (e_vars en) d p -> in_bounds (pl_bases p) (pl_shape p) i ->
  exists st', put st p i u st'.
Proof.
  intros HR HS Hi. destruct (stands_owner _ _ _ _ _ HR HS) as (c & m & a & _ & Ea & _). eexists. split; [auto|]. exists a. split; [eauto|reflexivity].
Qed.
Lemma put_one u st en (h : heap T) d p i st' : related st en h -> stands_for (e_vars en) d p -> put st p i u st' -> one_element_is st u st'.
Proof.
  intros HR HS (Hi & a & Ha & ->). destruct (stands_owner _ _ _ _ _ HR HS) as (c & m & a' & _ & Ea & _ & _ & _ & _ & _ & _ & _ & HX).
  rewrite <- (array_fun _ _ _ _ Ha Ea) in *. exists (pl_var p), a, (pl_cell p i). split; [auto|]. split; [apply HX; auto|reflexivity].
Qed.

Lemma position_next d k : nd_ok d -> (k < count (nd_ext d))%nat ->
  (exists j, nth_error (all_positions (nd_ext d)) k = Some j /\ in_bounds (nd_base d) (nd_ext d) (tadd (nd_base d) j)) /\
  (exists i, nth_error (tuples (nd_base d) (nd_ext d)) k = Some i /\ in_bounds (nd_base d) (nd_ext d) i).
Proof.
  intros Hok Hk. pose proof (CostProofs.length_addrs d Hok) as LA. unfold addrs in LA. rewrite map_length in LA.
  pose proof Hok as (L & _). split.
  - destruct (nth_error (all_positions (nd_ext d)) k) as [j|] eqn:E.
    + exists j. split; [auto|]. apply tadd_in_bounds; auto. apply in_positions. eapply nth_error_In. exact E.
    + apply nth_error_None in E. unfold all_positions in E. rewrite (length_tuples_bases _ _ (nd_base d)) in E; rewrite ?repeat_length; auto. lia.
  - destruct (nth_error (tuples (nd_base d) (nd_ext d)) k) as [j|] eqn:E.
    + exists j. split; [auto|]. apply in_tuples; auto. eapply nth_error_In. exact E.
    + apply nth_error_None in E. lia.
Qed.

(** one place: where the next assignment of an interrupted operation goes *)
Lemma next_exists (u : T) st en (h : heap T) st1 h1 e p k q : related st en h -> related st1 en h1 ->
  denotes st e p -> denotes st e q -> (k < count (pl_shape q))%nat ->
  (exists j st2, nth_error (all_positions (pl_shape p)) k = Some j /\ put st1 p (tadd (pl_bases p) j) u st2) /\
  (exists i (st2 : @state T), nth_error (tuples (pl_bases p) (pl_shape p)) k = Some i /\ put st1 p i u st2).
Proof.
  intros HR HR1 Hp Hq Hk. pose proof (denotes_place st en h _ _ _ HR Hp Hq) as (_ & EB & ES & _).
  destruct (denotes_nd st en h true _ _ HR Hp) as (d & _ & Hd).
  destruct (stands_owner _ _ _ _ _ HR Hd) as (? & ? & ? & _ & _ & _ & _ & _ & _ & Hok & Eb & Ee & _).
  destruct (position_next d k Hok) as [(j & Ej & Hj) (i & Ei & Hi)]; [congruence|]. rewrite Eb, Ee in *. split.
  - destruct (put_next u st1 en h1 d p (tadd (pl_bases p) j) HR1 Hd Hj) as [st2 H2]. eauto.
  - destruct (put_next u st1 en h1 d p i HR1 Hd Hi) as [st2 H2]. eauto.
Qed.

Lemma torn_exists u st en (h : heap T) c o st' n k : related st en h -> step dflt eqT ltT st c o st' -> costs st c n -> (k < n)%nat ->
  exists st2, torn st k u c st2.
Proof.
  intros HR HS HC Hk. destruct (interrupted_exists dflt eqT ltT st en h c o st' n k HR HS HC Hk) as [st1 HI].
  destruct (exec_thrown dflt eqT ltT st en h c o st' true n k st1 HR HS HC Hk HI) as (h1 & _ & HR1 & _).
  destruct HI as [n0 aid|shape so aid|rs so aid|y|e so aid|x rs|x shape|e i v|e i v
    |dst src pd ps st1 Hd Hs Hcp|x y pd ps st1 Hd Hs Hxy Hcp|dst src pd ps st1 Hd Hs Hcp
    |x l a Ha|q l x off bases shape so a Hq Ha|e f p st1 Hp Hm]; try (eexists; constructor; eassumption).
  - inversion HS as [| | | | | | | | | | | | | | |e0 i0 v0 p st0 Hp (Hi & a & Ha & _)| | | | | | | | | | | | | | | | |]; subst.
    eexists. eapply to_set; [eassumption|]. split; [auto|]. exists a. split; [auto|reflexivity].
  - inversion HS as [| | | | | | | | | | | | | | | | |e0 i0 v0 p st0 Hp (Hi & a & Ha & _)| | | | | | | | | | | | | | |]; subst.
    eexists. eapply to_setb; [eassumption|]. split; [auto|]. exists a. split; [auto|reflexivity].
  - assert (exists q, denotes st dst q /\ n = count (pl_shape q)) as (q & Hq & ->) by (inversion HC; subst; eauto).
    destruct (next_exists u st en h st1 h1 _ pd k q HR HR1 Hd Hq Hk) as [(j & st2 & Ej & HP) _].
    eexists. exact (to_assign _ _ _ _ _ _ _ _ _ _ Hd Hs Hcp Ej HP).
  - assert (exists q, denotes st (Var x) q /\ n = count (pl_shape q)) as (q & Hq & ->).
    { inversion HC; subst; [|contradiction]. match goal with H : array_is st x ?a |- _ => eexists; split; [apply dn_var; exact H|reflexivity] end. }
    destruct (next_exists u st en h st1 h1 _ pd k q HR HR1 Hd Hq Hk) as [(j & st2 & Ej & HP) _].
    eexists. exact (to_assign_var _ _ _ _ _ _ _ _ _ _ Hd Hs Hxy Hcp Ej HP).
  - assert (exists q, denotes st dst q /\ n = count (pl_shape q)) as (q & Hq & ->) by (inversion HC; subst; eauto).
    destruct (next_exists u st en h st1 h1 _ pd k q HR HR1 Hd Hq Hk) as [(j & st2 & Ej & HP) _].
    eexists. exact (to_copy_array _ _ _ _ _ _ _ _ _ _ Hd Hs Hcp Ej HP).
  - eexists; eapply to_fill_ref; eassumption.
  - assert (exists q, denotes st e q /\ n = count (pl_shape q)) as (q & Hq & ->) by (inversion HC; subst; eauto).
    destruct (next_exists u st en h st1 h1 _ p k q HR HR1 Hp Hq Hk) as [_ (j & st2 & Ej & HP)].
    eexists. exact (to_for_each _ _ _ _ _ _ _ _ _ Hp Hm Ej HP).
Qed.

Lemma torn_one u st en (h : heap T) c o st' n k st2 : related st en h -> step dflt eqT ltT st c o st' -> costs st c n -> (k < n)%nat ->
  torn st k u c st2 -> exists st1, interrupted st k c st1 /\ (st2 = st1 \/ one_element_is st1 u st2).
Proof.
  intros HR HS HC Hk HT.
  assert (HI : forall st1, interrupted st k c st1 -> exists h1, related st1 en h1).
  { intros st1 HI. destruct (exec_thrown dflt eqT ltT st en h c o st' true n k st1 HR HS HC Hk HI) as (h1 & _ & HR1 & _). eauto. }
  destruct HT as [n0 aid|shape so aid|rs so aid|y|e so aid|x rs|x shape|e i v p st2 Hp HP|e i v p st2 Hp HP
    |dst src pd ps j st1 st2 Hd Hs Hcp Hj HP|x y pd ps j st1 st2 Hd Hs Hxy Hcp Hj HP|dst src pd ps j st1 st2 Hd Hs Hcp Hj HP
    |x l a Ha|q l x off bases shape so a Hq Ha|e f p i st1 st2 Hp Hm Hi HP];
    try (exists st; split; [constructor|left; reflexivity]).
  - exists st. split; [constructor|right]. destruct (denotes_nd st en h true _ _ HR Hp) as (d & _ & Hd). eapply put_one; eauto.
  - exists st. split; [constructor|right]. destruct (denotes_nd st en h true _ _ HR Hp) as (d & _ & Hd). eapply put_one; eauto.
  - assert (HX : interrupted st k (Assign dst src) st1) by (econstructor; eauto). exists st1. split; [auto|right].
    destruct (HI _ HX) as [h1 HR1]. destruct (denotes_nd st en h true _ _ HR Hd) as (d & _ & Hdd). eapply put_one; eauto.
  - assert (HX : interrupted st k (AssignVar x y) st1) by (econstructor; eauto). exists st1. split; [auto|right].
    destruct (HI _ HX) as [h1 HR1]. destruct (denotes_nd st en h true _ _ HR Hd) as (d & _ & Hdd). eapply put_one; eauto.
  - assert (HX : interrupted st k (CopyArray dst src) st1) by (econstructor; eauto). exists st1. split; [auto|right].
    destruct (HI _ HX) as [h1 HR1]. destruct (denotes_nd st en h true _ _ HR Hd) as (d & _ & Hdd). eapply put_one; eauto.
  - exists (set_array st x (filled a (length (a_elems a)) (firstn k l))). split; [constructor; auto|right].
    destruct (relA_var _ _ _ _ _ (proj1 HR) Ha) as (m & Em & Hr). pose proof Hr as (Ho & Y1 & _). pose proof Ho as (Hc & _ & _ & _ & Hln & _).
    assert (HK : (k < length l)%nat /\ (k < length (a_elems a))%nat).
    { inversion HC as [| | | | | | | | | | |x0 l0 a0 Ha0| | | | | | | | | | | | | | | | | | | |]; subst. rewrite <- (array_fun _ _ _ _ Ha Ha0) in Hk.
      unfold count in Hk. pose proof (array_object_ok _ Hc) as (_ & _ & _ & _ & En). unfold cr_num_elements in Hln. rewrite En, Y1 in Hln. lia. }
    unfold one_element_is. exists x, (filled a (length (a_elems a)) (firstn k l)), k.
    assert (Lx : (x < length (s_arrays st))%nat) by (apply nth_error_Some; unfold array_is in Ha; congruence).
    split; [unfold array_is, set_array; cbn [s_arrays]; apply nth_error_set_nth_eq; auto|].
    split; [unfold filled; cbn [a_elems]; rewrite !app_length, skipn_length, !firstn_length; lia|].
    change (filled a (length (a_elems a)) (firstn k l ++ [u])) with (filled_from a 0 (length (a_elems a)) (firstn k l ++ [u])).
    rewrite torn_filled_from by (simpl; lia). unfold set_array. cbn [s_arrays s_named]. rewrite set_nth_set_nth. reflexivity.
  - exists (set_array st x (filled_from a (Z.to_nat off) (Z.to_nat (prod shape)) (firstn k l))). split; [econstructor; eauto|right].
    destruct (named_eval st en h _ _ HR Hq) as (d & Ed & Hd). destruct d as [v|c]; cbn [hrel] in Hd; [tauto|].
    destruct Hd as (m & Em & Hc & (HL1 & HL2 & HL3) & E1 & E2 & E3).
    destruct (relA_var _ _ _ _ _ (proj1 HR) Ha) as (m' & Em' & Hr). rewrite Em in Em'. injection Em' as <-. pose proof Hr as (Ho & Y1 & _). pose proof Ho as (_ & _ & _ & _ & Hln & _).
    pose proof (array_object_ok c Hc) as (_ & Hrp & _ & _ & EN).
    assert (EN' : cr_num_elements c = prod shape) by (unfold cr_num_elements; congruence).
    assert (HK : (k < length l)%nat /\ (k < Z.to_nat (prod shape))%nat).
    { inversion HC as [| | | | | | | | | | | |q0 l0 x0 off0 b0 s0 so0 Hq0| | | | | | | | | | | | | | | | | | |]; subst.
      assert (s0 = cr_ext c) by (unfold named_is in *; congruence). subst s0. unfold count in Hk. lia. }
    exists x, (filled_from a (Z.to_nat off) (Z.to_nat (prod shape)) (firstn k l)), (Z.to_nat off + k)%nat.
    assert (Lx : (x < length (s_arrays st))%nat) by (apply nth_error_Some; unfold array_is in Ha; congruence).
    split; [unfold array_is, set_array; cbn [s_arrays]; apply nth_error_set_nth_eq; auto|].
    split; [unfold filled_from; cbn [a_elems]; rewrite !app_length, skipn_length, !firstn_length; lia|].
    rewrite torn_filled_from by (simpl; lia). unfold set_array. cbn [s_arrays s_named]. rewrite set_nth_set_nth. reflexivity.
  - assert (HX : interrupted st k (ForEach e f) st1) by (econstructor; eauto). exists st1. split; [auto|right].
    destruct (HI _ HX) as [h1 HR1]. destruct (denotes_nd st en h true _ _ HR Hp) as (d & _ & Hdd). eapply put_one; eauto.
Qed.

Lemma withstands_run asserts chk : (asserts = true -> chk = true) -> forall p st en (h : heap T) os st' m, related st en h ->
  withstands dflt eqT ltT asserts st p os st' m ->
  exists en' h', torn_run dflt eqT ltT chk en p h = Done (en', os) (World h' None) /\ related st' en' h' /\
    exists new, length new = m /\ NoDup new /\ (forall b, In b new -> (length h <= b)%nat) /\
      forall b, leaked en' h' b <-> leaked en h b \/ In b new.
Proof.
  intros Hac. induction p as [|[c f] p IH]; intros st en h os st' m HR HS.
  - inversion HS; subst. exists en, h. split; [reflexivity|]. split; [auto|]. exists []. split; [auto|]. split; [constructor|].
    split; [intros b []|]. simpl. tauto.
  - inversion HS as [|c0 f0 r0 o os0 n st1 st2 m0 Hst Hco Hf HS1|c0 k u r0 o os0 n st1 st1' st2 m0 Hst Hco Hk Hi HS1|c0 f0 r0 os0 st2 m0 Ha Hm HS1]; subst; cbn [torn_run].
    + assert (HD : exists en' h' f', match f with
            | Some (k, u) => torn_exec u dflt eqT ltT chk en c (World h (Some k))
            | None => exec dflt eqT ltT chk en c (World h None)
            end = Done (en', o) (World h' f') /\ related st1 en' h' /\
         (length h <= length h')%nat /\ forall b, leaked en' h' b <-> leaked en h b).
      { destruct f as [[k u]|]; [apply torn_done with (st := st) (n := n); eauto|apply exec_done with (st := st) (n := n); auto; discriminate]. }
      destruct HD as (en1 & h1 & f1 & -> & HR1 & L1 & K1). cbn [w_heap].
      destruct (IH st1 en1 h1 os0 st' m HR1 HS1) as (en2 & h2 & -> & HR2 & new & Ln & Nd & Hge & K2).
      exists en2, h2. split; [auto|]. split; [auto|]. exists new. split; [auto|]. split; [auto|].
      split; [intros b Hb; specialize (Hge b Hb); lia|]. intros b. rewrite K2, K1. tauto.
    + destruct (torn_thrown u dflt eqT ltT st en h c o st1' chk n k st1 HR Hst Hco Hk Hi) as (h1 & -> & HR1 & L1 & K1). cbn [w_heap].
      destruct (IH st1 en h1 os0 st' m0 HR1 HS1) as (en2 & h2 & -> & HR2 & new & Ln & Nd & Hge & K2).
      exists en2, h2. split; [auto|]. split; [auto|].
      assert (HB : loses k c = true -> (length h < length h1)%nat).
      { intros HX. assert (HY : leaked en h1 (length h)) by (apply K1; auto). destruct HY as [[z Hz] _]. apply nth_error_Some. congruence. }
      exists (if loses k c then length h :: new else new). destruct (loses k c) eqn:EL.
      * specialize (HB eq_refl). split; [simpl; lia|]. split; [constructor; [|auto]; intros H; specialize (Hge _ H); lia|].
        split; [intros b [<-|H]; [lia|specialize (Hge _ H); lia]|]. intros b. rewrite K2, K1. simpl. intuition.
      * split; [auto|]. split; [auto|]. split; [intros b H; specialize (Hge _ H); lia|]. intros b. rewrite K2, K1. intuition discriminate.
    + rewrite (Hac eq_refl) in *.
      assert (HA : match f with
            | Some (k, u) => torn_exec u dflt eqT ltT true en c (World h (Some k))
            | None => exec dflt eqT ltT true en c (World h None)
            end = Aborted (World h (match f with Some (k, _) => Some k | None => None end))).
      { destruct f as [[k u]|]; [eapply torn_misuse; eauto|apply misuse_aborts with (st := st); auto]. }
      rewrite HA. cbn [w_heap].
      destruct (IH st en h os0 st' m HR HS1) as (en2 & h2 & -> & HR2 & new & HN). exists en2, h2. split; [auto|]. split; [auto|].
      exists new. exact HN.
Qed.

Lemma withstands_total asserts : forall p st en (h : heap T), related st en h -> tolerable dflt eqT ltT asserts st p ->
  exists os st' m, withstands dflt eqT ltT asserts st p os st' m.
Proof.
  induction p as [|[c f] p IH]; intros st en h HR HA; [exists [], st, O; constructor|].
  cbn [tolerable] in HA. destruct HA as ([HL|[Ha Hm]] & HD & HT & HU).
  - destruct (legal_step dflt eqT ltT st en h c HR HL) as (o & st1 & HS). destruct (costs_some dflt eqT ltT st c o st1 HS) as [n Hn].
    assert (D : (forall k u, f = Some (k, u) -> (n <= k)%nat) \/ exists k u, f = Some (k, u) /\ (k < n)%nat).
    { destruct f as [[k u]|]; [|left; discriminate]. destruct (Nat.lt_ge_cases k n); [right; eauto|left; intros ? ? [= <- <-]; auto]. }
    destruct D as [Hf|(k & u & -> & Hk)].
    + destruct (exec_done dflt eqT ltT st en h c o st1 true n None HR HS Hn ltac:(discriminate)) as (en1 & h1 & f1 & _ & HR1 & _).
      destruct (IH st1 en1 h1 HR1 (HD o st1 HS)) as (os & st2 & m & HV). exists (Some o :: os), st2, m. eapply ws_done; eauto.
    + destruct (torn_exists u st en h c o st1 n k HR HS Hn Hk) as [st2 HI].
      destruct (torn_thrown u dflt eqT ltT st en h c o st1 true n k st2 HR HS Hn Hk HI) as (h1 & _ & HR1 & _).
      destruct (IH st2 en h1 HR1 (HT k u st2 eq_refl HI)) as (os & st3 & m & HV). do 3 eexists. eapply ws_thrown; eauto.
  - destruct (IH st en h HR (HU Hm)) as (os & st2 & m & HV). do 3 eexists. eapply ws_misuse; eauto.
Qed.
End ThmTorn.

(** * C64 *)

(** Programs in which any element assignment may throw half way and leave any value
    behind in the element it was assigning to (and any allocation or element
    construction may throw), and which catch everything: outputs, values, geometry,
    names and lost memory are exactly those of the specification *)
Theorem c64_where_torn_assignments_leave_a_program : forall (T : Type) (dflt : T) eqT ltT asserts chk p os st m,
  (asserts = true -> chk = true) -> withstands dflt eqT ltT asserts empty_state p os st m ->
  exists en h, torn_run dflt eqT ltT chk (Env [] []) p [] = Done (en, os) (World h None) /\
    agrees st en h /\ memory_ok en h /\
    exists lost, length lost = m /\ NoDup lost /\ forall b, leaked en h b <-> In b lost.
Proof.
  intros T dflt eqT ltT asserts chk p os st m Hac HS.
  destruct (withstands_run dflt eqT ltT asserts chk Hac p empty_state (Env [] []) [] os st m related_nil HS) as (en & h & E & HR & new & Ln & Nd & _ & K).
  exists en, h. split; [auto|]. split; [apply related_agrees; auto|]. split; [eapply related_memory; eauto|].
  exists new. split; [auto|]. split; [auto|]. intros b. rewrite K. split; [|auto]. intros [[[z Hz] _]|]; [destruct b; discriminate|auto].
Qed.

(** the outcome is a function of the program, its throw points and what they leave *)
Theorem c64_outcome_is_determined : forall (T : Type) (dflt : T) eqT ltT asserts p os st m os' st' m',
  withstands dflt eqT ltT asserts empty_state p os st m -> withstands dflt eqT ltT asserts empty_state p os' st' m' ->
  os = os' /\ m = m' /\ s_arrays st = s_arrays st' /\
  forall k n n', named_is st k n -> named_is st' k n' -> same_place (place_of n) (place_of n').
Proof.
  intros T dflt eqT ltT asserts p os st m os' st' m' H1 H2.
  destruct (withstands_run dflt eqT ltT asserts true (fun _ => eq_refl) p empty_state (Env [] []) [] os st m related_nil H1) as (en & h & E & HR & new & Ln & Nd & _ & K).
  destruct (withstands_run dflt eqT ltT asserts true (fun _ => eq_refl) p empty_state (Env [] []) [] os' st' m' related_nil H2) as (en' & h' & E' & HR' & new' & Ln' & Nd' & _ & K').
  rewrite E in E'. injection E' as <- <- <-. split; [auto|]. split.
  - assert (HI : forall b, In b new <-> In b new').
    { intros b. specialize (K b). specialize (K' b). assert (~ leaked (Env [] []) (@nil (option (@block T))) b) by (intros [[z Hz] _]; destruct b; discriminate). tauto. }
    rewrite <- Ln, <- Ln'. apply Nat.le_antisymm; apply NoDup_incl_length; auto; intros b; apply HI.
  - split; [eapply related_fun; eauto|]. intros k n n'. eapply related_same_names; eauto.
Qed.

(** and there always is one *)
Theorem c64_outcome_exists : forall (T : Type) (dflt : T) eqT ltT asserts p,
  tolerable dflt eqT ltT asserts empty_state p ->
  exists os st m, withstands dflt eqT ltT asserts empty_state p os st m.
Proof. intros T dflt eqT ltT asserts p HA. eapply withstands_total; [apply related_nil|auto]. Qed.

(** A command in which an assignment fails half way leaves what a command would
    leave in which that assignment threw without effect, but for at most one
    element -- the one that was being assigned *)
Theorem c64_only_one_element : forall (T : Type) (dflt : T) eqT ltT asserts p os st m c o st' n k u st2,
  withstands dflt eqT ltT asserts empty_state p os st m ->
  step dflt eqT ltT st c o st' -> costs st c n -> (k < n)%nat -> torn st k u c st2 ->
  exists st1, interrupted st k c st1 /\ (st2 = st1 \/ one_element_is st1 u st2).
Proof.
  intros T dflt eqT ltT asserts p os st m c o st' n k u st2 HV HS HC Hk HT.
  destruct (withstands_run dflt eqT ltT asserts true (fun _ => eq_refl) p empty_state (Env [] []) [] os st m related_nil HV) as (en & h & _ & HR & _).
  eapply torn_one; eauto.
Qed.

(** dst = src (and copy_array) between any two arrays, subarrays or views of equal
    shape, when what is overwritten has already been read: an assignment of an
    element that fails half way leaves the elements before it assigned, the one it
    was assigning as the failure left it, the elements after it and everything
    outside dst as they were *)
Theorem c64_assignment : forall (T : Type) (h : heap T) (u : T) chk c1 c2 dst src k j,
  array_object c1 -> derived c1 dst -> array_object c2 -> derived c2 src -> nd_ext dst = nd_ext src ->
  live h c1 -> live h c2 -> read_first dst src -> nth_error (positions (nd_ext dst)) k = Some j ->
  exists h', torn_assign_nd u chk (length (nd_ext dst)) dst src (World h (Some k)) = Thrown (World h' None) /\
    torn_copy_array u chk (length (nd_ext dst)) dst src (World h (Some k)) = Thrown (World h' None) /\
    (forall i, In i (firstn k (positions (nd_ext dst))) -> exists v,
       reads h src (tadd (nd_base src) i) v /\ reads h' dst (tadd (nd_base dst) i) v) /\
    reads h' dst (tadd (nd_base dst) j) u /\
    (forall i, In i (skipn (S k) (positions (nd_ext dst))) -> exists v,
       reads h dst (tadd (nd_base dst) i) v /\ reads h' dst (tadd (nd_base dst) i) v) /\
    (forall p, ~ element_of dst p -> same_at h h' p).
Proof.
  intros T h u chk c1 c2 dst src k j H1 Hd H2 Hs He L1 L2 Hr Hj.
  pose proof (derived_ok c1 dst H1 Hd) as Hok1. pose proof (derived_ok c2 src H2 Hs) as Hok2.
  assert (Hk : (k < length (positions (nd_ext dst)))%nat) by (apply nth_error_Some; congruence).
  destruct (c53_interrupted T h chk c1 c2 dst src k H1 Hd H2 Hs He L1 L2 Hr Hk) as (h1 & E1 & E2 & A & B & C).
  set (ps := positions (nd_ext dst)) in *. pose proof Hok1 as (Lb & _).
  destruct (nth_error_split ps k Hj) as (l1 & l2 & Eps & Ll).
  assert (Ef : firstn k ps = l1) by (rewrite Eps, <- Ll, firstn_app, Nat.sub_diag, firstn_all, app_nil_r; reflexivity).
  assert (Es : skipn k ps = j :: l2) by (rewrite Eps, <- Ll, skipn_app, Nat.sub_diag, skipn_all; reflexivity).
  rewrite <- (skipn_next _ _ _ _ Es). rewrite Ef in *. rewrite Es in *.
  assert (HB : forall i, In i ps -> in_bounds (nd_base dst) (nd_ext dst) (tadd (nd_base dst) i)).
  { intros i Hi. apply tadd_in_bounds; auto. apply in_positions. exact Hi. }
  assert (HN : NoDup (map (fun i => addr dst (tadd (nd_base dst) i)) ps)).
  { apply (derived_addr_nodup c1); auto; [intros i; apply in_positions|apply nodup_positions]. }
  assert (HNE : forall i, In i (l1 ++ l2) -> addr dst (tadd (nd_base dst) j) <> addr dst (tadd (nd_base dst) i)).
  { intros i Hi X. rewrite Eps, map_app in HN. cbn [map] in HN. apply NoDup_remove_2 in HN. apply HN. rewrite <- map_app.
    apply in_map_iff. eauto. }
  assert (Hjp : In j ps) by (rewrite Eps; apply in_elt).
  assert (Hsub : forall i, In i (l1 ++ l2) -> In i ps) by (intros i Hi; rewrite Eps; apply in_app_iff in Hi; apply in_app_iff; simpl; tauto).
  destruct (B j (or_introl eq_refl)) as (vj & _ & Rj). apply reads_iff in Rj; auto.
  destruct (store_spec h1 (addr dst (tadd (nd_base dst) j)) u None) as (h2 & ES & _ & C2); [eexists; exact Rj|].
  unfold store in ES. cbn [w_heap w_fuse] in ES. destruct (hwrite _ _ _) as [h3| |] eqn:EW in ES; try discriminate ES. injection ES as ->.
  assert (HR : forall i v, In i (l1 ++ l2) -> reads h1 dst (tadd (nd_base dst) i) v -> reads h2 dst (tadd (nd_base dst) i) v).
  { intros i v Hi H. apply reads_iff in H; auto. apply reads_iff; auto. rewrite C2.
    destruct (ptr_eqb _ _) eqn:EE; auto. apply ptr_eqb_eq in EE. destruct (HNE i Hi EE). }
  exists h2.
  assert (EC : nth_error (combine (addrs dst) (addrs src)) k = Some (addr dst (tadd (nd_base dst) j), addr src (tadd (nd_base src) j))).
  { apply copies_combine; auto. }
  split; [|split; [|split; [|split; [|split]]]].
  - rewrite torn_assign_nd_eq by (auto; congruence). rewrite assign_nd_eq in E1 by (auto; congruence).
    rewrite torn_cells_eq, EC, E1. cbn [fst tear_at w_heap w_fuse]. rewrite EW. reflexivity.
  - rewrite torn_copy_array_eq by (auto; congruence). rewrite copy_array_eq in E2 by (auto; congruence).
    rewrite torn_cells_eq, EC, E2. cbn [fst tear_at w_heap w_fuse]. rewrite EW. reflexivity.
  - intros i Hi. destruct (A i Hi) as (v & R1 & R2). exists v. split; [auto|]. apply HR; auto. apply in_or_app; auto.
  - apply reads_iff; auto. rewrite C2, ptr_eqb_refl. reflexivity.
  - intros i Hi. destruct (B i (or_intror Hi)) as (v & R1 & R2). exists v. split; [auto|]. apply HR; auto. apply in_or_app; auto.
  - intros p Hp. unfold same_at in *. rewrite C2. destruct (ptr_eqb _ _) eqn:EE; [|apply C; auto]. apply ptr_eqb_eq in EE. subst p.
    destruct Hp. eexists. split; [apply HB, Hjp|]. apply access_element_ok; auto.
Qed.

(** resize keeps its promise even so: when copying one of the kept elements fails
    half way, the damaged element is in the new block, which is given back; the
    array, and all the rest of memory, are as if the assignment had thrown without
    effect *)
Theorem c64_resize_is_unaffected : forall (T : Type) (dflt u : T) chk a vs g bases shape (h : heap T) f,
  owns h a vs -> ranges_are (eg_ranges g) bases shape -> eg_num g = length shape ->
  length shape = length (cr_ext (ma_ref a)) -> layout_ok (cr_storage (ma_ref a)) bases shape ->
  torn_ma_resize u dflt chk a g (World h f) = ma_resize dflt chk a g (World h f).
Proof. intros T dflt u chk a vs g bases shape h f Ho Hr Hn Hl HL. eapply torn_resize_same; eauto. Qed.

(** the 2x3 array holds 1..6; assigning its reversed second row to the first row
    fails half way in the third element and leaves 99 there; a second array cannot
    be made because copying its last element fails (one block is lost, the first
    array is untouched); the third element of the first row is 99 *)
Definition ex_tearing : list (@command Z * option (nat * Z)) :=
  [ (NewList [2; 3] (so_from_c 2) 7, None);
    (Fill 0 [1; 2; 3; 4; 5; 6], Some (6%nat, 99));
    (Get (Var 0) [2; 0], None);
    (Assign (Sub (Var 0) 0) (View_of (Var 0) [At 1; Slice (Some 2) (Some (-1)) (-1)]), Some (2%nat, 99));
    (NewCopy 0, Some (12%nat, 98));
    (Get (Sub (Var 0) 0) [2], None) ].

Example ex_c64 : withstands 0 Z.eqb Z.ltb true empty_state ex_tearing
    [Some ONone; Some ONone; None; None; None; Some (OVal 99)] (ex_st [6; 5; 99; 4; 5; 6]) 1 /\
  exists en h, torn_run 0 Z.eqb Z.ltb true (Env [] []) ex_tearing [] =
    Done (en, [Some ONone; Some ONone; None; None; None; Some (OVal 99)]) (World h None).
Proof.
  split; [|do 2 eexists; vm_compute; reflexivity].
  unfold ex_tearing. eapply ws_done; [apply s_list; apply ex_well_formed|apply (co_list _ [2; 3])|discriminate|].
  change (add_array _ _) with (ex_st [0; 0; 0; 0; 0; 0]).
  eapply ws_done; [eapply s_fill; reflexivity|apply (co_fill _ _ [1; 2; 3; 4; 5; 6] (Arr [2; 3] [0; 0] (so_from_c 2) 7%nat [0; 0; 0; 0; 0; 0])); reflexivity|intros k u [= <- <-]; vm_compute; lia|].
  change (set_array _ _ _) with (ex_st [1; 2; 3; 4; 5; 6]).
  apply ws_misuse; [reflexivity| |].
  { eapply mu_get; [apply dn_var; reflexivity|]. split; [reflexivity|]. split; [cbn; lia|]. repeat constructor; unfold index_value; unconst; lia. }
  change 1%nat with (Nat.add (if loses 2 (@Assign Z (Sub (Var 0) 0) (View_of (Var 0) [At 1; Slice (Some 2) (Some (-1)) (-1)])) then 1%nat else 0%nat) 1).
  eapply ws_thrown with (st1 := ex_st [6; 5; 99; 4; 5; 6]) (st1' := ex_st [6; 5; 4; 4; 5; 6]) (n := 3%nat); [| |lia| |].
  { eapply s_assign; [apply ex_denotes_dst|apply ex_denotes_src|]. split; [reflexivity|].
    change (all_positions (pl_shape ex_dst)) with [[0]; [1]; [2]].
    copy_one. copy_one. copy_one. constructor. }
  { apply (co_assign _ _ _ ex_dst). apply ex_denotes_dst. }
  { eapply to_assign with (j := [2]) (st1 := ex_st [6; 5; 3; 4; 5; 6]); [apply ex_denotes_dst|apply ex_denotes_src| |reflexivity|].
    - change (firstn 2 (all_positions (pl_shape ex_dst))) with [[0]; [1]]. copy_one. copy_one. constructor.
    - split; [cbn; lia|]. exists (Arr [2; 3] [0; 0] (so_from_c 2) 7%nat [6; 5; 3; 4; 5; 6]). split; reflexivity. }
  change 1%nat with (Nat.add (if loses 12 (@NewCopy Z 0) then 1%nat else 0%nat) 0).
  eapply ws_thrown; [eapply s_copy; reflexivity|eapply co_copy; reflexivity|vm_compute; lia|apply to_copy|].
  eapply ws_done; [eapply s_get; [apply ex_denotes_dst|]|apply co_get|discriminate|apply ws_nil].
  look_one.
Qed.

Example ex_c64_tolerable : tolerable 0 Z.eqb Z.ltb true empty_state
  [ (NewList [2; 3] (so_from_c 2) 7, None); (Set_ (Var 0) [1; 2] 5, Some (0%nat, 99)); (Get (Var 0) [2; 0], None) ].
Proof.
  assert (HM : forall vs, misuse (ex_st vs) (@Get Z (Var 0) [2; 0])).
  { intros vs. eapply mu_get; [apply dn_var; reflexivity|]. split; [reflexivity|]. split; [cbn; lia|]. repeat constructor; unfold index_value; unconst; lia. }
  assert (HT : forall vs, tolerable 0 Z.eqb Z.ltb true (ex_st vs) [(Get (Var 0) [2; 0], None)]).
  { intros vs. cbn [tolerable]. split; [right; split; [reflexivity|apply HM]|auto]. }
  cbn [tolerable]. split; [left; split; apply ex_well_formed|].
  split; [|split; [congruence|intros H; inversion H]].
  intros o st1 H1. inversion H1; subst. clear H1. change (add_array _ _) with (ex_st [0; 0; 0; 0; 0; 0]).
  split; [left; eexists; split; [apply dn_var; reflexivity|cbn; lia]|].
  assert (HX : forall v p st1, denotes (ex_st [0; 0; 0; 0; 0; 0]) (Var 0) p -> put (ex_st [0; 0; 0; 0; 0; 0]) p [1; 2] v st1 -> exists vs, st1 = ex_st vs).
  { intros v p st1 Hp (_ & a & Ha & ->). inversion Hp as [x0 a0 Ha0| | | | |]; subst. cbn in Ha, Ha0. injection Ha as <-. injection Ha0 as <-. eexists. reflexivity. }
  split; [|split].
  - intros o st1 H1. inversion H1; subst. edestruct HX as [vs ->]; eauto. apply HT.
  - intros k u st1 _ H1. inversion H1; subst. edestruct HX as [vs ->]; eauto. apply HT.
  - intros _. apply HT.
Qed.
