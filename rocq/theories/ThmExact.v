(** ThmExact.v -- C58: exactly where exceptions and failed assertions leave a
    program. *)

From Coq Require Import Lia.
From Verif Require Import Base StorageOrder Ranges Layout Access Objects Memory Ops MultiArray History.
From Verif Require Import Spec ReachSpec MemSpec CompareSpec OwnSpec HistorySpec CostSpec FaultSpec ExactSpec.
From Verif Require Import Facts LayoutProofs MemoryProofs OwnProofs HistoryProofs HeapProofs ThmHistory ThmFaults CostProofs ThmCosts.

Section ThmExact.
Context {T : Type}.
Variable dflt : T.
Variable eqT : T -> T -> bool.
Variable ltT : T -> T -> bool.

(** an expression denotes one place *)
Lemma stands_place st en (h : heap T) d p q : related st en h ->
  stands_for (e_vars en) d p -> stands_for (e_vars en) d q -> same_place p q.
Proof.
  intros [HA _] (c & m & Em & Hc & HL & Hdv & Eb & Ee & Es & _ & Ei) (c' & m' & Em' & Hc' & HL' & Hdv' & Eb' & Ee' & Es' & _ & Ei').
  unfold same_place. split; [congruence|]. split; [congruence|]. split; [congruence|].
  intros i Hi. destruct (Ei i Hi) as [A1 B1]. destruct (Ei' i ltac:(rewrite <- Eb', <- Ee', Eb, Ee; auto)) as [A2 B2].
  rewrite A1 in A2. injection A2 as X Y. split; [|lia].
  destruct (Nat.eq_dec (pl_var p) (pl_var q)) as [|Hne]; auto.
  exfalso. apply (proj2 HA _ _ _ _ Em Em' Hne). auto.
Qed.
Lemma denotes_place st en (h : heap T) e p q : related st en h -> denotes st e p -> denotes st e q -> same_place p q.
Proof.
  intros HR H1 H2. destruct (denotes_nd st en h true e p HR H1) as (d & E & Hd). destruct (denotes_nd st en h true e q HR H2) as (d' & E' & Hd').
  assert (d' = d) by congruence. subst d'. eapply stands_place; eauto.
Qed.

Lemma look_same (st : @state T) p q i u v : same_place p q -> look st p i u -> look st q i v -> u = v.
Proof.
  intros (_ & _ & _ & HS) (Hi & a & Ha & Hu) (_ & b & Hb & Hv). destruct (HS i Hi) as [E1 E2].
  rewrite <- E1 in Hb. rewrite <- (array_fun _ _ _ _ Ha Hb) in Hv. congruence.
Qed.
Lemma put_same (st : @state T) p q i v st1 st2 : same_place p q -> put st p i v st1 -> put st q i v st2 -> st1 = st2.
Proof.
  intros (_ & _ & _ & HS) (Hi & a & Ha & ->) (_ & b & Hb & ->). destruct (HS i Hi) as [E1 E2].
  rewrite <- E1 in Hb. rewrite <- (array_fun _ _ _ _ Ha Hb). congruence.
Qed.
Lemma copies_same pd qd ps qs : same_place pd qd -> same_place ps qs ->
  forall ks (st st1 st2 : @state T), copies pd ps ks st st1 -> copies qd qs ks st st2 -> st1 = st2.
Proof.
  intros Hd Hs. induction ks as [|k ks IH]; intros st st1 st2 H1 H2; inversion H1 as [|k0 ks0 s0 sa sb v L1 P1 C1]; subst; inversion H2 as [|k1 ks1 s1 sc sd v' L2 P2 C2]; subst; [auto|].
  assert (Eb : pl_bases ps = pl_bases qs) by apply Hs. assert (Ed : pl_bases pd = pl_bases qd) by apply Hd.
  rewrite <- Eb in L2. rewrite <- Ed in P2.
  rewrite <- (look_same _ _ _ _ _ _ Hs L1 L2) in P2. rewrite <- (put_same _ _ _ _ _ _ _ Hd P1 P2) in C2. eauto.
Qed.
Lemma mapped_same p q f : same_place p q ->
  forall ks (st st1 st2 : @state T), mapped p f ks st st1 -> mapped q f ks st st2 -> st1 = st2.
Proof.
  intros Hd. induction ks as [|k ks IH]; intros st st1 st2 H1 H2; inversion H1 as [|k0 ks0 s0 sa sb v L1 P1 C1]; subst; inversion H2 as [|k1 ks1 s1 sc sd v' L2 P2 C2]; subst; [auto|].
  rewrite <- (look_same _ _ _ _ _ _ Hd L1 L2) in P2. rewrite <- (put_same _ _ _ _ _ _ _ Hd P1 P2) in C2. eauto.
Qed.

Lemma interrupted_fun st en (h : heap T) k c st1 st2 : related st en h -> interrupted st k c st1 -> interrupted st k c st2 -> st1 = st2.
Proof.
  intros HR H1 H2.
  destruct H1; inversion H2; subst; try reflexivity;
  try (match goal with C : copies ?p ?s _ _ ?x, D : copies ?q ?t _ _ ?y |- ?x = ?y =>
         assert (SP : same_place p q) by (eapply denotes_place; eassumption);
         assert (SQ : same_place s t) by (eapply denotes_place; eassumption);
         assert (ES : pl_shape q = pl_shape p) by (symmetry; apply SP); rewrite ES in D; exact (copies_same _ _ _ _ SP SQ _ _ _ _ C D)
       end).
  - unfold array_is in *. congruence.
  - unfold array_is, named_is in *. congruence.
  - match goal with C : mapped ?p _ _ _ ?x, D : mapped ?q _ _ _ ?y |- ?x = ?y =>
      assert (SP : same_place p q) by (eapply denotes_place; eassumption);
      assert (EB : pl_bases q = pl_bases p) by (symmetry; apply SP);
      assert (ES : pl_shape q = pl_shape p) by (symmetry; apply SP); rewrite ES, EB in D
    end. eapply mapped_same; eassumption.
Qed.

(** one command, with operation k throwing *)
Lemma exec_thrown st en (h : heap T) c o st' chk n k st1 : related st en h -> step dflt eqT ltT st c o st' -> costs st c n -> (k < n)%nat ->
  interrupted st k c st1 ->
  exists h', exec dflt eqT ltT chk en c (World h (Some k)) = Thrown (World h' None) /\ related st1 en h' /\
    (length h <= length h')%nat /\
    forall b, leaked en h' b <-> leaked en h b \/ loses k c = true /\ b = length h.
Proof.
  intros HR HS HC Hk HI. destruct (exec_meter dflt eqT ltT st en h c o st' chk n HR HS HC) as (en' & h' & _ & [_ K] & _).
  destruct (proj2 (K k) Hk) as [h2 E]. exists h2. split; [auto|].
  pose proof (exec_sound dflt eqT ltT st en h c o st' chk (Some k) HR HS) as HF.
  pose proof (r_exec dflt eqT ltT chk en c (World h (Some k))) as HL. rewrite E in HF, HL. cbn [follows w_heap w_fuse] in HF.
  destruct HF as (_ & k' & st'' & Ek & HI' & HR' & Hlk). injection Ek as <-.
  rewrite (interrupted_fun _ _ _ _ _ _ _ HR HI HI'). split; [auto|]. split; [apply HL|auto].
Qed.

Lemma exec_done st en (h : heap T) c o st' chk n f : related st en h -> step dflt eqT ltT st c o st' -> costs st c n ->
  (forall k, f = Some k -> (n <= k)%nat) ->
  exists en' h' f', exec dflt eqT ltT chk en c (World h f) = Done (en', o) (World h' f') /\ related st' en' h' /\
    (length h <= length h')%nat /\ forall b, leaked en' h' b <-> leaked en h b.
Proof.
  intros HR HS HC Hf. destruct (exec_meter dflt eqT ltT st en h c o st' chk n HR HS HC) as (en' & h' & HR' & [E K] & L).
  assert (HD : exists f', exec dflt eqT ltT chk en c (World h f) = Done (en', o) (World h' f')).
  { destruct f as [k|]; [|eauto]. rewrite (proj1 (K k) (Hf k eq_refl)). eauto. }
  destruct HD as [f' ED]. exists en', h', f'. split; [auto|]. split; [auto|]. split; [lia|].
  pose proof (exec_sound dflt eqT ltT st en h c o st' chk None HR HS) as HF. rewrite E in HF. apply HF.
Qed.

Lemma survives_run asserts chk : (asserts = true -> chk = true) -> forall p st en (h : heap T) os st' m, related st en h ->
  survives dflt eqT ltT asserts st p os st' m ->
  exists en' h', run_handled dflt eqT ltT chk en p h = Done (en', os) (World h' None) /\ related st' en' h' /\
    exists new, length new = m /\ NoDup new /\ (forall b, In b new -> (length h <= b)%nat) /\
      forall b, leaked en' h' b <-> leaked en h b \/ In b new.
Proof.
  intros Hac. induction p as [|[c f] p IH]; intros st en h os st' m HR HS.
  - inversion HS; subst. exists en, h. split; [reflexivity|]. split; [auto|]. exists []. split; [auto|]. split; [constructor|].
    split; [intros b []|]. simpl. tauto.
  - inversion HS as [|c0 f0 r0 o os0 n st1 st2 m0 Hst Hco Hf HS1|c0 k r0 o os0 n st1 st1' st2 m0 Hst Hco Hk Hi HS1|c0 f0 r0 os0 st2 m0 Ha Hm HS1]; subst; cbn [run_handled].
    + destruct (exec_done st en h c o st1 chk n f HR Hst Hco Hf) as (en1 & h1 & f1 & -> & HR1 & L1 & K1). cbn [w_heap].
      destruct (IH st1 en1 h1 os0 st' m HR1 HS1) as (en2 & h2 & -> & HR2 & new & Ln & Nd & Hge & K2).
      exists en2, h2. split; [auto|]. split; [auto|]. exists new. split; [auto|]. split; [auto|].
      split; [intros b Hb; specialize (Hge b Hb); lia|]. intros b. rewrite K2, K1. tauto.
    + destruct (exec_thrown st en h c o st1' chk n k st1 HR Hst Hco Hk Hi) as (h1 & -> & HR1 & L1 & K1). cbn [w_heap].
      destruct (IH st1 en h1 os0 st' m0 HR1 HS1) as (en2 & h2 & -> & HR2 & new & Ln & Nd & Hge & K2).
      exists en2, h2. split; [auto|]. split; [auto|].
      assert (HB : loses k c = true -> (length h < length h1)%nat).
      { intros HX. assert (HY : leaked en h1 (length h)) by (apply K1; auto). destruct HY as [[z Hz] _]. apply nth_error_Some. congruence. }
      exists (if loses k c then length h :: new else new). destruct (loses k c) eqn:EL.
      * specialize (HB eq_refl). split; [simpl; lia|]. split; [constructor; [|auto]; intros H; specialize (Hge _ H); lia|].
        split; [intros b [<-|H]; [lia|specialize (Hge _ H); lia]|]. intros b. rewrite K2, K1. simpl. intuition.
      * split; [auto|]. split; [auto|]. split; [intros b H; specialize (Hge _ H); lia|]. intros b. rewrite K2, K1. intuition discriminate.
    + rewrite (Hac eq_refl) in *. rewrite (misuse_aborts dflt eqT ltT st en h f c HR Hm). cbn [w_heap].
      destruct (IH st en h os0 st' m HR HS1) as (en2 & h2 & -> & HR2 & new & HN). exists en2, h2. split; [auto|]. split; [auto|].
      exists new. exact HN.
Qed.

(** with no mistakes to catch, it is the machine of C41 *)
Lemma survives_catching chk : forall p st en (h : heap T) os st' m, related st en h ->
  survives dflt eqT ltT false st p os st' m ->
  run_catching dflt eqT ltT chk en p h = run_handled dflt eqT ltT chk en p h.
Proof.
  induction p as [|[c f] p IH]; intros st en h os st' m HR HS; [reflexivity|].
  inversion HS as [|c0 f0 r0 o os0 n st1 st2 m0 Hst Hco Hf HS1|c0 k r0 o os0 n st1 st1' st2 m0 Hst Hco Hk Hi HS1|c0 f0 r0 os0 st2 m0 Ha Hm HS1]; subst; cbn [run_handled run_catching].
  - destruct (exec_done st en h c o st1 chk n f HR Hst Hco Hf) as (en1 & h1 & f1 & -> & HR1 & _). cbn [w_heap].
    rewrite (IH st1 en1 h1 os0 st' m HR1 HS1). auto.
  - destruct (exec_thrown st en h c o st1' chk n k st1 HR Hst Hco Hk Hi) as (h1 & -> & HR1 & _). cbn [w_heap].
    rewrite (IH st1 en h1 os0 st' m0 HR1 HS1). auto.
  - discriminate.
Qed.

Lemma misuse_or_legal st en (h : heap T) c o st' : related st en h -> step dflt eqT ltT st c o st' -> misuse st c -> False.
Proof.
  intros HR HS HM. pose proof (exec_sound dflt eqT ltT st en h c o st' true None HR HS) as HF.
  rewrite (misuse_aborts dflt eqT ltT st en h None c HR HM) in HF. exact HF.
Qed.

(** an interrupted command always has a state to leave behind *)
Lemma interrupted_exists st en (h : heap T) c o st' n k : related st en h -> step dflt eqT ltT st c o st' -> costs st c n -> (k < n)%nat ->
  exists st1, interrupted st k c st1.
Proof.
  intros HR HS HC Hk. destruct (exec_meter dflt eqT ltT st en h c o st' true n HR HS HC) as (en' & h' & _ & [_ K] & _).
  destruct (proj2 (K k) Hk) as [h2 E]. pose proof (exec_sound dflt eqT ltT st en h c o st' true (Some k) HR HS) as HF.
  rewrite E in HF. destruct HF as (_ & k' & st'' & Ek & HI' & _). injection Ek as <-. eauto.
Qed.

Lemma survives_total asserts : forall p st en (h : heap T), related st en h -> acceptable dflt eqT ltT asserts st p ->
  exists os st' m, survives dflt eqT ltT asserts st p os st' m.
Proof.
  induction p as [|[c f] p IH]; intros st en h HR HA; [exists [], st, O; constructor|].
  cbn [acceptable] in HA. destruct HA as ([HL|[Ha Hm]] & HD & HT & HU).
  - destruct (legal_step dflt eqT ltT st en h c HR HL) as (o & st1 & HS). destruct (costs_some dflt eqT ltT st c o st1 HS) as [n Hn].
    assert (D : (forall k, f = Some k -> (n <= k)%nat) \/ exists k, f = Some k /\ (k < n)%nat).
    { destruct f as [k|]; [|left; discriminate]. destruct (Nat.lt_ge_cases k n); [right; eauto|left; intros ? [= <-]; auto]. }
    destruct D as [Hf|(k & -> & Hk)].
    + destruct (exec_done st en h c o st1 true n f HR HS Hn Hf) as (en1 & h1 & f1 & _ & HR1 & _).
      destruct (IH st1 en1 h1 HR1 (HD o st1 HS)) as (os & st2 & m & HV). exists (Some o :: os), st2, m. eapply sv_done; eauto.
    + destruct (interrupted_exists st en h c o st1 n k HR HS Hn Hk) as [st2 HI].
      destruct (exec_thrown st en h c o st1 true n k st2 HR HS Hn Hk HI) as (h1 & _ & HR1 & _).
      destruct (IH st2 en h1 HR1 (HT k st2 eq_refl HI)) as (os & st3 & m & HV). do 3 eexists. eapply sv_thrown; eauto.
  - destruct (IH st en h HR (HU Hm)) as (os & st2 & m & HV). do 3 eexists. eapply sv_misuse; eauto.
Qed.

End ThmExact.

(** * C58 *)

(** Programs whose commands keep to the contract or make mistakes that assertions
    catch, in which any allocation, element construction or element assignment
    may throw, and which catch everything (exceptions, and with a throwing
    assertion handler failed assertions): outputs, values, geometry, names and
    lost memory are exactly those of the specification *)
Theorem c58_where_failures_leave_a_program : forall (T : Type) (dflt : T) eqT ltT asserts chk p os st m,
  (asserts = true -> chk = true) -> survives dflt eqT ltT asserts empty_state p os st m ->
  exists en h, run_handled dflt eqT ltT chk (Env [] []) p [] = Done (en, os) (World h None) /\
    agrees st en h /\ memory_ok en h /\
    exists lost, length lost = m /\ NoDup lost /\ forall b, leaked en h b <-> In b lost.
Proof.
  intros T dflt eqT ltT asserts chk p os st m Hac HS.
  destruct (survives_run dflt eqT ltT asserts chk Hac p empty_state (Env [] []) [] os st m related_nil HS) as (en & h & E & HR & new & Ln & Nd & _ & K).
  exists en, h. split; [auto|]. split; [apply related_agrees; auto|]. split; [eapply related_memory; eauto|].
  exists new. split; [auto|]. split; [auto|]. intros b. rewrite K. split; [|auto]. intros [[[z Hz] _]|]; [destruct b; discriminate|auto].
Qed.

(** a program that makes no mistakes needs no assertion handler *)
Theorem c58_without_mistakes : forall (T : Type) (dflt : T) eqT ltT chk p os st m,
  survives dflt eqT ltT false empty_state p os st m ->
  exists en h, run_catching dflt eqT ltT chk (Env [] []) p [] = Done (en, os) (World h None) /\
    agrees st en h /\ memory_ok en h /\
    exists lost, length lost = m /\ NoDup lost /\ forall b, leaked en h b <-> In b lost.
Proof.
  intros T dflt eqT ltT chk p os st m HS.
  rewrite (survives_catching dflt eqT ltT chk p empty_state (Env [] []) [] os st m related_nil HS).
  apply (c58_where_failures_leave_a_program T dflt eqT ltT false chk); [discriminate|auto].
Qed.

(** the outcome is a function of the program and its throw points *)
Theorem c58_outcome_is_determined : forall (T : Type) (dflt : T) eqT ltT asserts p os st m os' st' m',
  survives dflt eqT ltT asserts empty_state p os st m -> survives dflt eqT ltT asserts empty_state p os' st' m' ->
  os = os' /\ m = m' /\ s_arrays st = s_arrays st' /\
  forall k n n', named_is st k n -> named_is st' k n' -> same_place (place_of n) (place_of n').
Proof.
  intros T dflt eqT ltT asserts p os st m os' st' m' H1 H2.
  destruct (survives_run dflt eqT ltT asserts true (fun _ => eq_refl) p empty_state (Env [] []) [] os st m related_nil H1) as (en & h & E & HR & new & Ln & Nd & _ & K).
  destruct (survives_run dflt eqT ltT asserts true (fun _ => eq_refl) p empty_state (Env [] []) [] os' st' m' related_nil H2) as (en' & h' & E' & HR' & new' & Ln' & Nd' & _ & K').
  rewrite E in E'. injection E' as <- <- <-. split; [auto|]. split.
  - assert (HI : forall b, In b new <-> In b new').
    { intros b. specialize (K b). specialize (K' b). assert (~ leaked (Env [] []) (@nil (option (@block T))) b) by (intros [[z Hz] _]; destruct b; discriminate). tauto. }
    rewrite <- Ln, <- Ln'. apply Nat.le_antisymm; apply NoDup_incl_length; auto; intros b; apply HI.
  - split; [eapply related_fun; eauto|]. intros k n n'. eapply related_same_names; eauto.
Qed.

(** and there always is one *)
Theorem c58_outcome_exists : forall (T : Type) (dflt : T) eqT ltT asserts p,
  acceptable dflt eqT ltT asserts empty_state p ->
  exists os st m, survives dflt eqT ltT asserts empty_state p os st m.
Proof. intros T dflt eqT ltT asserts p HA. eapply survives_total; [apply related_nil|auto]. Qed.

(** a 2x3 array is filled with 1..6; reading element (2, 0) fails the assertion and
    is caught; assigning the reversed second row to the first row throws at its
    third element; a second array cannot be constructed because its second element
    throws (one block is lost); the first row is now 6 5 3 *)
Definition ex_failing : list (@command Z * option nat) :=
  [ (NewList [2; 3] (so_from_c 2) 7, None);
    (Fill 0 [1; 2; 3; 4; 5; 6], Some 6%nat);
    (Get (Var 0) [2; 0], None);
    (Assign (Sub (Var 0) 0) (View_of (Var 0) [At 1; Slice (Some 2) (Some (-1)) (-1)]), Some 2%nat);
    (NewList [2; 3] (so_from_c 2) 7, Some 2%nat);
    (Get (Sub (Var 0) 0) [1], None) ].

Example ex_c58 : survives 0 Z.eqb Z.ltb true empty_state ex_failing
    [Some ONone; Some ONone; None; None; None; Some (OVal 5)] (ex_st [6; 5; 3; 4; 5; 6]) 1 /\
  exists en h, run_handled 0 Z.eqb Z.ltb true (Env [] []) ex_failing [] =
    Done (en, [Some ONone; Some ONone; None; None; None; Some (OVal 5)]) (World h None).
Proof.
  split; [|do 2 eexists; vm_compute; reflexivity].
  unfold ex_failing. eapply sv_done; [apply s_list; apply ex_well_formed|apply (co_list _ [2; 3])|discriminate|].
  change (add_array _ _) with (ex_st [0; 0; 0; 0; 0; 0]).
  eapply sv_done; [eapply s_fill; reflexivity|apply (co_fill _ _ [1; 2; 3; 4; 5; 6] (Arr [2; 3] [0; 0] (so_from_c 2) 7%nat [0; 0; 0; 0; 0; 0])); reflexivity|intros k [= <-]; vm_compute; lia|].
  change (set_array _ _ _) with (ex_st [1; 2; 3; 4; 5; 6]).
  apply sv_misuse; [reflexivity| |].
  { eapply mu_get; [apply dn_var; reflexivity|]. split; [reflexivity|]. split; [cbn; lia|]. repeat constructor; unfold index_value; unconst; lia. }
  change 1%nat with (Nat.add (if loses 2 (@Assign Z (Sub (Var 0) 0) (View_of (Var 0) [At 1; Slice (Some 2) (Some (-1)) (-1)])) then 1%nat else 0%nat) 1).
  eapply sv_thrown with (st1 := ex_st [6; 5; 3; 4; 5; 6]) (st1' := ex_st [6; 5; 4; 4; 5; 6]) (n := 3%nat); [| |lia| |].
  { eapply s_assign; [apply ex_denotes_dst|apply ex_denotes_src|]. split; [reflexivity|].
    change (all_positions (pl_shape ex_dst)) with [[0]; [1]; [2]].
    copy_one. copy_one. copy_one. constructor. }
  { apply (co_assign _ _ _ ex_dst). apply ex_denotes_dst. }
  { eapply i_assign; [apply ex_denotes_dst|apply ex_denotes_src|].
    change (firstn 2 (all_positions (pl_shape ex_dst))) with [[0]; [1]]. copy_one. copy_one. constructor. }
  change 1%nat with (Nat.add (if loses 2 (@NewList Z [2; 3] (so_from_c 2) 7) then 1%nat else 0%nat) 0).
  eapply sv_thrown; [apply s_list; apply ex_well_formed|apply (co_list _ [2; 3])|vm_compute; lia|apply i_list|].
  eapply sv_done; [eapply s_get; [apply ex_denotes_dst|]|apply co_get|discriminate|apply sv_nil].
  look_one.
Qed.

Example ex_c58_acceptable : acceptable 0 Z.eqb Z.ltb true empty_state
  [ (NewList [2; 3] (so_from_c 2) 7, None); (Get (Var 0) [2; 0], None) ].
Proof.
  cbn [acceptable]. split; [left; split; apply ex_well_formed|]. split; [|split; [congruence|intros H; inversion H]].
  intros o st1 H1. inversion H1; subst. clear H1. change (add_array _ _) with (ex_st [0; 0; 0; 0; 0; 0]).
  split; [right; split; [reflexivity|]|auto].
  eapply mu_get; [apply dn_var; reflexivity|]. split; [reflexivity|]. split; [cbn; lia|]. repeat constructor; unfold index_value; unconst; lia.
Qed.
