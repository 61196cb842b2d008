(** ThmFork.v -- C68: programs with parallel phases *)

From Coq Require Import ZArith List Bool Lia.
From Verif Require Import Base StorageOrder Ranges Layout Access Objects Memory Ops MultiArray History Threads Concur Fork.
From Verif Require Import Spec ReachSpec MemSpec OwnSpec HistorySpec CostSpec ConcurSpec ParSpec ForkSpec.
From Verif Require Import Facts LayoutProofs AccessProofs ViewProofs ReachProofs MemoryProofs HistoryProofs ConcurProofs FootProofs InterProofs ParProofs ParInter ParView ThmAddressing ThmHistory ThmCosts ThmExact ThmConcur ThmPar.
Import ListNotations.
Local Open Scope Z_scope.

Section Joins.
Context {T : Type}.
Variable dflt : T.
Variable eqT ltT : T -> T -> bool.
Notation result := (list (option (@output T)) * @state T)%type.
Notation finish := ((env * list (option (@output T))) * option nat)%type.
Definition at_end (ends : list finish) : list (job T (env * list (option (@output T))) * option nat) :=
  map (fun e => (JRet (fst e), snd e)) ends.

Lemma repr_data (g : heap T) a m : repr g a m -> cr_data (ma_ref m) = Ptr (ma_block m) 0.
Proof. intros ((_ & E1 & E2 & _) & _). rewrite E1. unfold ma_block. destruct (ma_base m). cbn in *. now rewrite E2. Qed.
Lemma repr_cell (g : heap T) a m q : repr g a m -> hcell g (Ptr (ma_block m) (Z.of_nat q)) = option_map Some (nth_error (a_elems a) q).
Proof.
  intros ((_ & _ & _ & _ & _ & HB) & _). unfold hcell, hblock. cbn [p_blk p_off]. rewrite HB.
  destruct (Z.ltb_spec (Z.of_nat q) 0) as [HX|_]; [lia|]. cbn [b_cells]. rewrite Nat2Z.id, nth_error_map. reflexivity.
Qed.

(** what the memory holds when all threads have finished *)
Lemma join_state lot (st0 : @state T) en0 h0 (HR : related st0 en0 h0) (results : list result) own (ends : list finish) h :
  length results = length ends -> together lot en0 h0 results own (h, at_end ends) ->
  map (fun e => snd (fst e)) ends = map fst results /\
  (forall i fin x a, nth_error (map snd results) i = Some fin -> array_is st0 x a -> exists c, array_is fin x c) /\
  exists st1, joined lot (map snd results) st0 st1 /\ related st1 en0 h.
Proof.
  intros HL HJ.
  assert (FIN : forall i r, nth_error results i = Some r -> exists (P : nat -> Prop) q f st', nth_error ends i = Some (q, f) /\ snd q = fst r /\
    related st' (fst q) h /\ seen_by lot i (length (s_arrays st0)) (snd r) st' /\ holding en0 P (fst q)).
  { intros i r Er. assert (Li : (i < length ends)%nat) by (rewrite <- HL; apply nth_error_Some; congruence).
    destruct (lt_some _ _ Li) as [[q f] Ee]. assert (Hi : nth_error (snd (h, at_end ends)) i = Some (JRet q, f)).
    { cbn [snd]. unfold at_end. rewrite nth_error_map, Ee. reflexivity. }
    destruct (together_ends dflt lot st0 en0 h0 HR results own (h, at_end ends) i q f HJ Hi) as (P & r' & st' & Er' & A1 & A2 & A3 & A4 & _).
    rewrite Er in Er'. injection Er' as <-. exists P, q, f, st'. auto. }
  split; [|split].
  - apply nth_error_ext. intros i. rewrite !nth_error_map. destruct (nth_error results i) as [r|] eqn:Er.
    + destruct (FIN i r Er) as (P & q & f & st' & -> & E & _). cbn. now rewrite E.
    + apply nth_error_None in Er. rewrite (proj2 (nth_error_None ends i)) by lia. reflexivity.
  - intros i fin x a Hf Ha. rewrite nth_error_map in Hf. destruct (nth_error results i) as [r|] eqn:Er; [|discriminate]. injection Hf as <-.
    destruct (FIN i r Er) as (P & q & f & st' & _ & _ & HRf & (_ & HS) & (_ & _ & HF)).
    assert (Lx : (x < length (s_arrays st0))%nat) by (apply nth_error_Some; unfold array_is in Ha; congruence).
    pose proof (proj1 (proj1 HR) x) as R1. unfold array_is in Ha. rewrite Ha in R1. destruct (nth_error (e_vars en0) x) as [[m|]|] eqn:Em; try contradiction.
    assert (Em' : nth_error (e_vars (fst q)) x = Some (Some m)) by (rewrite HF, Em; auto; apply nth_error_Some; congruence).
    destruct (relA_var_inv _ _ _ _ _ (proj1 HRf) Em') as (b & Eb & _).
    destruct (HS x) as [[L _]|[_ E]]; [lia|]. rewrite Eb in E. unfold array_is. destruct (nth_error (s_arrays (snd r)) x) as [[c|]|]; try contradiction. eauto.
  - destruct HJ as (HB & HU & (n & HK) & _). cbn [fst snd] in *.
    assert (LE : length (at_end ends) = length results) by (unfold at_end; rewrite map_length; auto). rewrite LE in *.
    assert (HH : holding en0 (fun _ => False) en0).
    { split; [|split; [lia|auto]]. intros x m Hx Hm. exfalso. assert (x < length (e_vars en0))%nat by (apply nth_error_Some; congruence). lia. }
    destruct (knows_related dflt lot st0 en0 h0 HR (length results) own (h0 ++ pad n) h (fun _ => False) st0 en0 HK (related_pad _ _ _ n HR) HH) as (st1 & R1 & (SN & SA));
      [intros b []|exact HB|].
    exists st1. split; [|exact R1]. split; [exact SN|].
    split; [rewrite (relA_length _ _ _ (proj1 R1)), (relA_length _ _ _ (proj1 HR)); reflexivity|].
    intros x. destruct (SA x) as [[L E]|[L E]].
    { rewrite E, (proj2 (nth_error_None _ _)) by exact L. auto. }
    destruct (nth_error (s_arrays st0) x) as [[a|]|] eqn:Ea, (nth_error (s_arrays st1) x) as [[b|]|] eqn:Eb; try contradiction; auto.
    destruct E as (E1 & E2 & E3 & E4 & E5 & E6). repeat (split; [assumption|]). intros q Hq.
    pose proof (proj1 (proj1 HR) x) as X0. rewrite Ea in X0. destruct (nth_error (e_vars en0) x) as [[m|]|] eqn:Em; try contradiction.
    pose proof (proj1 (proj1 R1) x) as X1. rewrite Eb, Em in X1.
    assert (SOMEB : forall c : @arr T, forall h', repr h' c m -> hcell h' (Ptr (ma_block m) (Z.of_nat q)) = hcell h (Ptr (ma_block m) (Z.of_nat q)) ->
      nth_error (a_elems b) q = nth_error (a_elems c) q).
    { intros c h' Hc Eh. rewrite (repr_cell _ _ _ q Hc), (repr_cell _ _ _ q X1) in Eh.
      destruct (nth_error (a_elems b) q), (nth_error (a_elems c) q); cbn in Eh; congruence. }
    split.
    + intros i fin c HLt Hf Hc. rewrite nth_error_map in Hf. destruct (nth_error results i) as [r|] eqn:Er; [|discriminate]. injection Hf as <-.
      destruct (FIN i r Er) as (P & e & f & st' & _ & _ & HRf & (_ & HS) & (_ & _ & HF)).
      assert (Em' : nth_error (e_vars (fst e)) x = Some (Some m)) by (rewrite HF, Em; auto; apply nth_error_Some; congruence).
      destruct (relA_var_inv _ _ _ _ _ (proj1 HRf) Em') as (d & Ed & HRd).
      rewrite (SOMEB d h HRd eq_refl). destruct (HS x) as [[L' _]|[_ E]]; [lia|]. unfold array_is in Hc. rewrite Hc, Ed in E.
      destruct E as (_ & _ & _ & _ & _ & E). apply E. auto.
    + intros HN. apply (SOMEB a h0 X0). symmetry. apply HU; cbn [p_blk p_off].
      * eapply vars_lim; eauto.
      * rewrite Nat2Z.id. intros j Hj. pose proof (given_fun lot en0 (vars_dis st0 en0 h0 HR) x m q j Em Hj) as HLt.
        specialize (HN j HLt). rewrite map_length in HN. exact HN.
Qed.

Lemma joined_once lot (finals : list (@state T)) st st1 st2 : joined lot finals st st1 -> joined lot finals st st2 ->
  (forall i fin x a, nth_error finals i = Some fin -> array_is st x a -> exists c, array_is fin x c) -> st1 = st2.
Proof.
  intros (N1 & L1 & J1) (N2 & L2 & J2) HF. destruct st1 as [l1 n1], st2 as [l2 n2]. cbn [s_arrays s_named] in *. f_equal; [|congruence].
  apply nth_error_ext. intros x. specialize (J1 x). specialize (J2 x).
  destruct (nth_error (s_arrays st) x) as [[a|]|] eqn:Ea; destruct (nth_error l1 x) as [[b|]|], (nth_error l2 x) as [[c|]|]; try contradiction; auto.
  destruct J1 as (A1 & A2 & A3 & A4 & A5 & A6), J2 as (B1 & B2 & B3 & B4 & B5 & B6).
  assert (E : a_elems b = a_elems c).
  { apply nth_error_ext. intros q. destruct (Nat.lt_ge_cases q (length (a_elems a))) as [Lq|Lq].
    - destruct (A6 q Lq) as [A7 A8], (B6 q Lq) as [B7 B8]. destruct (lot x q) as [i|] eqn:EL.
      + destruct (nth_error finals i) as [fin|] eqn:Ef.
        * destruct (HF i fin x a Ef Ea) as [d Hd]. rewrite (A7 _ _ _ eq_refl Ef Hd), (B7 _ _ _ eq_refl Ef Hd). auto.
        * apply nth_error_None in Ef. rewrite A8, B8; auto; intros j [= <-]; auto.
      + rewrite A8, B8; auto; discriminate.
    - rewrite !(proj2 (nth_error_None _ q)) by lia. auto. }
  destruct b, c; cbn in *. congruence.
Qed.
End Joins.

Section Runs.
Context {T : Type}.
Variable dflt : T.
Variable eqT ltT : T -> T -> bool.
Notation outputs := (list (list (list (option (@output T))))).
Notation f_run := (fork_run dflt eqT ltT).

(** every moment of the run of a program that does what it should *)
Inductive going (outs : outputs) (st : @state T) : @moment T -> Prop :=
| going_between : forall en h rest before after st', related st' en h -> f_run st' rest after st -> outs = before ++ after ->
    going outs st (Between en h rest before)
| going_during : forall en pool h rest before after st' st1 lot h0 results own (HR : related st' en h0),
    length results = length pool -> together lot en h0 results own (h, pool) -> joined lot (map snd results) st' st1 ->
    f_run st1 rest after st -> outs = before ++ map fst results :: after ->
    going outs st (During en pool h rest before).

Lemma going_step chk outs st s s' : going outs st s -> fork_step dflt eqT ltT chk s s' -> going outs st s'.
Proof.
  intros HG HS. destruct HG as [en h rest before after st' HR HF Eo|en pool h rest before after st' st1 lot h0 results own HR HL HJ HN HF Eo].
  - inversion HS; subst.
    + inversion HF; subst. match goal with HX : private_run _ _ _ _ _ _ _ _ |- _ => destruct (alone_run dflt eqT ltT chk 0 _ _ _ _ HX en h HR) as (en1 & h1 & E & HR1) end.
      match goal with HX : run_catching _ _ _ _ _ _ _ = _ |- _ => rewrite E in HX; injection HX as <- <- <- end.
      eapply going_between; [exact HR1|eassumption|rewrite <- app_assoc; reflexivity].
    + inversion HF; subst.
      eapply going_during with (results := results); [exact HR|rewrite map_length; auto|eapply together_start; eauto|eassumption|eassumption|reflexivity].
  - inversion HS; subst.
    + match goal with HX : c_step _ _ |- _ => pose proof (c_steps_length _ _ (cs_step _ _ _ HX (cs_here _))) as LN;
        destruct (together_step lot st' en h0 HR results _ _ _ HX HJ) as [own' HJ'] end. cbn [snd] in LN.
      eapply going_during with (results := results); [exact HR|congruence|exact HJ'|eassumption|eassumption|reflexivity].
    + rewrite map_length in HL. destruct (join_state dflt lot st' en h0 HR results own ends h HL HJ) as (E1 & E2 & st2 & E3 & E4).
      assert (st2 = st1) by (eapply joined_once; eauto). subst st2.
      eapply going_between; [exact E4|eassumption|rewrite E1, <- app_assoc; reflexivity].
Qed.
Lemma going_steps chk outs st s s' : fork_steps dflt eqT ltT chk s s' -> going outs st s -> going outs st s'.
Proof. induction 1; auto. intros HG. apply IHfork_steps. eapply going_step; eauto. Qed.
Lemma going_race outs st s : going outs st s -> ~ races s.
Proof.
  intros [en h rest before after st' HR HF Eo|en pool h rest before after st' st1 lot h0 results own HR HL HJ HN HF Eo]; cbn [races]; [auto|].
  exact (together_race dflt eqT ltT lot st' en h0 HR results _ _ HJ).
Qed.
Lemma all_ends {A} (pool : list (job T A * option nat)) : (forall i m f, nth_error pool i = Some (m, f) -> exists r, m = JRet r) ->
  exists ends, pool = map (fun e => (JRet (fst e), snd e)) ends.
Proof.
  induction pool as [|[m f] pool IH]; intros H; [exists []; auto|].
  destruct IH as [ends ->]; [intros i m' f' Hi; exact (H (S i) m' f' Hi)|]. destruct (H O m f eq_refl) as [r ->].
  exists ((r, f) :: ends). reflexivity.
Qed.
Lemma some_live {A} (pool : list (job T A * option nat)) h :
  (forall i m f, nth_error pool i = Some (m, f) -> (exists r, m = JRet r) \/ exists m' h' f', job_step m h f = Some (m', h', f')) ->
  (exists i m f m' h' f', nth_error pool i = Some (m, f) /\ job_step m h f = Some (m', h', f')) \/
  (forall i m f, nth_error pool i = Some (m, f) -> exists r, m = JRet r).
Proof.
  induction pool as [|[m f] pool IH]; intros H; [right; intros [|i] m f Hi; discriminate|].
  destruct (H O m f eq_refl) as [[r ->]|(m' & h' & f' & E)]; [|left; exists O; do 5 eexists; split; [reflexivity|eassumption]].
  destruct IH as [(i & HX)|HX]; [intros i m' f' Hi; exact (H (S i) m' f' Hi)|left; exists (S i); exact HX|].
  right. intros [|i] m' f' Hi; [injection Hi as <- <-; eauto|eapply HX; exact Hi].
Qed.
Lemma going_on chk outs st s : going outs st s -> (exists en h outs', s = Between en h [] outs') \/ exists s', fork_step dflt eqT ltT chk s s'.
Proof.
  intros [en h rest before after st' HR HF Eo|en pool h rest before after st' st1 lot h0 results own HR HL HJ HN HF Eo].
  - destruct HF; [left; eauto| |right; eexists; apply go_fork].
    right. destruct (alone_run dflt eqT ltT chk 0 _ _ _ _ H en h HR) as (en1 & h1 & E & _). eexists. eapply go_serial. exact E.
  - right. destruct (some_live pool h (fun i m f => together_goes lot st' en h0 HR results own (h, pool) i m f HJ)) as [(i & m & f & m' & h' & f' & Hi & Hs)|HE].
    + eexists. eapply go_work. econstructor; eauto.
    + destruct (all_ends pool HE) as [ends ->]. eexists. apply go_join.
Qed.
Lemma going_start p outs st : f_run empty_state p outs st -> going outs st (Between (Env [] []) [] p []).
Proof. intros H. eapply going_between; [apply related_nil|exact H|reflexivity]. Qed.

(** runs end *)
Lemma fork_acc_between chk rest : forall en h before, Acc (fun s' s => fork_step dflt eqT ltT chk s s') (Between en h rest before).
Proof.
  induction rest as [|ph rest IH]; intros en h before; constructor; intros s' Hs; inversion Hs; subst; auto.
  match goal with |- Acc _ (During _ ?pool _ _ _) => generalize pool end. intros pool. remember (h, pool) as hp eqn:Ehp.
  revert h pool Ehp Hs. generalize (c_step_acc hp). intros HA. induction HA as [hp _ IHp]. intros h pool -> Hs.
  constructor. intros s2 H2. inversion H2; subst; [|apply IH]. eapply IHp; [eassumption|reflexivity|].
  apply go_fork.
Qed.
Lemma fork_acc chk s : Acc (fun s' s => fork_step dflt eqT ltT chk s s') s.
Proof.
  destruct s as [en h rest before|en pool h rest before]; [apply fork_acc_between|].
  remember (h, pool) as hp eqn:Ehp. revert h pool Ehp. generalize (c_step_acc hp). intros HA. induction HA as [hp _ IHp]. intros h pool ->.
  constructor. intros s2 H2. inversion H2; subst; [|apply fork_acc_between]. eapply IHp; [eassumption|reflexivity].
Qed.
Lemma going_ends chk outs st s : going outs st s -> exists en h, fork_steps dflt eqT ltT chk s (Between en h [] outs) /\ related st en h.
Proof.
  intros HG. generalize (fork_acc chk s). intros HA. revert HG. induction HA as [s _ IH]. intros HG.
  destruct (going_on chk _ _ _ HG) as [(en & h & before & ->)|[s' Hs]].
  - inversion HG; subst. match goal with HX : f_run _ [] _ _ |- _ => inversion HX; subst end. rewrite app_nil_r.
    exists en, h. split; [constructor|auto].
  - destruct (IH s' Hs (going_step _ _ _ _ _ HG Hs)) as (en & h & H1 & H2). exists en, h. split; [econstructor; eauto|auto].
Qed.
End Runs.

Section Existence.
Context {T : Type}.
Variable dflt : T.
Variable eqT ltT : T -> T -> bool.

Lemma private_exists k (st0 : @state T) en h p : related st0 en h -> private_legal dflt eqT ltT k st0 p ->
  exists os st, private_run dflt eqT ltT k st0 p os st.
Proof.
  revert st0 en h. induction p as [|[c f] p IH]; intros st en h HR HA; [exists [], st; constructor|].
  cbn [private_legal] in HA. destruct HA as (HL & HM & HD & HT).
  destruct (legal_step dflt eqT ltT st en h c HR HL) as (o & st1 & HS). destruct (costs_some dflt eqT ltT st c o st1 HS) as [n Hn].
  assert (D : (forall j, f = Some j -> (n <= j)%nat) \/ exists j, f = Some j /\ (j < n)%nat).
  { destruct f as [j|]; [|left; discriminate]. destruct (Nat.lt_ge_cases j n); [right; eauto|left; intros ? [= <-]; auto]. }
  destruct D as [Hf|(j & -> & Hk)].
  - destruct (exec_done dflt eqT ltT st en h c o st1 true n f HR HS Hn Hf) as (en1 & h1 & f1 & _ & HR1 & _).
    destruct (IH st1 en1 h1 HR1 (HD o st1 HS)) as (os & st2 & HV). exists (Some o :: os), st2. eapply pr_done; eauto.
  - destruct (interrupted_exists dflt eqT ltT st en h c o st1 n j HR HS Hn Hk) as [st2 HI].
    destruct (exec_thrown dflt eqT ltT st en h c o st1 true n j st2 HR HS Hn Hk HI) as (h1 & _ & HR1 & _).
    destruct (IH st2 en h1 HR1 (HT j st2 eq_refl HI)) as (os & st3 & HV). do 2 eexists. eapply pr_thrown; eauto.
Qed.
Lemma choose_list {A B} (P : nat -> A -> B -> Prop) (l : list A) : forall n, (forall i x, nth_error l i = Some x -> exists y, P (n + i)%nat x y) ->
  exists r, length r = length l /\ forall i x y, nth_error l i = Some x -> nth_error r i = Some y -> P (n + i)%nat x y.
Proof.
  induction l as [|x l IH]; intros n H; [exists []; split; [auto|]; intros [|i] ? ? Hx; discriminate|].
  destruct (H O x eq_refl) as [y Hy]. destruct (IH (S n)) as (r & L & Hr).
  { intros i z Hz. destruct (H (S i) z Hz) as [w Hw]. exists w. now replace (S n + i)%nat with (n + S i)%nat by lia. }
  exists (y :: r). split; [cbn; lia|]. intros [|i] a b Ha Hb; cbn in Ha, Hb.
  - injection Ha as <-. injection Hb as <-. exact Hy.
  - replace (n + S i)%nat with (S n + i)%nat by lia. eauto.
Qed.
Lemma together_to_the_end lot (st0 : @state T) en0 h0 (HR : related st0 en0 h0) results s : forall own, together lot en0 h0 results own s ->
  exists own' ends h, together lot en0 h0 results own' (h, at_end ends) /\ length ends = length (snd s).
Proof.
  generalize (c_step_acc s). intros HA. induction HA as [s _ IH]. intros own HJ. destruct s as [h pool].
  destruct (some_live pool h (fun i m f => together_goes lot st0 en0 h0 HR results own (h, pool) i m f HJ)) as [(i & m & f & m' & h' & f' & Hi & Hs)|HE].
  - assert (HC : c_step (h, pool) (h', set_nth i (m', f') pool)) by (econstructor; eauto).
    destruct (together_step lot st0 en0 h0 HR results _ _ _ HC HJ) as [own' HJ'].
    destruct (IH _ HC own' HJ') as (own2 & ends & h2 & H1 & H2). exists own2, ends, h2. split; [auto|]. rewrite H2. cbn [snd]. apply length_set_nth.
  - destruct (all_ends pool HE) as [ends ->]. exists own, ends, h. split; [auto|]. cbn [snd]. now rewrite map_length.
Qed.
Lemma fork_exists p : forall (st : @state T) en h, related st en h -> fork_legal dflt eqT ltT st p -> exists outs st', fork_run dflt eqT ltT st p outs st'.
Proof.
  induction p as [|[q|threads] p IH]; intros st en h HR HL; [do 2 eexists; constructor| |].
  - destruct HL as [H1 H2]. destruct (private_exists 0 st en h q HR H1) as (os & st1 & HP).
    destruct (alone_run dflt eqT ltT true 0 _ _ _ _ HP en h HR) as (en1 & h1 & _ & HR1).
    destruct (IH st1 en1 h1 HR1 (H2 _ _ HP)) as (outs & st2 & HF). do 2 eexists. eapply fr_serial; eauto.
  - destruct HL as (lot & H1 & H2).
    destruct (choose_list (fun i q r => lot_run dflt eqT ltT lot i (length (s_arrays st)) st q (fst r) (snd r)) threads O) as (results & L & HX).
    { intros i q Hq. destruct (lot_exists dflt eqT ltT lot i (length (s_arrays st)) st en h q HR (H1 i q Hq)) as (os & st1 & HV). exists (os, st1). exact HV. }
    cbn [Nat.add] in HX. pose proof (together_start dflt eqT ltT true lot st en h threads results HR L HX) as HJ.
    destruct (together_to_the_end lot st en h HR results _ _ HJ) as (own & ends & h1 & HJ1 & LE). cbn [snd] in LE. rewrite map_length in LE.
    destruct (join_state dflt lot st en h HR results own ends h1 ltac:(congruence) HJ1) as (_ & _ & st1 & J & HR1).
    destruct (IH st1 en h1 HR1 (H2 results st1 L HX J)) as (outs & st2 & HF). do 2 eexists. eapply fr_parallel; eauto.
Qed.
End Existence.

(** a program with parallel phases: at every moment of every run *)
Theorem c68_fork_join : forall (T : Type) (dflt : T) eqT ltT chk p outs st,
  fork_run dflt eqT ltT empty_state p outs st ->
  forall s, fork_steps dflt eqT ltT chk (Between (Env [] []) [] p []) s ->
    (* no data race *)
    ~ races s /\
    (* every thread is finished or can take a step *)
    (forall en pool h rest before i m f, s = During en pool h rest before -> nth_error pool i = Some (m, f) ->
       (exists r, m = JRet r) \/ exists m' h' f', job_step m h f = Some (m', h', f')) /\
    (* the run is complete or goes on *)
    ((exists en h outs', s = Between en h [] outs') \/ exists s', fork_step dflt eqT ltT chk s s') /\
    (* a complete run has these outputs, and leaves these arrays and names *)
    (forall en h outs', s = Between en h [] outs' -> outs' = outs /\ agrees st en h /\ memory_ok en h).
Proof.
  intros T dflt eqT ltT chk p outs st HF s HS. pose proof (going_steps dflt eqT ltT chk outs st _ _ HS (going_start dflt eqT ltT p outs st HF)) as HG.
  split; [eapply going_race; eauto|]. split; [|split; [eapply going_on; eauto|]].
  - intros en pool h rest before i m f -> Hi. inversion HG; subst.
    match goal with HR : related _ _ _, HJ : together _ _ _ _ _ _ |- _ => exact (together_goes _ _ _ _ HR _ _ _ i m f HJ Hi) end.
  - intros en h outs' ->. inversion HG; subst. match goal with HX : fork_run _ _ _ _ [] _ _ |- _ => inversion HX; subst end.
    rewrite app_nil_r. split; [auto|]. split; [apply (related_agrees dflt eqT ltT); auto|eapply related_memory; eauto].
Qed.
(** no run goes on for ever *)
Theorem c68_every_run_ends : forall (T : Type) (dflt : T) eqT ltT chk (s : @moment T),
  ~ exists run : nat -> @moment T, run O = s /\ forall n, fork_step dflt eqT ltT chk (run n) (run (S n)).
Proof.
  intros T dflt eqT ltT chk s (run & _ & Hrun).
  assert (G : forall s, Acc (fun s' s => fork_step dflt eqT ltT chk s s') s -> forall n, run n = s -> False).
  { clear s. intros s Hs. induction Hs as [s _ IH]. intros n En. apply (IH (run (S n))) with (n := S n); auto.
    rewrite <- En. apply Hrun. }
  apply (G (run O) (fork_acc dflt eqT ltT chk _) O eq_refl).
Qed.
(** the outcome does not depend on the schedule, nor on which division of the elements one
    has in mind *)
Theorem c68_one_outcome : forall (T : Type) (dflt : T) eqT ltT p outs st outs' st',
  fork_run dflt eqT ltT empty_state p outs st -> fork_run dflt eqT ltT empty_state p outs' st' ->
  outs' = outs /\ exists en h, agrees st en h /\ agrees st' en h.
Proof.
  intros T dflt eqT ltT p outs st outs' st' H H'.
  destruct (going_ends dflt eqT ltT true _ _ _ (going_start dflt eqT ltT _ _ _ H)) as (en & h & HS & HR).
  pose proof (going_steps dflt eqT ltT true _ _ _ _ HS (going_start dflt eqT ltT _ _ _ H')) as HG. inversion HG; subst.
  match goal with HX : fork_run _ _ _ _ [] _ _ |- _ => inversion HX; subst end. rewrite app_nil_r. split; [auto|].
  exists en, h. split; apply (related_agrees dflt eqT ltT); auto.
Qed.
(** programs that keep to the contract and to some division have an outcome *)
Theorem c68_outcome_exists : forall (T : Type) (dflt : T) eqT ltT p,
  fork_legal dflt eqT ltT empty_state p -> exists outs st, fork_run dflt eqT ltT empty_state p outs st.
Proof. intros T dflt eqT ltT p H. eapply fork_exists; [apply related_nil|exact H]. Qed.

(** * An example: two threads fill an array by rows, then three change its columns *)
Definition ex_columns (x q : nat) : option nat := match x with O => Some (q mod 3)%nat | _ => None end.
Definition ex_column (c v w : Z) : list (@command Z * option nat) :=
  [(Get (Var 0) [1; c], None); (Set_ (Var 0) [0; c] v, None); (SetB (Var 0) [1; c] w, None)].
Definition ex_phases : list (@phase Z) :=
  [Serial ex_main; Parallel [ex_filler1; ex_filler2]; Serial [(Get (Var 0) [0; 1], None); (Get (Var 0) [1; 2], None)];
   Parallel [ex_column 0 20 30; ex_column 1 21 31; ex_column 2 22 32]; Serial [(Get (Var 0) [0; 1], None); (Get (Var 0) [1; 2], None); (Destroy 0, None)]].

Lemma ex_joined lot finals l l' : length l = 6%nat -> length l' = 6%nat ->
  (forall q, (q < 6)%nat -> (forall i fin c, lot 0%nat q = Some i -> nth_error finals i = Some fin -> array_is fin 0 c ->
     nth_error l' q = nth_error (a_elems c) q) /\
   ((forall i, lot 0%nat q = Some i -> (length finals <= i)%nat) -> nth_error l' q = nth_error l q)) ->
  joined lot finals (ex_st l) (ex_st l').
Proof.
  intros L L' H. split; [reflexivity|]. split; [reflexivity|]. intros [|[|x]]; cbn [ex_st s_arrays nth_error]; auto.
  repeat (split; [reflexivity|]). cbn [a_elems]. split; [congruence|]. intros q Hq. apply H. congruence.
Qed.
Ltac six_cells := intros q Hq; do 6 (destruct q as [|q]; [split;
  [intros i fin c HL Hf Hc; cbn in HL; try discriminate; injection HL as <-; cbn in Hf; injection Hf as <-; cbn in Hc; injection Hc as <-; reflexivity
  |intros HN; try reflexivity; exfalso; specialize (HN _ eq_refl); cbn in HN; lia]|]); lia.

Lemma ex_column_run c v w l x l' : (c = 0 \/ c = 1 \/ c = 2) ->
  nth_error l (Z.to_nat (3 + c)) = Some x -> set_nth (Z.to_nat (3 + c)) w (set_nth (Z.to_nat c) v l) = l' ->
  lot_run 0 Z.eqb Z.ltb ex_columns (Z.to_nat c) 1 (ex_st l) (ex_column c v w) [Some (OVal x); Some ONone; Some ONone] (ex_st l').
Proof.
  intros [-> | [-> | ->]] Hx <-; unfold ex_column;
    (eapply lr_done; [eapply s_get; [apply ex_denotes_whole|split; [cbn; lia|]; eexists; split; [reflexivity|exact Hx]]|apply co_get|discriminate|stays|];
     eapply lr_done; [eapply s_set; [apply ex_denotes_whole|split; [cbn; lia|]; eexists; split; reflexivity]|apply co_set|discriminate|stays|];
     eapply lr_done; [eapply s_setb; [apply ex_denotes_whole|split; [cbn; lia|]; eexists; split; reflexivity]|apply co_setb|discriminate|stays|];
     apply lr_nil).
Qed.
Definition ex_outputs : list (list (list (option (@output Z)))) :=
  [[[Some ONone; Some ONone]];
   [[Some ONone; None; Some (OVal 1); Some (OVal 10)]; [Some ONone; Some ONone; Some ONone; Some (OVal 1); Some ONone]];
   [[Some (OVal 10); Some (OVal 5)]];
   [[Some (OVal 0); Some ONone; Some ONone]; [Some (OVal 0); Some ONone; Some ONone]; [Some (OVal 5); Some ONone; Some ONone]];
   [[Some (OVal 21); Some (OVal 32); Some ONone]]].
Lemma ex_two_gets l a b : nth_error l 1 = Some a -> nth_error l 5 = Some b ->
  private_run 0 Z.eqb Z.ltb 0 (ex_st l) [(Get (Var 0) [0; 1], None); (Get (Var 0) [1; 2], None)] [Some (OVal a); Some (OVal b)] (ex_st l).
Proof.
  intros Ha Hb.
  eapply pr_done; [eapply s_get; [apply ex_denotes_whole|split; [cbn; lia|]; eexists; split; [reflexivity|exact Ha]]|apply co_get|discriminate|intros; lia|].
  eapply pr_done; [eapply s_get; [apply ex_denotes_whole|split; [cbn; lia|]; eexists; split; [reflexivity|exact Hb]]|apply co_get|discriminate|intros; lia|].
  apply pr_nil.
Qed.
Example ex_c68 : fork_run 0 Z.eqb Z.ltb empty_state ex_phases ex_outputs (St [None] []) /\
  exists en h, fork_steps 0 Z.eqb Z.ltb true (Between (Env [] []) [] ex_phases []) (Between en h [] ex_outputs).
Proof.
  assert (HF : fork_run 0 Z.eqb Z.ltb empty_state ex_phases ex_outputs (St [None] [])).
  { unfold ex_phases, ex_outputs. eapply fr_serial; [apply ex_main_run|].
    eapply fr_parallel with (lot := ex_lot) (st1 := ex_st [1; 10; 3; 0; 0; 5])
      (results := [([Some ONone; None; Some (OVal 1); Some (OVal 10)], ex_st [1; 10; 3; 4; 5; 6]);
                   ([Some ONone; Some ONone; Some ONone; Some (OVal 1); Some ONone], ex_two (Some (ex_array [1; 2; 3; 0; 0; 5])) None)]); [reflexivity| | |].
    { intros [|[|[|i]]] p r Hp Hr; cbn in Hp, Hr; try discriminate; injection Hp as <-; injection Hr as <-; [apply ex_filler1_run|apply ex_filler2_run]. }
    { apply ex_joined; [reflexivity..|six_cells]. }
    eapply fr_serial; [apply ex_two_gets; reflexivity|].
    eapply fr_parallel with (lot := ex_columns) (st1 := ex_st [20; 21; 22; 30; 31; 32])
      (results := [([Some (OVal 0); Some ONone; Some ONone], ex_st [20; 10; 3; 30; 0; 5]);
                   ([Some (OVal 0); Some ONone; Some ONone], ex_st [1; 21; 3; 0; 31; 5]);
                   ([Some (OVal 5); Some ONone; Some ONone], ex_st [1; 10; 22; 0; 0; 32])]); [reflexivity| | |].
    { intros [|[|[|[|i]]]] p r Hp Hr; cbn in Hp, Hr; try discriminate; injection Hp as <-; injection Hr as <-;
        [apply (ex_column_run 0)|apply (ex_column_run 1)|apply (ex_column_run 2)]; auto. }
    { apply ex_joined; [reflexivity..|six_cells]. }
    eapply fr_serial; [|apply fr_nil].
    eapply pr_done; [eapply s_get; [apply ex_denotes_whole|look_one]|apply co_get|discriminate|intros; lia|].
    eapply pr_done; [eapply s_get; [apply ex_denotes_whole|look_one]|apply co_get|discriminate|intros; lia|].
    eapply pr_done; [eapply s_destroy; reflexivity|apply co_destroy|discriminate|intros; lia|apply pr_nil]. }
  split; [exact HF|].
  destruct (going_ends 0 Z.eqb Z.ltb true _ _ _ (going_start 0 Z.eqb Z.ltb _ _ _ HF)) as (en & h & HS & _). eauto.
Qed.
