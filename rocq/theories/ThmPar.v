(** ThmPar.v -- C67: threads that divide the elements of shared arrays among themselves *)

From Coq Require Import ZArith List Bool Lia.
From Verif Require Import Base StorageOrder Ranges Layout Access Objects Memory Ops MultiArray History Threads Concur.
From Verif Require Import Spec ReachSpec MemSpec OwnSpec HistorySpec CostSpec ConcurSpec ParSpec.
From Verif Require Import Facts LayoutProofs AccessProofs ViewProofs ReachProofs MemoryProofs HistoryProofs ConcurProofs FootProofs InterProofs ParProofs ParInter ParView ThmAddressing ThmHistory ThmCosts ThmExact ThmConcur.
Import ListNotations.
Local Open Scope Z_scope.

Section Pools.
Context {T : Type}.
Variable dflt : T.
Variable eqT ltT : T -> T -> bool.
Variable lot : nat -> nat -> option nat.

(** such a program run alone *)
Lemma alone_lot chk i k st p os st' : lot_run dflt eqT ltT lot i k st p os st' -> forall en (h : heap T), related st en h ->
  exists en' h', run_catching dflt eqT ltT chk en p h = Done (en', os) (World h' None) /\ related st' en' h'.
Proof.
  induction 1 as [st|st c f rest o os n st1 st2 HS HC Hf HMo HP IH|st c j rest o os n st1 st1' st2 HS HC Hj HMo HI HP IH];
    intros en h HR; cbn [run_catching].
  - eauto.
  - destruct (exec_done dflt eqT ltT st en h c o st1 chk n f HR HS HC Hf) as (en1 & h1 & f1 & -> & HR1 & _).
    destruct (IH _ _ HR1) as (en2 & h2 & E2 & HR2). cbn [w_heap]. rewrite E2. eauto.
  - destruct (exec_thrown dflt eqT ltT st en h c o st1' chk n j st1 HR HS HC Hj HI) as (h1 & -> & HR1 & _).
    destruct (IH _ _ HR1) as (en2 & h2 & E2 & HR2). cbn [w_heap]. rewrite E2. eauto.
Qed.

Variable st0 : @state T.
Variable en0 : env.
Variable h0 : heap T.
Hypothesis HR0 : related st0 en0 h0.
Let k := length (s_arrays st0).
Let lim := length h0.

Lemma k_vars : k = length (e_vars en0).
Proof. apply (relA_length _ _ _ (proj1 HR0)). Qed.
Lemma vars_lim : forall x m, nth_error (e_vars en0) x = Some (Some m) -> (ma_block m < lim)%nat.
Proof.
  intros x m Em. destruct (relA_var_inv _ _ _ _ _ (proj1 HR0) Em) as (a & _ & ((_ & _ & _ & _ & _ & HB) & _)).
  apply nth_error_Some. congruence.
Qed.
Lemma vars_dis : forall x y m m', nth_error (e_vars en0) x = Some (Some m) -> nth_error (e_vars en0) y = Some (Some m') -> x <> y ->
  ma_block m <> ma_block m'.
Proof. exact (proj2 (proj1 HR0)). Qed.
Lemma given_once : forall b q j j', given lot en0 b q j -> given lot en0 b q j' -> j = j'.
Proof.
  intros b q j j' (x & m & Em & <- & EL) Hj. pose proof (given_fun lot en0 vars_dis x m q j' Em Hj). congruence.
Qed.
Lemma given_lim : forall b q j, given lot en0 b q j -> (b < lim)%nat.
Proof. intros b q j (x & m & Em & <- & _). eapply vars_lim; eauto. Qed.

(** what a thread knows is what there is, except for elements given to others *)
Definition told (c : @cell T) : T := match c with Some v => v | None => dflt end.
Definition actual (en : env) (H : heap T) (x : nat) (o : option (@arr T)) : option (@arr T) :=
  match o, nth_error (e_vars en) x with
  | Some a, Some (Some m) =>
      match nth_error H (ma_block m) with
      | Some (Some b) => Some (Arr (a_shape a) (a_bases a) (a_order a) (a_alloc a) (map told (b_cells b)))
      | _ => Some a
      end
  | _, _ => o
  end.
Fixpoint actuals (en : env) (H : heap T) (x : nat) (l : list (option (@arr T))) : list (option (@arr T)) :=
  match l with [] => [] | o :: l' => actual en H x o :: actuals en H (S x) l' end.
Lemma nth_actuals en H : forall l x n, nth_error (actuals en H x l) n = option_map (actual en H (x + n)) (nth_error l n).
Proof.
  induction l as [|o l IH]; intros x [|n]; cbn [actuals nth_error option_map]; auto; [now rewrite Nat.add_0_r|].
  rewrite IH. now replace (S x + n)%nat with (x + S n)%nat by lia.
Qed.
Lemma told_some (l : list T) : map told (map Some l) = l.
Proof. rewrite map_map. cbn. apply map_id. Qed.
Lemma all_told (l : list (@cell T)) : (forall c, In c l -> c <> None) -> map Some (map told l) = l.
Proof.
  induction l as [|[c|] l IH]; intros HA; cbn; auto; [|exfalso; apply (HA None); cbn; auto].
  rewrite IH; auto. intros c' Hc'. apply HA. cbn; auto.
Qed.
Lemma knows_related i own (g H : heap T) P (st : @state T) en : knows lot en0 i own g H -> related st en g -> holding en0 P en ->
  (forall b, P b -> nth_error own b = Some (Some i)) -> (forall b, (b < lim)%nat -> nth_error own b = Some None) ->
  exists st' : @state T, related st' en H /\ seen_by lot i k st st'.
Proof.
  intros (L1 & L2 & KA & KB & KC) HR (HM & Hk & HF) HP HC. rewrite <- k_vars in Hk, HM, HF.
  exists (St (actuals en H 0 (s_arrays st)) (s_named st)).
  (* the state of one variable *)
  assert (ONE : forall x a m, nth_error (s_arrays st) x = Some (Some a) -> nth_error (e_vars en) x = Some (Some m) -> exists vs,
    actual en H x (Some a) = Some (Arr (a_shape a) (a_bases a) (a_order a) (a_alloc a) vs) /\ length vs = length (a_elems a) /\
    nth_error H (ma_block m) = Some (Some (Block (ma_aid m) (map Some vs))) /\ ((k <= x)%nat -> vs = a_elems a) /\
    ((x < k)%nat -> forall q, lot x q = None \/ lot x q = Some i -> nth_error vs q = nth_error (a_elems a) q)).
  { intros x a m Ea Em. destruct (relA_var_inv _ _ _ _ _ (proj1 HR) Em) as (a' & Ea' & ((_ & _ & _ & _ & _ & HB) & _)).
    rewrite Ea in Ea'. injection Ea' as <-. unfold actual. rewrite Em. destruct (Nat.lt_ge_cases x k) as [L|L].
    - assert (Em0 : nth_error (e_vars en0) x = Some (Some m)) by (rewrite <- HF; auto).
      pose proof (KC _ (HC _ (vars_lim _ _ Em0))) as KD. rewrite HB in KD. destruct (nth_error H (ma_block m)) as [[d|]|]; try contradiction.
      destruct KD as (D1 & D2 & D3). cbn [b_alloc b_cells] in *. rewrite map_length in D2.
      assert (ALL : map Some (map told (b_cells d)) = b_cells d).
      { apply all_told. intros c Hc ->. apply In_nth_error in Hc. destruct Hc as [q Hq].
        assert (Lq : (q < length (a_elems a))%nat) by (rewrite D2; apply nth_error_Some; congruence).
        destruct (lt_some _ _ Lq) as [v Ev]. assert (Eg : nth_error (map Some (a_elems a)) q = Some (Some v)) by (rewrite nth_error_map, Ev; auto).
        destruct (D3 q _ _ Eg Hq) as [[_ D4] _]. specialize (D4 eq_refl). discriminate. }
      exists (map told (b_cells d)). split; [auto|]. split; [rewrite map_length; auto|]. split; [rewrite ALL, D1; destruct d; reflexivity|].
      split; [lia|]. intros _ q Hq. rewrite nth_error_map.
      destruct (nth_error (b_cells d) q) as [y|] eqn:Ey; cbn [option_map].
      + assert (Lq : (q < length (a_elems a))%nat) by (rewrite D2; apply nth_error_Some; congruence).
        destruct (lt_some _ _ Lq) as [v Ev]. assert (Eg : nth_error (map Some (a_elems a)) q = Some (Some v)) by (rewrite nth_error_map, Ev; auto).
        destruct (D3 q _ _ Eg Ey) as [_ D4]. rewrite <- D4; [cbn; auto|].
        intros j Hj. pose proof (given_fun lot en0 vars_dis x m q j Em0 Hj). destruct Hq; congruence.
      + apply nth_error_None in Ey. symmetry. apply nth_error_None. lia.
    - rewrite (KA _ (HP _ (HM _ _ L Em))) in HB. rewrite HB. cbn [b_cells]. exists (a_elems a). rewrite told_some. repeat (split; [solve [auto]|]). lia. }
  split; [split|split].
  - split; [|exact (proj2 (proj1 HR))]. intros x. cbn [s_arrays]. rewrite nth_actuals. cbn [Nat.add].
    pose proof (proj1 (proj1 HR) x) as R1.
    destruct (nth_error (s_arrays st) x) as [[a|]|] eqn:Ea, (nth_error (e_vars en) x) as [[m|]|] eqn:Em; try contradiction; cbn [option_map]; auto.
    destruct (ONE x a m Ea Em) as (vs & -> & Lv & HB & _). destruct R1 as ((O1 & O2 & O3 & O4 & O5 & O6) & R2).
    split; [|exact R2]. unfold owns. cbn [a_elems]. rewrite Lv. repeat (split; [assumption|]). exact HB.
  - exact (proj2 HR).
  - reflexivity.
  - intros x. cbn [s_arrays]. rewrite nth_actuals. cbn [Nat.add]. pose proof (proj1 (proj1 HR) x) as R1.
    destruct (nth_error (s_arrays st) x) as [[a|]|] eqn:Ea, (nth_error (e_vars en) x) as [[m|]|] eqn:Em; try contradiction; cbn [option_map].
    + destruct (ONE x a m Ea Em) as (vs & E & Lv & _ & V1 & V2). destruct (Nat.lt_ge_cases x k) as [L|L].
      * right. split; [auto|]. rewrite E. cbn [a_shape a_bases a_order a_alloc a_elems]. repeat (split; [solve [auto]|]). auto.
      * left. split; [auto|]. rewrite E, V1 by auto. destruct a; reflexivity.
    + unfold actual. destruct (Nat.lt_ge_cases x k); auto.
    + destruct (Nat.lt_ge_cases x k); auto.
Qed.

Variable results : list (list (option (@output T)) * @state T).
Definition lot_post (r : list (option (@output T)) * @state T) (P : nat -> Prop) (g : heap T) (_ : option nat) (q : env * list (option (@output T))) : Prop :=
  snd q = fst r /\ related (snd r) (fst q) g /\ holding en0 P (fst q).
Definition together (own : list (option nat)) (s : heap T * list (job T (env * list (option (@output T))) * option nat)) : Prop :=
  (forall b, (b < lim)%nat -> nth_error own b = Some None) /\
  (forall p, (p_blk p < lim)%nat -> (forall j, given lot en0 (p_blk p) (Z.to_nat (p_off p)) j -> (length (snd s) <= j)%nat) -> hcell (fst s) p = hcell h0 p) /\
  (exists n, knows lot en0 (length (snd s)) own (h0 ++ pad n) (fst s)) /\
  forall i m f, nth_error (snd s) i = Some (m, f) -> exists (P : nat -> Prop) r g, nth_error results i = Some r /\
    (forall b, P b -> nth_error own b = Some (Some i)) /\ knows lot en0 i own g (fst s) /\
    wq (may_read lot en0 lim i) (may_write lot en0 i) P m g f (lot_post r) (fun _ _ _ => False).

Lemma together_step s s' own : c_step s s' -> together own s -> exists own', together own' s'.
Proof.
  intros HS (HB & HU & (n & HN0) & HT). destruct HS as [h pool i m f m' h' f' Hi Hst]. cbn [fst snd] in *.
  destruct (HT i m f Hi) as (P & r & g & Hr & HP & HK & HW).
  destruct (wq_step lot en0 lim given_once given_lim m i own g h f P (lot_post r) (fun _ _ _ => False) HK HW HP HB) as [_ HN].
  destruct (HN m' h' f' Hst) as (P' & own' & g' & HK' & HW' & HP' & HO & HE & HC). exists own'.
  assert (Li : (i < length pool)%nat) by (apply nth_error_Some; congruence).
  split; [auto|]. cbn [fst snd]. rewrite length_set_nth. split; [|split].
  - intros p Hp Hj. rewrite HC; auto. intros Hw. specialize (Hj i Hw). lia.
  - assert (NL : length pool <> i) by lia. destruct (HO _ _ NL HN0) as [K|K]; [exists n; auto|exists (S n)].
    rewrite <- app_assoc in K. replace (pad (S n)) with (@pad T n ++ [None]); [auto|].
    clear. induction n as [|n IH]; cbn; [auto|]. unfold pad in IH. rewrite IH. reflexivity.
  - intros j m2 f2 Hj. destruct (Nat.eq_dec j i) as [->|N].
    + rewrite nth_error_set_nth_eq in Hj by auto. injection Hj as <- <-. exists P', r, g'. auto.
    + rewrite nth_error_set_nth_ne in Hj by auto. destruct (HT j m2 f2 Hj) as (P2 & r2 & g2 & Hr2 & HP2 & HK2 & HW2).
      destruct (HO j g2 N HK2) as [K|K]; [exists P2, r2, g2|exists P2, r2, (g2 ++ [None])]; (split; [auto|]); (split; [auto|]); (split; [auto|]); [auto|].
      apply wq_pad; auto. intros P3 h3 f3 q (A1 & A2 & A3). split; [auto|]. split; [apply related_app; auto|auto].
Qed.
Lemma together_steps s s' : c_steps s s' -> forall own, together own s -> exists own', together own' s'.
Proof.
  induction 1 as [s|s s1 s2 H1 H2 IH]; intros own HJ; [eauto|]. destruct (together_step _ _ _ H1 HJ) as [own1 HJ1]. eauto.
Qed.

Lemma alters_own {A} (m : job T A) R W P h f Q QT p : wq R W P m h f Q QT -> about_to_alter m p -> P (p_blk p) \/ W p.
Proof. destruct m; cbn; try tauto; intros [HP _]; intros <-; try exact HP; left; exact HP. Qed.
Lemma touches_own {A} (m : job T A) R W P h f Q QT p : wq R W P m h f Q QT -> about_to_touch m p -> P (p_blk p) \/ R p \/ W p.
Proof.
  intros HW [HA|HA]; [destruct (alters_own _ _ _ _ _ _ _ _ _ HW HA); auto|].
  destruct m; cbn in HA; try contradiction. subst. cbn in HW. destruct HW as [[HW|HW] _]; auto.
Qed.
Lemma frees_own {A} (m : job T A) R W P h f Q QT b : wq R W P m h f Q QT -> about_to_free m b -> P b.
Proof. destruct m; cbn; try tauto. intros [HP _] <-. exact HP. Qed.

Lemma together_race own s : together own s -> ~ race (snd s).
Proof.
  intros (HB & _ & _ & HT) (i & j & m & n & f & g & N & Hi & Hj & HX).
  destruct (HT i m f Hi) as (P & r & g1 & _ & HP & _ & HW). destruct (HT j n g Hj) as (P2 & r2 & g2 & _ & HP2 & _ & HW2).
  assert (SEP : forall b, P b -> ~ P2 b /\ ~ (b < lim)%nat).
  { intros b Hb. split; intros Hb'; [pose proof (HP _ Hb); pose proof (HP2 _ Hb')|pose proof (HP _ Hb); pose proof (HB _ Hb')]; congruence. }
  assert (COM : forall p, may_read lot en0 lim j p \/ may_write lot en0 j p -> (p_blk p < lim)%nat).
  { intros p [[H _]|H]; [auto|eapply given_lim; exact H]. }
  destruct HX as [(p & HA & HU)|(b & HA & HU)].
  - pose proof (alters_own _ _ _ _ _ _ _ _ _ HW HA) as XA. pose proof (touches_own _ _ _ _ _ _ _ _ _ HW2 HU) as XU.
    destruct XA as [XA|XA].
    + destruct (SEP _ XA) as [S1 S2]. destruct XU as [XU|XU]; [auto|]. apply S2. auto.
    + destruct XU as [XU|[XU|XU]].
      * pose proof (HP2 _ XU). pose proof (HB _ (given_lim _ _ _ XA)). congruence.
      * destruct XU as [_ XU]. specialize (XU i XA). auto.
      * apply N. eapply given_once; eauto.
  - pose proof (frees_own _ _ _ _ _ _ _ _ _ HW HA) as XA. destruct (SEP _ XA) as [S1 S2]. destruct HU as [(p & HU & <-)|HU].
    + destruct (touches_own _ _ _ _ _ _ _ _ _ HW2 HU) as [XU|XU]; [auto|]. apply S2. auto.
    + apply S1. eapply frees_own; eauto.
Qed.
Lemma together_goes own s i m f : together own s -> nth_error (snd s) i = Some (m, f) ->
  (exists r, m = JRet r) \/ exists m' h' f', job_step m (fst s) f = Some (m', h', f').
Proof.
  intros (HB & _ & _ & HT) Hi. destruct (HT i m f Hi) as (P & r & g & _ & HP & HK & HW).
  destruct (wq_step lot en0 lim given_once given_lim m i own g (fst s) f P _ _ HK HW HP HB) as [HG _]. destruct m; eauto. contradiction.
Qed.
Lemma together_ends own s i q f : together own s -> nth_error (snd s) i = Some (JRet q, f) ->
  exists (P : nat -> Prop) r st', nth_error results i = Some r /\ snd q = fst r /\ related st' (fst q) (fst s) /\ seen_by lot i k (snd r) st' /\
    holding en0 P (fst q) /\ forall b, P b -> nth_error own b = Some (Some i).
Proof.
  intros (HB & _ & _ & HT) Hi. destruct (HT i _ f Hi) as (P & r & g & Hr & HP & HK & HW). cbn [wq] in HW. destruct HW as (A1 & A2 & A3).
  destruct (knows_related i own g (fst s) P (snd r) (fst q) HK A2 A3 HP HB) as (st' & R1 & R2).
  exists P, r, st'. auto 10.
Qed.
End Pools.

Lemma together_start {T} (dflt : T) eqT ltT chk lot (st0 : @state T) en0 h0 threads results : related st0 en0 h0 ->
  length results = length threads ->
  (forall i p r, nth_error threads i = Some p -> nth_error results i = Some r ->
     lot_run dflt eqT ltT lot i (length (s_arrays st0)) st0 p (fst r) (snd r)) ->
  together lot en0 h0 results (repeat None (length h0)) (h0, map (fun p => (j_thread dflt eqT ltT chk en0 p, None)) threads).
Proof.
  intros HR HL HT.
  split; [intros b Hb; apply nth_error_repeat; auto|]. cbn [fst snd]. split; [auto|].
    split; [exists O; cbn [pad repeat]; rewrite app_nil_r; apply knows_start; exact O|].
    intros i m f Hi. rewrite nth_error_map in Hi. destruct (nth_error threads i) as [p|] eqn:Ep; [|discriminate].
    cbn in Hi. injection Hi as <- <-.
    assert (Li : (i < length results)%nat) by (rewrite HL; apply nth_error_Some; congruence).
    destruct (lt_some _ _ Li) as [r Er]. exists (fun _ => False), r, h0. split; [auto|]. split; [intros b []|]. split; [apply knows_start; exact O|].
    pose proof (HT i p r Ep Er) as HLr. rewrite (k_vars st0 en0 h0 HR) in HLr.
    assert (HH : holding en0 (fun _ => False) en0).
    { split; [|split; [lia|auto]]. intros x m Hx Hm. exfalso. assert (x < length (e_vars en0))%nat by (apply nth_error_Some; congruence). lia. }
    exact (thread_wq dflt eqT ltT lot en0 (length h0) (vars_lim st0 en0 h0 HR) (vars_dis st0 en0 h0 HR) i chk st0 p (fst r) (snd r) HLr en0 h0 None (fun _ => False) HR HH).
Qed.
Lemma c_steps_length {T A} (s s' : heap T * list (job T A * option nat)) : c_steps s s' -> length (snd s') = length (snd s).
Proof. induction 1 as [s|s s1 s2 H1 H2 IH]; [auto|]. rewrite IH. destruct H1. cbn [snd]. apply length_set_nth. Qed.

(** the main program builds the shared arrays; then any number of threads run, in any
    interleaving of their steps *)
Theorem c67_threads_share_elements : forall (T : Type) (dflt : T) eqT ltT chk lot p0 os0 st0 en0 h0 threads results,
  private_run dflt eqT ltT 0 empty_state p0 os0 st0 ->
  run_catching dflt eqT ltT chk (Env [] []) p0 [] = Done (en0, os0) (World h0 None) ->
  let k := length (s_arrays st0) in
  length results = length threads ->
  (forall i p r, nth_error threads i = Some p -> nth_error results i = Some r ->
     lot_run dflt eqT ltT lot i k st0 p (fst r) (snd r)) ->
  forall h pool, c_steps (h0, map (fun p => (j_thread dflt eqT ltT chk en0 p, None)) threads) (h, pool) ->
    (* no data race *)
    ~ race pool /\
    (* every thread is finished or can take a step *)
    (forall i m f, nth_error pool i = Some (m, f) ->
       (exists r, m = JRet r) \/ exists m' h' f', job_step m h f = Some (m', h', f')) /\
    (* a finished thread has its outputs, and its variables hold what it left in them,
       except for the elements that are given to others *)
    (forall i en os f, nth_error pool i = Some (JRet (en, os), f) ->
       exists st st', nth_error results i = Some (os, st) /\ seen_by lot i k st st' /\ agrees st' en h /\ memory_ok en h) /\
    (* arrays made by different threads lie in different blocks *)
    (forall i j en en' os os' f f' x y m m', i <> j ->
       nth_error pool i = Some (JRet (en, os), f) -> nth_error pool j = Some (JRet (en', os'), f') ->
       (k <= x)%nat -> (k <= y)%nat -> nth_error (e_vars en) x = Some (Some m) -> nth_error (e_vars en') y = Some (Some m') ->
       ma_block m <> ma_block m') /\
    (* shared elements given to no thread keep their values *)
    (forall x a m q v, array_is st0 x a -> nth_error (e_vars en0) x = Some (Some m) -> nth_error (a_elems a) q = Some v ->
       (forall i, lot x q = Some i -> (length threads <= i)%nat) ->
       hread h (padd (cr_data (ma_ref m)) (Z.of_nat q)) = Ok v) /\
    (* shared elements given to a finished thread hold what it left there *)
    (forall i en os f st x a m q v, nth_error pool i = Some (JRet (en, os), f) -> nth_error results i = Some (os, st) ->
       array_is st x a -> nth_error (e_vars en0) x = Some (Some m) -> lot x q = Some i -> nth_error (a_elems a) q = Some v ->
       hread h (padd (cr_data (ma_ref m)) (Z.of_nat q)) = Ok v).
Proof.
  intros T dflt eqT ltT chk lot p0 os0 st0 en0 h0 threads results HP0 HR0 k HL HT h pool HS.
  destruct (alone_run dflt eqT ltT chk 0 _ _ _ _ HP0 (Env [] []) [] related_nil) as (en1 & h1 & E1 & HR).
  rewrite HR0 in E1. injection E1 as <- <-.
  assert (DATA : forall (g : heap T) a m, repr g a m -> cr_data (ma_ref m) = Ptr (ma_block m) 0).
  { intros g a m ((_ & E1 & E2 & _) & _). rewrite E1. unfold ma_block. destruct (ma_base m). cbn in *. now rewrite E2. }
  assert (READ : forall (g : heap T) a m q v, repr g a m -> nth_error (a_elems a) q = Some v -> hread g (padd (cr_data (ma_ref m)) (Z.of_nat q)) = Ok v).
  { intros g a m q v HRp Hv. rewrite (DATA _ _ _ HRp). destruct HRp as ((_ & _ & _ & _ & _ & HB) & _). unfold hread, hcell, hblock, padd. cbn [p_blk p_off]. rewrite HB.
    destruct (Z.ltb_spec (0 + Z.of_nat q) 0) as [HX|_]; [lia|]. cbn [b_cells]. rewrite Z.add_0_l, Nat2Z.id, nth_error_map, Hv. reflexivity. }
  assert (LP : length pool = length threads).
  { pose proof (c_steps_length _ _ HS) as GL. cbn [snd] in GL. rewrite GL. apply map_length. }
  pose proof (together_start dflt eqT ltT chk lot st0 en0 h0 threads results HR HL HT) as HJ.
  destruct (together_steps lot st0 en0 h0 HR results _ _ HS _ HJ) as [own HJ'].
  split; [exact (together_race dflt eqT ltT lot st0 en0 h0 HR results _ _ HJ')|].
  split; [intros i m f Hi; exact (together_goes lot st0 en0 h0 HR results _ _ i m f HJ' Hi)|]. split.
  { intros i en os f Hi. destruct (together_ends dflt lot st0 en0 h0 HR results _ _ i _ f HJ' Hi) as (P & [os' st1] & st' & Er & Eo & HRf & HSb & _).
    cbn [fst snd] in *. subst os'. exists st1, st'. split; [auto|]. split; [auto|]. split; [apply (related_agrees dflt eqT ltT); auto|eapply related_memory; eauto]. }
  split.
  { intros i j en en' os os' f f' x y m m' N Hi Hj Hx Hy Em Em' EB.
    destruct (together_ends dflt lot st0 en0 h0 HR results _ _ i _ f HJ' Hi) as (P & r & s1 & _ & _ & _ & _ & HM & HO).
    destruct (together_ends dflt lot st0 en0 h0 HR results _ _ j _ f' HJ' Hj) as (P' & r' & s2 & _ & _ & _ & _ & HM' & HO').
    destruct HM as (HM & _), HM' as (HM' & _). unfold k in *. rewrite (k_vars st0 en0 h0 HR) in Hx, Hy.
    pose proof (HO _ (HM x m Hx Em)) as B1. pose proof (HO' _ (HM' y m' Hy Em')) as B2. rewrite EB in B1. congruence. }
  split.
  { intros x a m q v Ha Em Hv HN. destruct (relA_var_inv _ _ _ _ _ (proj1 HR) Em) as (a' & Ea' & HRp).
    unfold array_is in Ha. rewrite Ha in Ea'. injection Ea' as <-. pose proof (READ _ _ _ _ _ HRp Hv) as HX.
    assert (EC : hcell h (padd (cr_data (ma_ref m)) (Z.of_nat q)) = hcell h0 (padd (cr_data (ma_ref m)) (Z.of_nat q))).
    { assert (EP : padd (cr_data (ma_ref m)) (Z.of_nat q) = Ptr (ma_block m) (Z.of_nat q)).
      { rewrite (DATA _ _ _ HRp). reflexivity. }
      rewrite EP. destruct HJ' as (_ & HU & _). apply HU; cbn [p_blk p_off].
      - eapply vars_lim; eauto.
      - cbn [snd]. rewrite LP, Nat2Z.id. intros j Hj. apply HN. exact (given_fun lot en0 (vars_dis st0 en0 h0 HR) x m q j Em Hj). }
    unfold hread in *. rewrite EC. exact HX. }
  intros i en os f st x a m q v Hi Hr Ha Em HLt Hv.
  destruct (together_ends dflt lot st0 en0 h0 HR results _ _ i _ f HJ' Hi) as (P & r & st' & Er & _ & HRf & (_ & HSb) & (_ & _ & HF) & _).
  rewrite Hr in Er. injection Er as <-. cbn [fst snd] in *.
  assert (Lx : (x < length (e_vars en0))%nat) by (apply nth_error_Some; congruence).
  assert (Em' : nth_error (e_vars en) x = Some (Some m)) by (rewrite HF; auto).
  destruct (relA_var_inv _ _ _ _ _ (proj1 HRf) Em') as (b & Eb & HRp).
  apply (READ _ b); [exact HRp|]. rewrite <- (k_vars st0 en0 h0 HR) in Lx. destruct (HSb x) as [[L _]|[_ E]]; [lia|].
  unfold array_is in Ha. rewrite Ha, Eb in E. destruct E as (_ & _ & _ & _ & _ & E). rewrite E; auto.
Qed.
(** as if each thread had run alone *)
Theorem c67_same_as_alone : forall (T : Type) (dflt : T) eqT ltT chk lot p0 os0 st0 en0 h0 i p os st,
  private_run dflt eqT ltT 0 empty_state p0 os0 st0 ->
  run_catching dflt eqT ltT chk (Env [] []) p0 [] = Done (en0, os0) (World h0 None) ->
  lot_run dflt eqT ltT lot i (length (s_arrays st0)) st0 p os st ->
  exists en h, run_catching dflt eqT ltT chk en0 p h0 = Done (en, os) (World h None) /\ agrees st en h.
Proof.
  intros T dflt eqT ltT chk lot p0 os0 st0 en0 h0 i p os st HP0 HR0 HP.
  destruct (alone_run dflt eqT ltT chk 0 _ _ _ _ HP0 (Env [] []) [] related_nil) as (en1 & h1 & E1 & HR).
  rewrite HR0 in E1. injection E1 as <- <-. destruct (alone_lot dflt eqT ltT lot chk _ _ _ _ _ _ HP en0 h0 HR) as (en & h & E & HR').
  exists en, h. split; [auto|]. apply (related_agrees dflt eqT ltT). auto.
Qed.
Lemma lot_exists {T} (dflt : T) eqT ltT lot i k (st0 : @state T) en h p : related st0 en h -> lot_legal dflt eqT ltT lot i k st0 p ->
  exists os st, lot_run dflt eqT ltT lot i k st0 p os st.
Proof.
  intros HR HL.
  revert st0 en h HR HL. induction p as [|[c f] p IH]; intros st en h HR HA; [exists [], st; constructor|].
  cbn [lot_legal] in HA. destruct HA as (HL & HM & HD & HT).
  destruct (legal_step dflt eqT ltT st en h c HR HL) as (o & st1 & HS). destruct (costs_some dflt eqT ltT st c o st1 HS) as [n Hn].
  assert (D : (forall j, f = Some j -> (n <= j)%nat) \/ exists j, f = Some j /\ (j < n)%nat).
  { destruct f as [j|]; [|left; discriminate]. destruct (Nat.lt_ge_cases j n); [right; eauto|left; intros ? [= <-]; auto]. }
  destruct D as [Hf|(j & -> & Hk)].
  - destruct (exec_done dflt eqT ltT st en h c o st1 true n f HR HS Hn Hf) as (en1 & h1 & f1 & _ & HR1 & _).
    destruct (IH st1 en1 h1 HR1 (HD o st1 HS)) as (os & st2 & HV). exists (Some o :: os), st2. eapply lr_done; eauto.
  - destruct (interrupted_exists dflt eqT ltT st en h c o st1 n j HR HS Hn Hk) as [st2 HI].
    destruct (exec_thrown dflt eqT ltT st en h c o st1 true n j st2 HR HS Hn Hk HI) as (h1 & _ & HR1 & _).
    destruct (IH st2 en h1 HR1 (HT j st2 eq_refl HI)) as (os & st3 & HV). do 2 eexists. eapply lr_thrown; eauto.
Qed.
(** programs that keep to the contract and to their lot have such an outcome *)
Theorem c67_outcome_exists : forall (T : Type) (dflt : T) eqT ltT lot p0 os0 st0 i k p,
  private_run dflt eqT ltT 0 empty_state p0 os0 st0 -> lot_legal dflt eqT ltT lot i k st0 p ->
  exists os st, lot_run dflt eqT ltT lot i k st0 p os st.
Proof.
  intros T dflt eqT ltT lot p0 os0 st0 i k p HP0 HL.
  destruct (alone_run dflt eqT ltT true 0 _ _ _ _ HP0 (Env [] []) [] related_nil) as (en & h & _ & HR).
  eapply lot_exists; eauto.
Qed.
(** the programs of C66 are those whose lot is empty *)
Theorem c67_covers_private_programs : forall (T : Type) (dflt : T) eqT ltT i k st p os st',
  private_run dflt eqT ltT k st p os st' -> lot_run dflt eqT ltT (fun _ _ => None) i k st p os st'.
Proof.
  intros T dflt eqT ltT i k st p os st' H.
  assert (G : forall st c, (forall x, modifies (T := T) st c x -> (k <= x)%nat) -> keeps_to (fun _ _ => None) i k st c).
  { clear. intros st c HM. split; [|split; [|auto]].
    - intros x Hx. apply HM. destruct Hx; constructor.
    - intros x q Hx. left. apply HM. destruct Hx; first [eapply mo_assign; eassumption|apply mo_assign_var|eapply mo_copy_array; eassumption|eapply mo_set; eassumption|eapply mo_setb; eassumption|apply mo_fill|match goal with HN : named_is _ _ _ |- _ => exact (mo_fill_ref _ _ _ _ HN) end|eapply mo_for_each; eassumption]. }
  induction H; [constructor|eapply lr_done; eauto|eapply lr_thrown; eauto].
Qed.

(** * Examples *)

(** the shared 2x3 array of C66: element (0,0) is for everybody to read; the rest of the
    first row is given to one thread, the second row to the other *)
Definition ex_lot (x q : nat) : option nat :=
  match x, q with
  | 0, 0 => None
  | 0, 1 | 0, 2 => Some 0
  | 0, _ => Some 1
  | _, _ => None
  end%nat.
(** one thread writes (0,1) and fails to build an array of its own; the other builds an
    array, writes to it, assigns it to the second row of the shared array and destroys it *)
Definition ex_filler1 : list (@command Z * option nat) :=
  [(Set_ (Var 0) [0; 1] 10, None); (NewList [9] (so_from_c 1) 8, Some 4%nat); (Get (Var 0) [0; 0], None); (Get (Var 0) [0; 1], None)].
Definition ex_filler2 : list (@command Z * option nat) :=
  [(NewList [3] (so_from_c 1) 8, None); (Set_ (Var 1) [2] 5, None); (Assign (Sub (Var 0) 1) (Var 1), None);
   (Get (Var 0) [0; 0], None); (Destroy 1, None)].
Definition ex_line3 (l : list Z) : @arr Z := Arr [3] [0] (so_from_c 1) 8%nat l.

Lemma ex_cells (bs ns i : list Z) (P : list Z -> Prop) : length bs = length ns ->
  (forall i, In i (tuples bs ns) -> P i) -> in_bounds bs ns i -> P i.
Proof. intros Hn HP Hi. apply HP. apply in_tuples; auto. Qed.
Ltac stays := split; [intros ? X; inversion X; subst; lia|split; intros ? ? X; inversion X; subst; clear X;
  repeat match goal with
  | HD : denotes _ (Var _) _ |- _ => inversion HD as [? ? HA|? ? HA|? ? ? ? ? ? ? ? ? ? HA|? ? ? ? ? ? ? ? ? ? HA|? ? ? ? ? ? ? ? ? ? HA|? ? ? ? ? ? ? ? ? ? HA]; subst; clear HD; cbn in HA; injection HA as <-
  end; cbn; auto].

Lemma ex_filler1_run : lot_run 0 Z.eqb Z.ltb ex_lot 0 1 (ex_st [1; 2; 3; 4; 5; 6]) ex_filler1
  [Some ONone; None; Some (OVal 1); Some (OVal 10)] (ex_st [1; 10; 3; 4; 5; 6]).
Proof.
  unfold ex_filler1.
  eapply lr_done with (st1 := ex_st [1; 10; 3; 4; 5; 6]); [eapply s_set; [apply ex_denotes_whole|look_one]|apply co_set|discriminate|stays|].
  eapply lr_thrown; [apply s_list; apply (ex_one_dim 9); cbn; auto|apply (co_list _ [9])|vm_compute; lia|stays|apply i_list|].
  eapply lr_done; [eapply s_get; [apply ex_denotes_whole|look_one]|apply co_get|discriminate|stays|].
  eapply lr_done; [eapply s_get; [apply ex_denotes_whole|look_one]|apply co_get|discriminate|stays|].
  apply lr_nil.
Qed.
Lemma ex_filler2_run : lot_run 0 Z.eqb Z.ltb ex_lot 1 1 (ex_st [1; 2; 3; 4; 5; 6]) ex_filler2
  [Some ONone; Some ONone; Some ONone; Some (OVal 1); Some ONone] (ex_two (Some (ex_array [1; 2; 3; 0; 0; 5])) None).
Proof.
  unfold ex_filler2.
  eapply lr_done; [apply s_list; apply (ex_one_dim 3); cbn; auto|apply (co_list _ [3])|discriminate|stays|].
  change (add_array _ _) with (ex_two (Some (ex_array [1; 2; 3; 4; 5; 6])) (Some (ex_line3 [0; 0; 0]))).
  eapply lr_done with (st1 := ex_two (Some (ex_array [1; 2; 3; 4; 5; 6])) (Some (ex_line3 [0; 0; 5])));
    [eapply s_set; [apply (dn_var _ 1 (ex_line3 [0; 0; 0])); reflexivity|look_one]|apply co_set|discriminate|stays|].
  assert (HD : denotes (ex_two (Some (ex_array [1; 2; 3; 4; 5; 6])) (Some (ex_line3 [0; 0; 5]))) (Sub (Var 0) 1)
    (Place 0 [0] [3] [1] (fun t => pl_cell ex_whole (1 :: t)))).
  { refine (dn_sub _ (Var 0) 1 0%nat 0 [0] 2 [3] 3 [1] (pl_cell ex_whole) _ _ _); [|congruence|lia].
    apply (dn_var _ 0 (ex_array [1; 2; 3; 4; 5; 6])). reflexivity. }
  eapply lr_done with (st1 := ex_two (Some (ex_array [1; 2; 3; 0; 0; 5])) (Some (ex_line3 [0; 0; 5])));
    [eapply s_assign; [exact HD|apply (dn_var _ 1 (ex_line3 [0; 0; 5])); reflexivity|]|eapply co_assign; exact HD|discriminate| |].
  { split; [reflexivity|]. change (tuples _) with [[0]; [1]; [2]]. copy_one. copy_one. copy_one. constructor. }
  { split; [intros x X; inversion X|]. split; intros x q X; inversion X; subst; clear X.
    - right. inversion H1; subst. inversion H2; subst. cbn in H5. injection H5 as <-. cbn [pl_bases pl_shape pl_var pl_cell] in *.
      cbn in H7, H8. injection H7 as <- <-. injection H8 as <- <-.
      revert H4. apply (ex_cells _ _ _ (fun i => ex_lot 0 (pl_cell ex_whole (1 :: i)) = Some 1%nat)); cbn; auto.
      intros j [<-|[<-|[<-|[]]]]; reflexivity.
    - left. inversion H1; subst. cbn. auto. }
  eapply lr_done; [eapply s_get; [apply (dn_var _ 0 (ex_array [1; 2; 3; 0; 0; 5])); reflexivity|look_one]|apply co_get|discriminate|stays|].
  eapply lr_done; [eapply s_destroy; reflexivity|apply co_destroy|discriminate|stays|].
  apply lr_nil.
Qed.

Definition ex_fillers (en : env) := map (fun p => (j_thread 0 Z.eqb Z.ltb true en p, @None nat)) [ex_filler1; ex_filler2].
(** the threads are as required, and can be run one step each in turn; at the end the
    shared array holds what both have left in it *)
Example ex_c67 : exists en h,
  run_catching 0 Z.eqb Z.ltb true (Env [] []) ex_main [] = Done (en, [Some ONone; Some ONone]) (World h None) /\
  private_run 0 Z.eqb Z.ltb 0 empty_state ex_main [Some ONone; Some ONone] (ex_st [1; 2; 3; 4; 5; 6]) /\
  lot_run 0 Z.eqb Z.ltb ex_lot 0 1 (ex_st [1; 2; 3; 4; 5; 6]) ex_filler1
    [Some ONone; None; Some (OVal 1); Some (OVal 10)] (ex_st [1; 10; 3; 4; 5; 6]) /\
  lot_run 0 Z.eqb Z.ltb ex_lot 1 1 (ex_st [1; 2; 3; 4; 5; 6]) ex_filler2
    [Some ONone; Some ONone; Some ONone; Some (OVal 1); Some ONone] (ex_two (Some (ex_array [1; 2; 3; 0; 0; 5])) None) /\
  exists s, c_steps (h, ex_fillers en) s /\
    ended s = [Some [Some ONone; None; Some (OVal 1); Some (OVal 10)];
               Some [Some ONone; Some ONone; Some ONone; Some (OVal 1); Some ONone]] /\
    nth_error (fst s) 0 = Some (Some (Block 7 (map Some [1; 10; 3; 0; 0; 5]))).
Proof.
  destruct (run_catching 0 Z.eqb Z.ltb true (Env [] []) ex_main []) as [[en os] [h f]|w|w| |] eqn:E; try (vm_compute in E; discriminate).
  vm_compute in E. injection E as <- <- <- <-. do 2 eexists. split; [reflexivity|].
  split; [apply ex_main_run|]. split; [apply ex_filler1_run|]. split; [apply ex_filler2_run|].
  match goal with |- exists s, c_steps (?h, ex_fillers ?en) _ /\ _ =>
    destruct (follow (concat (repeat [0; 1]%nat 21) ++ repeat 1%nat 9) (h, ex_fillers en)) as [s|] eqn:EF; [|exfalso; vm_compute in EF; discriminate] end.
  exists s. split; [exact (follow_steps _ _ _ EF)|]. split.
  - apply (f_equal (option_map ended)) in EF. cbn [option_map] in EF. vm_compute in EF. injection EF as EF. symmetry. exact EF.
  - apply (f_equal (option_map (fun s => nth_error (fst s) 0))) in EF. cbn [option_map] in EF. vm_compute in EF. injection EF as EF. symmetry. exact EF.
Qed.

(** The restriction is needed: two threads that both write the same element race, also if
    each stays within a lot that contains the element, when the lots are not the same
    division of the elements *)
Theorem c67_overlapping_lots_refuted : ~ forall (T : Type) (dflt : T) eqT ltT chk (lots : nat -> nat -> nat -> option nat) p0 os0 st0 en0 h0 threads results,
  private_run dflt eqT ltT 0 empty_state p0 os0 st0 ->
  run_catching dflt eqT ltT chk (Env [] []) p0 [] = Done (en0, os0) (World h0 None) ->
  length results = length threads ->
  (forall i p r, nth_error threads i = Some p -> nth_error results i = Some r ->
     lot_run dflt eqT ltT (lots i) i (length (s_arrays st0)) st0 p (fst r) (snd r)) ->
  forall h pool, c_steps (h0, map (fun p => (j_thread dflt eqT ltT chk en0 p, None)) threads) (h, pool) -> ~ race pool.
Proof.
  intros H.
  set (p := [(Set_ (Var 0) [0; 1] 10, None)] : list (@command Z * option nat)).
  destruct (run_catching 0 Z.eqb Z.ltb true (Env [] []) ex_main []) as [[en os] [h f]|w|w| |] eqn:E; try (vm_compute in E; discriminate).
  pose proof E as E'. vm_compute in E'. injection E' as Een Eos Eh Ef. subst os f.
  set (r := ([Some ONone], ex_st [1; 10; 3; 4; 5; 6]) : list (option (@output Z)) * @state Z).
  pose proof (H Z 0 Z.eqb Z.ltb true (fun i _ _ => Some i) ex_main _ _ en h [p; p] [r; r] ex_main_run E eq_refl) as H'. clear H E.
  assert (HL : forall i, lot_run 0 Z.eqb Z.ltb (fun _ _ => Some i) i 1 (ex_st [1; 2; 3; 4; 5; 6]) p (fst r) (snd r)).
  { intros i. unfold p, r. cbn [fst snd]. eapply lr_done; [eapply s_set; [apply ex_denotes_whole|look_one]|apply co_set|discriminate|stays|apply lr_nil]. }
  assert (HX : forall i q s, nth_error [p; p] i = Some q -> nth_error [r; r] i = Some s ->
    lot_run 0 Z.eqb Z.ltb (fun _ _ => Some i) i (length (s_arrays (ex_st [1; 2; 3; 4; 5; 6]))) (ex_st [1; 2; 3; 4; 5; 6]) q (fst s) (snd s)).
  { intros [|[|[|i]]] q s Hq Hs; cbn in Hq, Hs; try discriminate; injection Hq as <-; injection Hs as <-; apply HL. }
  specialize (H' HX).
  set (pool := map (fun p => (j_thread 0 Z.eqb Z.ltb true en p, None)) [p; p]) in H'.
  destruct (follow [0; 1; 0; 1]%nat (h, pool)) as [[h1 pool1]|] eqn:EF; [|exfalso; subst en h; vm_compute in EF; discriminate].
  apply (H' h1 pool1 (follow_steps _ _ _ EF)). clear H' HX HL.
  subst en h. vm_compute in EF. injection EF as <- <-.
  exists 0%nat, 1%nat. do 4 eexists. split; [discriminate|]. split; [reflexivity|]. split; [reflexivity|].
  left. eexists. split; [reflexivity|left; reflexivity].
Qed.
