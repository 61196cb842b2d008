(** ThmFaults.v -- C43: a checked build stops at the first misuse, in any program. *)

From Coq Require Import Lia Permutation.
From Verif Require Import Base StorageOrder Ranges Layout Access Objects Memory Ops MultiArray Spec Facts
  LayoutProofs AccessProofs ViewSpec ViewProofs MemoryProofs CopyProofs ReachSpec ReachProofs IterSpec MemSpec ThmIter
  CompareSpec OwnSpec ThmAddressing ThmViews ThmGeometry ThmCopy ThmBulk CompareProofs ThmCompare OwnProofs ResizeProofs ThmMultiArray
  History HistorySpec FaultSpec HistoryProofs HeapProofs ThmHistory.

Lemma bad_step b e s off d nstr next sub : bad_subscript b e sub ->
  0 <= e <= max_index -> - max_index - 1 <= b -> b + e <= max_index ->
  gav_step true (arg_range (sub_arg sub)) e s b (GS off d nstr next) = Abort.
Proof.
  intros HB He H1 H2. destruct HB as [i Hi Hv|lo hi|lo hi stride start finish Hs Hlo Hhi Hiv Hd Hds Hb Hbad].
  - cbn [sub_arg arg_range]. unfold gav_step. rewrite get_finish_eq, get_start_eq by lia. cbn [gs_off ir_stride].
    change (negb (1 =? 0)) with true. cbn [assertM obind].
    assert (RS : range_start (IRange i (i + 1) 1 true) b = i).
    { unfold range_start. cbn [ir_start]. destruct (Z.eqb_spec i (- max_index - 1)); auto. lia. }
    assert (RF : range_finish (IRange i (i + 1) 1 true) b e = i + 1).
    { unfold range_finish. cbn [ir_finish]. destruct (Z.eqb_spec (i + 1) max_index); lia. }
    rewrite RS, RF. rewrite view_len_ok; unfold index_value; try (change (0 <? 1) with true; cbv iota; unconst; lia).
    cbn [obind]. rewrite start_ok_ok by lia. rewrite finish_ok_ok by lia. cbv zeta. change (1 <? 0) with false. cbv iota.
    cbn [assertM obind].
    destruct (Z.leb_spec b i); [|reflexivity]. destruct (Z.leb_spec i (b + e)); [|reflexivity]. cbn [andb obind].
    destruct (Z.leb_spec (b - 0) (i + 1)); [|reflexivity]. destruct (Z.leb_spec (i + 1) (b + e - 0)); [lia|reflexivity].
  - cbn [sub_arg arg_range]. rewrite slice_range_eq. apply c06_zero_stride_rejected. reflexivity.
  - cbn [sub_arg arg_range]. rewrite slice_range_eq. set (r := IRange _ _ stride false).
    assert (RS : range_start r b = start).
    { unfold range_start, start, r. cbn [ir_start]. destruct lo as [x|]; [|rewrite Z.eqb_refl; auto].
      destruct (Z.eqb_spec x (- max_index - 1)); auto. congruence. }
    assert (RF : range_finish r b e = finish).
    { unfold range_finish, finish, r. cbn [ir_finish]. destruct hi as [x|]; [|rewrite Z.eqb_refl; auto].
      destruct (Z.eqb_spec x max_index); auto. congruence. }
    unfold gav_step. rewrite get_finish_eq, get_start_eq by lia. rewrite RS, RF. clearbody start finish.
    change (ir_stride r) with stride. unfold index_value in *.
    destruct (Z.eqb_spec stride 0) as [|_]; [congruence|]. cbn [negb assertM obind].
    rewrite view_len_ok; unfold index_value; auto; try (destruct (Z.ltb_spec 0 stride); unconst; lia).
    cbn [obind]. rewrite start_ok_ok by lia. cbn [obind].
    destruct (Z.leb_spec b start); [|reflexivity]. destruct (Z.leb_spec start (b + e)); [|reflexivity]. cbn [andb obind].
    rewrite finish_ok_ok by lia. cbv zeta. cbn [obind].
    assert (HB2 : (b - (if stride <? 0 then 1 else 0) <=? finish) && (finish <=? b + e - (if stride <? 0 then 1 else 0)) = false).
    { apply andb_false_iff. destruct (Z.ltb_spec stride 0); rewrite !Z.leb_gt; lia. }
    rewrite HB2. reflexivity.
Qed.

Lemma good_index b e s i vs ws m : slices [b] [e] [s] [At i] vs ws m -> b <= i < b + e /\ i < max_index.
Proof. intros H. inversion H; subst. split; assumption. Qed.

Definition arg_fine (x : ig_arg) : Prop := match x with AIndex k => idx_min <= k < idx_max | _ => True end.

Lemma bad_subs_facts : forall bs es ss subs, bad_subscripts bs es ss subs -> bounds_ok bs es ->
  length subs = length es /\ Forall arg_fine (map sub_arg subs).
Proof.
  induction 1 as [b bs e es s ss sub subs HB L F|b bs e es s ss sub subs vs ws m HS H IH]; intros [B1 B2]; cbn [map length].
  - split; [lia|]. constructor.
    + destruct HB as [i Hi Hv| |]; cbn [sub_arg arg_fine]; [unconst; lia|exact I|exact I].
    + rewrite Forall_map. eapply Forall_impl; [|exact F]. intros [i|lo hi st]; cbn [sub_arg arg_fine]; [|intros; exact I].
      unfold index_value. unconst; lia.
  - inversion B1; subst. inversion B2; subst. assert (BO : bounds_ok bs es) by (split; assumption). destruct (IH BO) as [L F]. split; [lia|].
    constructor; [|exact F]. destruct sub as [i|lo hi st]; cbn [sub_arg arg_fine]; [|exact I].
    apply good_index in HS. unconst; lia.
Qed.

Lemma gav_step_loop r e s b st : gav_step true r e s b st = gav_loop true [r] [e] [s] [b] st.
Proof. cbn [gav_loop]. destruct (gav_step true r e s b st); reflexivity. Qed.

Lemma bad_loop : forall bs es ss subs, bad_subscripts bs es ss subs -> forall off ps pe m,
  bounds_ok bs es -> Forall (fun s => Z.abs s <= max_index) ss -> length ps = length pe ->
  (length (filter is_range (map sub_arg subs)) <= m)%nat ->
  Z.abs off + reach bs es ss <= max_index ->
  gav_loop true (map arg_range (map sub_arg subs)) es ss bs (GS off (length ps) (partial_list ps m) (partial_list pe m)) = Abort.
Proof.
  induction 1 as [b bs e es s ss sub subs HB L F|b bs e es s ss sub subs vs ws g HS H IH];
    intros off ps pe m [B1 B2] FS Lp Lm HR; inversion B1; subst; inversion B2; subst; inversion FS; subst; cbn [map gav_loop].
  - rewrite bad_step; auto; lia.
  - cbn [reach] in HR. pose proof (reach_nonneg bs es ss) as RN.
    assert (BO : bounds_ok [b] [e]) by (split; constructor; try assumption; constructor).
    assert (F1 : Forall (fun s => Z.abs s <= max_index) [s]) by (constructor; [assumption|constructor]).
    assert (R1 : reach [b] [e] [s] <= max_index) by (cbn [reach]; lia).
    assert (P1 : 0 <= (Z.abs b + Z.max 0 (e - 1)) * Z.abs s) by (apply Z.mul_nonneg_nonneg; lia).
    destruct (slices_facts _ _ _ _ _ _ _ HS eq_refl BO F1 R1) as (A1 & A2 & A3 & A4 & A5 & A6 & _). cbv zeta in *.
    cbn [map] in A1, A2, A3, A4, A5, A6. set (r := arg_range (sub_arg sub)) in *.
    cbn [reach] in A3.
    assert (Lg : (length (gav_strides [r] [s]) <= m)%nat).
    { cbn [map filter] in Lm. rewrite A6. assert (E : length ws = length vs).
      { rewrite <- A4, <- A6. cbn [gav_strides gav_lens]. destruct (ir_degenerate r); reflexivity. }
      rewrite E, <- A5. cbn [filter]. destruct (is_range (sub_arg sub)); cbn [length] in *; lia. }
    rewrite gav_step_loop, gav_loop_ok by (auto; lia). cbn [obind].
    rewrite <- (app_length ps).
    assert (RO : Z.abs (gav_origin [b] [r] [s]) <= corner [b] [r] [s]).
    { cbn [gav_origin corner]. pose proof (abs_mul (range_start r b) s). lia. }
    apply IH; auto.
    + split; auto.
    + rewrite !app_length. f_equal; auto. cbn [gav_strides gav_lens]. destruct (ir_degenerate r); reflexivity.
    + cbn [map filter] in Lm. rewrite A6. assert (E : length ws = length vs).
      { rewrite <- A4, <- A6. cbn [gav_strides gav_lens]. destruct (ir_degenerate r); reflexivity. }
      rewrite E, <- A5. cbn [filter]. destruct (is_range (sub_arg sub)); cbn [length] in *; lia.
    + lia.
Qed.

Section Faults.
Context {T : Type}.
Variable dflt : T.
Variable eqT : T -> T -> bool.
Variable ltT : T -> T -> bool.

Lemma bad_view vars c d x bs ns ss m subs : stands vars c d (Place x bs ns ss m) -> bad_subscripts bs ns ss subs ->
  exists ig, indices_of indices subs = Ok ig /\ make_view true d ig = Abort.
Proof.
  intros (mm & Em & Hc & HL & Hd & Eb & Ee & Es & Fs & Ei) HB. cbn [pl_var pl_bases pl_shape pl_strides pl_cell] in *.
  pose proof (derived_ok _ _ Hc Hd) as (L1 & L2 & L3 & F1 & F2 & F3 & F4). rewrite Eb, Ee, Es in *.
  destruct (bad_subs_facts _ _ _ _ HB (conj F1 F2)) as [L F].
  set (args := map sub_arg subs) in *.
  assert (Hargs : args <> []) by (unfold args; destruct subs; [inversion HB|discriminate]).
  pose proof (c29_generator_records_arguments args Hargs F) as EI.
  eexists. split; [rewrite indices_of_build; exact EI|].
  unfold make_view, generate_array_view. cbn [ig_num ig_dims ig_ranges]. unfold args at 1. rewrite map_length, L, Ee, Nat.eqb_refl, Eb, Es.
  change (GS 0 0 ?a ?b) with (GS 0 (length (@nil Z)) a b).
  change (repeat None ?k) with (partial_list [] k).
  unfold args. rewrite (bad_loop _ _ _ _ HB); auto. split; auto.
Qed.

Lemma bad_expr_aborts st en (h : heap T) e : related st en h -> bad_expr st e -> eval true en e = Abort.
Proof.
  intros HR. induction 1 as [e i x b bs n ns s ss m HD Hne Hi Hv|e subs x bs ns ss m HD HB|e k x b bs n ns s ss m HD Hne Hi Hv1 Hv2
    |e k x b bs n ns s ss m HD Hne Hi Hv1 Hv2|e i H IH|e subs H IH|e k H IH|e k H IH]; cbn [eval];
    try (rewrite IH; reflexivity);
    destruct (denotes_eval st en h true e _ HR HD) as (o & c & E & Hs & _); rewrite E; cbn [obind].
  - destruct Hs as (mm & Em & Hc & HL & Hd & Eb & Ee & Es & _). cbn [pl_bases pl_shape pl_strides] in *.
    rewrite (access_n_abort i (obj_nd o) b bs n ns s ss); auto. exact (derived_ok _ _ Hc Hd).
  - destruct (bad_view _ _ _ _ _ _ _ _ _ Hs HB) as (ig & -> & EV). cbn [obind]. rewrite EV. reflexivity.
  - destruct Hs as (mm & Em & Hc & HL & Hd & Eb & Ee & Es & _). cbn [pl_bases pl_shape pl_strides] in *.
    rewrite (nd_begin_at (obj_nd o) b bs Eb). cbn [obind]. unfold it_advance. cbn [it_idx it_at].
    unfold index_value in Hv2. rewrite sadd_ok by (unconst; lia). cbn [obind].
    unfold it_deref_n. cbn [it_idx it_with_idx]. change (it_with_idx (it_at (obj_nd o) b) (b + k)) with (it_at (obj_nd o) (b + k)).
    rewrite it_nd_at. cbn [it_idx it_at].
    rewrite (access_n_abort (b + k) (obj_nd o) b bs n ns s ss); auto; [exact (derived_ok _ _ Hc Hd)|replace (b + k - b) with k by lia; auto|lia].
  - destruct Hs as (mm & Em & Hc & HL & Hd & Eb & Ee & Es & _). cbn [pl_bases pl_shape pl_strides] in *.
    pose proof (derived_ok _ _ Hc Hd) as Hok. destruct (dims_at _ Hok) as (b' & bs' & e' & es' & Eb' & Ee' & He & Hb & Hbe & E1 & E2).
    assert (b' = b /\ e' = n) as [-> ->] by (split; congruence). unfold index_value in *.
    unfold nd_rbegin. rewrite E2. cbn [obind]. rewrite ri_inc_n_at by (unconst; lia). cbn [obind].
    replace (b + n - Z.of_nat k) with (b + n - 1 - Z.of_nat k + 1) by lia.
    rewrite ri_deref_n_at by (unconst; lia).
    rewrite (access_n_abort _ (obj_nd o) b bs n ns s ss); auto; [unfold index_value; replace (b + n - 1 - Z.of_nat k - b) with (n - 1 - Z.of_nat k) by lia; lia|lia].
Qed.

Lemma bad_nd_aborts st en (h : heap T) e : related st en h -> bad_expr st e -> eval_nd true en e = Abort.
Proof. intros HR HB. unfold eval_nd. rewrite (bad_expr_aborts st en h e HR HB). reflexivity. Qed.

Lemma bad_tuple_aborts vars d p i : stands_for vars d p -> bad_tuple p i ->
  access_element true d i = Abort /\ bracket true d i = Abort.
Proof.
  intros (c & mm & Em & Hc & HL & Hd & Eb & Ee & Es & _) (L & Hn & HF).
  apply (c04_range_check_exact c d i Hc Hd); rewrite ?Eb, ?Ee; auto.
Qed.

Lemma misuse_aborts st en (h : heap T) f c : related st en h -> misuse st c ->
  exec dflt eqT ltT true en c (World h f) = Aborted (World h f).
Proof.
  intros HR HM. pose proof (bad_nd_aborts st en h) as BA. pose proof (bad_expr_aborts st en h) as BE.
  destruct HM as [e i p HD HB|e i v p HD HB|e i p HD HB|e i v p HD HB|d s pd ps HD1 HD2 HS|d s pd ps HD1 HD2 HS|x y a b Ha Hb HS
    |x a shape Ha L F HP HN|k x off bases shape0 so shape Hk L F HP HN|e i HB|e i v HB|e i HB|e i v HB|e fn HB|q e HB|e so aid HB|e subs HB
    |d s HB|d s [p HD] HB|d s HB|d s [p HD] HB|op a b HB|op a b [p HD] HB]; cbn [exec]; unfold bind at 1, lift at 1;
    try (rewrite (BA _ HR HB); reflexivity); try (rewrite (BE _ HR HB); reflexivity).
  - destruct (denotes_nd st en h true e p HR HD) as (d & -> & Hs). destruct (bad_tuple_aborts _ _ _ _ Hs HB) as [E _].
    unfold get_element, bind, lift. rewrite E. reflexivity.
  - destruct (denotes_nd st en h true e p HR HD) as (d & -> & Hs). destruct (bad_tuple_aborts _ _ _ _ Hs HB) as [E _].
    unfold set_element, bind, lift. rewrite E. reflexivity.
  - destruct (denotes_nd st en h true e p HR HD) as (d & -> & Hs). destruct (bad_tuple_aborts _ _ _ _ Hs HB) as [_ E].
    unfold get_bracket, bind, lift. rewrite E. reflexivity.
  - destruct (denotes_nd st en h true e p HR HD) as (d & -> & Hs). destruct (bad_tuple_aborts _ _ _ _ Hs HB) as [_ E].
    unfold set_bracket, bind, lift. rewrite E. reflexivity.
  - destruct (denotes_nd st en h true s ps HR HD2) as (sn & -> & (c2 & mm2 & Em2 & Hc2 & _ & Hd2 & _ & Ee2 & _)).
    destruct (denotes_nd st en h true d pd HR HD1) as (dn & E1 & (c1 & mm1 & Em1 & Hc1 & _ & Hd1 & _ & Ee1 & _)).
    unfold bind, lift. rewrite E1.
    destruct (c12_shape_mismatch_aborts T (World h f) c1 c2 dn sn Hc1 Hd1 Hc2 Hd2) as [E _]; [congruence|]. rewrite E. reflexivity.
  - destruct (denotes_nd st en h true s ps HR HD2) as (sn & -> & (c2 & mm2 & Em2 & Hc2 & _ & Hd2 & _ & Ee2 & _)).
    destruct (denotes_nd st en h true d pd HR HD1) as (dn & E1 & (c1 & mm1 & Em1 & Hc1 & _ & Hd1 & _ & Ee1 & _)).
    unfold bind, lift. rewrite E1.
    destruct (c12_shape_mismatch_aborts T (World h f) c1 c2 dn sn Hc1 Hd1 Hc2 Hd2) as [_ E]; [congruence|]. rewrite E. reflexivity.
  - destruct HR as [HA HH]. destruct (relA_var _ _ h x a HA Ha) as (m & Em & (Ho & E1 & E2 & E3 & E4)).
    destruct (relA_var _ _ h y b HA Hb) as (m' & Em' & (Ho' & E1' & E2' & E3' & E4')).
    rewrite (var_eval en x m Em). unfold bind at 1, lift at 1. rewrite (var_eval en y m' Em').
    assert (Nxy : Nat.eqb x y = false).
    { apply Nat.eqb_neq. intros ->. unfold array_is in *. congruence. }
    rewrite Nxy. unfold ma_assign, bind.
    destruct (c12_shape_mismatch_aborts T (World h f) (ma_ref m) (ma_ref m') (cr_nd (ma_ref m)) (cr_nd (ma_ref m'))) as [E _];
      [apply Ho|constructor|apply Ho'|constructor|cbn [cr_nd nd_ext]; congruence|].
    cbn [cr_nd nd_ext] in E. 
    unfold ma_assign_from. rewrite E. reflexivity.
  - destruct HR as [HA HH]. destruct (relA_var _ _ h x a HA Ha) as (m & Em & (Ho & E1 & E2 & E3 & E4)).
    rewrite (var_eval en x m Em). unfold ma_reshape, bind, lift.
    rewrite (c10_reshape_rejected (ma_ref m) shape); [reflexivity|apply Ho|congruence|auto|auto|].
    rewrite c26_fits_64_bits by apply Ho. congruence.
  - destruct HR as [HA [_ HH]]. destruct (HH k _ Hk) as (d & Ed & Hd). unfold named. rewrite Ed.
    destruct d as [v|c]; cbn [hrel] in Hd; try tauto. destruct Hd as (m & Em & Hc & Hl & E1 & E2 & E3).
    unfold bind, lift. rewrite (c10_reshape_rejected c shape); [reflexivity|auto|congruence|auto|auto|].
    rewrite c26_fits_64_bits by auto. congruence.
  - pose proof (BE _ HR HB) as E. cbn [eval] in E. unfold eval_nd. destruct (eval true en e) as [o| |]; cbn [obind] in *; try discriminate; [|reflexivity].
    unfold bind, lift. destruct (indices_of indices subs); cbn [obind] in *; try discriminate; [|reflexivity].
    destruct (make_view true (obj_nd o) a); cbn [obind] in *; try discriminate. reflexivity.
  - destruct (denotes_nd st en h true s p HR HD) as (sn & -> & _). unfold bind, lift. rewrite (BA _ HR HB). reflexivity.
  - destruct (denotes_nd st en h true s p HR HD) as (sn & -> & _). unfold bind, lift. rewrite (BA _ HR HB). reflexivity.
  - destruct (denotes_nd st en h true a p HR HD) as (sn & -> & _). unfold bind, lift. rewrite (BA _ HR HB). reflexivity.
Qed.
End Faults.

(** * C43 *)

(** With assertions on, in any program: if what has been done so far is within the
    contract and the next call is a misuse -- an index or iterator position out of
    range anywhere in its operands, subscripts or slices out of bounds, a zero
    stride, shapes that differ in an assignment, or a reshape to another number of
    elements -- then the program aborts at that call, before the call has changed
    anything: memory is as the commands before it left it, and agrees with the
    abstract machine. *)
Theorem c43_misuse_is_caught : forall (T : Type) (dflt : T) eqT ltT p os st c rest,
  steps dflt eqT ltT empty_state p os st -> misuse st c ->
  exists en h, run dflt eqT ltT true (Env [] []) p (World [] None) = Done (en, os) (World h None) /\
    agrees st en h /\
    run dflt eqT ltT true (Env [] []) (p ++ c :: rest) (World [] None) = Aborted (World h None) /\
    forall f, exec dflt eqT ltT true en c (World h f) = Aborted (World h f).
Proof.
  intros T dflt eqT ltT p os st c rest HS HM.
  destruct (run_sound dflt eqT ltT true p empty_state os st (Env [] []) [] related_nil HS) as (en & h & E & HR & _).
  exists en, h. split; [auto|]. split; [apply related_agrees; auto|].
  assert (HA : forall f, exec dflt eqT ltT true en c (World h f) = Aborted (World h f)) by (intros f; eapply misuse_aborts; eauto).
  split; [|auto]. rewrite (run_app _ _ _ _ _ _ _ _ _ _ _ E). cbn [run]. unfold bind at 1. rewrite HA. reflexivity.
Qed.

(** a misuse is outside the contract: the abstract machine has no step for it *)
Theorem c43_misuse_is_illegal : forall (T : Type) (dflt : T) eqT ltT p os st c,
  steps dflt eqT ltT empty_state p os st -> misuse st c -> ~ legal st c.
Proof.
  intros T dflt eqT ltT p os st c HS HM HL.
  destruct (run_sound dflt eqT ltT true p empty_state os st (Env [] []) [] related_nil HS) as (en & h & E & HR & _).
  destruct (legal_step dflt eqT ltT st en h c HR HL) as (o & st' & Hst).
  pose proof (exec_sound dflt eqT ltT st en h c o st' true None HR Hst) as HF.
  rewrite (misuse_aborts dflt eqT ltT st en h None c HR HM) in HF. exact HF.
Qed.

(** a 2x3 array: the assignment of row 1 through a slice whose third part runs
    from 2 down past the front (start 2, finish -2), nested inside another
    subscript; and assigning the array to a 3-element view; the model aborts *)
Example ex_c43 :
  let p := [ NewList [2; 3] (so_from_c 2) 7; Fill 0 [1; 2; 3; 4; 5; 6] ] in
  let c1 := Set_ (View_of (Var 0) [At 1; Slice (Some 2) (Some (-2)) (-1)]) [0] 9 in
  let c2 := Assign (View_of (Var 0) [At 1; Slice (Some 2) (Some (-1)) (-1)]) (View_of (Sub (Var 0) 0) [Slice None (Some 2) 1]) in
  let st := ex_st [1; 2; 3; 4; 5; 6] in
  steps 0 Z.eqb Z.ltb empty_state p [ONone; ONone] st /\ misuse st c1 /\ misuse st c2 /\
  exists h, run 0 Z.eqb Z.ltb true (Env [] []) (p ++ [c1]) (World [] None) = Aborted (World h None) /\
            run 0 Z.eqb Z.ltb true (Env [] []) (p ++ [c2]) (World [] None) = Aborted (World h None) /\
            h = [Some (Block 7%nat (map Some [1; 2; 3; 4; 5; 6]))].
Proof.
  cbv zeta.
  assert (HD : forall l, denotes (ex_st l) (Var 0) (Place 0 [0; 0] [2; 3] [3; 1]
    (fun i => Z.to_nat (position (so_ordering (so_from_c 2)) (so_ascending (so_from_c 2)) [0; 0] [2; 3] i)))).
  { intros l. apply (dn_var (ex_st l) 0 (Arr [2; 3] [0; 0] (so_from_c 2) 7%nat l)). reflexivity. }
  split.
  { eapply ss_cons; [apply s_list; apply ex_well_formed|].
    change (add_array _ _) with (ex_st [0; 0; 0; 0; 0; 0]).
    eapply ss_cons; [eapply s_fill; reflexivity|]. apply ss_nil. }
  split.
  { apply mu_in_set. eapply be_view; [apply HD|].
    eapply bad_later; [apply sl_at; [lia|unconst; lia|apply sl_nil]|].
    apply bad_here; [|reflexivity|constructor].
    apply bad_slice; unfold index_value; try congruence; try (unconst; lia); try (intros E; injection E as E; revert E; unconst; lia). }
  split.
  { eapply mu_assign; [apply ex_denotes_src| |].
    - eapply dn_view with (vs := [2]); [eapply dn_sub; [apply HD|discriminate|lia]| |discriminate].
      eapply sl_slice with (len := 2); try apply sl_nil; unfold selected, index_value; try (unconst; lia).
      intros k. destruct (Z.ltb_spec 0 1); lia.
    - discriminate. }
  eexists. split; [vm_compute; reflexivity|]. split; [vm_compute; reflexivity|]. reflexivity.
Qed.
