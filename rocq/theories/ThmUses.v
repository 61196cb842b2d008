(** ThmUses.v -- C49 (std::swap), C50 (assign from live data), C51 (assignment
    from another element type), C52 (two example programs) *)

From Coq Require Import ZArith List Bool Lia Permutation.
From Verif Require Import Base StorageOrder Ranges Layout Access Objects Memory Ops MultiArray Algorithms UserCode
  Spec ViewSpec ReachSpec IterSpec MemSpec CompareSpec OwnSpec SeqSpec UseSpec
  Facts LayoutProofs AccessProofs ViewProofs MemoryProofs CopyProofs ReachProofs
  ThmAddressing ThmViews ThmGeometry ThmIter ThmCopy ThmBulk CompareProofs ThmCompare OwnProofs ResizeProofs ThmMultiArray
  AlgProofs.
Import ListNotations.
Local Open Scope Z_scope.

(** * C49 *)

Section Swap.
Context {T : Type}.
Variable dflt : T.

Lemma elements_vals (h : heap T) a r : nd_ok a -> elements h a r <-> vals h (addrs a) r.
Proof.
  intros Ha. pose proof Ha as (L & _). unfold elements, vals, addrs. rewrite tuples_shift by auto. rewrite !map_map.
  assert (G : forall ks, (forall k, In k ks -> In k (positions (nd_ext a))) -> forall r,
     Forall2 (fun k v => reads h a (tadd (nd_base a) k) v) ks r <->
     map (fun x => hcell h (addr a (tadd (nd_base a) x))) ks = map (fun v => Some (Some v)) r).
  { induction ks as [|k ks IH]; intros Hin r0.
    - destruct r0; simpl; split; intros H; try inversion H; auto.
    - assert (RI : forall v, reads h a (tadd (nd_base a) k) v <-> hcell h (addr a (tadd (nd_base a) k)) = Some (Some v)).
      { intros v. apply reads_iff; auto. apply tadd_in_bounds; auto. apply in_positions. apply Hin. left; auto. }
      destruct r0 as [|v r0]; simpl; split; intros H; try (inversion H; fail).
      + inversion H as [|x y z w H1 H2]; subst. f_equal; [apply RI; auto|]. apply IH; auto. intros; apply Hin; right; auto.
      + injection H as H1 H2. constructor; [apply RI; auto|]. apply IH; auto. intros; apply Hin; right; auto. }
  apply G. auto.
Qed.

Lemma owned_ok (h : heap T) a va : owns h a va -> nd_ok (cr_nd (ma_ref a)).
Proof. intros (Ho & _). apply cref_addressable, array_object_ok; auto. Qed.

Lemma owned_block (h : heap T) a va q : owns h a va -> In q (addrs (cr_nd (ma_ref a))) -> p_blk q = ma_block a.
Proof.
  intros Ho Hq. pose proof (owned_ok _ _ _ Ho) as Hok. apply in_addrs in Hq; auto. apply element_of_addr in Hq; auto.
  destruct Hq as (i & Hi & ->). destruct Ho as (H0 & H1 & _). destruct (cref_cell (ma_ref a) i (array_object_ok _ H0) Hi) as (k & _ & E).
  rewrite E, H1. reflexivity.
Qed.

Lemma owned_count (h : heap T) a va r : owns h a va -> holds h a r -> length r = length va.
Proof.
  intros Ho Hr. pose proof (owned_ok _ _ _ Ho) as Hok. apply elements_vals in Hr; auto. apply vals_length in Hr.
  rewrite length_addrs in Hr by auto. destruct Ho as (H0 & _ & _ & _ & H4 & _). unfold cr_num_elements in H4.
  destruct (array_object_ok _ H0) as (_ & _ & _ & _ & Hn). rewrite Hn in H4. cbn [cr_nd nd_ext] in Hr. lia.
Qed.

Lemma holds_exists (h : heap T) a va : owns h a va -> exists r, holds h a r.
Proof.
  intros Ho. pose proof (owned_ok _ _ _ Ho) as Hok.
  assert (G : forall ps, (forall p, In p ps -> init h p) -> exists r, vals h ps r).
  { induction ps as [|p ps IH]; intros H; [exists []; reflexivity|].
    destruct (H p (or_introl eq_refl)) as [v Hv]. destruct IH as [r Hr]; [intros; apply H; right; auto|].
    exists (v :: r). unfold vals. simpl. rewrite Hv. f_equal. exact Hr. }
  destruct (G (addrs (cr_nd (ma_ref a)))) as [r Hr].
  - intros p Hp. apply in_addrs in Hp; auto. apply element_of_addr in Hp; auto. destruct Hp as (i & Hi & ->).
    apply element_at_init. apply (owns_live a va h Ho). apply cref_cell; auto. apply array_object_ok. apply Ho.
  - exists r. apply elements_vals; auto.
Qed.

(** dst = src for whole arrays, with an exception at any point or none *)
Lemma whole_assign chk (dst src : multi_array) (h : heap T) f vd vs rd rs :
  owns h dst vd -> owns h src vs -> ma_block dst <> ma_block src ->
  cr_ext (ma_ref dst) = cr_ext (ma_ref src) -> holds h dst rd -> holds h src rs ->
  let keeps h' := (exists vd', owns h' dst vd') /\ length h' = length h /\
                  forall b, b <> ma_block dst -> nth_error h' b = nth_error h b in
  (enough f (length rd) -> exists h',
     ma_assign chk false dst src (World h f) = Done tt (World h' (spend f (length rd))) /\ holds h' dst rs /\ keeps h') /\
  (forall k, f = Some k -> (k < length rd)%nat -> exists h',
     ma_assign chk false dst src (World h f) = Thrown (World h' None) /\ holds h' dst (firstn k rs ++ skipn k rd) /\ keeps h').
Proof.
  intros Hd Hs Hne He Rd Rs keeps.
  pose proof (owned_ok _ _ _ Hd) as Kd. pose proof (owned_ok _ _ _ Hs) as Ks.
  apply elements_vals in Rd; auto. apply elements_vals in Rs; auto.
  set (D := cr_nd (ma_ref dst)) in *. set (S_ := cr_nd (ma_ref src)) in *.
  assert (Lds : length (addrs D) = length (addrs S_)) by (rewrite !length_addrs by auto; unfold D, S_; cbn [cr_nd nd_ext]; rewrite He; auto).
  set (l := combine (addrs D) (addrs S_)).
  assert (Ll : length l = length rd).
  { unfold l. rewrite combine_length, <- Lds, Nat.min_id. eapply vals_length; eauto. }
  assert (HI : forall d s, In (d, s) l -> init h d /\ init h s).
  { intros d s H. split; [eapply vals_in; [exact Rd|]|eapply vals_in; [exact Rs|]].
    - eapply in_combine_l; eauto. - eapply in_combine_r; eauto. }
  assert (E : forall (w : world T), ma_assign chk false dst src w = copy_cells l w).
  { intros w. unfold ma_assign, ma_assign_from. apply assign_nd_eq; auto.
    cbn [cr_nd nd_ext]. congruence. }
  assert (ND : NoDup (addrs D)).
  { apply (nodup_addrs (ma_ref dst)); [apply Hd|apply d_array]. }
  assert (DJ : forall q, In q (addrs S_) -> ~ In q (addrs D)).
  { intros q H1 H2. apply (owned_block h src vs) in H1; auto. apply (owned_block h dst vd) in H2; auto. congruence. }
  assert (K : forall l' h', (forall d s, In (d, s) l' -> In (d, s) l) -> same_frame h h' -> (forall q, hcell h' q = copy_sem l' (hcell h) q) ->
     (forall b, (forall d s, In (d, s) l -> p_blk d <> b) -> nth_error h' b = nth_error h b) -> keeps h').
  { intros l' h' Sub F C B. split; [|split].
    - apply (owns_frame dst vd h); auto. intros p Hp. unfold init. rewrite C. apply (copy_sem_init l' (hcell h)); auto.
      intros d s H. apply (HI d s). auto.
    - symmetry. apply F.
    - intros b Hb. apply B. intros d s H. apply in_combine_l in H. apply (owned_block h dst vd) in H; auto. congruence. }
  split.
  - intros Hf. rewrite E. destruct (copy_cells_done l h f HI) as (h' & E1 & F & C & B); [rewrite Ll; exact Hf|].
    exists h'. rewrite Ll in E1. split; [exact E1|]. split; [|apply (K l); auto].
    apply elements_vals; auto.
    pose proof (vals_copied h h' (addrs D) (addrs S_) rd rs (length l) ND Lds (or_intror DJ) Rd Rs) as V.
    rewrite firstn_all in V. specialize (V C). rewrite Ll in V.
    rewrite skipn_all, app_nil_r, firstn_all2 in V; auto.
    apply vals_length in Rd. apply vals_length in Rs. lia.
  - intros k -> Hk. rewrite E. destruct (copy_cells_thrown l h k HI) as (h' & E1 & F & C & B); [lia|].
    exists h'. split; [exact E1|]. split.
    + apply elements_vals; auto. eapply vals_copied; eauto.
    + apply (K (firstn k l)); auto. intros d s H. rewrite <- (firstn_skipn k l). apply in_or_app; auto.
Qed.

Lemma holds_same (h h' : heap T) a va r : owns h a va -> same_block h h' (ma_block a) -> holds h a r -> holds h' a r.
Proof.
  intros Ho S_ Hr. pose proof (owned_ok _ _ _ Ho) as Hok. apply elements_vals in Hr; auto. apply elements_vals; auto.
  eapply vals_same; eauto. intros p Hp. apply (owned_block h a va) in Hp; auto. unfold hcell, hblock. rewrite Hp, S_. auto.
Qed.

Lemma holds_iff (h : heap T) a va r : owns h a va ->
  holds h a r <->
  Forall2 (fun k v => nth_error va (Z.to_nat (pos_of (cr_storage (ma_ref a)) (cr_ib (ma_ref a)) (cr_ext (ma_ref a))
                        (tadd (cr_ib (ma_ref a)) k))) = Some v) (positions (cr_ext (ma_ref a))) r.
Proof.
  intros Ho. pose proof (owned_ok _ _ _ Ho) as (L & _). cbn [cr_nd nd_ext nd_base] in L.
  unfold holds, elements. cbn [cr_nd nd_ext nd_base].
  assert (G : forall ks, (forall k, In k ks -> In k (positions (cr_ext (ma_ref a)))) -> forall r0,
     Forall2 (fun k v => reads h (cr_nd (ma_ref a)) (tadd (cr_ib (ma_ref a)) k) v) ks r0 <->
     Forall2 (fun k v => nth_error va (Z.to_nat (pos_of (cr_storage (ma_ref a)) (cr_ib (ma_ref a)) (cr_ext (ma_ref a))
                        (tadd (cr_ib (ma_ref a)) k))) = Some v) ks r0).
  { induction ks as [|k ks IH]; intros Hin r0; [split; intros H; inversion H; constructor|].
    assert (RI : forall v, reads h (cr_nd (ma_ref a)) (tadd (cr_ib (ma_ref a)) k) v <->
       nth_error va (Z.to_nat (pos_of (cr_storage (ma_ref a)) (cr_ib (ma_ref a)) (cr_ext (ma_ref a))
                        (tadd (cr_ib (ma_ref a)) k))) = Some v).
    { intros v. apply owns_reads; auto. apply tadd_in_bounds; auto. apply in_positions. apply Hin. left; auto. }
    split; intros H; inversion H; subst; constructor; try (apply RI; assumption); apply IH; auto; intros; apply Hin; right; auto. }
  apply G. auto.
Qed.

(** the copy made by the copy constructor *)
Lemma copy_holds (h : heap T) a va r : owns h a va ->
  let tmp := new_ma (ma_ref a) (ma_aid a) (length h) in
  let h1 := h ++ [Some (Block (ma_aid a) (map Some va))] in
  owns h1 tmp va -> holds h a r -> holds h1 tmp r.
Proof. intros Ho tmp h1 Ht Hr. apply (holds_iff h1 tmp va r Ht). apply (holds_iff h a va r Ho). auto. Qed.

(** the whole of std::swap, for every number of operations before an exception *)
Lemma swap_exact chk (a b : multi_array) (h : heap T) f va vb ra rb :
  owns h a va -> owns h b vb -> ma_block a <> ma_block b ->
  cr_ext (ma_ref a) = cr_ext (ma_ref b) -> holds h a ra -> holds h b rb ->
  let n := length ra in
  (enough f (1 + 4 * n) -> exists h',
     std_swap dflt chk false a b (World h f) = Done tt (World h' (spend f (1 + 4 * n))) /\
     holds h' a rb /\ holds h' b ra /\ both_alive h' a b /\ others_same h h' a b /\ no_leak h h') /\
  (forall k, f = Some k -> (k < 1 + 4 * n)%nat -> exists h',
     std_swap dflt chk false a b (World h f) = Thrown (World h' None) /\
     holds h' a (firstn (k - (1 + 2 * n)) rb ++ skipn (k - (1 + 2 * n)) ra) /\
     holds h' b (firstn (k - (1 + 3 * n)) ra ++ skipn (k - (1 + 3 * n)) rb) /\
     both_alive h' a b /\ others_same h h' a b /\
     released (k <? 1 + 2 * n)%nat h h').
Proof.
  intros Ha Hb Hne He Ra Rb n.
  pose proof (owned_count _ _ _ _ Ha Ra) as Na. pose proof (owned_count _ _ _ _ Hb Rb) as Nb.
  assert (Nab : length rb = n).
  { pose proof (owned_ok _ _ _ Ha) as Ka. pose proof (owned_ok _ _ _ Hb) as Kb. unfold n.
    unfold holds in Ra, Rb. apply elements_vals in Ra; auto. apply elements_vals in Rb; auto.
    apply vals_length in Ra. apply vals_length in Rb. rewrite length_addrs in * by auto. cbn [cr_nd nd_ext] in *. congruence. }
  pose proof (owns_lt _ _ _ Ha) as La. pose proof (owns_lt _ _ _ Hb) as Lb.
  set (tmp := new_ma (ma_ref a) (ma_aid a) (length h)).
  set (h1 := h ++ [Some (Block (ma_aid a) (map Some va))]).
  assert (S1a : same_block h h1 (ma_block a)) by (apply app_untouched; auto).
  assert (S1b : same_block h h1 (ma_block b)) by (apply app_untouched; auto).
  pose proof (owns_other _ _ _ _ Ha S1a) as Ha1. pose proof (owns_other _ _ _ _ Hb S1b) as Hb1.
  pose proof (holds_same _ _ _ _ _ Ha S1a Ra) as Ra1. pose proof (holds_same _ _ _ _ _ Hb S1b Rb) as Rb1.
  assert (Bt : ma_block tmp = length h) by reflexivity.
  assert (L1 : length h1 = S (length h)) by (unfold h1; rewrite app_length; simpl; lia).
  destruct (copy_exact dflt a va h f Ha) as [(k & h' & Ef & Hk & E & X)|(Hf & E & Ht)].
  - (* the copy threw *)
    rewrite <- Na in Hk. fold n in Hk.
    split. { intros Hf. rewrite Ef in Hf. cbn [enough] in Hf. lia. }
    intros k0 Ek0 Hk0. assert (k0 = k) by congruence. subst k0.
    exists h'. unfold std_swap, bind at 1. rewrite E. split; [reflexivity|].
    replace (k - (1 + 2 * n))%nat with O by lia. replace (k - (1 + 3 * n))%nat with O by lia. cbn [firstn skipn app].
    assert (U : h' = h \/ exists x, h' = h ++ [x]).
    { destruct X as [(_ & ->)|[(_ & ->)|(_ & vs' & _ & ->)]]; [left; auto|right; eauto|right; eauto]. }
    assert (U' : untouched h h').
    { destruct U as [->|[x ->]]; [intros ? _; reflexivity|apply app_untouched]. }
    split; [apply (holds_same h h' a va); auto|]. split; [apply (holds_same h h' b vb); auto|].
    split; [split; [exists va; apply (owns_other a va h)|exists vb; apply (owns_other b vb h)]; auto|].
    split; [intros q Hq _ _; apply U'; auto|].
    replace (k <? 1 + 2 * n)%nat with true by (symmetry; apply Nat.ltb_lt; lia).
    exists (length h). intros q Hq Hq'. unfold hblock. destruct U as [->|[x ->]].
    + rewrite (proj2 (nth_error_None h q)); auto.
    + rewrite (proj2 (nth_error_None (h ++ [x]) q)); auto. rewrite app_length. simpl. lia.
  - fold tmp in E, Ht. fold h1 in E, Ht. rewrite <- Na in Hf, E. fold n in Hf, E.
    set (f1 := spend f (1 + n + n)) in *.
    pose proof (copy_holds h a va ra Ha Ht Ra) as Rt. fold tmp in Rt. fold h1 in Rt.
    destruct (whole_assign chk a b h1 f1 va vb ra rb Ha1 Hb1 Hne He Ra1 Rb1) as [W1 W2]. fold n in W1, W2.
    (* tmp lives in a block of its own *)
    assert (fin : forall h', length h' = length h1 ->
        (exists va', owns h' a va') -> (exists vb', owns h' b vb') ->
        (forall q, q <> ma_block a -> q <> ma_block b -> nth_error h' q = nth_error h1 q) ->
        let h2 := set_nth (length h) None h' in
        (forall f', ma_destroy tmp (World h' f') = Done tt (World h2 f')) /\
        both_alive h2 a b /\ others_same h h2 a b /\ no_leak h h2 /\
        (forall r, holds h' a r -> holds h2 a r) /\ (forall r, holds h' b r -> holds h2 b r)).
    { intros h' L' (va' & Oa) (vb' & Ob) O2 h2.
      assert (Ot : owns h' tmp va).
      { apply (owns_other tmp va h1); auto. unfold same_block. apply O2; rewrite Bt; lia. }
      assert (Sa : same_block h' h2 (ma_block a)) by (unfold same_block, h2; apply nth_error_set_nth_ne; lia).
      assert (Sb : same_block h' h2 (ma_block b)) by (unfold same_block, h2; apply nth_error_set_nth_ne; lia).
      split; [intros f'; rewrite (owns_destroy tmp va) by auto; reflexivity|].
      split; [split; [exists va'; apply (owns_other a va' h')|exists vb'; apply (owns_other b vb' h')]; auto|].
      split. { intros q Hq H1 H2. unfold same_block, h2. rewrite nth_error_set_nth_ne by lia. rewrite O2 by auto.
               unfold h1. apply nth_error_app1. auto. }
      split. { intros q Hq. unfold hblock, h2. destruct (Nat.eq_dec q (length h)) as [->|Hq'].
               - rewrite nth_error_set_nth_eq; auto. lia.
               - rewrite nth_error_set_nth_ne by lia. rewrite (proj2 (nth_error_None h' q)); auto. lia. }
      split; intros r Hr; [apply (holds_same h' h2 a va')|apply (holds_same h' h2 b vb')]; auto. }
    assert (Htl : forall h', length h' = length h1 -> (forall q, q <> ma_block a -> nth_error h' q = nth_error h1 q) ->
       owns h' tmp va /\ holds h' tmp ra).
    { intros h' L' O2. assert (Sm : same_block h1 h' (ma_block tmp)) by (unfold same_block; apply O2; rewrite Bt; lia).
      split; [apply (owns_other tmp va h1)|apply (holds_same h1 h' tmp va)]; auto. }
    assert (Dec : enough f1 n \/ exists k, f1 = Some k /\ (k < n)%nat).
    { destruct f1 as [k|]; simpl; auto. destruct (le_lt_dec n k); [left; lia|right; eauto]. }
    destruct Dec as [F1|(k1 & Ek1 & Hk1)].
    + destruct (W1 F1) as (h2 & E2 & Ra2 & (va2 & Oa2) & L2 & O2).
      destruct (Htl h2 L2 O2) as [Ot2 Rt2].
      assert (Sb2 : same_block h1 h2 (ma_block b)) by (unfold same_block; apply O2; auto).
      pose proof (owns_other _ _ _ _ Hb1 Sb2) as Ob2. pose proof (holds_same _ _ _ _ _ Hb1 Sb2 Rb1) as Rb2.
      assert (Nbt : ma_block b <> ma_block tmp) by lia.
      destruct (whole_assign chk b tmp h2 (spend f1 n) vb va rb ra Ob2 Ot2 Nbt (eq_sym He) Rb2 Rt2) as [V1 V2].
      rewrite Nab in V1, V2.
      assert (Frame : forall h3, length h3 = length h2 -> (forall q, q <> ma_block b -> nth_error h3 q = nth_error h2 q) ->
         (exists vb', owns h3 b vb') ->
         length h3 = length h1 /\ (exists va', owns h3 a va') /\ (forall q, q <> ma_block a -> q <> ma_block b -> nth_error h3 q = nth_error h1 q) /\
         (forall r, holds h2 a r -> holds h3 a r)).
      { intros h3 L3 O3 _. assert (Sa : same_block h2 h3 (ma_block a)) by (unfold same_block; apply O3; auto).
        split; [lia|]. split; [exists va2; apply (owns_other a va2 h2); auto|].
        split; [intros q H1 H2; rewrite O3, O2; auto|]. intros r Hr. apply (holds_same h2 h3 a va2); auto. }
      assert (Dec2 : enough (spend f1 n) n \/ exists k, spend f1 n = Some k /\ (k < n)%nat).
      { destruct (spend f1 n) as [k|]; simpl; auto. destruct (le_lt_dec n k); [left; lia|right; eauto]. }
      destruct Dec2 as [F2|(k2 & Ek2 & Hk2)].
      * destruct (V1 F2) as (h3 & E3 & Rb3 & Ob3 & L3 & O3).
        destruct (Frame h3 L3 O3 Ob3) as (L3' & Oa3 & O3' & Keep).
        destruct (fin h3 L3' Oa3 Ob3 O3') as (D & Al & Ot & Nl & Ka & Kb).
        split.
        -- intros _. exists (set_nth (length h) None h3).
           unfold std_swap, scoped, bind, on_throw. rewrite E. cbv beta iota. rewrite E2. cbv beta iota. rewrite E3. cbv beta iota. rewrite D.
           split; [|split; [apply Ka, Keep; auto|split; [apply Kb; auto|auto]]].
           unfold ret. rewrite spend_spend. unfold f1. rewrite spend_spend. do 3 f_equal. lia.
        -- intros k Ek Hk. exfalso. unfold f1 in F1, F2. rewrite Ek in Hf, F1, F2. cbn [enough spend option_map] in *. lia.
      * destruct (V2 k2 Ek2 Hk2) as (h3 & E3 & Rb3 & Ob3 & L3 & O3).
        destruct (Frame h3 L3 O3 Ob3) as (L3' & Oa3 & O3' & Keep).
        destruct (fin h3 L3' Oa3 Ob3 O3') as (D & Al & Ot & Nl & Ka & Kb).
        assert (Kf : exists k, f = Some k /\ (k - (1 + n + n) - n = k2)%nat /\ (1 + n + n + n <= k)%nat).
        { clear - Ek2 F1 Hf. unfold f1 in Ek2, F1. destruct f as [k|]; [|discriminate]. exists k. cbn [enough spend option_map] in *.
          injection Ek2 as Ek2. split; [auto|lia]. }
        destruct Kf as (k & Kf & Ek2' & Hk).
        split; [intros H; exfalso; rewrite Kf in H; cbn [enough] in H; lia|].
        intros k0 Ek Hk0. assert (k0 = k) by congruence. subst k0. exists (set_nth (length h) None h3).
        unfold std_swap, scoped, bind, on_throw. rewrite E. cbv beta iota. rewrite E2. cbv beta iota. rewrite E3. cbv beta iota. rewrite D.
        split; [reflexivity|].
        replace (k - (1 + 3 * n))%nat with k2 by lia.
        rewrite (firstn_all2 (n := k - (1 + 2 * n)) rb) by lia. rewrite (skipn_all2 (n := k - (1 + 2 * n)) ra) by (fold n; lia).
        rewrite app_nil_r. split; [apply Ka, Keep; auto|]. split; [apply Kb; auto|]. split; [auto|]. split; [auto|].
        replace (k <? 1 + 2 * n)%nat with false by (symmetry; apply Nat.ltb_ge; lia). exact Nl.
    + destruct (W2 k1 Ek1 Hk1) as (h2 & E2 & Ra2 & Oa2 & L2 & O2).
      assert (Sb2 : same_block h1 h2 (ma_block b)) by (unfold same_block; apply O2; auto).
      pose proof (owns_other _ _ _ _ Hb1 Sb2) as Ob2. pose proof (holds_same _ _ _ _ _ Hb1 Sb2 Rb1) as Rb2.
      destruct (fin h2 L2 Oa2 (ex_intro _ vb Ob2) (fun q H _ => O2 q H)) as (D & Al & Ot & Nl & Ka & Kb).
      assert (Kf : exists k, f = Some k /\ (k - (1 + n + n) = k1)%nat /\ (1 + n + n <= k)%nat).
      { clear - Ek1 Hf. unfold f1 in Ek1. destruct f as [k|]; [|discriminate]. exists k. cbn [enough spend option_map] in *.
        injection Ek1 as Ek1. split; [auto|lia]. }
      destruct Kf as (k & Kf & Ek1' & Hk).
      split; [intros H; exfalso; rewrite Kf in H; cbn [enough] in H; lia|].
      intros k0 Ek Hk0. assert (k0 = k) by congruence. subst k0. exists (set_nth (length h) None h2).
      unfold std_swap, scoped, bind, on_throw. rewrite E. cbv beta iota. rewrite E2. cbv beta iota. rewrite D.
      split; [reflexivity|].
      replace (k - (1 + 3 * n))%nat with O by lia. replace (k - (1 + 2 * n))%nat with k1 by lia. cbn [firstn skipn app].
      split; [apply Ka; auto|]. split; [apply Kb; auto|]. split; [auto|]. split; [auto|].
      replace (k <? 1 + 2 * n)%nat with false by (symmetry; apply Nat.ltb_ge; lia). exact Nl.
Qed.

End Swap.

(** C49 *)
Theorem c49_swap : forall (T : Type) (dflt : T) chk (h : heap T) a b va vb ra rb,
  owns h a va -> owns h b vb -> ma_block a <> ma_block b ->
  cr_ext (ma_ref a) = cr_ext (ma_ref b) ->
  holds h a ra -> holds h b rb ->
  exists h', std_swap dflt chk false a b (World h None) = Done tt (World h' None) /\
    holds h' a rb /\ holds h' b ra /\
    both_alive h' a b /\ others_same h h' a b /\ no_leak h h'.
Proof.
  intros. destruct (swap_exact dflt chk a b h None va vb ra rb) as [H5 _]; auto. destruct (H5 I) as (h' & E). exists h'. exact E.
Qed.

Theorem c49_swap_interrupted : forall (T : Type) (dflt : T) chk (h : heap T) a b va vb ra rb k,
  owns h a va -> owns h b vb -> ma_block a <> ma_block b ->
  cr_ext (ma_ref a) = cr_ext (ma_ref b) ->
  holds h a ra -> holds h b rb ->
  let n := length ra in
  ((1 + 4 * n <= k)%nat -> exists h',
    std_swap dflt chk false a b (World h (Some k)) = Done tt (World h' (Some (k - (1 + 4 * n))%nat)) /\
    holds h' a rb /\ holds h' b ra /\
    both_alive h' a b /\ others_same h h' a b /\ no_leak h h') /\
  ((k < 1 + 4 * n)%nat -> exists h',
    std_swap dflt chk false a b (World h (Some k)) = Thrown (World h' None) /\
    holds h' a (firstn (k - (1 + 2 * n)) rb ++ skipn (k - (1 + 2 * n)) ra) /\
    holds h' b (firstn (k - (1 + 3 * n)) ra ++ skipn (k - (1 + 3 * n)) rb) /\
    both_alive h' a b /\ others_same h h' a b /\
    released (k <? 1 + 2 * n)%nat h h').
Proof.
  intros T dflt chk h a b va vb ra rb k Ha Hb Hne He Ra Rb n.
  destruct (swap_exact dflt chk a b h (Some k) va vb ra rb Ha Hb Hne He Ra Rb) as [H5 H6].
  split; [intros Hk; exact (H5 Hk)|intros Hk; exact (H6 k eq_refl Hk)].
Qed.

(** swap(a, a), also when an exception ends it *)
Theorem c49_self_swap : forall (T : Type) (dflt : T) chk (h : heap T) f a va ra,
  owns h a va -> holds h a ra ->
  exists h' f' e, std_swap dflt chk true a a (World h f) = (if e : bool then Thrown (World h' f') else Done tt (World h' f')) /\
    (f = None -> e = false) /\
    holds h' a ra /\ both_alive h' a a /\ others_same h h' a a /\ released e h h'.
Proof.
  intros T dflt chk h f a va ra Ha Ra.
  pose proof (owns_lt _ _ _ Ha) as La.
  destruct (copy_exact dflt a va h f Ha) as [(k & h' & Ef & Hk & E & X)|(Hf & E & Ht)].
  - exists h', None, true. unfold std_swap, bind at 1. rewrite E. split; [auto|]. split; [congruence|].
    assert (U : untouched h h').
    { destruct X as [(_ & ->)|[(_ & ->)|(_ & vs' & _ & ->)]]; [intros ? _; reflexivity|apply app_untouched|apply app_untouched]. }
    split; [apply (holds_same h h' a va); auto|]. split; [split; exists va; apply (owns_other a va h); auto|].
    split; [intros q Hq _ _; apply U; auto|].
    exists (length h). intros q Hq Hq'. unfold hblock.
    assert (Lh : (length h' <= length h + 1)%nat).
    { destruct X as [(_ & ->)|[(_ & ->)|(_ & vs' & _ & ->)]]; rewrite ?app_length; simpl; lia. }
    rewrite (proj2 (nth_error_None h' q)); auto. lia.
  - set (h1 := h ++ [Some (Block (ma_aid a) (map Some va))]) in *. set (tmp := new_ma (ma_ref a) (ma_aid a) (length h)) in *.
    set (f1 := spend f (1 + length va + length va)) in *.
    assert (S1 : same_block h h1 (ma_block a)) by (apply app_untouched; auto).
    pose proof (owns_other _ _ _ _ Ha S1) as Ha1. pose proof (holds_same _ _ _ _ _ Ha S1 Ra) as Ra1.
    pose proof (copy_holds h a va ra Ha Ht Ra) as Rt. fold tmp in Rt. fold h1 in Rt.
    assert (Bt : ma_block tmp = length h) by reflexivity.
    assert (L1 : length h1 = S (length h)) by (unfold h1; rewrite app_length; simpl; lia).
    destruct (whole_assign chk a tmp h1 f1 va va ra ra Ha1 Ht ltac:(lia) eq_refl Ra1 Rt) as [W1 W2].
    assert (fin : forall h', length h' = length h1 -> (exists va', owns h' a va') -> holds h' a ra ->
        (forall q, q <> ma_block a -> nth_error h' q = nth_error h1 q) ->
        let h2 := set_nth (length h) None h' in
        (forall f', ma_destroy tmp (World h' f') = Done tt (World h2 f')) /\
        holds h2 a ra /\ both_alive h2 a a /\ others_same h h2 a a /\ no_leak h h2).
    { intros h' L' (va' & Oa) Ra' O2 h2.
      assert (Ot : owns h' tmp va).
      { apply (owns_other tmp va h1); auto. unfold same_block. apply O2. lia. }
      assert (Sa : same_block h' h2 (ma_block a)) by (unfold same_block, h2; apply nth_error_set_nth_ne; lia).
      split; [intros f'; rewrite (owns_destroy tmp va) by auto; reflexivity|].
      split; [apply (holds_same h' h2 a va'); auto|].
      split; [split; exists va'; apply (owns_other a va' h'); auto|].
      split. { intros q Hq H1 _. unfold same_block, h2. rewrite nth_error_set_nth_ne by lia. rewrite O2 by auto.
               unfold h1. apply nth_error_app1. auto. }
      intros q Hq. unfold hblock, h2. destruct (Nat.eq_dec q (length h)) as [->|Hq'].
      - rewrite nth_error_set_nth_eq; auto. lia.
      - rewrite nth_error_set_nth_ne by lia. rewrite (proj2 (nth_error_None h' q)); auto. lia. }
    assert (Dec : enough f1 (length ra) \/ exists k, f1 = Some k /\ (k < length ra)%nat).
    { destruct f1 as [k|]; simpl; auto. destruct (le_lt_dec (length ra) k); [left; lia|right; eauto]. }
    destruct Dec as [F1|(k1 & Ek1 & Hk1)].
    + destruct (W1 F1) as (h2 & E2 & Ra2 & Oa2 & L2 & O2). destruct (fin h2 L2 Oa2 Ra2 O2) as (D & P1 & P2 & P3 & P4).
      exists (set_nth (length h) None h2), (spend f1 (length ra)), false.
      unfold std_swap, scoped, bind, on_throw. rewrite E. cbv beta iota. unfold ma_assign at 1. unfold ret at 1.
      rewrite E2. cbv beta iota. rewrite D. repeat (split; [auto; fail|]). auto.
    + destruct (W2 k1 Ek1 Hk1) as (h2 & E2 & Ra2 & Oa2 & L2 & O2). rewrite firstn_skipn in Ra2.
      destruct (fin h2 L2 Oa2 Ra2 O2) as (D & P1 & P2 & P3 & P4).
      exists (set_nth (length h) None h2), None, true.
      unfold std_swap, scoped, bind, on_throw. rewrite E. cbv beta iota. unfold ma_assign at 1. unfold ret at 1.
      rewrite E2. cbv beta iota. rewrite D. split; [auto|]. split; [intros ->; discriminate Ek1|].
      split; [auto|]. split; [auto|]. split; [auto|]. exists (length h). intros q Hq _. apply P4. auto.
Qed.

(** different shapes: the shape check stops the first assignment, before any element
    changed *)
Theorem c49_swap_shape_mismatch : forall (T : Type) (dflt : T) (h : heap T) a b va vb ra rb,
  owns h a va -> owns h b vb ->
  length (cr_ext (ma_ref a)) = length (cr_ext (ma_ref b)) -> cr_ext (ma_ref a) <> cr_ext (ma_ref b) ->
  holds h a ra -> holds h b rb ->
  exists h', std_swap dflt true false a b (World h None) = Aborted (World h' None) /\
    holds h' a ra /\ holds h' b rb /\ untouched h h'.
Proof.
  intros T dflt h a b va vb ra rb Ha Hb Hl Hne Ra Rb.
  pose proof (owns_lt _ _ _ Ha) as La. pose proof (owns_lt _ _ _ Hb) as Lb.
  destruct (copy_exact dflt a va h None Ha) as [(k & h' & Ef & _)|(Hf & E & Ht)]; [discriminate|].
  eexists. unfold std_swap, bind at 1. rewrite E. cbn [spend option_map].
  pose proof (app_untouched h (Some (Block (ma_aid a) (map Some va)))) as U.
  split; [|split; [apply (holds_same h _ a va); auto|split; [apply (holds_same h _ b vb); auto|exact U]]].
  assert (AB : forall w : world T, ma_assign true false a b w = Aborted w).
  { intros w. unfold ma_assign, ma_assign_from.
    pose proof (c12_shape_mismatch_aborts T w (ma_ref a) (ma_ref b) (cr_nd (ma_ref a)) (cr_nd (ma_ref b))
             (proj1 Ha) (d_array _) (proj1 Hb) (d_array _)) as [A _]; [|exact A].
    intros X. apply Hne. auto. }
  unfold scoped, bind, on_throw. rewrite AB. reflexivity.
Qed.

(** a: 2x3, column-major with a descending dimension, bases 1 and -2;
    b: 2x3, row-major, bases 0.  Each receives the other's elements by position and
    keeps its own bases and order; with 15 operations left, b has received two *)
Definition ex_mb : multi_array :=
  MA (CRef (Ptr 2 0) (SO [1%nat; 0%nat] [true; true]) [2; 3] [3; 1] [0; 0] 0 0 6) (Ptr 2 0) 6 8.
Definition ex_two : heap Z := ex_heap ++ [Some (Block 8 (map Some [20; 21; 22; 23; 24; 25]))].
Lemma ex_mb_object : array_object (ma_ref ex_mb).
Proof.
  eapply (ao_list true (Ptr 2 0) [2; 3] (SO [1%nat; 0%nat] [true; true])).
  - order_tac. apply perm_swap.
  - layout_tac.
  - vm_compute. reflexivity.
Qed.
Example ex_c49 :
  owns ex_two ex_ma [10; 11; 12; 13; 14; 15] /\ owns ex_two ex_mb [20; 21; 22; 23; 24; 25] /\
  ma_block ex_ma <> ma_block ex_mb /\ cr_ext (ma_ref ex_ma) = cr_ext (ma_ref ex_mb) /\
  holds ex_two ex_ma [14; 12; 10; 15; 13; 11] /\ holds ex_two ex_mb [20; 21; 22; 23; 24; 25] /\
  std_swap 0 true false ex_ma ex_mb (World ex_two None) =
    Done tt (World [None; Some (Block 9 (map Some [22; 25; 21; 24; 20; 23]));
                    Some (Block 8 (map Some [14; 12; 10; 15; 13; 11])); None] None) /\
  std_swap 0 true false ex_ma ex_mb (World ex_two (Some 21%nat)) =
    Thrown (World [None; Some (Block 9 (map Some [22; 25; 21; 24; 20; 23]));
                   Some (Block 8 (map Some [14; 12; 22; 23; 24; 25])); None] None).
Proof.
  split. { apply (owns_other ex_ma _ ex_heap); [apply ex_owned|reflexivity]. }
  split. { split; [apply ex_mb_object|]. repeat split. }
  split; [discriminate|]. split; [reflexivity|].
  split. { unfold holds, elements, reads. repeat constructor. }
  split. { unfold holds, elements, reads. repeat constructor. }
  split; vm_compute; reflexivity.
Qed.

(** * C50 *)

Section AssignRange.
Context {T : Type}.

Lemma hread_cell (h : heap T) p v : hread h p = Ok v -> hcell h p = Some (Some v).
Proof. unfold hread. destruct (hcell h p) as [[u|]|]; intros H; inversion H; auto. Qed.

(** walking from x to last visits these cells *)
Fixpoint walk (chk : bool) (x last : input) (cells : list ptr) : Prop :=
  match cells with
  | [] => in_same x last = Ok true
  | p :: rest => in_same x last = Ok false /\ in_target chk x = Ok (TgElem p) /\
                 exists y, in_next x = Ok y /\ walk chk y last rest
  end.

Lemma walk_pointers chk : forall n p k, walk chk (InPtr (padd p k)) (InPtr (padd p (k + Z.of_nat n)))
  (map (fun t => padd p (k + Z.of_nat t)) (seq 0 n)).
Proof.
  induction n as [|n IH]; intros p k.
  - cbn [seq map walk in_same]. replace (k + Z.of_nat 0) with k by lia. rewrite ptr_eqb_refl. auto.
  - cbn [seq map walk]. split; [|split].
    + cbn [in_same]. destruct (ptr_eqb _ _) eqn:E; auto. apply ptr_eqb_eq in E. destruct p as [pb po]. unfold padd in E. cbn [p_blk p_off] in E. injection E. lia.
    + cbn [in_target]. replace (k + Z.of_nat 0) with k by lia. auto.
    + eexists. split; [reflexivity|]. rewrite padd_padd. specialize (IH p (k + 1)).
      replace (k + Z.of_nat (S n)) with (k + 1 + Z.of_nat n) by lia. rewrite <- seq_shift, map_map.
      erewrite map_ext; [exact IH|]. intros t. cbv beta. f_equal. lia.
Qed.

Lemma elem_target chk x b size i p : nd_ok x -> nd_base x = [b] -> nd_ext x = [size] -> 0 <= i < size ->
  access_element true x [b + i] = Ok p ->
  it_target chk (it_at x (b + i)) = Ok (TgElem p) /\ ri_target chk (RIter (it_at x (b + i + 1))) = Ok (TgElem p).
Proof.
  intros Hok Eb Ee Hi Hp. destruct (nd_limits x b [] size [] Hok Eb Ee) as (L1 & L2 & L3).
  destruct (deref_ok chk x b [] size [] i Hok Eb Ee Hi) as (tg & Et & Ht & Er).
  assert (tg = TgElem p) as ->.
  { rewrite access_element_ok in Hp; auto.
    - injection Hp as <-. destruct Ht as [(_ & _ & q & -> & Q)|(y & _ & Hy & _ & X & _)].
      + f_equal. unfold row_addrs in Q. rewrite Eb, Ee in Q. cbn [tl tuples map] in Q. congruence.
      + destruct Hy as (_ & _ & Hy & _). rewrite X in Hy. simpl in Hy. lia.
    - rewrite Eb, Ee. constructor; [lia|constructor]. }
  split; [auto|]. apply Er. unconst; lia.
Qed.

Lemma walk_input chk first last cells : input_range first last cells -> walk chk first last cells.
Proof.
  intros H. destruct H as [p n|c x b size i j first fi fj cells Hc Hx Eb Ee E1 Hi Hj E2 E3 HF|c x b size i j first fi fj cells Hc Hx Eb Ee E1 Hi Hj E2 E3 HF].
  - pose proof (walk_pointers chk n p 0) as W. rewrite padd_0 in W. exact W.
  - pose proof (derived_ok c x Hc Hx) as Hok. destruct (nd_limits x b [] size [] Hok Eb Ee) as (L1 & L2 & L3).
    rewrite (nd_begin_at x b []) in E1 by auto. injection E1 as <-.
    rewrite it_advance_at in E2 by (unconst; lia). injection E2 as <-.
    rewrite it_advance_at in E3 by (unconst; lia). injection E3 as <-.
    assert (G : forall m i, 0 <= i -> i + Z.of_nat m = j -> forall cells,
       Forall2 (fun k p => access_element true x [b + k] = Ok p) (map (fun k => i + Z.of_nat k) (seq 0 m)) cells ->
       walk chk (InIter (CFwd (it_at x (b + i)))) (InIter (CFwd (it_at x (b + j)))) cells).
    { induction m as [|m IH]; intros i0 Hi0 Hm cells0 HF0.
      - inversion HF0; subst. cbn [walk in_same cu_equal]. rewrite it_equal_at. f_equal. apply Z.eqb_eq. lia.
      - cbn [seq map] in HF0. inversion HF0 as [|k p ks ps Hp Hr]; subst. cbn [walk].
        split; [cbn [in_same cu_equal]; rewrite it_equal_at; f_equal; apply Z.eqb_neq; lia|].
        split.
        + cbn [in_target]. apply (elem_target chk x b size i0 p); auto; [lia|].
          simpl Z.of_nat in Hp. rewrite Z.add_0_r in Hp. exact Hp.
        + eexists. split; [cbn [in_next cu_inc]; rewrite it_inc_at by (unconst; lia); reflexivity|].
          rewrite <- Z.add_assoc. apply IH; [lia|lia|]. rewrite <- seq_shift, map_map in Hr.
          erewrite map_ext; [exact Hr|]. intros t. cbv beta. lia. }
    apply (G (Z.to_nat (j - i)) i); auto; lia.
  - pose proof (derived_ok c x Hc Hx) as Hok. destruct (nd_limits x b [] size [] Hok Eb Ee) as (L1 & L2 & L3).
    rewrite (nd_begin_at x b []) in E1 by auto. injection E1 as <-.
    rewrite it_advance_at in E2 by (unconst; lia). injection E2 as <-.
    rewrite it_advance_at in E3 by (unconst; lia). injection E3 as <-.
    assert (G : forall m j, j <= size -> i + Z.of_nat m = j -> forall cells,
       Forall2 (fun k p => access_element true x [b + k] = Ok p) (map (fun k => j - 1 - Z.of_nat k) (seq 0 m)) cells ->
       walk chk (InIter (CRev (RIter (it_at x (b + j))))) (InIter (CRev (RIter (it_at x (b + i))))) cells).
    { induction m as [|m IH]; intros j0 Hj0 Hm cells0 HF0.
      - inversion HF0; subst. cbn [walk in_same cu_equal]. unfold ri_equal. cbn [ri_base]. rewrite it_equal_at. f_equal. apply Z.eqb_eq. lia.
      - cbn [seq map] in HF0. inversion HF0 as [|k p ks ps Hp Hr]; subst. cbn [walk].
        split; [cbn [in_same cu_equal]; unfold ri_equal; cbn [ri_base]; rewrite it_equal_at; f_equal; apply Z.eqb_neq; lia|].
        split.
        + cbn [in_target]. set (j0 := i + Z.of_nat (S m)) in *. simpl Z.of_nat in Hp. rewrite Z.sub_0_r in Hp.
          replace (b + j0) with (b + (j0 - 1) + 1) by lia. apply (elem_target chk x b size (j0 - 1) p); auto. lia.
        + eexists. split; [cbn [in_next cu_inc]; unfold ri_inc; cbn [ri_base]; rewrite it_dec_at by (unconst; lia); reflexivity|].
          rewrite <- Z.add_sub_assoc. apply IH; [lia|lia|]. rewrite <- seq_shift, map_map in Hr.
          erewrite map_ext; [exact Hr|]. intros t. cbv beta. lia. }
    apply (G (Z.to_nat (j - i)) j); auto; lia.
Qed.

Lemma range_loop_eq chk (base : ptr) (last : input) num : forall cells vs fuel x k (h : heap T) f,
  walk chk x last cells -> vals h (firstn (Z.to_nat (num - k)) cells) vs -> 0 <= k -> (Z.to_nat (num - k) <= fuel)%nat ->
  (forall j, 0 <= j < num -> init h (padd base j)) ->
  (forall t p, nth_error cells t = Some p -> k + Z.of_nat t < num -> forall j, k <= j < k + Z.of_nat t -> p <> padd base j) ->
  assign_range_loop chk fuel x last (padd base k) k num (World h f) = assign_loop (padd base k) vs k num (World h f).
Proof.
  induction cells as [|p cells IH]; intros vs fuel x k h f W V Hk Hfuel Hi Hn.
  - rewrite firstn_nil in V. destruct vs; [|discriminate V]. cbn [walk] in W.
    destruct fuel; cbn [assign_range_loop assign_loop]; unfold bind, lift; rewrite W; reflexivity.
  - destruct W as (W1 & W2 & y & W3 & W4). destruct (Z.ltb_spec k num) as [Hlt|Hge].
    + destruct (Z.to_nat (num - k)) as [|m] eqn:Em; [exfalso; lia|]. cbn [firstn] in V.
      destruct vs as [|v vs]; [discriminate V|].
      unfold vals in V. cbn [map] in V. injection V as V1 V2. fold (vals h (firstn m cells) vs) in V2.
      destruct fuel as [|fuel]; [exfalso; lia|]. cbn [assign_range_loop assign_loop]. unfold bind at 1, lift at 1. rewrite W1.
      destruct (Z.ltb_spec k num) as [_|]; [|lia].
      unfold bind at 1, lift at 1. rewrite W2. unfold bind at 1. cbn [tg_read].
      assert (LD : load p (World h f) = Done v (World h f)) by (unfold load, hread; cbn [w_heap]; rewrite V1; reflexivity). rewrite LD.
      unfold bind at 1, lift at 1. rewrite W3. unfold bind at 1. unfold bind at 2. unfold tick. cbn [w_fuse].
      assert (G : forall f0, (_ <~ store (padd base k) v;; assign_range_loop chk fuel y last (padd (padd base k) 1) (k + 1) num) (World h f0) =
                   (_ <~ store (padd base k) v;; assign_loop (padd (padd base k) 1) vs (k + 1) num) (World h f0)).
      { intros f0. destruct (store_spec h (padd base k) v f0 (Hi k ltac:(lia))) as (h1 & E1 & F1 & C1).
        unfold bind. rewrite E1. rewrite padd_padd. replace (Z.to_nat (num - (k + 1))) with m in * by lia.
        apply IH; auto; try lia.
        - replace (Z.to_nat (num - (k + 1))) with m by lia. eapply vals_same; [exact V2|]. intros q Hq. rewrite C1. destruct (ptr_eqb (padd base k) q) eqn:EQ; [|auto].
          apply ptr_eqb_eq in EQ. exfalso. apply In_nth_error in Hq. destruct Hq as [t Hq].
          assert (t < m)%nat. { assert (Hq' : nth_error (firstn m cells) t <> None) by congruence. apply nth_error_Some in Hq'. rewrite firstn_length in Hq'. lia. }
          rewrite nth_error_firstn_lt in Hq by auto.
          apply (Hn (S t) q) with (j := k); auto; lia.
        - intros j Hj. unfold init. rewrite C1. destruct (ptr_eqb _ _); [eauto|apply Hi; auto].
        - intros t q Hq Ht j Hj. apply (Hn (S t) q); auto; lia. }
      destruct f as [[|k0]|]; [reflexivity|apply G|apply G].
    + replace (Z.to_nat (num - k)) with O in V by lia. destruct vs; [|discriminate V].
      destruct fuel; cbn [assign_range_loop]; unfold bind, lift; rewrite W1; destruct (Z.ltb_spec k num); try lia; reflexivity.
Qed.
End AssignRange.

(** C50 *)
Theorem c50_assign_from_live_data : forall (T : Type) (h : heap T) f chk c first last cells vs,
  array_object c -> live h c -> input_range first last cells ->
  Forall2 (fun p v => hread h p = Ok v) (firstn (Z.to_nat (cr_num_elements c)) cells) vs ->
  read_before_written c cells ->
  cr_assign_range chk c first last (World h f) = cr_assign c vs (World h f).
Proof.
  intros T h f chk c first last cells vs Hc Hl Hin HF HR. unfold cr_assign_range, cr_assign.
  pose proof (range_loop_eq chk (cr_base c) last (cr_num c) cells vs (Z.to_nat (cr_num c)) first 0 h f) as G.
  rewrite padd_0 in G. apply G; auto; try lia.
  - apply walk_input; auto.
  - rewrite Z.sub_0_r. unfold cr_num_elements in HF. clear - HF. unfold vals. induction HF as [|p v ps vs H _ IH]; [reflexivity|].
    cbn [map]. f_equal; [|exact IH]. apply hread_cell. exact H.
  - intros j Hj. apply element_at_init. apply Hl. exists j. auto.
Qed.

(** what the elements are afterwards *)
Theorem c50_elements_after_assign : forall (T : Type) (h : heap T) chk c first last cells,
  array_object c -> live h c -> input_range first last cells ->
  (forall p, In p cells -> exists v, hread h p = Ok v) ->
  read_before_written c cells ->
  exists h', cr_assign_range chk c first last (World h None) = Done tt (World h' None) /\
    (forall i, in_bounds (cr_ib c) (cr_ext c) i ->
       let k := position (so_ordering (cr_storage c)) (so_ascending (cr_storage c)) (cr_ib c) (cr_ext c) i in
       match nth_error cells (Z.to_nat k) with
       | Some p => forall v, hread h p = Ok v -> reads h' (cr_nd c) i v
       | None => forall v, reads h (cr_nd c) i v <-> reads h' (cr_nd c) i v
       end) /\
    (forall p, (forall k, 0 <= k < Z.min (Z.of_nat (length cells)) (cr_num_elements c) -> p <> padd (cr_data c) k) ->
       same_at h h' p).
Proof.
  intros T h chk c first last cells Hc Hl Hin HV HR.
  set (m := Z.to_nat (cr_num_elements c)).
  assert (G : exists vs, Forall2 (fun p v => hread h p = Ok v) (firstn m cells) vs).
  { assert (forall ps, (forall p, In p ps -> In p cells) -> exists vs, Forall2 (fun p v => hread h p = Ok v) ps vs) as G.
    { induction ps as [|p ps IH]; intros Hs; [exists []; constructor|].
      destruct (HV p (Hs p (or_introl eq_refl))) as [v Hv]. destruct IH as [vs IH]; [intros; apply Hs; right; auto|].
      exists (v :: vs). constructor; auto. }
    apply G. intros p Hp. rewrite <- (firstn_skipn m cells). apply in_or_app; auto. }
  destruct G as [vs HF].
  rewrite (c50_assign_from_live_data T h None chk c first last cells vs) by auto.
  destruct (c21_assign_fills_storage_order T h c vs Hc Hl) as (h' & E & C & O).
  assert (Lm : length vs = Nat.min m (length cells)) by (rewrite <- firstn_length; symmetry; eapply Forall2_length; exact HF).
  exists h'. split; [exact E|]. split.
  - intros i Hi k. specialize (C i Hi). cbv zeta in C. fold k in C.
    assert (Hk : 0 <= k < cr_num_elements c).
    { pose proof (array_object_ok c Hc) as Hok. destruct Hok as (Ho & _ & _ & _ & Hn). unfold cr_num_elements. rewrite Hn.
      apply position_bound; auto. }
    assert (Hkm : (Z.to_nat k < m)%nat) by (unfold m; lia).
    destruct (nth_error cells (Z.to_nat k)) as [p|] eqn:Ec.
    + intros v Hv. rewrite <- (nth_error_firstn_lt cells m) in Ec by auto.
      destruct (Forall2_nth _ _ _ HF _ _ Ec) as (u & Hu & Hr). cbv beta in Hr. rewrite Hu in C.
      assert (u = v) by congruence. subst. exact C.
    + assert (nth_error vs (Z.to_nat k) = None) as E0. { apply nth_error_None. apply nth_error_None in Ec. lia. }
      rewrite E0 in C. exact C.
  - intros p Hp. apply O. intros k Hk. apply Hp. lia.
Qed.

(** a.assign(a.data(), a.data() + a.num_elements()) changes nothing *)
Theorem c50_assign_own_storage : forall (T : Type) (h : heap T) chk c,
  array_object c -> live h c ->
  exists h', cr_assign_range chk c (InPtr (cr_data c)) (InPtr (padd (cr_data c) (cr_num_elements c))) (World h None) =
             Done tt (World h' None) /\ forall p, same_at h h' p.
Proof.
  intros T h chk c Hc Hl.
  pose proof (array_object_ok c Hc) as Hok. pose proof (cref_addressable c Hok) as Hnd.
  assert (N0 : 0 <= cr_num_elements c).
  { unfold cr_num_elements. destruct Hok as (_ & _ & _ & _ & ->). apply prod_nonneg.
    destruct Hnd as (_ & _ & _ & Hext & _). eapply Forall_impl; [|exact Hext]. intros e He. cbv beta in *. lia. }
  set (cells := map (fun k => padd (cr_data c) (Z.of_nat k)) (seq 0 (Z.to_nat (cr_num_elements c)))).
  assert (Hin : input_range (InPtr (cr_data c)) (InPtr (padd (cr_data c) (cr_num_elements c))) cells).
  { pose proof (ir_pointers (cr_data c) (Z.to_nat (cr_num_elements c))) as G. rewrite Z2Nat.id in G by auto. exact G. }
  assert (Hnth : forall t, (t < Z.to_nat (cr_num_elements c))%nat -> nth_error cells t = Some (padd (cr_data c) (Z.of_nat t))).
  { intros t Ht. unfold cells. rewrite nth_error_map. rewrite (nth_error_nth' _ O) by (rewrite seq_length; auto). rewrite seq_nth by auto. reflexivity. }
  assert (Hlen : length cells = Z.to_nat (cr_num_elements c)) by (unfold cells; rewrite map_length, seq_length; auto).
  destruct (c50_elements_after_assign T h chk c _ _ cells Hc Hl Hin) as (h' & E & C & O).
  - intros p Hp. unfold cells in Hp. apply in_map_iff in Hp. destruct Hp as (t & <- & Ht). apply in_seq in Ht.
    apply Hl. exists (Z.of_nat t). split; [lia|auto].
  - intros k p Hk Hlt j Hj X. rewrite Hnth in Hk by lia. injection Hk as <-. destruct (cr_data c) as [pb po]. unfold padd in X. injection X. lia.
  - exists h'. split; [exact E|]. intros p.
    destruct (Nat.eq_dec (p_blk p) (p_blk (cr_data c))) as [Eb|Nb].
    + destruct (Z_le_dec 0 (p_off p - p_off (cr_data c))) as [G0|G0].
      * destruct (Z_lt_dec (p_off p - p_off (cr_data c)) (cr_num_elements c)) as [G1|G1].
        -- set (k := p_off p - p_off (cr_data c)) in *.
           assert (Ep : p = padd (cr_data c) k).
           { destruct p as [pb po], (cr_data c) as [db d_o]. unfold padd, k. cbn [p_blk p_off] in *. subst. f_equal. lia. }
           destruct (position_of_cell c k Hc (conj G0 G1)) as (i & Hi & Ea & Epos).
           specialize (C i Hi). cbv zeta in C. rewrite Epos, Hnth, Z2Nat.id in C by lia.
           destruct (Hl p ltac:(exists k; auto)) as [v Hv]. rewrite Ep in Hv. specialize (C v Hv).
           apply reads_iff in C; auto. rewrite Ea in C. unfold same_at. rewrite Ep, C.
           symmetry. apply hread_cell. exact Hv.
        -- apply O. intros k Hk ->. apply G1. unfold padd. cbn [p_off]. lia.
      * apply O. intros k Hk ->. apply G0. unfold padd. cbn [p_off]. lia.
    + apply O. intros k Hk ->. apply Nb. reflexivity.
Qed.

(** reversing in place: a.assign(a.rbegin(), a.rend()) reads elements it has already
    overwritten *)
Theorem c50_reverse_in_place_refuted :
  exists (c : cref) (h h' : heap Z) first last cells vs i v,
    array_object c /\ live h c /\ input_range first last cells /\
    Forall2 (fun p u => hread h p = Ok u) cells vs /\
    cr_assign_range true c first last (World h None) = Done tt (World h' None) /\
    in_bounds (cr_ib c) (cr_ext c) i /\
    nth_error vs (Z.to_nat (position (so_ordering (cr_storage c)) (so_ascending (cr_storage c)) (cr_ib c) (cr_ext c) i)) = Some v /\
    ~ reads h' (cr_nd c) i v.
Proof.
  exists ex_line, ex_line_heap, [Some (Block 0 [Some 12; Some 11; Some 12])].
  exists (InIter (CRev (RIter (it_at (cr_nd ex_line) 3)))), (InIter (CRev (RIter (it_at (cr_nd ex_line) 0)))).
  exists [Ptr 0 2; Ptr 0 1; Ptr 0 0], [12; 11; 10], [2], 10.
  split; [apply ex_line_object|].
  split. { intros p (k & Hk & ->). unfold cr_num_elements, ex_line in Hk. cbn [cr_num] in Hk.
    assert (k = 0 \/ k = 1 \/ k = 2) as Dk by lia. destruct Dk as [->|[->| ->]]; eexists; vm_compute; reflexivity. }
  split. { eapply (ir_reverse ex_line (cr_nd ex_line) 0 3 0 3); try reflexivity; try lia; [apply ex_line_object|apply d_array|].
           repeat constructor. }
  split; [repeat constructor|]. split; [vm_compute; reflexivity|].
  split; [repeat constructor; cbv; congruence|]. split; [reflexivity|]. vm_compute. congruence.
Qed.

(** a.assign(a.begin() + 1, a.end()) moves every element one place down *)
Example ex_c50 :
  let cells := [Ptr 0 1; Ptr 0 2] in
  input_range (InIter (CFwd (it_at (cr_nd ex_line) 1))) (InIter (CFwd (it_at (cr_nd ex_line) 3))) cells /\
  Forall2 (fun p u => hread ex_line_heap p = Ok u) cells [11; 12] /\
  read_before_written ex_line cells /\
  cr_assign_range true ex_line (InIter (CFwd (it_at (cr_nd ex_line) 1))) (InIter (CFwd (it_at (cr_nd ex_line) 3)))
    (World ex_line_heap None) = Done tt (World [Some (Block 0 [Some 11; Some 12; Some 12])] None).
Proof.
  cbv zeta. split; [|split; [repeat constructor|split; [|vm_compute; reflexivity]]].
  - eapply (ir_iterators ex_line (cr_nd ex_line) 0 3 1 3); try reflexivity; try lia; [apply ex_line_object|apply d_array|].
    repeat constructor.
  - intros k p Hk _ j Hj X. destruct k as [|[|k]]; cbn [nth_error] in Hk.
    + lia.
    + injection Hk as <-. unfold padd in X. cbn in X. injection X. lia.
    + destruct k; discriminate.
Qed.

(** * C51 *)

Section Convert.
Context {T : Type}.
Variable conv : T -> T.

Definition convert_cells (l : list (ptr * ptr)) : M T unit :=
  mseq (fun ds => elem_convert conv (fst ds) (snd ds)) l.

Lemma convert_rows_eq rec chk k dst src w :
  nd_ok dst -> nd_ok src -> nd_ext dst = nd_ext src -> length (nd_ext src) = S k ->
  (k <> O -> forall i j w, rec (row dst i) (row src j) w =
                           convert_cells (combine (addrs (row dst i)) (addrs (row src j))) w) ->
  convert_rows conv rec chk k dst src w = convert_cells (combine (addrs dst) (addrs src)) w.
Proof.
  intros Hd Hs Hext Hlen Hrec.
  destruct (nd_ok_shape src Hs) as (b & bs & e & es & s & ss & Eb & Ee & Es & L1 & L2 & HA).
  destruct (nd_ok_shape dst Hd) as (b' & bs' & e' & es' & s' & ss' & Eb' & Ee' & Es' & L1' & L2' & HA').
  rewrite Ee' in Hext. rewrite Ee in Hext. inversion Hext; subst e' es'. clear Hext.
  pose proof Hs as Hs2. pose proof Hd as Hd2. unfold nd_ok in Hs2, Hd2.
  rewrite Eb, Ee, Es in Hs2. rewrite Eb', Ee', Es' in Hd2.
  apply addressable_cons in Hs2. apply addressable_cons in Hd2.
  destruct Hs2 as (He & Hb1 & Hb2 & _). destruct Hd2 as (_ & Hb1' & Hb2' & _).
  unfold convert_rows.
  rewrite (nd_begin_at src b bs Eb), (nd_end_at src b bs e es Eb Ee) by (unconst; lia).
  rewrite (nd_begin_at dst b' bs' Eb').
  do 3 (unfold bind at 1, lift at 1).
  unfold loop_fuel, it_at at 1 2. cbn [it_idx]. replace (b + e - b) with e by lia.
  replace (it_at src (b + e)) with (it_at src (b + Z.of_nat (Z.to_nat e))) by (f_equal; lia).
  rewrite copy_loop_eq by (unconst; lia).
  rewrite (addrs_rows dst b' bs' e es Eb' Ee'), (addrs_rows src b bs e es Eb Ee).
  rewrite combine_flat_map.
  - unfold convert_cells. rewrite mseq_flat_map. apply mseq_ext. intros [j i] w' Hin. cbn [fst snd].
    assert (Hj : b' <= j < b' + e).
    { apply in_combine_l in Hin. apply in_zseq in Hin. lia. }
    assert (Hi : b <= i < b + e).
    { apply in_combine_r in Hin. apply in_zseq in Hin. lia. }
    rewrite Ee in Hlen. simpl in Hlen.
    destruct k as [|k].
    + destruct es; simpl in Hlen; [|lia].
      destruct bs, ss; simpl in L1, L2; try lia. destruct bs', ss'; simpl in L1', L2'; try lia.
      unfold it_deref_one. rewrite !it_nd_at. cbn [it_idx it_at].
      rewrite (access_one_ok chk i src b e s) by auto.
      rewrite (access_one_ok chk j dst b' e s') by auto.
      do 2 (unfold bind at 1, lift at 1).
      unfold row_addrs. rewrite Eb, Eb', Ee, Ee'. cbn [tl tuples map combine mseq fst snd].
      unfold addr. rewrite Es, Es'. cbn [dot]. rewrite !Z.add_0_r.
      unfold bind. destruct (elem_convert conv _ _ w') as [[] ?|?|?| |]; auto.
    + assert (Hne : es <> []) by (destruct es; simpl in *; congruence).
      unfold it_deref_n. rewrite !it_nd_at. cbn [it_idx it_at].
      rewrite (access_n_ok chk i src b bs e es s ss) by auto.
      rewrite (access_n_ok chk j dst b' bs' e es s' ss') by auto.
      do 2 (unfold bind at 1, lift at 1).
      rewrite !row_addrs_eq by auto.
      fold (convert_cells (combine (addrs (row dst j)) (addrs (row src i)))).
      rewrite <- Hrec by auto. unfold row. rewrite Eb, Ee, Es, Eb', Ee', Es'. reflexivity.
  - rewrite !length_zseq. auto.
  - intros x y _ _. unfold row_addrs. rewrite !map_length, Eb, Eb', Ee, Ee'. cbn [tl].
    apply length_tuples_bases; auto.
Qed.

Lemma assign_convert_eq chk : forall n dst src w,
  nd_ok dst -> nd_ok src -> nd_ext dst = nd_ext src -> length (nd_ext src) = n ->
  assign_convert conv chk n dst src w = convert_cells (combine (addrs dst) (addrs src)) w.
Proof.
  induction n as [|n IH]; intros dst src w Hd Hs He Hl.
  - exfalso. pose proof Hs as (_ & _ & H & _). lia.
  - cbn [assign_convert]. rewrite He, list_eqb_refl.
    replace (assertM chk (Ok true)) with (Ok tt) by (destruct chk; auto).
    unfold bind at 1, lift at 1.
    apply convert_rows_eq; auto. intros Hk i j w'.
    assert (Hne : tl (nd_ext src) <> []).
    { destruct (nd_ext src) as [|e [|e2 es]]; simpl in *; try lia. congruence. }
    apply IH.
    + apply row_ok; auto. rewrite He; auto.
    + apply row_ok; auto.
    + simpl. congruence.
    + simpl. destruct (nd_ext src); simpl in *; lia.
Qed.

Lemma convert_cells_run : forall ds ss (h : heap T) f rd rs,
  length ds = length ss -> NoDup ds -> (forall q, In q ss -> ~ In q ds) -> vals h ds rd -> vals h ss rs ->
  let n := length ds in
  let k := match f with None => n | Some k => Nat.min k n end in
  exists h', convert_cells (combine ds ss) (World h f) =
      (if match f with None => true | Some k => (n <=? k)%nat end then Done tt (World h' (spend f n)) else Thrown (World h' None)) /\
    vals h' ds (firstn k (map conv rs) ++ skipn k rd) /\ (forall q, ~ In q ds -> hcell h' q = hcell h q).
Proof.
  induction ds as [|d ds IH]; intros [|s ss] h f rd rs L N D Vd Vs; try discriminate L.
  - exists h. cbn [combine convert_cells mseq length]. unfold convert_cells. cbn [mseq]. unfold ret.
    destruct rd; [|discriminate Vd]. destruct rs; [|discriminate Vs].
    split; [|split; [|auto]].
    + destruct f as [k|]; [cbn [Nat.leb]|]; rewrite spend_0; auto.
    + rewrite skipn_nil, app_nil_r. cbn [map]. rewrite firstn_nil. reflexivity.
  - destruct rd as [|u rd]; [discriminate Vd|]. destruct rs as [|v rs]; [discriminate Vs|].
    unfold vals in Vd, Vs. cbn [map] in Vd, Vs. injection Vd as Vd1 Vd2. injection Vs as Vs1 Vs2.
    fold (vals h ds rd) in Vd2. fold (vals h ss rs) in Vs2. inversion N as [|? ? N1 N2]; subst.
    assert (LD : load s (World h f) = Done v (World h f)) by (unfold load, hread; cbn [w_heap]; rewrite Vs1; reflexivity).
    assert (E0 : forall w : world T, convert_cells (combine (d :: ds) (s :: ss)) w =
                 (_ <~ elem_convert conv d s ;; convert_cells (combine ds ss)) w) by reflexivity.
    rewrite E0. clear E0. unfold elem_convert, bind, tick. rewrite LD. cbn [w_fuse].
    assert (ST : forall f0, exists h1, store d (conv v) (World h f0) = Done tt (World h1 f0) /\
               forall q, hcell h1 q = if ptr_eqb d q then Some (Some (conv v)) else hcell h q).
    { intros f0. destruct (store_spec h d (conv v) f0) as (h1 & E & _ & C); [exists u; auto|]. eauto. }
    assert (Cont : forall f0, exists h1, store d (conv v) (World h f0) = Done tt (World h1 f0) /\
       let n := length ds in let k := match f0 with None => n | Some k => Nat.min k n end in
       exists h', convert_cells (combine ds ss) (World h1 f0) =
         (if match f0 with None => true | Some k => (n <=? k)%nat end then Done tt (World h' (spend f0 n)) else Thrown (World h' None)) /\
       vals h' (d :: ds) (conv v :: firstn k (map conv rs) ++ skipn k rd) /\ (forall q, ~ In q (d :: ds) -> hcell h' q = hcell h q)).
    { intros f0. destruct (ST f0) as (h1 & E & C). exists h1. split; [exact E|].
      assert (C1 : forall q, q <> d -> hcell h1 q = hcell h q).
      { intros q Hq. rewrite C. destruct (ptr_eqb d q) eqn:EQ; auto. apply ptr_eqb_eq in EQ. congruence. }
      destruct (IH ss h1 f0 rd rs) as (h' & E' & V' & O').
      - simpl in L. lia.
      - auto.
      - intros q H1 H2. apply (D q); [right; auto|right; auto].
      - eapply vals_same; [exact Vd2|]. intros p Hp. apply C1. intros ->. auto.
      - eapply vals_same; [exact Vs2|]. intros p Hp. apply C1. intros ->. apply (D d); [right; auto|left; auto].
      - exists h'. split; [exact E'|]. split.
        + unfold vals. cbn [map]. f_equal; [|exact V']. rewrite O' by auto. rewrite C, ptr_eqb_refl. auto.
        + intros q Hq. rewrite O' by (intros X; apply Hq; right; auto). apply C1. intros ->. apply Hq. left; auto. }
    destruct f as [[|k]|].
    + (* the fuse runs out here *)
      exists h. cbn [Nat.leb length Nat.min firstn skipn app]. split; [reflexivity|]. split; [|auto].
      unfold vals. cbn [map]. f_equal; auto.
    + destruct (Cont (Some k)) as (h1 & E & h' & E' & V' & O'). cbn [w_heap]. rewrite E. exists h'. cbn [length Nat.leb Nat.min map firstn skipn app].
      split; [rewrite E'; destruct (length ds <=? k)%nat; reflexivity|]. split; [exact V'|auto].
    + destruct (Cont None) as (h1 & E & h' & E' & V' & O'). cbn [w_heap]. rewrite E. exists h'. cbn [length map firstn skipn app].
      split; [rewrite E'; reflexivity|]. split; [exact V'|auto].
Qed.
End Convert.


Lemma convert_exact {T} (conv : T -> T) (h : heap T) f chk c1 c2 dst src rd rs :
  array_object c1 -> derived c1 dst -> array_object c2 -> derived c2 src -> nd_ext dst = nd_ext src ->
  no_overlap dst src -> elements h dst rd -> elements h src rs ->
  let n := length rd in
  let k := match f with None => n | Some k => Nat.min k n end in
  exists h', assign_convert conv chk (length (nd_ext dst)) dst src (World h f) =
      (if match f with None => true | Some k => (n <=? k)%nat end then Done tt (World h' (spend f n)) else Thrown (World h' None)) /\
    elements h' dst (firstn k (map conv rs) ++ skipn k rd) /\ elements h' src rs /\
    (forall p, ~ element_of dst p -> same_at h h' p).
Proof.
  intros H1 Hd H2 Hs He Hn Rd Rs.
  pose proof (derived_ok c1 dst H1 Hd) as Kd. pose proof (derived_ok c2 src H2 Hs) as Ks.
  apply elements_vals in Rd; auto. apply elements_vals in Rs; auto.
  assert (L : length (addrs dst) = length (addrs src)) by (rewrite !length_addrs by auto; congruence).
  rewrite He. rewrite assign_convert_eq by auto.
  assert (ND : NoDup (addrs dst)) by (apply (nodup_addrs c1); auto).
  assert (DJ : forall q, In q (addrs src) -> ~ In q (addrs dst)).
  { intros q X Y. apply in_addrs in X; auto. apply in_addrs in Y; auto. apply (Hn q); auto. }
  destruct (convert_cells_run conv (addrs dst) (addrs src) h f rd rs L ND DJ Rd Rs) as (h' & E & V & O).
  rewrite (vals_length _ _ _ Rd) in E, V. exists h'. split; [exact E|].
  split; [apply elements_vals; auto|]. split.
  - apply elements_vals; auto. eapply vals_same; [exact Rs|]. intros p Hp. apply O. auto.
  - intros p Hp. apply O. intros X. apply Hp. apply in_addrs in X; auto.
Qed.

(** C51 *)
Theorem c51_converting_assignment : forall (T : Type) (conv : T -> T) (h : heap T) chk c1 c2 dst src rd rs,
  array_object c1 -> derived c1 dst -> array_object c2 -> derived c2 src -> nd_ext dst = nd_ext src ->
  no_overlap dst src -> elements h dst rd -> elements h src rs ->
  exists h', assign_convert conv chk (length (nd_ext dst)) dst src (World h None) = Done tt (World h' None) /\
    elements h' dst (map conv rs) /\ elements h' src rs /\
    (forall p, ~ element_of dst p -> same_at h h' p).
Proof.
  intros T conv h chk c1 c2 dst src rd rs H1 Hd H2 Hs He Hn Rd Rs.
  destruct (convert_exact conv h None chk c1 c2 dst src rd rs H1 Hd H2 Hs He Hn Rd Rs) as (h' & E & V & R).
  exists h'. split; [exact E|]. split; [|exact R].
  assert (length rd = length rs) as L.
  { pose proof (derived_ok c1 dst H1 Hd) as Kd. pose proof (derived_ok c2 src H2 Hs) as Ks.
    apply elements_vals in Rd; auto. apply elements_vals in Rs; auto. apply vals_length in Rd. apply vals_length in Rs.
    rewrite length_addrs in * by auto. congruence. }
  rewrite skipn_all, app_nil_r, L, firstn_all2 in V; auto. rewrite map_length. auto.
Qed.

(** an exception at the k-th conversion or assignment: the first k elements, in index
    order, are converted; the others still have their old values *)
Theorem c51_conversion_throws : forall (T : Type) (conv : T -> T) (h : heap T) chk c1 c2 dst src rd rs k,
  array_object c1 -> derived c1 dst -> array_object c2 -> derived c2 src -> nd_ext dst = nd_ext src ->
  no_overlap dst src -> elements h dst rd -> elements h src rs -> (k < length rd)%nat ->
  exists h', assign_convert conv chk (length (nd_ext dst)) dst src (World h (Some k)) = Thrown (World h' None) /\
    elements h' dst (firstn k (map conv rs) ++ skipn k rd) /\ elements h' src rs /\
    (forall p, ~ element_of dst p -> same_at h h' p).
Proof.
  intros T conv h chk c1 c2 dst src rd rs k H1 Hd H2 Hs He Hn Rd Rs Hk.
  destruct (convert_exact conv h (Some k) chk c1 c2 dst src rd rs H1 Hd H2 Hs He Hn Rd Rs) as (h' & E & V & R).
  exists h'. rewrite (proj2 (Nat.leb_gt _ _)) in E by auto. split; [exact E|]. rewrite Nat.min_l in V by lia. auto.
Qed.

Theorem c51_shape_mismatch_aborts : forall (T : Type) (conv : T -> T) (w : world T) c1 c2 dst src,
  array_object c1 -> derived c1 dst -> array_object c2 -> derived c2 src -> nd_ext dst <> nd_ext src ->
  assign_convert conv true (length (nd_ext dst)) dst src w = Aborted w.
Proof.
  intros T conv w c1 c2 dst src H1 Hd H2 Hs He.
  pose proof (derived_ok c1 dst H1 Hd) as (_ & _ & L & _).
  destruct (length (nd_ext dst)) as [|n]; [lia|]. cbn [assign_convert]. rewrite list_eqb_neq by congruence. reflexivity.
Qed.

(** with the same element type (no conversion) it is ordinary assignment, whatever the
    overlap and wherever an exception comes *)
Theorem c51_no_conversion : forall (T : Type) (w : world T) chk c1 c2 dst src,
  array_object c1 -> derived c1 dst -> array_object c2 -> derived c2 src -> nd_ext dst = nd_ext src ->
  assign_convert (fun v => v) chk (length (nd_ext dst)) dst src w = assign_nd chk (length (nd_ext dst)) dst src w.
Proof.
  intros T w chk c1 c2 dst src H1 Hd H2 Hs He.
  pose proof (derived_ok c1 dst H1 Hd) as Kd. pose proof (derived_ok c2 src H2 Hs) as Ks.
  rewrite assign_convert_eq, assign_nd_eq by (auto; congruence).
  generalize (combine (addrs dst) (addrs src)). intros l. revert w. unfold convert_cells.
  induction l as [|[d s] l IH]; intros w; [reflexivity|]. cbn [mseq copy_cells fst snd]. apply bind_ext; auto.
Qed.

(** conversion to a narrower type (here: halving), 2x3 row-major from column-major *)
Example ex_c51 :
  elements ex_two (cr_nd (ma_ref ex_mb)) [20; 21; 22; 23; 24; 25] /\
  elements ex_two (cr_nd (ma_ref ex_ma)) [14; 12; 10; 15; 13; 11] /\
  no_overlap (cr_nd (ma_ref ex_mb)) (cr_nd (ma_ref ex_ma)) /\
  assign_convert (fun v => v / 2) true 2 (cr_nd (ma_ref ex_mb)) (cr_nd (ma_ref ex_ma)) (World ex_two None) =
    Done tt (World (ex_heap ++ [Some (Block 8 (map Some [7; 6; 5; 7; 6; 5]))]) None) /\
  assign_convert (fun v => v / 2) true 2 (cr_nd (ma_ref ex_mb)) (cr_nd (ma_ref ex_ma)) (World ex_two (Some 2%nat)) =
    Thrown (World (ex_heap ++ [Some (Block 8 (map Some [7; 6; 22; 23; 24; 25]))]) None).
Proof.
  destruct ex_c49 as (Ha & Hb & _ & _ & Ra & Rb & _).
  split; [exact Rb|]. split; [exact Ra|]. split; [|split; vm_compute; reflexivity].
  intros p X Y. pose proof (owned_ok _ _ _ Ha) as Ka. pose proof (owned_ok _ _ _ Hb) as Kb.
  apply in_addrs in X; auto. apply in_addrs in Y; auto.
  apply (owned_block _ _ _ _ Hb) in X. apply (owned_block _ _ _ _ Ha) in Y. cbv in X, Y. congruence.
Qed.

(** * C52 *)

Section Print.
Context {T : Type}.

Definition tail_text (l : list (list (token T))) : list (token T) :=
  match l with [] => [] | _ => TkComma :: commas l end.
Lemma commas_cons (r : list (token T)) l : commas (r :: l) = r ++ tail_text l.
Proof. destruct l; simpl; rewrite ?app_nil_r; auto. Qed.

Lemma print_loop_eq (w : world T) (body : iter -> M T (list (token T))) a : forall texts m k fuel,
  m = length texts -> (m <= fuel)%nat -> idx_min <= k -> k + Z.of_nat m <= idx_max ->
  (forall i r, nth_error texts i = Some r -> body (it_at a (k + Z.of_nat i)) w = Done r w) ->
  print_loop body fuel (it_at a k) (it_at a (k + Z.of_nat m)) w = Done (commas texts) w.
Proof.
  induction texts as [|r texts IH]; intros m k fuel -> Hf H1 H2 HB.
  - destruct fuel; simpl; rewrite it_equal_at; destruct (Z.eqb_spec k (k + 0)); auto; lia.
  - cbn [length] in *. destruct fuel as [|fuel]; [lia|]. cbn [print_loop]. rewrite it_equal_at.
    destruct (Z.eqb_spec k (k + Z.of_nat (S (length texts)))); [lia|].
    unfold bind at 1. pose proof (HB O r eq_refl) as B0. rewrite Z.add_0_r in B0. rewrite B0.
    unfold bind at 1, lift at 1. rewrite (it_inc_at a k) by lia.
    unfold bind at 1. replace (k + Z.of_nat (S (length texts))) with ((k + 1) + Z.of_nat (length texts)) by lia.
    rewrite (IH (length texts) (k + 1) fuel) by (try lia; auto; intros i u Hu; replace (k + 1 + Z.of_nat i) with (k + Z.of_nat (S i)) by lia; apply HB; auto).
    rewrite it_equal_at, commas_cons. unfold ret. do 2 f_equal. unfold tail_text. destruct texts as [|r2 texts].
    + cbn [length]. destruct (Z.eqb_spec (k + 1) (k + 1 + Z.of_nat 0)); [reflexivity|lia].
    + destruct (Z.eqb_spec (k + 1) (k + 1 + Z.of_nat (length (r2 :: texts)))) as [X|_]; [cbn [length] in X; lia|reflexivity].
Qed.

Lemma print_eq chk (h : heap T) f : forall n a t, nd_ok a -> contents h a n t ->
  print chk n a (World h f) = Done (render n t) (World h f).
Proof.
  induction n as [|n IH]; intros a t Ha Hc.
  { destruct Hc as [Hl _]. pose proof Ha as (_ & _ & H & _). lia. }
  cbn [print].
  destruct (dims_at a Ha) as (b & bs & e & es & Eb & Ee & He & Hb & Hbe & Fa & Ga).
  unfold bind at 1, lift at 1. rewrite Fa. unfold bind at 1, lift at 1. rewrite Ga.
  pose proof Hc as (Ln & Hs & _). rewrite Ee in Hs, Ln. cbn [shaped] in Hs. destruct Hs as [Hl _].
  change (Z.of_nat (@length (tensor T n) t) = e) in Hl.
  unfold loop_fuel, it_at at 1 2. cbn [it_idx]. replace (b + e - b) with e by lia.
  unfold bind at 1. rewrite <- Hl at 2.
  rewrite (print_loop_eq (World h f) _ a (map (render n) t) (@length (tensor T n) t)).
  - reflexivity.
  - rewrite map_length. auto.
  - lia.
  - unconst; lia.
  - unconst; lia.
  - intros i r Hr. rewrite nth_error_map in Hr. destruct (@nth_error (tensor T n) t i) as [x|] eqn:Hx; [|discriminate Hr]. injection Hr as <-.
    assert (Hi : (i < @length (tensor T n) t)%nat) by (apply nth_error_Some; rewrite Hx; discriminate).
    destruct n as [|n].
    + destruct (nd_ok_shape a Ha) as (b1 & bs1 & e1 & es1 & s1 & ss1 & E1 & E2 & Es1 & L1 & L1' & _).
      rewrite Eb in E1. rewrite Ee in E2. injection E1 as <- <-. injection E2 as <- <-.
      destruct es; [|discriminate]. destruct bs, ss1; simpl in L1, L1'; try lia.
      unfold it_deref_one. rewrite !it_nd_at. cbn [it_idx it_at].
      rewrite (access_one_ok chk _ a b e s1) by (auto; lia). unfold bind, lift, load. cbn [w_heap].
      rewrite (contents_elem h a t Ha Hc b e s1 i x) by auto. reflexivity.
    + unfold it_deref_n. rewrite !it_nd_at. cbn [it_idx it_at].
      assert (1 < length (nd_ext a))%nat by (rewrite Ee; simpl in *; lia).
      rewrite (access_n_row chk a _ Ha) with (b := b) (e := e); auto; [|rewrite Eb; auto|rewrite Ee; auto|lia].
      unfold bind, lift. apply IH.
      * apply row_ok; auto. rewrite Ee. simpl in *. destruct es; simpl in *; [lia|congruence].
      * apply (contents_row (fun _ _ => true) (fun _ _ => true) h a n t Ha Hc b e); auto; rewrite ?Eb, ?Ee; auto.
Qed.

Lemma render_starts n (t : tensor T n) : exists x r, render n t = x :: r /\ x <> TkClose.
Proof. destruct n; cbn [render]; eexists _, _; (split; [reflexivity|discriminate]). Qed.

Lemma render_prefix : forall n (t u : tensor T n) s s', render n t ++ s = render n u ++ s' -> t = u /\ s = s'.
Proof.
  induction n as [|n IH]; intros t u s s' H.
  - cbn [render app] in H. injection H as -> ->. split; reflexivity.
  - cbn [render app] in H. injection H as H. rewrite <- !app_assoc in H. cbn [app] in H.
    revert u H. induction t as [|x t IHt]; intros [|y u] H.
    + cbn [map commas app] in H. injection H as ->. split; reflexivity.
    + exfalso. cbn [map] in H. rewrite commas_cons in H. destruct (render_starts n y) as (z & r & E & N). rewrite E in H.
      cbn [commas app] in H. injection H as H _. apply N. auto.
    + exfalso. cbn [map] in H. rewrite commas_cons in H. destruct (render_starts n x) as (z & r & E & N). rewrite E in H.
      cbn [commas app] in H. injection H as H _. apply N. auto.
    + cbn [map] in H. rewrite !commas_cons, <- !app_assoc in H. apply IH in H. destruct H as [-> H].
      destruct t as [|x2 t], u as [|y2 u]; cbn [map tail_text app] in H.
      * injection H as ->. split; reflexivity.
      * discriminate.
      * discriminate.
      * injection H as H. destruct (IHt (y2 :: u) H) as [X ->]. split; [f_equal; exact X|reflexivity].
Qed.

End Print.

(** C52 *)
Theorem c52_print : forall (T : Type) (h : heap T) f chk c a n t,
  array_object c -> derived c a -> contents h a n t ->
  print chk n a (World h f) = Done (render n t) (World h f).
Proof. intros T h f chk c a n t Hc Ha Ht. apply print_eq; auto. apply (derived_ok c); auto. Qed.

(** the text determines the shape and every element *)
Theorem c52_print_is_faithful : forall (T : Type) (h1 h2 : heap T) f1 f2 chk1 chk2 c1 c2 a1 a2 n t1 t2 out1 out2 w1 w2,
  array_object c1 -> derived c1 a1 -> contents h1 a1 n t1 ->
  array_object c2 -> derived c2 a2 -> contents h2 a2 n t2 ->
  print chk1 n a1 (World h1 f1) = Done out1 w1 -> print chk2 n a2 (World h2 f2) = Done out2 w2 ->
  (out1 = out2 <-> t1 = t2).
Proof.
  intros T h1 h2 f1 f2 chk1 chk2 c1 c2 a1 a2 n t1 t2 out1 out2 w1 w2 Hc1 Ha1 Ht1 Hc2 Ha2 Ht2 E1 E2.
  rewrite (c52_print T h1 f1 chk1 c1 a1 n t1) in E1 by auto. rewrite (c52_print T h2 f2 chk2 c2 a2 n t2) in E2 by auto.
  injection E1 as <- _. injection E2 as <- _. split; [|congruence].
  intros H. apply (render_prefix n t1 t2 [] []). rewrite !app_nil_r. auto.
Qed.

(** resize_from_MultiArray *)
Theorem c52_resize_from : forall (T : Type) (dflt : T) chk (h : heap T) a vs c other,
  owns h a vs -> array_object c -> derived c other -> length (nd_ext other) = length (cr_ext (ma_ref a)) ->
  layout_ok (cr_storage (ma_ref a)) (repeat 0 (length (nd_ext other))) (nd_ext other) ->
  exists a' vs' h', resize_from dflt chk a other (World h None) = Done a' (World h' None) /\
    owns h' a' vs' /\
    cr_ext (ma_ref a') = nd_ext other /\ cr_ib (ma_ref a') = repeat 0 (length (nd_ext other)) /\
    (forall k v, in_bounds (repeat 0 (length (nd_ext other))) (nd_ext other) k ->
       in_bounds (repeat 0 (length (nd_ext other))) (cr_ext (ma_ref a)) k ->
       reads h (cr_nd (ma_ref a)) (tadd (cr_ib (ma_ref a)) k) v -> reads h' (cr_nd (ma_ref a')) k v) /\
    (forall k, in_bounds (repeat 0 (length (nd_ext other))) (nd_ext other) k ->
       ~ in_bounds (repeat 0 (length (nd_ext other))) (cr_ext (ma_ref a)) k ->
       reads h' (cr_nd (ma_ref a')) k dflt) /\
    (forall b, (b < length h)%nat -> b <> ma_block a -> same_block h h' b).
Proof.
  intros T dflt chk h a vs c other Ho Hc Hd Hl Hlay.
  pose proof (derived_ok c other Hc Hd) as (_ & _ & _ & F & _).
  unfold resize_from. rewrite <- Hl, copy_n_all. unfold bind at 1, lift at 1.
  destruct (c11_resize_list T dflt chk a (World h None) (nd_ext other) Hl F) as (g & E & G1 & G2). rewrite E.
  destruct (c11_resize_preserves_common_block T dflt chk h a vs g (repeat 0 (length (nd_ext other))) (nd_ext other) Ho Hl Hlay G1 G2)
    as (a' & vs' & h' & E1 & O & X1 & X2 & _ & _ & R1 & R2 & _ & _ & _ & R3).
  assert (Z0 : forall k, in_bounds (repeat 0 (length (nd_ext other))) (nd_ext other) k -> tadd (repeat 0 (length (nd_ext other))) k = k).
  { generalize (nd_ext other). clear. induction l as [|e l IH]; intros [|x k] H; simpl in *; try tauto. f_equal. apply IH. tauto. }
  exists a', vs', h'. split; [exact E1|]. split; [exact O|]. split; [exact X1|]. split; [exact X2|].
  split; [intros k v K1 K2 R; rewrite <- (Z0 k K1); eauto|]. split; [intros k K1 K2; rewrite <- (Z0 k K1); auto|auto].
Qed.

(** the output of print_array.cpp: [[0,1,2],[3,4,5]]; resizing a 2x3 array from a
    one-row slice's shape *)
Example ex_c52 :
  print true 2 (cr_nd (ma_ref ex_mb)) (World ex_two None) =
    Done [TkOpen; TkOpen; TkElem 20; TkComma; TkElem 21; TkComma; TkElem 22; TkClose; TkComma;
          TkOpen; TkElem 23; TkComma; TkElem 24; TkComma; TkElem 25; TkClose; TkClose] (World ex_two None) /\
  contents ex_two (cr_nd (ma_ref ex_mb)) 2 [[20; 21; 22]; [23; 24; 25]] /\
  exists a' h', resize_from 0 true ex_ma (cr_nd (ma_ref ex_mb)) (World ex_two None) = Done a' (World h' None).
Proof.
  split; [vm_compute; reflexivity|]. split; [|eexists _, _; vm_compute; reflexivity].
  split; [reflexivity|]. split; [repeat constructor|].
  intros k Hk. destruct k as [|k1 [|k2 [|k3 k]]]; simpl in Hk; try tauto. 
  assert (k1 = 0 \/ k1 = 1) as [-> | ->] by lia; (assert (k2 = 0 \/ k2 = 1 \/ k2 = 2) as [-> |[-> | ->]] by lia);
    eexists; (split; [reflexivity|vm_compute; reflexivity]).
Qed.
