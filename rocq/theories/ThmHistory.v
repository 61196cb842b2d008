(** ThmHistory.v -- C22, C23 (whole programs), C41 (programs with exceptions) *)

From Coq Require Import ZArith List Bool Lia Permutation.
From Verif Require Import Base StorageOrder Ranges Layout Access Objects Memory Ops MultiArray
  Spec ViewSpec ReachSpec IterSpec MemSpec CompareSpec OwnSpec History HistorySpec
  Facts LayoutProofs AccessProofs ViewProofs MemoryProofs CopyProofs ReachProofs
  ThmAddressing ThmViews ThmGeometry ThmCopy ThmBulk CompareProofs ThmCompare OwnProofs ResizeProofs ThmMultiArray HistoryProofs HeapProofs.
Import ListNotations.
Local Open Scope Z_scope.

Section HistoryTheorems.
Context {T : Type}.
Variable dflt : T.
Variable eqT ltT : T -> T -> bool.

Lemma related_nil : related (empty_state : @state T) (Env [] []) ([] : heap T).
Proof.
  split; [split|].
  - intros [|x]; exact I.
  - intros [|x] y m m' H; discriminate.
  - split; [reflexivity|]. intros [|k] n H; discriminate.
Qed.

Lemma named_stands vars d n : hrel vars d n -> stands_for vars (obj_nd (handle_obj d)) (place_of n).
Proof.
  destruct d as [v|c], n as [p|x off bases shape so]; cbn [hrel]; try tauto.
  - intros (c & _ & Hs). exists c. exact Hs.
  - intros (m & Em & Hc & Hl & <- & <- & <-). exists c. apply (arranged_stands _ _ m); auto.
Qed.

Lemma related_agrees st en (h : heap T) : related st en h -> agrees st en h.
Proof.
  intros HR. pose proof HR as [HA [L HH]]. split; [symmetry; eapply relA_length; eauto|]. split; [auto|]. split.
  - intros x. destruct (nth_error (s_arrays st) x) as [[a|]|] eqn:E.
    + destruct (relA_var _ _ _ _ _ HA E) as (m & Em & Hr). pose proof Hr as (Ho & E1 & E2 & E3 & E4).
      exists m. repeat (split; [auto; fail|]). split.
      * unfold cr_num_elements. destruct Ho as (Hao & _). destruct (array_object_ok _ Hao) as (_ & _ & _ & _ & ->). congruence.
      * intros i v Hi. rewrite (reads_elems _ _ _ _ _ Hr Hi). unfold holds. tauto.
    + destruct HA as [H _]. specialize (H x). rewrite E in H. destruct (nth_error (e_vars en) x) as [[?|]|]; tauto.
    + destruct HA as [H _]. specialize (H x). rewrite E in H. destruct (nth_error (e_vars en) x) as [?|]; tauto.
  - intros k n Hn. destruct (HH k n Hn) as (d & Ed & Hd). exists d. split; [auto|]. apply named_stands in Hd. cbv zeta.
    destruct (stands_owner _ _ _ _ _ HR Hd) as (? & ? & ? & _ & _ & _ & _ & _ & _ & _ & Eb & Ee & _).
    split; [auto|]. split; [auto|]. intros i v Hi. rewrite Eb, Ee in Hi. rewrite (look_reads st en h) by eauto. tauto.
Qed.

Lemma related_memory st en (h : heap T) : related st en h -> memory_ok en h.
Proof.
  intros [HR _]. split; [|exact (proj2 HR)]. intros x m Em.
  destruct (relA_var_inv _ _ _ _ _ HR Em) as (a & _ & ((Hao & Hd & Hoff & Hal & Hl & Hb) & _)).
  split; [auto|]. split; [|exists (a_elems a); auto].
  rewrite Hd. unfold ma_block. destruct (ma_base m) as [bb oo]. cbn [p_off p_blk] in *. congruence.
Qed.

(** the concrete state determines the abstract one *)
Lemma related_fun st st' en (h : heap T) : related st en h -> related st' en h -> s_arrays st = s_arrays st'.
Proof.
  intros [HR _] [HR' _]. apply nth_error_ext. intros x. destruct HR as [H _], HR' as [H' _]. specialize (H x). specialize (H' x).
  destruct (nth_error (s_arrays st) x) as [[a|]|], (nth_error (s_arrays st') x) as [[a'|]|], (nth_error (e_vars en) x) as [[m|]|]; try tauto.
  destruct H as (Ho & E1 & E2 & E3 & E4), H' as (Ho' & F1 & F2 & F3 & F4).
  do 2 f_equal. destruct a as [s b o al el], a' as [s' b' o' al' el']. cbn [a_shape a_bases a_order a_alloc a_elems] in *.
  assert (el = el'); [|congruence].
  destruct Ho as (_ & _ & _ & _ & _ & Hb), Ho' as (_ & _ & _ & _ & _ & Hb'). rewrite Hb in Hb'. injection Hb' as E.
  clear - E. revert el' E. induction el as [|u el IH]; intros [|u' el'] E; simpl in E; try discriminate; auto.
  injection E as -> E. f_equal; auto.
Qed.

Lemma related_same_names st st' en (h : heap T) k n n' : related st en h -> related st' en h ->
  named_is st k n -> named_is st' k n' -> same_place (place_of n) (place_of n').
Proof.
  intros [HA [_ HH]] [HA' [_ HH']] Hn Hn'. destruct (HH k n Hn) as (d & Ed & Hd), (HH' k n' Hn') as (d' & Ed' & Hd').
  rewrite Ed in Ed'. injection Ed' as <-. apply named_stands in Hd, Hd'.
  destruct Hd as (c & m & Em & Hc & HL & Hdv & Eb & Ee & Es & _ & Ei), Hd' as (c' & m' & Em' & Hc' & HL' & Hdv' & Eb' & Ee' & Es' & _ & Ei').
  unfold same_place. split; [congruence|]. split; [congruence|]. split; [congruence|].
  intros i Hi. destruct (Ei i Hi) as [A1 B1]. destruct (Ei' i ltac:(rewrite <- Eb', <- Ee', Eb, Ee; auto)) as [A2 B2].
  rewrite A1 in A2. injection A2 as X Y. split; [|lia].
  destruct (Nat.eq_dec (pl_var (place_of n)) (pl_var (place_of n'))) as [|Hne]; auto.
  exfalso. apply (proj2 HA _ _ _ _ Em Em' Hne). auto.
Qed.

Lemma run_sound chk : forall p st os st' en (h : heap T), related st en h -> steps dflt eqT ltT st p os st' ->
  exists en' h', run dflt eqT ltT chk en p (World h None) = Done (en', os) (World h' None) /\
    related st' en' h' /\ forall b, leaked en' h' b <-> leaked en h b.
Proof.
  induction p as [|c p IH]; intros st os st' en h HR HS; inversion HS; subst.
  - exists en, h. split; [reflexivity|]. split; [auto|]. tauto.
  - match goal with H : step _ _ _ st c o st1, H2 : steps _ _ _ st1 p _ st' |- _ => rename H into HS1; rename H2 into HS2 end.
    pose proof (exec_sound dflt eqT ltT st en h c o st1 chk None HR HS1) as HF.
    cbn [run]. unfold bind at 1. destruct (exec dflt eqT ltT chk en c (World h None)) as [[en1 o1] [h1 f1]|w|w| |]; cbn [follows w_heap w_fuse] in HF; try tauto; try (exfalso; destruct HF as (_ & ? & ? & ? & _); discriminate).
    destruct HF as (-> & HR1 & Hf & HL). rewrite (Hf eq_refl). clear f1 Hf.
    destruct (IH st1 os0 st' en1 h1 HR1 HS2) as (en2 & h2 & E & HR2 & HL2).
    exists en2, h2. cbn [fst snd]. unfold bind, ret. rewrite E. cbn [fst snd]. split; [auto|]. split; [auto|]. intros b. rewrite HL2. auto.
Qed.


(** * legal commands have a step *)

Lemma stands_len vars d p : stands_for vars d p -> length (pl_bases p) = length (pl_shape p).
Proof. intros (c & m & _ & Hc & _ & Hd & Eb & Ee & _). rewrite <- Eb, <- Ee. apply (derived_ok _ _ Hc Hd). Qed.

Lemma put_exists st en (h : heap T) d p i v : related st en h -> stands_for (e_vars en) d p -> in_bounds (pl_bases p) (pl_shape p) i ->
  exists st1 h1, put st p i v st1 /\ related st1 en h1.
Proof.
  intros HR HS Hi. destruct (stands_owner _ _ _ _ _ HR HS) as (c & m & a & Em & Ea & _).
  assert (HP : put st p i v (set_array st (pl_var p) (a_set a (pl_cell p i) v))) by (split; eauto).
  destruct (put_set _ _ _ _ _ _ _ _ true None HR HS HP) as [[H _]|(h' & f' & _ & HR' & _)]; [discriminate|]. eauto.
Qed.

Lemma copies_exist en d s pd ps : stands_for (e_vars en) d pd -> stands_for (e_vars en) s ps -> pl_shape pd = pl_shape ps ->
  forall ks st (h : heap T), related st en h -> (forall k, In k ks -> in_bounds (repeat 0 (length (pl_shape pd))) (pl_shape pd) k) ->
  exists st', copies pd ps ks st st'.
Proof.
  intros Hd Hs E. induction ks as [|k ks IH]; intros st h HR HK; [exists st; constructor|].
  assert (Hk : in_bounds (repeat 0 (length (pl_shape pd))) (pl_shape pd) k) by (apply HK; left; auto).
  assert (Hk' : in_bounds (repeat 0 (length (pl_shape ps))) (pl_shape ps) k) by (rewrite <- E; auto).
  destruct (get_look _ _ _ _ _ _ HR Hs (in_bounds_join _ _ _ (stands_len _ _ _ Hs) Hk')) as (v & HL & _).
  destruct (put_exists _ _ _ _ _ _ v HR Hd (in_bounds_join _ _ _ (stands_len _ _ _ Hd) Hk)) as (st1 & h1 & HP & HR1).
  destruct (IH st1 h1 HR1) as (st2 & HC); [intros; apply HK; right; auto|]. exists st2. econstructor; eauto.
Qed.

Lemma mapped_exist en d p fn : stands_for (e_vars en) d p ->
  forall is st (h : heap T), related st en h -> (forall i, In i is -> in_bounds (pl_bases p) (pl_shape p) i) ->
  exists st', mapped p fn is st st'.
Proof.
  intros Hd. induction is as [|i is IH]; intros st h HR HK; [exists st; constructor|].
  assert (Hi : in_bounds (pl_bases p) (pl_shape p) i) by (apply HK; left; auto).
  destruct (get_look _ _ _ _ _ _ HR Hd Hi) as (v & HL & _).
  destruct (put_exists _ _ _ _ _ _ (fn v) HR Hd Hi) as (st1 & h1 & HP & HR1).
  destruct (IH st1 h1 HR1) as (st2 & HC); [intros; apply HK; right; auto|]. exists st2. econstructor; eauto.
Qed.

Lemma copied_exists en d s pd ps st (h : heap T) : stands_for (e_vars en) d pd -> stands_for (e_vars en) s ps -> pl_shape pd = pl_shape ps ->
  related st en h -> exists st', copied pd ps st st'.
Proof.
  intros Hd Hs E HR. destruct (copies_exist en d s pd ps Hd Hs E (all_positions (pl_shape pd)) st h HR) as (st' & HC).
  - intros k Hk. apply in_tuples in Hk; [auto|]. apply repeat_length.
  - exists st'. split; auto.
Qed.

Lemma blank_ok shape bases so aid : order_ok (length shape) so -> layout_ok so bases shape ->
  well_formed (blank dflt shape bases so aid).
Proof.
  intros Ho Hl. split; [auto|]. split; [auto|]. cbn [blank a_elems a_shape]. rewrite repeat_length.
  pose proof (rep_prod _ _ _ Hl). lia.
Qed.

Lemma resized_exists st en (h : heap T) x a rs : related st en h -> array_is st x a -> length rs = length (a_shape a) ->
  layout_ok (a_order a) (ranges_bases rs) (ranges_shape rs) -> exists a', resized dflt a rs a'.
Proof.
    intros HR Ha L Hl. destruct (relA_var _ _ _ _ _ (proj1 HR) Ha) as (m & Em & Hr). pose proof Hr as (Ho & X1 & X2 & X3 & X4).
    destruct (extents_of_ok rs) as (g & Eg & Hn & Hg).
    { intros ->. apply layout_ne in Hl. apply Hl. reflexivity. }
    assert (LS : length (ranges_shape rs) = length rs) by apply map_length.
    assert (LB : length (ranges_bases rs) = length rs) by apply map_length.
    destruct (resize_outcomes dflt true m _ g (ranges_bases rs) (ranges_shape rs) h None Ho) as
      [(k & h' & ? & _)|(c & vs' & f' & E & Hf & Ho' & Y1 & Y2 & Y3 & Y4 & Y5)]; auto; [congruence|rewrite X3; auto|discriminate|].
    set (m' := new_ma c (ma_aid m) (length h)) in *.
    set (h' := set_nth (ma_block m) None h ++ [Some (Block (ma_aid m) (map Some vs'))]) in *.
    set (a' := Arr (ranges_shape rs) (ranges_bases rs) (a_order a) (a_alloc a) vs').
    assert (HN : Z.of_nat (length vs') = prod (ranges_shape rs)).
    { pose proof Ho' as (Hao & _ & _ & _ & Hlv & _). rewrite Hlv. unfold cr_num_elements.
      destruct (array_object_ok _ Hao) as (_ & _ & _ & _ & ->). unfold m', new_ma, cr_set_base. cbn [ma_ref cr_ext]. congruence. }
    assert (Hso : order_ok (length (ranges_shape rs)) (a_order a)).
    { destruct Ho as (Hao & _). destruct (array_object_ok _ Hao) as (HV & _). rewrite X3, X1 in HV. rewrite LS, L. exact HV. }
    assert (EP : forall k v, in_bounds (repeat 0 (length rs)) (ranges_shape rs) k -> reads h' (cr_nd (ma_ref m')) (tadd (ranges_bases rs) k) v -> holds a' (tadd (ranges_bases rs) k) v).
    { intros k v Hk Hv.
      assert (HB : in_bounds (ranges_bases rs) (ranges_shape rs) (tadd (ranges_bases rs) k)).
      { apply in_bounds_join; [congruence|]. rewrite LS. auto. }
      split; [exact HB|]. rewrite (owns_reads _ _ _ _ _ Ho') in Hv.
      - unfold m', new_ma, cr_set_base in Hv. cbn [ma_ref cr_ext cr_ib cr_storage] in Hv. rewrite Y1, Y2, Y3, X3 in Hv. exact Hv.
      - unfold m', new_ma, cr_set_base. cbn [ma_ref cr_ext cr_ib]. rewrite Y1, Y2. auto. }
    exists a'. split; [auto|]. do 4 (split; [reflexivity|]). split.
    + split; [exact Hso|]. split; [exact Hl|exact HN].
    + cbn [a' a_shape a_bases]. intros k Hk. split.
      * intros Hin.
        assert (HB : in_bounds (a_bases a) (a_shape a) (tadd (a_bases a) k)).
        { apply in_bounds_join; [|rewrite <- L; auto]. destruct Ho as (Hao & _). destruct (array_object_ok _ Hao) as (_ & HRp & _).
          rewrite <- X1, <- X2. apply HRp. }
        pose proof (dn_var st x a Ha) as HD.
        destruct (denotes_nd st en h true _ _ HR HD) as (d & Ed & Hdd).
        destruct (get_look _ _ _ _ _ _ HR Hdd HB) as (v & (_ & a1 & Ea1 & HHv) & _).
        cbn [pl_var pl_cell arranged] in Ea1, HHv. rewrite <- (array_fun _ _ _ _ Ha Ea1) in HHv.
        exists v. split; [split; [exact HB|exact HHv]|]. apply EP; auto.
        apply Y4; rewrite ?LS; [auto|rewrite X1; auto|]. rewrite X2. apply (reads_elems _ _ _ _ _ Hr HB). exact HHv.
      * intros Hout. apply EP; auto. apply Y5; rewrite ?LS; [auto|rewrite X1; auto].
Qed.

Lemma legal_step st en (h : heap T) c : related st en h -> legal st c -> exists o st', step dflt eqT ltT st c o st'.
Proof.
  intros HR. destruct c as [n aid|shape so aid|rs so aid|y|e so aid|e subs|x off shape so|x off rs so|x|k|x|dst src|x y|dst src|e i|e i v|e i|e i v|x l|k l|e fn
    |x bases|x b|x shape|k bases|k b|k shape|x rs|x shape|op a b|q e];
    cbn [legal].
  - intros Hn. do 2 eexists. apply s_default; auto.
  - intros [Ho Hl]. do 2 eexists. apply s_list. apply blank_ok; auto.
  - intros [Ho Hl]. do 2 eexists. apply s_ranges. apply blank_ok; auto. unfold ranges_shape. rewrite map_length. auto.
  - intros (a & Ha). do 2 eexists. eapply s_copy; eauto.
  - intros (p & Hp & Ho & Hl).
    destruct (denotes_nd st en h true e p HR Hp) as (d & Ed & Hd).
    destruct (stands_owner _ _ _ _ _ HR Hd) as (cm & m & am & Em & Eam & Hrm & Hcm & Hdm & HLv & _ & Eb & Ee & Ei).
    destruct (convert_outcomes dflt true cm d so aid h None Hcm Hdm HLv) as
      [(k & h' & ? & _)|(c' & vs & f' & Hf & E & Ho' & X1 & X2 & X3 & X4)]; rewrite ?Ee, ?Eb in *; auto; [discriminate|].
    assert (HN : Z.of_nat (length vs) = prod (pl_shape p)).
    { pose proof Ho' as (Hao & _ & _ & _ & Hlv & _). rewrite Hlv. unfold cr_num_elements.
      destruct (array_object_ok _ Hao) as (_ & _ & _ & _ & ->). unfold new_ma, cr_set_base. cbn [ma_ref cr_ext]. congruence. }
    exists ONone. eexists. apply (s_from _ _ _ _ _ _ _ p (Arr (pl_shape p) (pl_bases p) so aid vs)); auto.
    + split; auto.
    + intros i Hi. destruct (get_look _ _ _ _ _ _ HR Hd Hi) as (v & HL & HRd). exists v. split; [auto|].
      split; [auto|]. specialize (X4 i v Hi HRd). rewrite (owns_reads _ _ _ _ _ Ho') in X4.
      * unfold new_ma, cr_set_base in X4. cbn [ma_ref cr_ext cr_ib cr_storage] in X4. rewrite X1, X2, X3 in X4. exact X4.
      * unfold new_ma, cr_set_base. cbn [ma_ref cr_ext cr_ib]. rewrite X1, X2. auto.
  - intros (p & Hp). do 2 eexists. eapply s_view; eauto.
  - intros (a & Ha & Hoff & Ho & Hl & HP). do 2 eexists. eapply s_ref_list; eauto.
  - intros (a & Ha & Hoff & Ho & Hl & HP). do 2 eexists. eapply s_ref_ranges; eauto.
  - intros (a & Ha). do 2 eexists. eapply s_ref_of; eauto.
  - intros (n & Hk). do 2 eexists. eapply s_alias; eauto.
  - intros (a & Ha). do 2 eexists. eapply s_destroy; eauto.
  - intros (pd & ps & Hd & Hs & E).
    destruct (denotes_nd st en h true _ _ HR Hd) as (d & _ & Hdd). destruct (denotes_nd st en h true _ _ HR Hs) as (s & _ & Hss).
    destruct (copied_exists en d s pd ps st h Hdd Hss E HR) as (st' & HC). do 2 eexists. eapply s_assign; eauto.
  - intros (a & b & Ha & Hb & E). pose proof (dn_var st x a Ha) as Hd. pose proof (dn_var st y b Hb) as Hs.
    destruct (denotes_nd st en h true _ _ HR Hd) as (d & _ & Hdd). destruct (denotes_nd st en h true _ _ HR Hs) as (s & _ & Hss).
    destruct (copied_exists en d s _ _ st h Hdd Hss E HR) as (st' & HC). do 2 eexists. eapply s_assign_var; eauto.
  - intros (pd & ps & Hd & Hs & E).
    destruct (denotes_nd st en h true _ _ HR Hd) as (d & _ & Hdd). destruct (denotes_nd st en h true _ _ HR Hs) as (s & _ & Hss).
    destruct (copied_exists en d s pd ps st h Hdd Hss E HR) as (st' & HC). do 2 eexists. eapply s_copy_array; eauto.
  - intros (p & Hp & Hi). destruct (denotes_nd st en h true _ _ HR Hp) as (d & _ & Hdd).
    destruct (get_look _ _ _ _ _ _ HR Hdd Hi) as (v & HL & _). do 2 eexists. eapply s_get; eauto.
  - intros (p & Hp & Hi). destruct (denotes_nd st en h true _ _ HR Hp) as (d & _ & Hdd).
    destruct (put_exists _ _ _ _ _ _ v HR Hdd Hi) as (st1 & h1 & HP & _). do 2 eexists. eapply s_set; eauto.
  - intros (p & Hp & Hi). destruct (denotes_nd st en h true _ _ HR Hp) as (d & _ & Hdd).
    destruct (get_look _ _ _ _ _ _ HR Hdd Hi) as (v & HL & _). do 2 eexists. eapply s_getb; eauto.
  - intros (p & Hp & Hi). destruct (denotes_nd st en h true _ _ HR Hp) as (d & _ & Hdd).
    destruct (put_exists _ _ _ _ _ _ v HR Hdd Hi) as (st1 & h1 & HP & _). do 2 eexists. eapply s_setb; eauto.
  - intros (a & Ha). do 2 eexists. eapply s_fill; eauto.
  - intros (x & off & bases & shape & so & Hk). destruct (named_eval st en h _ _ HR Hk) as (d & _ & Hd).
    apply named_stands in Hd. destruct (stands_owner _ _ _ _ _ HR Hd) as (? & ? & a & _ & Ea & _). cbn [place_of arranged_from pl_var] in Ea.
    do 2 eexists. eapply s_fill_ref; eauto.
  - intros (p & Hp). destruct (denotes_nd st en h true _ _ HR Hp) as (d & _ & Hdd).
    destruct (mapped_exist en d p fn Hdd (tuples (pl_bases p) (pl_shape p)) st h HR) as (st' & HM).
    + intros i Hi. apply in_tuples in Hi; auto. eapply stands_len; eauto.
    + do 2 eexists. eapply s_for_each; eauto.
  - intros (a & Ha & L & Hl). destruct (relA_var _ _ _ _ _ (proj1 HR) Ha) as (m & Em & (Hao & E1 & E2 & E3 & _)).
    destruct Hao as (Hao & _ & _ & _ & Hlv & _). unfold cr_num_elements in Hlv. destruct (array_object_ok _ Hao) as (Ho & _ & _ & _ & En).
    do 2 eexists. eapply s_reindex; eauto. split; [|split; [auto|]]; cbn [a_shape a_order a_elems]; [rewrite <- E1, <- E3; exact Ho|congruence].
  - intros (a & Ha & Hl). destruct (relA_var _ _ _ _ _ (proj1 HR) Ha) as (m & Em & (Hao & E1 & E2 & E3 & _)).
    destruct Hao as (Hao & _ & _ & _ & Hlv & _). unfold cr_num_elements in Hlv. destruct (array_object_ok _ Hao) as (Ho & _ & _ & _ & En).
    do 2 eexists. eapply s_reindex_all; eauto. split; [|split; [auto|]]; cbn [a_shape a_order a_elems]; [rewrite <- E1, <- E3; exact Ho|congruence].
  - intros (a & Ha & L & Hl & HP). destruct (relA_var _ _ _ _ _ (proj1 HR) Ha) as (m & Em & (Hao & E1 & E2 & E3 & _)).
    destruct Hao as (Hao & _ & _ & _ & Hlv & _). unfold cr_num_elements in Hlv. destruct (array_object_ok _ Hao) as (Ho & _ & _ & _ & En).
    do 2 eexists. eapply s_reshape; eauto. split; [|split; [auto|]]; cbn [a_shape a_order a_elems]; [rewrite L, <- E1, <- E3; exact Ho|congruence].
  - intros [(p & Hk & HA)|(x & off & bases0 & shape & so & Hk & HA)]; do 2 eexists; [eapply s_reindex_view; eauto|eapply s_reindex_ref; eauto].
  - intros [(p & Hk & HA)|(x & off & bases0 & shape & so & Hk & HA)]; do 2 eexists; [eapply s_reindex_view_all; eauto|eapply s_reindex_ref_all; eauto].
  - intros (x & off & bases & shape0 & so & Hk & L & HA & HP). do 2 eexists. eapply s_reshape_ref; eauto.
  - intros (a & Ha & L & Hl). destruct (resized_exists st en h x a rs HR Ha L Hl) as (a' & Hrs). do 2 eexists. eapply s_resize; eauto.
  - intros (a & Ha & L & Hl). destruct (resized_exists st en h x a (from_zero shape) HR Ha) as (a' & Hrs).
    + unfold from_zero. rewrite map_length. auto.
    + rewrite zero_shape, zero_bases. auto.
    + do 2 eexists. eapply s_resize_list; eauto.
  - intros (pa & pb & Ha & Hb & L).
    destruct (denotes_nd st en h true _ _ HR Ha) as (x & Ex & Hx). destruct (denotes_nd st en h true _ _ HR Hb) as (y & Ey & Hy).
    destruct (equal_sound eqT st en h x y pa pb true HR Hx Hy L) as (e & _ & _ & He).
    destruct (less_sound ltT st en h x y pa pb true HR Hx Hy L _ eq_refl) as (l & g & _ & Hl & Hg & _).
    assert (NN : forall (b : bool) P, (b = true <-> P) -> (negb b = true <-> ~ P)) by (intros [] P H; simpl; intuition congruence).
    exists (OBool match op with CEq => e | CNe => negb e | CLt => l | CGt => g | CLe => negb g | CGe => negb l end), st.
    apply (s_compare _ _ _ _ _ _ _ pa pb); auto.
    destruct op; cbn [compares]; [auto|apply NN; auto|auto|auto|apply (NN _ _ Hg)|apply (NN _ _ Hl)].
  - intros (p & Hp). do 2 eexists. eapply s_ask; eauto.
Qed.

(** * programs with exceptions *)

Lemma catching_sound chk : forall p st en (h : heap T), related st en h -> always_legal dflt eqT ltT st p ->
  exists en' os h' st', run_catching dflt eqT ltT chk en p h = Done (en', os) (World h' None) /\
    attempts dflt eqT ltT st p os st' /\ related st' en' h' /\
    exists new, length new = blocks_lost p os /\ NoDup new /\ (forall b, In b new -> (length h <= b)%nat) /\
      forall b, leaked en' h' b <-> leaked en h b \/ In b new.
Proof.
  induction p as [|[c f] p IH]; intros st en h HR HA.
  - exists en, [], h, st. split; [reflexivity|]. split; [constructor|]. split; [auto|]. exists []. split; [auto|]. split; [constructor|]. split; [intros b []|]. simpl. tauto.
  - cbn [always_legal] in HA. destruct HA as (HL & HD & HT).
    destruct (legal_step st en h c HR HL) as (o & st1 & HS).
    pose proof (exec_sound dflt eqT ltT st en h c o st1 chk f HR HS) as HF. cbn [run_catching].
    pose proof (r_exec dflt eqT ltT chk en c (World h f)) as HL2.
    destruct (exec dflt eqT ltT chk en c (World h f)) as [[en1 o1] [h1 f1]|[h1 f1]|w| |]; cbn [follows w_heap w_fuse] in HF; try tauto; destruct HL2 as [HL2 _]; cbn [w_heap] in HL2.
    + destruct HF as (-> & HR1 & _ & HLk).
      destruct (IH st1 en1 h1 HR1 (HD o st1 HS)) as (en2 & os & h2 & st2 & E & HAt & HR2 & new & Ln & Hnd & Hge & Hn).
      exists en2, (Some o :: os), h2, st2. cbn [w_heap]. rewrite E. split; [auto|]. split; [econstructor; eauto|]. split; [auto|].
      exists new. split; [destruct f; exact Ln|]. split; [auto|]. split; [intros b Hb; specialize (Hge b Hb); lia|].
      intros b. rewrite Hn, HLk. tauto.
    + destruct HF as (_ & k & st'' & -> & HI & HR1 & HLk).
      destruct (IH st'' en h1 HR1 (HT k st'' eq_refl HI)) as (en2 & os & h2 & st2 & E & HAt & HR2 & new & Ln & Hnd & Hge & Hn).
      exists en2, (None :: os), h2, st2. cbn [w_heap]. rewrite E. split; [auto|]. split; [eapply at_thrown; eauto|]. split; [auto|].
      assert (HB : loses k c = true -> (length h < length h1)%nat).
      { intros HX. assert (HY : leaked en h1 (length h)) by (apply HLk; auto). destruct HY as [[z Hz] _]. apply nth_error_Some. congruence. }
      exists (if loses k c then length h :: new else new). cbn [blocks_lost]. destruct (loses k c) eqn:EL.
      * specialize (HB eq_refl). split; [simpl; lia|]. split; [constructor; [|auto]; intros H; specialize (Hge _ H); lia|].
        split; [intros b [<-|H]; [lia|specialize (Hge _ H); lia]|]. intros b. rewrite Hn, HLk. simpl. intuition.
      * split; [auto|]. split; [auto|]. split; [intros b H; specialize (Hge _ H); lia|]. intros b. rewrite Hn, HLk. intuition discriminate.
Qed.

End HistoryTheorems.

(** * C23: any program of library calls *)

(** For every program whose calls keep to the contract the run finishes, without
    undefined behaviour, failed assertion or exception, with the outputs of the
    abstract machine and with every variable in the state the abstract machine
    says -- with run-time checks enabled or disabled *)
Theorem c23_programs_behave_as_specified : forall (T : Type) (dflt : T) eqT ltT chk p os st,
  steps dflt eqT ltT empty_state p os st ->
  exists en h, run dflt eqT ltT chk (Env [] []) p (World [] None) = Done (en, os) (World h None) /\ agrees st en h.
Proof.
  intros T dflt eqT ltT chk p os st HS.
  destruct (run_sound dflt eqT ltT chk p empty_state os st (Env [] []) [] related_nil HS) as (en & h & E & HR & _).
  exists en, h. split; [auto|apply related_agrees; auto].
Qed.

(** the abstract machine is stuck only outside the contract *)
Theorem c23_legal_commands_proceed : forall (T : Type) (dflt : T) eqT ltT p os st c,
  steps dflt eqT ltT empty_state p os st -> legal st c -> exists o st', step dflt eqT ltT st c o st'.
Proof.
  intros T dflt eqT ltT p os st c HS HL.
  destruct (run_sound dflt eqT ltT true p empty_state os st (Env [] []) [] related_nil HS) as (en & h & _ & HR & _).
  eapply legal_step; eauto.
Qed.

(** and its results are determined by the program *)
Theorem c23_results_are_determined : forall (T : Type) (dflt : T) eqT ltT p os st os' st',
  steps dflt eqT ltT empty_state p os st -> steps dflt eqT ltT empty_state p os' st' -> os = os' /\ s_arrays st = s_arrays st' /\
  forall k n n', named_is st k n -> named_is st' k n' -> same_place (place_of n) (place_of n').
Proof.
  intros T dflt eqT ltT p os st os' st' H1 H2.
  destruct (run_sound dflt eqT ltT true p empty_state os st (Env [] []) [] related_nil H1) as (en & h & E & HR & _).
  destruct (run_sound dflt eqT ltT true p empty_state os' st' (Env [] []) [] related_nil H2) as (en' & h' & E' & HR' & _).
  rewrite E in E'. injection E' as <- <- <-. split; [auto|].
  split; [eapply related_fun; eauto|]. intros k n n'. eapply related_same_names; eauto.
Qed.

(** * C22: memory *)

(** after any program: every live variable has exactly its own block, and there
    is no other block that has not been given back *)
Theorem c22_no_leak_no_sharing : forall (T : Type) (dflt : T) eqT ltT chk p os st,
  steps dflt eqT ltT empty_state p os st ->
  exists en h, run dflt eqT ltT chk (Env [] []) p (World [] None) = Done (en, os) (World h None) /\
    memory_ok en h /\
    forall b, outstanding h b <-> exists x m, nth_error (e_vars en) x = Some (Some m) /\ ma_block m = b.
Proof.
  intros T dflt eqT ltT chk p os st HS.
  destruct (run_sound dflt eqT ltT chk p empty_state os st (Env [] []) [] related_nil HS) as (en & h & E & HR & HL).
  exists en, h. split; [auto|]. pose proof (related_memory _ _ _ HR) as HM. split; [auto|]. intros b. split.
  - intros Hb.
    assert (D : (exists x m, nth_error (e_vars en) x = Some (Some m) /\ ma_block m = b) \/ forall x m, nth_error (e_vars en) x = Some (Some m) -> ma_block m <> b).
    { clear. induction (e_vars en) as [|[m|] vars IH].
      - right. intros [|x] m H; discriminate.
      - destruct (Nat.eq_dec (ma_block m) b) as [E|E]; [left; exists O, m; auto|].
        destruct IH as [(x & m' & H & H')|H]; [left; exists (S x), m'; auto|right].
        intros [|x] m' Hx; simpl in Hx; [congruence|eauto].
      - destruct IH as [(x & m' & H & H')|H]; [left; exists (S x), m'; auto|right].
        intros [|x] m' Hx; simpl in Hx; [congruence|eauto]. }
    destruct D as [D|D]; [auto|]. exfalso. destruct (proj1 (HL b) (conj Hb D)) as [[k Hk] _]. destruct b; discriminate.
  - intros (x & m & Hx & <-). destruct HM as [HM _]. destruct (HM x m Hx) as (_ & _ & vs & _ & Hb). eexists; eauto.
Qed.

(** when all variables have been destroyed every block has been given back *)
Theorem c22_all_memory_returned : forall (T : Type) (dflt : T) eqT ltT chk p os st,
  steps dflt eqT ltT empty_state p os st -> (forall x a, ~ array_is st x a) ->
  exists en h, run dflt eqT ltT chk (Env [] []) p (World [] None) = Done (en, os) (World h None) /\
    forall b, ~ outstanding h b.
Proof.
  intros T dflt eqT ltT chk p os st HS HN.
  destruct (c23_programs_behave_as_specified T dflt eqT ltT chk p os st HS) as (en & h & E & L & _ & HA & _).
  destruct (c22_no_leak_no_sharing T dflt eqT ltT chk p os st HS) as (en' & h' & E' & _ & HO).
  rewrite E in E'. injection E' as <- <-. exists en, h. split; [auto|]. intros b Hb.
  apply HO in Hb. destruct Hb as (x & m & Hx & _). specialize (HA x).
  destruct (nth_error (s_arrays st) x) as [[a|]|] eqn:Ex; [apply (HN x a Ex)|congruence|congruence].
Qed.

(** * C41: programs in which operations throw *)

(** For every program in which any allocation, element construction or element
    assignment may throw and every exception is caught, and whose calls keep to
    the contract however the earlier calls ended: no undefined behaviour; every
    call that throws leaves the state unchanged, or changed on exactly the first k of
    its elements; every live variable still owns its block; the memory not owned
    is exactly one block per constructor call that threw after its allocation and
    per resize call in which the construction of an element threw *)
Theorem c41_exceptions_keep_the_basic_guarantee : forall (T : Type) (dflt : T) eqT ltT chk p,
  always_legal dflt eqT ltT empty_state p ->
  exists en os h st, run_catching dflt eqT ltT chk (Env [] []) p [] = Done (en, os) (World h None) /\
    attempts dflt eqT ltT empty_state p os st /\ agrees st en h /\ memory_ok en h /\
    exists lost, length lost = blocks_lost p os /\ NoDup lost /\ forall b, leaked en h b <-> In b lost.
Proof.
  intros T dflt eqT ltT chk p HA.
  destruct (catching_sound dflt eqT ltT chk p empty_state (Env [] []) [] related_nil HA) as (en & os & h & st & E & HAt & HR & new & Ln & Hnd & _ & Hn).
  exists en, os, h, st. split; [auto|]. split; [auto|]. split; [apply related_agrees; auto|]. split; [eapply related_memory; eauto|].
  exists new. split; [auto|]. split; [auto|]. intros b. rewrite Hn. split; [|auto]. intros [[[k Hk] _]|]; [destruct b; discriminate|auto].
Qed.

(** * C42: named views and refs over time *)

Lemma put_named {T} (st st' : @state T) p i v : put st p i v st' -> s_named st' = s_named st.
Proof. intros (_ & a & _ & ->). reflexivity. Qed.
Lemma copies_named {T} pd ps : forall ks (st st' : @state T), copies pd ps ks st st' -> s_named st' = s_named st.
Proof. induction 1; [auto|]. rewrite IHcopies. eapply put_named; eauto. Qed.
Lemma mapped_named {T} p f : forall ks (st st' : @state T), mapped p f ks st st' -> s_named st' = s_named st.
Proof. induction 1; [auto|]. rewrite IHmapped. eapply put_named; eauto. Qed.

Lemma orphan_keeps {T} (st : @state T) x k n : named_is st k n -> x <> owner n -> named_is (orphan st x) k n.
Proof.
  intros H Hx. unfold named_is, orphan. cbn [s_named]. rewrite nth_error_map, H. cbn [option_map].
  destruct (Nat.eqb_spec (owner n) x); congruence.
Qed.

Lemma step_keeps_name {T} (dflt : T) eqT ltT st c o st' k n : step dflt eqT ltT st c o st' -> named_is st k n ->
  ~ ends (owner n) c -> ~ regeometrizes k c -> named_is st' k n.
Proof.
  intros HS Hn HE HG. assert (Hk : (k < length (s_named st))%nat) by (apply nth_error_Some; unfold named_is in Hn; congruence).
  inversion HS; subst; try exact Hn; cbn [ends regeometrizes] in *;
  try (match goal with H : copied _ _ _ _ |- _ => destruct H as [_ H]; apply copies_named in H; unfold named_is; rewrite H; exact Hn end);
  try (match goal with H : mapped _ _ _ _ _ |- _ => apply mapped_named in H; unfold named_is; rewrite H; exact Hn end);
  try (match goal with H : put _ _ _ _ _ |- _ => apply put_named in H; unfold named_is; rewrite H; exact Hn end);
  try (unfold named_is, add_named; cbn [s_named]; rewrite nth_error_app1 by auto; exact Hn);
  try (apply orphan_keeps; [exact Hn|auto]);
  try (unfold named_is, set_named; cbn [s_named]; rewrite nth_error_set_nth_ne by auto; exact Hn).
Qed.

Lemma resize_frees {T} (dflt : T) chk st en (h h' : heap T) f' x a a' m g rs r : related st en h -> array_is st x a ->
  nth_error (e_vars en) x = Some (Some m) -> resized dflt a rs a' ->
  eg_num g = length (ranges_shape rs) -> ranges_are (eg_ranges g) (ranges_bases rs) (ranges_shape rs) ->
  ma_resize dflt chk m g (World h None) = Done r (World h' f') -> nth_error h' (ma_block m) = Some None.
Proof.
  intros HR Ha Em (L & E1 & E2 & E3 & E4 & HW & HC) Hn Hg.
  destruct (relA_var _ _ _ _ _ (proj1 HR) Ha) as (m0 & Em0 & Hr). rewrite Em in Em0. injection Em0 as <-.
  pose proof Hr as (Ho & X1 & X2 & X3 & X4).
  pose proof HW as (HWo & HWl & HWn). rewrite E1, E2, E3 in HWl. rewrite <- X3 in HWl.
  assert (LS : length (ranges_shape rs) = length rs) by apply map_length.
  destruct (resize_outcomes dflt chk m _ g (ranges_bases rs) (ranges_shape rs) h None Ho) as
    [(k & h2 & E & _)|(c0 & vs' & f2 & E & _)]; auto; [congruence|discriminate|].
  rewrite E. intros [= _ <- _]. pose proof (owns_lt _ _ _ Ho).
  rewrite nth_error_app1 by (rewrite length_set_nth; auto). apply nth_error_set_nth_eq. auto.
Qed.

Lemma ends_frees {T} (dflt : T) eqT ltT chk st en (h h1 : heap T) f1 c o st1 en1 o1 x m :
  related st en h -> step dflt eqT ltT st c o st1 -> ends x c -> nth_error (e_vars en) x = Some (Some m) ->
  exec dflt eqT ltT chk en c (World h None) = Done (en1, o1) (World h1 f1) -> nth_error h1 (ma_block m) = Some None.
Proof.
  intros HR HS HE Em. inversion HS; subst; cbn [ends] in HE; try tauto; subst x0; cbn [exec]; unfold lift; rewrite (var_eval _ _ _ Em).
  - unfold bind at 1. destruct (relA_var _ _ _ _ _ (proj1 HR) H) as (m0 & Em0 & Hr). rewrite Em in Em0. injection Em0 as <-.
    unfold bind. rewrite (owns_destroy _ _ _ _ (proj1 Hr)). intros [= _ _ <- _].
    apply nth_error_set_nth_eq. eapply owns_lt; apply Hr.
  - destruct (extents_of_ok rs) as (g & Eg & Hn & Hg).
    { destruct H0 as (L & X1 & _ & _ & _ & HW & _). intros ->. destruct HW as (_ & HWl & _). apply layout_ne in HWl. apply HWl. rewrite X1. reflexivity. }
    rewrite Eg. unfold bind. destruct (ma_resize dflt chk m g (World h None)) as [r [h' f']|?|?| |] eqn:E; try discriminate.
    intros [= _ _ <- <-]. eapply resize_frees; eauto.
  - destruct (relA_var _ _ _ _ _ (proj1 HR) H) as (m0 & Em0 & Hr). rewrite Em in Em0. injection Em0 as <-.
    pose proof H0 as (L & E1 & E2 & E3 & E4 & (HWo & HWl & _) & _). rewrite zero_shape in E1. rewrite E1 in HWl.
    assert (HF : Forall (fun e => 0 <= e <= max_index) shape) by (eapply rep_ext_bound; apply HWl).
    assert (Ln : length shape = length (cr_ext (ma_ref m))).
    { pose proof Hr as (_ & -> & _). unfold from_zero in L. rewrite map_length in L. auto. }
    set (g := EGen (length (cr_ext (ma_ref m))) (map (fun e => ERange 0 e) shape)).
    assert (EQ : ma_resize_list dflt chk m shape (World h None) = ma_resize dflt chk m g (World h None)).
    { unfold ma_resize_list. rewrite <- Ln at 1. rewrite copy_n_all. unfold lift, bind at 1. f_equal. unfold g. f_equal.
      apply map_ext_in. intros e He. rewrite Forall_forall in HF. specialize (HF e He). rewrite to_index_small by (unconst; lia). auto. }
    unfold bind. rewrite EQ. destruct (ma_resize dflt chk m g (World h None)) as [r [h' f']|?|?| |] eqn:E; try discriminate.
    intros [= _ _ <- <-]. apply (resize_frees dflt chk st en h h' f' x a a' m g (from_zero shape) r); auto.
    + rewrite zero_shape. unfold g. cbn [eg_num]. auto.
    + rewrite zero_shape, zero_bases. unfold g, ranges_are. cbn [eg_ranges]. clear. induction shape as [|e shape IH]; simpl; constructor; auto.
Qed.

Lemma run_app {T} (dflt : T) eqT ltT chk : forall p q en w en1 os w1,
  run dflt eqT ltT chk en p w = Done (en1, os) w1 ->
  run dflt eqT ltT chk en (p ++ q) w =
    match run dflt eqT ltT chk en1 q w1 with
    | Done (en2, os2) w2 => Done (en2, os ++ os2) w2
    | r => r
    end.
Proof.
  induction p as [|c p IH]; intros q en w en1 os w1 E.
  - cbn in E. injection E as <- <- <-. cbn [app]. destruct (run dflt eqT ltT chk en q w) as [[? ?] ?|?|?| |]; reflexivity.
  - cbn [run app] in *. unfold bind, ret in *. destruct (exec dflt eqT ltT chk en c w) as [[e1 o1] w2|?|?| |]; try discriminate.
    cbn [fst snd] in *. destruct (run dflt eqT ltT chk e1 p w2) as [[e2 os2] w3|?|?| |] eqn:E2; try discriminate.
    cbn [fst snd] in E. injection E as <- <- <-. rewrite (IH q e1 w2 e2 os2 w3 E2).
    destruct (run dflt eqT ltT chk e2 q w3) as [[? ?] ?|?|?| |]; reflexivity.
Qed.

Lemma run_handle {T} (dflt : T) eqT ltT chk k d : forall q en w en' os w',
  Forall (fun c => ~ regeometrizes k c) q -> nth_error (e_handles en) k = Some d ->
  run dflt eqT ltT chk en q w = Done (en', os) w' -> nth_error (e_handles en') k = Some d.
Proof.
  induction q as [|c q IH]; intros en w en' os w' HF Hk E.
  - cbn in E. injection E as <- _ _. auto.
  - inversion HF; subst. cbn [run] in E. unfold bind, ret in E.
    assert (HC : match c with ReindexNamed j _ | ReindexNamedAll j _ | ReshapeRef j _ => j <> k | _ => True end).
    { destruct c; cbn [regeometrizes] in H1; auto. }
    pose proof (handles_kept dflt eqT ltT chk en c k d Hk HC w) as HY.
    destruct (exec dflt eqT ltT chk en c w) as [[e1 o1] w2|?|?| |]; try discriminate. cbn [fst snd] in *.
    destruct (run dflt eqT ltT chk e1 q w2) as [[e2 os2] w3|?|?| |] eqn:E2; try discriminate.
    injection E as <- <- <-. eapply IH; eauto.
Qed.

Lemma dead_name_kept {T} (dflt : T) eqT ltT st c o st' k : step dflt eqT ltT st c o st' -> nth_error (s_named st) k = Some None ->
  nth_error (s_named st') k = Some None /\ ~ regeometrizes k c.
Proof.
  intros HS Hn. assert (Hk : (k < length (s_named st))%nat) by (apply nth_error_Some; congruence).
  assert (OR : forall st0 : @state T, s_named st0 = s_named st -> forall x, nth_error (s_named (orphan st0 x)) k = Some None).
  { intros st0 E x. unfold orphan. cbn [s_named]. rewrite nth_error_map, E, Hn. reflexivity. }
  inversion HS; subst; cbn [regeometrizes];
  try (split; [exact Hn|tauto]);
  try (match goal with H : copied _ _ _ _ |- _ => destruct H as [_ H]; apply copies_named in H; rewrite H; split; [exact Hn|tauto] end);
  try (match goal with H : mapped _ _ _ _ _ |- _ => apply mapped_named in H; rewrite H; split; [exact Hn|tauto] end);
  try (match goal with H : put _ _ _ _ _ |- _ => apply put_named in H; rewrite H; split; [exact Hn|tauto] end);
  try (unfold add_named; cbn [s_named]; rewrite nth_error_app1 by auto; split; [exact Hn|tauto]);
  try (split; [apply OR; reflexivity|tauto]);
  try (match goal with H : named_is _ ?j _ |- _ => assert (j <> k) by (intros ->; unfold named_is in H; congruence) end;
       unfold set_named; cbn [s_named]; rewrite nth_error_set_nth_ne by auto; split; [exact Hn|auto]).
Qed.

Lemma dead_name_steps {T} (dflt : T) eqT ltT k : forall q st os st', steps dflt eqT ltT st q os st' -> nth_error (s_named st) k = Some None ->
  Forall (fun c => ~ regeometrizes k c) q.
Proof.
  induction q as [|c q IH]; intros st os st' HS Hn; [constructor|]. inversion HS as [|? ? ? ? ? ? HS1 HS2]; subst.
  destruct (dead_name_kept _ _ _ _ _ _ _ k HS1 Hn) as [H3 H4]. constructor; eauto.
Qed.

(** As long as their array is neither resized nor destroyed, a named view or a
    multi_array_ref goes on denoting the same elements, whatever else happens:
    arrays and other views created, filled, assigned, reindexed, reshaped, and
    other arrays resized or destroyed *)
Theorem c42_names_stay_valid : forall (T : Type) (dflt : T) eqT ltT chk p os st k n q os' st',
  steps dflt eqT ltT empty_state p os st -> named_is st k n -> steps dflt eqT ltT st q os' st' ->
  (forall c, In c q -> ~ ends (owner n) c /\ ~ regeometrizes k c) ->
  exists en h en' h' d,
    run dflt eqT ltT chk (Env [] []) p (World [] None) = Done (en, os) (World h None) /\
    run dflt eqT ltT chk en q (World h None) = Done (en', os') (World h' None) /\
    nth_error (e_handles en) k = Some d /\ nth_error (e_handles en') k = Some d /\
    let a := obj_nd (handle_obj d) in
    nd_base a = pl_bases (place_of n) /\ nd_ext a = pl_shape (place_of n) /\
    forall i, in_bounds (nd_base a) (nd_ext a) i ->
      exists v, look st' (place_of n) i v /\ reads h' a i v.
Proof.
  intros T dflt eqT ltT chk p os st k n q os' st' H1 Hn H2 HQ.
  destruct (run_sound dflt eqT ltT chk p empty_state os st (Env [] []) [] related_nil H1) as (en & h & E & HR & _).
  destruct (run_sound dflt eqT ltT chk q st os' st' en h HR H2) as (en' & h' & E' & HR' & _).
  assert (Hn' : named_is st' k n).
  { clear - H2 Hn HQ. induction H2 as [|st c o st1 q os st2 Hst Hsts IHs]; [auto|]. apply IHs; [|intros; apply HQ; right; auto].
    destruct (HQ c (or_introl eq_refl)). apply (step_keeps_name dflt eqT ltT st c o); auto. }
  pose proof HR as (_ & _ & HH). destruct (HH k n Hn) as (d & Ed & _).
  assert (Ed' : nth_error (e_handles en') k = Some d).
  { refine (run_handle dflt eqT ltT chk k d q en _ en' _ _ _ Ed E'). apply Forall_forall. intros c Hc. apply HQ; auto. }
  exists en, h, en', h', d. split; [auto|]. split; [auto|]. split; [auto|]. split; [auto|]. cbv zeta.
  destruct HR' as [HA' HH']. destruct (proj2 HH' k n Hn') as (d' & Ed2 & Hd). rewrite Ed' in Ed2. injection Ed2 as <-.
  apply (@named_stands T dflt eqT ltT) in Hd.
  destruct (stands_owner _ _ _ _ _ (conj HA' HH') Hd) as (? & ? & ? & _ & _ & _ & _ & _ & _ & _ & Eb & Ee & _).
  split; [auto|]. split; [auto|]. intros i Hi. rewrite Eb, Ee in Hi.
  destruct (get_look _ _ _ _ _ _ (conj HA' HH') Hd Hi) as (v & HL & _). exists v. split; [auto|].
  apply (look_get st' en' h' _ _ i v true None (conj HA' HH') Hd). auto.
Qed.

(** Once its array has been resized or destroyed, every later use of an element
    through the name is undefined behaviour, however much later it comes *)
Theorem c42_ended_names_dangle : forall (T : Type) (dflt : T) eqT ltT chk p os st k n c o st1 q os' st' i,
  steps dflt eqT ltT empty_state p os st -> named_is st k n ->
  step dflt eqT ltT st c o st1 -> ends (owner n) c -> steps dflt eqT ltT st1 q os' st' ->
  in_bounds (pl_bases (place_of n)) (pl_shape (place_of n)) i ->
  run dflt eqT ltT chk (Env [] []) (p ++ c :: q ++ [Get (Named k) i]) (World [] None) = Undef.
Proof.
  intros T dflt eqT ltT chk p os st k n c o st1 q os' st' i H1 Hn HS HE H2 Hi.
  destruct (run_sound dflt eqT ltT chk p empty_state os st (Env [] []) [] related_nil H1) as (en & h & E & HR & _).
  rewrite (run_app _ _ _ _ _ _ _ _ _ _ _ E). cbn [run]. unfold bind at 1.
  pose proof (exec_sound dflt eqT ltT st en h c o st1 chk None HR HS) as HF.
  destruct (exec dflt eqT ltT chk en c (World h None)) as [[en1 o1] [h1 f1]|w|w| |] eqn:EC; cbn [follows w_heap w_fuse] in HF; try tauto; try (exfalso; destruct HF as (_ & ? & ? & ? & _); discriminate).
  destruct HF as (-> & HR1 & Hf & _). specialize (Hf eq_refl). subst f1. cbn [fst snd].
  pose proof HR as (_ & _ & HH). destruct (HH k n Hn) as (d & Ed & Hd). apply (@named_stands T dflt eqT ltT) in Hd.
  destruct (stands_owner _ _ _ _ _ HR Hd) as (cc & m & a & Em & _ & _ & Hcc & Hdd & _ & Hnd & Eb & Ee & Ei).
  pose proof (ends_frees dflt eqT ltT chk _ _ _ _ _ _ _ _ _ _ _ _ HR HS HE Em EC) as HD.
  assert (Ed1 : nth_error (e_handles en1) k = Some d).
  { pose proof (handles_kept dflt eqT ltT chk en c k d Ed) as HK. specialize (HK ltac:(destruct c; cbn [ends] in HE; tauto) (World h None)).
    rewrite EC in HK. exact HK. }
  assert (Hn1 : nth_error (s_named st1) k = Some None).
  { unfold named_is in Hn. unfold owner in HE. inversion HS; subst; cbn [ends] in HE; try tauto; unfold orphan; cbn [s_named remove_array set_array];
      rewrite nth_error_map, Hn; cbn [option_map]; unfold owner; rewrite HE, Nat.eqb_refl; reflexivity. }
  destruct (run_sound dflt eqT ltT chk q st1 os' st' en1 h1 HR1 H2) as (en2 & h2 & E2 & HR2 & _).
  assert (Ed2 : nth_error (e_handles en2) k = Some d) by (refine (run_handle dflt eqT ltT chk k d q en1 _ en2 _ _ _ Ed1 E2); eapply dead_name_steps; eauto).
  assert (HD2 : nth_error h2 (ma_block m) = Some None).
  { pose proof (r_run dflt eqT ltT chk q en1 (World h1 None)) as HW. rewrite E2 in HW. apply HW. auto. }
  assert (EG : exec dflt eqT ltT chk en2 (Get (Named k) i) (World h2 None) = Undef).
  { cbn [exec]. unfold eval_nd. cbn [eval]. unfold named. rewrite Ed2. unfold lift at 1. cbn [obind]. unfold bind at 1.
    unfold get_element. rewrite <- Eb, <- Ee in Hi. unfold bind. rewrite access_element_ok by auto.
    unfold lift at 1, load. rewrite Eb, Ee in Hi. destruct (Ei i Hi) as [EA _].
    fold (addr (obj_nd (handle_obj d)) i). rewrite EA. unfold hread, hcell, hblock. cbn [p_blk w_heap]. rewrite HD2. reflexivity. }
  unfold bind at 1. rewrite (run_app _ _ _ _ _ _ _ _ _ _ _ E2). cbn [run]. unfold bind at 1. rewrite EG. reflexivity.
Qed.

(** * a program the theorems apply to: fill a 2x3 array, overwrite its first row
      with its second row reversed (through a view), read an element, compare,
      and destroy the array; and the same with an exception in the row copy *)

Definition ex_prog : list (@command Z) :=
  [ NewList [2; 3] (so_from_c 2) 7;
    Fill 0 [1; 2; 3; 4; 5; 6];
    Assign (Sub (Var 0) 0) (View_of (Var 0) [At 1; Slice (Some 2) (Some (-1)) (-1)]);
    Get (Sub (Var 0) 0) [0];
    Destroy 0 ].

Definition ex_st (l : list Z) : @state Z := St [Some (Arr [2; 3] [0; 0] (so_from_c 2) 7%nat l)] [].
Definition ex_whole : place := arranged 0 [0; 0] [2; 3] (so_from_c 2).
Definition ex_dst : place := Place 0 [0] [3] [1] (fun t => pl_cell ex_whole (0 :: t)).
Definition ex_src : place := Place 0 [0] [3] [-1]
  (fun t => pl_cell ex_whole (1 :: match t with k :: t' => (2 + k * -1) :: t' | [] => [] end)).

Lemma ex_denotes_whole l : denotes (ex_st l) (Var 0) ex_whole.
Proof. apply (dn_var (ex_st l) 0 (Arr [2; 3] [0; 0] (so_from_c 2) 7%nat l)). reflexivity. Qed.

Lemma ex_denotes_dst l : denotes (ex_st l) (Sub (Var 0) 0) ex_dst.
Proof.
  refine (dn_sub (ex_st l) (Var 0) 0 0%nat 0 [0] 2 [3] 3 [1] (pl_cell ex_whole) _ _ _); [|congruence|lia].
  apply ex_denotes_whole.
Qed.

Lemma ex_slices : slices [0; 0] [2; 3] [3; 1] [At 1; Slice (Some 2) (Some (-1)) (-1)] [3] [-1]
  (fun t => 1 :: match t with k :: t' => (2 + k * -1) :: t' | [] => [] end).
Proof.
  apply sl_at; [lia|unconst; lia|].
  apply (sl_slice 0 [] 3 [] 1 [] (Some 2) (Some (-1)) (-1) [] 3 [] [] (fun t => t)); try (unconst; lia).
  - unfold index_value. unconst. lia.
  - unfold selected. intros k. change (0 <? -1) with false. cbv iota. lia.
  - constructor.
Qed.

Lemma ex_denotes_src l : denotes (ex_st l) (View_of (Var 0) [At 1; Slice (Some 2) (Some (-1)) (-1)]) ex_src.
Proof.
  refine (dn_view (ex_st l) (Var 0) _ 0%nat [0; 0] [2; 3] [3; 1] (pl_cell ex_whole) [3] [-1] _ _ _ _); [..|congruence].
  - apply ex_denotes_whole.
  - apply ex_slices.
Qed.

Lemma ex_well_formed : well_formed (blank 0 [2; 3] (repeat 0 2) (so_from_c 2) 7).
Proof.
  apply blank_ok; [apply (proj1 (c02_named_orders_valid 2))|].
  change (so_from_c 2) with (SO [1%nat; 0%nat] [true; true]). layout_tac.
Qed.

Ltac look_one := split; [simpl; lia|]; eexists; split; reflexivity.
Ltac copy_one := eapply cp_cons; [ look_one | look_one | ].

Example ex_c23 : steps 0 Z.eqb Z.ltb empty_state ex_prog [ONone; ONone; ONone; OVal 6; ONone] (St [None] []).
Proof.
  unfold ex_prog.
  eapply ss_cons; [apply s_list; apply ex_well_formed|].
  change (add_array _ _) with (ex_st [0; 0; 0; 0; 0; 0]).
  eapply ss_cons; [eapply s_fill; reflexivity|].
  change (set_array _ _ _) with (ex_st [1; 2; 3; 4; 5; 6]).
  eapply ss_cons with (st1 := ex_st [6; 5; 4; 4; 5; 6]).
  { eapply s_assign; [apply ex_denotes_dst|apply ex_denotes_src|]. split; [reflexivity|].
    change (all_positions (pl_shape ex_dst)) with [[0]; [1]; [2]].
    copy_one. copy_one. copy_one. constructor. }
  eapply ss_cons; [eapply s_get; [apply ex_denotes_dst|]|].
  { look_one. }
  eapply ss_cons; [eapply s_destroy; reflexivity|]. apply ss_nil.
Qed.

(** the same computed by the model of the library *)
Example ex_c23_run : exists h, run 0 Z.eqb Z.ltb true (Env [] []) ex_prog (World [] None) =
  Done (Env [None] [], [ONone; ONone; ONone; OVal 6; ONone]) (World h None) /\ h = [None].
Proof. eexists. split; vm_compute; reflexivity. Qed.

Example ex_c22 : steps 0 Z.eqb Z.ltb empty_state ex_prog [ONone; ONone; ONone; OVal 6; ONone] (St [None] []) /\
  forall x (a : @arr Z), ~ array_is (St [None] []) x a.
Proof. split; [exact ex_c23|]. intros [|[|x]] a; discriminate. Qed.

(** a contract-keeping program in which the third element assignment of the row
    copy throws, and a constructor whose second element construction throws *)
Definition ex_throwing : list (@command Z * option nat) :=
  [ (NewList [2; 3] (so_from_c 2) 7, None);
    (Fill 0 [1; 2; 3; 4; 5; 6], None);
    (Assign (Sub (Var 0) 0) (View_of (Var 0) [At 1; Slice (Some 2) (Some (-1)) (-1)]), Some 2%nat);
    (NewList [2; 3] (so_from_c 2) 7, Some 2%nat) ].

Example ex_c41_legal : always_legal 0 Z.eqb Z.ltb empty_state ex_throwing.
Proof.
  unfold ex_throwing. cbn [always_legal].
  split; [split; apply ex_well_formed|]. split; [|congruence]. intros o st1 H1. inversion H1; subst. clear H1.
  change (add_array _ _) with (ex_st [0; 0; 0; 0; 0; 0]).
  split; [eexists; reflexivity|]. split; [|congruence]. intros o st1 H2. inversion H2; subst.
  match goal with H : array_is _ _ a |- _ => unfold array_is in H; cbn in H; injection H as <- end.
  change (set_array _ _ _) with (ex_st [1; 2; 3; 4; 5; 6]). clear.
  split; [exists ex_dst, ex_src; split; [apply ex_denotes_dst|split; [apply ex_denotes_src|reflexivity]]|].
  assert (L : forall st, legal st (@NewList Z [2; 3] (so_from_c 2) 7)) by (intros; split; apply ex_well_formed).
  split; intros; (split; [apply L|split; [auto|auto]]).
Qed.

Example ex_c41_run : exists en h, run_catching 0 Z.eqb Z.ltb true (Env [] []) ex_throwing [] =
  Done (en, [Some ONone; Some ONone; None; None]) (World h None) /\
  nth_error h 0 = Some (Some (Block 7 (map Some [6; 5; 3; 4; 5; 6]))) /\
  leaked en h 1 /\ blocks_lost ex_throwing [Some ONone; Some ONone; None; None] = 1%nat.
Proof.
  do 2 eexists. split; [vm_compute; reflexivity|]. split; [reflexivity|]. split; [split; [eexists; reflexivity|]|reflexivity].
  intros [|[|x]] m H; cbn in H; try discriminate. injection H as <-. cbn. discriminate.
Qed.

(** C42: a view of the second row reversed is given a name; the array is filled,
    the view is read, the array reindexed, and the view read again; after a resize
    reading it would be undefined behaviour *)
Definition ex_names_p : list (@command Z) :=
  [ NewList [2; 3] (so_from_c 2) 7; NewView (Var 0) [At 1; Slice (Some 2) (Some (-1)) (-1)] ].
Definition ex_names_q : list (@command Z) :=
  [ Fill 0 [1; 2; 3; 4; 5; 6]; Get (Named 0) [0]; Reindex 0 [5; 5]; Get (Named 0) [2] ].
Definition ex_nst (bases l : list Z) : @state Z :=
  St [Some (Arr [2; 3] bases (so_from_c 2) 7%nat l)] [Some (AView ex_src)].

Lemma ex_reindexed_ok (l : list Z) : length l = 6%nat -> well_formed (Arr [2; 3] [5; 5] (so_from_c 2) 7%nat l).
Proof.
  intros L. split; [apply (proj1 (c02_named_orders_valid 2))|]. split.
  - cbn [a_order a_bases a_shape]. change (so_from_c 2) with (SO [1%nat; 0%nat] [true; true]). layout_tac.
  - cbn [a_elems]. rewrite L. reflexivity.
Qed.

Example ex_c42 : steps 0 Z.eqb Z.ltb empty_state ex_names_p [ONone; ONone] (ex_nst [0; 0] [0; 0; 0; 0; 0; 0]) /\
  named_is (ex_nst [0; 0] [0; 0; 0; 0; 0; 0]) 0 (AView ex_src) /\
  steps 0 Z.eqb Z.ltb (ex_nst [0; 0] [0; 0; 0; 0; 0; 0]) ex_names_q [ONone; OVal 6; ONone; OVal 4] (ex_nst [5; 5] [1; 2; 3; 4; 5; 6]) /\
  (forall c, In c ex_names_q -> ~ ends (owner (AView ex_src)) c /\ ~ regeometrizes 0 c) /\
  in_bounds (pl_bases ex_src) (pl_shape ex_src) [1].
Proof.
  split; [|split; [reflexivity|split; [|split]]].
  - unfold ex_names_p. eapply ss_cons; [apply s_list; apply ex_well_formed|].
    change (add_array _ _) with (ex_st [0; 0; 0; 0; 0; 0]).
    eapply ss_cons; [apply (s_view _ _ _ _ _ _ _ (ex_denotes_src _))|]. apply ss_nil.
  - unfold ex_names_q. eapply ss_cons; [eapply s_fill; reflexivity|].
    change (set_array _ _ _) with (ex_nst [0; 0] [1; 2; 3; 4; 5; 6]).
    eapply ss_cons; [eapply s_get; [apply (dn_named _ 0 (AView ex_src)); reflexivity|look_one]|].
    eapply ss_cons; [eapply s_reindex; [reflexivity|reflexivity|apply ex_reindexed_ok; reflexivity]|].
    change (set_array _ _ _) with (ex_nst [5; 5] [1; 2; 3; 4; 5; 6]).
    eapply ss_cons; [eapply s_get; [apply (dn_named _ 0 (AView ex_src)); reflexivity|look_one]|].
    apply ss_nil.
  - intros c Hc. simpl in Hc. destruct Hc as [<-|[<-|[<-|[<-|[]]]]]; cbn; tauto.
  - simpl. lia.
Qed.

(** the same computed by the model, with a ref, queries and comparisons; the
    ref sees the elements in Fortran order as a 3x2 array *)
Example ex_c42_run :
  (exists en h, run 0 Z.eqb Z.ltb true (Env [] []) (ex_names_p ++ ex_names_q ++
     [ NewRefList 0 0 [3; 2] (so_from_fortran 2); GetB (Named 1) [1; 1]; SetB (Named 1) [1; 1] 9; GetB (Var 0) [6; 6];
       Get (Named 0) [1]; Ask QShape (Named 1); Ask QStrides (Named 0); Compare CLt (Sub (Var 0) 5) (Named 0);
       Resize 0 [(0, 4); (0, 4)]; Get (Var 0) [1; 1] ]) (World [] None) =
   Done (en, [ONone; ONone; ONone; OVal 6; ONone; OVal 4; ONone; OVal 5; ONone; OVal 9;
              OVal 9; OInts [3; 2]; OInts [-1]; OBool true; ONone; OVal 9]) (World h None)) /\
  run 0 Z.eqb Z.ltb true (Env [] []) (ex_names_p ++ ex_names_q ++ [Resize 0 [(0, 4); (0, 4)]; Get (Named 0) [1]]) (World [] None) = Undef.
Proof. split; [do 2 eexists; vm_compute; reflexivity|vm_compute; reflexivity]. Qed.
