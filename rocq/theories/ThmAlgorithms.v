(** ThmAlgorithms.v -- C46: generic algorithms see an array as a sequence of rows *)

From Coq Require Import ZArith List Bool Lia Permutation Sorted.
From Verif Require Import Base StorageOrder Ranges Layout Access Objects Memory Ops MultiArray Algorithms
  Spec ViewSpec ReachSpec IterSpec MemSpec CompareSpec OwnSpec SeqSpec
  Facts LayoutProofs AccessProofs ViewProofs MemoryProofs CopyProofs ReachProofs
  ThmAddressing ThmViews ThmGeometry ThmIter ThmCopy ThmBulk CompareProofs ThmCompare OwnProofs ResizeProofs ThmMultiArray
  AlgProofs AlgPrograms.
Import ListNotations.
Local Open Scope Z_scope.

Section Link.
Context {T : Type}.
Variable dflt : T.
Variable eqT : T -> T -> bool.
Variable ltT : T -> T -> bool.

Lemma Forall2_combine_nth {A B} (R : A -> B -> Prop) l m : length l = length m ->
  (forall i x y, nth_error l i = Some x -> nth_error m i = Some y -> R x y) -> Forall2 R l m.
Proof.
  revert m. induction l as [|x l IH]; intros [|y m] L H; simpl in L; try lia; constructor.
  - apply (H O); auto.
  - apply IH; [lia|]. intros i u v Hu Hv. apply (H (S i)); auto.
Qed.
Lemma Forall2_nth2 {A B} (R : A -> B -> Prop) l m i x y : Forall2 R l m -> nth_error l i = Some x -> nth_error m i = Some y -> R x y.
Proof. intros H Hx Hy. destruct (Forall2_nth _ _ _ H _ _ Hx) as (y' & E & HR). congruence. Qed.

(** one row of a sequence *)
Lemma row_vals (h : heap T) a b bs e es p row : nd_ok a -> nd_base a = b :: bs -> nd_ext a = e :: es -> 0 <= p < e ->
  (Forall2 (fun k v => reads h a ((b + p) :: tadd bs k) v) (positions es) row <-> vals h (row_addrs a (b + p)) row).
Proof.
  intros Ha Eb Ee Hp. destruct (nd_ok_shape a Ha) as (b1 & bs1 & e1 & es1 & s & ss & E1 & E2 & Es & LL1 & LL2 & _).
  rewrite Eb in E1. rewrite Ee in E2. injection E1 as <- <-. injection E2 as <- <-.
  unfold vals, row_addrs. rewrite Eb, Ee. cbn [tl]. rewrite tuples_shift by auto. rewrite !map_map.
  assert (G : forall ks, (forall k, In k ks -> In k (positions es)) -> forall r,
     Forall2 (fun k v => reads h a ((b + p) :: tadd bs k) v) ks r <->
     map (fun x => hcell h (addr a (b + p :: tadd bs x))) ks = map (fun v => Some (Some v)) r).
  { induction ks as [|k ks IH]; intros Hin r.
    - destruct r; simpl; split; intros H; try inversion H; auto.
    - assert (RI : forall v, reads h a ((b + p) :: tadd bs k) v <-> hcell h (addr a (b + p :: tadd bs k)) = Some (Some v)).
      { intros v. apply reads_iff; auto. rewrite Eb, Ee. cbn [in_bounds]. split; [lia|]. apply tadd_in_bounds; auto.
        apply in_positions. apply Hin. left; auto. }
      destruct r as [|v r]; simpl; split; intros H; try (inversion H; fail).
      + inversion H as [|x y z w H1 H2]; subst. f_equal; [apply RI; auto|]. apply IH; auto. intros; apply Hin; right; auto.
      + injection H as H1 H2. constructor; [apply RI; auto|]. apply IH; auto. intros; apply Hin; right; auto. }
  apply G. auto.
Qed.

Lemma models_start (h : heap T) l qs : usable_arrays l -> Forall2 (is_sequence h) l qs -> models h l [] (Seqs qs []).
Proof.
  intros (D & RF & SP) FS. rewrite Forall_forall in D, RF. constructor.
  - constructor.
    + intros j a Ha. apply nth_error_In in Ha. destruct (D a Ha) as (c & Hc & Hd). split; [eapply derived_ok; eauto|].
      split; [eapply nodup_addrs; eauto|auto].
    + exact SP.
    + intros [|t] m H; discriminate.
    + intros [|t] m j a q H; discriminate.
    + constructor.
  - intros j. cbn [ss_arrays]. destruct (nth_error l j) as [a|] eqn:Ej.
    + destruct (Forall2_nth _ _ _ FS _ _ Ej) as (q & Eq & (b & size & E1 & E2 & E3 & _)). rewrite Eq. exists b. rewrite E3. auto.
    + rewrite (proj2 (nth_error_None qs j)); auto. rewrite <- (Forall2_length _ _ _ FS). apply nth_error_None; auto.
  - intros [|t]; exact I.
  - intros [j p|[|t]] ps Hs; try discriminate. destruct (row_slot _ _ _ _ _ Hs) as (a & b & bs & e & es & Ha & Eb & Ee & Hp & ->).
    destruct (Forall2_nth _ _ _ FS _ _ Ha) as (q & Eq & (b' & size & E1 & E2 & E3 & R)).
    rewrite Eb in E1. rewrite Ee in E2. injection E1 as <- Ebs. injection E2 as <- Ees.
    cbn [slot_get ss_arrays]. rewrite Eq. unfold q_len in E3.
    destruct (nth_error (q_rows q) (Z.to_nat p)) as [row|] eqn:Er; [|apply nth_error_None in Er; lia].
    exists (q_bases q), (q_shape q), row. split; auto.
    pose proof (nth_error_In _ _ Ha) as Hin. destruct (D a Hin) as (c & Hc & Hd). pose proof (derived_ok c a Hc Hd) as Hok.
    apply (row_vals h a b bs e es p row Hok Eb Ee Hp). specialize (R (Z.to_nat p) row Er).
    rewrite Z2Nat.id in R by lia. rewrite <- Ebs, <- Ees in R. exact R.
Qed.

Lemma models_end (h : heap T) l ts st : models h l ts st -> Forall2 (is_sequence h) l (ss_arrays st).
Proof.
  intros M. apply Forall2_combine_nth.
  - destruct (Nat.lt_trichotomy (length l) (length (ss_arrays st))) as [H|[H|H]]; auto; exfalso.
    + pose proof (m_arr _ _ _ _ M (length l)) as X. rewrite (proj2 (nth_error_None l _)) in X by lia.
      destruct (nth_error (ss_arrays st) (length l)) eqn:E; auto. apply nth_error_None in E. lia.
    + pose proof (m_arr _ _ _ _ M (length (ss_arrays st))) as X. rewrite (proj2 (nth_error_None (ss_arrays st) _)) in X by lia.
      destruct (nth_error l (length (ss_arrays st))) eqn:E; auto. apply nth_error_None in E. lia.
  - intros j a q Ha Hq. pose proof (m_arr _ _ _ _ M j) as X. rewrite Ha, Hq in X. destruct X as (b & Eb & Ee).
    exists b, (q_len q). split; auto. split; auto. split; auto. intros p row Hr.
    assert (Hp : (p < length (q_rows q))%nat) by (apply nth_error_Some; congruence).
    assert (Hs : slot_addrs l ts (SRow j (Z.of_nat p)) = Some (row_addrs a (b + Z.of_nat p))).
    { cbn [slot_addrs]. rewrite Ha, Eb, Ee. destruct ((0 <=? Z.of_nat p) && (Z.of_nat p <? q_len q)) eqn:Z; auto.
      apply andb_false_iff in Z. unfold q_len in Z. lia. }
    destruct (m_val _ _ _ _ M _ _ Hs) as (bs & sh & r & Hg & V). cbn [slot_get] in Hg. rewrite Hq, Nat2Z.id, Hr in Hg. injection Hg as <- <- <-.
    destruct (g_ok _ _ (m_geo _ _ _ _ M) j a Ha) as (Hok & _).
    apply (row_vals h a b (q_bases q) (q_len q) (q_shape q) (Z.of_nat p) row Hok Eb Ee); auto. unfold q_len. lia.
Qed.

Lemma range_cursors_ok (h : heap T) l : forall pre qs, (forall j a, nth_error (pre ++ l) j = Some a -> nd_ok a) ->
  Forall2 (is_sequence h) l qs ->
  exists cs, range_cursors l = Ok cs /\ Forall2 (cur_rel (pre ++ l)) (ranges_from (length pre) qs) cs.
Proof.
  induction l as [|a l IH]; intros pre qs Hok FS.
  - inversion FS; subst. exists []. split; auto. constructor.
  - inversion FS as [|x q y qs' Ha FS']; subst. destruct Ha as (b & size & Eb & Ee & Eq & _).
    assert (Hn : nth_error (pre ++ a :: l) (length pre) = Some a) by (rewrite nth_error_app2, Nat.sub_diag by auto; auto).
    pose proof (Hok _ _ Hn) as Hnd. destruct (nd_limits a b (q_bases q) size (q_shape q) Hnd Eb Ee) as (L1 & L2 & L3).
    destruct (IH (pre ++ [a]) qs') as (cs & E & F); auto.
    { intros j x. rewrite <- app_assoc. apply Hok. }
    exists (CFwd (it_at a b) :: CFwd (it_at a (b + size)) :: cs). split.
    + cbn [range_cursors]. rewrite (nd_begin_at a b _ Eb), (nd_end_at a b _ size _ Eb Ee) by (unconst; lia). cbn [obind]. rewrite E. reflexivity.
    + cbn [ranges_from]. constructor; [|constructor].
      * exists a, b, (q_bases q), size, (q_shape q). cbn [c_seq c_rev c_pos]. repeat (split; [solve [auto | lia]|]). rewrite Z.add_0_r. auto.
      * exists a, b, (q_bases q), size, (q_shape q). cbn [c_seq c_rev c_pos]. rewrite Eq. repeat (split; [solve [auto | lia]|]). auto.
      * rewrite <- app_assoc in F. rewrite app_length, Nat.add_1_r in F. exact F.
Qed.

End Link.

(** * C46 *)

(** Every algorithm, run on the iterators of any arrays, subarrays or views
    without common elements, does exactly what it does on plain sequences: the
    same result, the same final rows, the same behaviour when an operation throws
    (also at which one); nothing outside the arrays changes. *)
Theorem c46_algorithms_see_sequences : forall (T : Type) (dflt : T) eqT ltT (A : Type) (alg : algorithm T A) chk
    (h : heap T) f l qs,
  usable_arrays l -> Forall2 (is_sequence h) l qs ->
  match call_on_sequences eqT ltT alg qs f with
  | Some (Finished r _ st f') => exists h',
      call_algorithm dflt eqT ltT chk alg l (World h f) = Done r (World h' f') /\
      Forall2 (is_sequence h') l (ss_arrays st) /\ elsewhere_same l h h' /\ no_leak h h'
  | Some (Stopped qs' copying) => exists h',
      call_algorithm dflt eqT ltT chk alg l (World h f) = Thrown (World h' None) /\
      Forall2 (is_sequence h') l qs' /\ elsewhere_same l h h' /\ released copying h h'
  | None => True
  end.
Proof.
  intros T dflt eqT ltT A alg chk h f l qs U FS. pose proof (models_start h l qs U FS) as M.
  assert (OKS : forall j a, nth_error l j = Some a -> nd_ok a) by (intros j a Ha; apply (g_ok _ _ (m_geo _ _ _ _ M) j a Ha)).
  destruct (range_cursors_ok h l [] qs OKS FS) as (cs & Ec & FC). cbn [app length] in FC.
  unfold call_on_sequences. destruct (on_sequences eqT ltT alg (ranges_from 0 qs) (Seqs qs []) f) as [e|] eqn:E; [|exact I].
  pose proof (run_ok dflt eqT ltT chk l alg cs [] _ _ _ _ _ M FC E) as P.
  assert (EL : forall h', outside l [] h h' -> elsewhere_same l h h').
  { intros h' O p c Hc Hn. rewrite (o_cells _ _ _ _ O p).
    - exact Hc.
    - destruct (hcell_inv _ _ _ Hc) as (k & Hk & _). eapply hblock_lt; eauto.
    - intros j a Ha Hin. apply (Hn a); [eapply nth_error_In; eauto|]. apply in_addrs; eauto.
    - intros [|t] m H; discriminate. }
  unfold call_algorithm. rewrite (bind_done _ _ _ _ _ (lift_done _ _ _ Ec)).
  destruct e as [r env' st f'|qs' cp]; cbn [Post] in P.
  - destruct P as (h' & vars' & E1 & M' & _ & O & F). exists h'. split; [|split; [|split]].
    + rewrite (bind_done _ _ _ _ _ E1). reflexivity.
    + eapply models_end; eauto.
    + apply EL; auto.
    + exact F.
  - destruct P as (h' & E1 & (st' & M' & <- & O) & RL). exists h'. split; [|split; [|split]].
    + apply bind_thrown. exact E1.
    + eapply models_end; eauto.
    + apply EL; auto.
    + exact RL.
Qed.

(** every array, subarray and view is such a sequence, and only one *)
Theorem c46_every_array_is_a_sequence : forall (T : Type) (h : heap T) c a,
  array_object c -> derived c a -> live h c -> exists! q, is_sequence h a q.
Proof.
  intros T h c a Hc Hd Hl. pose proof (derived_ok c a Hc Hd) as Hok.
  destruct (dims_at a Hok) as (b & bs & e & es & Eb & Ee & He & _).
  pose proof Hok as (LL & _). rewrite Eb, Ee in LL. simpl in LL.
  assert (INIT : forall q, In q (addrs a) -> init h q).
  { intros q Hq. apply in_addrs in Hq; auto. apply element_of_addr in Hq; auto. destruct Hq as (i & Hi & ->).
    apply element_at_init, Hl. apply (derived_cell c a); auto. }
  assert (ROW : forall p, 0 <= p < e -> exists r, vals h (row_addrs a (b + p)) r).
  { intros p Hp. assert (IN : forall q, In q (row_addrs a (b + p)) -> init h q).
    { intros q Hq. apply INIT. rewrite (addrs_rows a b bs e es Eb Ee). apply in_flat_map. exists (b + p). split; auto. apply in_zseq_p; auto. }
    revert IN. generalize (row_addrs a (b + p)). induction l as [|q l IH]; intros IN; [exists []; reflexivity|].
    destruct IH as [r Hr]; [intros; apply IN; right; auto|]. destruct (IN q (or_introl eq_refl)) as [v Hv]. exists (v :: r).
    unfold vals in *. cbn [map]. rewrite Hr. f_equal. exact Hv. }
  assert (ROWS : exists rows, length rows = Z.to_nat e /\ forall p row, nth_error rows p = Some row -> vals h (row_addrs a (b + Z.of_nat p)) row).
  { assert (G : forall n, (n <= Z.to_nat e)%nat -> exists rows, length rows = n /\ forall p row, nth_error rows p = Some row -> vals h (row_addrs a (b + Z.of_nat p)) row).
    { induction n as [|n IH]; intros Hn; [exists []; split; auto; intros [|p] row H; discriminate|].
      destruct IH as (rows & L & R); [lia|]. destruct (ROW (Z.of_nat n)) as [r Hr]; [lia|]. exists (rows ++ [r]).
      split; [rewrite app_length; simpl; lia|]. intros p row H. apply nth_snoc in H. destruct H as [H|[-> ->]]; auto. rewrite L. auto. }
    apply G. auto. }
  destruct ROWS as (rows & LR & R). exists (Sequence bs es rows). split.
  - exists b, e. cbn [q_bases q_shape]. split; auto. split; auto. unfold q_len. cbn [q_rows]. split; [lia|].
    intros p row Hr. assert (p < length rows)%nat by (apply nth_error_Some; congruence).
    apply (row_vals h a b bs e es (Z.of_nat p) row Hok Eb Ee); [lia|]. auto.
  - intros [bs' es' rows'] (b' & size & E1 & E2 & E3 & R'). cbn [q_bases q_shape] in *. unfold q_len in E3. cbn [q_rows] in *.
    rewrite Eb in E1. rewrite Ee in E2. injection E1 as <- <-. injection E2 as <- <-. f_equal.
    apply nth_error_list_ext. intros p. destruct (nth_error rows p) as [r|] eqn:Er.
    + assert (p < length rows)%nat by (apply nth_error_Some; congruence).
      destruct (nth_error rows' p) as [r'|] eqn:Er'; [|apply nth_error_None in Er'; lia].
      f_equal. apply (vals_inj h (row_addrs a (b + Z.of_nat p))); auto.
      apply (row_vals h a b bs e es (Z.of_nat p) r' Hok Eb Ee); [lia|]. auto.
    + symmetry. apply nth_error_None. apply nth_error_None in Er. lia.
Qed.

(** so the storage order, the strides, the position in memory and the index base
    of the first dimension cannot be observed: arrays with the same rows give the same result and the same rows *)
Theorem c46_layout_is_invisible : forall (T : Type) (dflt : T) eqT ltT (A : Type) (alg : algorithm T A) chk chk2
    (h h2 : heap T) f l l2 qs,
  usable_arrays l -> usable_arrays l2 ->
  Forall2 (is_sequence h) l qs -> Forall2 (is_sequence h2) l2 qs ->
  call_on_sequences eqT ltT alg qs f <> None ->
  match call_algorithm dflt eqT ltT chk alg l (World h f), call_algorithm dflt eqT ltT chk2 alg l2 (World h2 f) with
  | Done r w, Done r2 w2 => r = r2 /\ w_fuse w = w_fuse w2 /\
      exists qs', Forall2 (is_sequence (w_heap w)) l qs' /\ Forall2 (is_sequence (w_heap w2)) l2 qs'
  | Thrown w, Thrown w2 =>
      exists qs', Forall2 (is_sequence (w_heap w)) l qs' /\ Forall2 (is_sequence (w_heap w2)) l2 qs'
  | _, _ => False
  end.
Proof.
  intros T dflt eqT ltT A alg chk chk2 h h2 f l l2 qs U U2 F F2 D.
  pose proof (c46_algorithms_see_sequences T dflt eqT ltT A alg chk h f l qs U F) as P.
  pose proof (c46_algorithms_see_sequences T dflt eqT ltT A alg chk2 h2 f l2 qs U2 F2) as P2.
  destruct (call_on_sequences eqT ltT alg qs f) as [[r env st f'|qs' cp]|]; [| |congruence].
  - destruct P as (h' & -> & S1 & _). destruct P2 as (h2' & -> & S2 & _). cbn [w_fuse w_heap]. eauto.
  - destruct P as (h' & -> & S1 & _). destruct P2 as (h2' & -> & S2 & _). cbn [w_heap]. eauto.
Qed.

(** * User programs *)

Lemma sequence_kind (T : Type) (h : heap T) a q : (exists c, array_object c /\ derived c a) -> is_sequence h a q ->
  row_kind (one_dim a) (q_bases q) (q_shape q) (q_rows q) /\
  Forall (fun r => length r = length (positions (q_shape q))) (q_rows q).
Proof.
  intros (c & Hc & Hd) (b & size & Eb & Ee & _ & R). pose proof (derived_ok c a Hc Hd) as (LL & _). rewrite Eb, Ee in LL. simpl in LL.
  assert (F : Forall (fun r => length r = length (positions (q_shape q))) (q_rows q)).
  { apply Forall_forall. intros r Hr. apply In_nth_error in Hr. destruct Hr as [p Hp]. specialize (R p r Hp).
    symmetry. apply (Forall2_length _ _ _ R). }
  split; auto. unfold one_dim. rewrite Ee. cbn [length]. destruct (q_shape q) as [|e es] eqn:E; cbn [length Nat.eqb row_kind].
  - destruct (q_bases q); [|simpl in LL; lia]. split; auto.
  - discriminate.
Qed.

(** reversing any array, subarray or view with std::reverse's loop reverses its
    rows *)
Theorem c46_reverse : forall (T : Type) (dflt : T) eqT ltT chk (h : heap T) a q,
  usable_arrays [a] -> is_sequence h a q ->
  exists h', call_algorithm dflt eqT ltT chk (reverse_range (one_dim a)) [a] (World h None) = Done tt (World h' None) /\
    is_sequence h' a (Sequence (q_bases q) (q_shape q) (rev (q_rows q))) /\ elsewhere_same [a] h h' /\ no_leak h h'.
Proof.
  intros T dflt eqT ltT chk h a [bs sh rows] U Q. pose proof U as (D & _). inversion D as [|x y Hd _]; subst.
  destruct (sequence_kind T h a _ Hd Q) as (K & _). cbn [q_bases q_shape q_rows] in *.
  pose proof (c46_algorithms_see_sequences T dflt eqT ltT unit (reverse_range (one_dim a)) chk h None [a] [Sequence bs sh rows] U
    (Forall2_cons _ _ Q (Forall2_nil _))) as P.
  assert (E : exists env', call_on_sequences eqT ltT (reverse_range (one_dim a)) [Sequence bs sh rows] None =
    Some (Finished tt env' (one_state bs sh (rev rows)) None)).
  { destruct (reverse_run eqT ltT (one_dim a) bs sh (length rows) [] rows []) as [env' E]; auto.
    { cbn [app]. rewrite app_nil_r. auto. }
    exists env'. cbn [app length Nat.add] in E. rewrite !app_nil_r in E. rewrite <- E. unfold call_on_sequences, reverse_range. cbn [on_sequences ranges_from nth_error].
    cbn [cur_distance c_seq c_rev c_pos Nat.eqb Bool.eqb andb]. unfold q_len. cbn [q_rows]. rewrite Z.sub_0_r, Nat2Z.id. reflexivity. }
  destruct E as [env' E]. rewrite E in P. destruct P as (h' & E1 & F & EL & NL). cbn [one_state ss_arrays] in F.
  inversion F as [|x y u v FQ _]; subst. eauto.
Qed.

(** sorting any array, subarray or view by insertion sort: the same rows, sorted
    by operator< *)
Theorem c46_sort : forall (T : Type) (dflt : T) eqT ltT chk (h : heap T) a q,
  strict_weak (fun x y => ltT x y = true) -> usable_arrays [a] -> is_sequence h a q ->
  exists h' rows', call_algorithm dflt eqT ltT chk (sort_range (one_dim a)) [a] (World h None) = Done tt (World h' None) /\
    is_sequence h' a (Sequence (q_bases q) (q_shape q) rows') /\ Permutation (q_rows q) rows' /\
    StronglySorted (row_le ltT) rows' /\ elsewhere_same [a] h h' /\ no_leak h h'.
Proof.
  intros T dflt eqT ltT chk h a [bs sh rows] SW U Q. apply weak_order_of in SW. pose proof U as (D & _). inversion D as [|x y Hd _]; subst.
  destruct (sequence_kind T h a _ Hd Q) as (K & FL). cbn [q_bases q_shape q_rows] in *.
  pose proof (c46_algorithms_see_sequences T dflt eqT ltT unit (sort_range (one_dim a)) chk h None [a] [Sequence bs sh rows] U
    (Forall2_cons _ _ Q (Forall2_nil _))) as P.
  assert (E : exists env', call_on_sequences eqT ltT (sort_range (one_dim a)) [Sequence bs sh rows] None =
    Some (Finished tt env' (one_state bs sh (rev (sorted_back ltT [] rows))) None)).
  { destruct (sort_run eqT ltT (one_dim a) bs sh (length rows) 0 (length rows) [] rows) as [env' E]; auto.
    exists env'. cbn [app length Nat.add rev] in E. rewrite <- E. unfold call_on_sequences, sort_range. cbn [on_sequences ranges_from nth_error].
    cbn [cur_distance c_seq c_rev c_pos Nat.eqb Bool.eqb andb app]. unfold q_len. cbn [q_rows]. rewrite Z.sub_0_r, Nat2Z.id. reflexivity. }
  destruct E as [env' E]. rewrite E in P. destruct P as (h' & E1 & F & EL & NL). cbn [one_state ss_arrays] in F.
  inversion F as [|x y u v FQ _]; subst. exists h', (rev (sorted_back ltT [] rows)). split; auto. split; auto. split; [|split; auto].
  - etransitivity; [|apply Permutation_rev]. apply (sorted_back_perm ltT rows []).
  - eapply sorted_back_sorted; eauto. constructor.
Qed.

(** searching a one-dimensional array, subarray or view: the position of the
    first element with the property, or the length; nothing changes *)
Theorem c46_find : forall (T : Type) (dflt : T) eqT ltT chk (p : T -> bool) (h : heap T) a q,
  one_dim a = true -> usable_arrays [a] -> is_sequence h a q ->
  exists vs n h', q_rows q = map (fun v => [v]) vs /\
    call_algorithm dflt eqT ltT chk (find_range p) [a] (World h None) = Done (Z.of_nat n) (World h' None) /\
    is_sequence h' a q /\ elsewhere_same [a] h h' /\
    (n <= length vs)%nat /\
    (forall m v, (m < n)%nat -> nth_error vs m = Some v -> p v = false) /\
    (forall v, nth_error vs n = Some v -> p v = true).
Proof.
  intros T dflt eqT ltT chk p h a [bs sh rows] O1 U Q. pose proof U as (D & _). inversion D as [|x y Hd _]; subst.
  destruct (sequence_kind T h a _ Hd Q) as (K & FL). cbn [q_bases q_shape q_rows] in *. rewrite O1 in K. destruct K as (-> & -> & K1).
  assert (exists vs, rows = map (fun v => [v]) vs) as [vs ->].
  { clear - K1. induction K1 as [|r rows Hr _ IH]; [exists []; reflexivity|]. destruct IH as [vs ->].
    destruct r as [|v [|]]; try discriminate. exists (v :: vs). reflexivity. }
  pose proof (c46_algorithms_see_sequences T dflt eqT ltT Z (find_range p) chk h None [a] _ U (Forall2_cons _ _ Q (Forall2_nil _))) as P.
  destruct (find_run eqT ltT p vs (length vs) 0 eq_refl) as (n & env' & Hn & E & H1 & H2).
  assert (E' : call_on_sequences eqT ltT (find_range p) [Sequence [] [] (map (fun v => [v]) vs)] None =
    Some (Finished (Z.of_nat n) env' (one_state [] [] (map (fun v => [v]) vs)) None)).
  { rewrite <- E. unfold call_on_sequences, find_range. cbn [on_sequences ranges_from nth_error app].
    cbn [cur_distance c_seq c_rev c_pos Nat.eqb Bool.eqb andb]. unfold q_len. cbn [q_rows]. rewrite map_length, Z.sub_0_r, Nat2Z.id. reflexivity. }
  rewrite E' in P. destruct P as (h' & E1 & F & EL & NL). cbn [one_state ss_arrays] in F. inversion F as [|x y u v FQ _]; subst.
  exists vs, n, h'. split; auto. split; auto. split; auto. split; auto. split; [lia|]. split; auto. intros m v Hm. apply H1. lia.
Qed.

(** the hypotheses hold for a view (every second column backwards) of a
    column-major array with negative index bases, and for two of its rows; what
    the algorithms do to it, and an exception during the second assignment *)
Example ex_c46_usable : usable_arrays [v_nd ex_view] /\
  usable_arrays [ND (Ptr 7 0) [2] [4] [0]; ND (Ptr 7 1) [2] [4] [0]] /\
  is_sequence ThmCopy.ex_heap (v_nd ex_view) (Sequence [0] [2] [[10; 14]; [11; 15]]) /\
  is_sequence ThmCopy.ex_heap (ND (Ptr 7 1) [2] [4] [0]) (Sequence [] [] [[11]; [15]]) /\
  strict_weak (fun x y => (x <? y) = true).
Proof.
  assert (D0 : derived ex_arr (ND (Ptr 7 0) [2] [4] [0])).
  { eapply (d_sub _ (v_nd ex_view) 0); [apply ex_view_derived|vm_compute; reflexivity]. }
  assert (O0 : nd_ok (ND (Ptr 7 0) [2] [4] [0])) by (eapply derived_ok; [apply ex_arr_object|exact D0]).
  assert (O1 : nd_ok (ND (Ptr 7 1) [2] [4] [0])) by (eapply derived_ok; [apply ex_arr_object|apply ex_sub_derived]).
  assert (N : forall p, In p (addrs (ND (Ptr 7 0) [2] [4] [0])) -> In p (addrs (ND (Ptr 7 1) [2] [4] [0])) -> False).
  { intros p. vm_compute. intuition congruence. }
  split; [|split; [|split; [|split]]].
  - split; [|split].
    + constructor; [|constructor]. exists ex_arr. split; [apply ex_arr_object|apply ex_view_derived].
    + constructor; [|constructor]. intros _. cbn [v_nd nd_ext nd_base ex_view v_ext v_ib tl length].
      change (so_from_c 1) with (SO [0%nat] [true]). layout_tac.
    + intros [|i] [|j] a b NE Ha Hb; try congruence; try (destruct i; discriminate); destruct j; discriminate.
  - split; [|split].
    + repeat (constructor; [exists ex_arr; split; [apply ex_arr_object|]|]); [exact D0|apply ex_sub_derived|constructor].
    + constructor; [|constructor; [|constructor]]; intros H; destruct H; reflexivity.
    + intros [|[|i]] [|[|j]] a b NE Ha Hb; try congruence; try (destruct i; discriminate); try (destruct j; discriminate);
        injection Ha as <-; injection Hb as <-; intros p H1 H2; apply in_addrs in H1; auto; apply in_addrs in H2; auto; eapply N; eauto.
  - exists 0, 2. repeat split; try reflexivity. intros [|[|[|p]]] row E; try discriminate; injection E as <-; repeat constructor; vm_compute; reflexivity.
  - exists 0, 2. repeat split; try reflexivity. intros [|[|[|p]]] row E; try discriminate; injection E as <-; repeat constructor; vm_compute; reflexivity.
  - split; [intros x; rewrite Z.ltb_lt; lia|]. split; intros x y z; rewrite !Z.ltb_lt; lia.
Qed.
Example ex_c46 :
  (exists h', call_algorithm 0 Z.eqb Z.ltb true (reverse_range false) [v_nd ex_view] (World ThmCopy.ex_heap None) = Done tt (World h' None) /\
     h' = repeat None 7 ++ [Some (Block 0 [Some 11; Some 10; Some 12; Some 13; Some 15; Some 14]); None]) /\
  (exists h', call_algorithm 0 Z.eqb Z.gtb true (sort_range false) [cr_nd ex_arr] (World ThmCopy.ex_heap None) = Done tt (World h' None) /\
     h' = repeat None 7 ++ [Some (Block 0 [Some 11; Some 10; Some 13; Some 12; Some 15; Some 14]); None]) /\
  (exists h', call_algorithm 0 Z.eqb Z.ltb true (reverse_range false) [cr_nd ex_arr] (World ThmCopy.ex_heap (Some 9%nat)) = Thrown (World h' None) /\
     h' = repeat None 7 ++ [Some (Block 0 [Some 10; Some 11; Some 13; Some 13; Some 15; Some 15]); None]) /\
  call_on_sequences Z.eqb Z.ltb (reverse_range false) [Sequence [-2] [3] [[14; 12; 10]; [15; 13; 11]]] (Some 9%nat) =
    Some (Stopped [Sequence [-2] [3] [[15; 13; 10]; [15; 13; 11]]] false) /\
  call_algorithm 0 Z.eqb Z.ltb true (find_range (fun v => 12 <? v)) [ND (Ptr 7 1) [2] [4] [0]] (World ThmCopy.ex_heap None) =
    Done 1 (World ThmCopy.ex_heap None).
Proof. repeat split; try (eexists; split; vm_compute; reflexivity); vm_compute; reflexivity. Qed.
