(** ThmOverlap.v -- C53: assignment between overlapping arrays and views *)

From Coq Require Import ZArith List Bool Permutation Sorted Lia.
From Verif Require Import Base StorageOrder Ranges Layout Access Objects Memory Ops
  Spec ViewSpec ReachSpec IterSpec MemSpec OverlapSpec
  Facts LayoutProofs AccessProofs ViewProofs MemoryProofs CopyProofs ReachProofs ThmAddressing ThmViews ThmGeometry ThmIter ThmCopy ThmBulk.
Import ListNotations.
Local Open Scope Z_scope.

(** * Sequences of copies *)

Section Seq.
Context {T : Type}.

(** l: (destination, source); no destination is read later *)
Definition ordered (l : list (ptr * ptr)) : Prop :=
  forall l1 d s l2, l = l1 ++ (d, s) :: l2 -> ~ In d (map snd l2).

Lemma ordered_cons d s l : ordered ((d, s) :: l) -> ~ In d (map snd l) /\ ordered l.
Proof.
  intros H. split; [apply (H [] d s l eq_refl)|].
  intros l1 d' s' l2 ->. apply (H ((d, s) :: l1) d' s' l2). reflexivity.
Qed.

Lemma copy_sem_ordered l : forall (m : @mem T), NoDup (map fst l) -> ordered l ->
  forall d s, In (d, s) l -> copy_sem l m d = m s.
Proof.
  induction l as [|[d0 s0] l IH]; intros m Hn Ho d s Hi; [destruct Hi|].
  cbn [map fst] in Hn. inversion Hn as [|x y Hx Hn']; subst. destruct (ordered_cons _ _ _ Ho) as [H0 Ho'].
  change (copy_sem ((d0, s0) :: l) m) with (copy_sem l (upd m d0 (m s0))).
  destruct Hi as [E|Hi].
  - injection E as <- <-. rewrite copy_sem_other by auto. unfold upd. rewrite ptr_eqb_refl. auto.
  - rewrite (IH _ Hn' Ho' d s Hi). unfold upd. destruct (ptr_eqb d0 s) eqn:E; auto. apply ptr_eqb_eq in E. subst s.
    exfalso. apply H0. apply in_map_iff. exists (d, d0). auto.
Qed.

(** the cell s, read late, was the only one holding x and is overwritten by then *)
Lemma copy_sem_lost l1 d s l2 : forall (m : @mem T) (y : T), NoDup (map fst (l1 ++ (d, s) :: l2)) ->
  NoDup (map snd (l1 ++ (d, s) :: l2)) -> In s (map fst l1) ->
  (forall q, In q (map snd l1) -> m q = Some (Some y)) ->
  copy_sem (l1 ++ (d, s) :: l2) m d = Some (Some y).
Proof.
  intros m y Hf Hs Hi Hm. unfold copy_sem. rewrite fold_left_app. fold (copy_sem l1 m). cbn [fold_left].
  change (copy_sem l2 (upd (copy_sem l1 m) d (copy_sem l1 m s)) d = Some (Some y)).
  rewrite map_app in Hf, Hs. cbn [map fst snd] in Hf, Hs.
  rewrite copy_sem_other.
  2:{ apply NoDup_app_inv in Hf. destruct Hf as (_ & Hf & _). inversion Hf; auto. }
  unfold upd. cbn [fst]. rewrite ptr_eqb_refl.
  assert (Hf1 : NoDup (map fst l1)) by (apply NoDup_app_inv in Hf; tauto).
  clear - Hf1 Hi Hm. revert m Hm. induction l1 as [|[d0 s0] l1 IH]; intros m Hm; [destruct Hi|].
  cbn [map fst snd] in *. inversion Hf1 as [|? ? Hx Hn']; subst.
  change (copy_sem ((d0, s0) :: l1) m s) with (copy_sem l1 (upd m d0 (m s0)) s).
  destruct Hi as [->|Hi].
  - rewrite copy_sem_other by auto. unfold upd. rewrite ptr_eqb_refl. apply Hm. left; auto.
  - apply IH; auto. intros q Hq. unfold upd. destruct (ptr_eqb d0 q); apply Hm; [left|right]; auto.
Qed.

(** all constructed elements replaced by y *)
Definition paint (y : T) (h : heap T) : heap T :=
  map (option_map (fun b => Block (b_alloc b) (map (option_map (fun _ => y)) (b_cells b)))) h.
Lemma hcell_paint y (h : heap T) p : hcell (paint y h) p = option_map (option_map (fun _ => y)) (hcell h p).
Proof.
  unfold hcell, hblock, paint. rewrite nth_error_map. destruct (nth_error h (p_blk p)) as [[b|]|]; cbn [option_map]; auto.
  cbn [b_cells]. destruct (p_off p <? 0); auto. rewrite nth_error_map. reflexivity.
Qed.
Lemma live_paint y (h : heap T) c : live h c -> live (paint y h) c.
Proof.
  intros H p Hp. apply element_at_init. destruct (proj1 (element_at_init _ _) (H p Hp)) as [v Hv].
  exists y. rewrite hcell_paint, Hv. reflexivity.
Qed.

End Seq.

(** * Positions *)

Lemma position_in_positions es k : position_in es k <-> In k (positions es).
Proof. symmetry. apply in_positions. Qed.

Lemma cell_at_ok a k : nd_ok a -> position_in (nd_ext a) k -> cell_at a k = Ok (addr a (tadd (nd_base a) k)).
Proof. intros Ha Hk. pose proof Ha as (L & _). apply access_element_ok; auto. apply tadd_in_bounds; auto. Qed.

Lemma lex_less_irrefl t : ~ lex_less t t.
Proof. intros H. remember t as u eqn:E in H at 2. revert E. induction H; intros E; inversion E; subst; [lia|auto]. Qed.
Lemma lex_less_asym s t : lex_less s t -> ~ lex_less t s.
Proof. induction 1; intros H'; inversion H'; subst; try lia; auto. Qed.
Lemma lex_total : forall s t, length s = length t -> lex_less s t \/ s = t \/ lex_less t s.
Proof.
  induction s as [|x s IH]; intros [|y t] L; simpl in L; try lia; auto.
  destruct (Z.lt_trichotomy x y) as [H|[->|H]].
  - left. constructor; auto; lia.
  - destruct (IH t) as [H|[->|H]]; [lia| | |]; [left|right; left|right; right]; auto; apply ll_next; auto.
  - right; right. constructor; auto; lia.
Qed.

Lemma sorted_split {A} (R : A -> A -> Prop) l : StronglySorted R l -> forall l1 x l2, l = l1 ++ x :: l2 ->
  Forall (R x) l2 /\ Forall (fun y => R y x) l1.
Proof.
  induction 1 as [|a l HS IH HF]; intros l1 x l2 E; [destruct l1; discriminate|].
  destruct l1 as [|b l1]; simpl in E; injection E as -> E.
  - subst. auto.
  - destruct (IH _ _ _ E) as [H1 H2]. split; auto. constructor; auto. subst l.
    apply Forall_app in HF. destruct HF as [_ HF]. inversion HF; auto.
Qed.

Lemma positions_sorted es : StronglySorted lex_less (positions es).
Proof. apply tuples_sorted. apply repeat_length. Qed.

(** * The assignment as a sequence of copies *)

Section Main.
Context {T : Type}.
Variables (c1 c2 : cref) (dst src : nd).
Hypothesis H1 : array_object c1.
Hypothesis Hd : derived c1 dst.
Hypothesis H2 : array_object c2.
Hypothesis Hs : derived c2 src.
Hypothesis He : nd_ext dst = nd_ext src.

Definition pair_at (k : list Z) : ptr * ptr := (addr dst (tadd (nd_base dst) k), addr src (tadd (nd_base src) k)).
Definition pairs : list (ptr * ptr) := map pair_at (positions (nd_ext dst)).

Let Hok1 : nd_ok dst := derived_ok c1 dst H1 Hd.
Let Hok2 : nd_ok src := derived_ok c2 src H2 Hs.

Lemma assign_pairs chk (w : world T) : assign_nd chk (length (nd_ext dst)) dst src w = copy_cells pairs w.
Proof. rewrite assign_nd_eq by (auto; congruence). rewrite copy_pairs by auto. reflexivity. Qed.
Lemma copy_array_pairs chk (w : world T) : copy_array chk (length (nd_ext dst)) dst src w = copy_cells pairs w.
Proof. rewrite copy_array_eq by (auto; congruence). rewrite copy_pairs by auto. reflexivity. Qed.

Lemma in_dst k : position_in (nd_ext dst) k -> in_bounds (nd_base dst) (nd_ext dst) (tadd (nd_base dst) k).
Proof. intros. apply tadd_in_bounds; auto. apply Hok1. Qed.
Lemma in_src k : position_in (nd_ext dst) k -> in_bounds (nd_base src) (nd_ext src) (tadd (nd_base src) k).
Proof. intros. apply tadd_in_bounds; rewrite <- ?He; auto. rewrite He. apply Hok2. Qed.

Lemma pairs_init (h : heap T) : live h c1 -> live h c2 -> forall d s, In (d, s) pairs -> init h d /\ init h s.
Proof.
  intros L1 L2 d s H. apply in_map_iff in H. destruct H as (k & E & Hk). injection E as <- <-.
  apply position_in_positions in Hk. split; apply element_at_init.
  - apply L1. apply (derived_cell c1 dst); auto. apply in_dst; auto.
  - apply L2. apply (derived_cell c2 src); auto. apply in_src; auto.
Qed.

Lemma pairs_fst : NoDup (map fst pairs).
Proof.
  unfold pairs. rewrite map_map. apply (derived_addr_nodup c1); auto; [|apply nodup_positions].
  intros k Hk. apply in_positions; auto.
Qed.
Lemma pairs_snd : NoDup (map snd pairs).
Proof.
  unfold pairs. rewrite map_map. rewrite He. apply (derived_addr_nodup c2); auto; [|apply nodup_positions].
  intros k Hk. apply in_positions; auto.
Qed.

Lemma read_first_ordered : read_first dst src <-> ordered pairs.
Proof.
  split.
  - intros Hr l1 d s l2 E Hin. apply map_eq_app in E. destruct E as (p1 & p2 & Ep & <- & E2).
    apply map_eq_cons in E2. destruct E2 as (i & p3 & -> & Ei & <-). injection Ei as <- <-.
    rewrite map_map in Hin. apply in_map_iff in Hin. destruct Hin as (j & Ej & Hj). cbn [snd pair_at] in Ej.
    destruct (sorted_split _ _ (positions_sorted (nd_ext dst)) _ _ _ Ep) as [HF _]. rewrite Forall_forall in HF.
    assert (Pi : position_in (nd_ext dst) i) by (apply position_in_positions; rewrite Ep; apply in_or_app; right; left; auto).
    assert (Pj : position_in (nd_ext dst) j) by (apply position_in_positions; rewrite Ep; apply in_or_app; right; right; auto).
    apply (Hr i j (addr dst (tadd (nd_base dst) i)) Pi Pj (HF j Hj)); [apply cell_at_ok; auto|].
    rewrite cell_at_ok by (rewrite <- ?He; auto). f_equal. auto.
  - intros Ho i j p Pi Pj Hl Ei Ej. rewrite cell_at_ok in Ei by auto. rewrite cell_at_ok in Ej by (rewrite <- ?He; auto).
    injection Ei as <-. assert (Ej2 := f_equal (fun o => match o with Ok q => q | _ => addr src [] end) Ej). cbv beta iota in Ej2. clear Ej. rename Ej2 into Ej.
    pose proof Pi as Qi. apply position_in_positions in Qi. apply in_split in Qi. destruct Qi as (l1 & l2 & El).
    apply (Ho (map pair_at l1) (addr dst (tadd (nd_base dst) i)) (addr src (tadd (nd_base src) i)) (map pair_at l2)).
    + unfold pairs. rewrite El, map_app. reflexivity.
    + rewrite map_map. apply in_map_iff. exists j. split; [exact Ej|].
      apply position_in_positions in Pj. rewrite El in Pj. apply in_app_or in Pj.
      destruct (sorted_split _ _ (positions_sorted (nd_ext dst)) _ _ _ El) as [_ HF]. rewrite Forall_forall in HF.
      destruct Pj as [Pj|[->|Pj]]; auto.
      * exfalso. apply (lex_less_asym _ _ Hl). auto.
      * exfalso. apply (lex_less_irrefl _ Hl).
Qed.

Lemma ordered_copies (h : heap T) (prog : M T unit) : (forall w, prog w = copy_cells pairs w) -> live h c1 -> live h c2 ->
  ordered pairs -> copies prog dst src h.
Proof.
  intros Ep L1 L2 Ho. destruct (copy_cells_done pairs h None (pairs_init h L1 L2)) as (h' & E & F & C & B); auto.
  exists h'. split; [rewrite Ep; exact E|]. intros k Hk.
  assert (Hi : In (pair_at k) pairs) by (apply in_map; apply position_in_positions; auto).
  destruct (pairs_init h L1 L2 _ _ Hi) as [_ [v Hv]]. exists v.
  rewrite !reads_iff by (auto using in_dst, in_src). split; auto.
  rewrite C. rewrite (copy_sem_ordered _ _ pairs_fst Ho _ _ Hi). auto.
Qed.

Lemma copies_ordered (prog : M T unit) (x y : T) (h : heap T) : (forall w, prog w = copy_cells pairs w) -> x <> y -> live h c1 -> live h c2 ->
  (forall h2, live h2 c1 -> live h2 c2 -> copies prog dst src h2) -> ordered pairs.
Proof.
  intros Ep Hxy L1 L2 Hall la d0 s0 lb0 E Hin.
  (* the cell d0 = s is read later, by the copy (d, s) *)
  apply in_map_iff in Hin. destruct Hin as ((d & s) & Es & Hin). cbn [snd] in Es. subst d0.
  apply in_split in Hin. destruct Hin as (lc & l2 & ->).
  set (l1 := la ++ (s, s0) :: lc).
  assert (El : pairs = l1 ++ (d, s) :: l2) by (rewrite E; unfold l1; rewrite <- app_assoc; reflexivity).
  assert (Hi1 : In s (map fst l1)) by (unfold l1; rewrite map_app; apply in_or_app; right; left; auto).
  assert (Hds : In (d, s) pairs) by (rewrite El; apply in_or_app; right; left; auto).
  destruct (pairs_init h L1 L2 d s Hds) as [_ [v0 Hv0]].
  assert (Hc0 : hcell (paint y h) s = Some (Some y)) by (rewrite hcell_paint, Hv0; reflexivity).
  destruct (hset_spec (paint y h) s (Some x) _ Hc0) as (h2 & _ & _ & C2 & _).
  assert (Lx : forall c, live h c -> live h2 c).
  { intros c Lc p Hp. apply element_at_init. destruct (proj1 (element_at_init _ _) (live_paint y h c Lc p Hp)) as [v Hv].
    unfold init. rewrite C2. destruct (ptr_eqb s p); eauto. }
  destruct (Hall h2 (Lx c1 L1) (Lx c2 L2)) as (h' & Er & Hr). rewrite Ep in Er.
  destruct (copy_cells_done pairs h2 None (pairs_init h2 (Lx c1 L1) (Lx c2 L2))) as (h3 & E3 & _ & C3 & _); auto.
  cbn [option_map] in E3. rewrite Er in E3. injection E3 as <-.
  pose proof Hds as Hk. apply in_map_iff in Hk. destruct Hk as (k & Ek & Hk). injection Ek as Ed Es.
  apply position_in_positions in Hk. destruct (Hr k Hk) as (v & R1 & R2).
  rewrite reads_iff in R1, R2 by (auto using in_dst, in_src). rewrite Es in R1. rewrite Ed in R2.
  rewrite C2, ptr_eqb_refl in R1. injection R1 as <-.
  rewrite C3, El, (copy_sem_lost l1 d s l2 _ y) in R2.
  - injection R2 as R2. auto.
  - rewrite <- El. apply pairs_fst.
  - rewrite <- El. apply pairs_snd.
  - auto.
  - intros q Hq. rewrite C2. destruct (ptr_eqb s q) eqn:Eq.
    + apply ptr_eqb_eq in Eq. subst q. exfalso. pose proof pairs_snd as N. rewrite El, map_app in N.
      apply NoDup_app_inv in N. destruct N as (_ & _ & N). apply (N s); auto. left; auto.
    + rewrite hcell_paint. assert (Hq2 : In q (map snd pairs)) by (rewrite El, map_app; apply in_or_app; auto).
      apply in_map_iff in Hq2. destruct Hq2 as ((d' & s') & E' & Hq'). cbn [snd] in E'. subst s'.
      destruct (pairs_init h L1 L2 _ _ Hq') as [_ [vq Hvq]]. rewrite Hvq. reflexivity.
Qed.

End Main.

(** * C53 *)

(** Assignment (and copy_array) between arrays, subarrays and views that may
    share cells copies the old values for all contents exactly if no cell is
    overwritten at an earlier position than the one at which it is read *)
Theorem c53_overlapping_assignment_exact : forall (T : Type) (x y : T) (h : heap T) chk c1 c2 dst src,
  x <> y -> array_object c1 -> derived c1 dst -> array_object c2 -> derived c2 src -> nd_ext dst = nd_ext src ->
  live h c1 -> live h c2 ->
  let n := length (nd_ext dst) in
  (read_first dst src <->
   forall h2 : heap T, live h2 c1 -> live h2 c2 -> copies (assign_nd chk n dst src) dst src h2) /\
  (read_first dst src <->
   forall h2 : heap T, live h2 c1 -> live h2 c2 -> copies (copy_array chk n dst src) dst src h2).
Proof.
  intros T x y h chk c1 c2 dst src Hxy H1 Hd H2 Hs He L1 L2 n. subst n.
  pose proof (read_first_ordered c1 c2 dst src H1 Hd H2 Hs He) as R.
  split; (split; [intros Hr h2 Lh1 Lh2; apply R in Hr|intros Hall; apply R]).
  - apply (ordered_copies c1 c2 dst src H1 Hd H2 Hs He h2 _ (assign_pairs c1 c2 dst src H1 Hd H2 Hs He chk) Lh1 Lh2 Hr).
  - apply (copies_ordered c1 c2 dst src H1 Hd H2 Hs He _ x y h (assign_pairs c1 c2 dst src H1 Hd H2 Hs He chk) Hxy L1 L2 Hall).
  - apply (ordered_copies c1 c2 dst src H1 Hd H2 Hs He h2 _ (copy_array_pairs c1 c2 dst src H1 Hd H2 Hs He chk) Lh1 Lh2 Hr).
  - apply (copies_ordered c1 c2 dst src H1 Hd H2 Hs He _ x y h (copy_array_pairs c1 c2 dst src H1 Hd H2 Hs He chk) Hxy L1 L2 Hall).
Qed.

(** if the (k+1)-th element assignment throws, the first k positions of dst have
    the old values of src and the others the old values of dst *)
Theorem c53_interrupted : forall (T : Type) (h : heap T) chk c1 c2 dst src k,
  array_object c1 -> derived c1 dst -> array_object c2 -> derived c2 src -> nd_ext dst = nd_ext src ->
  live h c1 -> live h c2 -> read_first dst src -> (k < length (positions (nd_ext dst)))%nat ->
  exists h', assign_nd chk (length (nd_ext dst)) dst src (World h (Some k)) = Thrown (World h' None) /\
    copy_array chk (length (nd_ext dst)) dst src (World h (Some k)) = Thrown (World h' None) /\
    (forall j, In j (firstn k (positions (nd_ext dst))) -> exists v,
       reads h src (tadd (nd_base src) j) v /\ reads h' dst (tadd (nd_base dst) j) v) /\
    (forall j, In j (skipn k (positions (nd_ext dst))) -> exists v,
       reads h dst (tadd (nd_base dst) j) v /\ reads h' dst (tadd (nd_base dst) j) v) /\
    (forall p, ~ element_of dst p -> same_at h h' p).
Proof.
  intros T h chk c1 c2 dst src k H1 Hd H2 Hs He L1 L2 Hr Hk.
  pose proof (derived_ok c1 dst H1 Hd) as Hok1. pose proof (derived_ok c2 src H2 Hs) as Hok2.
  apply (read_first_ordered c1 c2 dst src H1 Hd H2 Hs He) in Hr.
  destruct (copy_cells_thrown (pairs dst src) h k (pairs_init c1 c2 dst src H1 Hd H2 Hs He h L1 L2)) as (h' & E & F & C & _).
  { unfold pairs. rewrite map_length. auto. }
  pose proof (pairs_fst c1 dst src H1 Hd) as Nf.
  assert (Fk : firstn k (pairs dst src) = map (pair_at dst src) (firstn k (positions (nd_ext dst)))) by apply firstn_map.
  assert (Sk : skipn k (pairs dst src) = map (pair_at dst src) (skipn k (positions (nd_ext dst)))) by apply skipn_map.
  assert (Hp : forall j l, In j (firstn k l) \/ In j (skipn k l) -> In j (l : list (list Z))).
  { intros j l H. rewrite <- (firstn_skipn k l). apply in_or_app; auto. }
  exists h'. split; [rewrite (assign_pairs c1 c2); auto|]. split; [rewrite (copy_array_pairs c1 c2); auto|].
  split; [|split].
  - intros j Hj. assert (Pj : position_in (nd_ext dst) j) by (apply position_in_positions; auto).
    assert (Hi : In (pair_at dst src j) (firstn k (pairs dst src))) by (rewrite Fk; apply in_map; auto).
    assert (Hi2 : In (pair_at dst src j) (pairs dst src)) by (apply in_map; auto).
    destruct (pairs_init c1 c2 dst src H1 Hd H2 Hs He h L1 L2 _ _ Hi2) as [_ [v Hv]]. exists v.
    rewrite !reads_iff; auto; [|eapply (in_dst c1); eauto|eapply (in_src c2); eauto]. split; auto. rewrite C.
    rewrite <- (firstn_skipn k (pairs dst src)) in Hr, Nf.
    erewrite copy_sem_ordered; [exact Hv| | |exact Hi].
    + rewrite map_app in Nf. apply NoDup_app_inv in Nf. tauto.
    + intros l1 d s l2 El Hin. apply (Hr l1 d s (l2 ++ skipn k (pairs dst src))).
      * rewrite El, <- app_assoc. reflexivity.
      * rewrite map_app. apply in_or_app; auto.
  - intros j Hj. assert (Pj : position_in (nd_ext dst) j) by (apply position_in_positions; auto).
    assert (Hi : In (pair_at dst src j) (skipn k (pairs dst src))) by (rewrite Sk; apply in_map; auto).
    assert (Hi2 : In (pair_at dst src j) (pairs dst src)) by (apply in_map; auto).
    destruct (pairs_init c1 c2 dst src H1 Hd H2 Hs He h L1 L2 _ _ Hi2) as [[v Hv] _]. exists v.
    rewrite !reads_iff; auto; try (eapply (in_dst c1); eauto). split; auto. rewrite C, copy_sem_other; auto.
    rewrite <- (firstn_skipn k (pairs dst src)), map_app in Nf. apply NoDup_app_inv in Nf. destruct Nf as (_ & _ & Nf).
    intros Hf. apply (Nf _ Hf). apply in_map_iff. exists (pair_at dst src j). auto.
  - intros p Hnp. unfold same_at. rewrite C. apply copy_sem_other. rewrite Fk, map_map. intros Hi.
    apply in_map_iff in Hi. destruct Hi as (j & <- & Hj). apply Hnp. apply element_of_addr; auto.
    eexists. split; [|reflexivity]. apply (in_dst c1); auto. apply position_in_positions; auto.
Qed.

(** ** Blocks of one array *)

Lemma tadd_split : forall o1 o2 i j, length o1 = length i -> length o2 = length j -> length o1 = length o2 ->
  tadd o1 i = tadd o2 j -> (lex_less o2 o1 <-> lex_less i j) /\ (lex_less o1 o2 <-> lex_less j i).
Proof.
  induction o1 as [|x o1 IH]; intros [|y o2] [|a i] [|b j] L1 L2 L3 E; simpl in *; try lia.
  - split; split; intros H; inversion H.
  - injection E as E0 E. destruct (IH o2 i j) as [H1 H2]; try lia; auto.
    split; split; intros H; inversion H; subst.
    1,3,5,7: apply ll_here; lia.
    + replace b with a by lia. apply ll_next. tauto.
    + replace y with x by lia. apply ll_next. tauto.
    + replace b with a by lia. apply ll_next. tauto.
    + replace y with x by lia. apply ll_next. tauto.
Qed.

Lemma position_length es k : position_in es k -> length k = length es.
Proof. intros H. apply in_bounds_length in H. rewrite repeat_length in H. lia. Qed.

Lemma element_of_cell a p : nd_ok a -> element_of a p <-> exists k, position_in (nd_ext a) k /\ cell_at a k = Ok p.
Proof.
  intros Ha. pose proof Ha as (L & _). unfold element_of, cell_at. split.
  - intros (i & Hi & E). destruct (tadd_surj _ _ _ Hi) as (k & Hk & ->). exists k. auto.
  - intros (k & Hk & E). eexists. split; [|exact E]. apply tadd_in_bounds; auto.
Qed.

(** equal cells of two blocks of one array are the same element of the array *)
Lemma box_cells c a b1 b2 o1 o2 i j p : array_object c -> derived c a -> box a o1 b1 -> box a o2 b2 ->
  position_in (nd_ext b1) i -> position_in (nd_ext b2) j -> cell_at b1 i = Ok p -> cell_at b2 j = Ok p ->
  tadd o1 i = tadd o2 j.
Proof.
  intros Hc Ha (L1 & B1) (L2 & B2) Pi Pj Ei Ej.
  destruct (B1 i Pi) as (I1 & p1 & A1 & C1). destruct (B2 j Pj) as (I2 & p2 & A2 & C2).
  pose proof (derived_ok c a Hc Ha) as Hok. rewrite access_element_ok in A1, A2 by auto.
  apply (derived_inj c a Hc Ha); auto. congruence.
Qed.

(** blocks of one array: the assignment is right exactly if they are disjoint or
    the source does not begin before the destination *)
Theorem c53_blocks : forall c a dst src o1 o2,
  array_object c -> derived c a -> derived c dst -> derived c src -> nd_ext dst = nd_ext src ->
  box a o1 dst -> box a o2 src ->
  (read_first dst src <-> (no_overlap dst src \/ ~ lex_less o2 o1)).
Proof.
  intros c a dst src o1 o2 Hc Ha Hd Hs He B1 B2.
  pose proof (derived_ok c dst Hc Hd) as Hok1. pose proof (derived_ok c src Hc Hs) as Hok2.
  assert (K : forall i j p, position_in (nd_ext dst) i -> position_in (nd_ext dst) j -> cell_at dst i = Ok p -> cell_at src j = Ok p ->
    (lex_less o2 o1 <-> lex_less i j)).
  { intros i j p Pi Pj Ei Ej. pose proof Pj as Pj2. rewrite He in Pj2.
    pose proof (box_cells c a dst src o1 o2 i j p Hc Ha B1 B2 Pi Pj2 Ei Ej) as E.
    destruct B1 as (L1 & _), B2 as (L2 & _). pose proof (position_length _ _ Pi). pose proof (position_length _ _ Pj2).
    apply tadd_split; auto; congruence. }
  split.
  - intros Hr. assert (D : lex_less o2 o1 \/ ~ lex_less o2 o1).
    { destruct B1 as (L1 & _), B2 as (L2 & _). destruct (lex_total o2 o1) as [H|[->|H]]; [congruence|auto| |].
      - right. apply lex_less_irrefl. - right. apply lex_less_asym. auto. }
    destruct D as [D|D]; [left|right; auto]. intros p Hp Hq. rewrite element_of_cell in Hp, Hq by auto.
    destruct Hp as (i & Pi & Ei), Hq as (j & Pj & Ej). rewrite <- He in Pj.
    apply (Hr i j p Pi Pj); auto. apply (K i j p); auto.
  - intros Hor i j p Pi Pj Hl Ei Ej. destruct Hor as [Hn|Hn].
    + apply (Hn p); apply element_of_cell; auto; [exists i|exists j; rewrite <- He]; auto.
    + apply Hn. apply (K i j p); auto.
Qed.

Lemma mirror_position : forall es k, position_in es k -> position_in es (mirror es k) /\ mirror es (mirror es k) = k.
Proof.
  unfold position_in. induction es as [|e es IH]; intros [|x k] H; simpl in *; try tauto.
  destruct H as [H H']. destruct (IH k H') as [I1 I2]. split; [split; [lia|auto]|]. rewrite I2. f_equal. lia.
Qed.
Lemma mirror_lex : forall es i j, length i = length es -> length j = length es ->
  lex_less i j -> lex_less (mirror es j) (mirror es i).
Proof.
  assert (LM : forall es k, length k = length es -> length (mirror es k) = length es).
  { induction es as [|e es IH]; intros [|x k] L; simpl in *; try lia. rewrite IH; lia. }
  induction es as [|e es IH]; intros [|x i] [|y j] L1 L2 H; simpl in *; try lia; [inversion H|].
  inversion H; subst.
  - apply ll_here; [lia|]. rewrite !LM; lia.
  - apply ll_next. apply IH; auto.
Qed.

(** blocks of one array can always be copied: front to back if the source does
    not begin before the destination, else through views with all dimensions
    reversed *)
Theorem c53_one_direction_is_right : forall (T : Type) (h : heap T) chk c a dst src o1 o2 rdst rsrc,
  array_object c -> derived c a -> derived c dst -> derived c src -> nd_ext dst = nd_ext src ->
  box a o1 dst -> box a o2 src ->
  derived c rdst -> derived c rsrc -> mirrored dst rdst -> mirrored src rsrc -> live h c ->
  let n := length (nd_ext dst) in
  (~ lex_less o2 o1 -> copies (assign_nd chk n dst src) dst src h) /\
  (~ lex_less o1 o2 -> copies (assign_nd chk n rdst rsrc) dst src h).
Proof.
  intros T h chk c a dst src o1 o2 rdst rsrc Hc Ha Hd Hs He B1 B2 Hrd Hrs (M1 & M1') (M2 & M2') L n. subst n.
  pose proof (derived_ok c dst Hc Hd) as Hok1. pose proof (derived_ok c src Hc Hs) as Hok2.
  pose proof (derived_ok c rdst Hc Hrd) as Hok3. pose proof (derived_ok c rsrc Hc Hrs) as Hok4.
  split; intros Hn.
  - assert (Hr : read_first dst src) by (apply (c53_blocks c a dst src o1 o2); auto).
    apply (read_first_ordered c c) in Hr; auto.
    apply (ordered_copies c c dst src Hc Hd Hc Hs He h _ (assign_pairs c c dst src Hc Hd Hc Hs He chk) L L Hr).
  - assert (He' : nd_ext rdst = nd_ext rsrc) by congruence.
    assert (Hr : read_first rdst rsrc).
    { intros i j p Pi Pj Hl Ei Ej. rewrite M1 in Pi, Pj. rewrite M1' in Ei by auto. rewrite M2' in Ej by (rewrite <- He; auto).
      destruct (mirror_position _ _ Pi) as [Qi Ri]. destruct (mirror_position _ _ Pj) as [Qj Rj].
      rewrite <- He in Ej. pose proof Qj as Qj2. rewrite He in Qj2 at 1.
      pose proof (box_cells c a dst src o1 o2 _ _ p Hc Ha B1 B2 Qi Qj2 Ei Ej) as E.
      destruct B1 as (L1 & _), B2 as (L2 & _). pose proof (position_length _ _ Qi). pose proof (position_length _ _ Qj).
      apply Hn. apply (tadd_split o1 o2 (mirror (nd_ext dst) i) (mirror (nd_ext dst) j)); auto; try congruence.
      apply mirror_lex; auto; apply position_length; auto. }
    apply (read_first_ordered c c) in Hr; auto.
    destruct (ordered_copies c c rdst rsrc Hc Hrd Hc Hrs He' h _ (assign_pairs c c rdst rsrc Hc Hrd Hc Hrs He' chk) L L Hr) as (h' & E & R).
    exists h'. rewrite M1 in E. split; [exact E|]. intros k Hk.
    destruct (mirror_position _ _ Hk) as [Q Rk]. pose proof Q as Q2. rewrite <- M1 in Q2 at 1. destruct (R _ Q2) as (v & R1 & R2). exists v.
    assert (X : forall (g : heap T) b r q, nd_ok b -> nd_ok r -> nd_ext r = nd_ext b -> position_in (nd_ext b) q -> (cell_at r (mirror (nd_ext b) q) = cell_at b q) ->
      reads g r (tadd (nd_base r) (mirror (nd_ext b) q)) v -> reads g b (tadd (nd_base b) q) v).
    { intros g b r q Hb Hr' Er Hq EC Hx. destruct (mirror_position _ _ Hq) as [Qq _]. pose proof Qq as Qq2. rewrite <- Er in Qq2 at 1.
      rewrite !cell_at_ok in EC by auto.
      rewrite reads_iff in Hx |- *; auto; try (apply tadd_in_bounds; auto; apply Hb || apply Hr').
      injection EC as EC1 EC2. rewrite <- Hx. unfold addr, padd in *. cbn in *. f_equal. f_equal; congruence. }
    split.
    + apply (X h src rsrc k); auto; rewrite <- ?He; auto. rewrite He. rewrite M2' by (rewrite <- He; auto). rewrite <- He. congruence.
    + apply (X h' dst rdst k); auto. rewrite M1' by auto. congruence.
Qed.

(** views made with stride-1 ranges are blocks, and views made with reversed full
    ranges are mirrored *)
Theorem c53_unit_views_are_blocks : forall c a corner ig v,
  array_object c -> derived c a -> built ig -> (0 < ig_dims ig)%nat -> make_view true a ig = Ok v ->
  ranges_inside (nd_base a) (nd_ext a) (ig_ranges ig) ->
  unit_ranges (nd_base a) corner (ig_ranges ig) ->
  derived c (v_nd v) /\ box a corner (v_nd v).
Proof.
  intros c a corner ig v Hc Ha Hb Hd E HI HU.
  assert (D : derived c (v_nd v)) by (apply d_view; eapply dv_make; eauto). split; auto.
  destruct (c05_views_alias true true c a ig v Hc Ha Hb E) as (VS & L & IB & HV). specialize (HV HI Hd).
  assert (LC : length corner = length (v_ext v)).
  { clear - VS HU. revert corner HU. cbn [v_nd nd_ext]. induction VS; intros [|o os] HU; simpl in HU; try tauto.
    - destruct HU as (U & _). congruence.
    - simpl. f_equal. apply IHVS. tauto. }
  assert (SI : forall bs cs rs k, unit_ranges bs cs rs -> length k = length cs -> source_index bs rs k = tadd cs k).
  { induction bs as [|b bs IH]; intros [|o os] [|r rs] [|x k] HU' LK; simpl in *; try tauto; try lia.
    destruct HU' as (U1 & U2 & U3 & U4). rewrite U1. rewrite U2, U3. f_equal; [lia|]. apply IH; auto. }
  split; [exact LC|]. intros k Hk. cbn [v_nd nd_ext] in Hk.
  destruct (HV k) as (I1 & p & P1 & P2); [rewrite IB; exact Hk|].
  rewrite (SI _ corner) in I1, P2 by (auto; rewrite LC; apply position_length; auto).
  split; auto. exists p. split; auto. unfold cell_at. cbn [v_nd nd_base]. rewrite IB.
  replace (tadd (repeat 0 (length (v_ext v))) k) with k; auto.
  apply position_length in Hk. revert Hk. generalize (v_ext v). clear. intros l. revert k.
  induction l; intros [|x k] H; simpl in *; try lia; auto. f_equal. apply IHl. lia.
Qed.

Theorem c53_reversed_views_are_mirrored : forall c a ig v,
  array_object c -> derived c a -> built ig -> (0 < ig_dims ig)%nat -> make_view true a ig = Ok v ->
  Forall (fun e => 0 < e) (nd_ext a) -> reverse_ranges (nd_base a) (nd_ext a) (ig_ranges ig) ->
  derived c (v_nd v) /\ mirrored a (v_nd v).
Proof.
  intros c a ig v Hc Ha Hb Hd E HP HU. pose proof (derived_ok c a Hc Ha) as Hok. pose proof Hok as (LB & _).
  assert (HI : ranges_inside (nd_base a) (nd_ext a) (ig_ranges ig)).
  { clear - HU. revert HU. generalize (nd_ext a) (ig_ranges ig). induction (nd_base a) as [|b bs IH]; intros [|e es] [|r rs] HU; simpl in *; try tauto.
    destruct HU as (U1 & U2 & U3 & U4 & U5). split; auto. unfold range_inside, selected. rewrite U1, U2, U3, U4.
    intros k (K1 & K2). simpl in K2. lia. }
  assert (D : derived c (v_nd v)) by (apply d_view; eapply dv_make; eauto). split; auto.
  destruct (c05_views_alias true true c a ig v Hc Ha Hb E) as (VS & L & IB & HV). specialize (HV HI Hd).
  assert (EV : v_ext v = nd_ext a).
  { clear - VS HU HP. revert VS HU HP. generalize (v_ext v). intros vs VS. induction VS; intros HU HP; simpl in HU; try tauto.
    - destruct HU as (U & _). congruence.
    - destruct HU as (U1 & U2 & U3 & U4 & U5). inversion HP; subst. f_equal; [|auto].
      unfold selected in *. rewrite U2, U3, U4 in *. simpl in *. 
      pose proof (proj1 (H1 (len - 1))). pose proof (proj2 (H1 (e - 1))). pose proof (proj1 (H1 e)). lia. }
  split; [exact EV|]. intros k Hk.
  assert (SI : forall bs es rs k, reverse_ranges bs es rs -> length k = length es -> source_index bs rs k = tadd bs (mirror es k)).
  { clear. induction bs as [|b bs IH]; intros [|e es] [|r rs] [|x k] HU' LK; simpl in *; try tauto; try lia.
    destruct HU' as (U1 & U2 & U3 & U4 & U5). rewrite U1. rewrite U2, U3. f_equal; [lia|]. apply IH; auto. }
  destruct (HV k) as (I1 & p & P1 & P2); [rewrite IB, EV; exact Hk|].
  rewrite (SI _ (nd_ext a)) in P2 by (auto; apply position_length; auto).
  unfold cell_at. rewrite P2. cbn [v_nd nd_base]. rewrite IB.
  replace (tadd (repeat 0 (length (v_ext v))) k) with k; auto.
  rewrite EV. apply position_length in Hk. revert Hk. generalize (nd_ext a). clear. intros l. revert k.
  induction l; intros [|x k] H; simpl in *; try lia; auto. f_equal. apply IHl. lia.
Qed.

(** a 3 x 3 array with elements 0 .. 8 *)
Definition ex_square : cref := CRef (Ptr 0 0) (SO [1%nat; O] [true; true]) [3; 3] [3; 1] [0; 0] 0 0 9.
Definition ex_square_heap : heap Z := [Some (Block 0 (map (fun k => Some (Z.of_nat k)) (seq 0 9)))].
Example ex_square_object : array_object ex_square.
Proof.
  apply (ao_list true (Ptr 0 0) [3; 3] (SO [1%nat; O] [true; true])).
  - split; [apply perm_swap|reflexivity].
  - split; [reflexivity|]. split; [simpl; lia|]. split; [repeat constructor; lia|].
    split; [repeat constructor; unconst; simpl; lia|]. vm_compute. congruence.
  - vm_compute. reflexivity.
Qed.
Example ex_square_live : live ex_square_heap ex_square.
Proof.
  intros p (k & Hk & ->). unfold cr_num_elements, ex_square in Hk. cbn [cr_num] in Hk.
  assert (k = 0 \/ k = 1 \/ k = 2 \/ k = 3 \/ k = 4 \/ k = 5 \/ k = 6 \/ k = 7 \/ k = 8) as Dk by lia.
  repeat (destruct Dk as [->|Dk]; [eexists; vm_compute; reflexivity|]). subst. eexists; vm_compute; reflexivity.
Qed.
Definition ex_gen (r1 r2 : index_range) : outcome index_gen := g <- ig_at_range indices r1 ;; ig_at_range g r2.
Definition ex_block (x y : Z) : outcome view :=
  g <- ex_gen (ir_make x (x + 2) 1) (ir_make y (y + 2) 1) ;; make_view true (cr_nd ex_square) g.
Definition ex_mirror (v : view) : outcome view :=
  g <- ex_gen (ir_make 1 (-1) (-1)) (ir_make 1 (-1) (-1)) ;; make_view true (v_nd v) g.

Lemma ex_gen_built r1 r2 g : ex_gen r1 r2 = Ok g -> built g.
Proof. intros E. unfold ex_gen in E. oinv E. eapply built_range; [eapply built_range; [apply built_none|]|]; eauto. Qed.

Lemma ex_block_ok x y v : 0 <= x <= 1 -> 0 <= y <= 1 -> ex_block x y = Ok v ->
  derived ex_square (v_nd v) /\ box (cr_nd ex_square) [x; y] (v_nd v) /\ v_ext v = [2; 2] /\ v_ib v = [0; 0].
Proof.
  intros Hx Hy E. 
  assert (C : (x = 0 \/ x = 1) /\ (y = 0 \/ y = 1)) by lia.
  assert (V : v_ext v = [2; 2] /\ v_ib v = [0; 0]).
  { destruct C as [[->| ->] [->| ->]]; vm_compute in E; injection E as <-; split; reflexivity. }
  rewrite <- and_assoc. split; [|exact V].
  unfold ex_block in E. destruct (ex_gen _ _) as [a| |] eqn:E0 in E; try discriminate. cbn [obind] in E. pose proof (ex_gen_built _ _ _ E0) as Bg.
  apply (c53_unit_views_are_blocks ex_square (cr_nd ex_square) [x; y] a v ex_square_object (d_array _) Bg).
  - destruct C as [[->| ->] [->| ->]]; vm_compute in E0; injection E0 as <-; simpl; lia.
  - exact E.
  - destruct C as [[->| ->] [->| ->]]; vm_compute in E0; injection E0 as <-;
      (split; [|split; [|exact I]]); unfold range_inside, selected, range_start, range_finish; cbn [ir_degenerate ir_stride ir_start ir_finish]; intros k [K1 K2];
      rewrite ?Z.mul_1_r in *; change (- max_index - 1) with (-9223372036854775808) in *; cbn -[Z.add] in K2 |- *; lia.
  - destruct C as [[->| ->] [->| ->]]; vm_compute in E0; injection E0 as <-; vm_compute; intuition.
Qed.
Lemma ex_mirror_ok x y v r : 0 <= x <= 1 -> 0 <= y <= 1 -> ex_block x y = Ok v -> ex_mirror v = Ok r ->
  derived ex_square (v_nd r) /\ mirrored (v_nd v) (v_nd r).
Proof.
  intros Hx Hy E Em. destruct (ex_block_ok x y v Hx Hy E) as (Dv & _ & Ve & Vb).
  unfold ex_mirror in Em. destruct (ex_gen _ _) as [a| |] eqn:E0 in Em; try discriminate. cbn [obind] in Em. pose proof (ex_gen_built _ _ _ E0) as Bg.
  apply (c53_reversed_views_are_mirrored ex_square (v_nd v) a r ex_square_object Dv Bg).
  - vm_compute in E0. injection E0 as <-. simpl. lia.
  - exact Em.
  - cbn [v_nd nd_ext]. rewrite Ve. repeat constructor.
  - cbn [v_nd nd_ext nd_base]. rewrite Ve, Vb. vm_compute in E0. injection E0 as <-. vm_compute. intuition.
Qed.

(** moving the block at (1,0) to (0,1) is right; moving it back element by
    element is not (they share the element (1,1)), but through reversed views it is *)
Example ex_c53 : exists lower upper rlower rupper h1 h2 h3,
  ex_block 1 0 = Ok lower /\ ex_block 0 1 = Ok upper /\ ex_mirror lower = Ok rlower /\ ex_mirror upper = Ok rupper /\
  read_first (v_nd upper) (v_nd lower) /\ ~ read_first (v_nd lower) (v_nd upper) /\
  assign_nd true 2 (v_nd upper) (v_nd lower) (World ex_square_heap None) = Done tt (World h1 None) /\
  reads h1 (v_nd upper) [0; 0] 3 /\ reads h1 (v_nd upper) [1; 0] 6 /\
  assign_nd true 2 (v_nd lower) (v_nd upper) (World ex_square_heap None) = Done tt (World h2 None) /\
  reads h2 (v_nd lower) [0; 0] 1 /\ reads h2 (v_nd lower) [1; 0] 2 /\
  assign_nd true 2 (v_nd rlower) (v_nd rupper) (World ex_square_heap None) = Done tt (World h3 None) /\
  reads h3 (v_nd lower) [0; 0] 1 /\ reads h3 (v_nd lower) [1; 0] 4.
Proof.
  do 7 eexists. split; [vm_compute; reflexivity|]. split; [vm_compute; reflexivity|]. split; [vm_compute; reflexivity|]. split; [vm_compute; reflexivity|].
  match goal with |- read_first (v_nd ?u) (v_nd ?l) /\ _ =>
    destruct (ex_block_ok 0 1 u) as (Du & Bu & Eu & _); [lia|lia|vm_compute; reflexivity|];
    destruct (ex_block_ok 1 0 l) as (Dl & Bl & El & _); [lia|lia|vm_compute; reflexivity|] end.
  split.
  { apply (c53_blocks ex_square (cr_nd ex_square) _ _ [0; 1] [1; 0] ex_square_object (d_array _) Du Dl); auto.
    right. intros H. inversion H; subst; lia. }
  split.
  { intros H. apply (H [0; 1] [1; 0] (Ptr 0 4)); try (vm_compute; reflexivity); try (cbn; lia). apply ll_here; [lia|reflexivity]. }
  repeat split; vm_compute; reflexivity.
Qed.
