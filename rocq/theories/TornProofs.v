(** TornProofs.v -- the functions of Torn.v against those of Memory.v, and one
    command in which an element assignment fails half way. *)

From Coq Require Import Lia.
From Verif Require Import Base StorageOrder Ranges Layout Access Objects Memory Ops MultiArray History Torn.
From Verif Require Import Spec ReachSpec MemSpec CompareSpec OwnSpec HistorySpec CostSpec FaultSpec ExactSpec TornSpec.
From Verif Require Import Facts LayoutProofs AccessProofs MemoryProofs CopyProofs ReachProofs CompareProofs OwnProofs ResizeProofs ThmGeometry ThmCopy ThmBulk ThmMultiArray HistoryProofs HeapProofs ThmHistory ThmFaults CostProofs ThmCosts ThmExact.

Section Torn.
Context {T : Type}.
Variable u : T.

(** * element by element *)

Definition torn_cells (l : list (ptr * ptr)) : M T unit :=
  mseq (fun ds => torn_elem_assign u (fst ds) (snd ds)) l.

Lemma torn_rows_eq rec chk k dst src w :
  nd_ok dst -> nd_ok src -> nd_ext dst = nd_ext src -> length (nd_ext src) = S k ->
  (k <> O -> forall i j w, rec (row dst i) (row src j) w =
                           torn_cells (combine (addrs (row dst i)) (addrs (row src j))) w) ->
  torn_copy_rows u rec chk k dst src w = torn_cells (combine (addrs dst) (addrs src)) w.
Proof.
  intros Hd Hs Hext Hlen Hrec.
  destruct (nd_ok_shape src Hs) as (b & bs & e & es & s & ss & Eb & Ee & Es & L1 & L2 & HA).
  destruct (nd_ok_shape dst Hd) as (b' & bs' & e' & es' & s' & ss' & Eb' & Ee' & Es' & L1' & L2' & HA').
  rewrite Ee' in Hext. rewrite Ee in Hext. inversion Hext; subst e' es'. clear Hext.
  pose proof Hs as Hs2. pose proof Hd as Hd2. unfold nd_ok in Hs2, Hd2.
  rewrite Eb, Ee, Es in Hs2. rewrite Eb', Ee', Es' in Hd2.
  apply addressable_cons in Hs2. apply addressable_cons in Hd2.
  destruct Hs2 as (He & Hb1 & Hb2 & _). destruct Hd2 as (_ & Hb1' & Hb2' & _).
  unfold torn_copy_rows.
  rewrite (nd_begin_at src b bs Eb), (nd_end_at src b bs e es Eb Ee) by (unconst; lia).
  rewrite (nd_begin_at dst b' bs' Eb').
  do 3 (unfold bind at 1, lift at 1).
  unfold loop_fuel, it_at at 1 2. cbn [it_idx]. replace (b + e - b) with e by lia.
  replace (it_at src (b + e)) with (it_at src (b + Z.of_nat (Z.to_nat e))) by (f_equal; lia).
  rewrite copy_loop_eq by (unconst; lia).
  rewrite (addrs_rows dst b' bs' e es Eb' Ee'), (addrs_rows src b bs e es Eb Ee).
  rewrite combine_flat_map.
  - unfold torn_cells. rewrite mseq_flat_map. apply mseq_ext. intros [j i] w' Hin. cbn [fst snd].
    assert (Hj : b' <= j < b' + e).
    { apply in_combine_l in Hin. apply in_zseq in Hin. lia. }
    assert (Hi : b <= i < b + e).
    { apply in_combine_r in Hin. apply in_zseq in Hin. lia. }
    rewrite Ee in Hlen. simpl in Hlen.
    destruct k as [|k].
    + destruct es; simpl in Hlen; [|lia].
      destruct bs, ss; simpl in L1, L2; try lia. destruct bs', ss'; simpl in L1', L2'; try lia.
      unfold it_deref_one. rewrite !it_nd_at. cbn [it_idx it_at].
      rewrite (access_one_ok chk i src b e s) by auto.
      rewrite (access_one_ok chk j dst b' e s') by auto.
      do 2 (unfold bind at 1, lift at 1).
      unfold row_addrs. rewrite Eb, Eb', Ee, Ee'. cbn [tl tuples map combine mseq fst snd].
      unfold addr. rewrite Es, Es'. cbn [dot]. rewrite !Z.add_0_r.
      unfold bind at 1. destruct (torn_elem_assign u _ _ w') as [[] ?|?|?| |]; auto.
    + assert (Hne : es <> []) by (destruct es; simpl in *; congruence).
      unfold it_deref_n. rewrite !it_nd_at. cbn [it_idx it_at].
      rewrite (access_n_ok chk i src b bs e es s ss) by auto.
      rewrite (access_n_ok chk j dst b' bs' e es s' ss') by auto.
      do 2 (unfold bind at 1, lift at 1).
      rewrite !row_addrs_eq by auto.
      fold (torn_cells (combine (addrs (row dst j)) (addrs (row src i)))).
      rewrite <- Hrec by auto. unfold row. rewrite Eb, Ee, Es, Eb', Ee', Es'. reflexivity.
  - rewrite !length_zseq. auto.
  - intros x y _ _. unfold row_addrs. rewrite !map_length, Eb, Eb', Ee, Ee'. cbn [tl].
    apply length_tuples_bases; auto.
Qed.

Lemma torn_assign_nd_eq chk : forall n dst src w,
  nd_ok dst -> nd_ok src -> nd_ext dst = nd_ext src -> length (nd_ext src) = n ->
  torn_assign_nd u chk n dst src w = torn_cells (combine (addrs dst) (addrs src)) w.
Proof.
  induction n as [|n IH]; intros dst src w Hd Hs He Hl.
  - exfalso. pose proof Hs as (_ & _ & H & _). lia.
  - cbn [torn_assign_nd]. rewrite He, list_eqb_refl.
    replace (assertM chk (Ok true)) with (Ok tt) by (destruct chk; auto).
    unfold bind at 1, lift at 1.
    apply torn_rows_eq; auto. intros Hk i j w'.
    assert (Hne : tl (nd_ext src) <> []).
    { destruct (nd_ext src) as [|e [|e2 es]]; simpl in *; try lia. congruence. }
    apply IH.
    + apply row_ok; auto. rewrite He; auto.
    + apply row_ok; auto.
    + simpl. congruence.
    + simpl. destruct (nd_ext src); simpl in *; lia.
Qed.
Lemma torn_std_copy_nd_eq chk n dst src w :
  nd_ok dst -> nd_ok src -> nd_ext dst = nd_ext src -> length (nd_ext src) = n ->
  torn_std_copy_nd u chk n dst src w = torn_cells (combine (addrs dst) (addrs src)) w.
Proof.
  intros Hd Hs He Hl. destruct n as [|n].
  - exfalso. pose proof Hs as (_ & _ & H & _). lia.
  - cbn [torn_std_copy_nd]. apply torn_rows_eq; auto. intros Hk i j w'.
    assert (Hne : tl (nd_ext src) <> []).
    { destruct (nd_ext src) as [|e [|e2 es]]; simpl in *; try lia. congruence. }
    apply torn_assign_nd_eq.
    + apply row_ok; auto. rewrite He; auto.
    + apply row_ok; auto.
    + simpl. congruence.
    + simpl. destruct (nd_ext src); simpl in *; lia.
Qed.
Lemma torn_copy_dispatch_eq chk : forall n dst src w,
  nd_ok dst -> nd_ok src -> nd_ext dst = nd_ext src -> length (nd_ext src) = n ->
  torn_copy_dispatch u chk n dst src w = torn_cells (combine (addrs dst) (addrs src)) w.
Proof.
  induction n as [|n IH]; intros dst src w Hd Hs He Hl.
  - exfalso. pose proof Hs as (_ & _ & H & _). lia.
  - cbn [torn_copy_dispatch]. apply torn_rows_eq; auto. intros Hk i j w'.
    assert (Hne : tl (nd_ext src) <> []).
    { destruct (nd_ext src) as [|e [|e2 es]]; simpl in *; try lia. congruence. }
    apply IH.
    + apply row_ok; auto. rewrite He; auto.
    + apply row_ok; auto.
    + simpl. congruence.
    + simpl. destruct (nd_ext src); simpl in *; lia.
Qed.
Lemma torn_copy_array_eq chk n dst src w :
  nd_ok dst -> nd_ok src -> nd_ext dst = nd_ext src -> length (nd_ext src) = n ->
  torn_copy_array u chk n dst src w = torn_cells (combine (addrs dst) (addrs src)) w.
Proof.
  intros Hd Hs He Hl. unfold torn_copy_array. rewrite He, list_eqb_refl.
  replace (assertM chk (Ok true)) with (Ok tt) by (destruct chk; auto).
  unfold bind at 1, lift at 1. apply torn_copy_dispatch_eq; auto.
Qed.

Definition torn_apply (f : T -> T) (p : ptr) : M T unit :=
  v <~ load p ;; _ <~ tear u p ;; store p (f v).
Lemma torn_for_each_eq chk f : forall n a w, nd_ok a -> length (nd_ext a) = n ->
  torn_for_each u chk f n a w = mseq (torn_apply f) (addrs a) w.
Proof.
  induction n as [|n IH]; intros a w Ha Hl.
  - exfalso. pose proof Ha as (_ & _ & H & _). lia.
  - destruct (nd_ok_shape a Ha) as (b & bs & e & es & s & ss & Eb & Ee & Es & L1 & L2 & HA).
    pose proof Ha as Ha2. unfold nd_ok in Ha2. rewrite Eb, Ee, Es in Ha2.
    apply addressable_cons in Ha2. destruct Ha2 as (He & Hb1 & Hb2 & _).
    cbn [torn_for_each].
    rewrite (nd_begin_at a b bs Eb), (nd_end_at a b bs e es Eb Ee) by (unconst; lia).
    do 2 (unfold bind at 1, lift at 1).
    unfold loop_fuel, it_at at 1 2. cbn [it_idx]. replace (b + e - b) with e by lia.
    replace (it_at a (b + e)) with (it_at a (b + Z.of_nat (Z.to_nat e))) by (f_equal; lia).
    rewrite each_loop_eq by (unconst; lia).
    rewrite (addrs_rows a b bs e es Eb Ee), mseq_flat_map. apply mseq_ext.
    intros i w' Hin. apply in_zseq in Hin. rewrite Z2Nat.id in Hin by lia.
    rewrite Ee in Hl. simpl in Hl. destruct n as [|n].
    + destruct es; simpl in Hl; [|lia]. destruct bs, ss; simpl in L1, L2; try lia.
      unfold it_deref_one. rewrite it_nd_at. cbn [it_idx it_at].
      rewrite (access_one_ok chk i a b e s) by auto.
      unfold bind at 1, lift at 1.
      unfold row_addrs. rewrite Eb, Ee. cbn [tl tuples map mseq].
      unfold addr. rewrite Es. cbn [dot]. rewrite Z.add_0_r.
      unfold torn_apply. unfold bind. destruct (load _ w') as [? ?|?|?| |]; auto.
      destruct (tear _ _ w0) as [? ?|?|?| |]; auto. destruct (store _ _ w1) as [[] ?|?|?| |]; auto.
    + assert (Hne : es <> []) by (destruct es; simpl in *; congruence).
      unfold it_deref_n. rewrite it_nd_at. cbn [it_idx it_at].
      rewrite (access_n_ok chk i a b bs e es s ss) by auto.
      unfold bind at 1, lift at 1. rewrite row_addrs_eq by auto.
      rewrite <- IH.
      * unfold row. rewrite Eb, Ee, Es. reflexivity.
      * apply row_ok; auto. rewrite Ee; auto.
      * simpl. rewrite Ee. simpl. lia.
Qed.

Lemma torn_copy_n_elems_eq : forall n first result (w : world T),
  torn_copy_n_elems u first n result w = torn_cells (map (fun i => (padd result i, padd first i)) (zseq 0 n)) w.
Proof.
  assert (G : forall n j first result (w : world T),
    torn_copy_n_elems u (padd first j) n (padd result j) w = torn_cells (map (fun i => (padd result i, padd first i)) (zseq j n)) w).
  { induction n as [|n IH]; intros j first result w; [reflexivity|].
    cbn [torn_copy_n_elems]. unfold zseq, torn_cells. cbn [seq map mseq fst snd]. rewrite Z.add_0_r. apply bind_ext; [reflexivity|].
    intros [] w'. rewrite !padd_padd. rewrite IH. unfold zseq, torn_cells. rewrite <- seq_shift, !map_map.
    f_equal. apply map_ext. intros i. do 2 f_equal; lia. }
  intros n first result w. rewrite <- (G n 0). rewrite !padd_0. auto.
Qed.

(** * one throwing operation *)

(** the result r, and if it throws, u at p *)
Definition tear_at {A} (p : ptr) (r : res T A) : res T A :=
  match r with
  | Thrown w1 => match hwrite (w_heap w1) p u with
                 | Ok h2 => Thrown (World h2 (w_fuse w1))
                 | _ => Undef
                 end
  | r => r
  end.

Lemma torn_seq {A} (f g : A -> M T unit) (tgt : A -> ptr) :
  (forall x h fu, fu <> Some O -> g x (World h fu) = f x (World h fu)) ->
  (forall x h, g x (World h (Some O)) = tear_at (tgt x) (f x (World h (Some O)))) ->
  (forall x h fu, match f x (World h fu) with Done _ w => fu = option_map S (w_fuse w) | Thrown _ => fu = Some O | _ => True end) ->
  forall l h fu, mseq g l (World h fu) =
    match fu with
    | Some k => match nth_error l k with Some x => tear_at (tgt x) (mseq f l (World h fu)) | None => mseq f l (World h fu) end
    | None => mseq f l (World h fu)
    end.
Proof.
  intros H1 H2 H3. induction l as [|x l IH]; intros h fu.
  - cbn [mseq]. destruct fu as [[|k]|]; reflexivity.
  - cbn [mseq]. unfold bind. destruct fu as [[|k]|].
    + rewrite H2. cbn [nth_error]. pose proof (H3 x h (Some O)) as K. destruct (f x (World h (Some O))) as [a w|w|w| |]; try reflexivity.
      * destruct (w_fuse w); discriminate K.
      * cbn [tear_at]. destruct (hwrite (w_heap w) (tgt x) u); reflexivity.
    + rewrite H1 by discriminate. cbn [nth_error]. pose proof (H3 x h (Some (S k))) as K. destruct (f x (World h (Some (S k)))) as [a w|w|w| |]; try discriminate K.
      * destruct w as [h1 [k1|]]; cbn [w_fuse option_map] in K; [|discriminate K]. injection K as <-. rewrite IH. reflexivity.
      * destruct (nth_error l k); reflexivity.
      * destruct (nth_error l k); reflexivity.
      * destruct (nth_error l k); reflexivity.
    + rewrite H1 by discriminate. pose proof (H3 x h None) as K. destruct (f x (World h None)) as [a w|w|w| |]; try reflexivity.
      destruct w as [h1 [k1|]]; cbn [w_fuse option_map] in K; [discriminate K|]. rewrite IH. reflexivity.
Qed.

Lemma tick_cases (w : world T) : tick w = Thrown (World (w_heap w) None) /\ w_fuse w = Some O \/
  exists f', tick w = Done tt (World (w_heap w) f') /\ w_fuse w = option_map S f'.
Proof.
  unfold tick. destruct w as [h [[|k]|]]; cbn [w_fuse w_heap].
  - left. auto.
  - right. exists (Some k). auto.
  - right. exists None. auto.
Qed.
Lemma tear_off p h fu : fu <> Some O -> tear u p (World h fu) = tick (World h fu).
Proof. intros H. unfold tear, on_throw. destruct (tick_cases (World h fu)) as [[_ E]|(f' & -> & _)]; [contradiction|reflexivity]. Qed.
Lemma tear_on p h : tear u p (World h (Some O)) = match hwrite h p u with Ok h2 => Thrown (World h2 None) | _ => Undef end.
Proof. unfold tear, on_throw, tick, store. cbn [w_fuse w_heap]. destruct (hwrite h p u); reflexivity. Qed.

Lemma store_fuse p v (w : world T) : match store p v w with Done _ w' => w_fuse w' = w_fuse w | Undef => True | _ => False end.
Proof. unfold store. destruct (hwrite _ _ _); auto. Qed.

Definition copy_cell (ds : ptr * ptr) : M T unit := elem_assign (fst ds) (snd ds).
Lemma copy_cells_seq l (w : world T) : copy_cells l w = mseq copy_cell l w.
Proof. revert w. induction l as [|[d s] l IH]; intros w; [reflexivity|]. cbn [copy_cells mseq]. apply bind_ext; auto. Qed.

Lemma torn_cells_eq l h fu : torn_cells l (World h fu) =
  match fu with
  | Some k => match nth_error l k with Some ds => tear_at (fst ds) (copy_cells l (World h fu)) | None => copy_cells l (World h fu) end
  | None => copy_cells l (World h fu)
  end.
Proof.
  unfold torn_cells. rewrite (torn_seq copy_cell _ fst).
  - destruct fu as [k|]; rewrite ?copy_cells_seq; auto.
  - intros [d s] h0 f0 H. unfold copy_cell, torn_elem_assign, elem_assign, load, lift, bind. cbn [fst snd w_heap].
    destruct (hread h0 s); try reflexivity. rewrite tear_off by auto. reflexivity.
  - intros [d s] h0. unfold copy_cell, torn_elem_assign, elem_assign, load, lift, bind. cbn [fst snd w_heap].
    destruct (hread h0 s); try reflexivity. rewrite tear_on. unfold tick. cbn [w_fuse w_heap tear_at].
    destruct (hwrite h0 d u); reflexivity.
  - intros [d s] h0 f0. unfold copy_cell, elem_assign, load, lift, bind. cbn [fst snd w_heap]. destruct (hread h0 s) as [v| |]; auto.
    destruct (tick_cases (World h0 f0)) as [[-> E]|(f' & -> & E)]; cbn [w_fuse w_heap] in *; auto.
    pose proof (store_fuse d v (World h0 f')) as K. destruct (store d v (World h0 f')); try tauto. rewrite K. exact E.
Qed.

Lemma torn_each_eq fn l h fu : mseq (torn_apply fn) l (World h fu) =
  match fu with
  | Some k => match nth_error l k with Some p => tear_at p (mseq (apply_cell fn) l (World h fu)) | None => mseq (apply_cell fn) l (World h fu) end
  | None => mseq (apply_cell fn) l (World h fu)
  end.
Proof.
  apply (torn_seq (apply_cell fn) _ (fun p => p)).
  - intros d h0 f0 H. unfold apply_cell, torn_apply, load, lift, bind. cbn [w_heap].
    destruct (hread h0 d); try reflexivity. rewrite tear_off by auto. reflexivity.
  - intros d h0. unfold apply_cell, torn_apply, load, lift, bind. cbn [w_heap].
    destruct (hread h0 d); try reflexivity. rewrite tear_on. unfold tick. cbn [w_fuse w_heap tear_at].
    destruct (hwrite h0 d u); reflexivity.
  - intros d h0 f0. unfold apply_cell, load, lift, bind. cbn [w_heap]. destruct (hread h0 d) as [v| |]; auto.
    destruct (tick_cases (World h0 f0)) as [[-> E]|(f' & -> & E)]; cbn [w_fuse w_heap] in *; auto.
    pose proof (store_fuse d (fn v) (World h0 f')) as K. destruct (store d (fn v) (World h0 f')); try tauto. rewrite K. exact E.
Qed.

Lemma torn_fill_eq : forall l out cc num h fu, torn_assign_loop u out l cc num (World h fu) =
  match fu with
  | Some k => tear_at (padd out (Z.of_nat k)) (assign_loop out l cc num (World h fu))
  | None => assign_loop out l cc num (World h fu)
  end.
Proof.
  induction l as [|v l IH]; intros out cc num h fu; cbn [torn_assign_loop assign_loop].
  - destruct fu; reflexivity.
  - destruct (cc <? num); [|destruct fu; reflexivity].
    unfold bind. destruct fu as [[|k]|].
    + rewrite tear_on. unfold tick. cbn [w_fuse w_heap tear_at]. rewrite padd_0. destruct (hwrite h out u); reflexivity.
    + rewrite tear_off by discriminate. unfold tick. cbn [w_fuse w_heap]. unfold store. cbn [w_fuse w_heap].
      destruct (hwrite h out v); try reflexivity. rewrite IH. rewrite padd_padd. do 2 f_equal. lia.
    + rewrite tear_off by discriminate. unfold tick. cbn [w_fuse w_heap]. unfold store. cbn [w_fuse w_heap].
      destruct (hwrite h out v); try reflexivity. rewrite IH. reflexivity.
Qed.

(** * nothing changes unless something throws *)

Definition calm {A} (m m' : M T A) : Prop :=
  forall w, match m w with Done _ _ | Aborted _ => m' w = m w | _ => True end.

Lemma calm_refl {A} (m : M T A) : calm m m.
Proof. intros w. destruct (m w); auto. Qed.
Lemma calm_bind {A B} (m m' : M T A) (f f' : A -> M T B) : calm m m' -> (forall a, calm (f a) (f' a)) -> calm (bind m f) (bind m' f').
Proof.
  intros H1 H2 w. unfold bind. specialize (H1 w). destruct (m w) as [a w1|w1|w1| |]; auto.
  - rewrite H1. apply H2.
  - rewrite H1. auto.
Qed.
Lemma calm_on_throw {A} (m m' : M T A) cl : calm m m' -> (forall w, match cl w with Aborted _ => False | _ => True end) ->
  calm (on_throw m cl) (on_throw m' cl).
Proof.
  intros H1 H2 w. unfold on_throw. specialize (H1 w). destruct (m w) as [a w1|w1|w1| |]; auto.
  - rewrite H1. auto.
  - specialize (H2 w1). destruct (cl w1); tauto || auto.
  - rewrite H1. auto.
Qed.
Lemma calm_tear p : calm (tick (T := T)) (tear u p).
Proof.
  intros w. unfold tear, on_throw. destruct (tick_cases w) as [[-> _]|(f' & -> & _)]; auto.
Qed.
Lemma calm_elem d s : calm (elem_assign d s) (torn_elem_assign u d s).
Proof.
  apply calm_bind; [apply calm_refl|]. intros v. apply calm_bind; [apply calm_tear|]. intros []. apply calm_refl.
Qed.
Lemma calm_copy_loop (b b' : iter -> iter -> M T unit) : (forall x y, calm (b x y) (b' x y)) ->
  forall fuel f l r, calm (copy_loop b fuel f l r) (copy_loop b' fuel f l r).
Proof.
  intros H. induction fuel as [|n IH]; intros f l r; cbn [copy_loop]; [apply calm_refl|].
  destruct (it_equal f l); [apply calm_refl|]. apply calm_bind; [apply H|]. intros [].
  apply calm_bind; [apply calm_refl|]. intros f'. apply calm_bind; [apply calm_refl|]. intros r'. apply IH.
Qed.
Lemma calm_each_loop (b b' : iter -> M T unit) : (forall x, calm (b x) (b' x)) ->
  forall fuel f l, calm (each_loop b fuel f l) (each_loop b' fuel f l).
Proof.
  intros H. induction fuel as [|n IH]; intros f l; cbn [each_loop]; [apply calm_refl|].
  destruct (it_equal f l); [apply calm_refl|]. apply calm_bind; [apply H|]. intros [].
  apply calm_bind; [apply calm_refl|]. intros f'. apply IH.
Qed.
Lemma calm_copy_rows rec rec' chk k dst src : (forall d s, calm (rec d s) (rec' d s)) ->
  calm (copy_rows rec chk k dst src) (torn_copy_rows u rec' chk k dst src).
Proof.
  intros H. unfold copy_rows, torn_copy_rows. do 3 (apply calm_bind; [apply calm_refl|intros ?]).
  apply calm_copy_loop. intros x y. destruct k; (do 2 (apply calm_bind; [apply calm_refl|intros ?])); [apply calm_elem|auto].
Qed.
Lemma calm_assign_nd chk : forall n dst src, calm (assign_nd chk n dst src) (torn_assign_nd u chk n dst src).
Proof.
  induction n as [|n IH]; intros dst src; cbn [assign_nd torn_assign_nd]; [apply calm_refl|].
  apply calm_bind; [apply calm_refl|]. intros []. apply calm_copy_rows. auto.
Qed.
Lemma calm_copy_dispatch chk : forall n dst src, calm (copy_dispatch chk n dst src) (torn_copy_dispatch u chk n dst src).
Proof.
  induction n as [|n IH]; intros dst src; cbn [copy_dispatch torn_copy_dispatch]; [apply calm_refl|].
  apply calm_copy_rows. auto.
Qed.
Lemma calm_std_copy chk n dst src : calm (std_copy_nd chk n dst src) (torn_std_copy_nd u chk n dst src).
Proof. destruct n; cbn [std_copy_nd torn_std_copy_nd]; [apply calm_refl|]. apply calm_copy_rows. apply calm_assign_nd. Qed.
Lemma calm_for_each chk fn : forall n a, calm (for_each chk fn n a) (torn_for_each u chk fn n a).
Proof.
  induction n as [|n IH]; intros a; cbn [for_each torn_for_each]; [apply calm_refl|].
  do 2 (apply calm_bind; [apply calm_refl|intros ?]). apply calm_each_loop. intros x. destruct n.
  - do 2 (apply calm_bind; [apply calm_refl|intros ?]). apply calm_bind; [apply calm_tear|intros ?]. apply calm_refl.
  - apply calm_bind; [apply calm_refl|intros ?]. apply IH.
Qed.
Lemma calm_assign_loop : forall l out cc num, calm (assign_loop out l cc num) (torn_assign_loop u out l cc num).
Proof.
  induction l as [|v l IH]; intros out cc num; cbn [assign_loop torn_assign_loop]; [apply calm_refl|].
  destruct (cc <? num); [|apply calm_refl]. apply calm_bind; [apply calm_tear|]. intros []. apply calm_bind; [apply calm_refl|]. auto.
Qed.
Lemma calm_copy_n : forall n f r, calm (copy_n_elems f n r) (torn_copy_n_elems u f n r).
Proof.
  induction n as [|n IH]; intros f r; cbn [copy_n_elems torn_copy_n_elems]; [apply calm_refl|].
  apply calm_bind; [apply calm_elem|]. auto.
Qed.
Lemma destroy_n_calm p : forall n (w : world T), match alloc_destroy_n p n w with Aborted _ => False | _ => True end.
Proof.
  induction n as [|n IH]; intros w; cbn [alloc_destroy_n]; [exact I|]. unfold bind, destroy.
  destruct (hcell (w_heap w) _) as [[v|]|]; auto. destruct (hset _ _ _); auto. apply IH.
Qed.
Lemma ma_destroy_calm m (w : world T) : match ma_destroy m w with Aborted _ => False | _ => True end.
Proof.
  unfold ma_destroy, bind. pose proof (destroy_n_calm (ma_base m) (Z.to_nat (ma_alloc_elems m)) w) as H.
  destruct (alloc_destroy_n _ _ w) as [[] w1|?|?| |]; auto. unfold deallocate.
  destruct (hblock (w_heap w1) _) as [b|]; auto. destruct (_ && _); auto.
Qed.

Variable dflt : T.
Variable eqT : T -> T -> bool.
Variable ltT : T -> T -> bool.

Lemma calm_resize chk m g : calm (ma_resize dflt chk m g) (torn_ma_resize u dflt chk m g).
Proof.
  unfold ma_resize, torn_ma_resize. destruct (Nat.eqb _ _); [|apply calm_refl].
  apply calm_bind; [apply calm_refl|]. intros nw. apply calm_bind; [|intros ?; apply calm_refl].
  apply calm_on_throw; [|apply ma_destroy_calm]. do 5 (apply calm_bind; [apply calm_refl|intros ?]). apply calm_assign_nd.
Qed.

Lemma calm_exec chk en c : calm (exec dflt eqT ltT chk en c) (torn_exec u dflt eqT ltT chk en c).
Proof.
  destruct c; cbn [exec torn_exec]; try apply calm_refl.
  - (* NewCopy *)
    apply calm_bind; [apply calm_refl|intros b]. apply calm_bind; [|intros ?; apply calm_refl]. unfold ma_copy, torn_ma_copy.
    apply calm_bind; [apply calm_refl|intros ?]. apply calm_bind; [apply calm_copy_n|intros ?; apply calm_refl].
  - (* NewFrom *)
    apply calm_bind; [apply calm_refl|intros b]. apply calm_bind; [|intros ?; apply calm_refl]. unfold ma_convert, torn_ma_convert.
    do 2 (apply calm_bind; [apply calm_refl|intros ?]). apply calm_bind; [apply calm_std_copy|intros ?; apply calm_refl].
  - (* Assign *)
    do 2 (apply calm_bind; [apply calm_refl|intros ?]). apply calm_bind; [apply calm_assign_nd|intros ?; apply calm_refl].
  - (* AssignVar *)
    do 2 (apply calm_bind; [apply calm_refl|intros ?]). apply calm_bind; [|intros ?; apply calm_refl].
    unfold ma_assign, torn_ma_assign. destruct (Nat.eqb _ _); [apply calm_refl|apply calm_assign_nd].
  - (* CopyArray *)
    do 2 (apply calm_bind; [apply calm_refl|intros ?]). apply calm_bind; [|intros ?; apply calm_refl].
    unfold copy_array, torn_copy_array. apply calm_bind; [apply calm_refl|intros ?]. apply calm_copy_dispatch.
  - (* Set *)
    apply calm_bind; [apply calm_refl|intros b]. apply calm_bind; [|intros ?; apply calm_refl].
    unfold set_element, torn_set_element. apply calm_bind; [apply calm_refl|intros ?]. apply calm_bind; [apply calm_tear|intros ?; apply calm_refl].
  - (* SetB *)
    apply calm_bind; [apply calm_refl|intros b]. apply calm_bind; [|intros ?; apply calm_refl].
    unfold set_bracket, torn_set_bracket. apply calm_bind; [apply calm_refl|intros ?]. apply calm_bind; [apply calm_tear|intros ?; apply calm_refl].
  - (* Fill *)
    apply calm_bind; [apply calm_refl|intros b]. apply calm_bind; [apply calm_assign_loop|intros ?; apply calm_refl].
  - (* FillRef *)
    apply calm_bind; [apply calm_refl|intros [v|c]]; [apply calm_refl|]. apply calm_bind; [apply calm_assign_loop|intros ?; apply calm_refl].
  - (* ForEach *)
    apply calm_bind; [apply calm_refl|intros b]. apply calm_bind; [apply calm_for_each|intros ?; apply calm_refl].
  - (* Resize *)
    do 2 (apply calm_bind; [apply calm_refl|intros ?]). apply calm_bind; [apply calm_resize|intros ?; apply calm_refl].
  - (* ResizeList *)
    apply calm_bind; [apply calm_refl|intros ?]. apply calm_bind; [|intros ?; apply calm_refl].
    unfold ma_resize_list, torn_ma_resize_list. apply calm_bind; [apply calm_refl|intros ?]. apply calm_resize.
Qed.

(** * a block being filled *)

Lemma torn_new aid c (h : heap T) vs p : array_object c -> length vs = Z.to_nat (cr_num c) ->
  p_blk p = length h -> 0 <= p_off p < cr_num c ->
  exists vs', length vs' = length vs /\
    hwrite (h ++ [Some (Block aid (map Some vs))]) p u = Ok (h ++ [Some (Block aid (map Some vs'))]).
Proof.
  intros Hc Lv Hb Ho. pose proof (new_owns c aid h vs Hc Lv) as HO. exists (set_nth (Z.to_nat (p_off p)) u vs).
  split; [apply length_set_nth|].
  pose proof (store_owned _ _ _ (Z.to_nat (p_off p)) u None HO ltac:(lia)) as E. unfold new_ma, ma_block in E. cbn [ma_base ma_aid p_blk] in E.
  rewrite set_nth_app_last in E. rewrite Z2Nat.id in E by lia. destruct p as [b o]. cbn [p_blk p_off] in *. subst b.
  unfold store in E. cbn [w_heap w_fuse] in E. destruct (hwrite _ _ _) as [h2| |]; try discriminate E. injection E as ->. reflexivity.
Qed.

Lemma torn_building aid c (h : heap T) l f vs h0 :
  copy_cells l (World h0 f) = Thrown (World (h ++ [Some (Block aid (map Some vs))]) None) ->
  array_object c -> length vs = Z.to_nat (cr_num c) ->
  (forall d s, In (d, s) l -> p_blk d = length h /\ 0 <= p_off d < cr_num c) ->
  exists vs', length vs' = length vs /\
    torn_cells l (World h0 f) = Thrown (World (h ++ [Some (Block aid (map Some vs'))]) None).
Proof.
  intros E Hc Lv Hl. rewrite torn_cells_eq. destruct f as [k|]; [|eauto]. destruct (nth_error l k) as [[d s]|] eqn:EN; [|eauto].
  rewrite E. cbn [fst tear_at w_heap w_fuse]. apply nth_error_In in EN. destruct (Hl d s EN) as [H1 H2].
  destruct (torn_new aid c h vs d Hc Lv H1 H2) as (vs' & L' & ->). eauto.
Qed.

Lemma new_addr c aid (h : heap T) k : array_object c -> in_bounds (repeat 0 (length (cr_ext c))) (cr_ext c) k ->
  let p := addr (cr_nd (ma_ref (new_ma c aid (length h)))) (tadd (cr_ib c) k) in p_blk p = length h /\ 0 <= p_off p < cr_num c.
Proof.
  intros Hc Hb. assert (Hc' : array_object (ma_ref (new_ma c aid (length h)))) by (apply ao_set_base; auto).
  pose proof (array_object_ok _ Hc') as Hok. pose proof (cref_ok_len _ Hok) as [Lb _]. change (length (cr_ib c) = length (cr_ext c)) in Lb.
  destruct (cref_cell _ (tadd (cr_ib c) k) Hok) as (o & Ho & E); [apply tadd_in_bounds; auto|].
  cbv zeta. rewrite E. unfold new_ma, cr_data, padd. cbn. unfold new_ma, cr_num_elements, cr_set_base in Ho. cbn [ma_ref cr_num] in Ho. split; [auto|lia].
Qed.

Lemma torn_copy_thrown a vs (h : heap T) k h1 : owns h a vs -> ma_copy dflt a (World h (Some k)) = Thrown (World h1 None) ->
  exists h2, torn_ma_copy u dflt a (World h (Some k)) = Thrown (World h2 None) /\
    (h2 = h1 \/ exists x y, h1 = h ++ [Some x] /\ h2 = h ++ [Some y]).
Proof.
  intros Ho E. pose proof Ho as (Ha & Hdata & Hoff & Hal & Hlen & Hblk). unfold cr_num_elements in Hlen.
  assert (HN : Z.to_nat (cr_num (ma_ref a)) = length vs) by lia.
  pose proof (copy_exact dflt a vs h (Some k) Ho) as HX. rewrite E in HX. unfold ma_copy, bind in E. unfold torn_ma_copy, bind.
  destruct (allocate_space_cases dflt (ma_ref a) (ma_aid a) h (Some k) Ha) as [(k0 & [= <-] & Hk & [[K0 EA]|[K0 EA]])|[Hf EA]]; rewrite EA in *.
  - exists h. injection E as <-. auto.
  - eexists. split; [reflexivity|]. left. congruence.
  - destruct HX as [(k' & h' & [= <-] & _ & [= <-] & HX)|(_ & X & _)]; [|discriminate X]. cbn [enough] in Hf.
    destruct HX as [[-> _]|[[K _]|(K & vs' & Lv & ->)]]; [lia|lia|].
    rewrite copy_n_elems_eq in E. rewrite torn_copy_n_elems_eq.
    destruct (copy_cells _ _) as [? ?|w|?| |] eqn:EC in E; try discriminate E. injection E as ->.
    destruct (torn_building (ma_aid a) (ma_ref a) h _ _ vs' _ EC Ha ltac:(lia)) as (vs2 & L2 & E2).
    { intros d s H. apply in_map_iff in H. destruct H as (i & X & Hi). apply in_zseq in Hi. injection X as <- <-.
      unfold new_ma. cbn [ma_base padd p_blk p_off]. split; [auto|lia]. }
    rewrite E2. eexists. split; [reflexivity|]. right. eauto.
Qed.

Lemma torn_convert_thrown chk c x so aid (h : heap T) k h1 : array_object c -> derived c x -> live h c ->
  order_ok (length (nd_ext x)) so -> layout_ok so (nd_base x) (nd_ext x) ->
  ma_convert dflt chk x so aid (World h (Some k)) = Thrown (World h1 None) ->
  exists h2, torn_ma_convert u dflt chk x so aid (World h (Some k)) = Thrown (World h2 None) /\
    (h2 = h1 \/ exists y z, h1 = h ++ [Some y] /\ h2 = h ++ [Some z]).
Proof.
  intros Hc Hx Hl Hso Hlay E. pose proof (derived_ok c x Hc Hx) as Hxok.
  pose proof (convert_outcomes dflt chk c x so aid h (Some k) Hc Hx Hl Hso Hlay) as HX. rewrite E in HX.
  destruct (from_shape_ok chk null_ptr (nd_base x) (nd_ext x) so Hso Hlay) as (c' & Ec & Hcok & Eb & Es & Ee & Ei).
  assert (Hc' : array_object c') by (eapply ao_shape; eauto).
  assert (HNx : Z.to_nat (cr_num c') = Z.to_nat (prod (nd_ext x))).
  { destruct Hcok as (_ & _ & _ & _ & ->). rewrite Ee. auto. }
  unfold ma_convert in E. unfold torn_ma_convert. rewrite Ec in *. cbv zeta in *. unfold lift, bind in *.
  destruct (allocate_space_cases dflt c' aid h (Some k) Hc') as [(k0 & [= <-] & Hk & [[K0 EA]|[K0 EA]])|[Hf EA]]; rewrite EA in *.
  - exists h. injection E as <-. auto.
  - eexists. split; [reflexivity|]. left. congruence.
  - destruct HX as [(k' & h' & [= <-] & [= <-] & HX)|(? & ? & ? & _ & X & _)]; [|discriminate X]. cbn [enough] in Hf.
    destruct HX as [[-> _]|[[K _]|(K & vs' & Lv & ->)]]; [lia|lia|].
    set (new := new_ma c' aid (length h)) in *.
    assert (Hnew : nd_ok (cr_nd (ma_ref new))) by (apply cref_addressable, set_base_ok; auto).
    rewrite std_copy_nd_eq in E by (auto; exact Ee). rewrite torn_std_copy_nd_eq by (auto; exact Ee).
    rewrite copy_pairs in E by (auto; exact Ee). rewrite copy_pairs by (auto; exact Ee).
    destruct (copy_cells _ _) as [? ?|w|?| |] eqn:EC in E; try discriminate E. injection E as ->.
    destruct (torn_building aid c' h _ _ vs' _ EC Hc' ltac:(lia)) as (vs2 & L2 & E2).
    { intros d s H. apply in_map_iff in H. destruct H as (i & X & Hi). apply in_positions in Hi. injection X as <- <-.
      apply (new_addr c' aid); auto. }
    rewrite E2. eexists. split; [reflexivity|]. right. eauto.
Qed.

Lemma torn_resize_eq chk a g c :
  cref_ok (ma_ref a) -> eg_num g = length (cr_ext (ma_ref a)) ->
  cref_from_gen chk null_ptr g (cr_storage (ma_ref a)) = Ok c -> cref_ok c ->
  length (cr_ext c) = length (cr_ext (ma_ref a)) ->
  forall mins, min_extents (cr_ext c) (cr_ext (ma_ref a)) = Ok mins ->
    Forall2 (fun m e => 0 <= m <= e) mins (cr_ext c) ->
    Forall2 (fun m e => 0 <= m <= e) mins (cr_ext (ma_ref a)) ->
  forall (h : heap T) f,
  torn_ma_resize u dflt chk a g (World h f) =
  (new <~ allocate_space dflt c (ma_aid a) ;;
   _ <~ on_throw (torn_cells (resize_pairs (ma_ref a) (ma_ref new) mins)) (ma_destroy new) ;;
   _ <~ ma_destroy a ;; ret new) (World h f).
Proof.
  intros Ha Hg Ec Hc Hlen mins Em M1 M2 h f.
  unfold torn_ma_resize. rewrite Hg, Nat.eqb_refl. unfold ma_from_gen. rewrite Ec.
  assert (NN : forall w, match allocate_space dflt c (ma_aid a) w with Done n _ => exists p, n = MA (cr_set_base c p) p (cr_num c) (ma_aid a) | _ => True end).
  { intros w. unfold allocate_space, bind. destruct (allocate _ _ w) as [p w1| | | |]; auto.
    destruct (alloc_construct_n _ _ _ w1); auto. exists p. reflexivity. }
  specialize (NN (World h f)).
  apply bind_ext_res; [reflexivity|]. intros new w1 E1. rewrite E1 in NN. destruct NN as [p ->].
  cbn [ma_ref]. set (nc := cr_set_base c p).
  assert (Hnc : cref_ok nc) by (apply set_base_ok; auto).
  destruct (corner_view chk (cr_nd nc) mins (cref_addressable _ Hnc) M1) as (rs1 & v1 & P1 & V1 & K1 & X1 & B1 & Ad1).
  destruct (corner_view chk (cr_nd (ma_ref a)) mins (cref_addressable _ Ha) M2) as (rs2 & v2 & P2 & V2 & K2 & X2 & B2 & Ad2).
  cbn [cr_nd nd_base nd_ext] in *. change (cr_ext nc) with (cr_ext c) in *. rewrite Hlen in V1, Ad1, B1.
  apply bind_ext_res.
  - unfold on_throw. rewrite Em. rewrite (bind_lift_ok mins) by auto. change (cr_ib nc) with (cr_ib c) in *.
    rewrite (bind_lift_ok rs1) by auto. rewrite (bind_lift_ok rs2) by auto.
    rewrite (bind_lift_ok v2) by exact V2. rewrite (bind_lift_ok v1) by exact V1.
    rewrite torn_assign_nd_eq; auto.
    2:{ cbn [v_nd nd_ext]. congruence. }
    2:{ cbn [v_nd nd_ext]. rewrite X2. apply Forall2_length in M2. auto. }
    replace (combine (addrs (v_nd v1)) (addrs (v_nd v2))) with (resize_pairs (ma_ref a) nc mins); auto.
    rewrite copy_pairs; auto; [|cbn [v_nd nd_ext]; congruence].
    cbn [v_nd nd_ext nd_base]. rewrite X1, B1, B2. unfold resize_pairs.
    apply map_ext_in. intros k Hk. pose proof (length_positions _ _ Hk) as Lk.
    pose proof (Forall2_length _ _ _ M2) as LM.
    assert (Z0 : forall n k, length k = n -> tadd (repeat 0 n) k = k).
    { induction n as [|n IH]; intros [|x l] Hl; simpl in *; try lia; auto. f_equal. apply IH. lia. }
    rewrite !Z0 by congruence.
    rewrite Ad1, Ad2 by congruence. auto.
  - intros [] w2 E2. reflexivity.
Qed.

(** resize gives the damaged block back *)
Lemma torn_resize_same chk a vs g bases shape (h : heap T) f :
  owns h a vs -> length shape = length (cr_ext (ma_ref a)) ->
  layout_ok (cr_storage (ma_ref a)) bases shape ->
  eg_num g = length shape -> ranges_are (eg_ranges g) bases shape ->
  torn_ma_resize u dflt chk a g (World h f) = ma_resize dflt chk a g (World h f).
Proof.
  intros Ho Hlen Hl Hg HR. pose proof Ho as (Ha & Hdata & _). pose proof (array_object_ok _ Ha) as Hok.
  assert (Hso : order_ok (length shape) (cr_storage (ma_ref a))) by (rewrite Hlen; apply Hok).
  destruct (from_gen_ok chk null_ptr bases shape g (cr_storage (ma_ref a)) Hso Hl Hg HR) as (c & Ec & Hcok & Eb & Es & Ee & Ei).
  assert (Hc : array_object c) by (eapply (ao_gen chk null_ptr bases shape g); eauto).
  destruct (resize_eq_all dflt chk a g c Hok) as (mins & Em & M1 & M2 & M3 & E); auto; [congruence|congruence|].
  rewrite E. rewrite (torn_resize_eq chk a g c Hok ltac:(congruence) Ec Hcok ltac:(congruence) mins Em M1 M2).
  destruct (allocate_space_cases dflt c (ma_aid a) h f Hc) as [(k & Ef & Hk & [[K0 EA]|[K0 EA]])|[Hf EA]].
  - unfold bind. rewrite EA. reflexivity.
  - unfold bind. rewrite EA. reflexivity.
  - unfold bind. rewrite EA. set (N := Z.to_nat (cr_num c)) in *. set (new := new_ma c (ma_aid a) (length h)) in *.
    set (f1 := spend f (1 + N)) in *. set (h0 := h ++ _) in *.
    assert (HB : forall k, In k (positions mins) -> in_bounds (repeat 0 (length (cr_ext c))) (cr_ext c) k /\
       in_bounds (repeat 0 (length (cr_ext (ma_ref a)))) (cr_ext (ma_ref a)) k).
    { intros k Hk. apply in_positions in Hk. apply M3; auto. }
    assert (Lib : length (cr_ib (ma_ref a)) = length (cr_ext (ma_ref a))) by (apply cref_ok_len; auto).
    destruct (build_new dflt c (ma_aid a) h (positions mins) (fun k => addr (cr_nd (ma_ref a)) (tadd (cr_ib (ma_ref a)) k))
       f1 Hc (nodup_positions mins)) as [BD BT].
    { intros k Hk. destruct (HB k Hk) as [H1 H2]. split; auto. apply element_at_init. apply (owns_live a vs h Ho).
      apply cref_cell; auto. apply tadd_in_bounds; auto. }
    fold N new h0 in BD, BT.
    assert (PP : resize_pairs (ma_ref a) (ma_ref new) mins =
      map (fun k => (addr (cr_nd (ma_ref new)) (tadd (cr_ib c) k), addr (cr_nd (ma_ref a)) (tadd (cr_ib (ma_ref a)) k))) (positions mins)) by reflexivity.
    rewrite PP. unfold on_throw. destruct (enough_dec f1 (length (positions mins))) as [Hf2|Hf2].
    + destruct (BD Hf2) as (vs' & E1 & _). rewrite torn_cells_eq, E1. destruct f1 as [k1|]; [|reflexivity].
      destruct (nth_error _ k1); reflexivity.
    + destruct (BT Hf2) as (vs' & Lv & E1).
      destruct (torn_building (ma_aid a) c h _ _ vs' _ E1 Hc Lv) as (vs2 & L2 & E2).
      { intros d s H. apply in_map_iff in H. destruct H as (i & X & Hi). injection X as <- <-. apply (new_addr c (ma_aid a)); auto. apply HB; auto. }
      assert (D : forall vs0, length vs0 = N -> ma_destroy new (World (h ++ [Some (Block (ma_aid a) (map Some vs0))]) None) = Done tt (World (h ++ [None]) None)).
      { intros vs0 L0. rewrite (owns_destroy new vs0) by (apply new_owns; auto). unfold new, new_ma, ma_block. cbn [ma_base p_blk]. rewrite set_nth_app_last. reflexivity. }
      rewrite E1, E2, !D by congruence. reflexivity.
Qed.

(** * one command, with operation k throwing *)

Lemma put_tear st en (h : heap T) d p i st' : related st en h -> stands_for (e_vars en) d p -> put st p i u st' ->
  exists h', hwrite h (addr d i) u = Ok h' /\ related st' en h' /\ still h h'.
Proof.
  intros HR HS (Hi & a & Ea & ->).
  destruct (stands_owner _ _ _ _ _ HR HS) as (c & m & a' & Em & Ea' & Hr & Hc & Hd & HL & Hok & Eb & Ee & Ei).
  rewrite <- (array_fun _ _ _ _ Ea Ea') in *. clear a' Ea'. destruct (Ei i Hi) as [EA HP]. pose proof (proj1 Hr) as Ho.
  pose proof (store_owned _ _ _ _ u None Ho HP) as E. rewrite EA. unfold store in E. cbn [w_heap w_fuse] in E.
  destruct (hwrite _ _ _) as [h2| |]; try discriminate E. injection E as ->. eexists. split; [reflexivity|].
  apply related_set; auto. apply length_set_nth.
Qed.

Lemma tear_bind {A B} (m m' : M T A) (f : A -> B) p w : m' w = tear_at p (m w) ->
  (a <~ m' ;; ret (f a)) w = tear_at p ((a <~ m ;; ret (f a)) w).
Proof.
  intros E. unfold bind. rewrite E. destruct (m w) as [a w1|w1|w1| |]; try reflexivity.
  cbn [tear_at]. destruct (hwrite _ _ _); reflexivity.
Qed.

(** from an interrupted element-wise operation and the next element *)
Lemma torn_elementwise st en (h : heap T) c o st' chk n k st1 st2 d p i : related st en h -> step dflt eqT ltT st c o st' -> costs st c n -> (k < n)%nat ->
  interrupted st k c st1 -> stands_for (e_vars en) d p -> put st1 p i u st2 ->
  torn_exec u dflt eqT ltT chk en c (World h (Some k)) = tear_at (addr d i) (exec dflt eqT ltT chk en c (World h (Some k))) ->
  exists h', torn_exec u dflt eqT ltT chk en c (World h (Some k)) = Thrown (World h' None) /\ related st2 en h' /\
    (length h <= length h')%nat /\
    forall b, leaked en h' b <-> leaked en h b \/ loses k c = true /\ b = length h.
Proof.
  intros HR HS HC Hk HI Hd HP E. destruct (exec_thrown dflt eqT ltT st en h c o st' chk n k st1 HR HS HC Hk HI) as (h1 & E1 & HR1 & L1 & K1).
  rewrite E, E1. cbn [tear_at w_heap w_fuse]. destruct (put_tear st1 en h1 d p i st2 HR1 Hd HP) as (h2 & -> & HR2 & HS2).
  exists h2. split; [reflexivity|]. split; [auto|]. split; [destruct HS2 as [-> _]; auto|].
  intros b. rewrite (leaked_still en h1 h2) by auto. auto.
Qed.
Lemma torn_nothing st en (h : heap T) c o st' chk n k st1 : related st en h -> step dflt eqT ltT st c o st' -> costs st c n -> (k < n)%nat ->
  interrupted st k c st1 ->
  torn_exec u dflt eqT ltT chk en c (World h (Some k)) = exec dflt eqT ltT chk en c (World h (Some k)) ->
  exists h', torn_exec u dflt eqT ltT chk en c (World h (Some k)) = Thrown (World h' None) /\ related st1 en h' /\
    (length h <= length h')%nat /\
    forall b, leaked en h' b <-> leaked en h b \/ loses k c = true /\ b = length h.
Proof. intros HR HS HC Hk HI ->. eapply exec_thrown; eauto. Qed.

(** a constructor that loses one block instead of another *)
Lemma torn_lost st en (h : heap T) c o st' chk n k : related st en h -> step dflt eqT ltT st c o st' -> costs st c n -> (k < n)%nat ->
  interrupted st k c st ->
  (forall h1, exec dflt eqT ltT chk en c (World h (Some k)) = Thrown (World h1 None) ->
     exists h2, torn_exec u dflt eqT ltT chk en c (World h (Some k)) = Thrown (World h2 None) /\
      (h2 = h1 \/ exists x y, h1 = h ++ [Some x] /\ h2 = h ++ [Some y])) ->
  exists h', torn_exec u dflt eqT ltT chk en c (World h (Some k)) = Thrown (World h' None) /\ related st en h' /\
    (length h <= length h')%nat /\
    forall b, leaked en h' b <-> leaked en h b \/ loses k c = true /\ b = length h.
Proof.
  intros HR HS HC Hk HI H. destruct (exec_thrown dflt eqT ltT st en h c o st' chk n k st HR HS HC Hk HI) as (h1 & E1 & HR1 & L1 & K1).
  destruct (H h1 E1) as (h2 & E2 & [->|(x & y & -> & ->)]).
  - exists h1. auto.
  - exists (h ++ [Some y]). split; [auto|]. split; [apply related_app; auto|]. split; [rewrite app_length; lia|].
    intros b. rewrite <- K1, !(leaked_app st) by auto. tauto.
Qed.

Lemma copies_combine dst src k i : nd_ok dst -> nd_ok src -> nd_ext dst = nd_ext src ->
  nth_error (all_positions (nd_ext dst)) k = Some i ->
  nth_error (combine (addrs dst) (addrs src)) k = Some (addr dst (tadd (nd_base dst) i), addr src (tadd (nd_base src) i)).
Proof.
  intros H1 H2 H3 H. rewrite copy_pairs by auto. rewrite nth_error_map. change (positions (nd_ext dst)) with (all_positions (nd_ext dst)).
  rewrite H. reflexivity.
Qed.

Lemma assign_torn en chk d s pd ps j h st k : related st en h -> stands_for (e_vars en) d pd -> stands_for (e_vars en) s ps ->
  pl_shape pd = pl_shape ps -> nth_error (all_positions (pl_shape pd)) k = Some j ->
  torn_assign_nd u chk (length (nd_ext d)) d s (World h (Some k)) =
    tear_at (addr d (tadd (pl_bases pd) j)) (assign_nd chk (length (nd_ext d)) d s (World h (Some k))) /\
  torn_copy_array u chk (length (nd_ext d)) d s (World h (Some k)) =
    tear_at (addr d (tadd (pl_bases pd) j)) (copy_array chk (length (nd_ext d)) d s (World h (Some k))).
Proof.
  intros HR Hd Hs HE Hj. pose proof (stands_same en d s pd ps Hd Hs HE) as EE.
  destruct (stands_owner _ _ _ _ _ HR Hd) as (? & ? & ? & _ & _ & _ & _ & _ & _ & Hok & Eb & Ee & _).
  destruct (stands_owner _ _ _ _ _ HR Hs) as (? & ? & ? & _ & _ & _ & _ & _ & _ & Hok' & _).
  rewrite <- Ee in Hj. pose proof (copies_combine d s k j Hok Hok' EE Hj) as EC.
  rewrite torn_assign_nd_eq, torn_copy_array_eq, assign_nd_eq, copy_array_eq by (auto; congruence).
  rewrite torn_cells_eq, EC. cbn [fst]. rewrite Eb. auto.
Qed.

Lemma skipn_next {A} : forall (l : list A) n x r, skipn n l = x :: r -> r = skipn (S n) l.
Proof.
  induction l as [|y l IH]; intros [|n] x r E; try discriminate E.
  - simpl in E. simpl. congruence.
  - cbn [skipn] in E. rewrite (IH n x r E). reflexivity.
Qed.
Lemma torn_filled_from a j n l k : (k < length l)%nat -> (k < n)%nat -> (j + n <= length (a_elems a))%nat ->
  filled_from a j n (firstn k l ++ [u]) = a_set (filled_from a j n (firstn k l)) (j + k) u.
Proof.
  intros H1 H2 H3. unfold filled_from, a_set. cbn [a_shape a_bases a_order a_alloc a_elems]. f_equal.
  rewrite !app_length, firstn_length. cbn [length]. rewrite !firstn_all2 with (n := n) by (rewrite ?app_length, firstn_length; simpl; lia).
  rewrite !Nat.min_r by lia. rewrite (Nat.min_l k) by lia.
  assert (LK : length (firstn k l) = k) by (rewrite firstn_length; lia).
  assert (LJ : length (firstn j (a_elems a)) = j) by (rewrite firstn_length; lia).
  rewrite !app_assoc. rewrite <- (app_assoc _ (firstn k l)).
  set (pre := firstn j (a_elems a) ++ firstn k l). assert (LP : length pre = (j + k)%nat) by (unfold pre; rewrite app_length; lia).
  rewrite app_assoc. fold pre. destruct (skipn (j + k) (a_elems a)) as [|y r] eqn:ES.
  - pose proof (skipn_length (j + k) (a_elems a)) as X. rewrite ES in X. cbn [length] in X. lia.
  - replace (skipn (j + (k + 1)) (a_elems a)) with r.
    + rewrite Nat.min_r, ES by lia. rewrite <- LP at 1. rewrite set_nth_app_len, <- app_assoc. reflexivity.
    + replace (j + (k + 1))%nat with (1 + (j + k))%nat by lia. exact (skipn_next _ _ _ _ ES).
Qed.


Lemma fill_torn st en (h h1 : heap T) x a m off c l k : array_is st x a -> nth_error (e_vars en) x = Some (Some m) ->
  lies_at off c m -> Z.of_nat (length (a_elems a)) = cr_num_elements (ma_ref m) -> let n := Z.to_nat (cr_num_elements c) in (k < length l)%nat -> (k < n)%nat ->
  cr_assign c l (World h (Some k)) = Thrown (World h1 None) ->
  related (set_array st x (filled_from a (Z.to_nat off) n (firstn k l))) en h1 ->
  exists h2, torn_cr_assign u c l (World h (Some k)) = Thrown (World h2 None) /\
    related (set_array st x (filled_from a (Z.to_nat off) n (firstn k l ++ [u]))) en h2 /\ still h1 h2.
Proof.
  intros Ha Em (HO & HD & HN) HL n Hk1 Hk2 E HR1. set (a1 := filled_from a (Z.to_nat off) n (firstn k l)) in *.
  assert (Ln : (Z.to_nat off + n <= length (a_elems a))%nat) by lia.
  assert (Lx : (x < length (s_arrays st))%nat) by (apply nth_error_Some; unfold array_is in Ha; congruence).
  assert (Ha1 : array_is (set_array st x a1) x a1) by (unfold array_is, set_array; cbn [s_arrays]; apply nth_error_set_nth_eq; auto).
  destruct (relA_var _ _ _ _ _ (proj1 HR1) Ha1) as (m' & Em' & Hr). rewrite Em in Em'. injection Em' as <-. pose proof (proj1 Hr) as Ho.
  assert (L1 : length (a_elems a1) = length (a_elems a)).
  { unfold a1, filled_from. cbn [a_elems]. rewrite !app_length, skipn_length, !firstn_length. lia. }
  destruct (related_set _ en h1 x a1 m (set_nth (Z.to_nat off + k) u (a_elems a1)) HR1 Ha1 Em) as [A B]; [apply length_set_nth|].
  pose proof (store_owned _ _ _ (Z.to_nat off + k) u None Ho ltac:(lia)) as ES.
  unfold store in ES. cbn [w_heap w_fuse] in ES. destruct (hwrite _ _ _) as [h2| |] eqn:EW in ES; try discriminate ES. injection ES as ->.
  eexists. split; [|split; [|exact B]].
  - unfold torn_cr_assign, cr_assign in *. rewrite torn_fill_eq. change (cr_num_elements c) with (cr_num c) in E || idtac. rewrite E.
    cbn [tear_at w_heap w_fuse]. replace (padd (cr_base c) (Z.of_nat k)) with (Ptr (ma_block m) (Z.of_nat (Z.to_nat off + k))).
    + rewrite EW. reflexivity.
    + unfold cr_data in HD. rewrite HD. unfold padd. cbn [p_blk p_off]. f_equal. lia.
  - unfold a1 in A. rewrite torn_filled_from by auto. fold a1 in A |- *. unfold a_set.
    unfold set_array in A. cbn [s_arrays s_named] in A. rewrite set_nth_set_nth in A. exact A.
Qed.

Lemma torn_thrown st en (h : heap T) c o st' chk n k st2 : related st en h -> step dflt eqT ltT st c o st' -> costs st c n -> (k < n)%nat ->
  torn st k u c st2 ->
  exists h', torn_exec u dflt eqT ltT chk en c (World h (Some k)) = Thrown (World h' None) /\ related st2 en h' /\
    (length h <= length h')%nat /\
    forall b, leaked en h' b <-> leaked en h b \/ loses k c = true /\ b = length h.
Proof.
  intros HR HS HC Hk HT.
  destruct HT as [n0 aid|shape so aid|rs so aid|y|e so aid|x rs|x shape|e i v p st2 Hp HP|e i v p st2 Hp HP
    |dst src pd ps j st1 st2 Hd Hs Hcp Hj HP|x y pd ps j st1 st2 Hd Hs Hxy Hcp Hj HP|dst src pd ps j st1 st2 Hd Hs Hcp Hj HP
    |x l a Ha|q l x off bases shape so a Hq Ha|e f p i st1 st2 Hp Hm Hi HP].
  - eapply torn_nothing; eauto. constructor.
  - eapply torn_nothing; eauto. constructor.
  - eapply torn_nothing; eauto. constructor.
  - (* NewCopy *)
    eapply torn_lost; eauto; [constructor|]. intros h1 E. inversion HS as [| | |y0 a Ha| | | | | | | | | | | | | | | | | | | | | | | | | | | | |]; subst.
    destruct (relA_var _ _ _ _ _ (proj1 HR) Ha) as (m & Em & Hr). pose proof (proj1 Hr) as Ho.
    cbn [exec torn_exec] in *. unfold lift in *. rewrite (var_eval _ _ _ Em) in *.
    assert (E1 : ma_copy dflt m (World h (Some k)) = Thrown (World h1 None)).
    { unfold bind in E. destruct (ma_copy dflt m _); try discriminate E. congruence. }
    destruct (torn_copy_thrown m _ h k h1 Ho E1) as (h2 & E2 & HX). exists h2. split; [|auto]. unfold bind. rewrite E2. reflexivity.
  - (* NewFrom *)
    eapply torn_lost; eauto; [constructor|]. intros h1 E. inversion HS as [| | | |e0 so0 aid0 p a Hp X1 X2 X3 X4 HW HX| | | | | | | | | | | | | | | | | | | | | | | | | | | |]; subst.
    destruct (denotes_nd st en h chk e p HR Hp) as (d & Ed & Hd).
    destruct (stands_owner _ _ _ _ _ HR Hd) as (cm & m & am & Em & Eam & Hrm & Hcm & Hdm & HLv & _ & Eb & Ee & Ei).
    cbn [exec torn_exec] in *. unfold lift in *. rewrite Ed in *. pose proof HW as (Ho & Hl & Hn). rewrite X1 in Ho, Hl. rewrite X2 in Hl.
    assert (E1 : ma_convert dflt chk d (a_order a) (a_alloc a) (World h (Some k)) = Thrown (World h1 None)).
    { unfold bind in E. destruct (ma_convert dflt chk d _ _ _); try discriminate E. congruence. }
    destruct (torn_convert_thrown chk cm d (a_order a) (a_alloc a) h k h1 Hcm Hdm HLv) as (h2 & E2 & HY); [congruence|congruence|auto|].
    exists h2. split; [|auto]. unfold bind. rewrite E2. reflexivity.
  - (* Resize *)
    eapply torn_nothing; eauto; [constructor|].
    inversion HS as [| | | | | | | | | | | | | | | | | | | | | | | | | | | | |x0 rs0 a a' Ha Hrs| | |]; subst.
    destruct (relA_var _ _ _ _ _ (proj1 HR) Ha) as (m & Em & Hr). pose proof Hr as (Ho & Y1 & Y2 & Y3 & Y4).
    destruct Hrs as (L & E1 & E2 & E3 & E4 & (HWo & HWl & _) & _). rewrite E1, E2, E3 in HWl.
    destruct (extents_of_ok rs) as (g & Eg & Hn & Hg).
    { intros ->. apply layout_ne in HWl. apply HWl. reflexivity. }
    cbn [exec torn_exec]. unfold lift. rewrite (var_eval _ _ _ Em), Eg.
    assert (LS : length (ranges_shape rs) = length rs) by apply map_length.
    unfold bind. rewrite (torn_resize_same chk m _ g (ranges_bases rs) (ranges_shape rs) h (Some k) Ho); auto; congruence.
  - (* ResizeList *)
    eapply torn_nothing; eauto; [constructor|].
    inversion HS as [| | | | | | | | | | | | | | | | | | | | | | | | | | | | | |x0 sh0 a a' Ha Hrs| |]; subst.
    destruct (relA_var _ _ _ _ _ (proj1 HR) Ha) as (m & Em & Hr). pose proof Hr as (Ho & Y1 & Y2 & Y3 & Y4).
    destruct Hrs as (L & E1 & E2 & E3 & E4 & (HWo & HWl & _) & _). rewrite E1, E2, E3 in HWl.
    unfold from_zero in L. rewrite map_length in L. rewrite zero_bases, zero_shape in HWl.
    cbn [exec torn_exec]. rewrite !(bind_lift_ok m) by (apply var_eval; auto). unfold ma_resize_list, torn_ma_resize_list.
    cbv zeta. rewrite Y1, <- L. rewrite copy_n_all. unfold bind, lift.
    assert (HF : Forall (fun e => 0 <= e <= max_index) shape) by (eapply rep_ext_bound; apply HWl).
    rewrite (torn_resize_same chk m _ _ (repeat 0 (length shape)) shape h (Some k) Ho); auto; [congruence|congruence|].
    cbn [eg_ranges]. unfold ranges_are. clear - HF. induction shape as [|e shape IH]; cbn [map length repeat]; inversion HF; subst; constructor; auto.
    rewrite to_index_small by (unconst; lia). auto.
  - (* Set *)
    destruct (denotes_nd st en h chk _ _ HR Hp) as (d & Ed & Hdd).
    assert (k = O) by (inversion HC; subst; lia). subst k.
    eapply (torn_elementwise st en h _ _ _ _ _ _ st); eauto; [constructor|].
    destruct (stands_owner _ _ _ _ _ HR Hdd) as (? & ? & ? & _ & _ & _ & _ & _ & _ & Hok & Eb & Ee & _).
    cbn [exec torn_exec]. unfold lift. rewrite Ed.
    change ((a <~ torn_set_element u chk d i v;; ret (en, @ONone T)) (World h (Some 0%nat)) = tear_at (addr d i) ((a <~ set_element chk d i v;; ret (en, ONone)) (World h (Some 0%nat)))).
    apply tear_bind. unfold torn_set_element, set_element. rewrite access_element_ok by (rewrite ?Eb, ?Ee; auto; apply HP).
    unfold lift, bind. rewrite tear_on. unfold tick. cbn [w_fuse w_heap tear_at]. destruct (hwrite h (addr d i) u); reflexivity.
  - (* SetB *)
    destruct (denotes_nd st en h chk _ _ HR Hp) as (d & Ed & Hdd).
    assert (k = O) by (inversion HC; subst; lia). subst k.
    eapply (torn_elementwise st en h _ _ _ _ _ _ st); eauto; [constructor|].
    destruct (stands_owner _ _ _ _ _ HR Hdd) as (? & ? & ? & _ & _ & _ & _ & _ & _ & Hok & Eb & Ee & _).
    cbn [exec torn_exec]. unfold lift. rewrite Ed.
    change ((a <~ torn_set_bracket u chk d i v;; ret (en, @ONone T)) (World h (Some 0%nat)) = tear_at (addr d i) ((a <~ set_bracket chk d i v;; ret (en, ONone)) (World h (Some 0%nat)))).
    apply tear_bind. unfold torn_set_bracket, set_bracket. rewrite bracket_ok by (rewrite ?Eb, ?Ee; auto; apply HP).
    unfold lift, bind. rewrite tear_on. unfold tick. cbn [w_fuse w_heap tear_at]. destruct (hwrite h (addr d i) u); reflexivity.
  - (* Assign *)
    destruct (denotes_nd st en h chk _ _ HR Hs) as (s & Es & Hss).
    destruct (denotes_nd st en h chk _ _ HR Hd) as (d & Ed & Hdd).
    assert (HE : pl_shape pd = pl_shape ps).
    { inversion HS as [| | | | | | | | | | |d0 s0 qd qs st0 Hd' Hs' [HE _]| | | | | | | | | | | | | | | | | | | | |]; subst.
      pose proof (denotes_place st en h _ _ _ HR Hd Hd') as (_ & Z1 & _). pose proof (denotes_place st en h _ _ _ HR Hs Hs') as (_ & Z2 & _). congruence. }
    eapply (torn_elementwise st en h _ _ _ _ _ _ st1); eauto; [econstructor; eauto|].
    cbn [exec torn_exec]. unfold lift. rewrite Es, Ed.
    change ((_ <~ torn_assign_nd u chk (length (nd_ext d)) d s;; ret (en, @ONone T)) (World h (Some k)) = tear_at (addr d (tadd (pl_bases pd) j)) ((_ <~ assign_nd chk (length (nd_ext d)) d s;; ret (en, ONone)) (World h (Some k)))).
    apply tear_bind. eapply assign_torn; eauto.
  - (* AssignVar *)
    destruct (denotes_nd st en h chk _ _ HR Hs) as (s & Es & Hss).
    destruct (denotes_nd st en h chk _ _ HR Hd) as (d & Ed & Hdd).
    assert (HE : pl_shape pd = pl_shape ps).
    { inversion HS as [| | | | | | | | | | | |x0 y0 qd qs st0 Hd' Hs' [HE _]| | | | | | | | | | | | | | | | | | | |]; subst.
      pose proof (denotes_place st en h _ _ _ HR Hd Hd') as (_ & Z1 & _). pose proof (denotes_place st en h _ _ _ HR Hs Hs') as (_ & Z2 & _). congruence. }
    eapply (torn_elementwise st en h _ _ _ _ _ _ st1); eauto; [econstructor; eauto|].
    unfold eval_nd in Es, Ed. cbn [eval] in Es, Ed. cbn [exec torn_exec]. unfold lift.
    destruct (var en x) as [mx| |] eqn:Ex; try discriminate. destruct (var en y) as [my| |] eqn:Ey; try discriminate.
    cbn [obind] in Es, Ed. injection Es as <-. injection Ed as <-.
    change ((_ <~ torn_ma_assign u chk (Nat.eqb x y) mx my;; ret (en, @ONone T)) (World h (Some k)) = tear_at (addr (cr_nd (ma_ref mx)) (tadd (pl_bases pd) j)) ((_ <~ ma_assign chk (Nat.eqb x y) mx my;; ret (en, ONone)) (World h (Some k)))).
    apply tear_bind. unfold torn_ma_assign, ma_assign. destruct (Nat.eqb_spec x y); [contradiction|]. unfold ma_assign_from.
    eapply (assign_torn en chk (cr_nd (ma_ref mx)) (cr_nd (ma_ref my))); eauto.
  - (* CopyArray *)
    destruct (denotes_nd st en h chk _ _ HR Hs) as (s & Es & Hss).
    destruct (denotes_nd st en h chk _ _ HR Hd) as (d & Ed & Hdd).
    assert (HE : pl_shape pd = pl_shape ps).
    { inversion HS as [| | | | | | | | | | | | |d0 s0 qd qs st0 Hd' Hs' [HE _]| | | | | | | | | | | | | | | | | | |]; subst.
      pose proof (denotes_place st en h _ _ _ HR Hd Hd') as (_ & Z1 & _). pose proof (denotes_place st en h _ _ _ HR Hs Hs') as (_ & Z2 & _). congruence. }
    eapply (torn_elementwise st en h _ _ _ _ _ _ st1); eauto; [econstructor; eauto|].
    cbn [exec torn_exec]. unfold lift. rewrite Es, Ed.
    change ((_ <~ torn_copy_array u chk (length (nd_ext d)) d s;; ret (en, @ONone T)) (World h (Some k)) = tear_at (addr d (tadd (pl_bases pd) j)) ((_ <~ copy_array chk (length (nd_ext d)) d s;; ret (en, ONone)) (World h (Some k)))).
    apply tear_bind. eapply assign_torn; eauto.
  - (* Fill *)
    destruct (relA_var _ _ _ _ _ (proj1 HR) Ha) as (m & Em & Hr). pose proof Hr as (Ho & Y1 & _). pose proof Ho as (Hc & _ & _ & _ & Hln & _).
    assert (EN : Z.to_nat (cr_num_elements (ma_ref m)) = length (a_elems a)) by lia.
    destruct (exec_thrown dflt eqT ltT st en h _ _ _ chk n k _ HR HS HC Hk (i_fill st k x l a Ha)) as (h1 & E1 & HR1 & L1 & K1).
    cbn [exec] in E1. unfold lift in E1. rewrite (var_eval _ _ _ Em) in E1.
    assert (E2 : cr_assign (ma_ref m) l (World h (Some k)) = Thrown (World h1 None)).
    { unfold bind in E1. destruct (cr_assign (ma_ref m) l _); try discriminate E1. congruence. }
    assert (HK : (k < length l)%nat /\ (k < length (a_elems a))%nat).
    { inversion HC as [| | | | | | | | | | |x0 l0 a0 Ha0| | | | | | | | | | | | | | | | | | | |]; subst. rewrite <- (array_fun _ _ _ _ Ha Ha0) in Hk.
      unfold count in Hk. pose proof (array_object_ok _ Hc) as (_ & _ & _ & _ & En). unfold cr_num_elements in Hln. rewrite En, Y1 in Hln. lia. }
    destruct (fill_torn st en h h1 x a m 0 (ma_ref m) l k Ha Em (self_lies _ _ _ Ho) Hln) as (h2 & E3 & HR2 & HS2); rewrite ?EN; auto; try tauto.
    rewrite EN in HR2. cbn [torn_exec]. unfold lift. rewrite (var_eval _ _ _ Em). exists h2. split; [unfold bind; rewrite E3; reflexivity|].
    split; [exact HR2|]. split; [destruct HS2 as [-> _]; auto|]. intros b. rewrite (leaked_still en h1 h2) by auto. auto.
  - (* FillRef *)
    destruct (named_eval st en h _ _ HR Hq) as (d & Ed & Hd). destruct d as [v|c]; cbn [hrel] in Hd; [tauto|].
    destruct Hd as (m & Em & Hc & HL & E1 & E2 & E3).
    destruct (relA_var _ _ _ _ _ (proj1 HR) Ha) as (m' & Em' & Hr). rewrite Em in Em'. injection Em' as <-. pose proof Hr as (Ho & Y1 & _). pose proof Ho as (_ & _ & _ & _ & Hln & _).
    pose proof (array_object_ok c Hc) as (_ & Hrp & _ & _ & EN).
    assert (EN' : cr_num_elements c = prod shape) by (unfold cr_num_elements; congruence).
    destruct (exec_thrown dflt eqT ltT st en h _ _ _ chk n k _ HR HS HC Hk (i_fill_ref st k q l x off bases shape so a Hq Ha)) as (h1 & X1 & HR1 & L1 & K1).
    cbn [exec] in X1. unfold lift in X1. rewrite Ed in X1.
    assert (X2 : cr_assign c l (World h (Some k)) = Thrown (World h1 None)).
    { unfold bind in X1. destruct (cr_assign c l _); try discriminate X1. congruence. }
    assert (HK : (k < length l)%nat /\ (k < Z.to_nat (prod shape))%nat).
    { inversion HC as [| | | | | | | | | | | |q0 l0 x0 off0 b0 s0 so0 Hq0| | | | | | | | | | | | | | | | | | |]; subst.
      assert (s0 = cr_ext c) by (unfold named_is in *; congruence). subst s0. unfold count in Hk. lia. }
    destruct (fill_torn st en h h1 x a m off c l k Ha Em HL Hln) as (h2 & X3 & HR2 & HS2); rewrite ?EN'; auto; try tauto.
    rewrite EN' in HR2. cbn [torn_exec]. unfold lift. rewrite Ed. exists h2. split; [unfold bind; rewrite X3; reflexivity|].
    split; [exact HR2|]. split; [destruct HS2 as [-> _]; auto|]. intros b. rewrite (leaked_still en h1 h2) by auto. auto.
  - (* ForEach *)
    destruct (denotes_nd st en h chk _ _ HR Hp) as (d & Ed & Hdd).
    eapply (torn_elementwise st en h _ _ _ _ _ _ st1); eauto; [econstructor; eauto|].
    destruct (stands_owner _ _ _ _ _ HR Hdd) as (? & ? & ? & _ & _ & _ & _ & _ & _ & Hok & Eb & Ee & _).
    cbn [exec torn_exec]. unfold lift. rewrite Ed.
    change ((_ <~ torn_for_each u chk f (length (nd_ext d)) d;; ret (en, @ONone T)) (World h (Some k)) = tear_at (addr d i) ((_ <~ for_each chk f (length (nd_ext d)) d;; ret (en, ONone)) (World h (Some k)))).
    apply tear_bind. rewrite torn_for_each_eq, for_each_eq by auto. rewrite torn_each_eq. unfold addrs. rewrite nth_error_map, Eb, Ee, Hi. reflexivity.
Qed.
End Torn.
