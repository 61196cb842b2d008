(** AlgPrograms.v -- the three example algorithms of Algorithms.v on plain
    sequences (lemmas for ThmAlgorithms.v; SeqSpec.v only, no arrays) *)

From Coq Require Import ZArith List Bool Lia Permutation Sorted.
From Verif Require Import Base Algorithms Spec CompareSpec SeqSpec Facts OwnProofs.
Import ListNotations.
Local Open Scope Z_scope.

(** a strict weak order *)
Definition weak_order {A} (lt : A -> A -> bool) : Prop :=
  (forall x y, lt x y = true -> lt y x = false) /\
  (forall x y z, lt x y = false -> lt y z = false -> lt x z = false).
Lemma weak_order_of {A} (lt : A -> A -> bool) : CompareSpec.strict_weak (fun x y => lt x y = true) -> weak_order lt.
Proof.
  intros (IR & TR & IT). split.
  - intros x y H. destruct (lt y x) eqn:E; auto. destruct (IR x). eapply TR; eauto.
  - intros x y z H1 H2. destruct (lt x z) eqn:E; auto.
    destruct (lt y x) eqn:E1; [rewrite (TR y x z E1 E) in H2; discriminate|].
    destruct (lt z y) eqn:E2; [rewrite (TR x z y E E2) in H1; discriminate|].
    destruct (IT x y z) as [K _]; congruence.
Qed.

Section Programs.
Context {T : Type}.
Variable eqT : T -> T -> bool.
Variable ltT : T -> T -> bool.

Notation run := (on_sequences eqT ltT).
Definition at_ (j : nat) : cur := Cur 0 false (Z.of_nat j).
Definition one_state (bs sh : list Z) (rows : list (list T)) : seqs T := Seqs [Sequence bs sh rows] [].

(** rows of single elements, or rows with dimensions of their own *)
Definition row_kind (one : bool) (bs sh : list Z) (rows : list (list T)) : Prop :=
  if one then bs = [] /\ sh = [] /\ Forall (fun r => length r = 1%nat) rows else sh <> [].

Lemma get_row bs sh rows i r : nth_error rows i = Some r ->
  slot_get (one_state bs sh rows) (SRow 0 (Z.of_nat i)) = Some (bs, sh, r).
Proof. intros H. cbn. rewrite Nat2Z.id, H. reflexivity. Qed.
Lemma put_row bs sh rows i r :
  slot_put (one_state bs sh rows) (SRow 0 (Z.of_nat i)) r = one_state bs sh (set_nth i r rows).
Proof. cbn. rewrite Nat2Z.id. reflexivity. Qed.
Lemma place_at bs sh rows env x n i : nth_error env x = Some (at_ i) ->
  0 <= Z.of_nat i + n < Z.of_nat (length rows) ->
  place_slot (one_state bs sh rows) env (PAt x n) = Some (SRow 0 (Z.of_nat (Z.to_nat (Z.of_nat i + n)))).
Proof.
  intros H L. cbn [place_slot]. rewrite H. cbn [at_ c_seq c_rev c_pos one_state ss_arrays nth_error]. unfold q_len. cbn [q_rows].
  rewrite Z2Nat.id by lia. destruct ((0 <=? Z.of_nat i + n) && (Z.of_nat i + n <? Z.of_nat (length rows))) eqn:E; auto.
  apply andb_false_iff in E. lia.
Qed.

Lemma shape_eqb_refl l : shape_eqb l l = true.
Proof. induction l; simpl; auto. rewrite Z.eqb_refl. auto. Qed.
Lemma set_nth_eq {A} (l : list A) i j x y : i <> j \/ x = y -> set_nth i x (set_nth j y l) = set_nth j y (set_nth i x l).
Proof.
  revert i j. induction l as [|a l IH]; intros [|i] [|j] H; simpl; auto; try (destruct H; congruence).
  f_equal. apply IH. destruct H; auto.
Qed.

Lemma read_one {A} env st s p f v (k : T -> algorithm T A) : place_slot st env p = Some s -> slot_get st s = Some ([], [], [v]) ->
  run (ARead p [] k) env st f = run (k v) env st f.
Proof. intros H1 H2. cbn [on_sequences]. rewrite H1, H2. reflexivity. Qed.
Lemma write_one {A} env st s p (k : algorithm T A) u v : place_slot st env p = Some s -> slot_get st s = Some ([], [], [u]) ->
  run (AWrite p [] v k) env st None = run k env (slot_put st s [v]) None.
Proof. intros H1 H2. cbn [on_sequences]. rewrite H1, H2. reflexivity. Qed.

(** swap exchanges two rows *)
Lemma swap_run one bs sh rows env x m y n k i j ri rj :
  row_kind one bs sh rows ->
  nth_error env x = Some (at_ i) -> nth_error env y = Some (at_ j) ->
  0 <= Z.of_nat i + m < Z.of_nat (length rows) -> 0 <= Z.of_nat j + n < Z.of_nat (length rows) ->
  nth_error rows (Z.to_nat (Z.of_nat i + m)) = Some ri -> nth_error rows (Z.to_nat (Z.of_nat j + n)) = Some rj ->
  Z.of_nat i + m <> Z.of_nat j + n ->
  run (swap_at one (PAt x m) (PAt y n) k) env (one_state bs sh rows) None =
  run k env (one_state bs sh (set_nth (Z.to_nat (Z.of_nat j + n)) ri (set_nth (Z.to_nat (Z.of_nat i + m)) rj rows))) None.
Proof.
  intros K Hx Hy Li Lj Ri Rj NE.
  assert (P1 : forall rows', length rows' = length rows -> place_slot (one_state bs sh rows') env (PAt x m) = Some (SRow 0 (Z.of_nat (Z.to_nat (Z.of_nat i + m))))).
  { intros rows' E. apply place_at; auto. rewrite E; auto. }
  assert (P2 : forall rows', length rows' = length rows -> place_slot (one_state bs sh rows') env (PAt y n) = Some (SRow 0 (Z.of_nat (Z.to_nat (Z.of_nat j + n))))).
  { intros rows' E. apply place_at; auto. rewrite E; auto. }
  set (a := Z.to_nat (Z.of_nat i + m)) in *. set (b := Z.to_nat (Z.of_nat j + n)) in *.
  assert (NAB : a <> b) by (unfold a, b; lia). clearbody a b.
  destruct one; cbn [swap_at row_kind] in *.
  - destruct K as (-> & -> & K). rewrite Forall_forall in K.
    assert (exists u, ri = [u]) as [u ->].
    { specialize (K ri (nth_error_In _ _ Ri)). destruct ri as [|u [|]]; try discriminate. eauto. }
    assert (exists u, rj = [u]) as [v ->].
    { specialize (K rj (nth_error_In _ _ Rj)). destruct rj as [|v [|]]; try discriminate. eauto. }
    rewrite (read_one _ _ _ _ _ u _ (P1 rows eq_refl) (get_row _ _ _ _ _ Ri)).
    rewrite (read_one _ _ _ _ _ v _ (P2 rows eq_refl) (get_row _ _ _ _ _ Rj)).
    rewrite (write_one _ _ _ _ _ u v (P1 rows eq_refl) (get_row _ _ _ _ _ Ri)), put_row.
    rewrite (write_one _ _ _ _ _ v u (P2 _ (length_set_nth _ _ _))), put_row; [reflexivity|].
    apply get_row. rewrite nth_error_set_nth_ne; auto.
  - cbn [on_sequences]. rewrite (P1 rows eq_refl), (get_row _ _ _ _ _ Ri). destruct sh as [|e es]; [congruence|].
    cbn [spend_ops on_sequences]. set (sv := Saved bs (e :: es) ri).
    assert (PS : forall rows' p, place_slot (Seqs [Sequence bs (e :: es) rows'] [sv]) env (PAt x p) = place_slot (one_state bs (e :: es) rows') env (PAt x p)) by reflexivity.
    assert (PS2 : forall rows' p, place_slot (Seqs [Sequence bs (e :: es) rows'] [sv]) env (PAt y p) = place_slot (one_state bs (e :: es) rows') env (PAt y p)) by reflexivity.
    cbn [one_state ss_arrays ss_saved app length firstn]. rewrite PS, PS2, (P1 rows eq_refl), (P2 rows eq_refl).
    assert (GS : forall rows' p, slot_get (Seqs [Sequence bs (e :: es) rows'] [sv]) (SRow 0 p) = slot_get (one_state bs (e :: es) rows') (SRow 0 p)) by reflexivity.
    rewrite !GS, (get_row _ _ _ _ _ Ri), (get_row _ _ _ _ _ Rj). cbn [same_saved]. rewrite shape_eqb_refl. cbn [spend_ops].
    assert (PR : forall rows' p r, slot_put (Seqs [Sequence bs (e :: es) rows'] [sv]) (SRow 0 (Z.of_nat p)) r = Seqs [Sequence bs (e :: es) (set_nth p r rows')] [sv]).
    { intros. cbn. rewrite Nat2Z.id. reflexivity. }
    rewrite PR, PS2, P2 by apply length_set_nth. cbn [place_slot ss_saved length Nat.ltb Nat.leb].
    rewrite GS, (get_row _ _ _ _ rj) by (rewrite nth_error_set_nth_ne; auto). cbn [slot_get ss_saved nth_error sv v_bases v_shape v_elems same_saved].
    rewrite shape_eqb_refl. cbn [spend_ops]. rewrite PR. cbn [ss_arrays]. rewrite firstn_all. reflexivity.
Qed.

Lemma kind_set one bs sh rows i r : row_kind one bs sh rows -> (exists j, nth_error rows j = Some r) -> row_kind one bs sh (set_nth i r rows).
Proof.
  destruct one; cbn [row_kind]; auto. intros (-> & -> & K) [j Hj]. split; auto. split; auto.
  rewrite Forall_forall in *. intros x Hx. apply In_nth_error in Hx. destruct Hx as [p Hp].
  destruct (Nat.eq_dec p i) as [->|NE].
  - destruct (Nat.lt_ge_cases i (length rows)) as [L|L].
    + rewrite nth_error_set_nth_eq in Hp by auto. injection Hp as <-. apply K. eapply nth_error_In; eauto.
    + rewrite set_nth_out in Hp by auto. apply K. eapply nth_error_In; eauto.
  - rewrite nth_error_set_nth_ne in Hp by auto. apply K. eapply nth_error_In; eauto.
Qed.
Lemma kind_perm one bs sh rows rows' : row_kind one bs sh rows -> Permutation rows rows' -> row_kind one bs sh rows'.
Proof.
  destruct one; cbn [row_kind]; auto. intros (-> & -> & K) P. split; auto. split; auto.
  eapply Permutation_Forall; eauto.
Qed.

Lemma nth_mid {A} (l1 l2 : list A) x i : i = length l1 -> nth_error (l1 ++ x :: l2) i = Some x.
Proof. intros ->. rewrite nth_error_app2, Nat.sub_diag by auto. reflexivity. Qed.
Lemma set_mid {A} (l1 l2 : list A) x y i : i = length l1 -> set_nth i y (l1 ++ x :: l2) = l1 ++ y :: l2.
Proof. intros ->. apply set_nth_app_len. Qed.

Lemma same_at {A} bs sh rows env x y (k : bool -> algorithm T A) i j : nth_error env x = Some (at_ i) -> nth_error env y = Some (at_ j) ->
  run (ASame x y k) env (one_state bs sh rows) None = run (k (Nat.eqb i j)) env (one_state bs sh rows) None.
Proof.
  intros Hx Hy. cbn [on_sequences]. rewrite Hx, Hy. cbn [at_ cur_distance c_seq c_rev c_pos Nat.eqb Bool.eqb andb].
  replace (Z.of_nat j - Z.of_nat i =? 0) with (Nat.eqb i j); auto.
  destruct (Nat.eqb_spec i j); symmetry; [apply Z.eqb_eq|apply Z.eqb_neq]; lia.
Qed.
Lemma dec_at {A} bs sh rows env x (k : algorithm T A) i : nth_error env x = Some (at_ (S i)) -> (i <= length rows)%nat ->
  run (ADec x k) env (one_state bs sh rows) None = run k (set_nth x (at_ i) env) (one_state bs sh rows) None.
Proof.
  intros Hx L. cbn [on_sequences]. rewrite Hx. unfold cur_move. cbn [at_ one_state ss_arrays c_seq c_rev c_pos nth_error].
  unfold q_len. cbn [q_rows]. replace (Z.of_nat (S i) + -1) with (Z.of_nat i) by lia.
  destruct ((0 <=? Z.of_nat i) && (Z.of_nat i <=? Z.of_nat (length rows))) eqn:E; auto. apply andb_false_iff in E. lia.
Qed.
Lemma inc_at {A} bs sh rows env x (k : algorithm T A) i : nth_error env x = Some (at_ i) -> (i < length rows)%nat ->
  run (AInc x k) env (one_state bs sh rows) None = run k (set_nth x (at_ (S i)) env) (one_state bs sh rows) None.
Proof.
  intros Hx L. cbn [on_sequences]. rewrite Hx. unfold cur_move. cbn [at_ one_state ss_arrays c_seq c_rev c_pos nth_error].
  unfold q_len. cbn [q_rows]. replace (Z.of_nat i + 1) with (Z.of_nat (S i)) by lia.
  assert (E : (0 <=? Z.of_nat (S i)) && (Z.of_nat (S i) <=? Z.of_nat (length rows)) = true) by (apply andb_true_intro; split; apply Z.leb_le; lia).
  rewrite E. reflexivity.
Qed.

(** * reverse *)
Lemma reverse_run one bs sh : forall fuel A M C, (length M <= fuel)%nat -> row_kind one bs sh (A ++ M ++ C) ->
  exists env', run (reverse_loop one fuel) [at_ (length A); at_ (length A + length M)] (one_state bs sh (A ++ M ++ C)) None =
    Some (Finished tt env' (one_state bs sh (A ++ rev M ++ C)) None).
Proof.
  induction fuel as [|fuel IH]; intros A M C LM K.
  - destruct M; [|simpl in LM; lia]. eexists. reflexivity.
  - cbn [reverse_loop]. rewrite (same_at _ _ _ _ _ _ _ (length A) (length A + length M)) by reflexivity.
    destruct M as [|x M].
    + simpl length. rewrite Nat.add_0_r, Nat.eqb_refl. eexists. reflexivity.
    + destruct (Nat.eqb_spec (length A) (length A + length (x :: M))) as [E|_]; [simpl in E; lia|].
      rewrite (dec_at _ _ _ _ _ _ (length A + length M)).
      2:{ simpl. repeat f_equal. lia. }
      2:{ rewrite !app_length. simpl. lia. }
      cbn [set_nth]. rewrite (same_at _ _ _ _ _ _ _ (length A) (length A + length M)) by reflexivity.
      destruct (Nat.eqb_spec (length A) (length A + length M)) as [E|NE].
      * assert (M = []) as -> by (destruct M; simpl in E; auto; lia). eexists. reflexivity.
      * destruct (exists_last (l := M)) as (M' & y & ->); [intros ->; simpl in NE; lia|].
        rewrite app_length in *. simpl length in *.
        assert (R : A ++ (x :: M' ++ [y]) ++ C = A ++ x :: M' ++ y :: C) by (simpl; rewrite <- app_assoc; reflexivity).
        assert (N1 : nth_error (A ++ x :: M' ++ y :: C) (length A) = Some x) by (apply nth_mid; auto).
        assert (R2 : forall u v, A ++ u :: M' ++ v :: C = (A ++ u :: M') ++ v :: C) by (intros; rewrite <- app_assoc; reflexivity).
        assert (L2 : forall u, length (A ++ u :: M') = (length A + (length M' + 1))%nat) by (intros; rewrite app_length; simpl; lia).
        assert (N2 : nth_error (A ++ x :: M' ++ y :: C) (length A + (length M' + 1)) = Some y) by (rewrite R2; apply nth_mid; rewrite L2; auto).
        rewrite R in *.
        assert (LL : length (A ++ x :: M' ++ y :: C) = (length A + (length M' + (2 + length C)))%nat) by (rewrite app_length; simpl; rewrite app_length; simpl; lia).
        rewrite (swap_run one bs sh _ _ 0 0 1 0 _ (length A) (length A + (length M' + 1)) x y); auto; rewrite ?Z.add_0_r, ?Nat2Z.id; auto; try lia.
        rewrite (set_mid A _ x y) by auto. rewrite R2. rewrite (set_mid (A ++ y :: M') C y x) by (rewrite L2; auto).
        rewrite (inc_at _ _ _ _ _ _ (length A)); [|reflexivity|rewrite app_length, L2; simpl; lia]. cbn [set_nth].
        destruct (IH (A ++ [y]) M' (x :: C)) as [env' E].
        { cbn [length] in LM. rewrite ?app_length in LM. simpl in LM. lia. }
        { rewrite <- app_assoc. eapply kind_perm; [exact K|]. apply Permutation_app_head. simpl.
          etransitivity; [|apply perm_skip; apply Permutation_middle]. etransitivity; [|apply perm_swap].
          apply perm_skip. symmetry. apply Permutation_middle. }
        exists env'. rewrite app_length in E. simpl length in E.
        replace (S (length A)) with (length A + 1)%nat by lia. replace (length A + (length M' + 1))%nat with (length A + 1 + length M')%nat by lia.
        replace ((A ++ y :: M') ++ x :: C) with ((A ++ [y]) ++ M' ++ x :: C) by (rewrite <- !app_assoc; reflexivity).
        rewrite E. do 3 f_equal. rewrite <- !app_assoc. simpl. rewrite rev_app_distr. simpl. rewrite <- app_assoc. reflexivity.
Qed.
(** * insertion sort *)

(** put x into a sorted list, given in reverse *)
Fixpoint insert_back (x : list T) (l : list (list T)) : list (list T) :=
  match l with
  | [] => [x]
  | y :: l' => if first_less ltT x y then y :: insert_back x l' else x :: y :: l'
  end.
Lemma insert_back_perm x l : Permutation (x :: l) (insert_back x l).
Proof.
  induction l as [|y l IH]; simpl; auto. destruct (first_less ltT x y); auto.
  etransitivity; [apply perm_swap|]. apply perm_skip. auto.
Qed.

Lemma less_at {A} bs sh rows env p q (k : bool -> algorithm T A) i j ri rj :
  place_slot (one_state bs sh rows) env p = Some (SRow 0 (Z.of_nat i)) ->
  place_slot (one_state bs sh rows) env q = Some (SRow 0 (Z.of_nat j)) ->
  nth_error rows i = Some ri -> nth_error rows j = Some rj ->
  run (ALess p q k) env (one_state bs sh rows) None = run (k (first_less ltT ri rj)) env (one_state bs sh rows) None.
Proof.
  intros H1 H2 H3 H4. cbn [on_sequences]. rewrite H1, H2, (get_row _ _ _ _ _ H3), (get_row _ _ _ _ _ H4).
  cbn [both_rows]. rewrite shape_eqb_refl. reflexivity.
Qed.

Lemma sift_run one bs sh N i x : forall fuel l R k, (length l <= fuel)%nat -> row_kind one bs sh (rev l ++ x :: R) ->
  exists j, run (sift_loop one fuel k) [at_ 0; at_ N; at_ i; at_ (length l)] (one_state bs sh (rev l ++ x :: R)) None =
            run k [at_ 0; at_ N; at_ i; at_ j] (one_state bs sh (rev (insert_back x l) ++ R)) None.
Proof.
  induction fuel as [|fuel IH]; intros l R k LL K.
  - destruct l; [|simpl in LL; lia]. eexists. reflexivity.
  - cbn [sift_loop]. rewrite (same_at _ _ _ _ _ _ _ (length l) 0) by reflexivity.
    destruct l as [|y l]; [eexists; reflexivity|]. cbn [length Nat.eqb].
    set (env := [at_ 0; at_ N; at_ i; at_ (S (length l))]). cbn [rev] in *. rewrite <- app_assoc in *. cbn [app] in *.
    assert (LT : length (rev l ++ y :: x :: R) = (length l + (2 + length R))%nat) by (rewrite app_length, rev_length; reflexivity).
    assert (N1 : nth_error (rev l ++ y :: x :: R) (length l) = Some y) by (apply nth_mid; rewrite rev_length; auto).
    assert (N2 : nth_error (rev l ++ y :: x :: R) (S (length l)) = Some x).
    { change (y :: x :: R) with ([y] ++ x :: R). rewrite app_assoc. apply nth_mid. rewrite app_length, rev_length. simpl. lia. }
    assert (P1 : place_slot (one_state bs sh (rev l ++ y :: x :: R)) env (PAt 3 0) = Some (SRow 0 (Z.of_nat (S (length l))))).
    { rewrite (place_at _ _ _ _ _ _ (S (length l))); [|reflexivity|lia]. rewrite Z.add_0_r, Nat2Z.id. reflexivity. }
    assert (P2 : place_slot (one_state bs sh (rev l ++ y :: x :: R)) env (PAt 3 (-1)) = Some (SRow 0 (Z.of_nat (length l)))).
    { rewrite (place_at _ _ _ _ _ _ (S (length l))); [|reflexivity|lia]. repeat f_equal. lia. }
    rewrite (less_at _ _ _ _ _ _ _ _ _ x y P1 P2 N2 N1). cbn [insert_back].
    destruct (first_less ltT x y).
    + rewrite (swap_run one bs sh _ _ 3 0 3 (-1) _ (S (length l)) (S (length l)) x y); auto; try lia.
      2:{ rewrite Z.add_0_r, Nat2Z.id; auto. }
      2:{ replace (Z.of_nat (S (length l)) + -1) with (Z.of_nat (length l)) by lia. rewrite Nat2Z.id; auto. }
      replace (Z.of_nat (S (length l)) + -1) with (Z.of_nat (length l)) by lia. rewrite Z.add_0_r, !Nat2Z.id.
      assert (E1 : set_nth (S (length l)) y (rev l ++ y :: x :: R) = rev l ++ y :: y :: R).
      { change (y :: x :: R) with ([y] ++ x :: R). rewrite app_assoc, set_mid by (rewrite app_length, rev_length; simpl; lia). rewrite <- app_assoc. reflexivity. }
      rewrite E1, set_mid by (rewrite rev_length; auto).
      rewrite (dec_at _ _ _ _ _ _ (length l)); [|reflexivity|rewrite app_length, rev_length; simpl; lia].
      cbn [set_nth env]. destruct (IH l (y :: R) k) as [j E].
      * simpl in LL. lia.
      * eapply kind_perm; [exact K|]. apply Permutation_app_head, perm_swap.
      * exists j. rewrite E. cbn [rev]. rewrite <- app_assoc. reflexivity.
    + exists (S (length l)). cbn [rev]. rewrite <- !app_assoc. reflexivity.
Qed.

Fixpoint sorted_back (l R : list (list T)) : list (list T) :=
  match R with [] => l | x :: R' => sorted_back (insert_back x l) R' end.
Lemma sorted_back_perm : forall R l, Permutation (l ++ R) (sorted_back l R).
Proof.
  induction R as [|x R IH]; intros l; simpl; [rewrite app_nil_r; auto|]. etransitivity; [|apply IH].
  etransitivity; [symmetry; apply Permutation_middle|]. rewrite app_comm_cons. apply Permutation_app_tail, insert_back_perm.
Qed.

Lemma sort_run one bs sh N j : forall fuel l R, (length R <= fuel)%nat -> N = (length l + length R)%nat ->
  row_kind one bs sh (rev l ++ R) ->
  exists env', run (sort_loop one N fuel) [at_ 0; at_ N; at_ (length l); at_ j] (one_state bs sh (rev l ++ R)) None =
    Some (Finished tt env' (one_state bs sh (rev (sorted_back l R))) None).
Proof.
  intros fuel. revert j. induction fuel as [|fuel IH]; intros j l R LR EN K.
  - destruct R; [|simpl in LR; lia]. simpl. rewrite app_nil_r. eexists. reflexivity.
  - cbn [sort_loop]. rewrite (same_at _ _ _ _ _ _ _ (length l) N) by reflexivity.
    destruct R as [|x R].
    + simpl in EN. rewrite EN, Nat.add_0_r, Nat.eqb_refl. simpl. rewrite app_nil_r. eexists. reflexivity.
    + simpl in LR, EN. destruct (Nat.eqb_spec (length l) N) as [E|_]; [lia|].
      match goal with |- exists _, run (ASet 3 2 ?k) _ ?st _ = _ =>
        change (exists env', run k [at_ 0; at_ N; at_ (length l); at_ (length l)] st None =
           Some (Finished tt env' (one_state bs sh (rev (sorted_back l (x :: R)))) None)) end.
      destruct (sift_run one bs sh N (length l) x N l R (AInc 2 (sort_loop one N fuel))) as [j' E]; [lia|exact K|]. rewrite E.
      pose proof (insert_back_perm x l) as PM. pose proof (Permutation_length PM) as PL. simpl in PL.
      rewrite (inc_at _ _ _ _ _ _ (length l)); [|reflexivity|rewrite app_length, rev_length; lia]. cbn [set_nth].
      rewrite PL. apply (IH j' (insert_back x l) R); try lia.
      eapply kind_perm; [exact K|]. etransitivity; [symmetry; apply Permutation_middle|]. rewrite app_comm_cons. apply Permutation_app_tail.
      etransitivity; [|apply Permutation_rev]. etransitivity; [|exact PM]. apply perm_skip. symmetry. apply Permutation_rev.
Qed.

(** a strict weak order on the elements gives one on the rows *)
Lemma first_less_asym : weak_order ltT -> forall u v, first_less ltT u v = true -> first_less ltT v u = false.
Proof.
  intros [AS _]. induction u as [|x u IH]; intros [|y v]; cbn [first_less]; auto.
  destruct (ltT x y) eqn:E; [rewrite (AS _ _ E); auto|]. destruct (ltT y x); [discriminate|]. apply IH.
Qed.
Lemma first_less_trans : weak_order ltT -> forall u v w, length u = length v -> length v = length w ->
  first_less ltT u v = false -> first_less ltT v w = false -> first_less ltT u w = false.
Proof.
  intros [AS NT]. induction u as [|x u IH]; intros [|y v] [|z w] L1 L2; cbn [first_less]; simpl in L1, L2; try lia; auto.
  destruct (ltT x y) eqn:E1; [discriminate|]. destruct (ltT y z) eqn:E2; [discriminate|]. rewrite (NT _ _ _ E1 E2).
  destruct (ltT z x) eqn:E3; auto.
  rewrite (NT y z x E2 E3), (NT z x y E3 E1). intros H1 H2. apply (IH v w); auto.
Qed.

Notation row_le := (row_le ltT).

Lemma insert_sorted : weak_order ltT -> forall n x l, length x = n -> Forall (fun r => length r = n) l ->
  StronglySorted row_le (rev l) -> StronglySorted row_le (rev (insert_back x l)).
Proof.
  intros SW n x. 
  assert (SN : forall l y, StronglySorted row_le l -> Forall (fun r => row_le r y) l -> StronglySorted row_le (l ++ [y])).
  { induction l as [|a l IH]; intros y H F; simpl; [constructor; constructor|]. inversion H; subst. inversion F; subst.
    constructor; [apply IH; auto|]. apply Forall_app. split; auto. }
  assert (SI : forall l y, StronglySorted row_le (l ++ [y]) -> StronglySorted row_le l /\ Forall (fun r => row_le r y) l).
  { induction l as [|a l IH]; intros y H; simpl in *; [split; constructor|]. inversion H as [|u v H1 H2]; subst. destruct (IH _ H1).
    apply Forall_app in H2. destruct H2 as [G2 G3]. inversion G3; subst. split; constructor; auto. }
  induction l as [|y l IH]; intros Lx F H; simpl in *; [constructor; constructor|]. inversion F; subst.
  destruct (SI _ _ H) as [K1 K2]. destruct (first_less ltT x y) eqn:E.
  - simpl. apply SN; auto. eapply (@Permutation_Forall _ _ (x :: rev l)).
    + etransitivity; [|apply Permutation_rev]. etransitivity; [|apply insert_back_perm]. apply perm_skip. symmetry. apply Permutation_rev.
    + constructor; auto. unfold row_le. apply first_less_asym; auto.
  - simpl. apply SN; auto. apply Forall_app. split; [|constructor; auto].
    assert (F' : Forall (fun r => length r = length x) (rev l)) by (eapply (@Permutation_Forall _ _ l); [apply Permutation_rev|auto]).
    rewrite Forall_forall in *. intros r Hr. unfold row_le. apply (first_less_trans SW x y r); auto.
    + rewrite (F' r Hr). auto.
    + apply K2. auto.
Qed.
Lemma sorted_back_sorted : weak_order ltT -> forall n R l, Forall (fun r => length r = n) (l ++ R) ->
  StronglySorted row_le (rev l) -> StronglySorted row_le (rev (sorted_back l R)).
Proof.
  intros SW n. induction R as [|x R IH]; intros l F H; simpl; auto. apply IH.
  - eapply Permutation_Forall; [|exact F]. etransitivity; [symmetry; apply Permutation_middle|]. rewrite app_comm_cons. apply Permutation_app_tail, insert_back_perm.
  - apply Forall_app in F. destruct F as [F1 F2]. inversion F2; subst. eapply insert_sorted; eauto.
Qed.

(** * find *)
Lemma read_at {A} bs sh rows env p (k : T -> algorithm T A) i v f :
  place_slot (one_state bs sh rows) env p = Some (SRow 0 (Z.of_nat i)) -> nth_error rows i = Some [v] -> bs = [] -> sh = [] ->
  run (ARead p [] k) env (one_state bs sh rows) f = run (k v) env (one_state bs sh rows) f.
Proof. intros H1 H2 -> ->. eapply read_one; eauto. apply get_row; auto. Qed.

Lemma find_run (p : T -> bool) vs : forall fuel i, (i + fuel = length vs)%nat -> 
  exists n env', (i <= n <= length vs)%nat /\
    run (find_loop p fuel) [at_ i; at_ (length vs); at_ 0] (one_state [] [] (map (fun v => [v]) vs)) None =
      Some (Finished (Z.of_nat n) env' (one_state [] [] (map (fun v => [v]) vs)) None) /\
    (forall m v, (i <= m < n)%nat -> nth_error vs m = Some v -> p v = false) /\
    (forall v, nth_error vs n = Some v -> p v = true).
Proof.
  induction fuel as [|fuel IH]; intros i Hi.
  - exists i. eexists. split; [lia|]. split; [cbn; rewrite Z.sub_0_r; reflexivity|]. split; [intros; lia|].
    intros v Hv. assert (i < length vs)%nat by (apply nth_error_Some; congruence). lia.
  - cbn [find_loop]. rewrite (same_at _ _ _ _ _ _ _ i (length vs)) by reflexivity.
    destruct (Nat.eqb_spec i (length vs)); [lia|].
    destruct (nth_error vs i) as [v|] eqn:Ev; [|apply nth_error_None in Ev; lia].
    assert (LM : length (map (fun v : T => [v]) vs) = length vs) by apply map_length.
    rewrite (read_at _ _ _ _ _ _ i v); auto.
    2:{ rewrite (place_at _ _ _ _ _ _ i); [|reflexivity|rewrite LM; lia]. rewrite Z.add_0_r, Nat2Z.id. reflexivity. }
    2:{ rewrite nth_error_map, Ev. reflexivity. }
    destruct (p v) eqn:Ep.
    + exists i. eexists. split; [lia|]. split; [cbn; rewrite Z.sub_0_r; reflexivity|]. split; [intros; lia|]. congruence.
    + rewrite (inc_at _ _ _ _ _ _ i); [|reflexivity|rewrite LM; lia]. cbn [set_nth].
      destruct (IH (S i)) as (n0 & env' & H1 & H2 & H3 & H4); [lia|]. exists n0, env'. split; [lia|]. split; [exact H2|]. split; auto.
      intros m w Hm Hw. destruct (Nat.eq_dec m i) as [->|]; [congruence|]. apply (H3 m w); auto. lia.
Qed.
End Programs.
