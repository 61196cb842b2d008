(** ThmAlias.v -- C60: copies of multi_array_refs and views share their elements,
    copies of multi_arrays do not. *)

From Coq Require Import ZArith List Bool Lia.
From Verif Require Import Base StorageOrder Ranges Layout Access Objects Memory Ops MultiArray History
  Spec Facts LayoutProofs ReachSpec HistorySpec AliasSpec AccessProofs ReachProofs HistoryProofs ThmHistory.
Import ListNotations.
Local Open Scope Z_scope.

Section Alias.
Context {T : Type}.
Variable dflt : T.
Variable eqT : T -> T -> bool.
Variable ltT : T -> T -> bool.
Notation gives := (gives dflt eqT ltT).
Notation steps := (steps dflt eqT ltT).
Notation step := (step dflt eqT ltT).

Lemma steps_gives chk p os st : steps empty_state p os st -> gives chk p os.
Proof.
  intros H. destruct (run_sound dflt eqT ltT chk p empty_state os st (Env [] []) [] related_nil H) as (en & h & E & _).
  exists en, h. exact E.
Qed.

Lemma steps_app st p os st1 q os' st2 : steps st p os st1 -> steps st1 q os' st2 -> steps st (p ++ q) (os ++ os') st2.
Proof. induction 1; cbn [app]; [auto|]. intros H2. econstructor; eauto. Qed.

Lemma steps_related p os st : steps empty_state p os st -> exists en (h : heap T), related st en h.
Proof.
  intros H. destruct (run_sound dflt eqT ltT true p empty_state os st (Env [] []) [] related_nil H) as (en & h & _ & HR & _).
  exists en, h. exact HR.
Qed.

(** a write changes no geometry *)
Lemma denotes_put st p i v st' : @put T st p i v st' -> forall e q, denotes st e q -> denotes st' e q.
Proof.
  intros (_ & a & Ha & ->). induction 1; try (econstructor; eauto; fail).
  - destruct (Nat.eq_dec x (pl_var p)) as [->|Hne].
    + assert (a0 = a) by (unfold array_is in *; congruence). subst a0.
      change (arranged (pl_var p) (a_bases a) (a_shape a) (a_order a)) with
        (arranged (pl_var p) (a_bases (a_set a (pl_cell p i) v)) (a_shape (a_set a (pl_cell p i) v)) (a_order (a_set a (pl_cell p i) v))).
      constructor. unfold array_is, set_array in *. cbn [s_arrays]. apply nth_error_set_nth_eq. apply nth_error_Some. congruence.
    + constructor. unfold array_is, set_array in *. cbn [s_arrays]. rewrite nth_error_set_nth_ne by auto. auto.
Qed.

Lemma put_then_look st p i v st' q j u : @put T st p i v st' -> look st q j u ->
  (same_element p i q j -> look st' q j v) /\ (~ same_element p i q j -> look st' q j u).
Proof.
  intros (Hi & a & Ha & ->) (Hj & b & Hb & E).
  assert (LA : (pl_var p < length (s_arrays st))%nat) by (apply nth_error_Some; unfold array_is in Ha; congruence).
  split.
  - intros [Ev Ec]. split; [auto|]. rewrite <- Ev in *. assert (b = a) by (unfold array_is in *; congruence). subst b.
    exists (a_set a (pl_cell p i) v). split.
    + unfold array_is, set_array. cbn [s_arrays]. apply nth_error_set_nth_eq; auto.
    + cbn [a_set a_elems]. rewrite Ec. apply nth_error_set_nth_eq. apply nth_error_Some. congruence.
  - intros Hns. split; [auto|]. destruct (Nat.eq_dec (pl_var p) (pl_var q)) as [Ev|Ev].
    + rewrite <- Ev in *. assert (b = a) by (unfold array_is in *; congruence). subst b.
      exists (a_set a (pl_cell p i) v). split.
      * unfold array_is, set_array. cbn [s_arrays]. apply nth_error_set_nth_eq; auto.
      * cbn [a_set a_elems]. rewrite nth_error_set_nth_ne; [auto|]. intros Ec. apply Hns. split; auto.
    + exists b. split; [|auto]. unfold array_is, set_array in *. cbn [s_arrays]. rewrite nth_error_set_nth_ne by auto. auto.
Qed.

Lemma write_read st en (h : heap T) e1 p1 i v e2 p2 j : related st en h -> denotes st e1 p1 -> denotes st e2 p2 ->
  in_bounds (pl_bases p1) (pl_shape p1) i -> in_bounds (pl_bases p2) (pl_shape p2) j ->
  exists u st', look st p2 j u /\
    (same_element p1 i p2 j -> steps st [Set_ e1 i v; Get e2 j] [ONone; OVal v] st') /\
    (~ same_element p1 i p2 j -> steps st [Set_ e1 i v; Get e2 j] [ONone; OVal u] st').
Proof.
  intros HR H1 H2 Hi Hj.
  destruct (denotes_nd st en h true e1 p1 HR H1) as (d1 & _ & Hd1). destruct (denotes_nd st en h true e2 p2 HR H2) as (d2 & _ & Hd2).
  destruct (put_exists st en h d1 p1 i v HR Hd1 Hi) as (st1 & h1 & HP & _).
  destruct (get_look st en h d2 p2 j HR Hd2 Hj) as (u & HL & _).
  exists u, st1. split; [auto|]. pose proof (denotes_put _ _ _ _ _ HP _ _ H2) as H2'.
  destruct (put_then_look _ _ _ _ _ _ _ _ HP HL) as [A B].
  split; intros HS; (econstructor; [eapply s_set; eauto|]; econstructor; [eapply s_get; eauto|constructor]).
Qed.
End Alias.

Lemma named_added {T} (st : @state T) n : named_is (add_named st n) (length (s_named st)) n.
Proof. unfold named_is, add_named. cbn [s_named]. rewrite nth_error_app2, Nat.sub_diag by lia. reflexivity. Qed.

Lemma named_before {T} (st : @state T) n k m : named_is st k m -> named_is (add_named st n) k m.
Proof.
  intros H. unfold named_is, add_named in *. cbn [s_named]. rewrite nth_error_app1; [auto|]. apply nth_error_Some. congruence.
Qed.

Lemma steps_keep_name {T} (dflt : T) eqT ltT st q os st' k n : steps dflt eqT ltT st q os st' -> named_is st k n ->
  (forall c, In c q -> ~ ends (owner n) c /\ ~ regeometrizes k c) -> named_is st' k n.
Proof.
  induction 1 as [|st c o st1 q os st2 Hst Hsts IHs]; intros Hn HQ; [auto|]. apply IHs; [|intros; apply HQ; right; auto].
  destruct (HQ c (or_introl eq_refl)). apply (step_keeps_name dflt eqT ltT st c o); auto.
Qed.

(** a write through one expression is seen by a read through another exactly if
    both indices stand for the same element; otherwise the read gives what it
    would have given without the write *)
Theorem c60_writes_are_seen : forall (T : Type) (dflt : T) eqT ltT chk p os st e1 p1 i v e2 p2 j,
  steps dflt eqT ltT empty_state p os st -> denotes st e1 p1 -> denotes st e2 p2 ->
  in_bounds (pl_bases p1) (pl_shape p1) i -> in_bounds (pl_bases p2) (pl_shape p2) j ->
  (same_element p1 i p2 j -> gives dflt eqT ltT chk (p ++ [Set_ e1 i v; Get e2 j]) (os ++ [ONone; OVal v])) /\
  (~ same_element p1 i p2 j -> exists u, gives dflt eqT ltT chk (p ++ [Get e2 j]) (os ++ [OVal u]) /\
     gives dflt eqT ltT chk (p ++ [Set_ e1 i v; Get e2 j]) (os ++ [ONone; OVal u])).
Proof.
  intros T dflt eqT ltT chk p os st e1 p1 i v e2 p2 j HS H1 H2 Hi Hj.
  destruct (steps_related dflt eqT ltT p os st HS) as (en & h & HR).
  destruct (write_read dflt eqT ltT st en h e1 p1 i v e2 p2 j HR H1 H2 Hi Hj) as (u & st' & HL & A & B). split.
  - intros HE. eapply steps_gives, steps_app; eauto.
  - intros HE. exists u. split; [|eapply steps_gives, steps_app; eauto].
    eapply steps_gives, steps_app; [eauto|]. econstructor; [eapply s_get; eauto|constructor].
Qed.

(** copies of views and of multi_array_refs are shallow: original and copy go on
    sharing every element, whatever happens (short of their array being resized or
    destroyed, or one of the two being given new index bases or a new shape) *)
Theorem c60_copies_are_shallow : forall (T : Type) (dflt : T) eqT ltT chk p os st k n q os' st' i v,
  steps dflt eqT ltT empty_state p os st -> named_is st k n ->
  let k' := length (s_named st) in
  steps dflt eqT ltT (add_named st n) q os' st' ->
  (forall c, In c q -> ~ ends (owner n) c /\ ~ regeometrizes k c /\ ~ regeometrizes k' c) ->
  in_bounds (pl_bases (place_of n)) (pl_shape (place_of n)) i ->
  let run_up := p ++ NewAlias k :: q in
  let said := os ++ ONone :: os' in
  gives dflt eqT ltT chk (run_up ++ [Set_ (Named k) i v; Get (Named k') i]) (said ++ [ONone; OVal v]) /\
  gives dflt eqT ltT chk (run_up ++ [Set_ (Named k') i v; Get (Named k) i]) (said ++ [ONone; OVal v]) /\
  exists u, gives dflt eqT ltT chk (run_up ++ [Get (Named k) i; Get (Named k') i]) (said ++ [OVal u; OVal u]).
Proof.
  intros T dflt eqT ltT chk p os st k n q os' st' i v HS Hk k' HQ HC Hi run_up said.
  assert (H : steps dflt eqT ltT empty_state run_up said st').
  { unfold run_up, said. eapply steps_app; [eauto|]. econstructor; [eapply s_alias; eauto|exact HQ]. }
  assert (K : named_is st' k n).
  { eapply steps_keep_name; [exact HQ|apply named_before; auto|]. intros c Hc. destruct (HC c Hc) as (A & B & _); auto. }
  assert (K' : named_is st' k' n).
  { eapply steps_keep_name; [exact HQ|apply named_added|]. intros c Hc. destruct (HC c Hc) as (A & _ & B); auto. }
  pose proof (dn_named st' k n K) as D. pose proof (dn_named st' k' n K') as D'.
  assert (SE : same_element (place_of n) i (place_of n) i) by (split; reflexivity).
  split; [apply (c60_writes_are_seen T dflt eqT ltT chk _ _ st' _ _ i v _ _ i H D D'); auto|].
  split; [apply (c60_writes_are_seen T dflt eqT ltT chk _ _ st' _ _ i v _ _ i H D' D); auto|].
  destruct (steps_related dflt eqT ltT _ _ _ H) as (en & h & HR). destruct (denotes_nd st' en h true _ _ HR D) as (d & _ & Hd).
  destruct (get_look st' en h d (place_of n) i HR Hd Hi) as (u & HL & _). exists u.
  eapply steps_gives, steps_app; [eauto|]. econstructor; [eapply s_get; eauto|]. econstructor; [eapply s_get; eauto|constructor].
Qed.

(** a multi_array_ref made from a multi_array keeps the geometry the array had; it
    shares the array's elements, by storage position, also after the array has been
    reindexed or reshaped *)
Theorem c60_refs_of_arrays_are_shallow : forall (T : Type) (dflt : T) eqT ltT chk p os st x a q os' st' a' i j v,
  steps dflt eqT ltT empty_state p os st -> array_is st x a ->
  let r := length (s_named st) in
  steps dflt eqT ltT (add_named st (ARef x 0 (a_bases a) (a_shape a) (a_order a))) q os' st' ->
  (forall c, In c q -> ~ ends x c /\ ~ regeometrizes r c) -> array_is st' x a' ->
  in_bounds (a_bases a) (a_shape a) i -> in_bounds (a_bases a') (a_shape a') j -> a_pos a i = a_pos a' j ->
  let run_up := p ++ NewRefOf x :: q in
  let said := os ++ ONone :: os' in
  gives dflt eqT ltT chk (run_up ++ [Set_ (Named r) i v; Get (Var x) j]) (said ++ [ONone; OVal v]) /\
  gives dflt eqT ltT chk (run_up ++ [Set_ (Var x) j v; Get (Named r) i]) (said ++ [ONone; OVal v]).
Proof.
  intros T dflt eqT ltT chk p os st x a q os' st' a' i j v HS Hx r HQ HC Hx' Hi Hj EP run_up said.
  assert (H : steps dflt eqT ltT empty_state run_up said st').
  { unfold run_up, said. eapply steps_app; [eauto|]. econstructor; [eapply s_ref_of; eauto|exact HQ]. }
  set (n := ARef x 0 (a_bases a) (a_shape a) (a_order a)) in *.
  assert (K' : named_is st' r n).
  { eapply steps_keep_name; [exact HQ|apply named_added|]. intros c Hc. apply (HC c Hc). }
  pose proof (dn_named st' r n K') as D. pose proof (dn_var st' x a' Hx') as D'.
  split; [apply (c60_writes_are_seen T dflt eqT ltT chk _ _ st' _ _ i v _ _ j H D D')
         |apply (c60_writes_are_seen T dflt eqT ltT chk _ _ st' _ _ j v _ _ i H D' D)]; auto; split; try reflexivity; [exact EP|symmetry; exact EP].
Qed.

(** new index bases or a new shape for the copy leave the original as it was, and
    the other way round *)
Theorem c60_copies_have_their_own_geometry : forall (T : Type) (dflt : T) eqT ltT chk p os st k n c o st1 ask,
  steps dflt eqT ltT empty_state p os st -> named_is st k n ->
  let k' := length (s_named st) in
  step dflt eqT ltT (add_named st n) c o st1 ->
  (regeometrizes k' c -> gives dflt eqT ltT chk (p ++ [NewAlias k; c; Ask ask (Named k)]) (os ++ [ONone; o; tells (place_of n) ask])) /\
  (regeometrizes k c -> gives dflt eqT ltT chk (p ++ [NewAlias k; c; Ask ask (Named k')]) (os ++ [ONone; o; tells (place_of n) ask])).
Proof.
  intros T dflt eqT ltT chk p os st k n c o st1 ask HS Hk k' HC.
  assert (HN : (k < k')%nat) by (apply nth_error_Some; unfold named_is in Hk; congruence).
  assert (HE : forall m, regeometrizes m c -> ~ ends (owner n) c) by (intros m; destruct c; cbn; tauto).
  assert (HU : forall m m', regeometrizes m c -> regeometrizes m' c -> m = m') by (intros m m'; destruct c; cbn; try tauto; congruence).
  split; intros HG.
  - assert (K : named_is st1 k n).
    { eapply step_keeps_name; [exact HC|apply named_before; auto|eapply HE; eauto|]. intros HG'. specialize (HU _ _ HG HG'). lia. }
    eapply steps_gives, steps_app; [eauto|]. econstructor; [eapply s_alias; eauto|]. econstructor; [exact HC|].
    econstructor; [apply s_ask; constructor; exact K|constructor].
  - assert (K : named_is st1 k' n).
    { eapply step_keeps_name; [exact HC|apply named_added|eapply HE; eauto|]. intros HG'. specialize (HU _ _ HG HG'). lia. }
    eapply steps_gives, steps_app; [eauto|]. econstructor; [eapply s_alias; eauto|]. econstructor; [exact HC|].
    econstructor; [apply s_ask; constructor; exact K|constructor].
Qed.

(** copies of multi_arrays are deep *)
Theorem c60_array_copies_are_deep : forall (T : Type) (dflt : T) eqT ltT chk p os st x a i j v,
  steps dflt eqT ltT empty_state p os st -> array_is st x a ->
  let y := length (s_arrays st) in
  in_bounds (a_bases a) (a_shape a) i -> in_bounds (a_bases a) (a_shape a) j ->
  exists u, gives dflt eqT ltT chk (p ++ [Get (Var x) j]) (os ++ [OVal u]) /\
    gives dflt eqT ltT chk (p ++ [NewCopy x; Set_ (Var x) i v; Get (Var y) j]) (os ++ [ONone; ONone; OVal u]) /\
    gives dflt eqT ltT chk (p ++ [NewCopy x; Set_ (Var y) i v; Get (Var x) j]) (os ++ [ONone; ONone; OVal u]).
Proof.
  intros T dflt eqT ltT chk p os st x a i j v HS Hx y Hi Hj.
  assert (HN : (x < y)%nat) by (apply nth_error_Some; unfold array_is in Hx; congruence).
  assert (HS2 : steps dflt eqT ltT empty_state (p ++ [NewCopy x]) (os ++ [ONone]) (add_array st a)).
  { eapply steps_app; [eauto|]. econstructor; [eapply s_copy; eauto|constructor]. }
  assert (AX : array_is (add_array st a) x a).
  { unfold array_is, add_array in *. cbn [s_arrays]. rewrite nth_error_app1 by auto. auto. }
  assert (AY : array_is (add_array st a) y a).
  { unfold array_is, add_array. cbn [s_arrays]. unfold y. rewrite nth_error_app2, Nat.sub_diag by lia. reflexivity. }
  destruct (steps_related dflt eqT ltT _ _ _ HS2) as (en & h & HR).
  pose proof (dn_var _ _ _ AX) as DX. pose proof (dn_var _ _ _ AY) as DY.
  destruct (write_read dflt eqT ltT _ en h _ _ i v _ _ j HR DX DY Hi Hj) as (u & s1 & HL1 & _ & B1).
  destruct (write_read dflt eqT ltT _ en h _ _ i v _ _ j HR DY DX Hi Hj) as (u' & s2 & HL2 & _ & B2).
  assert (EU : u' = u).
  { destruct HL1 as (_ & b1 & Hb1 & E1). destruct HL2 as (_ & b2 & Hb2 & E2). cbn [arranged pl_var pl_cell] in *.
    unfold array_is in *. congruence. }
  subst u'. exists u.
  change (os ++ [ONone; ONone; OVal u]) with (os ++ [ONone] ++ [ONone; OVal u]).
  change (p ++ [NewCopy x; Set_ (Var x) i v; Get (Var y) j]) with (p ++ [NewCopy x] ++ [Set_ (Var x) i v; Get (Var y) j]).
  change (p ++ [NewCopy x; Set_ (Var y) i v; Get (Var x) j]) with (p ++ [NewCopy x] ++ [Set_ (Var y) i v; Get (Var x) j]).
  rewrite !(app_assoc p [_]), !(app_assoc os [_]).
  assert (NE : forall i j, ~ same_element (arranged x (a_bases a) (a_shape a) (a_order a)) i (arranged y (a_bases a) (a_shape a) (a_order a)) j).
  { intros i0 j0 [E _]. cbn [arranged pl_var] in E. lia. }
  assert (NE' : forall i j, ~ same_element (arranged y (a_bases a) (a_shape a) (a_order a)) i (arranged x (a_bases a) (a_shape a) (a_order a)) j).
  { intros i0 j0 [E _]. cbn [arranged pl_var] in E. lia. }
  split; [|split].
  - eapply steps_gives, steps_app; [eauto|]. econstructor; [|constructor]. eapply s_get; [constructor; eauto|].
    destruct HL2 as (HB & b & Hb & E). split; [exact HB|]. exists b. split; [|exact E]. cbn [arranged pl_var] in *. unfold array_is in *. congruence.
  - eapply steps_gives, steps_app; [eauto|]. apply B1, NE.
  - eapply steps_gives, steps_app; [eauto|]. apply B2, NE'.
Qed.

(** a copy does not keep the elements alive: once the array is resized or destroyed
    using the copy is undefined behaviour, as is using the original *)
Theorem c60_copies_do_not_own : forall (T : Type) (dflt : T) eqT ltT chk p os st k n c o st1 i,
  steps dflt eqT ltT empty_state p os st -> named_is st k n ->
  step dflt eqT ltT (add_named st n) c o st1 -> ends (owner n) c ->
  in_bounds (pl_bases (place_of n)) (pl_shape (place_of n)) i ->
  run dflt eqT ltT chk (Env [] []) (p ++ [NewAlias k; c; Get (Named (length (s_named st))) i]) (World [] None) = Undef.
Proof.
  intros T dflt eqT ltT chk p os st k n c o st1 i HS Hk HC HE Hi.
  assert (HS2 : steps dflt eqT ltT empty_state (p ++ [NewAlias k]) (os ++ [ONone]) (add_named st n)).
  { eapply steps_app; [eauto|]. econstructor; [eapply s_alias; eauto|constructor]. }
  pose proof (c42_ended_names_dangle T dflt eqT ltT chk _ _ _ _ n c o st1 [] [] st1 i HS2 (named_added st n) HC HE (ss_nil _ _ _ _) Hi) as H.
  cbn [app] in H. rewrite <- app_assoc in H. exact H.
Qed.

(** the index bases of a copy can be moved: element j of the reindexed copy is
    still the element of the original it was before the move *)
Lemma digits_rebase : forall asc old new ext j, length old = length ext -> length new = length ext -> length j = length ext ->
  digits asc new ext j = digits asc old ext (rebase old new j).
Proof.
  induction asc as [|s asc IH]; intros [|o old] [|n new] [|e ext] [|k j] L1 L2 L3; simpl in *; try lia; auto.
  f_equal; [unfold digit; destruct s; lia|]. apply IH; lia.
Qed.

Lemma denotes_lengths {T} (st : @state T) en h e p : related st en h -> denotes st e p -> length (pl_bases p) = length (pl_shape p).
Proof.
  intros HR HD. destruct (denotes_nd st en h true e p HR HD) as (d & _ & c & m & _ & Hc & _ & Hd & Eb & Ee & _).
  pose proof (derived_ok c d Hc Hd) as (L & _). congruence.
Qed.

Theorem c60_reindexed_copies_share : forall (T : Type) (dflt : T) eqT ltT chk p os st k n bases o st1 j v,
  steps dflt eqT ltT empty_state p os st -> named_is st k n ->
  let k' := length (s_named st) in
  let here := rebase (pl_bases (place_of n)) bases j in
  step dflt eqT ltT (add_named st n) (ReindexNamed k' bases) o st1 ->
  in_bounds bases (pl_shape (place_of n)) j ->
  gives dflt eqT ltT chk (p ++ [NewAlias k; ReindexNamed k' bases; Set_ (Named k') j v; Get (Named k) here])
    (os ++ [ONone; o; ONone; OVal v]) /\
  gives dflt eqT ltT chk (p ++ [NewAlias k; ReindexNamed k' bases; Set_ (Named k) here v; Get (Named k') j])
    (os ++ [ONone; o; ONone; OVal v]).
Proof.
  intros T dflt eqT ltT chk p os st k n bases o st1 j v HS Hk k' here HC Hj.
  assert (HN : (k < k')%nat) by (apply nth_error_Some; unfold named_is in Hk; congruence).
  assert (H : steps dflt eqT ltT empty_state (p ++ [NewAlias k; ReindexNamed k' bases]) (os ++ [ONone; o]) st1).
  { eapply steps_app; [eauto|]. econstructor; [eapply s_alias; eauto|]. econstructor; [exact HC|constructor]. }
  assert (K : named_is st1 k n).
  { eapply step_keeps_name; [exact HC|apply named_before; auto|cbn; tauto|]. cbn. lia. }
  destruct (steps_related dflt eqT ltT _ _ _ HS) as (en & h & HR).
  pose proof (denotes_lengths st en h _ _ HR (dn_named st k _ Hk)) as LB.
  assert (HH : in_bounds (pl_bases (place_of n)) (pl_shape (place_of n)) here) by (apply (@rebase_in T); auto).
  assert (K' : exists n', named_is st1 k' n' /\ pl_bases (place_of n') = bases /\ pl_shape (place_of n') = pl_shape (place_of n) /\
    same_element (place_of n') j (place_of n) here).
  { pose proof (named_added st n) as HA. fold k' in HA.
    assert (LK : (k' < length (s_named (add_named st n)))%nat) by (apply nth_error_Some; unfold named_is in HA; congruence).
    destruct (in_bounds_length _ _ _ Hj) as [J1 J2].
    inversion HC; subst;
    match goal with HH : named_is ?s k' ?m |- _ => lazymatch m with n => fail | _ => assert (n = m) by (unfold named_is in *; congruence) end end; subst n.
    - eexists. split; [unfold named_is, set_named; cbn [s_named]; apply nth_error_set_nth_eq; exact LK|].
      cbn [place_of pl_bases pl_shape]. split; [reflexivity|]. split; [reflexivity|]. split; reflexivity.
    - eexists. split; [unfold named_is, set_named; cbn [s_named]; apply nth_error_set_nth_eq; exact LK|].
      cbn [place_of arranged_from arranged pl_bases pl_shape]. split; [reflexivity|]. split; [reflexivity|].
      split; [reflexivity|]. cbn [place_of arranged_from arranged pl_cell]. unfold position, here. cbn [place_of arranged_from arranged pl_bases pl_shape] in *.
      match type of LB with length ?ob = _ => rewrite (digits_rebase _ ob bases _ j) by congruence end. reflexivity. }
  destruct K' as (n' & K' & EB & ES & SE).
  assert (SE' : same_element (place_of n) here (place_of n') j) by (destruct SE; split; auto).
  pose proof (dn_named _ _ _ K) as D. pose proof (dn_named _ _ _ K') as D'.
  assert (Hj' : in_bounds (pl_bases (place_of n')) (pl_shape (place_of n')) j) by (rewrite EB, ES; exact Hj).
  split.
  - pose proof (proj1 (c60_writes_are_seen T dflt eqT ltT chk _ _ st1 _ _ j v _ _ here H D' D Hj' HH) SE) as G.
    rewrite <- !app_assoc in G. exact G.
  - pose proof (proj1 (c60_writes_are_seen T dflt eqT ltT chk _ _ st1 _ _ here v _ _ j H D D' HH Hj') SE') as G.
    rewrite <- !app_assoc in G. exact G.
Qed.

(** * the hypotheses are met: a 2x3 array, a view of its second row reversed and a
    copy of that view; and a multi_array_ref of the array *)

Definition ex_vst : @state Z := ex_nst [0; 0] [0; 0; 0; 0; 0; 0].
Lemma ex_vst_reached : steps 0 Z.eqb Z.ltb empty_state ex_names_p [ONone; ONone] ex_vst.
Proof. apply ex_c42. Qed.

Lemma ex_src_moved : addressable [5] (pl_shape ex_src) (pl_strides ex_src).
Proof. unfold addressable, ex_src. cbn [pl_shape pl_strides]. repeat split; cbn; unconst; try lia. all: repeat constructor; unconst; lia. Qed.

(** writes through the view at [0] and through the array at [1, 2] meet; those at
    [0] and [1, 1] do not *)
Example ex_c60_writes : denotes ex_vst (Named 0) ex_src /\ denotes ex_vst (Var 0) ex_whole /\
  in_bounds (pl_bases ex_src) (pl_shape ex_src) [0] /\
  in_bounds (pl_bases ex_whole) (pl_shape ex_whole) [1; 2] /\ in_bounds (pl_bases ex_whole) (pl_shape ex_whole) [1; 1] /\
  same_element ex_src [0] ex_whole [1; 2] /\ ~ same_element ex_src [0] ex_whole [1; 1].
Proof.
  split; [apply (dn_named _ 0 (AView ex_src)); reflexivity|].
  split; [apply (dn_var ex_vst 0 (Arr [2; 3] [0; 0] (so_from_c 2) 7%nat [0; 0; 0; 0; 0; 0])); reflexivity|].
  split; [cbn; lia|]. split; [cbn; lia|]. split; [cbn; lia|]. split; [split; reflexivity|].
  intros [_ E]. vm_compute in E. discriminate.
Qed.

(** after the copy the array is filled: neither view is affected *)
Example ex_c60_shallow : named_is ex_vst 0 (AView ex_src) /\
  steps 0 Z.eqb Z.ltb (add_named ex_vst (AView ex_src)) [Fill 0 [1; 2; 3; 4; 5; 6]; Reindex 0 [5; 5]] [ONone; ONone]
    (add_named (ex_nst [5; 5] [1; 2; 3; 4; 5; 6]) (AView ex_src)) /\
  (forall c, In c [Fill 0 [1; 2; 3; 4; 5; 6]; Reindex 0 [5; 5]] ->
     ~ ends (owner (AView ex_src)) c /\ ~ regeometrizes 0 c /\ ~ regeometrizes (length (s_named ex_vst)) c) /\
  in_bounds (pl_bases (place_of (AView ex_src))) (pl_shape (place_of (AView ex_src))) [2].
Proof.
  split; [reflexivity|]. split; [|split].
  - eapply ss_cons; [eapply s_fill; reflexivity|].
    change (set_array _ _ _) with (add_named (ex_nst [0; 0] [1; 2; 3; 4; 5; 6]) (AView ex_src)).
    eapply ss_cons; [eapply s_reindex; [reflexivity|reflexivity|apply ex_reindexed_ok; reflexivity]|]. apply ss_nil.
  - intros c Hc. simpl in Hc. destruct Hc as [<-|[<-|[]]]; cbn; tauto.
  - cbn. lia.
Qed.

(** the copy is reindexed *)
Example ex_c60_reindexed : exists st1,
  step 0 Z.eqb Z.ltb (add_named ex_vst (AView ex_src)) (ReindexNamed (length (s_named ex_vst)) [5]) ONone st1 /\
  regeometrizes (length (s_named ex_vst)) (@ReindexNamed Z (length (s_named ex_vst)) [5]) /\
  in_bounds [5] (pl_shape (place_of (AView ex_src))) [6] /\ rebase (pl_bases (place_of (AView ex_src))) [5] [6] = [1].
Proof.
  eexists. split; [eapply (s_reindex_view _ _ _ _ _ _ ex_src); [reflexivity|apply ex_src_moved]|].
  split; [reflexivity|]. split; [cbn; lia|reflexivity].
Qed.

(** a multi_array_ref of the array, made before the array was reindexed *)
Example ex_c60_ref : array_is (ex_st [0; 0; 0; 0; 0; 0]) 0 (Arr [2; 3] [0; 0] (so_from_c 2) 7%nat [0; 0; 0; 0; 0; 0]) /\
  steps 0 Z.eqb Z.ltb (add_named (ex_st [0; 0; 0; 0; 0; 0]) (ARef 0 0 [0; 0] [2; 3] (so_from_c 2))) [Reindex 0 [5; 5]] [ONone]
    (St [Some (Arr [2; 3] [5; 5] (so_from_c 2) 7%nat [0; 0; 0; 0; 0; 0])] [Some (ARef 0 0 [0; 0] [2; 3] (so_from_c 2))]) /\
  in_bounds [0; 0] [2; 3] [1; 2] /\ in_bounds [5; 5] [2; 3] [6; 7] /\
  a_pos (Arr [2; 3] [0; 0] (so_from_c 2) 7%nat [0; 0; 0; 0; 0; 0]) [1; 2] =
  a_pos (Arr [2; 3] [5; 5] (so_from_c 2) 7%nat [0; 0; 0; 0; 0; 0]) [6; 7].
Proof.
  split; [reflexivity|]. split; [|split; [cbn; lia|split; [cbn; lia|reflexivity]]].
  eapply ss_cons; [eapply s_reindex; [reflexivity|reflexivity|apply ex_reindexed_ok; reflexivity]|]. apply ss_nil.
Qed.

(** a resize ends the view, its copies, and the refs *)
Example ex_c60_ended : exists st1,
  step 0 Z.eqb Z.ltb (add_named ex_vst (AView ex_src)) (Destroy 0) ONone st1 /\ @ends Z (owner (AView ex_src)) (Destroy 0).
Proof. eexists. split; [eapply s_destroy; reflexivity|reflexivity]. Qed.

(** the same computed by the model: views, refs, an array copy, both reindexes *)
Example ex_c60_run :
  (exists en h, run 0 Z.eqb Z.ltb true (Env [] []) (ex_names_p ++
     [ Fill 0 [1; 2; 3; 4; 5; 6]; NewAlias 0; NewRefOf 0; NewAlias 2; NewCopy 0;
       Set_ (Named 1) [0] 9; Get (Named 0) [0]; Get (Named 2) [1; 2]; Get (Var 0) [1; 2]; Get (Var 1) [1; 2];
       ReindexNamedAll 3 4; Ask QBases (Named 2); Ask QBases (Named 3); Get (Named 3) [5; 6];
       ReindexNamed 1 [7]; Get (Named 1) [7]; Get (Named 0) [0]; ReindexNamedAll 1 (-2); Get (Named 1) [-2] ]) (World [] None) =
   Done (en, [ONone; ONone; ONone; ONone; ONone; ONone; ONone; ONone; OVal 9; OVal 9; OVal 9; OVal 6;
              ONone; OInts [0; 0]; OInts [4; 4]; OVal 9; ONone; OVal 9; OVal 9; ONone; OVal 9]) (World h None)) /\
  run 0 Z.eqb Z.ltb true (Env [] []) (ex_names_p ++ [NewAlias 0; Destroy 0; Get (Named 1) [0]]) (World [] None) = Undef.
Proof. split; [do 2 eexists; vm_compute; reflexivity|vm_compute; reflexivity]. Qed.
