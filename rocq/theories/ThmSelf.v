(** ThmSelf.v -- C38 for whole programs, and when an assignment throws *)

From Coq Require Import ZArith List Bool Lia.
From Verif Require Import Base StorageOrder Ranges Layout Access Objects Memory Ops MultiArray Spec Facts
  LayoutProofs AccessProofs ViewSpec ViewProofs MemoryProofs CopyProofs ReachSpec ReachProofs MemSpec ThmCopy ThmBulk OwnSpec
  ThmAddressing ThmViews ThmGeometry OwnProofs ThmMultiArray History HistorySpec HistoryProofs ThmHistory.
Import ListNotations.
Local Open Scope Z_scope.

Lemma copy_cells_id_thrown {T} (l : list (ptr * ptr)) (h : heap T) : (forall p, In p l -> fst p = snd p /\ init h (fst p)) -> forall k,
  copy_cells l (World h (Some k)) = if (length l <=? k)%nat then Done tt (World h (Some (k - length l)%nat)) else Thrown (World h None).
Proof.
  induction l as [|[p q] l IH]; intros Hi k.
  - cbn [length]. rewrite Nat.sub_0_r. reflexivity.
  - destruct (Hi (p, q) (or_introl eq_refl)) as [E [v Hv]]. cbn [fst snd] in E, Hv. subst q.
    cbn [copy_cells length]. unfold bind at 1, elem_assign, bind, load, lift. cbn [w_heap].
    rewrite (proj2 (hread_init _ _ _) Hv). unfold tick, store, hwrite. cbn [w_fuse w_heap].
    destruct k as [|k]; [reflexivity|]. cbn [w_fuse w_heap]. rewrite Hv, (hset_same _ _ _ Hv).
    rewrite IH by (intros r Hr; apply Hi; right; exact Hr). reflexivity.
Qed.

(** assigning elements to themselves leaves memory as it is also when an element assignment
    throws: the k-th of n assignments throws when k < n *)
Definition pairs_id {T} (h : heap T) dst src := forall p, In p (combine (addrs dst) (addrs src)) -> fst p = snd p /\ init h (fst p).
Lemma identity_pairs {T} (h : heap T) c1 c2 dst src :
  array_object c1 -> derived c1 dst -> array_object c2 -> derived c2 src -> nd_ext dst = nd_ext src -> live h c1 ->
  (forall k, in_bounds (repeat 0 (length (nd_ext dst))) (nd_ext dst) k ->
     access_element true dst (tadd (nd_base dst) k) = access_element true src (tadd (nd_base src) k)) ->
  pairs_id h dst src.
Proof.
  intros H1 Hd H2 Hs He Hl HA [p q] Hp.
  pose proof (derived_ok c1 dst H1 Hd) as Hok1. pose proof (derived_ok c2 src H2 Hs) as Hok2.
  pose proof Hok1 as (L1 & _). pose proof Hok2 as (L2 & _).
  rewrite copy_pairs in Hp by auto. apply in_map_iff in Hp. destruct Hp as (k & E & Hk). apply in_positions in Hk.
  injection E as <- <-. specialize (HA k Hk). rewrite !access_element_ok in HA by (auto; apply tadd_in_bounds; rewrite <- ?He; auto; congruence).
  cbn [fst snd]. split; [congruence|].
  apply element_at_init. apply Hl. apply (derived_cell c1 dst); auto. apply tadd_in_bounds; auto.
Qed.
Theorem c38_identity_assignment_interrupted : forall (T : Type) (h : heap T) chk c1 c2 dst src k,
  array_object c1 -> derived c1 dst -> array_object c2 -> derived c2 src -> nd_ext dst = nd_ext src -> live h c1 ->
  (forall k, in_bounds (repeat 0 (length (nd_ext dst))) (nd_ext dst) k ->
     access_element true dst (tadd (nd_base dst) k) = access_element true src (tadd (nd_base src) k)) ->
  let n := length (all_positions (nd_ext dst)) in
  let out := if (n <=? k)%nat then Done tt (World h (Some (k - n)%nat)) else Thrown (World h None) in
  assign_nd chk (length (nd_ext dst)) dst src (World h (Some k)) = out /\
  copy_array chk (length (nd_ext dst)) dst src (World h (Some k)) = out.
Proof.
  intros T h chk c1 c2 dst src k H1 Hd H2 Hs He Hl HA n out.
  pose proof (identity_pairs h c1 c2 dst src H1 Hd H2 Hs He Hl HA) as HI.
  pose proof (derived_ok c1 dst H1 Hd) as Hok1. pose proof (derived_ok c2 src H2 Hs) as Hok2.
  rewrite assign_nd_eq, copy_array_eq by (auto; congruence).
  rewrite (copy_cells_id_thrown _ h HI). rewrite copy_pairs, map_length by auto. auto.
Qed.

(** in any program: dst = src, or copy_array(src, dst), where dst and src are the same elements in
    the same places, changes no memory: it completes, or an element's assignment throws *)
Definition same_elements (p q : place) : Prop :=
  pl_var p = pl_var q /\ pl_shape p = pl_shape q /\
  forall k, In k (all_positions (pl_shape p)) -> pl_cell p (tadd (pl_bases p) k) = pl_cell q (tadd (pl_bases q) k).
Definition unchanged {T} (en : env) (h : heap T) (f : option nat) (r : @res T (env * @output T)) : Prop :=
  (exists f', r = Done (en, ONone) (World h f')) \/ (r = Thrown (World h None) /\ f <> None).

Lemma same_elements_unchanged T (dflt : T) eqT ltT chk st en (h : heap T) f dst src pd ps :
  related st en h -> denotes st dst pd -> denotes st src ps -> same_elements pd ps ->
  unchanged en h f (exec dflt eqT ltT chk en (Assign dst src) (World h f)) /\
  unchanged en h f (exec dflt eqT ltT chk en (CopyArray dst src) (World h f)).
Proof.
  intros HR Dd Ds (Ev & Es & Ec).
  destruct (denotes_nd st en h chk dst pd HR Dd) as (d & Ed & Sd). destruct (denotes_nd st en h chk src ps HR Ds) as (s & Esr & Ss).
  pose proof (stands_same en d s pd ps Sd Ss Es) as He.
  destruct (stands_owner st en h d pd HR Sd) as (c1 & m1 & a1 & M1 & A1 & R1 & O1 & D1 & L1 & K1 & B1 & X1 & P1).
  destruct (stands_owner st en h s ps HR Ss) as (c2 & m2 & a2 & M2 & A2 & R2 & O2 & D2 & L2 & K2 & B2 & X2 & P2).
  assert (HA : forall k, in_bounds (repeat 0 (length (nd_ext d))) (nd_ext d) k ->
     access_element true d (tadd (nd_base d) k) = access_element true s (tadd (nd_base s) k)).
  { intros k Hk. pose proof K1 as (LL1 & _). pose proof K2 as (LL2 & _).
    assert (I1 : in_bounds (nd_base d) (nd_ext d) (tadd (nd_base d) k)) by (apply tadd_in_bounds; auto).
    assert (I2 : in_bounds (nd_base s) (nd_ext s) (tadd (nd_base s) k)) by (apply tadd_in_bounds; rewrite <- ?He; auto; congruence).
    rewrite !access_element_ok by auto. f_equal.
    rewrite B1, X1 in I1. rewrite B2, X2 in I2.
    rewrite B1, B2. destruct (P1 _ I1) as [-> _]. destruct (P2 _ I2) as [-> _].
    rewrite <- Ev in M2. rewrite M1 in M2. injection M2 as <-. f_equal. f_equal. apply Ec. rewrite <- X1. apply in_positions. exact Hk. }
  cbn [exec]. unfold bind at 1 2 4 5, lift. rewrite Esr, Ed. unfold bind.
  destruct f as [k|].
  - destruct (c38_identity_assignment_interrupted T h chk c1 c2 d s k O1 D1 O2 D2 He L1 HA) as [E1 E2]. cbv zeta in E1, E2.
    rewrite E1, E2. destruct (_ <=? _)%nat.
    + split; left; eexists; reflexivity.
    + split; right; (split; [reflexivity|discriminate]).
  - destruct (c38_identity_assignment T h chk c1 c2 d s O1 D1 O2 D2 He L1 HA) as [E1 E2]. rewrite E1, E2.
    split; left; eexists; reflexivity.
Qed.

Theorem c38_programs_identity : forall (T : Type) (dflt : T) eqT ltT chk p os st en h f dst src pd ps,
  steps dflt eqT ltT empty_state p os st ->
  run dflt eqT ltT chk (Env [] []) p (World [] None) = Done (en, os) (World h None) ->
  denotes st dst pd -> denotes st src ps -> same_elements pd ps ->
  unchanged en h f (exec dflt eqT ltT chk en (Assign dst src) (World h f)) /\
  unchanged en h f (exec dflt eqT ltT chk en (CopyArray dst src) (World h f)).
Proof.
  intros T dflt eqT ltT chk p os st en h f dst src pd ps HS HE.
  destruct (run_sound dflt eqT ltT chk p empty_state os st (Env [] []) [] related_nil HS) as (en' & h' & E & HR & _).
  rewrite HE in E. injection E as <- <-. apply same_elements_unchanged. exact HR.
Qed.
(** x = x for a multi_array, and e = e for any subarray, view or ref; x = x does not even call an
    element operation, so it cannot throw *)
Theorem c38_programs_self : forall (T : Type) (dflt : T) eqT ltT chk p os st en h f,
  steps dflt eqT ltT empty_state p os st ->
  run dflt eqT ltT chk (Env [] []) p (World [] None) = Done (en, os) (World h None) ->
  (forall x a, array_is st x a -> exec dflt eqT ltT chk en (AssignVar x x) (World h f) = Done (en, ONone) (World h f)) /\
  (forall e pe, denotes st e pe -> unchanged en h f (exec dflt eqT ltT chk en (Assign e e) (World h f))).
Proof.
  intros T dflt eqT ltT chk p os st en h f HS HE.
  destruct (run_sound dflt eqT ltT chk p empty_state os st (Env [] []) [] related_nil HS) as (en' & h' & E & HR & _).
  rewrite HE in E. injection E as <- <-. split.
  - intros x a Ha. destruct HR as [HA _]. destruct (relA_var _ _ h x a HA Ha) as (m & Em & _).
    cbn [exec]. unfold bind at 1 2, lift, var. rewrite Em. rewrite Nat.eqb_refl. reflexivity.
  - intros e pe He. apply (same_elements_unchanged T dflt eqT ltT chk st en h f e e pe pe HR He He).
    split; [auto|]. split; auto.
Qed.
(** row 0 of a 2x3 array, and the view of all of it: a[0] = a[0][range()], whose second element
    assignment throws or not *)
Definition ex_whole_row : @expr := View_of (Sub (Var 0) 0) [Slice None None 1].
Definition ex_row_place : place := Place 0 [0] [3] [1] (fun t => pl_cell ex_dst (match t with k :: t' => (0 + k * 1) :: t' | [] => [] end)).
Example ex_c38_programs :
  let p := [NewList [2; 3] (so_from_c 2) 7; Fill 0 [1; 2; 3; 4; 5; 6]] in
  let st := ex_st [1; 2; 3; 4; 5; 6] in
  steps 0 Z.eqb Z.ltb empty_state p [ONone; ONone] st /\
  denotes st (Sub (Var 0) 0) ex_dst /\ denotes st ex_whole_row ex_row_place /\ same_elements ex_dst ex_row_place /\
  exists en h, run 0 Z.eqb Z.ltb true (Env [] []) p (World [] None) = Done (en, [ONone; ONone]) (World h None) /\
    exec 0 Z.eqb Z.ltb true en (Assign (Sub (Var 0) 0) ex_whole_row) (World h (Some 1%nat)) = Thrown (World h None) /\
    exec 0 Z.eqb Z.ltb true en (Assign (Sub (Var 0) 0) ex_whole_row) (World h None) = Done (en, ONone) (World h None) /\
    exec 0 Z.eqb Z.ltb true en (AssignVar 0 0) (World h (Some 0%nat)) = Done (en, ONone) (World h (Some 0%nat)).
Proof.
  cbv zeta. split; [|split; [|split; [|split]]].
  - eapply ss_cons; [apply s_list; apply ex_well_formed|].
    change (add_array _ _) with (ex_st [0; 0; 0; 0; 0; 0]).
    eapply ss_cons; [eapply s_fill; reflexivity|]. apply ss_nil.
  - apply ex_denotes_dst.
  - unfold ex_whole_row. refine (dn_view (ex_st [1; 2; 3; 4; 5; 6]) (Sub (Var 0) 0) _ 0%nat [0] [3] [1] (pl_cell ex_dst) [3] [1] _ (ex_denotes_dst _) _ _); [|discriminate].
    apply (sl_slice 0 [] 3 [] 1 [] None None 1 [] 3 [] [] (fun t => t)); try (unconst; lia).
    + unfold index_value. unconst. lia.
    + unfold selected. intros k. change (0 <? 1) with true. cbv iota. lia.
    + constructor.
  - split; [reflexivity|]. split; [reflexivity|]. intros k Hk. cbn in Hk. destruct Hk as [<-|[<-|[<-|[]]]]; reflexivity.
  - eexists. eexists. split; [vm_compute; reflexivity|]. vm_compute. auto.
Qed.
