(** ThmConst.v -- C45: const access is read-only access. *)

From Coq Require Import ZArith List Bool Lia.
From Verif Require Import Base StorageOrder Ranges Layout Access Objects Memory Ops MultiArray Const ConstSpec
  Facts ConstProofs.
Import ListNotations.
Local Open Scope Z_scope.

(** From a const array, a const_* handle, a const iterator or a pointer or reference
    to const, whatever chain of member calls, slices, iterator steps, dereferences,
    conversions and copies the compiler accepts - unless one of its steps is a
    loophole - the expression reached is again read-only, and no operation that
    changes elements compiles on it. *)
Theorem c45_const_access_is_read_only : forall t p t',
  read_only t = true ->
  no_loophole t p = true ->
  chain_type t p = Some t' ->
  read_only t' = true /\
  forall w, changes_elements w = true -> modifier_ok t' w = false.
Proof.
  intros t p t' HR HL HC. assert (read_only t' = true) as H by (eapply chain_read_only; eauto).
  split; auto. intros w Hw. apply read_only_not_modifiable; auto.
Qed.

(** Conversely every way of modifying elements that starts from read-only access
    goes through a loophole. *)
Theorem c45_only_loopholes : forall t p t' w,
  read_only t = true ->
  chain_type t p = Some t' ->
  changes_elements w = true ->
  modifier_ok t' w = true ->
  exists p1 o p2 t1,
    p = p1 ++ o :: p2 /\ chain_type t p1 = Some t1 /\ loophole t1 o = true.
Proof.
  intros t p t' w HR HC HW HM.
  assert (no_loophole t p = false) as HL.
  { destruct (no_loophole t p) eqn:E; auto.
    rewrite (read_only_not_modifiable t' w (chain_read_only p t t' HR E HC) HW) in HM. discriminate. }
  clear HR HW HM w. revert t HC HL. induction p as [|o p IH]; intros t HC HL; cbn in *; [discriminate|].
  destruct (op_type t o) as [t1|] eqn:E; [|discriminate].
  destruct (loophole t o) eqn:EL; cbn in HL.
  - exists [], o, p, t. cbn. auto.
  - destruct (IH t1 HC HL) as (p1 & o1 & p2 & t2 & Hp & Hc & Hl).
    exists (o :: p1), o1, p2, t2. cbn. rewrite E, Hp. auto.
Qed.

(** The types called read-only are exactly those from which, loopholes apart,
    nothing can be modified. *)
Theorem c45_read_only_exact : forall t,
  (1 <= typ_dims t)%nat ->
  (read_only t = true <-> ~ can_modify t).
Proof.
  intros t HD. split.
  - intros HR (p & t' & w & HC & HL & HW & HM).
    rewrite (read_only_not_modifiable t' w (chain_read_only p t t' HR HL HC) HW) in HM. discriminate.
  - intros HN. destruct (read_only t) eqn:E; auto. exfalso. apply HN. apply writable_exact; auto.
Qed.

(** The loopholes are real: the compiler accepts each of them, on any number of
    dimensions, and the result can be used to modify the elements of the const
    object. *)
Theorem c45_loopholes_refuted : forall t o,
  loophole t o = true ->
  (1 <= typ_dims t)%nat ->
  read_only t = true /\
  exists t', op_type t o = Some t' /\ can_modify t'.
Proof.
  intros t o HL HD.
  destruct t as [c n k|p n|p n|k|p]; try discriminate.
  destruct c as [| |[]| |[]| |[]], k; try discriminate; (split; [reflexivity|]);
    destruct o as [m| | | | | | | | | |[| |[]| |[]| |[]]|q]; try discriminate; cbn;
    (eexists; split; [reflexivity|]; apply writable_exact; [reflexivity|exact HD]).
Qed.

(** const is no obstacle to reading: a chain of accesses that compiles on an array
    compiles on the const array too and arrives at the read-only version of the same
    type.  (const_sub_array<T,N,T*>, whose origin() returns T* either way, excepted.) *)
Theorem c45_const_offers_same_access : forall c n k p t,
  c <> KConstSub PMut ->
  p <> [] ->
  forallb is_access p = true ->
  chain_type (TObj c n k) p = Some t ->
  chain_type (TObj c n true) p = Some (read_only_version t).
Proof.
  intros c n k p t HN HP HA HC. destruct p as [|o p]; [congruence|]. cbn in HA, HC |- *.
  apply andb_prop in HA. destruct HA as [H1 H2].
  destruct (op_type (TObj c n k) o) as [t1|] eqn:E; [|discriminate].
  assert (op_type (TObj c n true) o = Some (read_only_version t1)) as ->.
  { destruct o as [m| | | | | | | | | |c'|q]; try discriminate.
    destruct c as [| |[]| |[]| |[]], k; try congruence;
      (destruct m; cbn in E |- *; unfold slice in *; try (destruct (Nat.eqb _ _)); destruct n as [|[|]]; cbn in E |- *;
       try discriminate; inversion E; subst; reflexivity). }
  apply mirror_chain; auto.
Qed.

(** A const object of any class cannot be assigned, refilled, resized, reindexed or
    reshaped. *)
Theorem c45_const_object_fixed : forall c n w, modifier_ok (TObj c n true) w = false.
Proof. intros c n w. destruct c as [| |[]| |[]| |[]], w; reflexivity. Qed.

(** Which non-const objects accept which change: assignment from another array needs
    one of the four mutable classes; assign() needs an array or reference over mutable
    elements; resize() needs a multi_array; arrays and references - also
    const_multi_array_ref - can be reindexed and reshaped, views can be reindexed only,
    subarrays neither. *)
Theorem c45_modifiers_exact : forall c n w,
  modifier_ok (TObj c n false) w = true <->
  match w with
  | WElement => False
  | WArray => In c [KMultiArray; KRef; KSub; KView]
  | WRange => In c [KMultiArray; KRef; KConstRef PMut]
  | WResize => In c [KMultiArray]
  | WReindex => In c [KMultiArray; KRef; KConstRef PMut; KConstRef PConst;
                      KView; KConstView PMut; KConstView PConst]
  | WReshape => In c [KMultiArray; KRef; KConstRef PMut; KConstRef PConst]
  end.
Proof.
  intros c n w. destruct c as [| |[]| |[]| |[]], w; cbn; split; intros H; auto; try discriminate;
    repeat match goal with H : _ \/ _ |- _ => destruct H; try discriminate end; try contradiction;
    tauto.
Qed.

(** What every member gives: on a non-const object of one of the four mutable classes
    ([writable]) pointers, iterators, subarrays, views and elements that may be
    modified, otherwise their read-only counterparts; only arrays and references have
    data(); slicing needs as many ranges as there are dimensions.
    (const_sub_array<T,N,T*> is the exception named in C45's loopholes.) *)
Theorem c45_members_exact : forall c n k m,
  (1 <= n)%nat ->
  c <> KConstSub PMut ->
  let writable := negb k && match c with KMultiArray | KRef | KSub | KView => true | _ => false end in
  let pointer := if writable then PMut else PConst in
  op_type (TObj c n k) (OMember m) =
  match m with
  | MOrigin => Some (TPtr pointer)
  | MData => match c with KMultiArray | KRef | KConstRef _ => Some (TPtr pointer) | _ => None end
  | MBegin | MEnd => Some (TIter pointer n)
  | MRbegin | MRend => Some (TRev pointer n)
  | MCall _ => Some (TElem (negb writable))
  | MIndex _ => Some (if Nat.eqb n 1 then TElem (negb writable)
                      else TObj (if writable then KSub else KConstSub PConst) (n - 1) false)
  | MSlice g => if Nat.eqb (ig_num g) n
                then Some (TObj (if writable then KView else KConstView PConst) (ig_dims g) false)
                else None
  end.
Proof.
  intros c n k m HN HC. destruct n as [|n]; [lia|].
  destruct c as [| |[]| |[]| |[]], k; try congruence;
    destruct m; cbn; unfold slice; try reflexivity; try (destruct n; cbn; reflexivity);
    destruct (ig_num g) as [|j]; cbn; try reflexivity; destruct (Nat.eqb j n); reflexivity.
Qed.

(** What iterators, pointers and elements give, and which conversions and handle
    copies compile: never one from read-only to mutable, and always the others
    within a family. *)
Theorem c45_steps_exact :
  (forall p n, let const := match p with PConst => true | PMut => false end in
     let target := match n with
                   | O => None
                   | 1%nat => Some (TElem const)
                   | S m => Some (TObj (if const then KConstSub PConst else KSub) m false)
                   end in
     (1 <= n)%nat ->
     op_type (TIter p n) ODeref = target /\ op_type (TRev p n) ODeref = target /\
     (forall i, op_type (TIter p n) (OSubscript i) = target /\ op_type (TRev p n) (OSubscript i) = target) /\
     (forall i, op_type (TIter p n) (OMove i) = Some (TIter p n) /\ op_type (TRev p n) (OMove i) = Some (TRev p n)) /\
     op_type (TIter p n) OReverse = Some (TRev p n) /\ op_type (TRev p n) OBase = Some (TIter p n)) /\
  (forall p, op_type (TPtr p) ODeref = Some (TElem match p with PConst => true | PMut => false end)) /\
  (forall const, op_type (TElem const) OAddress = Some (TPtr (if const then PConst else PMut))) /\
  (forall p q n,
     let legal := match p, q with PConst, PMut => false | _, _ => true end in
     op_type (TIter p n) (OConvert q) = (if legal then Some (TIter q n) else None) /\
     op_type (TRev p n) (OConvert q) = (if legal then Some (TRev q n) else None) /\
     op_type (TPtr p) (OConvert q) = (if legal then Some (TPtr q) else None)) /\
  (forall c n const c',
     op_type (TObj c n const) (OCopy c') = Some (TObj c' n false) <->
     In c' match c with
           | KMultiArray | KRef => [KRef; KConstRef PMut; KConstRef PConst]
           | KConstRef PMut => [KConstRef PMut; KConstRef PConst]
           | KConstRef PConst => [KConstRef PConst]
           | KSub => [KSub; KConstSub PMut; KConstSub PConst]
           | KConstSub PMut => [KConstSub PMut; KConstSub PConst]
           | KConstSub PConst => [KConstSub PConst]
           | KView => [KView; KConstView PMut; KConstView PConst]
           | KConstView PMut => [KConstView PMut; KConstView PConst]
           | KConstView PConst => [KConstView PConst]
           end).
Proof.
  split; [|split; [|split; [|split]]].
  - intros p n const target HN. subst const target.
    destruct n as [|[|n]]; [lia| |]; destruct p; cbn; repeat split; reflexivity.
  - intros []; reflexivity.
  - intros []; reflexivity.
  - intros [] [] n; cbn; repeat split; reflexivity.
  - intros c n const c'. destruct c as [| |[]| |[]| |[]], c' as [| |[]| |[]| |[]]; cbn;
      split; intros H; try reflexivity; try discriminate; auto;
      repeat match goal with H : _ \/ _ |- _ => destruct H; try discriminate end; try contradiction; tauto.
Qed.

(** Element access: as many brackets as there are dimensions, or one operator(),
    lead to an element in every class; the element may be assigned exactly if the
    object is a non-const one of class multi_array, multi_array_ref, sub_array or
    multi_array_view. *)
Theorem c45_element_access : forall c k is idx,
  is <> [] ->
  let writable := negb k && match c with KMultiArray | KRef | KSub | KView => true | _ => false end in
  chain_type (TObj c (length is) k) (map (fun i => OMember (MIndex i)) is) = Some (TElem (negb writable)) /\
  chain_type (TObj c (length is) k) [OMember (MCall idx)] = Some (TElem (negb writable)).
Proof.
  assert (forall l i, chain_type (TObj KSub (S (length l)) false) (map (fun i => OMember (MIndex i)) (i :: l)) = Some (TElem false)) as HS.
  { induction l as [|j l IH]; intros i; [reflexivity|]. cbn. apply (IH j). }
  assert (forall l i, chain_type (TObj (KConstSub PConst) (S (length l)) false) (map (fun i => OMember (MIndex i)) (i :: l)) = Some (TElem true)) as HC.
  { induction l as [|j l IH]; intros i; [reflexivity|]. cbn. apply (IH j). }
  intros c k is idx HN. destruct is as [|i l]; [congruence|].
  split.
  - destruct l as [|j l].
    + destruct c as [| |[]| |[]| |[]], k; reflexivity.
    + pose proof (HS l j) as H1. pose proof (HC l j) as H2.
      destruct c as [| |[]| |[]| |[]], k; cbn in H1, H2 |- *; assumption.
  - destruct c as [| |[]| |[]| |[]], k; destruct l; reflexivity.
Qed.

(** it->f() means the same as dereferencing and calling f, for iterators over rows; on iterators over the elements of
    a one-dimensional array operator-> is ill-formed. *)
Theorem c45_arrow : forall p n,
  op_type (TIter p (S (S n))) OArrow = op_type (TIter p (S (S n))) ODeref /\
  op_type (TIter p (S (S n))) OArrow <> None /\
  op_type (TIter p 1) OArrow = None.
Proof. intros p n. destruct p; cbn; repeat split; discriminate. Qed.

(** A function that receives some arrays, views, subarrays or iterators as const
    (or as const_* types) and others as mutable, whatever it does with them short of
    a loophole, and however it ends, leaves every storage block unchanged that none
    of the mutable arguments points into. *)
Theorem c45_const_arguments_unchanged : forall (T : Type) (dflt : T) chk types types' args program
    (h h' : heap T) fuse b,
  length types = length args ->
  program_types types program = Some types' ->
  program_without_loophole types program = true ->
  (forall k t v, nth_error types k = Some t -> nth_error args k = Some v ->
                 read_only t = false -> block_of v <> b) ->
  (b < length h)%nat ->
  leaves_heap (run_program dflt chk args program (World h fuse)) h' ->
  nth_error h' b = nth_error h b.
Proof.
  intros T dflt chk ts ts' vs p h h' f b HL HT HN HB Hb HR.
  assert (sound (fun x => x <> b) (length h) ts vs) as HS.
  { split; auto. intros k t v H1 H2 H3. left. eapply HB; eauto. }
  pose proof (k_program (fun x => x <> b) (length h) dflt chk p ts ts' vs HS HT HN (World h f)) as HK.
  specialize (HK (le_n _)).
  destruct (run_program dflt chk vs p (World h f)) as [a w|w|w| |]; cbn in HR; try contradiction; subst h'.
  - destruct HK as [_ [_ HK]]. apply HK; auto.
  - destruct HK as [_ HK]. apply HK; auto.
  - destruct HK as [_ HK]. apply HK; auto.
Qed.

(** a one-dimensional multi_array of two elements in block 0, and one of two
    elements in block 1 *)
Definition two (b : nat) : value :=
  VOwn (MA (CRef (Ptr b 0) (SO [0%nat] [true]) [2] [1] [0] 0 0 2) (Ptr b 0) 2 0).
Definition two_heap : heap Z := [Some (Block 0 [Some 1; Some 2]); Some (Block 0 [Some 3; Some 4])].

(** With a loophole the theorem fails:
      void f(const multi_array<Z,1>& a) { multi_array_ref<Z,1> r(a); r[0] = 42; } *)
Theorem c45_copied_handle_refuted :
  exists types args (program : list (@statement Z)) types' h',
    types = [TObj KMultiArray 1 true] /\
    program_types types program = Some types' /\
    leaves_heap (run_program 0 true args program (World two_heap None)) h' /\
    h' <> two_heap.
Proof.
  exists [TObj KMultiArray 1 true], [two 0],
    [CLet 0 (OCopy KRef); CLet 1 (OMember (MIndex 0)); CSet 2 42].
  eexists. eexists. split; [reflexivity|]. split; [reflexivity|]. split; [vm_compute; reflexivity|].
  vm_compute. discriminate.
Qed.

(** void f(const multi_array<Z,1>& a, multi_array<Z,1>& b)
      { b = a; auto it = a.begin(); b[1] = *it; multi_array<Z,1> c(a); c[0] = 7; }
    and the rejected programs of test/fail_cbracket.cpp, fail_cdata.cpp,
    fail_citerator.cpp, fail_cparen.cpp, fail_criterator.cpp, fail_csubarray.cpp,
    fail_cview.cpp *)
Example ex_c45 :
  (let program :=
     [CAssign 1 0; CLet 0 (OMember MBegin); CLet 2 ODeref; CLet 1 (OMember (MIndex 1)); CSetFrom 4 3;
      CNew 0 (SO [0%nat] [true]); CLet 5 (OMember (MIndex 0)); CSet 6 7] in
   let types := [TObj KMultiArray 1 true; TObj KMultiArray 1 false] in
   program_types types program <> None /\ program_without_loophole types program = true /\
   leaves_heap (run_program 0 true [two 0; two 1] program (World two_heap None))
     [Some (Block 0 [Some 1; Some 2]); Some (Block 0 [Some 1; Some 1]); Some (Block 0 [Some 7; Some 2])]) /\
  (let rejected p := exists t, chain_type (TObj KMultiArray 3 true) p = Some t /\
                     forall w, modifier_ok t w = false in
   rejected [OMember (MIndex 0); OMember (MIndex 0); OMember (MIndex 0)] /\
   rejected [OMember MData; ODeref] /\
   rejected [OMember MBegin; ODeref; OMember MBegin; ODeref; OMember MBegin; ODeref] /\
   rejected [OMember (MCall [0; 0; 0])] /\
   rejected [OMember MRbegin; ODeref; OMember MRbegin; ODeref; OMember MRbegin; ODeref] /\
   rejected [OMember (MIndex 1)] /\
   rejected [OMember (MSlice (IGen 3 3 [ir_default; ir_default; ir_default])); OMember (MCall [0; 0; 0])]).
Proof.
  split; [split; [discriminate|split; [reflexivity|vm_compute; reflexivity]]|].
  repeat split; (eexists; split; [reflexivity|intros []; reflexivity]).
Qed.
