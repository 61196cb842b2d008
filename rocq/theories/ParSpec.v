(** ParSpec.v -- vocabulary for C67: threads that divide the elements of the arrays they
    share among themselves, and build, use, resize and destroy arrays of their own. *)

From Coq Require Import ZArith List Bool.
From Verif Require Import Base Access Memory History Concur Spec HistorySpec CostSpec.
Import ListNotations.
Local Open Scope Z_scope.

Section ParSpec.
Context {T : Type}.
Variable dflt : T.
Variable eqT : T -> T -> bool.
Variable ltT : T -> T -> bool.

(** Elements are told apart by the array x they belong to and their number q in the
    storage of the array. *)

(** the command may read element q of array x *)
Inductive reads_elem (st : @state T) : @command T -> nat -> nat -> Prop :=
| re_copy : forall y a q, array_is st y a -> (q < length (a_elems a))%nat -> reads_elem st (NewCopy y) y q
| re_from : forall e so aid p i, denotes st e p -> in_bounds (pl_bases p) (pl_shape p) i ->
    reads_elem st (NewFrom e so aid) (pl_var p) (pl_cell p i)
| re_assign : forall d s p i, denotes st s p -> in_bounds (pl_bases p) (pl_shape p) i ->
    reads_elem st (Assign d s) (pl_var p) (pl_cell p i)
| re_assign_var : forall x y a q, x <> y -> array_is st y a -> (q < length (a_elems a))%nat -> reads_elem st (AssignVar x y) y q
| re_copy_array : forall d s p i, denotes st s p -> in_bounds (pl_bases p) (pl_shape p) i ->
    reads_elem st (CopyArray d s) (pl_var p) (pl_cell p i)
| re_get : forall e i p, denotes st e p -> reads_elem st (Get e i) (pl_var p) (pl_cell p i)
| re_getb : forall e i p, denotes st e p -> reads_elem st (GetB e i) (pl_var p) (pl_cell p i)
| re_for_each : forall e f p i, denotes st e p -> in_bounds (pl_bases p) (pl_shape p) i ->
    reads_elem st (ForEach e f) (pl_var p) (pl_cell p i)
| re_compare_left : forall op a b p i, denotes st a p -> in_bounds (pl_bases p) (pl_shape p) i ->
    reads_elem st (Compare op a b) (pl_var p) (pl_cell p i)
| re_compare_right : forall op a b p i, denotes st b p -> in_bounds (pl_bases p) (pl_shape p) i ->
    reads_elem st (Compare op a b) (pl_var p) (pl_cell p i).

(** the command may write element q of array x *)
Inductive writes_elem (st : @state T) : @command T -> nat -> nat -> Prop :=
| we_assign : forall d s p i, denotes st d p -> in_bounds (pl_bases p) (pl_shape p) i ->
    writes_elem st (Assign d s) (pl_var p) (pl_cell p i)
| we_assign_var : forall x y a q, x <> y -> array_is st x a -> (q < length (a_elems a))%nat -> writes_elem st (AssignVar x y) x q
| we_copy_array : forall d s p i, denotes st d p -> in_bounds (pl_bases p) (pl_shape p) i ->
    writes_elem st (CopyArray d s) (pl_var p) (pl_cell p i)
| we_set : forall e i v p, denotes st e p -> writes_elem st (Set_ e i v) (pl_var p) (pl_cell p i)
| we_setb : forall e i v p, denotes st e p -> writes_elem st (SetB e i v) (pl_var p) (pl_cell p i)
| we_fill : forall x l a q, array_is st x a -> (q < length l)%nat -> (q < length (a_elems a))%nat -> writes_elem st (Fill x l) x q
| we_fill_ref : forall h l x off bases shape so q, named_is st h (ARef x off bases shape so) ->
    off <= Z.of_nat q < off + Z.min (Z.of_nat (length l)) (prod shape) -> writes_elem st (FillRef h l) x q
| we_for_each : forall e f p i, denotes st e p -> in_bounds (pl_bases p) (pl_shape p) i ->
    writes_elem st (ForEach e f) (pl_var p) (pl_cell p i).

(** the command changes the geometry of array x, moves its storage or destroys it *)
Inductive restructures : @command T -> nat -> Prop :=
| rs_destroy : forall x, restructures (Destroy x) x
| rs_reindex : forall x bases, restructures (Reindex x bases) x
| rs_reindex_all : forall x b, restructures (ReindexAll x b) x
| rs_reshape : forall x shape, restructures (Reshape x shape) x
| rs_resize : forall x rs, restructures (Resize x rs) x
| rs_resize_list : forall x shape, restructures (ResizeList x shape) x.

(** The first k arrays are shared.  [lot x q = Some i]: element q of shared array x is
    given to thread i; [lot x q = None]: everybody may read it and nobody may write it. *)
Variable lot : nat -> nat -> option nat.

(** thread i stays within what it was given *)
Definition keeps_to (i k : nat) (st : @state T) (c : @command T) : Prop :=
  (forall x, restructures c x -> (k <= x)%nat) /\
  (forall x q, writes_elem st c x q -> (k <= x)%nat \/ lot x q = Some i) /\
  (forall x q, reads_elem st c x q -> (k <= x)%nat \/ lot x q = None \/ lot x q = Some i).

(** the program of thread i, in the abstract and alone: it starts in a state whose first
    k arrays are shared, stays within what it was given, and catches every exception;
    os are its outputs and st' is the state it ends in *)
Inductive lot_run (i k : nat) (st : @state T)
  : list (@command T * option nat) -> list (option (@output T)) -> @state T -> Prop :=
| lr_nil : lot_run i k st [] [] st
| lr_done : forall c f rest o os n st1 st2, step dflt eqT ltT st c o st1 -> costs st c n ->
    (forall j, f = Some j -> (n <= j)%nat) -> keeps_to i k st c ->
    lot_run i k st1 rest os st2 -> lot_run i k st ((c, f) :: rest) (Some o :: os) st2
| lr_thrown : forall c j rest o os n st1 st1' st2, step dflt eqT ltT st c o st1' -> costs st c n -> (j < n)%nat ->
    keeps_to i k st c -> interrupted st j c st1 ->
    lot_run i k st1 rest os st2 -> lot_run i k st ((c, Some j) :: rest) (None :: os) st2.

(** a program that keeps to the library's contract and within its lot, however its
    commands end *)
Fixpoint lot_legal (i k : nat) (st : @state T) (p : list (@command T * option nat)) : Prop :=
  match p with
  | [] => True
  | (c, f) :: rest =>
      legal st c /\ keeps_to i k st c /\
      (forall o st', step dflt eqT ltT st c o st' -> lot_legal i k st' rest) /\
      (forall j st', f = Some j -> interrupted st j c st' -> lot_legal i k st' rest)
  end.

(** st and st' differ at most in shared elements that are given to threads other than i *)
Definition seen_by (i k : nat) (st st' : @state T) : Prop :=
  s_named st' = s_named st /\
  forall x, (k <= x)%nat /\ nth_error (s_arrays st') x = nth_error (s_arrays st) x \/
    (x < k)%nat /\
    match nth_error (s_arrays st) x, nth_error (s_arrays st') x with
    | Some (Some a), Some (Some b) =>
        a_shape b = a_shape a /\ a_bases b = a_bases a /\ a_order b = a_order a /\ a_alloc b = a_alloc a /\
        length (a_elems b) = length (a_elems a) /\
        forall q, lot x q = None \/ lot x q = Some i -> nth_error (a_elems b) q = nth_error (a_elems a) q
    | Some None, Some None => True
    | None, None => True
    | _, _ => False
    end.

(** the next step of a thread reads or changes the element at p; changes it; gives back
    block b *)
Definition about_to_alter {A} (m : job T A) (p : ptr) : Prop :=
  match m with JWrite q _ _ | JMake q _ _ | JKill q _ => q = p | _ => False end.
Definition about_to_touch {A} (m : job T A) (p : ptr) : Prop :=
  about_to_alter m p \/ match m with JRead q _ => q = p | _ => False end.
Definition about_to_free {A} (m : job T A) (b : nat) : Prop :=
  match m with JFree _ p _ _ => p_blk p = b | _ => False end.
(** a data race: two threads are about to access the same element, one of them changing
    it; or one is about to give back a block in which the other is about to access an
    element or which the other is about to give back *)
Definition race {A} (pool : list (job T A * option nat)) : Prop :=
  exists i j m n f g, i <> j /\ nth_error pool i = Some (m, f) /\ nth_error pool j = Some (n, g) /\
    ((exists p, about_to_alter m p /\ about_to_touch n p) \/
     (exists b, about_to_free m b /\ ((exists p, about_to_touch n p /\ p_blk p = b) \/ about_to_free n b))).

End ParSpec.
