(** CostSpec.v -- how many operations that are able to throw (allocations,
    element constructions and element assignments) each command performs.

    Stated on the abstract machine of HistorySpec.v: shapes and lengths only. *)

From Coq Require Import ZArith List Bool.
From Verif Require Import Base StorageOrder Spec ReachSpec History HistorySpec.
Import ListNotations.
Local Open Scope Z_scope.

(** number of elements of an array with this shape *)
Definition count (shape : list Z) : nat := Z.to_nat (prod shape).

(** the shape of the part two arrays have in common *)
Definition common (s1 s2 : list Z) : list Z := map (fun p => Z.min (fst p) (snd p)) (combine s1 s2).

Section CostSpec.
Context {T : Type}.

(** the command does this many operations that are able to throw *)
Inductive costs (st : @state T) : @command T -> nat -> Prop :=
(* constructors: one allocation, one construction per element; copies also
   assign every element *)
| co_default : forall n aid, costs st (NewDefault n aid) 1
| co_list : forall shape so aid, costs st (NewList shape so aid) (1 + count shape)
| co_ranges : forall rs so aid, costs st (NewRanges rs so aid) (1 + count (ranges_shape rs))
| co_copy : forall y a, array_is st y a -> costs st (NewCopy y) (1 + count (a_shape a) + count (a_shape a))
| co_from : forall e so aid p, denotes st e p ->
    costs st (NewFrom e so aid) (1 + count (pl_shape p) + count (pl_shape p))
(* resize: one allocation, one construction per new element, one assignment per
   element kept *)
| co_resize : forall x rs a, array_is st x a ->
    costs st (Resize x rs) (1 + count (ranges_shape rs) + count (common (ranges_shape rs) (a_shape a)))
| co_resize_list : forall x shape a, array_is st x a ->
    costs st (ResizeList x shape) (1 + count shape + count (common shape (a_shape a)))
(* element-wise operations: one assignment per element *)
| co_assign : forall d s p, denotes st d p -> costs st (Assign d s) (count (pl_shape p))
| co_copy_array : forall d s p, denotes st d p -> costs st (CopyArray d s) (count (pl_shape p))
| co_assign_var : forall x y a, array_is st x a -> x <> y -> costs st (AssignVar x y) (count (a_shape a))
| co_for_each : forall e f p, denotes st e p -> costs st (ForEach e f) (count (pl_shape p))
| co_fill : forall x l a, array_is st x a -> costs st (Fill x l) (Nat.min (length l) (count (a_shape a)))
| co_fill_ref : forall h l x off bases shape so, named_is st h (ARef x off bases shape so) ->
    costs st (FillRef h l) (Nat.min (length l) (count shape))
| co_set : forall e i v, costs st (Set_ e i v) 1
| co_setb : forall e i v, costs st (SetB e i v) 1
(* everything else: none *)
| co_self : forall x, costs st (AssignVar x x) 0
| co_destroy : forall x, costs st (Destroy x) 0
| co_view : forall e subs, costs st (NewView e subs) 0
| co_ref_list : forall x off shape so, costs st (NewRefList x off shape so) 0
| co_ref_ranges : forall x off rs so, costs st (NewRefRanges x off rs so) 0
| co_ref_of : forall x, costs st (NewRefOf x) 0
| co_alias : forall h, costs st (NewAlias h) 0
| co_get : forall e i, costs st (Get e i) 0
| co_getb : forall e i, costs st (GetB e i) 0
| co_reindex : forall x bases, costs st (Reindex x bases) 0
| co_reindex_all : forall x base, costs st (ReindexAll x base) 0
| co_reshape : forall x shape, costs st (Reshape x shape) 0
| co_reindex_named : forall h bases, costs st (ReindexNamed h bases) 0
| co_reindex_named_all : forall h b, costs st (ReindexNamedAll h b) 0
| co_reshape_ref : forall h shape, costs st (ReshapeRef h shape) 0
| co_compare : forall op a b, costs st (Compare op a b) 0
| co_ask : forall q e, costs st (Ask q e) 0.

Variable dflt : T.
Variable eqT : T -> T -> bool.
Variable ltT : T -> T -> bool.

(** a program: its outputs, the state after it and the sum of the costs of its
    commands *)
Inductive counted (st : @state T) : list (@command T) -> list (@output T) -> @state T -> nat -> Prop :=
| cn_nil : counted st [] [] st 0
| cn_cons : forall c o st1 p os st2 n m, step dflt eqT ltT st c o st1 -> costs st c n ->
    counted st1 p os st2 m -> counted st (c :: p) (o :: os) st2 (n + m).

End CostSpec.
