(** FaultSpec.v -- calls outside the contract that a checked build must catch.

    Like HistorySpec.v, this file speaks of shapes, bases, index tuples and the
    places expressions denote; there are no pointers or strides to follow. *)

From Coq Require Import ZArith List Bool.
From Verif Require Import Base StorageOrder Spec ReachSpec History HistorySpec.
Import ListNotations.
Local Open Scope Z_scope.

(** subscripts of a dimension with index base b and extent e that are out of
    bounds.  The 64-bit conditions exclude the values for which the checks
    themselves overflow and the two values that stand for open ends. *)
Inductive bad_subscript (b e : Z) : subscript -> Prop :=
| bad_index : forall i, ~ b <= i < b + e -> - max_index - 1 < i < max_index - 1 ->
    bad_subscript b e (At i)
| bad_zero_stride : forall lo hi, bad_subscript b e (Slice lo hi 0)
| bad_slice : forall lo hi stride,
    let start := match lo with Some s => s | None => b end in
    let finish := match hi with Some f => f | None => b + e end in
    stride <> 0 -> lo <> Some (- max_index - 1) -> hi <> Some max_index ->
    index_value stride -> index_value (finish - start) -> index_value (finish - start + stride) ->
    (stride < 0 -> - max_index <= b) ->
    ~ b <= start <= b + e \/
    0 < stride /\ ~ b <= finish <= b + e \/
    stride < 0 /\ ~ b - 1 <= finish <= b + e - 1 ->
    bad_subscript b e (Slice lo hi stride).

(** indices[..][..] with one subscript per dimension, the first bad one preceded
    by good ones *)
Inductive bad_subscripts : list Z -> list Z -> list Z -> list subscript -> Prop :=
| bad_here : forall b bs e es s ss sub subs, bad_subscript b e sub -> length subs = length es ->
    Forall (fun x => match x with At i => index_value i /\ i < max_index | _ => True end) subs ->
    bad_subscripts (b :: bs) (e :: es) (s :: ss) (sub :: subs)
| bad_later : forall b bs e es s ss sub subs vs ws m,
    slices [b] [e] [s] [sub] vs ws m -> bad_subscripts bs es ss subs ->
    bad_subscripts (b :: bs) (e :: es) (s :: ss) (sub :: subs).

Section FaultSpec.
Context {T : Type}.

(** expressions in which some subscript, or the position of some dereferenced
    iterator, is out of bounds *)
Inductive bad_expr (st : @state T) : expr -> Prop :=
| be_sub : forall e i x b bs n ns s ss m,
    denotes st e (Place x (b :: bs) (n :: ns) (s :: ss) m) -> ns <> [] ->
    ~ b <= i < b + n -> index_value (i - b) -> bad_expr st (Sub e i)
| be_view : forall e subs x bs ns ss m,
    denotes st e (Place x bs ns ss m) -> bad_subscripts bs ns ss subs -> bad_expr st (View_of e subs)
| be_row : forall e k x b bs n ns s ss m,
    denotes st e (Place x (b :: bs) (n :: ns) (s :: ss) m) -> ns <> [] ->
    ~ 0 <= k < n -> index_value k -> index_value (b + k) -> bad_expr st (Row e k)
| be_rev_row : forall e k x b bs n ns s ss m,
    denotes st e (Place x (b :: bs) (n :: ns) (s :: ss) m) -> ns <> [] ->
    n <= Z.of_nat k -> index_value (b + n - 1 - Z.of_nat k) -> index_value (n - 1 - Z.of_nat k) ->
    bad_expr st (Rev_row e k)
| be_in_sub : forall e i, bad_expr st e -> bad_expr st (Sub e i)
| be_in_view : forall e subs, bad_expr st e -> bad_expr st (View_of e subs)
| be_in_row : forall e k, bad_expr st e -> bad_expr st (Row e k)
| be_in_rev_row : forall e k, bad_expr st e -> bad_expr st (Rev_row e k).

(** an index tuple of the right length with some index out of range *)
Definition bad_tuple (p : place) (i : list Z) : Prop :=
  length i = length (pl_shape p) /\ ~ in_bounds (pl_bases p) (pl_shape p) i /\
  Forall2 (fun b k => index_value (k - b)) (pl_bases p) i.

Definition denotes_something (st : @state T) (e : expr) : Prop := exists p, denotes st e p.

(** the mistakes *)
Inductive misuse (st : @state T) : @command T -> Prop :=
(* indexing *)
| mu_get : forall e i p, denotes st e p -> bad_tuple p i -> misuse st (Get e i)
| mu_set : forall e i v p, denotes st e p -> bad_tuple p i -> misuse st (Set_ e i v)
| mu_getb : forall e i p, denotes st e p -> bad_tuple p i -> misuse st (GetB e i)
| mu_setb : forall e i v p, denotes st e p -> bad_tuple p i -> misuse st (SetB e i v)
(* shapes that differ *)
| mu_assign : forall d s pd ps, denotes st d pd -> denotes st s ps -> pl_shape pd <> pl_shape ps ->
    misuse st (Assign d s)
| mu_copy_array : forall d s pd ps, denotes st d pd -> denotes st s ps -> pl_shape pd <> pl_shape ps ->
    misuse st (CopyArray d s)
| mu_assign_var : forall x y a b, array_is st x a -> array_is st y b -> a_shape a <> a_shape b ->
    misuse st (AssignVar x y)
| mu_reshape : forall x a shape, array_is st x a -> length shape = length (a_shape a) ->
    Forall (fun e => 0 <= e < 2 ^ 64) shape -> prod shape < 2 ^ 64 -> prod shape <> prod (a_shape a) ->
    misuse st (Reshape x shape)
| mu_reshape_ref : forall h x off bases shape0 so shape, named_is st h (ARef x off bases shape0 so) ->
    length shape = length shape0 ->
    Forall (fun e => 0 <= e < 2 ^ 64) shape -> prod shape < 2 ^ 64 -> prod shape <> prod shape0 ->
    misuse st (ReshapeRef h shape)
(* subscripts and iterators inside the operands *)
| mu_in_get : forall e i, bad_expr st e -> misuse st (Get e i)
| mu_in_set : forall e i v, bad_expr st e -> misuse st (Set_ e i v)
| mu_in_getb : forall e i, bad_expr st e -> misuse st (GetB e i)
| mu_in_setb : forall e i v, bad_expr st e -> misuse st (SetB e i v)
| mu_in_for_each : forall e f, bad_expr st e -> misuse st (ForEach e f)
| mu_in_ask : forall q e, bad_expr st e -> misuse st (Ask q e)
| mu_in_from : forall e so aid, bad_expr st e -> misuse st (NewFrom e so aid)
| mu_in_view : forall e subs, bad_expr st (View_of e subs) -> misuse st (NewView e subs)
| mu_in_source : forall d s, bad_expr st s -> misuse st (Assign d s)
| mu_in_dest : forall d s, denotes_something st s -> bad_expr st d -> misuse st (Assign d s)
| mu_in_source2 : forall d s, bad_expr st s -> misuse st (CopyArray d s)
| mu_in_dest2 : forall d s, denotes_something st s -> bad_expr st d -> misuse st (CopyArray d s)
| mu_in_left : forall op a b, bad_expr st a -> misuse st (Compare op a b)
| mu_in_right : forall op a b, denotes_something st a -> bad_expr st b -> misuse st (Compare op a b).

End FaultSpec.
