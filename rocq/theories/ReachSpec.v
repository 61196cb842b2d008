(** ReachSpec.v -- which objects a program can hold.

    [array_object c] : c is an array (multi_array, multi_array_ref or
    const_multi_array_ref) obtained through the public constructors and the
    operations that change an array's geometry, all with valid storage orders
    and layouts that fit in 64 bits.

    [derived c a] : a is the array c itself, or a subarray or view obtained from
    it by any nesting of a[i], a[indices...] and view.reindex, each accepted by
    the range checks. *)

From Coq Require Import ZArith List Bool.
From Verif Require Import Base StorageOrder Ranges Layout Access Objects Spec ViewSpec.
Import ListNotations.
Local Open Scope Z_scope.

Definition order_ok (n : nat) (so : storage_order) : Prop :=
  valid_order n (so_ordering so) (so_ascending so).
Definition layout_ok (so : storage_order) (bases shape : list Z) : Prop :=
  representable (so_ordering so) bases shape.

Inductive array_object : cref -> Prop :=
| ao_list : forall chk base shape so c,
    order_ok (length shape) so -> layout_ok so (repeat 0 (length shape)) shape ->
    cref_from_list chk (length shape) base shape so = Ok c -> array_object c
| ao_gen : forall chk base bases shape g so c,
    order_ok (length shape) so -> layout_ok so bases shape ->
    eg_num g = length shape ->
    Forall2 (fun r be => er_start r = fst be /\ er_finish r = fst be + snd be)
            (eg_ranges g) (combine bases shape) ->
    cref_from_gen chk base g so = Ok c -> array_object c
| ao_shape : forall chk base bases shape so c,
    order_ok (length shape) so -> layout_ok so bases shape ->
    cref_from_shape chk (length shape) base so bases shape = Ok c -> array_object c
| ao_default : forall chk n base so c,
    (0 < n)%nat -> order_ok n so -> cref_default chk n base so = Ok c -> array_object c
| ao_set_base : forall c p, array_object c -> array_object (cr_set_base c p)
| ao_reindex : forall c bases c',
    array_object c -> length bases = length (cr_ext c) ->
    layout_ok (cr_storage c) bases (cr_ext c) ->
    cr_reindex c bases = Ok c' -> array_object c'
| ao_reindex1 : forall c base c',
    array_object c -> layout_ok (cr_storage c) (repeat base (length (cr_ext c))) (cr_ext c) ->
    cr_reindex1 c base = Ok c' -> array_object c'
| ao_reshape : forall c shape c',
    array_object c -> length shape = length (cr_ext c) ->
    layout_ok (cr_storage c) (cr_ib c) shape ->
    cr_reshape true c shape = Ok c' -> array_object c'.

(** index_gen objects: indices[..][..]... *)
Inductive built : index_gen -> Prop :=
| built_none : built indices
| built_range : forall g r g', built g -> ig_at_range g r = Ok g' -> built g'
| built_index : forall g k g', built g -> ig_at_index g k = Ok g' -> built g'.

Inductive derived (c : cref) : nd -> Prop :=
| d_array : derived c (cr_nd c)
| d_sub : forall a i s, derived c a -> access_n true i a = Ok s -> derived c s
| d_view : forall v, derived_view c v -> derived c (v_nd v)
with derived_view (c : cref) : view -> Prop :=
| dv_make : forall a ig v,
    derived c a -> built ig -> (0 < ig_dims ig)%nat ->
    make_view true a ig = Ok v ->
    ranges_inside (nd_base a) (nd_ext a) (ig_ranges ig) ->
    derived_view c v
| dv_reindex : forall v bases v',
    derived_view c v -> length bases = length (v_ext v) ->
    addressable bases (v_ext v) (v_str v) ->
    v_reindex v bases = Ok v' -> derived_view c v'
| dv_reindex1 : forall v b v',
    derived_view c v -> addressable (repeat b (length (v_ext v))) (v_ext v) (v_str v) ->
    v_reindex1 v b = Ok v' -> derived_view c v'.
