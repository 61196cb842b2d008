(** OwnSpec.v -- what it means for a multi_array to be alive in memory. *)

From Coq Require Import ZArith List Bool.
From Verif Require Import Base Access Objects Memory MultiArray Spec ReachSpec MemSpec.
Import ListNotations.
Local Open Scope Z_scope.

Section OwnSpec.
Context {T : Type}.

(** the block an array owns *)
Definition ma_block (a : multi_array) : nat := p_blk (ma_base a).

(** [a] is a multi_array alive in heap [h] with elements [vs] (in storage
    order): it is the only user of a block that came from its own allocator,
    whose size is exactly num_elements(), which is what it will hand back to the
    allocator, and every slot of which holds a constructed element *)
Definition owns (h : heap T) (a : multi_array) (vs : list T) : Prop :=
  array_object (ma_ref a) /\
  cr_data (ma_ref a) = ma_base a /\ p_off (ma_base a) = 0 /\
  ma_alloc_elems a = cr_num_elements (ma_ref a) /\
  Z.of_nat (length vs) = cr_num_elements (ma_ref a) /\
  nth_error h (ma_block a) = Some (Some (Block (ma_aid a) (map Some vs))).

(** block b is the same in both heaps (allocation state, allocator, size and
    every slot) *)
Definition same_block (h h' : heap T) (b : nat) : Prop := nth_error h' b = nth_error h b.

(** every block that existed in h is still there, unchanged *)
Definition untouched (h h' : heap T) : Prop :=
  forall b, (b < length h)%nat -> same_block h h' b.

(** a block that was never returned to its allocator *)
Definition outstanding (h : heap T) (b : nat) : Prop := exists k, nth_error h b = Some (Some k).

(** the ranges describe exactly these bases and extents *)
Definition ranges_are (rs : list Ranges.extent_range) (bases shape : list Z) : Prop :=
  Forall2 (fun r be => Ranges.er_start r = fst be /\ Ranges.er_finish r = fst be + snd be)
          rs (combine bases shape).

End OwnSpec.

(** constructor calls with arguments that describe a representable array; the
    index is the allocator the new array will use *)
Inductive constructor {T : Type} (dflt : T) (h : heap T) : nat -> M T multi_array -> Prop :=
| k_default : forall chk n aid, (0 < n)%nat -> constructor dflt h aid (ma_default dflt chk n aid)
| k_list : forall chk shape so aid,
    order_ok (length shape) so -> layout_ok so (repeat 0 (length shape)) shape ->
    constructor dflt h aid (ma_from_list dflt chk (length shape) shape so aid)
| k_gen : forall chk g bases shape so aid,
    order_ok (length shape) so -> layout_ok so bases shape ->
    Ranges.eg_num g = length shape -> ranges_are (Ranges.eg_ranges g) bases shape ->
    constructor dflt h aid (ma_from_gen dflt chk g so aid)
| k_copy : forall a vs, owns h a vs -> constructor dflt h (ma_aid a) (ma_copy dflt a)
| k_convert : forall chk c x so aid,
    array_object c -> derived c x -> live h c ->
    order_ok (length (nd_ext x)) so -> layout_ok so (nd_base x) (nd_ext x) ->
    constructor dflt h aid (ma_convert dflt chk x so aid).
