(** ViewSpec.v -- what a view a[indices[r1][r2]...] is supposed to be.

    Only index tuples, shapes, bases and the four fields of a range (start,
    finish, stride, "single index" flag) are used. *)

From Coq Require Import ZArith List Bool.
From Verif Require Import Ranges Spec.
Import ListNotations.
Local Open Scope Z_scope.

(** An omitted start is represented by the least index value, an omitted finish
    by the greatest one; they stand for the bounds of the dimension. *)
Definition range_start (r : index_range) (b : Z) : Z :=
  if ir_start r =? - max_index - 1 then b else ir_start r.
Definition range_finish (r : index_range) (b e : Z) : Z :=
  if ir_finish r =? max_index then b + e else ir_finish r.

(** element t of the view is element [source_index ... t] of the array: ranges
    map k to start + k*stride, single indices are fixed *)
Fixpoint source_index (bases : list Z) (rs : list index_range) (t : list Z) : list Z :=
  match bases, rs with
  | b :: bases', r :: rs' =>
      if ir_degenerate r then range_start r b :: source_index bases' rs' t
      else match t with
           | k :: t' => (range_start r b + k * ir_stride r) :: source_index bases' rs' t'
           | [] => []
           end
  | _, _ => []
  end.

(** the shape of the view: one dimension per range, with as many elements as the
    range selects *)
Inductive view_shape : list Z -> list Z -> list index_range -> list Z -> Prop :=
| vs_nil : view_shape [] [] [] []
| vs_single : forall b bs e es r rs vs,
    ir_degenerate r = true -> view_shape bs es rs vs ->
    view_shape (b :: bs) (e :: es) (r :: rs) vs
| vs_range : forall b bs e es r rs len vs,
    ir_degenerate r = false -> 0 <= len ->
    (forall k, k < len /\ 0 <= k <->
               selected (range_start r b) (range_finish r b e) (ir_stride r) k) ->
    view_shape bs es rs vs ->
    view_shape (b :: bs) (e :: es) (r :: rs) (len :: vs).

(** every index selected by range r lies in the dimension [b, b+e) *)
Definition range_inside (b e : Z) (r : index_range) : Prop :=
  if ir_degenerate r then b <= range_start r b < b + e
  else forall k, selected (range_start r b) (range_finish r b e) (ir_stride r) k ->
                 b <= range_start r b + k * ir_stride r < b + e.

Fixpoint ranges_inside (bases shape : list Z) (rs : list index_range) : Prop :=
  match bases, shape, rs with
  | [], [], [] => True
  | b :: bs, e :: es, r :: rs' => range_inside b e r /\ ranges_inside bs es rs'
  | _, _, _ => False
  end.
