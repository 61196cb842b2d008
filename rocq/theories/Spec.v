(** Spec.v -- the vocabulary in which the properties are stated.

    Nothing here mentions strides, origin offsets, pointers or any function of
    the model: only index tuples, shapes, index bases and positions. *)

From Coq Require Import ZArith List Bool Permutation.
Import ListNotations.
Local Open Scope Z_scope.

(** the largest value of the 64-bit signed type [index] *)
Definition max_index : Z := 9223372036854775807.
Definition index_value (z : Z) : Prop := - max_index - 1 <= z <= max_index.

(** [in_bounds bases shape i]: i is a valid index tuple *)
Fixpoint in_bounds (bases shape i : list Z) : Prop :=
  match bases, shape, i with
  | [], [], [] => True
  | b :: bases', e :: shape', k :: i' => b <= k < b + e /\ in_bounds bases' shape' i'
  | _, _, _ => False
  end.

Definition prod (l : list Z) : Z := fold_right Z.mul 1 l.
Definition sum (l : list Z) : Z := fold_right Z.add 0 l.

(** sum of the products of corresponding entries *)
Fixpoint dot (a b : list Z) : Z :=
  match a, b with x :: a', y :: b' => x * y + dot a' b' | _, _ => 0 end.

(** index tuple plus displacement *)
Fixpoint tadd (a b : list Z) : list Z :=
  match a, b with x :: a', y :: b' => (x + y) :: tadd a' b' | _, _ => [] end.

(** * Where an element is stored *)

(** digit of dimension with base b, extent e, direction up for index i *)
Definition digit (up : bool) (b e i : Z) : Z :=
  if up then i - b else e - 1 - (i - b).

Fixpoint digits (asc : list bool) (bases shape i : list Z) : list Z :=
  match asc, bases, shape, i with
  | up :: asc', b :: bases', e :: shape', k :: i' =>
      digit up b e k :: digits asc' bases' shape' i'
  | _, _, _, _ => []
  end.

(** mixed-radix number; [ord] lists the dimensions from least significant to
    most significant, dimension d has radix [nth d shape] *)
Fixpoint mixed_radix (ord : list nat) (shape digs : list Z) : Z :=
  match ord with
  | [] => 0
  | d :: ord' => nth d digs 0 + nth d shape 0 * mixed_radix ord' shape digs
  end.

(** storage position of element i: offset from data() *)
Definition position (ord : list nat) (asc : list bool) (bases shape i : list Z) : Z :=
  mixed_radix ord shape (digits asc bases shape i).

(** C order: last index varies fastest *)
Fixpoint row_major (bases shape i : list Z) : Z :=
  match bases, shape, i with
  | b :: bases', e :: shape', k :: i' => (k - b) * prod shape' + row_major bases' shape' i'
  | _, _, _ => 0
  end.
(** Fortran order: first index varies fastest *)
Fixpoint column_major (bases shape i : list Z) : Z :=
  match bases, shape, i with
  | b :: bases', e :: shape', k :: i' => (k - b) + e * column_major bases' shape' i'
  | _, _, _ => 0
  end.

(** * Which layouts are representable in 64-bit arithmetic *)

(** number of elements between neighbours along dimension d *)
Fixpoint dim_step (ord : list nat) (shape : list Z) (d : nat) : Z :=
  match ord with
  | [] => 1
  | x :: ord' => if Nat.eqb x d then 1 else nth x shape 0 * dim_step ord' shape d
  end.

(** the steps of all dimensions *)
Definition dim_steps (ord : list nat) (shape : list Z) : list Z :=
  map (dim_step ord shape) (seq 0 (length shape)).

(** Σ |x_k| * y_k *)
Fixpoint weighted (x y : list Z) : Z :=
  match x, y with
  | a :: x', b :: y' => Z.abs a * b + weighted x' y'
  | _, _ => 0
  end.

(** [ord] is a permutation of the dimensions, [asc] has one direction per
    dimension *)
Definition valid_order (n : nat) (ord : list nat) (asc : list bool) : Prop :=
  Permutation ord (seq 0 n) /\ length asc = n.

(** All index arithmetic on an array with this layout fits in 64 bits: extents
    and bases are index values, so is one-past-the-end of every dimension, and
    the element count (zero extents counted as one) plus the displacement caused
    by the index bases is at most 2^63-1. *)
Definition representable (ord : list nat) (bases shape : list Z) : Prop :=
  length bases = length shape /\
  (0 < length shape)%nat /\
  Forall (fun e => 0 <= e) shape /\
  Forall2 (fun b e => - max_index - 1 <= b /\ b + e <= max_index) bases shape /\
  prod (map (Z.max 1) shape) + weighted bases (dim_steps ord shape) <= max_index.

(** The same for any array-like object (array, subarray or view) whose
    neighbours along dimension k are [strides[k]] cells apart: the largest
    displacement from the origin of any of its elements is representable. *)
Fixpoint reach (bases shape strides : list Z) : Z :=
  match bases, shape, strides with
  | b :: bases', e :: shape', s :: strides' =>
      (Z.abs b + Z.max 0 (e - 1)) * Z.abs s + reach bases' shape' strides'
  | _, _, _ => 0
  end.
Definition addressable (bases shape strides : list Z) : Prop :=
  length bases = length shape /\
  length strides = length shape /\
  (0 < length shape)%nat /\
  Forall (fun e => 0 <= e <= max_index) shape /\
  Forall2 (fun b e => - max_index - 1 <= b /\ b + e <= max_index) bases shape /\
  Forall index_value strides /\
  reach bases shape strides <= max_index.

(** * Enumerating index tuples *)

(** b, b+1, ..., b+n-1 *)
Definition zseq (b : Z) (n : nat) : list Z := map (fun k => b + Z.of_nat k) (seq 0 n).

(** all valid tuples in lexicographic order *)
Fixpoint tuples (bases shape : list Z) : list (list Z) :=
  match bases, shape with
  | b :: bases', e :: shape' =>
      flat_map (fun k => map (cons k) (tuples bases' shape')) (zseq b (Z.to_nat e))
  | _, _ => [[]]
  end.

(** * Half-open strided ranges *)

(** start + k*stride is one of the indices selected by the range *)
Definition selected (start finish stride k : Z) : Prop :=
  0 <= k /\
  (if 0 <? stride then start + k * stride < finish else finish < start + k * stride).
