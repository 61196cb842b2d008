(** StorageOrder.v -- model of storage_order.hpp *)

From Verif Require Import Base.

(** storage_order.hpp:31-77 class general_storage_order: members [ordering_]
    and [ascending_] (lines 75-76).  Dimension numbers are [nat]. *)
Record storage_order := SO {
  so_ordering : list nat;
  so_ascending : list bool
}.

(** storage_order.hpp:37-41 general_storage_order(OrderingIter, AscendingIter) *)
Definition general_storage_order (n : nat) (ordering : list nat)
           (ascending : list bool) : outcome storage_order :=
  o <- copy_n ordering n ;;
  a <- copy_n ascending n ;;
  Ok (SO o a).

(** storage_order.hpp:47-52 general_storage_order(const c_storage_order&);
    the loop writes ordering_[i] = NumDims-1-i *)
Definition so_from_c (n : nat) : storage_order :=
  SO (map (fun i => n - 1 - i)%nat (seq 0 n)) (repeat true n).

(** storage_order.hpp:54-59 general_storage_order(const fortran_storage_order&) *)
Definition so_from_fortran (n : nat) : storage_order :=
  SO (map (fun i => i) (seq 0 n)) (repeat true n).

(** storage_order.hpp:87-97 c_storage_order::operator general_storage_order():
    one loop filling two local arrays, then the iterator constructor *)
Definition c_conversion (n : nat) : outcome storage_order :=
  let fill := map (fun i => ((n - 1 - i)%nat, true)) (seq 0 n) in
  general_storage_order n (map fst fill) (map snd fill).

(** storage_order.hpp:109-119 fortran_storage_order::operator general_storage_order() *)
Definition fortran_conversion (n : nat) : outcome storage_order :=
  let fill := map (fun i => (i, true)) (seq 0 n) in
  general_storage_order n (map fst fill) (map snd fill).

(** storage_order.hpp:61 ordering(dim) *)
Definition so_order_at (chk : bool) (so : storage_order) (dim : nat) : outcome nat :=
  arr_get chk (so_ordering so) dim.
(** storage_order.hpp:62 ascending(dim) *)
Definition so_asc_at (chk : bool) (so : storage_order) (dim : nat) : outcome bool :=
  arr_get chk (so_ascending so) dim.

(** storage_order.hpp:64-67 all_dims_ascending() *)
Definition all_dims_ascending (so : storage_order) : bool :=
  fold_left andb (so_ascending so) true.

Fixpoint nats_eqb (a b : list nat) : bool :=
  match a, b with
  | [], [] => true
  | x :: a', y :: b' => Nat.eqb x y && nats_eqb a' b'
  | _, _ => false
  end.
Fixpoint bools_eqb (a b : list bool) : bool :=
  match a, b with
  | [], [] => true
  | x :: a', y :: b' => eqb x y && bools_eqb a' b'
  | _, _ => false
  end.
(** storage_order.hpp:69-72 operator== *)
Definition so_eqb (a b : storage_order) : bool :=
  nats_eqb (so_ordering a) (so_ordering b) &&
  bools_eqb (so_ascending a) (so_ascending b).
