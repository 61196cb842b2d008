(** CompareSpec.v -- what array comparison is supposed to compute.

    The contents of an n-dimensional array as an n-fold nested list, and the
    lexicographic order on lists; nothing here mentions iterators or memory
    layout. *)

From Coq Require Import ZArith List Bool.
From Verif Require Import Base Access Memory Ops Spec MemSpec.
Import ListNotations.
Local Open Scope Z_scope.

Section Tensors.
Variable T : Type.

(** n-fold nested lists *)
Fixpoint tensor (n : nat) : Type :=
  match n with O => T | S k => list (tensor k) end.

(** number of entries at every level *)
Fixpoint shaped (n : nat) : tensor n -> list Z -> Prop :=
  match n with
  | O => fun _ es => es = []
  | S k => fun l es =>
      match es with
      | e :: es' => Z.of_nat (length l) = e /\ Forall (fun r => shaped k r es') l
      | [] => False
      end
  end.

(** entry at position (k1, k2, ...), counting from 0 *)
Fixpoint entry (n : nat) : tensor n -> list Z -> option T :=
  match n with
  | O => fun v ks => match ks with [] => Some v | _ => None end
  | S m => fun l ks =>
      match ks with
      | k :: ks' => match nth_error l (Z.to_nat k) with
                    | Some r => entry m r ks'
                    | None => None
                    end
      | [] => None
      end
  end.

(** t is the contents of array a in heap h *)
Definition contents (h : heap T) (a : nd) (n : nat) (t : tensor n) : Prop :=
  length (nd_ext a) = n /\ shaped n t (nd_ext a) /\
  forall k, in_bounds (repeat 0 (length (nd_ext a))) (nd_ext a) k ->
    exists v, entry n t k = Some v /\ reads h a (tadd (nd_base a) k) v.

Variable less : T -> T -> bool.

(** l comes before m: at the first place where they differ l's entry is less, or
    l ends there and m goes on *)
Definition lex {A : Type} (lt : A -> A -> Prop) (l m : list A) : Prop :=
  exists k, (k <= length l)%nat /\ (k <= length m)%nat /\
    (forall j x y, (j < k)%nat -> nth_error l j = Some x -> nth_error m j = Some y -> ~ lt x y /\ ~ lt y x) /\
    ((k = length l /\ (k < length m)%nat) \/
     (exists x y, nth_error l k = Some x /\ nth_error m k = Some y /\ lt x y)).

Fixpoint tensor_lt (n : nat) : tensor n -> tensor n -> Prop :=
  match n with
  | O => fun u v => less u v = true
  | S k => fun l m => lex (tensor_lt k) l m
  end.

End Tensors.
Arguments tensor : clear implicits.
Arguments shaped {T} n.
Arguments entry {T} n.
Arguments contents {T} h a n.
Arguments tensor_lt {T} less n.

(** strict weak order, strict total order, equivalence *)
Definition strict_weak {A} (lt : A -> A -> Prop) : Prop :=
  (forall x, ~ lt x x) /\
  (forall x y z, lt x y -> lt y z -> lt x z) /\
  (forall x y z, ~ lt x y -> ~ lt y x -> ~ lt y z -> ~ lt z y -> ~ lt x z /\ ~ lt z x).
Definition strict_total {A} (lt : A -> A -> Prop) : Prop :=
  strict_weak lt /\ forall x y, ~ lt x y -> ~ lt y x -> x = y.
