(** OverlapSpec.v -- vocabulary for C53. *)

From Coq Require Import ZArith List Bool.
From Verif Require Import Base Ranges Access Objects Memory Ops Spec ViewSpec ReachSpec IterSpec MemSpec.
Import ListNotations.
Local Open Scope Z_scope.

(** k is a position of a shape *)
Definition position_in (shape k : list Z) : Prop := in_bounds (repeat 0 (length shape)) shape k.

(** a at position k, counted from the index bases *)
Definition cell_at (a : nd) (k : list Z) : outcome ptr := access_element true a (tadd (nd_base a) k).

(** no cell of src is written, as a cell of dst, at an earlier position than the
    one at which it is read *)
Definition read_first (dst src : nd) : Prop :=
  forall i j p, position_in (nd_ext dst) i -> position_in (nd_ext dst) j -> lex_less i j ->
    cell_at dst i = Ok p -> cell_at src j <> Ok p.

(** after the program, dst holds what src held before *)
Definition copies {T : Type} (prog : M T unit) (dst src : nd) (h : heap T) : Prop :=
  exists h', prog (World h None) = Done tt (World h' None) /\
    forall k, position_in (nd_ext dst) k -> exists v,
      reads h src (tadd (nd_base src) k) v /\ reads h' dst (tadd (nd_base dst) k) v.

(** b is the block of a whose first element is a(corner): b at position k is
    a(corner + k) *)
Definition box (a : nd) (corner : list Z) (b : nd) : Prop :=
  length corner = length (nd_ext b) /\
  forall k, position_in (nd_ext b) k ->
    in_bounds (nd_base a) (nd_ext a) (tadd corner k) /\
    exists p, access_element true a (tadd corner k) = Ok p /\ cell_at b k = Ok p.

(** position k counted from the other end of every dimension *)
Fixpoint mirror (shape k : list Z) : list Z :=
  match shape, k with e :: es, x :: ks => (e - 1 - x) :: mirror es ks | _, _ => [] end.

(** r is b with every dimension reversed *)
Definition mirrored (b r : nd) : Prop :=
  nd_ext r = nd_ext b /\ forall k, position_in (nd_ext b) k -> cell_at r k = cell_at b (mirror (nd_ext b) k).

(** ranges with stride 1 starting at [corner]: index_range(corner_d, ...) *)
Fixpoint unit_ranges (bases corner : list Z) (rs : list index_range) : Prop :=
  match bases, corner, rs with
  | [], [], [] => True
  | b :: bs, o :: os, r :: rs' => ir_degenerate r = false /\ ir_stride r = 1 /\ range_start r b = o /\ unit_ranges bs os rs'
  | _, _, _ => False
  end.
(** ranges that run through each dimension backwards: index_range(b + e - 1, b - 1, -1) *)
Fixpoint reverse_ranges (bases shape : list Z) (rs : list index_range) : Prop :=
  match bases, shape, rs with
  | [], [], [] => True
  | b :: bs, e :: es, r :: rs' =>
      ir_degenerate r = false /\ ir_stride r = -1 /\ range_start r b = b + e - 1 /\ range_finish r b e = b - 1 /\
      reverse_ranges bs es rs'
  | _, _, _ => False
  end.

(** * C54 *)

(** a cell that dst and src share has the same position in both *)
Definition aligned (dst src : nd) : Prop :=
  forall i j p, position_in (nd_ext dst) i -> position_in (nd_ext dst) j ->
    cell_at dst i = Ok p -> cell_at src j = Ok p -> i = j.

(** the program ends normally, and then dst == src *)
Definition then_equal {T : Type} (eqT : T -> T -> bool) (chk : bool) (prog : M T unit) (dst src : nd) (h : heap T) : Prop :=
  exists h', prog (World h None) = Done tt (World h' None) /\
    nd_eq eqT chk h' (length (nd_ext dst)) dst src = Ok true.
