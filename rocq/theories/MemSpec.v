(** MemSpec.v -- vocabulary for statements about element values. *)

From Coq Require Import ZArith List Bool.
From Verif Require Import Base Access Objects Memory Ops Spec ReachSpec.
Import ListNotations.
Local Open Scope Z_scope.

Section MemSpec.
Context {T : Type}.

(** p refers to a constructed element of h *)
Definition element_at (h : heap T) (p : ptr) : Prop := exists v, hread h p = Ok v.

(** p is one of the num_elements() cells starting at data() *)
Definition cell_of (c : cref) (p : ptr) : Prop :=
  exists k, 0 <= k < cr_num_elements c /\ p = padd (cr_data c) k.

(** all cells of array c hold constructed elements *)
Definition live (h : heap T) (c : cref) : Prop := forall p, cell_of c p -> element_at h p.

(** the heaps agree on p *)
Definition same_at (h h' : heap T) (p : ptr) : Prop := hcell h' p = hcell h p.

(** reading a(i) gives v *)
Definition reads (h : heap T) (a : nd) (i : list Z) (v : T) : Prop :=
  get_element true a i (World h None) = Done v (World h None).

(** all positions 0 <= k_d < shape_d in lexicographic order *)
Definition positions (shape : list Z) : list (list Z) := tuples (repeat 0 (length shape)) shape.

(** for each position k in order: dst(dst_base + k) = src(src_base + k) *)
Fixpoint assign_in_order (chk : bool) (dst src : nd) (ks : list (list Z)) : M T unit :=
  match ks with
  | [] => ret tt
  | k :: rest =>
      v <~ get_element chk src (tadd (nd_base src) k) ;;
      _ <~ set_element chk dst (tadd (nd_base dst) k) v ;;
      assign_in_order chk dst src rest
  end.

(** p is the cell of an element of a *)
Definition element_of (a : nd) (p : ptr) : Prop :=
  exists i, in_bounds (nd_base a) (nd_ext a) i /\ access_element true a i = Ok p.

(** dst and src have no cell in common *)
Definition no_overlap (dst src : nd) : Prop :=
  forall p, element_of dst p -> ~ element_of src p.

End MemSpec.

(** * Locality *)

(** m reads and writes only slots satisfying P: started in two heaps that agree
    on P (and anything elsewhere), it ends the same way, in heaps that agree on
    P, and leaves all other slots as they were *)
Definition local {T A : Type} (P : ptr -> Prop) (m : M T A) : Prop :=
  forall h1 h2 f, (forall p, P p -> hcell h1 p = hcell h2 p) ->
    let after w1 w2 :=
      w_fuse w1 = w_fuse w2 /\
      (forall p, P p -> hcell (w_heap w1) p = hcell (w_heap w2) p) /\
      (forall p, ~ P p -> hcell (w_heap w1) p = hcell h1 p /\ hcell (w_heap w2) p = hcell h2 p) in
    match m (World h1 f), m (World h2 f) with
    | Done a1 w1, Done a2 w2 => a1 = a2 /\ after w1 w2
    | Thrown w1, Thrown w2 => after w1 w2
    | Aborted w1, Aborted w2 => after w1 w2
    | Undef, Undef => True
    | OutOfFuel, OutOfFuel => True
    | _, _ => False
    end.

(** an index tuple that may be used on a: in range, or (with range checking
    enabled) any tuple of the right length whose distance from the index bases is
    representable *)
Definition usable (chk : bool) (a : nd) (i : list Z) : Prop :=
  in_bounds (nd_base a) (nd_ext a) i \/
  (chk = true /\ length i = length (nd_ext a) /\
   Forall2 (fun b k => index_value (k - b)) (nd_base a) i).

(** operations on the elements of array c through c itself, its subarrays and
    its views: element writes, assignment between parts of c, copy_array,
    for_each, assign(first,last), and sequences of these *)
Inductive buffer_op {T : Type} (c : cref) : M T unit -> Prop :=
| bo_set : forall chk a i v, derived c a -> usable chk a i ->
    buffer_op c (set_element chk a i v)
| bo_set_bracket : forall chk a i v, derived c a -> usable chk a i ->
    buffer_op c (set_bracket chk a i v)
| bo_assign : forall chk dst src, derived c dst -> derived c src ->
    chk = true \/ nd_ext dst = nd_ext src ->
    buffer_op c (assign_nd chk (length (nd_ext dst)) dst src)
| bo_copy_array : forall chk dst src, derived c dst -> derived c src ->
    chk = true \/ nd_ext dst = nd_ext src ->
    buffer_op c (copy_array chk (length (nd_ext dst)) dst src)
| bo_for_each : forall chk f a, derived c a -> buffer_op c (for_each chk f (length (nd_ext a)) a)
| bo_fill : forall l, buffer_op c (cr_assign c l)
| bo_seq : forall m1 m2, buffer_op c m1 -> buffer_op c m2 -> buffer_op c (_ <~ m1 ;; m2).
