(** UseSpec.v -- vocabulary for C49-C52. *)

From Coq Require Import ZArith List Bool.
From Verif Require Import Base Ranges Access Objects Memory Ops MultiArray Algorithms UserCode Spec ReachSpec MemSpec CompareSpec OwnSpec.
Import ListNotations.
Local Open Scope Z_scope.

Section UseSpec.
Context {T : Type}.

(** the elements of a, in lexicographic index order *)
Definition elements (h : heap T) (a : nd) (r : list T) : Prop :=
  Forall2 (fun k v => reads h a (tadd (nd_base a) k) v) (positions (nd_ext a)) r.

(** the same for an array object *)
Definition holds (h : heap T) (a : multi_array) (r : list T) : Prop := elements h (cr_nd (ma_ref a)) r.

(** a and b are alive *)
Definition both_alive (h : heap T) (a b : multi_array) : Prop :=
  (exists va, owns h a va) /\ (exists vb, owns h b vb).

(** only the blocks of a and b may differ *)
Definition others_same (h h' : heap T) (a b : multi_array) : Prop :=
  forall k, (k < length h)%nat -> k <> ma_block a -> k <> ma_block b -> same_block h h' k.

(** [first, last) is a range of elements; [cells] are their addresses in order *)
Inductive input_range : input -> input -> list ptr -> Prop :=
(* pointers p, p + n *)
| ir_pointers : forall p n,
    input_range (InPtr p) (InPtr (padd p (Z.of_nat n))) (map (fun k => padd p (Z.of_nat k)) (seq 0 n))
(* x.begin() + i and x.begin() + j for a one-dimensional x *)
| ir_iterators : forall c x b size i j first fi fj cells,
    array_object c -> derived c x -> nd_base x = [b] -> nd_ext x = [size] ->
    nd_begin x = Ok first -> 0 <= i <= j -> j <= size ->
    it_advance first i = Ok fi -> it_advance first j = Ok fj ->
    Forall2 (fun k p => access_element true x [b + k] = Ok p)
            (map (fun k => i + Z.of_nat k) (seq 0 (Z.to_nat (j - i)))) cells ->
    input_range (InIter (CFwd fi)) (InIter (CFwd fj)) cells
(* reverse_iterator(x.begin() + j) and reverse_iterator(x.begin() + i) *)
| ir_reverse : forall c x b size i j first fi fj cells,
    array_object c -> derived c x -> nd_base x = [b] -> nd_ext x = [size] ->
    nd_begin x = Ok first -> 0 <= i <= j -> j <= size ->
    it_advance first i = Ok fi -> it_advance first j = Ok fj ->
    Forall2 (fun k p => access_element true x [b + k] = Ok p)
            (map (fun k => j - 1 - Z.of_nat k) (seq 0 (Z.to_nat (j - i)))) cells ->
    input_range (InIter (CRev (RIter fj))) (InIter (CRev (RIter fi))) cells.

(** no cell of the source is overwritten before it is read: when value number k is
    read, storage positions 0 .. k-1 have been written *)
Definition read_before_written (c : cref) (cells : list ptr) : Prop :=
  forall k p, nth_error cells k = Some p -> Z.of_nat k < cr_num_elements c ->
    forall j, 0 <= j < Z.of_nat k -> p <> padd (cr_data c) j.

(** nested brackets: the text of nested lists *)
Fixpoint commas (rows : list (list (token T))) : list (token T) :=
  match rows with
  | [] => []
  | [r] => r
  | r :: rest => r ++ TkComma :: commas rest
  end.
Fixpoint render (n : nat) : tensor T n -> list (token T) :=
  match n with
  | O => fun v => [TkElem v]
  | S k => fun l => TkOpen :: commas (map (render k) l) ++ [TkClose]
  end.

End UseSpec.
