(** StrictSpec.v -- when a program computes no pointer outside of the storage.

    The condition is about index ranges only: index 0 must be valid in every
    dimension of every object the program uses, unless the object is empty in a
    harmless way. *)

From Coq Require Import ZArith List Bool.
From Verif Require Import Base StorageOrder Access Objects Memory MultiArray Spec ReachSpec History HistorySpec.
Import ListNotations.
Local Open Scope Z_scope.

(** p is the address of a place in its block, or the one just past its end *)
Definition within (room : nat -> Z) (p : ptr) : Prop := 0 <= p_off p <= room (p_blk p).

(** the elements of c have room *)
Definition stored (room : nat -> Z) (c : cref) : Prop :=
  0 <= p_off (cr_data c) /\ p_off (cr_data c) + cr_num_elements c <= room (p_blk (cr_data c)).

(** an array, subarray or view o of the storage of c *)
Definition object_of (c : cref) (o : obj) : Prop :=
  match o with OArr c' => c' = c | OSub a => derived c a | OView v => derived_view c v end.

(** index 0 is valid in every dimension *)
Definition around_zero (bases shape : list Z) : Prop := in_bounds bases shape (repeat 0 (length shape)).

(** the first m entries of i followed by zeros *)
Definition zeros_after (m : nat) (i : list Z) : list Z := firstn m i ++ repeat 0 (length i - m).

(** an array with this geometry can be walked through without leaving its
    storage: index 0 is valid in every dimension, or the array is empty, has bases
    0, and is stored in C order or has extent 0 in all dimensions (as a
    default-constructed array) *)
Definition tame (bases shape : list Z) (so : storage_order) : Prop :=
  around_zero bases shape \/
  (Forall (fun b => b = 0) bases /\ In 0 shape /\
   (so = so_from_c (length shape) \/
    Forall (fun e => e = 0) shape /\ Forall (fun up => up = true) (so_ascending so))).

(** the same for any object *)
Definition tame_object (o : obj) : Prop :=
  match o with
  | OArr c => tame (cr_ib c) (cr_ext c) (cr_storage c)
  | _ => around_zero (nd_base (obj_nd o)) (nd_ext (obj_nd o))
  end.

Section StrictSpec.
Context {T : Type}.

(** the arrays and named views an expression starts from are tame, and views are
    made only of objects that have elements *)
Fixpoint zero_based (st : @state T) (e : expr) : Prop :=
  match e with
  | Var x => forall a, array_is st x a -> tame (a_bases a) (a_shape a) (a_order a)
  | Named k => forall n, named_is st k n ->
      match n with
      | AView p => around_zero (pl_bases p) (pl_shape p)
      | ARef _ _ bases shape so => tame bases shape so
      end
  | Sub e' _ | Row e' _ | Rev_row e' _ => zero_based st e'
  | View_of e' _ => zero_based st e' /\ (forall p, denotes st e' p -> Forall (fun e => 0 < e) (pl_shape p))
  end.

(** the objects the command works on are tame *)
Definition easy (st : @state T) (c : @command T) : Prop :=
  match c with
  | Get e _ | Set_ e _ _ | GetB e _ | SetB e _ _ | ForEach e _ | Ask _ e => zero_based st e
  | NewFrom e so _ => zero_based st e /\ (forall p, denotes st e p -> tame (pl_bases p) (pl_shape p) so)
  | NewView e subs => zero_based st (View_of e subs)
  | Assign e1 e2 | CopyArray e1 e2 | Compare _ e1 e2 => zero_based st e1 /\ zero_based st e2
  | AssignVar x y => zero_based st (Var x) /\ zero_based st (Var y)
  | Resize x rs => zero_based st (Var x) /\
      forall a, array_is st x a -> tame (ranges_bases rs) (ranges_shape rs) (a_order a)
  | ResizeList x shape => zero_based st (Var x) /\
      forall a, array_is st x a -> tame (repeat 0 (length shape)) shape (a_order a)
  | _ => True
  end.

Variable dflt : T.
Variable eqT : T -> T -> bool.
Variable ltT : T -> T -> bool.

(** a program that keeps to the library's contract, as [always_legal], and uses
    only tame objects *)
Fixpoint always_easy (st : @state T) (p : list (@command T * option nat)) : Prop :=
  match p with
  | [] => True
  | (c, f) :: rest =>
      legal st c /\ easy st c /\
      (forall o st', step dflt eqT ltT st c o st' -> always_easy st' rest) /\
      (forall k st', f = Some k -> interrupted st k c st' -> always_easy st' rest)
  end.
End StrictSpec.
