(** CheckSpec.v -- programs compiled with and without assertions. *)

From Coq Require Import ZArith List Bool.
From Verif Require Import Base StorageOrder Ranges Layout Access Objects Memory Ops MultiArray.
Import ListNotations.
Local Open Scope Z_scope.

(** [operation m]: m true is a program using the library compiled with
    assertions, m false the same program compiled with BOOST_DISABLE_ASSERTS /
    NDEBUG.  One case for every library entry point that contains an assertion
    (directly or through what it calls), one for code without assertions, and
    sequencing. *)
Inductive operation {T : Type} (dflt : T) : forall A : Type, (bool -> M T A) -> Prop :=
(* element access *)
| op_bracket : forall a i, operation dflt ptr (fun chk => lift (bracket chk a i))
| op_access_element : forall a i, operation dflt ptr (fun chk => lift (access_element chk a i))
| op_subarray : forall a i, operation dflt nd (fun chk => lift (access_n chk i a))
| op_get : forall a i, operation dflt T (fun chk => get_element chk a i)
| op_set : forall a i v, operation dflt unit (fun chk => set_element chk a i v)
| op_get_bracket : forall a i, operation dflt T (fun chk => get_bracket chk a i)
| op_set_bracket : forall a i v, operation dflt unit (fun chk => set_bracket chk a i v)
| op_deref_n : forall i, operation dflt nd (fun chk => lift (it_deref_n chk i))
| op_deref_one : forall i, operation dflt ptr (fun chk => lift (it_deref_one chk i))
| op_rderef_n : forall r, operation dflt nd (fun chk => lift (ri_deref_n chk r))
| op_rderef_one : forall r, operation dflt ptr (fun chk => lift (ri_deref_one chk r))
(* views *)
| op_view : forall a ig, operation dflt view (fun chk => lift (make_view chk a ig))
(* construction of refs, reshape *)
| op_ref_list : forall n base ext so, operation dflt cref (fun chk => lift (cref_from_list chk n base ext so))
| op_ref_gen : forall base g so, operation dflt cref (fun chk => lift (cref_from_gen chk base g so))
| op_reshape : forall c ext, operation dflt cref (fun chk => lift (cr_reshape chk c ext))
(* bulk operations *)
| op_assign : forall n dst src, operation dflt unit (fun chk => assign_nd chk n dst src)
| op_assign_copy : forall same n dst src, operation dflt unit (fun chk => assign_copy chk same n dst src)
| op_copy_array : forall n dst src, operation dflt unit (fun chk => copy_array chk n dst src)
| op_for_each : forall xform n a, operation dflt unit (fun chk => for_each chk xform n a)
(* comparisons *)
| op_eq : forall eqT n a b, operation dflt bool (fun chk w => lift (nd_eq eqT chk (w_heap w) n a b) w)
| op_neq : forall eqT n a b, operation dflt bool (fun chk w => lift (nd_neq eqT chk (w_heap w) n a b) w)
| op_lt : forall ltT n a b, operation dflt bool (fun chk w => lift (nd_lt ltT chk (w_heap w) n a b) w)
| op_gt : forall ltT n a b, operation dflt bool (fun chk w => lift (nd_gt ltT chk (w_heap w) n a b) w)
| op_le : forall ltT n a b, operation dflt bool (fun chk w => lift (nd_le ltT chk (w_heap w) n a b) w)
| op_ge : forall ltT n a b, operation dflt bool (fun chk w => lift (nd_ge ltT chk (w_heap w) n a b) w)
(* multi_array *)
| op_ma_default : forall n aid, operation dflt multi_array (fun chk => ma_default dflt chk n aid)
| op_ma_list : forall n ext so aid, operation dflt multi_array (fun chk => ma_from_list dflt chk n ext so aid)
| op_ma_gen : forall g so aid, operation dflt multi_array (fun chk => ma_from_gen dflt chk g so aid)
| op_ma_convert : forall x so aid, operation dflt multi_array (fun chk => ma_convert dflt chk x so aid)
| op_ma_assign_from : forall a x, operation dflt unit (fun chk => ma_assign_from chk a x)
| op_ma_assign : forall same a b, operation dflt unit (fun chk => ma_assign chk same a b)
| op_ma_resize : forall a g, operation dflt multi_array (fun chk => ma_resize dflt chk a g)
| op_ma_resize_list : forall a ext, operation dflt multi_array (fun chk => ma_resize_list dflt chk a ext)
| op_ma_reshape : forall a ext, operation dflt multi_array (fun chk => lift (ma_reshape chk a ext))
(* code without assertions: copy construction, destruction, reindex, assign(first,last),
   iterator arithmetic, and any code of the user's *)
| op_other : forall A (m : M T A), operation dflt A (fun _ => m)
(* one program after another; the second may depend on the result of the first *)
| op_then : forall A B m (k : A -> bool -> M T B),
    operation dflt A m -> (forall a, operation dflt B (k a)) ->
    operation dflt B (fun chk => bind (m chk) (fun a => k a chk)).
