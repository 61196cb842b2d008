(** UserCode.v -- code that uses the arrays from outside: std::swap, assign()
    called with iterators into an array, assignment from an array with another
    element type, and two of the programs in /repo/example. *)

From Verif Require Import Base StorageOrder Ranges Layout Access Objects Memory Ops MultiArray Algorithms.

Section UserCode.
Context {T : Type}.
Variable dflt : T.

(** * std::swap *)

(** std::swap(a, b): multi_array has a copy constructor, a copy assignment and a
    destructor and declares no move operations and no swap (multi_array.hpp:229-234,
    427-432, 519-521), so the generic version copies:
    multi_array tmp(a); a = b; b = tmp;   and then ~tmp.
    [same] is [&a == &b].  None of the steps changes the members of a or b, only
    the elements. *)
Definition std_swap (chk : bool) (same : bool) (a b : multi_array) : M T unit :=
  tmp <~ ma_copy dflt a ;;
  scoped tmp (_ <~ ma_assign chk same a b ;; ma_assign chk false b tmp).

(** * assign(first, last) from live data *)

(** an input iterator: a pointer to elements, or an iterator or reverse iterator
    of a one-dimensional array (its elements must convert to T) *)
Inductive input := InPtr (p : ptr) | InIter (i : cursor).

(** in_iter != end *)
Definition in_same (x y : input) : outcome bool :=
  match x, y with
  | InPtr p, InPtr q => Ok (ptr_eqb p q)
  | InIter c, InIter d => cu_equal c d
  | _, _ => UB                      (* does not compile *)
  end.
(** in_iter++ *)
Definition in_next (x : input) : outcome input :=
  match x with
  | InPtr p => Ok (InPtr (padd p 1))
  | InIter c => d <- cu_inc c ;; Ok (InIter d)
  end.
(** *in_iter *)
Definition in_target (chk : bool) (x : input) : outcome target :=
  match x with
  | InPtr p => Ok (TgElem p)
  | InIter (CFwd i) => it_target chk i
  | InIter (CRev r) => ri_target chk r
  end.

(** multi_array_ref.hpp:131-137, the loop of assign: each value is read from the
    source just before it is stored.  ([copy_count] stays below num_elements(), which
    bounds the number of rounds.) *)
Fixpoint assign_range_loop (chk : bool) (fuel : nat) (in_iter last : input) (out : ptr) (copy_count num : Z)
  : M T unit :=
  stop <~ lift (in_same in_iter last) ;;
  if stop then ret tt
  else if copy_count <? num then
    match fuel with
    | O => fun _ => OutOfFuel
    | S f =>
        t <~ lift (in_target chk in_iter) ;;
        v <~ tg_read chk t [] ;;
        next <~ lift (in_next in_iter) ;;
        _ <~ tick ;;
        _ <~ store out v ;;
        assign_range_loop chk f next last (padd out 1) (copy_count + 1) num
    end
  else ret tt.
(** multi_array_ref.hpp:127-138 assign(begin, end) *)
Definition cr_assign_range (chk : bool) (c : cref) (first last : input) : M T unit :=
  assign_range_loop chk (Z.to_nat (cr_num c)) first last (cr_base c) 0 (cr_num c).

(** * Assignment from an array with another element type *)

Section Conversion.
(** the implicit conversion from the source's element type to the destination's
    (T stands for all values; which conversion is used is fixed by the types) *)
Variable conv : T -> T.

(** *result = *first in std::copy; converting and assigning may throw *)
Definition elem_convert (dst src : ptr) : M T unit :=
  v <~ load src ;; _ <~ tick ;; store dst (conv v).

(** std::copy(other.begin(), other.end(), this->begin()), as in Ops.v *)
Definition convert_rows (rec : nd -> nd -> M T unit) (chk : bool) (k : nat) (dst src : nd)
  : M T unit :=
  first <~ lift (nd_begin src) ;;
  last <~ lift (nd_end src) ;;
  result <~ lift (nd_begin dst) ;;
  copy_loop
    (fun f r =>
       match k with
       | O =>
           p <~ lift (it_deref_one chk f) ;;
           q <~ lift (it_deref_one chk r) ;;
           elem_convert q p
       | S _ =>
           s <~ lift (it_deref_n chk f) ;;
           d <~ lift (it_deref_n chk r) ;;
           rec d s
       end)
    (loop_fuel first last) first last result.

(** template operator=(const ConstMultiArray& other): multi_array_ref.hpp:475-488,
    subarray.hpp:228-241, view.hpp:294-308, multi_array.hpp:421-425.  The source's
    element type may differ from T.  (copy_array, copy_array.hpp:41-48, does not
    compile for different element types; the copy assignment operators and the
    comparison operators take the same element type.) *)
Fixpoint assign_convert (chk : bool) (n : nat) (dst src : nd) {struct n} : M T unit :=
  match n with
  | O => fun _ => Undef
  | S k =>
      _ <~ lift (assertM chk (Ok (list_eqb (nd_ext src) (nd_ext dst)))) ;;
      convert_rows (assign_convert chk k) chk k dst src
  end.
End Conversion.

(** * Example programs *)

(** what print writes: brackets, commas and elements *)
Inductive token := TkOpen | TkClose | TkComma | TkElem (v : T).

(** example/print_array.cpp:24-28: for (i = A.begin(); i != A.end(); ++i) { print(os, *i);
    if (boost::next(i) != A.end()) os << ','; } *)
Fixpoint print_loop (body : iter -> M T (list token)) (fuel : nat) (i last : iter) : M T (list token) :=
  if it_equal i last then ret []
  else match fuel with
       | O => fun _ => OutOfFuel
       | S f =>
           row <~ body i ;;
           next <~ lift (it_inc i) ;;
           rest <~ print_loop body f next last ;;
           ret (row ++ (if it_equal next last then [] else [TkComma]) ++ rest)
       end.
(** example/print_array.cpp:19-34 print(os, A); the overload for elements writes the
    element.  ([n] is the number of dimensions.) *)
Fixpoint print (chk : bool) (n : nat) (a : nd) {struct n} : M T (list token) :=
  match n with
  | O => fun _ => Undef
  | S k =>
      first <~ lift (nd_begin a) ;;
      last <~ lift (nd_end a) ;;
      body <~ print_loop
        (fun i =>
           match k with
           | O => p <~ lift (it_deref_one chk i) ;; v <~ load p ;; ret [TkElem v]
           | S _ => s <~ lift (it_deref_n chk i) ;; print chk k s
           end)
        (loop_fuel first last) first last ;;
      ret (TkOpen :: body ++ [TkClose])
  end.

(** example/resize_from_other.cpp:23-39 resize_from_MultiArray(marray, other) *)
Definition resize_from (chk : bool) (marray : multi_array) (other : nd) : M T multi_array :=
  shape <~ lift (copy_n (nd_ext other) (length (cr_ext (ma_ref marray)))) ;;
  ma_resize_list dflt chk marray shape.

End UserCode.

Arguments token : clear implicits.
