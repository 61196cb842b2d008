(** Ops.v -- whole-array operations built on the iterators: assignment
    (std::copy), copy_array, assign(first,last), equality and ordering. *)

From Verif Require Import Base StorageOrder Ranges Layout Access Objects Memory.

Section Ops.
Context {T : Type}.

(** * std::copy over array iterators *)

(** while (first != last) { *result = *first; ++first; ++result; }
    [body] is the assignment [*result = *first]. *)
Fixpoint copy_loop (body : iter -> iter -> M T unit) (fuel : nat)
         (first last result : iter) : M T unit :=
  if it_equal first last then ret tt
  else match fuel with
       | O => fun _ => OutOfFuel
       | S f =>
           _ <~ body first result ;;
           first' <~ lift (it_inc first) ;;
           result' <~ lift (it_inc result) ;;
           copy_loop body f first' last result'
       end.

(** number of loop iterations provided: the distance between the iterators *)
Definition loop_fuel (first last : iter) : nat := Z.to_nat (it_idx last - it_idx first).

(** std::copy(src.begin(), src.end(), dst.begin()) where the arrays have
    [S k] dimensions; [rec] is the assignment between their rows *)
Definition copy_rows (rec : nd -> nd -> M T unit) (chk : bool) (k : nat) (dst src : nd)
  : M T unit :=
  first <~ lift (nd_begin src) ;;
  last <~ lift (nd_end src) ;;
  result <~ lift (nd_begin dst) ;;
  copy_loop
    (fun f r =>
       match k with
       | O => (* rows are elements: T& = T const& *)
           p <~ lift (it_deref_one chk f) ;;
           q <~ lift (it_deref_one chk r) ;;
           elem_assign q p
       | S _ => (* rows are sub_arrays: sub_array::operator= *)
           s <~ lift (it_deref_n chk f) ;;
           d <~ lift (it_deref_n chk r) ;;
           rec d s
       end)
    (loop_fuel first last) first last result.

(** operator=(const ConstMultiArray& other) and the copy assignment operators:
    multi_array_ref.hpp:475-502, subarray.hpp:228-254, view.hpp:294-321.
    The number of dimensions agrees statically (first assertion).  [n] is
    NumDims.  The recursion is sub_array::operator= on rows. *)
Fixpoint assign_nd (chk : bool) (n : nat) (dst src : nd) {struct n} : M T unit :=
  match n with
  | O => fun _ => Undef
  | S k =>
      _ <~ lift (assertM chk (Ok (list_eqb (nd_ext src) (nd_ext dst)))) ;;
      copy_rows (assign_nd chk k) chk k dst src
  end.

(** the copy assignment operators of multi_array_ref, sub_array and
    multi_array_view (multi_array_ref.hpp:490-502, subarray.hpp:243-254,
    view.hpp:310-321); [same] is [&other == this] *)
Definition assign_copy (chk : bool) (same : bool) (n : nat) (dst src : nd) : M T unit :=
  if same then ret tt else assign_nd chk n dst src.

(** std::copy(x.begin(), x.end(), y.begin()) called directly
    (multi_array.hpp:255,267,280,294,...): no assertion at the outermost level *)
Definition std_copy_nd (chk : bool) (n : nat) (dst src : nd) : M T unit :=
  match n with
  | O => fun _ => Undef
  | S k => copy_rows (assign_nd chk k) chk k dst src
  end.

(** copy_array.hpp:31-48 copy_dispatch::copy_array: the same loop, recursing on
    rows without re-checking shapes *)
Fixpoint copy_dispatch (chk : bool) (n : nat) (dst src : nd) {struct n} : M T unit :=
  match n with
  | O => fun _ => Undef
  | S k => copy_rows (copy_dispatch chk k) chk k dst src
  end.
(** copy_array.hpp:53-61 copy_array(source, dest) *)
Definition copy_array (chk : bool) (n : nat) (dst src : nd) : M T unit :=
  _ <~ lift (assertM chk (Ok (list_eqb (nd_ext src) (nd_ext dst)))) ;;
  copy_dispatch chk n dst src.

(** example/for_each.hpp:22-46 for_each(A, xform): nested traversal applying
    [xform] to every element in place.  (Val = xform(Val)) *)
Fixpoint each_loop (body : iter -> M T unit) (fuel : nat) (first last : iter) : M T unit :=
  if it_equal first last then ret tt
  else match fuel with
       | O => fun _ => OutOfFuel
       | S f =>
           _ <~ body first ;;
           first' <~ lift (it_inc first) ;;
           each_loop body f first' last
       end.
Fixpoint for_each (chk : bool) (xform : T -> T) (n : nat) (a : nd) {struct n} : M T unit :=
  match n with
  | O => fun _ => Undef
  | S k =>
      first <~ lift (nd_begin a) ;;
      last <~ lift (nd_end a) ;;
      each_loop
        (fun i =>
           match k with
           | O => p <~ lift (it_deref_one chk i) ;; v <~ load p ;;
                  _ <~ tick ;; store p (xform v)
           | S _ => s <~ lift (it_deref_n chk i) ;; for_each chk xform k s
           end)
        (loop_fuel first last) first last
  end.

(** * assign(first, last) *)

(** multi_array_ref.hpp:131-137: while (in_iter != end && copy_count < num_elements_) *)
Fixpoint assign_loop (out : ptr) (input : list T) (copy_count num : Z) : M T unit :=
  match input with
  | [] => ret tt
  | v :: rest =>
      if copy_count <? num then
        _ <~ tick ;;
        _ <~ store out v ;;
        assign_loop (padd out 1) rest (copy_count + 1) num
      else ret tt
  end.
(** multi_array_ref.hpp:127-138 assign(InputIterator begin, InputIterator end) *)
Definition cr_assign (c : cref) (input : list T) : M T unit :=
  assign_loop (cr_base c) input 0 (cr_num c).

(** * Element reads and writes by the user *)

(** x = a(idx) *)
Definition get_element (chk : bool) (a : nd) (idx : list Z) : M T T :=
  p <~ lift (access_element chk a idx) ;; load p.
(** a(idx) = v *)
Definition set_element (chk : bool) (a : nd) (idx : list Z) (v : T) : M T unit :=
  p <~ lift (access_element chk a idx) ;; _ <~ tick ;; store p v.
(** x = a[i1]...[iN] *)
Definition get_bracket (chk : bool) (a : nd) (idx : list Z) : M T T :=
  p <~ lift (bracket chk a idx) ;; load p.
(** a[i1]...[iN] = v *)
Definition set_bracket (chk : bool) (a : nd) (idx : list Z) (v : T) : M T unit :=
  p <~ lift (bracket chk a idx) ;; _ <~ tick ;; store p v.

(** * Comparison (reads only; a function of the heap) *)

Section Compare.
Variable eqT : T -> T -> bool.     (* element operator== *)
Variable ltT : T -> T -> bool.     (* element operator<  *)

(** std::equal(first1, last1, first2) *)
Fixpoint equal_loop (body : iter -> iter -> outcome bool) (fuel : nat)
         (f1 l1 f2 : iter) : outcome bool :=
  if it_equal f1 l1 then Ok true
  else match fuel with
       | O => UB
       | S f =>
           b <- body f1 f2 ;;
           if b then
             f1' <- it_inc f1 ;; f2' <- it_inc f2 ;; equal_loop body f f1' l1 f2'
           else Ok false
       end.

(** operator==: multi_array_ref.hpp:262-271, subarray.hpp:110-115,
    view.hpp:171-180 *)
Fixpoint nd_eq (chk : bool) (h : heap T) (n : nat) (a b : nd) {struct n} : outcome bool :=
  match n with
  | O => UB
  | S k =>
      if list_eqb (nd_ext a) (nd_ext b) then
        f1 <- nd_begin a ;; l1 <- nd_end a ;; f2 <- nd_begin b ;;
        equal_loop
          (fun x y =>
             match k with
             | O => p <- it_deref_one chk x ;; q <- it_deref_one chk y ;;
                    u <- hread h p ;; v <- hread h q ;; Ok (eqT u v)
             | S _ => s <- it_deref_n chk x ;; t <- it_deref_n chk y ;; nd_eq chk h k s t
             end)
          (loop_fuel f1 l1) f1 l1 f2
      else Ok false
  end.
(** operator!=: multi_array_ref.hpp:280-285, subarray.hpp:117-120, view.hpp:189-194 *)
Definition nd_neq chk h n a b : outcome bool := r <- nd_eq chk h n a b ;; Ok (negb r).

(** std::lexicographical_compare(first1, last1, first2, last2) with [less] *)
Fixpoint lex_loop (less : iter -> iter -> outcome bool) (fuel : nat)
         (f1 l1 f2 l2 : iter) : outcome bool :=
  if it_equal f1 l1 then Ok (negb (it_equal f2 l2))
  else if it_equal f2 l2 then Ok false
  else match fuel with
       | O => UB
       | S f =>
           b <- less f1 f2 ;;
           if b then Ok true else
           c <- less f2 f1 ;;
           if c then Ok false else
           f1' <- it_inc f1 ;; f2' <- it_inc f2 ;; lex_loop less f f1' l1 f2' l2
       end.

(** operator<: multi_array_ref.hpp:273-278, subarray.hpp:105-108, view.hpp:182-187 *)
Fixpoint nd_lt (chk : bool) (h : heap T) (n : nat) (a b : nd) {struct n} : outcome bool :=
  match n with
  | O => UB
  | S k =>
      f1 <- nd_begin a ;; l1 <- nd_end a ;; f2 <- nd_begin b ;; l2 <- nd_end b ;;
      lex_loop
        (fun x y =>
           match k with
           | O => p <- it_deref_one chk x ;; q <- it_deref_one chk y ;;
                  u <- hread h p ;; v <- hread h q ;; Ok (ltT u v)
           | S _ => s <- it_deref_n chk x ;; t <- it_deref_n chk y ;; nd_lt chk h k s t
           end)
        (loop_fuel f1 l1) f1 l1 f2 l2
  end.
(** operator>, <=, >=: multi_array_ref.hpp:287-306, subarray.hpp:122-135,
    view.hpp:196-215 *)
Definition nd_gt chk h n a b : outcome bool := nd_lt chk h n b a.
Definition nd_le chk h n a b : outcome bool := r <- nd_gt chk h n a b ;; Ok (negb r).
Definition nd_ge chk h n a b : outcome bool := r <- nd_lt chk h n a b ;; Ok (negb r).

End Compare.
End Ops.
