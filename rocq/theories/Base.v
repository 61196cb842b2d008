(** Base.v -- outcomes, 64-bit machine integers and fixed-size lists.

    This file contains definitions only.  It fixes how C++ behaviour is
    represented everywhere else in the model:

    - a computation yields [Ok v], or [Abort] (a BOOST_ASSERT fired), or [UB]
      (the C++ program has undefined behaviour at that point);
    - [std::size_t] is a 64-bit unsigned integer (arithmetic wraps modulo 2^64);
    - [std::ptrdiff_t] ("index") is a 64-bit two's complement integer whose
      overflow is undefined behaviour. *)

From Coq Require Export ZArith List Bool.
Export ListNotations.
Global Open Scope Z_scope.

(** * Outcomes *)

Inductive outcome (A : Type) : Type :=
| Ok (a : A)
| Abort        (* BOOST_ASSERT failed: the default handler aborts the program *)
| UB.          (* undefined behaviour *)
Arguments Ok {A} a.
Arguments Abort {A}.
Arguments UB {A}.

Definition obind {A B : Type} (o : outcome A) (f : A -> outcome B) : outcome B :=
  match o with Ok a => f a | Abort => Abort | UB => UB end.

Notation "x <- e ;; k" := (obind e (fun x => k))
  (at level 61, e at next level, right associativity).

(** BOOST_ASSERT(e): with checking compiled in ([chk = true]) the expression is
    evaluated and must be true; with BOOST_DISABLE_ASSERTS / NDEBUG
    ([chk = false]) it is not even evaluated.
    Used at base.hpp:135-136,177-178,311-312,430,455-457,464-465,485;
    multi_array_ref.hpp:168,482-484,494-497; view.hpp:301-303,313-316;
    subarray.hpp:234-236,246-249; copy_array.hpp:55-56. *)
Definition assertM (chk : bool) (e : outcome bool) : outcome unit :=
  if chk then (b <- e ;; if b then Ok tt else Abort) else Ok tt.

(** * Machine integers (types.hpp:28-29: size_type = std::size_t,
      index = std::ptrdiff_t; LP64 platform assumed) *)

Definition two64 : Z := 18446744073709551616.
Definition two63 : Z := 9223372036854775808.
Definition idx_max : Z := 9223372036854775807.    (* numeric_limits<index>::max *)
Definition idx_min : Z := -9223372036854775808.   (* numeric_limits<index>::min *)

(** conversion to size_type *)
Definition to_size (z : Z) : Z := z mod two64.
(** conversion to index (modular; implementation-defined before C++20 and
    two's complement on every implementation) *)
Definition to_index (z : Z) : Z := (z + two63) mod two64 - two63.

Definition in_index (z : Z) : bool := (idx_min <=? z) && (z <=? idx_max).
(** result of a signed operation *)
Definition signed (z : Z) : outcome Z := if in_index z then Ok z else UB.
Definition sadd (a b : Z) : outcome Z := signed (a + b).
Definition ssub (a b : Z) : outcome Z := signed (a - b).
Definition smul (a b : Z) : outcome Z := signed (a * b).
(** C++ division truncates toward zero; division by zero is undefined *)
Definition sdiv (a b : Z) : outcome Z :=
  if b =? 0 then UB else signed (Z.quot a b).

(** * Fixed-size lists (boost::array and raw pointers into them) *)

Fixpoint set_nth {A : Type} (n : nat) (x : A) (l : list A) : list A :=
  match l, n with
  | [], _ => []
  | _ :: r, O => x :: r
  | y :: r, S n' => y :: set_nth n' x r
  end.

(** boost::array::operator[] : BOOST_ASSERT_MSG(i < N) then elems[i] *)
Definition arr_get {A : Type} (chk : bool) (l : list A) (i : nat) : outcome A :=
  match nth_error l i with
  | Some x => Ok x
  | None => if chk then Abort else UB
  end.

(** boost::array::operator[] used as an lvalue: arr[i] = x *)
Definition arr_set {A : Type} (chk : bool) (l : list A) (i : nat) (x : A)
  : outcome (list A) :=
  if (i <? length l)%nat then Ok (set_nth i x l) else if chk then Abort else UB.

(** algorithm.hpp:52-61  copy_n(first, count, result): reads [count] elements
    starting at [first] (a source shorter than [count] is read past its end). *)
Fixpoint copy_n {A : Type} (first : list A) (count : nat) : outcome (list A) :=
  match count with
  | O => Ok []
  | S c => match first with
           | [] => UB
           | x :: r => t <- copy_n r c ;; Ok (x :: t)
           end
  end.

(** std::copy(src.begin(), src.end(), dst.begin()) between arrays: overwrites a
    prefix of [dst]; a longer source writes past the end of [dst]. *)
Fixpoint copy_into {A : Type} (dst src : list A) : outcome (list A) :=
  match src, dst with
  | [], _ => Ok dst
  | _ :: _, [] => UB
  | x :: s, _ :: d => t <- copy_into d s ;; Ok (x :: t)
  end.

(** *arr.rbegin() = x *)
Fixpoint set_last {A : Type} (x : A) (l : list A) : outcome (list A) :=
  match l with
  | [] => UB
  | [_] => Ok [x]
  | y :: r => t <- set_last x r ;; Ok (y :: t)
  end.

(** std::accumulate(l.begin(), l.end(), size_type(1), multiplies<size_type>()) *)
Definition accumulate_mul (l : list Z) : Z :=
  fold_left (fun acc e => to_size (acc * e)) l 1.

(** std::equal(a, a+n, b) on lists of integers *)
Fixpoint list_eqb (a b : list Z) : bool :=
  match a, b with
  | [], [] => true
  | x :: a', y :: b' => (x =? y) && list_eqb a' b'
  | _, _ => false
  end.
