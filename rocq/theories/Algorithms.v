(** Algorithms.v -- user code that works on arrays through iterators: generic
    algorithms in the style of the standard library.

    An algorithm holds iterators in numbered variables, moves, copies and compares
    them, and reads, writes, assigns and compares what they refer to (elements for
    one-dimensional arrays, rows otherwise); it may keep copies of rows in local
    variables of the array's value_type.  It can decide what to do next from
    everything it has seen.  The operations are those of array_iterator and
    boost::reverse_iterator (Access.v), of the rows (Ops.v) and of multi_array
    (MultiArray.v); this file only sequences them. *)

From Verif Require Import Base StorageOrder Ranges Layout Access Objects Memory Ops MultiArray.

(** what an algorithm reads, writes, assigns or compares *)
Inductive place :=
| PAt (x : nat) (n : Z)       (* *(x + n), where x is an iterator variable; *x when n = 0 *)
| PTemp (t : nat).            (* a local variable of type value_type *)

Section Algorithms.
Context {T : Type}.
Variable dflt : T.
Variable eqT : T -> T -> bool.
Variable ltT : T -> T -> bool.

(** iterator variables and local copies are numbered in order of declaration *)
Inductive algorithm : Type -> Type :=
| AReturn {A} (a : A) : algorithm A
| ACopy {A} (x : nat) (k : algorithm A) : algorithm A                     (* auto y = x; *)
| AReverse {A} (x : nat) (k : algorithm A) : algorithm A                  (* reverse_iterator y(x); *)
| ABase {A} (x : nat) (k : algorithm A) : algorithm A                     (* auto y = x.base(); *)
| ASet {A} (x y : nat) (k : algorithm A) : algorithm A                    (* x = y; *)
| AInc {A} (x : nat) (k : algorithm A) : algorithm A                      (* ++x; *)
| ADec {A} (x : nat) (k : algorithm A) : algorithm A                      (* --x; *)
| AAdvance {A} (x : nat) (n : Z) (k : algorithm A) : algorithm A          (* x += n; *)
| ADistance {A} (x y : nat) (k : Z -> algorithm A) : algorithm A          (* y - x *)
| ASame {A} (x y : nat) (k : bool -> algorithm A) : algorithm A           (* x == y *)
| ABefore {A} (x y : nat) (k : bool -> algorithm A) : algorithm A         (* x < y *)
| ARead {A} (p : place) (i : list Z) (k : T -> algorithm A) : algorithm A (* p(i); p itself when i = () *)
| AWrite {A} (p : place) (i : list Z) (v : T) (k : algorithm A) : algorithm A      (* p(i) = v; *)
| AAssign {A} (p q : place) (k : algorithm A) : algorithm A               (* p = q; *)
| AEqual {A} (p q : place) (k : bool -> algorithm A) : algorithm A        (* p == q *)
| ALess {A} (p q : place) (k : bool -> algorithm A) : algorithm A         (* p < q *)
| ASave {A B} (p : place) (body : algorithm B) (k : B -> algorithm A) : algorithm A. (* { value_type v(p); body } k *)

(** * Iterator variables *)

(** iterator or reverse_iterator (base.hpp:278-289) *)
Inductive cursor := CFwd (i : iter) | CRev (r : riter).

(** ++: iterator.hpp:131; --: 132; +=: 147-150 *)
Definition cu_inc (c : cursor) : outcome cursor :=
  match c with
  | CFwd i => j <- it_inc i ;; Ok (CFwd j)
  | CRev r => s <- ri_inc r ;; Ok (CRev s)
  end.
Definition cu_dec (c : cursor) : outcome cursor :=
  match c with
  | CFwd i => j <- it_dec i ;; Ok (CFwd j)
  | CRev r => s <- ri_dec r ;; Ok (CRev s)
  end.
Definition cu_advance (c : cursor) (n : Z) : outcome cursor :=
  match c with
  | CFwd i => j <- it_advance i n ;; Ok (CFwd j)
  | CRev r => s <- ri_advance r n ;; Ok (CRev s)
  end.
(** the difference, == and < of iterators of the same type: iterator.hpp:134-156.
    Mixing the two types does not compile. *)
Definition cu_distance (c d : cursor) : outcome Z :=
  match c, d with
  | CFwd i, CFwd j => it_distance i j
  | CRev r, CRev s => ri_distance r s
  | _, _ => UB
  end.
Definition cu_equal (c d : cursor) : outcome bool :=
  match c, d with
  | CFwd i, CFwd j => Ok (it_equal i j)
  | CRev r, CRev s => Ok (ri_equal r s)
  | _, _ => UB
  end.
Definition cu_less (c d : cursor) : outcome bool :=
  match c, d with
  | CFwd i, CFwd j => it_less i j
  | CRev r, CRev s => ri_less r s
  | _, _ => UB
  end.

(** * What a dereferenced iterator refers to *)

Inductive target := TgElem (p : ptr) | TgRow (a : nd).

(** *it: iterator.hpp:120-129; an element when NumDims = 1 *)
Definition it_target (chk : bool) (i : iter) : outcome target :=
  match it_ext i with
  | [_] => p <- it_deref_one chk i ;; Ok (TgElem p)
  | _ => a <- it_deref_n chk i ;; Ok (TgRow a)
  end.
Definition ri_target (chk : bool) (r : riter) : outcome target :=
  match it_ext (ri_base r) with
  | [_] => p <- ri_deref_one chk r ;; Ok (TgElem p)
  | _ => a <- ri_deref_n chk r ;; Ok (TgRow a)
  end.
(** *(x + n) *)
Definition cu_target (chk : bool) (c : cursor) (n : Z) : outcome target :=
  match c with
  | CFwd i => j <- it_advance i n ;; it_target chk j
  | CRev r => s <- ri_advance r n ;; ri_target chk s
  end.

Definition place_target (chk : bool) (vars : list cursor) (ts : list multi_array) (p : place)
  : outcome target :=
  match p with
  | PAt x n => match nth_error vars x with Some c => cu_target chk c n | None => UB end
  | PTemp t => match nth_error ts t with Some b => Ok (TgRow (cr_nd (ma_ref b))) | None => UB end
  end.

(** reading, writing, assigning and comparing: T& or sub_array / multi_array
    (subarray.hpp:80-87,105-120,228-288; multi_array_ref.hpp:211-218,262-278) *)
Definition tg_read (chk : bool) (t : target) (i : list Z) : M T T :=
  match t, i with
  | TgElem p, [] => load p
  | TgRow a, _ => get_element chk a i
  | _, _ => fun _ => Undef
  end.
Definition tg_write (chk : bool) (t : target) (i : list Z) (v : T) : M T unit :=
  match t, i with
  | TgElem p, [] => _ <~ tick ;; store p v
  | TgRow a, _ => set_element chk a i v
  | _, _ => fun _ => Undef
  end.
Definition tg_assign (chk : bool) (dst src : target) : M T unit :=
  match dst, src with
  | TgElem p, TgElem q => elem_assign p q
  | TgRow a, TgRow b => assign_nd chk (length (nd_ext a)) a b
  | _, _ => fun _ => Undef
  end.
Definition tg_equal (chk : bool) (s t : target) : M T bool :=
  match s, t with
  | TgElem p, TgElem q => u <~ load p ;; v <~ load q ;; ret (eqT u v)
  | TgRow a, TgRow b => fun w => lift (nd_eq eqT chk (w_heap w) (length (nd_ext a)) a b) w
  | _, _ => fun _ => Undef
  end.
Definition tg_less (chk : bool) (s t : target) : M T bool :=
  match s, t with
  | TgElem p, TgElem q => u <~ load p ;; v <~ load q ;; ret (ltT u v)
  | TgRow a, TgRow b => fun w => lift (nd_lt ltT chk (w_heap w) (length (nd_ext a)) a b) w
  | _, _ => fun _ => Undef
  end.

(** assigning a local variable to itself: [if (&other != this)], multi_array.hpp:427-432.
    (Two dereferences of one iterator give two sub_array objects.) *)
Definition same_variable (p q : place) : bool :=
  match p, q with PTemp t, PTemp u => Nat.eqb t u | _, _ => false end.

(** value_type v(row): multi_array<T,N-1> from a sub_array with the default
    storage order and allocator (multi_array.hpp:265-270); only for N > 1 *)
Definition tg_save (chk : bool) (t : target) : M T multi_array :=
  match t with
  | TgRow a => so <~ lift (c_conversion (length (nd_ext a))) ;; ma_convert dflt chk a so 0
  | TgElem _ => fun _ => Undef
  end.

(** the end of the block: the local variable is destroyed, also when an
    exception leaves the block *)
Definition scoped {A} (b : multi_array) (m : M T A) : M T A :=
  r <~ on_throw m (ma_destroy b) ;; _ <~ ma_destroy b ;; ret r.

Definition variable {A} (l : list A) (x : nat) : M T A :=
  fun w => match nth_error l x with Some v => Done v w | None => Undef end.

(** running an algorithm; returns its result and the iterator variables *)
Fixpoint run_algorithm {A} (chk : bool) (alg : algorithm A) (vars : list cursor) (ts : list multi_array)
  : M T (A * list cursor) :=
  match alg in algorithm A return M T (A * list cursor) with
  | AReturn a => ret (a, vars)
  | ACopy x k => c <~ variable vars x ;; run_algorithm chk k (vars ++ [c]) ts
  | AReverse x k =>
      c <~ variable vars x ;;
      match c with
      | CFwd i => run_algorithm chk k (vars ++ [CRev (RIter i)]) ts
      | CRev _ => fun _ => Undef
      end
  | ABase x k =>
      c <~ variable vars x ;;
      match c with
      | CRev r => run_algorithm chk k (vars ++ [CFwd (ri_base r)]) ts
      | CFwd _ => fun _ => Undef
      end
  | ASet x y k =>
      _ <~ variable vars x ;; d <~ variable vars y ;; run_algorithm chk k (set_nth x d vars) ts
  | AInc x k =>
      c <~ variable vars x ;; d <~ lift (cu_inc c) ;; run_algorithm chk k (set_nth x d vars) ts
  | ADec x k =>
      c <~ variable vars x ;; d <~ lift (cu_dec c) ;; run_algorithm chk k (set_nth x d vars) ts
  | AAdvance x n k =>
      c <~ variable vars x ;; d <~ lift (cu_advance c n) ;; run_algorithm chk k (set_nth x d vars) ts
  | ADistance x y k =>
      c <~ variable vars x ;; d <~ variable vars y ;;
      n <~ lift (cu_distance c d) ;; run_algorithm chk (k n) vars ts
  | ASame x y k =>
      c <~ variable vars x ;; d <~ variable vars y ;;
      b <~ lift (cu_equal c d) ;; run_algorithm chk (k b) vars ts
  | ABefore x y k =>
      c <~ variable vars x ;; d <~ variable vars y ;;
      b <~ lift (cu_less c d) ;; run_algorithm chk (k b) vars ts
  | ARead p i k =>
      t <~ lift (place_target chk vars ts p) ;; v <~ tg_read chk t i ;; run_algorithm chk (k v) vars ts
  | AWrite p i v k =>
      t <~ lift (place_target chk vars ts p) ;; _ <~ tg_write chk t i v ;; run_algorithm chk k vars ts
  | AAssign p q k =>
      s <~ lift (place_target chk vars ts q) ;; d <~ lift (place_target chk vars ts p) ;;
      _ <~ (if same_variable p q then ret tt else tg_assign chk d s) ;; run_algorithm chk k vars ts
  | AEqual p q k =>
      s <~ lift (place_target chk vars ts p) ;; t <~ lift (place_target chk vars ts q) ;;
      b <~ tg_equal chk s t ;; run_algorithm chk (k b) vars ts
  | ALess p q k =>
      s <~ lift (place_target chk vars ts p) ;; t <~ lift (place_target chk vars ts q) ;;
      b <~ tg_less chk s t ;; run_algorithm chk (k b) vars ts
  | ASave p body k =>
      t <~ lift (place_target chk vars ts p) ;; b <~ tg_save chk t ;;
      r <~ scoped b (run_algorithm chk body vars (ts ++ [b])) ;;
      (* iterator variables declared in the block end with it *)
      run_algorithm chk (k (fst r)) (firstn (length vars) (snd r)) ts
  end.

(** begin() and end() of each array, in order: the iterators an algorithm is
    called with *)
Fixpoint range_cursors (l : list nd) : outcome (list cursor) :=
  match l with
  | [] => Ok []
  | a :: rest =>
      first <- nd_begin a ;; last <- nd_end a ;; cs <- range_cursors rest ;;
      Ok (CFwd first :: CFwd last :: cs)
  end.

(** call the algorithm with the ranges of the arrays *)
Definition call_algorithm {A} (chk : bool) (alg : algorithm A) (l : list nd) : M T A :=
  vars <~ lift (range_cursors l) ;; r <~ run_algorithm chk alg vars [] ;; ret (fst r).

End Algorithms.

Arguments algorithm : clear implicits.

(** * Three algorithms (user code, not part of /repo) *)

Section Programs.
Context {T : Type}.

(** exchange two places: T t = *x; *x = *y; *y = t; for elements ([one]),
    { value_type t( *x); *x = *y; *y = t; } for rows *)
Definition swap_at (one : bool) (x y : place) (k : algorithm T unit) : algorithm T unit :=
  if one then
    ARead x [] (fun u => ARead y [] (fun v => AWrite x [] v (AWrite y [] u k)))
  else
    ASave x (AAssign x y (AAssign y (PTemp 0) (AReturn tt))) (fun _ => k).

(** the bidirectional version of std::reverse(first, last), variables 0 and 1:
    while (true) if (first == last || first == --last) return; else { swap; ++first } *)
Fixpoint reverse_loop (one : bool) (fuel : nat) : algorithm T unit :=
  match fuel with
  | O => AReturn tt
  | S n =>
      ASame 0 1 (fun b =>
        if b then AReturn tt
        else ADec 1 (ASame 0 1 (fun b =>
               if b then AReturn tt
               else swap_at one (PAt 0 0) (PAt 1 0) (AInc 0 (reverse_loop one n)))))
  end.
Definition reverse_range (one : bool) : algorithm T unit :=
  ADistance 0 1 (fun n => reverse_loop one (Z.to_nat n)).

(** insertion sort of [first, last):
    for (i = first; i != last; ++i)
      for (j = i; j != first && *j < *(j-1); --j) swap( *j, *(j-1)); *)
Fixpoint sift_loop (one : bool) (fuel : nat) (k : algorithm T unit) : algorithm T unit :=
  match fuel with
  | O => k
  | S n =>
      ASame 3 0 (fun b =>
        if b then k
        else ALess (PAt 3 0) (PAt 3 (-1)) (fun b =>
               if b then swap_at one (PAt 3 0) (PAt 3 (-1)) (ADec 3 (sift_loop one n k))
               else k))
  end.
Fixpoint sort_loop (one : bool) (size fuel : nat) : algorithm T unit :=
  match fuel with
  | O => AReturn tt
  | S n =>
      ASame 2 1 (fun b =>
        if b then AReturn tt
        else ASet 3 2 (sift_loop one size (AInc 2 (sort_loop one size n))))
  end.
Definition sort_range (one : bool) : algorithm T unit :=
  ADistance 0 1 (fun n => ACopy 0 (ACopy 0 (sort_loop one (Z.to_nat n) (Z.to_nat n)))).

(** std::find(first, last, v) for elements: the position of the first element
    for which [p] holds, or the length *)
Fixpoint find_loop (p : T -> bool) (fuel : nat) : algorithm T Z :=
  match fuel with
  | O => ADistance 2 0 AReturn
  | S n =>
      ASame 0 1 (fun b =>
        if b then ADistance 2 0 AReturn
        else ARead (PAt 0 0) [] (fun v => if p v then ADistance 2 0 AReturn else AInc 0 (find_loop p n)))
  end.
Definition find_range (p : T -> bool) : algorithm T Z :=
  ACopy 0 (ADistance 0 1 (fun n => find_loop p (Z.to_nat n))).

End Programs.
