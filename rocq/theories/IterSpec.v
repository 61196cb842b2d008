(** IterSpec.v -- vocabulary for C18-C20: which iterators a program can hold,
    and the loops a user writes with them. *)

From Coq Require Import ZArith List Bool.
From Verif Require Import Base Access Spec.
Import ListNotations.
Local Open Scope Z_scope.

(** iterators obtained from array a by begin(), end(), ++, -- and += *)
Inductive iterator_of (a : nd) : iter -> Prop :=
| io_begin : forall i, nd_begin a = Ok i -> iterator_of a i
| io_end : forall i, nd_end a = Ok i -> iterator_of a i
| io_inc : forall i j, iterator_of a i -> it_inc i = Ok j -> iterator_of a j
| io_dec : forall i j, iterator_of a i -> it_dec i = Ok j -> iterator_of a j
| io_advance : forall i n j, iterator_of a i -> it_advance i n = Ok j -> iterator_of a j.

(** for (it = first; it != last; ++it) out.push_back( *it ), at most [fuel]
    rounds *)
Fixpoint collect {I X : Type} (eq : I -> I -> bool) (deref : I -> outcome X)
         (next : I -> outcome I) (fuel : nat) (first last : I) : outcome (list X) :=
  if eq first last then Ok []
  else match fuel with
       | O => UB
       | S f =>
           x <- deref first ;;
           first' <- next first ;;
           rest <- collect eq deref next f first' last ;;
           Ok (x :: rest)
       end.

(** what a begin()..end() loop over the rows (N >= 2) / elements (N = 1) sees *)
Definition rows_forward (chk : bool) (fuel : nat) (a : nd) : outcome (list nd) :=
  f <- nd_begin a ;; l <- nd_end a ;; collect it_equal (it_deref_n chk) it_inc fuel f l.
Definition elems_forward (chk : bool) (fuel : nat) (a : nd) : outcome (list ptr) :=
  f <- nd_begin a ;; l <- nd_end a ;; collect it_equal (it_deref_one chk) it_inc fuel f l.
(** the same with rbegin()..rend() *)
Definition rows_backward (chk : bool) (fuel : nat) (a : nd) : outcome (list nd) :=
  f <- nd_rbegin a ;; l <- nd_rend a ;; collect ri_equal (ri_deref_n chk) ri_inc fuel f l.
Definition elems_backward (chk : bool) (fuel : nat) (a : nd) : outcome (list ptr) :=
  f <- nd_rbegin a ;; l <- nd_rend a ;; collect ri_equal (ri_deref_one chk) ri_inc fuel f l.

(** n nested begin()..end() loops; the elements visited, in order *)
Fixpoint concat_map {X Y : Type} (f : X -> outcome (list Y)) (l : list X) : outcome (list Y) :=
  match l with
  | [] => Ok []
  | x :: r => y <- f x ;; t <- concat_map f r ;; Ok (y ++ t)
  end.
Fixpoint visit (chk : bool) (fuel n : nat) (a : nd) {struct n} : outcome (list ptr) :=
  match n with
  | O => UB
  | S k =>
      match k with
      | O => elems_forward chk fuel a
      | S _ => rows <- rows_forward chk fuel a ;; concat_map (visit chk fuel k) rows
      end
  end.

(** lexicographic order on index tuples *)
Inductive lex_less : list Z -> list Z -> Prop :=
| ll_here : forall x y s t, x < y -> length s = length t -> lex_less (x :: s) (y :: t)
| ll_next : forall x s t, lex_less s t -> lex_less (x :: s) (x :: t).
