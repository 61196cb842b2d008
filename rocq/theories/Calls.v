(** Calls.v -- the calls comparisons make to the element type's operators.

    Ops.v models == and < of arrays for element operators that are functions.
    A user's operator is a program: it may count, log, answer inconsistently
    (floating-point NaN), or throw.  Here the same code is written over a [user]
    that is asked one question at a time, sees all questions asked before, and
    may answer or throw; the run carries the list of questions asked so far.
    Simplification: the operator receives the two element values (const&), and
    cannot change the arrays. *)

From Coq Require Import ZArith List Bool.
From Verif Require Import Base StorageOrder Ranges Layout Access Objects Memory Ops History.
Import ListNotations.
Local Open Scope Z_scope.

Section Calls.
Variable T : Type.

(** what a call of the element operator does *)
Inductive reply := Says (b : bool) | Throws.
(** the questions asked so far, oldest first *)
Definition asked : Type := list (T * T).
(** the element operator: its next reply depends on the operands and on every
    question asked before *)
Definition user_op : Type := asked -> T -> T -> reply.

(** how a run ends: with a result, or with the user's exception in flight *)
Inductive closing (A : Type) := Gave (a : A) (l : asked) | Broke (l : asked).
Arguments Gave {A}.
Arguments Broke {A}.
Definition talk (A : Type) : Type := asked -> outcome (closing A).
Definition say {A} (a : A) : talk A := fun l => Ok (Gave a l).
Definition silently {A} (o : outcome A) : talk A := fun l => a <- o ;; Ok (Gave a l).
Definition andthen {A B} (m : talk A) (f : A -> talk B) : talk B := fun l =>
  e <- m l ;; match e with Gave a l' => f a l' | Broke l' => Ok (Broke l') end.

Variable op : user_op.

(** one use of the element operator *)
Definition ask (u v : T) : talk bool := fun l =>
  match op l u v with
  | Says b => Ok (Gave b (l ++ [(u, v)]))
  | Throws => Ok (Broke (l ++ [(u, v)]))
  end.

Notation "x <| a ;; b" := (andthen a (fun x => b)) (at level 61, a at next level, right associativity).

(** std::equal(first1, last1, first2) *)
Fixpoint ask_equal (body : iter -> iter -> talk bool) (fuel : nat) (f1 l1 f2 : iter) : talk bool :=
  if it_equal f1 l1 then say true
  else match fuel with
       | O => silently UB
       | S f =>
           b <| body f1 f2 ;;
           if b then
             f1' <| silently (it_inc f1) ;; f2' <| silently (it_inc f2) ;; ask_equal body f f1' l1 f2'
           else say false
       end.

(** operator==: multi_array_ref.hpp:262-271, subarray.hpp:110-115,
    view.hpp:171-180 *)
Fixpoint ask_eq (chk : bool) (h : heap T) (n : nat) (a b : nd) {struct n} : talk bool :=
  match n with
  | O => silently UB
  | S k =>
      if list_eqb (nd_ext a) (nd_ext b) then
        f1 <| silently (nd_begin a) ;; l1 <| silently (nd_end a) ;; f2 <| silently (nd_begin b) ;;
        ask_equal
          (fun x y =>
             match k with
             | O => p <| silently (it_deref_one chk x) ;; q <| silently (it_deref_one chk y) ;;
                    u <| silently (hread h p) ;; v <| silently (hread h q) ;; ask u v
             | S _ => s <| silently (it_deref_n chk x) ;; t <| silently (it_deref_n chk y) ;; ask_eq chk h k s t
             end)
          (loop_fuel f1 l1) f1 l1 f2
      else say false
  end.

(** std::lexicographical_compare(first1, last1, first2, last2) *)
Fixpoint ask_lex (less : iter -> iter -> talk bool) (fuel : nat) (f1 l1 f2 l2 : iter) : talk bool :=
  if it_equal f1 l1 then say (negb (it_equal f2 l2))
  else if it_equal f2 l2 then say false
  else match fuel with
       | O => silently UB
       | S f =>
           b <| less f1 f2 ;;
           if b then say true else
           c <| less f2 f1 ;;
           if c then say false else
           f1' <| silently (it_inc f1) ;; f2' <| silently (it_inc f2) ;; ask_lex less f f1' l1 f2' l2
       end.

(** operator<: multi_array_ref.hpp:273-278, subarray.hpp:105-108, view.hpp:182-187 *)
Fixpoint ask_lt (chk : bool) (h : heap T) (n : nat) (a b : nd) {struct n} : talk bool :=
  match n with
  | O => silently UB
  | S k =>
      f1 <| silently (nd_begin a) ;; l1 <| silently (nd_end a) ;; f2 <| silently (nd_begin b) ;; l2 <| silently (nd_end b) ;;
      ask_lex
        (fun x y =>
           match k with
           | O => p <| silently (it_deref_one chk x) ;; q <| silently (it_deref_one chk y) ;;
                  u <| silently (hread h p) ;; v <| silently (hread h q) ;; ask u v
           | S _ => s <| silently (it_deref_n chk x) ;; t <| silently (it_deref_n chk y) ;; ask_lt chk h k s t
           end)
        (loop_fuel f1 l1) f1 l1 f2 l2
  end.

(** the six operators: multi_array_ref.hpp:262-306, subarray.hpp:105-135,
    view.hpp:171-215.  [op] is the element == for == and !=, the element < for
    the other four. *)
Definition ask_compare (c : comparison) (chk : bool) (h : heap T) (a b : nd) : talk bool :=
  let n := length (nd_ext a) in
  match c with
  | CEq => ask_eq chk h n a b
  | CNe => r <| ask_eq chk h n a b ;; say (negb r)
  | CLt => ask_lt chk h n a b
  | CGt => ask_lt chk h n b a
  | CLe => r <| ask_lt chk h n b a ;; say (negb r)
  | CGe => r <| ask_lt chk h n a b ;; say (negb r)
  end.

End Calls.
Arguments Gave {T A}.
Arguments Broke {T A}.
