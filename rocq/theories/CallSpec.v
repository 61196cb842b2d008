(** CallSpec.v -- which calls a comparison is supposed to make.

    In terms of the contents of the two arrays as nested lists (CompareSpec.v)
    and of a user's operator [op] that, given the list of questions asked so
    far, answers or throws.  Nothing here mentions iterators or memory. *)

From Coq Require Import ZArith List Bool.
From Verif Require Import Base CompareSpec Calls.
Import ListNotations.

Section CallSpec.
Context {T : Type}.
Variable op : user_op T.

(** ** Equality: a list of questions, asked in order as long as the answer is yes *)

(** the elements of a nested list, in lexicographic order of position *)
Fixpoint in_order (n : nat) : tensor T n -> list T :=
  match n with O => fun v => [v] | S k => fun l => flat_map (in_order k) l end.

(** question number k of Q, asked after exactly the questions before it, gets reply r *)
Definition replied (Q : list (T * T)) (k : nat) (r : reply) : Prop :=
  exists u v, nth_error Q k = Some (u, v) /\ op (firstn k Q) u v = r.

(** asking Q in order until the first answer other than yes: result, or the
    exception, and exactly the questions that were asked *)
Inductive until_no (Q : list (T * T)) : closing T bool -> Prop :=
| un_all : (forall k, (k < length Q)%nat -> replied Q k (Says true)) -> until_no Q (Gave true Q)
| un_no k : (forall j, (j < k)%nat -> replied Q j (Says true)) -> replied Q k (Says false) ->
    until_no Q (Gave false (firstn (S k) Q))
| un_throw k : (forall j, (j < k)%nat -> replied Q j (Says true)) -> replied Q k Throws ->
    until_no Q (Broke (firstn (S k) Q)).

(** ** Order: nested lexicographic comparison, asking both ways at every place *)

(** [lex_asks less l m q c]: comparing the lists l and m, with questions q
    already asked, ends as c; [less x y q c] says the same of comparing two
    entries *)
Inductive lex_asks {A : Type} (less : A -> A -> asked T -> closing T bool -> Prop) :
  list A -> list A -> asked T -> closing T bool -> Prop :=
| la_both q : lex_asks less [] [] q (Gave false q)                         (* both end: not less *)
| la_left y m q : lex_asks less [] (y :: m) q (Gave true q)                (* a proper prefix is less *)
| la_right x l q : lex_asks less (x :: l) [] q (Gave false q)
| la_less x l y m q q1 : less x y q (Gave true q1) -> lex_asks less (x :: l) (y :: m) q (Gave true q1)
| la_throw1 x l y m q q1 : less x y q (Broke q1) -> lex_asks less (x :: l) (y :: m) q (Broke q1)
| la_greater x l y m q q1 q2 : less x y q (Gave false q1) -> less y x q1 (Gave true q2) ->
    lex_asks less (x :: l) (y :: m) q (Gave false q2)
| la_throw2 x l y m q q1 q2 : less x y q (Gave false q1) -> less y x q1 (Broke q2) ->
    lex_asks less (x :: l) (y :: m) q (Broke q2)
| la_next x l y m q q1 q2 c : less x y q (Gave false q1) -> less y x q1 (Gave false q2) ->
    lex_asks less l m q2 c -> lex_asks less (x :: l) (y :: m) q c.

(** one question to the user *)
Definition one_question (u v : T) (q : asked T) (c : closing T bool) : Prop :=
  match op q u v with
  | Says b => c = Gave b (q ++ [(u, v)])
  | Throws => c = Broke (q ++ [(u, v)])
  end.

Fixpoint less_asks (n : nat) : tensor T n -> tensor T n -> asked T -> closing T bool -> Prop :=
  match n with
  | O => one_question
  | S k => lex_asks (less_asks k)
  end.

End CallSpec.

(** the questions a run asked *)
Definition questions {T A} (c : closing T A) : list (T * T) := match c with Gave _ q => q | Broke q => q end.
(** negate the result, if there is one *)
Definition opposite {T} (c : closing T bool) : closing T bool :=
  match c with Gave b q => Gave (negb b) q | Broke q => Broke q end.
(** the smaller of the two extents, dimension by dimension *)
Definition smaller (es fs : list Z) : list Z := map (fun p => Z.min (fst p) (snd p)) (combine es fs).
(** a run with calls ends as the run of Ops.v without them *)
Definition same_answer {T} (o : outcome (closing T bool)) (p : outcome bool) : Prop :=
  match o, p with
  | Ok (Gave r _), Ok r' => r = r'
  | Abort, Abort => True
  | UB, UB => True
  | _, _ => False
  end.
