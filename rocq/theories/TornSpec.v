(** TornSpec.v -- element assignments that fail half way: where they leave a
    program.  The assignment that throws leaves some value [u] in the element it was
    assigning to; everything else is as in HistorySpec.v ([step], [interrupted]) and
    ExactSpec.v. *)

From Coq Require Import ZArith List Bool.
From Verif Require Import Base Spec History HistorySpec CostSpec FaultSpec.
Import ListNotations.

Section TornSpec.
Context {T : Type}.
Variable dflt : T.
Variable eqT : T -> T -> bool.
Variable ltT : T -> T -> bool.

(** operation k inside the command throws; if it is an element assignment, it
    leaves u in the element.  Constructors and resize leave everything as it was.
    Element-wise operations have been done on exactly the first k elements, and
    the next element is u *)
Inductive torn (st : @state T) (k : nat) (u : T) : @command T -> @state T -> Prop :=
| to_default : forall n aid, torn st k u (NewDefault n aid) st
| to_list : forall shape so aid, torn st k u (NewList shape so aid) st
| to_ranges : forall rs so aid, torn st k u (NewRanges rs so aid) st
| to_copy : forall y, torn st k u (NewCopy y) st
| to_from : forall e so aid, torn st k u (NewFrom e so aid) st
| to_resize : forall x rs, torn st k u (Resize x rs) st
| to_resize_list : forall x shape, torn st k u (ResizeList x shape) st
| to_set : forall e i v p st', denotes st e p -> put st p i u st' -> torn st k u (Set_ e i v) st'
| to_setb : forall e i v p st', denotes st e p -> put st p i u st' -> torn st k u (SetB e i v) st'
| to_assign : forall dst src pd ps j st1 st', denotes st dst pd -> denotes st src ps ->
    copies pd ps (firstn k (all_positions (pl_shape pd))) st st1 ->
    nth_error (all_positions (pl_shape pd)) k = Some j -> put st1 pd (tadd (pl_bases pd) j) u st' ->
    torn st k u (Assign dst src) st'
| to_assign_var : forall x y pd ps j st1 st', denotes st (Var x) pd -> denotes st (Var y) ps -> x <> y ->
    copies pd ps (firstn k (all_positions (pl_shape pd))) st st1 ->
    nth_error (all_positions (pl_shape pd)) k = Some j -> put st1 pd (tadd (pl_bases pd) j) u st' ->
    torn st k u (AssignVar x y) st'
| to_copy_array : forall dst src pd ps j st1 st', denotes st dst pd -> denotes st src ps ->
    copies pd ps (firstn k (all_positions (pl_shape pd))) st st1 ->
    nth_error (all_positions (pl_shape pd)) k = Some j -> put st1 pd (tadd (pl_bases pd) j) u st' ->
    torn st k u (CopyArray dst src) st'
| to_fill : forall x l a, array_is st x a ->
    torn st k u (Fill x l) (set_array st x (filled a (length (a_elems a)) (firstn k l ++ [u])))
| to_fill_ref : forall h l x off bases shape so a, named_is st h (ARef x off bases shape so) -> array_is st x a ->
    torn st k u (FillRef h l) (set_array st x (filled_from a (Z.to_nat off) (Z.to_nat (prod shape)) (firstn k l ++ [u])))
| to_for_each : forall e f p i st1 st', denotes st e p ->
    mapped p f (firstn k (tuples (pl_bases p) (pl_shape p))) st st1 ->
    nth_error (tuples (pl_bases p) (pl_shape p)) k = Some i -> put st1 p i u st' ->
    torn st k u (ForEach e f) st'.

(** a program that catches everything; every command comes with the number k of
    the operation inside it that throws, if any, and what it leaves behind if it is
    an element assignment.  Compare [survives] *)
Inductive withstands (asserts : bool) (st : @state T)
  : list (@command T * option (nat * T)) -> list (option (@output T)) -> @state T -> nat -> Prop :=
| ws_nil : withstands asserts st [] [] st 0
| ws_done : forall c f rest o os n st1 st2 m, step dflt eqT ltT st c o st1 -> costs st c n ->
    (forall k u, f = Some (k, u) -> (n <= k)%nat) ->
    withstands asserts st1 rest os st2 m -> withstands asserts st ((c, f) :: rest) (Some o :: os) st2 m
| ws_thrown : forall c k u rest o os n st1 st1' st2 m, step dflt eqT ltT st c o st1' -> costs st c n -> (k < n)%nat ->
    torn st k u c st1 ->
    withstands asserts st1 rest os st2 m ->
    withstands asserts st ((c, Some (k, u)) :: rest) (None :: os) st2 ((if loses k c then 1 else 0) + m)
| ws_misuse : forall c f rest os st2 m, asserts = true -> misuse st c ->
    withstands asserts st rest os st2 m -> withstands asserts st ((c, f) :: rest) (None :: os) st2 m.

(** every command keeps to the contract or is a mistake that the assertions catch,
    however the earlier commands ended *)
Fixpoint tolerable (asserts : bool) (st : @state T) (p : list (@command T * option (nat * T))) : Prop :=
  match p with
  | [] => True
  | (c, f) :: rest =>
      (legal st c \/ asserts = true /\ misuse st c) /\
      (forall o st', step dflt eqT ltT st c o st' -> tolerable asserts st' rest) /\
      (forall k u st', f = Some (k, u) -> torn st k u c st' -> tolerable asserts st' rest) /\
      (misuse st c -> tolerable asserts st rest)
  end.

(** the two states differ in one element, which is u in the second *)
Definition one_element_is (st1 : @state T) (u : T) (st2 : @state T) : Prop :=
  exists x a j, array_is st1 x a /\ (j < length (a_elems a))%nat /\
    st2 = set_array st1 x (a_set a j u).

End TornSpec.
