(** QuotaSpec.v -- how much memory a program needs, and what happens when there is
    not enough.  Sizes are in elements. *)

From Coq Require Import ZArith List Bool.
From Verif Require Import Base Spec History HistorySpec CostSpec.
Import ListNotations.
Local Open Scope Z_scope.

Section QuotaSpec.
Context {T : Type}.
Variable dflt : T.
Variable eqT : T -> T -> bool.
Variable ltT : T -> T -> bool.

(** the elements of the live arrays that have their memory from allocator aid *)
Definition in_use (st : @state T) (aid : nat) : Z :=
  fold_right (fun o n => match o with
                         | Some a => if Nat.eqb (a_alloc a) aid then prod (a_shape a) + n else n
                         | None => n
                         end) 0 (s_arrays st).
(** lost blocks, each with its allocator and size *)
Definition lost_in (lost : list (nat * Z)) (aid : nat) : Z :=
  fold_right (fun b n => if Nat.eqb (fst b) aid then snd b + n else n) 0 lost.

(** what a command asks of which allocator: constructors ask for the elements of the
    new array (a copy from the allocator of its original); resize asks the array's
    own allocator for all elements of the new shape, while it still holds the old
    ones.  No other command asks for memory *)
Inductive asks_for (st : @state T) : @command T -> nat -> Z -> Prop :=
| af_default : forall n aid, asks_for st (NewDefault n aid) aid 0
| af_list : forall shape so aid, asks_for st (NewList shape so aid) aid (prod shape)
| af_ranges : forall rs so aid, asks_for st (NewRanges rs so aid) aid (prod (ranges_shape rs))
| af_copy : forall y a, array_is st y a -> asks_for st (NewCopy y) (a_alloc a) (prod (a_shape a))
| af_from : forall e so aid p, denotes st e p -> asks_for st (NewFrom e so aid) aid (prod (pl_shape p))
| af_resize : forall x rs a, array_is st x a -> asks_for st (Resize x rs) (a_alloc a) (prod (ranges_shape rs))
| af_resize_list : forall x shape a, array_is st x a -> asks_for st (ResizeList x shape) (a_alloc a) (prod shape).

Variable cap : nat -> Z.

(** there is room for what the command asks for *)
Definition affordable (st : @state T) (lost : list (nat * Z)) (c : @command T) : Prop :=
  forall aid n, asks_for st c aid n -> in_use st aid + lost_in lost aid + n <= cap aid.
(** there is not *)
Definition refused (st : @state T) (lost : list (nat * Z)) (c : @command T) : Prop :=
  exists aid n, asks_for st c aid n /\ cap aid < in_use st aid + lost_in lost aid + n.

(** a program that catches every exception, with the memory [lost] so far.  A command
    for which there is no room has no effect *)
Inductive budgeted (st : @state T) (lost : list (nat * Z))
  : list (@command T * option nat) -> list (option (@output T)) -> @state T -> list (nat * Z) -> Prop :=
| bu_nil : budgeted st lost [] [] st lost
| bu_done : forall c f rest o os n st1 st2 lost2, step dflt eqT ltT st c o st1 -> costs st c n ->
    (forall k, f = Some k -> (n <= k)%nat) -> affordable st lost c ->
    budgeted st1 lost rest os st2 lost2 -> budgeted st lost ((c, f) :: rest) (Some o :: os) st2 lost2
| bu_refused : forall c f rest o os st1 st2 lost2, step dflt eqT ltT st c o st1 -> refused st lost c ->
    budgeted st lost rest os st2 lost2 -> budgeted st lost ((c, f) :: rest) (None :: os) st2 lost2
| bu_thrown : forall c k rest o os n st1 st1' st2 lost2, step dflt eqT ltT st c o st1' -> costs st c n -> (k < n)%nat ->
    affordable st lost c -> interrupted st k c st1 -> loses k c = false ->
    budgeted st1 lost rest os st2 lost2 -> budgeted st lost ((c, Some k) :: rest) (None :: os) st2 lost2
| bu_lost : forall c k rest o os n aid size st1 st1' st2 lost2, step dflt eqT ltT st c o st1' -> costs st c n -> (k < n)%nat ->
    affordable st lost c -> interrupted st k c st1 -> loses k c = true -> asks_for st c aid size ->
    budgeted st1 (lost ++ [(aid, size)]) rest os st2 lost2 ->
    budgeted st lost ((c, Some k) :: rest) (None :: os) st2 lost2.

(** every command keeps to the contract, however the earlier commands ended *)
Fixpoint lawful (st : @state T) (p : list (@command T * option nat)) : Prop :=
  match p with
  | [] => True
  | (c, f) :: rest =>
      legal st c /\
      (forall o st', step dflt eqT ltT st c o st' -> lawful st' rest) /\
      (forall k st', f = Some k -> interrupted st k c st' -> lawful st' rest) /\
      ((exists aid n, asks_for st c aid n) -> lawful st rest)
  end.
End QuotaSpec.
