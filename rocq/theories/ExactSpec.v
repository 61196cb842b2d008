(** ExactSpec.v -- programs that survive exceptions and failed assertions: what
    they output and the state they are left in, as a function of the throw points.

    Stated with the abstract machine of HistorySpec.v ([step], [interrupted]), the
    counts of CostSpec.v and the list of mistakes of FaultSpec.v. *)

From Coq Require Import ZArith List Bool.
From Verif Require Import Base Spec History HistorySpec CostSpec FaultSpec.
Import ListNotations.

Section ExactSpec.
Context {T : Type}.
Variable dflt : T.
Variable eqT : T -> T -> bool.
Variable ltT : T -> T -> bool.

(** every command comes with the number k of the allocation, element construction
    or element assignment inside it that throws, if any.  [asserts]: the build has
    assertions, and a failed one throws.  The last index is the number of blocks
    of memory lost on the way *)
Inductive survives (asserts : bool) (st : @state T)
  : list (@command T * option nat) -> list (option (@output T)) -> @state T -> nat -> Prop :=
| sv_nil : survives asserts st [] [] st 0
(* the command makes n such operations, none of them the one that throws *)
| sv_done : forall c f rest o os n st1 st2 m, step dflt eqT ltT st c o st1 -> costs st c n ->
    (forall k, f = Some k -> (n <= k)%nat) ->
    survives asserts st1 rest os st2 m -> survives asserts st ((c, f) :: rest) (Some o :: os) st2 m
(* operation k is one of the n *)
| sv_thrown : forall c k rest o os n st1 st1' st2 m, step dflt eqT ltT st c o st1' -> costs st c n -> (k < n)%nat ->
    interrupted st k c st1 ->
    survives asserts st1 rest os st2 m ->
    survives asserts st ((c, Some k) :: rest) (None :: os) st2 ((if loses k c then 1 else 0) + m)
(* a mistake that the assertions catch: nothing happens *)
| sv_misuse : forall c f rest os st2 m, asserts = true -> misuse st c ->
    survives asserts st rest os st2 m -> survives asserts st ((c, f) :: rest) (None :: os) st2 m.

(** a program every command of which either keeps to the contract, or is a mistake
    that the assertions catch, however the earlier commands ended *)
Fixpoint acceptable (asserts : bool) (st : @state T) (p : list (@command T * option nat)) : Prop :=
  match p with
  | [] => True
  | (c, f) :: rest =>
      (legal st c \/ asserts = true /\ misuse st c) /\
      (forall o st', step dflt eqT ltT st c o st' -> acceptable asserts st' rest) /\
      (forall k st', f = Some k -> interrupted st k c st' -> acceptable asserts st' rest) /\
      (misuse st c -> acceptable asserts st rest)
  end.

End ExactSpec.
