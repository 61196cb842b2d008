(** AliasSpec.v -- what it means for two array expressions to share elements. *)

From Coq Require Import ZArith List.
From Verif Require Import Base Memory MultiArray Spec History HistorySpec.
Import ListNotations.
Local Open Scope Z_scope.

(** the program, started with nothing, runs to its end and outputs os *)
Definition gives {T} (dflt : T) eqT ltT (chk : bool) (p : list (@command T)) (os : list (@output T)) : Prop :=
  exists en h, run dflt eqT ltT chk (Env [] []) p (World [] None) = Done (en, os) (World h None).

(** index i of place p and index j of place q stand for one and the same element *)
Definition same_element (p : place) (i : list Z) (q : place) (j : list Z) : Prop :=
  pl_var p = pl_var q /\ pl_cell p i = pl_cell q j.

(** the expression starts from name r: the named object itself, one of its rows or
    subarrays, a view of it, ... *)
Fixpoint through (r : nat) (e : expr) : Prop :=
  match e with
  | Var _ => False
  | Named h => h = r
  | Sub e' _ | View_of e' _ | Row e' _ | Rev_row e' _ => through r e'
  end.

(** the commands that change elements, if at all, only through name r *)
Definition only_through {T} (r : nat) (c : @command T) : Prop :=
  match c with
  | Set_ e _ _ | SetB e _ _ | ForEach e _ | Assign e _ | CopyArray e _ => through r e
  | FillRef h _ | ReindexNamed h _ | ReindexNamedAll h _ | ReshapeRef h _ => h = r
  | Get _ _ | GetB _ _ | Compare _ _ _ | Ask _ _ | NewView _ _ | NewAlias _ => True
  | _ => False
  end.
