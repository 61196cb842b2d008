(** ForkSpec.v -- vocabulary for C68: what programs with parallel phases do, in the abstract *)

From Coq Require Import ZArith List Bool.
From Verif Require Import Base Access Memory History Concur Fork Spec HistorySpec CostSpec ConcurSpec ParSpec.
Import ListNotations.
Local Open Scope Z_scope.

Section ForkSpec.
Context {T : Type}.
Variable dflt : T.
Variable eqT ltT : T -> T -> bool.

(** the elements of a after the threads: element q is what thread i left if q is given to
    thread i, and unchanged if it is given to nobody *)
Definition gathered (lot : nat -> nat -> option nat) (finals : list (@state T)) (x : nat) (a b : @arr T) : Prop :=
  a_shape b = a_shape a /\ a_bases b = a_bases a /\ a_order b = a_order a /\ a_alloc b = a_alloc a /\
  length (a_elems b) = length (a_elems a) /\
  forall q, (q < length (a_elems a))%nat ->
    (forall i fin c, lot x q = Some i -> nth_error finals i = Some fin -> array_is fin x c ->
       nth_error (a_elems b) q = nth_error (a_elems c) q) /\
    ((forall i, lot x q = Some i -> (length finals <= i)%nat) -> nth_error (a_elems b) q = nth_error (a_elems a) q).
(** st' is st with the arrays as the threads left them; finals: the state each thread ends
    in when it runs alone from st *)
Definition joined (lot : nat -> nat -> option nat) (finals : list (@state T)) (st st' : @state T) : Prop :=
  s_named st' = s_named st /\ length (s_arrays st') = length (s_arrays st) /\
  forall x, match nth_error (s_arrays st) x, nth_error (s_arrays st') x with
            | Some (Some a), Some (Some b) => gathered lot finals x a b
            | Some None, Some None => True
            | None, None => True
            | _, _ => False
            end.

(** the program starts in state st, divides the elements of its arrays among the threads
    of each parallel phase in some way, and ends in st' with outputs outs: each thread does
    what it would do alone *)
Inductive fork_run (st : @state T) : list (@phase T) -> list (list (list (option (@output T)))) -> @state T -> Prop :=
| fr_nil : fork_run st [] [] st
| fr_serial : forall p os st1 rest outs st2,
    private_run dflt eqT ltT 0 st p os st1 -> fork_run st1 rest outs st2 ->
    fork_run st (Serial p :: rest) ([os] :: outs) st2
| fr_parallel : forall lot threads results st1 rest outs st2,
    length results = length threads ->
    (forall i p r, nth_error threads i = Some p -> nth_error results i = Some r ->
       lot_run dflt eqT ltT lot i (length (s_arrays st)) st p (fst r) (snd r)) ->
    joined lot (map snd results) st st1 -> fork_run st1 rest outs st2 ->
    fork_run st (Parallel threads :: rest) (map fst results :: outs) st2.

(** the program keeps to the library's contract, and the threads of each parallel phase to
    some division of the elements, however their commands end *)
Fixpoint fork_legal (st : @state T) (p : list (@phase T)) : Prop :=
  match p with
  | [] => True
  | Serial p :: rest =>
      private_legal dflt eqT ltT 0 st p /\
      forall os st1, private_run dflt eqT ltT 0 st p os st1 -> fork_legal st1 rest
  | Parallel threads :: rest =>
      exists lot, (forall i p, nth_error threads i = Some p -> lot_legal dflt eqT ltT lot i (length (s_arrays st)) st p) /\
      forall results st1, length results = length threads ->
        (forall i p r, nth_error threads i = Some p -> nth_error results i = Some r ->
           lot_run dflt eqT ltT lot i (length (s_arrays st)) st p (fst r) (snd r)) ->
        joined lot (map snd results) st st1 -> fork_legal st1 rest
  end.

(** the threads, if any, that run at this moment race *)
Definition races (s : @moment T) : Prop :=
  match s with Between _ _ _ _ => False | During _ pool _ _ _ => race pool end.
End ForkSpec.
