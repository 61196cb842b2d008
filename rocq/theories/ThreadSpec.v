(** ThreadSpec.v -- vocabulary for C44: which elements a call uses, and what it
    means for threads not to interfere. *)

From Coq Require Import ZArith List Bool Permutation.
From Verif Require Import Base Access Objects Memory Ops Threads Spec ReachSpec MemSpec.
Import ListNotations.
Local Open Scope Z_scope.

Section ThreadSpec.
Context {T : Type}.

(** p is the cell of element a(i) *)
Definition is_element (a : nd) (i : list Z) (p : ptr) : Prop := access_element true a i = Ok p.

(** the elements a call reads *)
Definition reads_cell (k : call T) (p : ptr) : Prop :=
  match k with
  | KGet a i | KGetBracket a i => is_element a i p
  | KSet _ _ _ | KSetBracket _ _ _ => False
  | KAssign dst src => element_of src p
  | KCopyArray src dst => element_of src p
  | KForEach f a => element_of a p
  | KFill c l => False
  | KEqual a b | KLess a b => element_of a p \/ element_of b p
  end.
(** the elements a call assigns to *)
Definition writes_cell (k : call T) (p : ptr) : Prop :=
  match k with
  | KGet _ _ | KGetBracket _ _ => False
  | KSet a i _ | KSetBracket a i _ => is_element a i p
  | KAssign dst src => element_of dst p
  | KCopyArray src dst => element_of dst p
  | KForEach f a => element_of a p
  | KFill c l => exists j, 0 <= j < Z.min (Z.of_nat (length l)) (cr_num_elements c) /\ p = padd (cr_data c) j
  | KEqual a b | KLess a b => False
  end.

(** a belongs to an array whose elements exist *)
Definition existing (h : heap T) (a : nd) : Prop := exists c, array_object c /\ derived c a /\ live h c.

(** the call keeps to the contract: its operands exist, indices are in range,
    shapes agree in assignments, numbers of dimensions agree in comparisons *)
Definition proper (h : heap T) (k : call T) : Prop :=
  match k with
  | KGet a i | KGetBracket a i => existing h a /\ in_bounds (nd_base a) (nd_ext a) i
  | KSet a i _ | KSetBracket a i _ => existing h a /\ in_bounds (nd_base a) (nd_ext a) i
  | KAssign dst src => existing h dst /\ existing h src /\ nd_ext dst = nd_ext src
  | KCopyArray src dst => existing h dst /\ existing h src /\ nd_ext dst = nd_ext src
  | KForEach f a => existing h a
  | KFill c l => array_object c /\ live h c
  | KEqual a b | KLess a b => existing h a /\ existing h b /\ length (nd_ext a) = length (nd_ext b)
  end.

(** the elements a thread reads or writes in the course of its calls *)
Definition thread_reads (t : list (call T)) (p : ptr) : Prop := exists k, In k t /\ reads_cell k p.
Definition thread_writes (t : list (call T)) (p : ptr) : Prop := exists k, In k t /\ writes_cell k p.

(** no thread uses an element that another thread writes *)
Definition independent (threads : list (list (call T))) : Prop :=
  forall i j t u p, i <> j -> nth_error threads i = Some t -> nth_error threads j = Some u ->
    thread_writes t p -> ~ thread_reads u p /\ ~ thread_writes u p.

(** the thread is about to access p *)
Definition about_to_read {A} (m : prog T A) (p : ptr) : Prop := exists k, m = PLoad p k.
Definition about_to_write {A} (m : prog T A) (p : ptr) : Prop := exists v k, m = PStore p v k.

(** a data race: two different threads are about to access the same element and
    at least one of them is going to write *)
Definition data_race {A} (pool : list (prog T A)) : Prop :=
  exists i j m n p, i <> j /\ nth_error pool i = Some m /\ nth_error pool j = Some n /\
    about_to_write m p /\ (about_to_read n p \/ about_to_write n p).

(** run the threads one after another, each to its end, in the given order *)
Fixpoint one_after_another (eqT ltT : T -> T -> bool) (chk : bool) (threads : list (list (call T)))
         (order : list nat) : M T (list (nat * list (result T))) :=
  match order with
  | [] => ret []
  | i :: rest =>
      match nth_error threads i with
      | Some t => r <~ run_thread eqT ltT chk t ;;
                  rs <~ one_after_another eqT ltT chk threads rest ;; ret ((i, r) :: rs)
      | None => fun _ => Undef
      end
  end.

(** all threads have finished, thread i with results [nth i results] *)
Definition all_finished {A} (pool : list (prog T A)) (results : list A) : Prop :=
  pool = map (@PRet T A) results.

End ThreadSpec.
