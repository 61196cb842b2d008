(** ConcurSpec.v -- vocabulary for C66: threads that build, use, resize and destroy
    arrays of their own and read arrays they share. *)

From Coq Require Import ZArith List Bool.
From Verif Require Import Base Access Memory History Concur Spec HistorySpec CostSpec.
Import ListNotations.

Section ConcurSpec.
Context {T : Type}.
Variable dflt : T.
Variable eqT : T -> T -> bool.
Variable ltT : T -> T -> bool.

(** the command changes array x: its elements, its geometry or its existence *)
Inductive modifies (st : @state T) : @command T -> nat -> Prop :=
| mo_destroy : forall x, modifies st (Destroy x) x
| mo_assign : forall d s p, denotes st d p -> modifies st (Assign d s) (pl_var p)
| mo_assign_var : forall x y, modifies st (AssignVar x y) x
| mo_copy_array : forall d s p, denotes st d p -> modifies st (CopyArray d s) (pl_var p)
| mo_set : forall e i v p, denotes st e p -> modifies st (Set_ e i v) (pl_var p)
| mo_setb : forall e i v p, denotes st e p -> modifies st (SetB e i v) (pl_var p)
| mo_fill : forall x l, modifies st (Fill x l) x
| mo_fill_ref : forall h l n, named_is st h n -> modifies st (FillRef h l) (owner n)
| mo_for_each : forall e f p, denotes st e p -> modifies st (ForEach e f) (pl_var p)
| mo_reindex : forall x bases, modifies st (Reindex x bases) x
| mo_reindex_all : forall x b, modifies st (ReindexAll x b) x
| mo_reshape : forall x shape, modifies st (Reshape x shape) x
| mo_resize : forall x rs, modifies st (Resize x rs) x
| mo_resize_list : forall x shape, modifies st (ResizeList x shape) x.

(** the program of one thread, in the abstract: it starts in a state whose first k
    arrays are shared, changes none of these, and catches every exception; os are
    its outputs and st' is the state it ends in *)
Inductive private_run (k : nat) (st : @state T)
  : list (@command T * option nat) -> list (option (@output T)) -> @state T -> Prop :=
| pr_nil : private_run k st [] [] st
| pr_done : forall c f rest o os n st1 st2, step dflt eqT ltT st c o st1 -> costs st c n ->
    (forall j, f = Some j -> (n <= j)%nat) -> (forall x, modifies st c x -> (k <= x)%nat) ->
    private_run k st1 rest os st2 -> private_run k st ((c, f) :: rest) (Some o :: os) st2
| pr_thrown : forall c j rest o os n st1 st1' st2, step dflt eqT ltT st c o st1' -> costs st c n -> (j < n)%nat ->
    (forall x, modifies st c x -> (k <= x)%nat) -> interrupted st j c st1 ->
    private_run k st1 rest os st2 -> private_run k st ((c, Some j) :: rest) (None :: os) st2.

(** a program that keeps to the library's contract and leaves the first k arrays
    alone, however its commands end *)
Fixpoint private_legal (k : nat) (st : @state T) (p : list (@command T * option nat)) : Prop :=
  match p with
  | [] => True
  | (c, f) :: rest =>
      legal st c /\ (forall x, modifies st c x -> (k <= x)%nat) /\
      (forall o st', step dflt eqT ltT st c o st' -> private_legal k st' rest) /\
      (forall j st', f = Some j -> interrupted st j c st' -> private_legal k st' rest)
  end.

(** the next step of a thread reads or changes block b *)
Definition about_to_use {A} (m : job T A) (b : nat) : Prop :=
  match m with JRead p _ => p_blk p = b | _ => False end.
Definition about_to_change {A} (m : job T A) (b : nat) : Prop :=
  match m with
  | JWrite p _ _ | JMake p _ _ | JKill p _ | JFree _ p _ _ => p_blk p = b
  | _ => False
  end.
(** two threads are about to use the same block, one of them changing it.  (Every
    data race on an element is one of these.) *)
Definition clash {A} (pool : list (job T A * option nat)) : Prop :=
  exists i j m n f g b, i <> j /\ nth_error pool i = Some (m, f) /\ nth_error pool j = Some (n, g) /\
    about_to_change m b /\ (about_to_use n b \/ about_to_change n b).

End ConcurSpec.
