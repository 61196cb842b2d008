(** OpaqueSpec.v -- what it means for the library to treat its elements as opaque
    (specification of C61).

    Two programs over two element types T and U, and a relation R telling which
    U stands for which T.  Nothing here mentions how an operation works. *)

From Verif Require Import Base StorageOrder Access Objects Memory MultiArray History.

Section Opaque.
Context {T U : Type}.
Variable R : T -> U -> Prop.

(** memories: the same blocks, the same cells holding an element, related elements *)
Inductive cell_alike : option T -> option U -> Prop :=
| ca_raw : cell_alike None None
| ca_elem : forall a b, R a b -> cell_alike (Some a) (Some b).
Inductive block_alike : option (block T) -> option (block U) -> Prop :=
| ba_gone : block_alike None None
| ba_here : forall aid cs ds, Forall2 cell_alike cs ds ->
    block_alike (Some (Block aid cs)) (Some (Block aid ds)).
Definition heap_alike (h : heap T) (k : heap U) : Prop := Forall2 block_alike h k.
Definition world_alike (w : world T) (v : world U) : Prop :=
  heap_alike (w_heap w) (w_heap v) /\ w_fuse w = w_fuse v.

(** commands: the same call with the same arguments, except that elements written
    are related and the function given to for_each takes related elements to
    related elements *)
Inductive corresponds : @command T -> @command U -> Prop :=
| co_default : forall n aid, corresponds (NewDefault n aid) (NewDefault n aid)
| co_list : forall l so aid, corresponds (NewList l so aid) (NewList l so aid)
| co_ranges : forall rs so aid, corresponds (NewRanges rs so aid) (NewRanges rs so aid)
| co_copy : forall y, corresponds (NewCopy y) (NewCopy y)
| co_from : forall e so aid, corresponds (NewFrom e so aid) (NewFrom e so aid)
| co_view : forall e subs, corresponds (NewView e subs) (NewView e subs)
| co_ref_list : forall x k l so, corresponds (NewRefList x k l so) (NewRefList x k l so)
| co_ref_ranges : forall x k rs so, corresponds (NewRefRanges x k rs so) (NewRefRanges x k rs so)
| co_ref_of : forall x, corresponds (NewRefOf x) (NewRefOf x)
| co_alias : forall h, corresponds (NewAlias h) (NewAlias h)
| co_destroy : forall x, corresponds (Destroy x) (Destroy x)
| co_assign : forall d s, corresponds (Assign d s) (Assign d s)
| co_assign_var : forall x y, corresponds (AssignVar x y) (AssignVar x y)
| co_copy_array : forall d s, corresponds (CopyArray d s) (CopyArray d s)
| co_get : forall e i, corresponds (Get e i) (Get e i)
| co_set : forall e i a b, R a b -> corresponds (Set_ e i a) (Set_ e i b)
| co_getb : forall e i, corresponds (GetB e i) (GetB e i)
| co_setb : forall e i a b, R a b -> corresponds (SetB e i a) (SetB e i b)
| co_fill : forall x l m, Forall2 R l m -> corresponds (Fill x l) (Fill x m)
| co_fill_ref : forall h l m, Forall2 R l m -> corresponds (FillRef h l) (FillRef h m)
| co_for_each : forall e f g, (forall a b, R a b -> R (f a) (g b)) ->
    corresponds (ForEach e f) (ForEach e g)
| co_reindex : forall x bs, corresponds (Reindex x bs) (Reindex x bs)
| co_reindex_all : forall x b, corresponds (ReindexAll x b) (ReindexAll x b)
| co_reshape : forall x l, corresponds (Reshape x l) (Reshape x l)
| co_reindex_named : forall h bs, corresponds (ReindexNamed h bs) (ReindexNamed h bs)
| co_reindex_named_all : forall h b, corresponds (ReindexNamedAll h b) (ReindexNamedAll h b)
| co_reshape_ref : forall h l, corresponds (ReshapeRef h l) (ReshapeRef h l)
| co_resize : forall x rs, corresponds (Resize x rs) (Resize x rs)
| co_resize_list : forall x l, corresponds (ResizeList x l) (ResizeList x l)
| co_compare : forall op a b, corresponds (Compare op a b) (Compare op a b)
| co_ask : forall q e, corresponds (Ask q e) (Ask q e).

(** what a command answers: the same, except that an element read is related *)
Inductive out_alike : @output T -> @output U -> Prop :=
| oa_none : out_alike ONone ONone
| oa_val : forall a b, R a b -> out_alike (OVal a) (OVal b)
| oa_bool : forall b, out_alike (OBool b) (OBool b)
| oa_int : forall z, out_alike (OInt z) (OInt z)
| oa_ints : forall l, out_alike (OInts l) (OInts l).
Inductive maybe_alike : option (@output T) -> option (@output U) -> Prop :=
| ma_threw : maybe_alike None None
| ma_answered : forall o p, out_alike o p -> maybe_alike (Some o) (Some p).

(** two runs end the same way: both complete with [Q]-related results, both throw,
    both fail an assertion, both are undefined; and leave related memories *)
Inductive same_way {A B} (Q : A -> B -> Prop) : res T A -> res U B -> Prop :=
| sw_done : forall a b w v, Q a b -> world_alike w v -> same_way Q (Done a w) (Done b v)
| sw_thrown : forall w v, world_alike w v -> same_way Q (Thrown w) (Thrown v)
| sw_aborted : forall w v, world_alike w v -> same_way Q (Aborted w) (Aborted v)
| sw_undef : same_way Q Undef Undef
| sw_fuel : same_way Q OutOfFuel OutOfFuel.

(** the same variables, views and refs with the same geometry and the same
    addresses, and related answers *)
Definition results_alike {O P} (Q : O -> P -> Prop) (r : env * list O) (s : env * list P) : Prop :=
  fst r = fst s /\ Forall2 Q (snd r) (snd s).
End Opaque.

(** a program that never comparing arrays *)
Definition comparing {T} (c : @command T) : Prop :=
  match c with Compare _ _ _ => True | _ => False end.

(** the elements a command brings into the program all satisfy P *)
Definition brings {T} (P : T -> Prop) (c : @command T) : Prop :=
  match c with
  | Set_ _ _ v | SetB _ _ v => P v
  | Fill _ l | FillRef _ l => Forall P l
  | ForEach _ f => forall v, P v -> P (f v)
  | _ => True
  end.
Definition answers_with {T} (P : T -> Prop) (o : @output T) : Prop :=
  match o with OVal v => P v | _ => True end.
Definition contains_only {T} (P : T -> Prop) (h : heap T) : Prop :=
  forall p v, hread h p = Ok v -> P v.

(** changing the element type by a function *)
Definition relabel_output {T U} (f : T -> U) (o : @output T) : @output U :=
  match o with
  | ONone => ONone | OVal v => OVal (f v) | OBool b => OBool b | OInt z => OInt z | OInts l => OInts l
  end.
