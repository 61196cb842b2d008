(** HistorySpec.v -- the abstract machine client programs are compared with.

    An abstract array is a shape, index bases, a storage order and the sequence
    of its elements in storage order (and the identity of the allocator its memory
    comes from).  There are no pointers, strides, blocks or
    iterators here. *)

From Coq Require Import ZArith List Bool Permutation.
From Verif Require Import Base StorageOrder Ranges Access Objects Memory MultiArray Spec ReachSpec MemSpec CompareSpec OwnSpec History.
Import ListNotations.
Local Open Scope Z_scope.

Section HistorySpec.
Context {T : Type}.

Record arr := Arr { a_shape : list Z; a_bases : list Z; a_order : storage_order;
                    a_alloc : nat; a_elems : list T }.

(** sequence position of the element with index i *)
Definition a_pos (a : arr) (i : list Z) : nat :=
  Z.to_nat (position (so_ordering (a_order a)) (so_ascending (a_order a)) (a_bases a) (a_shape a) i).
(** element i of a is v *)
Definition holds (a : arr) (i : list Z) (v : T) : Prop :=
  in_bounds (a_bases a) (a_shape a) i /\ nth_error (a_elems a) (a_pos a i) = Some v.
(** the arrays with this geometry; n is the number of dimensions *)
Definition well_formed (a : arr) : Prop :=
  order_ok (length (a_shape a)) (a_order a) /\ layout_ok (a_order a) (a_bases a) (a_shape a) /\
  Z.of_nat (length (a_elems a)) = prod (a_shape a).

(** * places: what an array-valued expression denotes *)

(** an array's worth of elements of variable [pl_var]: index bases, shape, the
    distance (in the variable's element sequence) between neighbours along each
    dimension, and for every index the position, in that sequence, of the element
    it stands for *)
Record place := Place { pl_var : nat; pl_bases : list Z; pl_shape : list Z; pl_strides : list Z;
                        pl_cell : list Z -> nat }.

(** neighbours along dimension d are this far apart; backwards if d descends *)
Definition order_strides (so : storage_order) (shape : list Z) : list Z :=
  map (fun d => (if nth d (so_ascending so) true then 1 else -1) * dim_step (so_ordering so) shape d)
      (seq 0 (length shape)).

(** the first elements of variable x, arranged with this geometry *)
Definition arranged (x : nat) (bases shape : list Z) (so : storage_order) : place :=
  Place x bases shape (order_strides so shape)
        (fun i => Z.to_nat (position (so_ordering so) (so_ascending so) bases shape i)).

(** as many elements of variable x as this geometry has, from number off on *)
Definition arranged_from (x : nat) (off : Z) (bases shape : list Z) (so : storage_order) : place :=
  Place x bases shape (order_strides so shape)
        (fun i => Z.to_nat (off + position (so_ordering so) (so_ascending so) bases shape i)).

(** index i of a place with bases [new], as index of the same place with bases [old] *)
Fixpoint rebase (old new i : list Z) : list Z :=
  match old, new, i with
  | o :: old', n :: new', k :: i' => (k - n + o) :: rebase old' new' i'
  | _, _, _ => []
  end.

(** named views and refs: a view is a place; a ref arranges the elements of
    a variable from number off on *)
Inductive named_place := AView (p : place) | ARef (x : nat) (off : Z) (bases shape : list Z) (so : storage_order).
Definition place_of (n : named_place) : place :=
  match n with AView p => p | ARef x off bases shape so => arranged_from x off bases shape so end.
Definition owner (n : named_place) : nat := pl_var (place_of n).

(** the same elements at the same indices *)
Definition same_place (p q : place) : Prop :=
  pl_bases p = pl_bases q /\ pl_shape p = pl_shape q /\ pl_strides p = pl_strides q /\
  forall i, in_bounds (pl_bases p) (pl_shape p) i -> pl_var p = pl_var q /\ pl_cell p i = pl_cell q i.

(** the state: the arrays that have been declared (None = destroyed) and the
    named views and refs (None = their array has been destroyed or resized) *)
Record state := St { s_arrays : list (option arr); s_named : list (option named_place) }.
Definition array_is (st : state) (x : nat) (a : arr) : Prop := nth_error (s_arrays st) x = Some (Some a).
Definition named_is (st : state) (h : nat) (n : named_place) : Prop := nth_error (s_named st) h = Some (Some n).
Definition add_array (st : state) (a : arr) : state := St (s_arrays st ++ [Some a]) (s_named st).
Definition set_array (st : state) (x : nat) (a : arr) : state := St (set_nth x (Some a) (s_arrays st)) (s_named st).
Definition add_named (st : state) (n : named_place) : state := St (s_arrays st) (s_named st ++ [Some n]).
Definition set_named (st : state) (h : nat) (n : named_place) : state := St (s_arrays st) (set_nth h (Some n) (s_named st)).
(** the names that refer to variable x die *)
Definition orphan (st : state) (x : nat) : state :=
  St (s_arrays st)
     (map (fun o => match o with Some n => if Nat.eqb (owner n) x then None else Some n | None => None end) (s_named st)).
Definition remove_array (st : state) (x : nat) : state := St (set_nth x None (s_arrays st)) (s_named st).
Definition empty_state : state := St [] [].

(** indices[..][..] applied to a dimension list: the shape and strides of the
    result and the map from its indices (which start at 0) to indices of the
    operand.  A single index must be in range.  A slice lo, lo+stride, ... up to
    but not including hi must have its start inside the dimension (or be empty
    there), its end within the bounds (shifted by one for negative strides), and a
    nonzero stride. *)
Inductive slices : list Z -> list Z -> list Z -> list subscript -> list Z -> list Z -> (list Z -> list Z) -> Prop :=
| sl_nil : slices [] [] [] [] [] [] (fun t => t)
| sl_at : forall b bs e es s ss i subs vs ws m,
    b <= i < b + e -> i < max_index ->
    slices bs es ss subs vs ws m ->
    slices (b :: bs) (e :: es) (s :: ss) (At i :: subs) vs ws (fun t => i :: m t)
| sl_slice : forall b bs e es s ss lo hi stride subs len vs ws m,
    let start := match lo with Some s => s | None => b end in
    let finish := match hi with Some f => f | None => b + e end in
    stride <> 0 -> Z.abs stride <= max_index -> Z.abs (stride * s) <= max_index ->
    b <= start <= Z.max b (b + e - 1) ->
    (0 < stride -> b <= finish <= b + e) -> (stride < 0 -> start < b + e /\ b - 1 <= finish <= b + e - 1) ->
    (stride < 0 -> - max_index <= b) -> index_value (finish - start + stride) ->
    0 <= len -> (forall k, 0 <= k < len <-> selected start finish stride k) ->
    slices bs es ss subs vs ws m ->
    slices (b :: bs) (e :: es) (s :: ss) (Slice lo hi stride :: subs) (len :: vs) (stride * s :: ws)
           (fun t => match t with k :: t' => (start + k * stride) :: m t' | [] => [] end).

Inductive denotes (st : state) : expr -> place -> Prop :=
| dn_var : forall x a, array_is st x a ->
    denotes st (Var x) (arranged x (a_bases a) (a_shape a) (a_order a))
| dn_named : forall h n, named_is st h n -> denotes st (Named h) (place_of n)
| dn_sub : forall e i x b bs n ns s ss m,
    denotes st e (Place x (b :: bs) (n :: ns) (s :: ss) m) -> ns <> [] -> b <= i < b + n ->
    denotes st (Sub e i) (Place x bs ns ss (fun t => m (i :: t)))
| dn_view : forall e subs x bs ns ss m vs ws g,
    denotes st e (Place x bs ns ss m) -> slices bs ns ss subs vs ws g -> vs <> [] ->
    denotes st (View_of e subs) (Place x (repeat 0 (length vs)) vs ws (fun t => m (g t)))
| dn_row : forall e k x b bs n ns s ss m,
    denotes st e (Place x (b :: bs) (n :: ns) (s :: ss) m) -> ns <> [] -> 0 <= k < n ->
    denotes st (Row e k) (Place x bs ns ss (fun t => m ((b + k) :: t)))
| dn_rev_row : forall e k x b bs n ns s ss m,
    denotes st e (Place x (b :: bs) (n :: ns) (s :: ss) m) -> ns <> [] -> Z.of_nat k < n ->
    denotes st (Rev_row e k) (Place x bs ns ss (fun t => m ((b + n - 1 - Z.of_nat k) :: t))).

(** reading and writing through a place *)
Definition look (st : state) (p : place) (i : list Z) (v : T) : Prop :=
  in_bounds (pl_bases p) (pl_shape p) i /\
  exists a, array_is st (pl_var p) a /\ nth_error (a_elems a) (pl_cell p i) = Some v.
Definition a_set (a : arr) (k : nat) (v : T) : arr :=
  Arr (a_shape a) (a_bases a) (a_order a) (a_alloc a) (set_nth k v (a_elems a)).
Definition put (st : state) (p : place) (i : list Z) (v : T) (st' : state) : Prop :=
  in_bounds (pl_bases p) (pl_shape p) i /\
  exists a, array_is st (pl_var p) a /\ st' = set_array st (pl_var p) (a_set a (pl_cell p i) v).

(** dst = src: element by element, in lexicographic order of positions *)
Inductive copies (dst src : place) : list (list Z) -> state -> state -> Prop :=
| cp_nil : forall st, copies dst src [] st st
| cp_cons : forall k ks st st1 st2 v,
    look st src (tadd (pl_bases src) k) v -> put st dst (tadd (pl_bases dst) k) v st1 ->
    copies dst src ks st1 st2 -> copies dst src (k :: ks) st st2.
Definition all_positions (shape : list Z) : list (list Z) := tuples (repeat 0 (length shape)) shape.
Definition copied (dst src : place) (st st' : state) : Prop :=
  pl_shape dst = pl_shape src /\ copies dst src (all_positions (pl_shape dst)) st st'.

(** for_each *)
Inductive mapped (p : place) (f : T -> T) : list (list Z) -> state -> state -> Prop :=
| mp_nil : forall st, mapped p f [] st st
| mp_cons : forall i is st st1 st2 v,
    look st p i v -> put st p i (f v) st1 -> mapped p f is st1 st2 -> mapped p f (i :: is) st st2.

(** the contents of a place as a nested list *)
Definition place_contents (st : state) (p : place) (n : nat) (t : tensor T n) : Prop :=
  length (pl_shape p) = n /\ shaped n t (pl_shape p) /\
  forall k, in_bounds (repeat 0 n) (pl_shape p) k ->
    exists v, entry n t k = Some v /\ look st p (tadd (pl_bases p) k) v.

(** assign(first, last) on the first n elements: as many of the values as fit, in
    storage order *)
Definition filled (a : arr) (n : nat) (l : list T) : arr :=
  Arr (a_shape a) (a_bases a) (a_order a) (a_alloc a)
      (firstn n l ++ skipn (Nat.min n (length l)) (a_elems a)).

(** the same on n elements from number j on *)
Definition filled_from (a : arr) (j n : nat) (l : list T) : arr :=
  Arr (a_shape a) (a_bases a) (a_order a) (a_alloc a)
      (firstn j (a_elems a) ++ firstn n l ++ skipn (j + Nat.min n (length l)) (a_elems a)).

Definition ranges_bases (rs : list (Z * Z)) : list Z := map fst rs.
Definition ranges_shape (rs : list (Z * Z)) : list Z := map (fun r => snd r - fst r) rs.
Definition from_zero (shape : list Z) : list (Z * Z) := map (fun e => (0, e)) shape.

Variable dflt : T.
Variable eqT : T -> T -> bool.
Variable ltT : T -> T -> bool.

(** a new array of equal elements *)
Definition blank (shape bases : list Z) (so : storage_order) (aid : nat) : arr :=
  Arr shape bases so aid (repeat dflt (Z.to_nat (prod shape))).

(** resize a to a' *)
Definition resized (a : arr) (rs : list (Z * Z)) (a' : arr) : Prop :=
  length rs = length (a_shape a) /\
  a_shape a' = ranges_shape rs /\ a_bases a' = ranges_bases rs /\ a_order a' = a_order a /\
  a_alloc a' = a_alloc a /\ well_formed a' /\
  (forall k, in_bounds (repeat 0 (length rs)) (a_shape a') k ->
     (in_bounds (repeat 0 (length rs)) (a_shape a) k ->
        exists v, holds a (tadd (a_bases a) k) v /\ holds a' (tadd (a_bases a') k) v) /\
     (~ in_bounds (repeat 0 (length rs)) (a_shape a) k -> holds a' (tadd (a_bases a') k) dflt)).

(** elements at equal positions are equal *)
Definition equal_places (st : state) (pa pb : place) : Prop :=
  pl_shape pa = pl_shape pb /\
  forall k, in_bounds (repeat 0 (length (pl_shape pa))) (pl_shape pa) k ->
    exists u v, look st pa (tadd (pl_bases pa) k) u /\ look st pb (tadd (pl_bases pb) k) v /\ eqT u v = true.
(** the truth value of a == b, a < b, ... *)
Definition compares (st : state) (op : comparison) (pa pb : place) : Prop :=
  let less p q := exists n tp tq, place_contents st p n tp /\ place_contents st q n tq /\ tensor_lt ltT n tp tq in
  match op with
  | CEq => equal_places st pa pb
  | CNe => ~ equal_places st pa pb
  | CLt => less pa pb
  | CGt => less pb pa
  | CLe => ~ less pb pa
  | CGe => ~ less pa pb
  end.

(** answers to queries *)
Definition tells (p : place) (q : query) : @output T :=
  match q with
  | QDims => OInt (Z.of_nat (length (pl_shape p)))
  | QShape => OInts (pl_shape p)
  | QBases => OInts (pl_bases p)
  | QStrides => OInts (pl_strides p)
  | QSize => OInt (nth 0 (pl_shape p) 0)
  | QNum => OInt (prod (pl_shape p))
  | QEmpty => OBool (nth 0 (pl_shape p) 0 =? 0)
  end.

(** one command: what it outputs and the state after it.  A command has no step
    when it is outside the library's contract (index out of range, shapes that
    differ, a layout that does not fit 64 bits, a destroyed variable, a name whose
    array is gone, ...) *)
Inductive step (st : state) : @command T -> @output T -> state -> Prop :=
| s_default : forall n aid, (0 < n)%nat ->
    step st (NewDefault n aid) ONone (add_array st (blank (repeat 0 n) (repeat 0 n) (so_from_c n) aid))
| s_list : forall shape so aid, well_formed (blank shape (repeat 0 (length shape)) so aid) ->
    step st (NewList shape so aid) ONone (add_array st (blank shape (repeat 0 (length shape)) so aid))
| s_ranges : forall rs so aid, well_formed (blank (ranges_shape rs) (ranges_bases rs) so aid) ->
    step st (NewRanges rs so aid) ONone (add_array st (blank (ranges_shape rs) (ranges_bases rs) so aid))
| s_copy : forall y a, array_is st y a -> step st (NewCopy y) ONone (add_array st a)
| s_from : forall e so aid p a, denotes st e p ->
    a_shape a = pl_shape p -> a_bases a = pl_bases p -> a_order a = so -> a_alloc a = aid -> well_formed a ->
    (forall i, in_bounds (pl_bases p) (pl_shape p) i -> exists v, look st p i v /\ holds a i v) ->
    step st (NewFrom e so aid) ONone (add_array st a)
| s_view : forall e subs p, denotes st (View_of e subs) p ->
    step st (NewView e subs) ONone (add_named st (AView p))
| s_ref_list : forall x off shape so a, array_is st x a -> 0 <= off ->
    order_ok (length shape) so -> layout_ok so (repeat 0 (length shape)) shape -> off + prod shape <= prod (a_shape a) ->
    step st (NewRefList x off shape so) ONone (add_named st (ARef x off (repeat 0 (length shape)) shape so))
| s_ref_ranges : forall x off rs so a, array_is st x a -> 0 <= off ->
    order_ok (length rs) so -> layout_ok so (ranges_bases rs) (ranges_shape rs) -> off + prod (ranges_shape rs) <= prod (a_shape a) ->
    step st (NewRefRanges x off rs so) ONone (add_named st (ARef x off (ranges_bases rs) (ranges_shape rs) so))
| s_ref_of : forall x a, array_is st x a ->
    step st (NewRefOf x) ONone (add_named st (ARef x 0 (a_bases a) (a_shape a) (a_order a)))
| s_alias : forall h n, named_is st h n -> step st (NewAlias h) ONone (add_named st n)
| s_destroy : forall x a, array_is st x a ->
    step st (Destroy x) ONone (orphan (remove_array st x) x)
| s_assign : forall dst src pd ps st', denotes st dst pd -> denotes st src ps -> copied pd ps st st' ->
    step st (Assign dst src) ONone st'
| s_assign_var : forall x y px py st', denotes st (Var x) px -> denotes st (Var y) py -> copied px py st st' ->
    step st (AssignVar x y) ONone st'
| s_copy_array : forall dst src pd ps st', denotes st dst pd -> denotes st src ps -> copied pd ps st st' ->
    step st (CopyArray dst src) ONone st'
| s_get : forall e i p v, denotes st e p -> look st p i v -> step st (Get e i) (OVal v) st
| s_set : forall e i v p st', denotes st e p -> put st p i v st' -> step st (Set_ e i v) ONone st'
| s_getb : forall e i p v, denotes st e p -> look st p i v -> step st (GetB e i) (OVal v) st
| s_setb : forall e i v p st', denotes st e p -> put st p i v st' -> step st (SetB e i v) ONone st'
| s_fill : forall x l a, array_is st x a ->
    step st (Fill x l) ONone (set_array st x (filled a (length (a_elems a)) l))
| s_fill_ref : forall h l x off bases shape so a, named_is st h (ARef x off bases shape so) -> array_is st x a ->
    step st (FillRef h l) ONone (set_array st x (filled_from a (Z.to_nat off) (Z.to_nat (prod shape)) l))
| s_for_each : forall e f p st', denotes st e p ->
    mapped p f (tuples (pl_bases p) (pl_shape p)) st st' ->
    step st (ForEach e f) ONone st'
| s_reindex : forall x bases a, array_is st x a -> length bases = length (a_shape a) ->
    let a' := Arr (a_shape a) bases (a_order a) (a_alloc a) (a_elems a) in well_formed a' ->
    step st (Reindex x bases) ONone (set_array st x a')
| s_reindex_all : forall x b a, array_is st x a ->
    let a' := Arr (a_shape a) (repeat b (length (a_shape a))) (a_order a) (a_alloc a) (a_elems a) in well_formed a' ->
    step st (ReindexAll x b) ONone (set_array st x a')
| s_reshape : forall x shape a, array_is st x a -> length shape = length (a_shape a) ->
    let a' := Arr shape (a_bases a) (a_order a) (a_alloc a) (a_elems a) in well_formed a' ->
    step st (Reshape x shape) ONone (set_array st x a')
| s_reindex_view : forall h bases p, named_is st h (AView p) -> addressable bases (pl_shape p) (pl_strides p) ->
    step st (ReindexNamed h bases) ONone
      (set_named st h (AView (Place (pl_var p) bases (pl_shape p) (pl_strides p)
                                    (fun i => pl_cell p (rebase (pl_bases p) bases i)))))
| s_reindex_ref : forall h bases x off bases0 shape so, named_is st h (ARef x off bases0 shape so) ->
    layout_ok so bases shape ->
    step st (ReindexNamed h bases) ONone (set_named st h (ARef x off bases shape so))
| s_reindex_view_all : forall h b p, named_is st h (AView p) ->
    let bases := repeat b (length (pl_shape p)) in addressable bases (pl_shape p) (pl_strides p) ->
    step st (ReindexNamedAll h b) ONone
      (set_named st h (AView (Place (pl_var p) bases (pl_shape p) (pl_strides p)
                                    (fun i => pl_cell p (rebase (pl_bases p) bases i)))))
| s_reindex_ref_all : forall h b x off bases0 shape so, named_is st h (ARef x off bases0 shape so) ->
    layout_ok so (repeat b (length shape)) shape ->
    step st (ReindexNamedAll h b) ONone (set_named st h (ARef x off (repeat b (length shape)) shape so))
| s_reshape_ref : forall h shape x off bases shape0 so, named_is st h (ARef x off bases shape0 so) ->
    length shape = length shape0 -> layout_ok so bases shape -> prod shape = prod shape0 ->
    step st (ReshapeRef h shape) ONone (set_named st h (ARef x off bases shape so))
| s_resize : forall x rs a a', array_is st x a -> resized a rs a' ->
    step st (Resize x rs) ONone (orphan (set_array st x a') x)
| s_resize_list : forall x shape a a', array_is st x a -> resized a (from_zero shape) a' ->
    step st (ResizeList x shape) ONone (orphan (set_array st x a') x)
| s_compare : forall op a b pa pb r, denotes st a pa -> denotes st b pb ->
    length (pl_shape pa) = length (pl_shape pb) -> (r = true <-> compares st op pa pb) ->
    step st (Compare op a b) (OBool r) st
| s_ask : forall q e p, denotes st e p -> step st (Ask q e) (tells p q) st.

Inductive steps (st : state) : list (@command T) -> list (@output T) -> state -> Prop :=
| ss_nil : steps st [] [] st
| ss_cons : forall c o st1 p os st2, step st c o st1 -> steps st1 p os st2 ->
    steps st (c :: p) (o :: os) st2.

(** * exceptions: the state a command leaves behind when an allocation, an element
      constructor or an element assignment throws after [k] of them have been
      done.  Constructors, resize and single element writes leave everything as
      it was; element-wise operations have been done on exactly the first k
      elements *)
Inductive interrupted (st : state) (k : nat) : @command T -> state -> Prop :=
| i_default : forall n aid, interrupted st k (NewDefault n aid) st
| i_list : forall shape so aid, interrupted st k (NewList shape so aid) st
| i_ranges : forall rs so aid, interrupted st k (NewRanges rs so aid) st
| i_copy : forall y, interrupted st k (NewCopy y) st
| i_from : forall e so aid, interrupted st k (NewFrom e so aid) st
| i_resize : forall x rs, interrupted st k (Resize x rs) st
| i_resize_list : forall x shape, interrupted st k (ResizeList x shape) st
| i_set : forall e i v, interrupted st k (Set_ e i v) st
| i_setb : forall e i v, interrupted st k (SetB e i v) st
| i_assign : forall dst src pd ps st', denotes st dst pd -> denotes st src ps ->
    copies pd ps (firstn k (all_positions (pl_shape pd))) st st' -> interrupted st k (Assign dst src) st'
| i_assign_var : forall x y pd ps st', denotes st (Var x) pd -> denotes st (Var y) ps -> x <> y ->
    copies pd ps (firstn k (all_positions (pl_shape pd))) st st' -> interrupted st k (AssignVar x y) st'
| i_copy_array : forall dst src pd ps st', denotes st dst pd -> denotes st src ps ->
    copies pd ps (firstn k (all_positions (pl_shape pd))) st st' -> interrupted st k (CopyArray dst src) st'
| i_fill : forall x l a, array_is st x a ->
    interrupted st k (Fill x l) (set_array st x (filled a (length (a_elems a)) (firstn k l)))
| i_fill_ref : forall h l x off bases shape so a, named_is st h (ARef x off bases shape so) -> array_is st x a ->
    interrupted st k (FillRef h l) (set_array st x (filled_from a (Z.to_nat off) (Z.to_nat (prod shape)) (firstn k l)))
| i_for_each : forall e f p st', denotes st e p ->
    mapped p f (firstn k (tuples (pl_bases p) (pl_shape p))) st st' ->
    interrupted st k (ForEach e f) st'.

(** block b was never returned to its allocator and belongs to no live variable *)
Definition leaked (en : env) (h : heap T) (b : nat) : Prop :=
  outstanding h b /\ forall x m, nth_error (e_vars en) x = Some (Some m) -> ma_block m <> b.

(** does the command, ended by an exception after k of its operations, lose a
    block?  A constructor does unless it was the allocation that threw; resize
    does exactly when the constructor of an element threw (an exception while the
    kept elements are being copied gives the new block back) *)
Definition loses (k : nat) (c : @command T) : bool :=
  match c with
  | NewDefault _ _ | NewList _ _ _ | NewRanges _ _ _ | NewCopy _ | NewFrom _ _ _ => 1 <=? k
  | Resize _ rs => (1 <=? k) && (k <=? Z.to_nat (prod (ranges_shape rs)))
  | ResizeList _ shape => (1 <=? k) && (k <=? Z.to_nat (prod shape))
  | _ => false
  end%nat.

(** does the command obtain memory? *)
Definition allocates (c : @command T) : bool :=
  match c with
  | NewDefault _ _ | NewList _ _ _ | NewRanges _ _ _ | NewCopy _ | NewFrom _ _ _ | Resize _ _ | ResizeList _ _ => true
  | _ => false
  end.

(** the library's contract for one command: when it may be called *)
Definition legal (st : state) (c : @command T) : Prop :=
  match c with
  | NewDefault n _ => (0 < n)%nat
  | NewList shape so aid => order_ok (length shape) so /\ layout_ok so (repeat 0 (length shape)) shape
  | NewRanges rs so aid => order_ok (length rs) so /\ layout_ok so (ranges_bases rs) (ranges_shape rs)
  | NewCopy x | NewRefOf x | Destroy x | Fill x _ => exists a, array_is st x a
  | NewAlias h => exists n, named_is st h n
  | NewFrom e so _ => exists p, denotes st e p /\ order_ok (length (pl_shape p)) so /\ layout_ok so (pl_bases p) (pl_shape p)
  | NewView e subs => exists p, denotes st (View_of e subs) p
  | NewRefList x off shape so => exists a, array_is st x a /\ 0 <= off /\ order_ok (length shape) so /\
      layout_ok so (repeat 0 (length shape)) shape /\ off + prod shape <= prod (a_shape a)
  | NewRefRanges x off rs so => exists a, array_is st x a /\ 0 <= off /\ order_ok (length rs) so /\
      layout_ok so (ranges_bases rs) (ranges_shape rs) /\ off + prod (ranges_shape rs) <= prod (a_shape a)
  | Assign dst src | CopyArray dst src =>
      exists pd ps, denotes st dst pd /\ denotes st src ps /\ pl_shape pd = pl_shape ps
  | AssignVar x y => exists a b, array_is st x a /\ array_is st y b /\ a_shape a = a_shape b
  | Get e i | Set_ e i _ | GetB e i | SetB e i _ => exists p, denotes st e p /\ in_bounds (pl_bases p) (pl_shape p) i
  | FillRef h _ => exists x off bases shape so, named_is st h (ARef x off bases shape so)
  | ForEach e _ | Ask _ e => exists p, denotes st e p
  | Reindex x bases => exists a, array_is st x a /\ length bases = length (a_shape a) /\
      layout_ok (a_order a) bases (a_shape a)
  | ReindexAll x b => exists a, array_is st x a /\ layout_ok (a_order a) (repeat b (length (a_shape a))) (a_shape a)
  | Reshape x shape => exists a, array_is st x a /\ length shape = length (a_shape a) /\
      layout_ok (a_order a) (a_bases a) shape /\ prod shape = prod (a_shape a)
  | ReindexNamed h bases =>
      (exists p, named_is st h (AView p) /\ addressable bases (pl_shape p) (pl_strides p)) \/
      (exists x off bases0 shape so, named_is st h (ARef x off bases0 shape so) /\ layout_ok so bases shape)
  | ReindexNamedAll h b =>
      (exists p, named_is st h (AView p) /\ addressable (repeat b (length (pl_shape p))) (pl_shape p) (pl_strides p)) \/
      (exists x off bases0 shape so, named_is st h (ARef x off bases0 shape so) /\ layout_ok so (repeat b (length shape)) shape)
  | ReshapeRef h shape => exists x off bases shape0 so, named_is st h (ARef x off bases shape0 so) /\
      length shape = length shape0 /\ layout_ok so bases shape /\ prod shape = prod shape0
  | Resize x rs => exists a, array_is st x a /\ length rs = length (a_shape a) /\
      layout_ok (a_order a) (ranges_bases rs) (ranges_shape rs)
  | ResizeList x shape => exists a, array_is st x a /\ length shape = length (a_shape a) /\
      layout_ok (a_order a) (repeat 0 (length shape)) shape
  | Compare _ e1 e2 =>
      exists p1 p2, denotes st e1 p1 /\ denotes st e2 p2 /\ length (pl_shape p1) = length (pl_shape p2)
  end.

(** a program that keeps to the contract whatever happened before, including the
    exceptions that ended earlier commands *)
Fixpoint always_legal (st : state) (p : list (@command T * option nat)) : Prop :=
  match p with
  | [] => True
  | (c, f) :: rest =>
      legal st c /\
      (forall o st', step st c o st' -> always_legal st' rest) /\
      (forall k st', f = Some k -> interrupted st k c st' -> always_legal st' rest)
  end.

(** what such a program may do *)
Inductive attempts (st : state) : list (@command T * option nat) -> list (option (@output T)) -> state -> Prop :=
| at_nil : attempts st [] [] st
| at_done : forall c f rest o os st1 st2, step st c o st1 -> attempts st1 rest os st2 ->
    attempts st ((c, f) :: rest) (Some o :: os) st2
| at_thrown : forall c k rest os st1 st2, interrupted st k c st1 -> attempts st1 rest os st2 ->
    attempts st ((c, Some k) :: rest) (None :: os) st2.

(** the number of blocks a program loses *)
Fixpoint blocks_lost (p : list (@command T * option nat)) (os : list (option (@output T))) : nat :=
  match p, os with
  | (c, Some k) :: p', None :: os' => (if loses k c then 1 else 0) + blocks_lost p' os'
  | _ :: p', _ :: os' => blocks_lost p' os'
  | _, _ => 0
  end.

(** the commands that end the life of the elements of variable x *)
Definition ends (x : nat) (c : @command T) : Prop :=
  match c with Destroy y | Resize y _ | ResizeList y _ => y = x | _ => False end.
(** the commands that change what name k means *)
Definition regeometrizes (k : nat) (c : @command T) : Prop :=
  match c with ReindexNamed j _ | ReindexNamedAll j _ | ReshapeRef j _ => j = k | _ => False end.

(** the variables of a program are in the state the abstract machine says: same
    declared and destroyed variables, geometry, storage order, allocator, and the
    same value at every index; and so are the named views and refs whose array is
    still there *)
Definition agrees (st : state) (en : env) (h : heap T) : Prop :=
  length (e_vars en) = length (s_arrays st) /\ length (e_handles en) = length (s_named st) /\
  (forall x, match nth_error (s_arrays st) x with
    | None => nth_error (e_vars en) x = None
    | Some None => nth_error (e_vars en) x = Some None
    | Some (Some a) =>
        exists m, nth_error (e_vars en) x = Some (Some m) /\
          cr_ext (ma_ref m) = a_shape a /\ cr_ib (ma_ref m) = a_bases a /\
          cr_storage (ma_ref m) = a_order a /\ ma_aid m = a_alloc a /\
          cr_num_elements (ma_ref m) = prod (a_shape a) /\
          forall i v, in_bounds (a_bases a) (a_shape a) i ->
            (reads h (cr_nd (ma_ref m)) i v <-> holds a i v)
    end) /\
  (forall k n, named_is st k n ->
     exists d, nth_error (e_handles en) k = Some d /\
       let a := obj_nd (handle_obj d) in
       nd_base a = pl_bases (place_of n) /\ nd_ext a = pl_shape (place_of n) /\
       forall i v, in_bounds (nd_base a) (nd_ext a) i -> (reads h a i v <-> look st (place_of n) i v)).

(** memory: every live variable owns a block of its own, obtained from its own
    allocator, of exactly num_elements() constructed elements, which is also what
    it will give back *)
Definition memory_ok (en : env) (h : heap T) : Prop :=
  (forall x m, nth_error (e_vars en) x = Some (Some m) ->
     ma_alloc_elems m = cr_num_elements (ma_ref m) /\ cr_data (ma_ref m) = Ptr (ma_block m) 0 /\
     exists vs, Z.of_nat (length vs) = cr_num_elements (ma_ref m) /\
       nth_error h (ma_block m) = Some (Some (Block (ma_aid m) (map Some vs)))) /\
  (forall x y m m', nth_error (e_vars en) x = Some (Some m) -> nth_error (e_vars en) y = Some (Some m') -> x <> y ->
     ma_block m <> ma_block m').

End HistorySpec.
