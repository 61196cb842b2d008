(** Shared.v -- several threads working on shared array objects, also changing
    their geometry.

    Threads.v lets threads interleave on the elements of arrays whose geometry is
    fixed.  Here the arrays are objects shared by the threads: the multi_array
    variables, named views and refs, and kept subarrays and iterators of Stored.v.
    A thread makes its calls in order.  A call first evaluates its operands and, if
    it is one of reindex, reshape and it += n, changes the members of its object;
    then it accesses elements one by one as in Threads.v.  The scheduler may switch
    between any two of these steps.  The C++ code looks at the members of its
    operands throughout the call, and may change members at any time in it; the model
    does both when the call begins, remembers the call until it has ended
    ([wk_now]), and SharedSpec.object_race counts a call that changes members of an
    object, begun or about to begin, as racing with every call of another thread,
    begun or about to begin, that looks at them or changes them.
    (Simplification: calls that construct, resize or destroy objects are not among
    the calls of a thread here; temporary views and subarrays are.) *)

From Verif Require Import Base StorageOrder Ranges Layout Access Objects Memory Ops MultiArray History Stored Threads.

(** an object of the program *)
Inductive thing := TheVar (x : nat) | TheName (h : nat) | TheKept (k : nat).

(** the objects whose members e is computed from: a kept subarray or iterator
    looks at the lists of its parent (subarray.hpp:186-189, iterator.hpp:83-87), a
    view or ref has members of its own (view.hpp:277-283, multi_array_ref.hpp:441-448) *)
Definition parent_thing (p : parent) : list thing :=
  match p with PVar x => [TheVar x] | PNamed h => [TheName h] | PGone => [] end.
Definition kept_things (ke : kenv) (k : nat) : list thing :=
  TheKept k :: match nth_error (ke_kept ke) k with Some o => parent_thing (k_parent o) | None => [] end.
Fixpoint things_of (ke : kenv) (e : kexpr) : list thing :=
  match e with
  | XVar x => [TheVar x]
  | XNamed h => [TheName h]
  | XKept k | XDeref k | XIndex k _ => kept_things ke k
  | XSub e _ | XView e _ | XRow e _ | XRev_row e _ => things_of ke e
  end.

Section Shared.
Context {T : Type}.
Variable eqT : T -> T -> bool.
Variable ltT : T -> T -> bool.

(** the objects whose members a call looks at *)
Definition looks_at (ke : kenv) (c : @kcommand T) : list thing :=
  match c with
  | XDo (Fill x _) | XDo (Reindex x _) | XDo (ReindexAll x _) | XDo (Reshape x _) => [TheVar x]
  | XDo (AssignVar x y) => [TheVar x; TheVar y]
  | XDo (FillRef h _) | XDo (ReindexNamed h _) | XDo (ReindexNamedAll h _) | XDo (ReshapeRef h _) => [TheName h]
  | XMove k _ | XRead k | XWrite k _ => kept_things ke k
  | XSame j k | XDistance j k => kept_things ke j ++ kept_things ke k
  | XAssign d s | XCopyArray d s => things_of ke d ++ things_of ke s
  | XGet e _ | XSet e _ _ | XGetB e _ | XSetB e _ _ | XForEach e _ | XAsk _ e => things_of ke e
  | XCompare _ a b => things_of ke a ++ things_of ke b
  | _ => []
  end.
(** the object whose members a call changes *)
Definition changes (c : @kcommand T) : list thing :=
  match c with
  | XDo (Reindex x _) | XDo (ReindexAll x _) | XDo (Reshape x _) => [TheVar x]
  | XDo (ReindexNamed h _) | XDo (ReindexNamedAll h _) | XDo (ReshapeRef h _) => [TheName h]
  | XMove k _ => [TheKept k]
  | _ => []
  end.

Notation output := (@output T).
(** a call that only changes members *)
Definition changing (ke : kenv) (o : outcome kenv) : kenv * prog T output :=
  match o with Ok ke' => (ke', PRet ONone) | Abort => (ke, PAbort) | UB => (ke, PUndef) end.
Definition silent (m : prog T unit) : prog T output := pbind m (fun _ => PRet ONone).

(** the six comparisons (History.compare) *)
Definition p_compare (op : comparison) (chk : bool) (a b : nd) : prog T bool :=
  let n := length (nd_ext a) in
  match op with
  | CEq => p_nd_eq eqT chk n a b
  | CNe => pbind (p_nd_eq eqT chk n a b) (fun r => PRet (negb r))
  | CLt => p_nd_lt ltT chk n a b
  | CGt => p_nd_lt ltT chk n b a
  | CLe => pbind (p_nd_lt ltT chk n b a) (fun r => PRet (negb r))
  | CGe => pbind (p_nd_lt ltT chk n a b) (fun r => PRet (negb r))
  end.

(** how a call goes: the members it sets at its beginning, and its accesses to
    elements.  None: not a call of a thread here ([XDo] of a call on expressions is
    written with the X call; constructions, resize and destruction) *)
Definition plan (chk : bool) (ke : kenv) (c : @kcommand T) : option (kenv * prog T output) :=
  let en := ke_env ke in
  match c with
  (* Stored.kexec, History.exec *)
  | XDo (Fill x l) => Some (ke, pbind (plift (var en x)) (fun a => silent (p_assign (ma_ref a) l)))
  | XDo (FillRef h l) =>
      Some (ke, pbind (plift (named en h)) (fun d =>
                match d with HRef c => silent (p_assign c l) | HView _ => PUndef end))
  | XDo (AssignVar x y) =>
      Some (ke, pbind (plift (var en x)) (fun a => pbind (plift (var en y)) (fun b =>
                silent (if Nat.eqb x y then PRet tt
                        else p_assign_nd chk (length (cr_ext (ma_ref a))) (cr_nd (ma_ref a)) (cr_nd (ma_ref b))))))
  | XDo (Reindex x bases) =>
      Some (changing ke (a <- var en x ;; a' <- ma_reindex a bases ;; Ok (with_env ke (update en x a'))))
  | XDo (ReindexAll x b) =>
      Some (changing ke (a <- var en x ;; a' <- ma_reindex1 a b ;; Ok (with_env ke (update en x a'))))
  | XDo (Reshape x shape) =>
      Some (changing ke (a <- var en x ;; a' <- ma_reshape chk a shape ;; Ok (with_env ke (update en x a'))))
  | XDo (ReindexNamed h bases) =>
      Some (changing ke (d <- named en h ;;
        match d with
        | HRef c => c' <- cr_reindex c bases ;; Ok (with_env ke (rename en h (HRef c')))
        | HView v => v' <- v_reindex v bases ;; Ok (with_env ke (rename en h (HView v')))
        end))
  | XDo (ReindexNamedAll h b) =>
      Some (changing ke (d <- named en h ;;
        match d with
        | HRef c => c' <- cr_reindex1 c b ;; Ok (with_env ke (rename en h (HRef c')))
        | HView v => v' <- v_reindex1 v b ;; Ok (with_env ke (rename en h (HView v')))
        end))
  | XDo (ReshapeRef h shape) =>
      Some (changing ke (d <- named en h ;;
        match d with
        | HRef c => c' <- cr_reshape chk c shape ;; Ok (with_env ke (rename en h (HRef c')))
        | HView _ => UB
        end))
  | XMove k n =>
      Some (changing ke (o <- kept_at ke k ;; a <- kept_nd en o ;; s <- moved_kind a (k_kind o) n ;;
        Ok (KEnv en (set_nth k (Kept (k_parent o) (k_depth o) (k_base o) s) (ke_kept ke)))))
  | XSame j k =>
      Some (ke, pbind (plift (o <- kept_at ke j ;; a <- kept_nd en o ;; p <- kept_at ke k ;; b <- kept_nd en p ;;
        match k_kind o, k_kind p with
        | IsIter m, IsIter n => Ok (it_equal (iter_of a m) (iter_of b n))
        | IsRev m, IsRev n => Ok (ri_equal (RIter (iter_of a m)) (RIter (iter_of b n)))
        | _, _ => UB
        end)) (fun r => PRet (OBool r)))
  | XDistance j k =>
      Some (ke, pbind (plift (o <- kept_at ke j ;; a <- kept_nd en o ;; p <- kept_at ke k ;; b <- kept_nd en p ;;
        match k_kind o, k_kind p with
        | IsIter m, IsIter n => it_distance (iter_of a m) (iter_of b n)
        | IsRev m, IsRev n => ri_distance (RIter (iter_of a m)) (RIter (iter_of b n))
        | _, _ => UB
        end)) (fun d => PRet (OInt d)))
  | XRead k =>
      Some (ke, pbind (plift (o <- kept_at ke k ;; a <- kept_nd en o ;; pointee chk a (k_kind o)))
        (fun p => PLoad p (fun v => PRet (OVal v))))
  | XWrite k v =>
      Some (ke, pbind (plift (o <- kept_at ke k ;; a <- kept_nd en o ;; pointee chk a (k_kind o)))
        (fun p => PStore p v (PRet ONone)))
  | XAssign dst src =>
      Some (ke, pbind (plift (keval_nd chk ke src)) (fun s => pbind (plift (keval_nd chk ke dst)) (fun d =>
                silent (p_assign_nd chk (length (nd_ext d)) d s))))
  | XCopyArray dst src =>
      Some (ke, pbind (plift (keval_nd chk ke src)) (fun s => pbind (plift (keval_nd chk ke dst)) (fun d =>
                silent (p_copy_array chk (length (nd_ext d)) d s))))
  | XGet e i =>
      Some (ke, pbind (plift (keval_nd chk ke e)) (fun a => pbind (p_get_element chk a i) (fun v => PRet (OVal v))))
  | XSet e i v => Some (ke, pbind (plift (keval_nd chk ke e)) (fun a => silent (p_set_element chk a i v)))
  | XGetB e i =>
      Some (ke, pbind (plift (keval_nd chk ke e)) (fun a => pbind (p_get_bracket chk a i) (fun v => PRet (OVal v))))
  | XSetB e i v => Some (ke, pbind (plift (keval_nd chk ke e)) (fun a => silent (p_set_bracket chk a i v)))
  | XForEach e f =>
      Some (ke, pbind (plift (keval_nd chk ke e)) (fun a => silent (p_for_each chk f (length (nd_ext a)) a)))
  | XCompare op a b =>
      Some (ke, pbind (plift (keval_nd chk ke a)) (fun x => pbind (plift (keval_nd chk ke b)) (fun y =>
                pbind (p_compare op chk x y) (fun r => PRet (OBool r)))))
  | XAsk q e => Some (ke, plift (o <- keval chk ke e ;; answer q o))
  | _ => None
  end.

(** a thread: the answers so far; the call it is in, if any, with what that call
    has still to do; the calls to come *)
Record worker := Worker {
  wk_outs : list output;
  wk_now : option (@kcommand T * prog T output);
  wk_todo : list (@kcommand T)
}.
Definition shared_state : Type := kenv * heap T * list worker.

Inductive sh_step (chk : bool) : shared_state -> shared_state -> Prop :=
| sh_begin : forall ke h pool i outs c todo ke' m,
    nth_error pool i = Some (Worker outs None (c :: todo)) ->
    plan chk ke c = Some (ke', m) ->
    sh_step chk (ke, h, pool) (ke', h, set_nth i (Worker outs (Some (c, m)) todo) pool)
| sh_load : forall ke h pool i outs c p k todo v,
    nth_error pool i = Some (Worker outs (Some (c, PLoad p k)) todo) -> hread h p = Ok v ->
    sh_step chk (ke, h, pool) (ke, h, set_nth i (Worker outs (Some (c, k v)) todo) pool)
| sh_store : forall ke h pool i outs c p v k todo h',
    nth_error pool i = Some (Worker outs (Some (c, PStore p v k)) todo) -> hwrite h p v = Ok h' ->
    sh_step chk (ke, h, pool) (ke, h', set_nth i (Worker outs (Some (c, k)) todo) pool)
| sh_end : forall ke h pool i outs c o todo,
    nth_error pool i = Some (Worker outs (Some (c, PRet o)) todo) ->
    sh_step chk (ke, h, pool) (ke, h, set_nth i (Worker (outs ++ [o]) None todo) pool).
Inductive sh_steps (chk : bool) : shared_state -> shared_state -> Prop :=
| shs_here : forall s, sh_steps chk s s
| shs_step : forall s s' s'', sh_step chk s s' -> sh_steps chk s' s'' -> sh_steps chk s s''.

(** a thread before it starts *)
Definition not_started (t : list (@kcommand T)) : worker := Worker [] None t.
End Shared.
Arguments worker : clear implicits.
